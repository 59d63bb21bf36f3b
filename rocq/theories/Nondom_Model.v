(** Model of tools/nondominated.py and of the NSGA-II selection
    (optimization/populationbased/multiobjective/nsga2.py, constnsga2.py).

    Items are elements of a type with decidable equality (tuples in pybrain), keys are
    vectors of integers: only the order of the objective values matters, except in the
    crowding distance, whose quotients are exact rationals here.  Python sets are lists
    without duplicates; wherever a set is iterated or turned into a list, [ord] (an argument,
    any permutation in the theorems) gives the order.  [py3] says whether / on two ints is
    Python 3's true division. *)
From Coq Require Import QArith.
From Verif Require Import Base StableSort.
Local Open Scope nat_scope.

(** a[k] for a key vector; a missing position is 0, excluded by the theorems *)
Definition kth (a : list Z) (k : nat) : Z := nth k a 0%Z.

Section Loop.
Context {X : Type} (eq_dec : forall x y : X, {x = y} + {x <> y}).
Definition mem (x : X) (l : list X) : bool := if in_dec eq_dec x l then true else false.
Definition set_add (x : X) (l : list X) : list X := if in_dec eq_dec x l then l else l ++ [x].
Definition set_remove (x : X) (l : list X) : list X := filter (fun y => if eq_dec y x then false else true) l.
Definition set_minus (l r : list X) : list X := filter (fun y => negb (mem y r)) l.
Definition set_union (l r : list X) : list X := l ++ set_minus r l.
Definition to_set (l : list X) : list X := fold_left (fun s x => set_add x s) l [].

(** the loop shared by the implementations (nondominated.py:51-60, 91-100, 138-146,
    192-211): [dom j i] is the condition under which j removes i *)
Fixpoint front_inner (dom : X -> X -> bool) (i : X) (snapshot res : list X) : list X :=
  match snapshot with
  | [] => res
  | j :: t =>
      if eq_dec i j then front_inner dom i t res
      else if dom j i then set_remove i res
      else if dom i j then front_inner dom i t (set_remove j res)
      else front_inner dom i t res
  end.
Definition front_loop (ord : list X -> list X) (dom : X -> X -> bool) (items : list X) : list X :=
  fold_left (fun res i => let res' := set_add i res in front_inner dom i (ord res') res') items [].
End Loop.

Section Fronts.
Context {A : Type} (eq_dec : forall x y : A, {x = y} + {x <> y}).
Context (ord : list A -> list A) (ordn : list nat -> list nat) (py3 : bool).

(** nondominated.py:63-101 _non_dominated_front_fast; :28-60 _non_dominated_front_old differs
    only in how the domination table is stored *)
Definition dominations (key : A -> list Z) (allowequality : bool) (dim : nat) (items : list A) : list (A * A) :=
  flat_map (fun i => flat_map (fun j =>
    if forallb (fun k => if allowequality then negb (kth (key j) k <=? kth (key i) k)%Z else negb (kth (key j) k <? kth (key i) k)%Z) (seq 0 dim)
    then [(i, j)] else []) items) items.
Definition pair_mem (p : A * A) (l : list (A * A)) : bool :=
  existsb (fun q => (if eq_dec (fst p) (fst q) then true else false) && (if eq_dec (snd p) (snd q) then true else false)) l.
Definition front_fast (key : A -> list Z) (allowequality : bool) (items : list A) : result (list A) :=
  match items with
  | [] => Err IndexError                       (* list(keys.values())[0] *)
  | i0 :: _ =>
      let d := dominations key allowequality (length (key i0)) items in
      Ok (front_loop eq_dec ord (fun j i => pair_mem (j, i) d) (ord (to_set eq_dec items)))
  end.

(** nondominated.py:119-147 _non_dominated_front_arr: a[p,q] is x[q], b[p,q] is x[p] *)
Definition ndom (allowequality : bool) (dim : nat) (x : list (list Z)) (p q : nat) : bool :=
  existsb (fun k => if allowequality then (kth (nth q x []) k <=? kth (nth p x []) k)%Z else (kth (nth q x []) k <? kth (nth p x []) k)%Z) (seq 0 dim).
Definition front_arr (key : A -> list Z) (allowequality : bool) (items : list A) : result (list A) :=
  let x := map key items in
  let dim := length (hd [] x) in
  let res := front_loop Nat.eq_dec ordn (fun j i => negb (ndom allowequality dim x j i)) (seq 0 (length items)) in
  Ok (to_set eq_dec (flat_map (fun i => match nth_error items i with Some a => [a] | None => [] end) (ordn res))).

(** nondominated.py:104-116 (limit 20, //) and :150-161 (limit 100, /) *)
Fixpoint front_merge (limit : nat) (truediv : bool) (base : list A -> result (list A)) (fuel : nat) (items : list A) : result (list A) :=
  match fuel with
  | 0 => Err OutOfFuel
  | S fuel' =>
      let l := length items in
      if limit <? l then
        if truediv then Err TypeError           (* items[:l / 2] with a float *)
        else
          let! part1 := front_merge limit truediv base fuel' (firstn (l / 2) items) in
          let! part2 := front_merge limit truediv base fuel' (skipn (l / 2) items) in
          let parts := ord part1 ++ ord part2 in
          if (l / 3 <=? length part1) || (l / 3 <=? length part2) then base parts
          else front_merge limit truediv base fuel' parts
      else base items
  end.
Definition non_dominated_front_merge (key : A -> list Z) (allowequality : bool) (items : list A) : result (list A) :=
  front_merge 20 false (front_fast key allowequality) (S (length items)) items.
(** non_dominated_front = _non_dominated_front_merge_arr *)
Definition non_dominated_front (key : A -> list Z) (allowequality : bool) (items : list A) : result (list A) :=
  front_merge 100 py3 (front_arr key allowequality) (S (length items)) items.

(** nondominated.py:166-175 and :222-234 *)
Fixpoint sort_fronts (front : list A -> result (list A)) (fuel : nat) (items : list A) : result (list (list A)) :=
  match items with
  | [] => Ok []
  | _ =>
      match fuel with
      | 0 => Err OutOfFuel
      | S fuel' =>
          let! f := front (ord items) in
          let! fs := sort_fronts front fuel' (set_minus eq_dec items f) in
          Ok (f :: fs)
      end
  end.
Definition non_dominated_sort (key : A -> list Z) (allowequality : bool) (items : list A) : result (list (list A)) :=
  let s := to_set eq_dec items in sort_fronts (non_dominated_front key allowequality) (length s) s.

(** nondominated.py:8-25; distances as a function with default 0 *)
Definition dset (d : A -> Q) (x : A) (v : Q) : A -> Q := fun y => if eq_dec y x then v else d y.
Definition big : Q := inject_Z (10 ^ 100).
Fixpoint triples (l : list A) : list (A * A * A) :=
  match l with
  | a :: ((b :: c :: _) as t) => (a, b, c) :: triples t
  | _ => []
  end.
Definition crowd_obj (fitnesses : A -> list Z) (i : nat) (st : result (list A * (A -> Q))) : result (list A * (A -> Q)) :=
  let! st := st in
  let inds := isort (fun x y => (kth (fitnesses x) i <=? kth (fitnesses y) i)%Z) (fst st) in
  match inds with
  | [] => Err IndexError
  | first :: _ =>
      let lst := last inds first in
      let norm := (kth (fitnesses first) i - kth (fitnesses lst) i)%Z in
      let d0 := dset (dset (snd st) first big) lst big in
      if (norm =? 0)%Z && negb (match triples inds with [] => true | _ => false end) then Err ZeroDivisionError
      else Ok (inds, fold_left (fun d t => let '(pre, ind, post) := t in
                 dset d ind (d ind + inject_Z (kth (fitnesses pre) i - kth (fitnesses post) i) / inject_Z norm)%Q) (triples inds) d0)
  end.
Definition crowding_distance (individuals : list A) (fitnesses : A -> list Z) : result (A -> Q) :=
  match individuals with
  | [] => Err IndexError
  | i0 :: _ =>
      let! st := fold_left (fun st i => crowd_obj fitnesses i st) (seq 0 (length (fitnesses i0))) (Ok (individuals, fun _ => 0%Q)) in
      Ok (snd st)
  end.

(** nsga2.py:64-86; [cut front] is the front sorted by decreasing crowding distance *)
Fixpoint select_fronts (cut : list A -> result (list A)) (survivors : Z) (fronts : list (list A)) (individuals : list A) : result (list A) :=
  match fronts with
  | [] => Ok individuals
  | front :: t =>
      let remaining := (survivors - Z.of_nat (length individuals))%Z in
      if (0 <? remaining)%Z then
        if (remaining <? Z.of_nat (length front))%Z then
          let! sorted := cut front in
          select_fronts cut survivors t (set_union eq_dec individuals (firstn (Z.to_nat remaining) sorted))
        else select_fronts cut survivors t (set_union eq_dec individuals front)
      else Ok individuals
  end.
Definition crowd_cut (fitnesses : A -> list Z) (front : list A) : result (list A) :=
  let! d := crowding_distance (ord front) fitnesses in
  Ok (isort (fun x y => Qle_bool (d y) (d x)) (ord front)).
Definition nsga2select (population : list A) (fitnesses : A -> list Z) (survivors : Z) (allowequality : bool) : result (list A) :=
  let! fronts := non_dominated_sort fitnesses allowequality population in
  let! ind := select_fronts (crowd_cut fitnesses) survivors fronts [] in
  Ok (ord ind).

(** constnsga2.py / nondominated.py:180-219: fitness, feasibility and constraint values.
    [cviol] is abs(sum(c)). *)
Definition sumz (l : list Z) : Z := fold_right Z.add 0%Z l.
Definition const_dom (allowequality : bool) (dim : nat) (fits : list (list Z * bool * list Z)) (j i : nat) : bool :=
  let x := map (fun f => fst (fst f)) fits in
  let v := fun p => snd (fst (nth p fits ([], false, []))) in
  let c := fun p => snd (nth p fits ([], false, [])) in
  if negb (ndom allowequality dim x j i) && v j && v i then true
  else if negb (ndom allowequality dim x i j) && v j && v i then false
  else if v j && negb (v i) then true
  else if v i && negb (v j) then false
  else if negb (v i) && negb (v j) then negb (Z.abs (sumz (c i)) <? Z.abs (sumz (c j)))%Z
  else false.
Definition const_front_arr (key : A -> list Z * bool * list Z) (allowequality : bool) (items : list A) : result (list A) :=
  let fits := map key items in
  let dim := length (fst (fst (hd ([], false, []) fits))) in
  let res := front_loop Nat.eq_dec ordn (const_dom allowequality dim fits) (seq 0 (length items)) in
  Ok (to_set eq_dec (flat_map (fun i => match nth_error items i with Some a => [a] | None => [] end) (ordn res))).
Definition const_non_dominated_front (key : A -> list Z * bool * list Z) (allowequality : bool) (items : list A) : result (list A) :=
  front_merge 100 false (const_front_arr key allowequality) (S (length items)) items.
Definition const_non_dominated_sort (key : A -> list Z * bool * list Z) (allowequality : bool) (items : list A) : result (list (list A)) :=
  let s := to_set eq_dec items in sort_fronts (const_non_dominated_front key allowequality) (length s) s.
End Fronts.
