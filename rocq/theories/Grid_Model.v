(** Model of tools/gridsearch.py: GridSearch2D and GridSearchDOE.

    Performances are integers or rationals (only compared); [_validate] is a function of the
    parameters.  The job order compares i/nr_c with j/nr_g in floats: [before i j] is that
    comparison, exact in [exact_before] and an argument elsewhere. *)
From Coq Require Import QArith.
From Verif Require Import Base.
Local Open Scope nat_scope.

Section Grid2D.
Context {A : Type}.

(** gridsearch.py:128-143 _permuteSequence *)
Fixpoint interleave (l r : list A) : list A :=
  match l, r with
  | [], r => r
  | l, [] => l
  | a :: l', b :: r' => a :: b :: interleave l' r'
  end.
Fixpoint permute_fuel (fuel : nat) (s : list A) : result (list A) :=
  match fuel with
  | 0 => Err OutOfFuel
  | S fuel' =>
      let n := length s in
      if n <=? 1 then Ok s
      else
        let mid := n / 2 in
        let! left := permute_fuel fuel' (firstn mid s) in
        let! right := permute_fuel fuel' (skipn (mid + 1) s) in
        match nth_error s mid with
        | Some x => Ok (x :: interleave left right)
        | None => Err IndexError
        end
  end.
Definition permuteSequence (s : list A) : result (list A) := permute_fuel (S (length s)) s.

(** gridsearch.py:109-124: the loop of _calculateJobs; zero divisors raise ZeroDivisionError *)
Definition exact_before (nc ng i j : nat) : bool := i * ng <? j * nc.
Definition gets {X} (l : list X) (ks : list nat) : result (list X) :=
  fold_right (fun k r => let! r := r in match nth_error l k with Some x => Ok (x :: r) | None => Err IndexError end) (Ok []) ks.
Fixpoint jobs_loop (before : nat -> nat -> bool) (xs ys : list A) (fuel i j : nat) : result (list (list (A * A))) :=
  let nc := length xs in let ng := length ys in
  if (i <? nc) || (j <? ng) then
    match fuel with
    | 0 => Err OutOfFuel
    | S fuel' =>
        if (nc =? 0) || (ng =? 0) then Err ZeroDivisionError
        else if before i j then
          let! line := gets ys (seq 0 j) in
          let! line := fold_right (fun y r => let! r := r in match nth_error xs i with Some x => Ok ((x, y) :: r) | None => Err IndexError end) (Ok []) line in
          let! rest := jobs_loop before xs ys fuel' (S i) j in
          Ok (line :: rest)
        else
          let! line := gets xs (seq 0 i) in
          let! line := fold_right (fun x r => let! r := r in match nth_error ys j with Some y => Ok ((x, y) :: r) | None => Err IndexError end) (Ok []) line in
          let! rest := jobs_loop before xs ys fuel' i (S j) in
          Ok (line :: rest)
    end
  else Ok [].
(** gridsearch.py:94-124 _calculateJobs, from the two linspaces *)
Definition calculateJobs (before : nat -> nat -> bool) (xs ys : list A) : result (list (list (A * A))) :=
  let! xs := permuteSequence xs in
  let! ys := permuteSequence ys in
  jobs_loop before xs ys (length xs + length ys) 0 0.

(** a dictionary keyed by parameter pairs *)
Context (eq_dec : forall a b : A * A, {a = b} + {a <> b}).
Fixpoint pset (k : A * A) (v : Z) (d : list ((A * A) * Z)) : list ((A * A) * Z) :=
  match d with
  | [] => [(k, v)]
  | (k', v') :: t => if eq_dec k k' then (k, v) :: t else (k', v') :: pset k v t
  end.
(** numpy argmax: first maximal position *)
Fixpoint argmax_go (best : nat) (bv : Z) (k : nat) (l : list Z) : nat :=
  match l with
  | [] => best
  | v :: t => if (bv <? v)%Z then argmax_go k v (S k) t else argmax_go best bv (S k) t
  end.
Definition zargmax (l : list Z) : result nat := match l with [] => Err ValueError | a :: t => Ok (argmax_go 0 a 1 t) end.
(** gridsearch.py:61-80 search *)
Definition search (before : nat -> nat -> bool) (validate : A * A -> Z) (xs ys : list A) : result ((A * A) * list ((A * A) * Z)) :=
  let! jobs := calculateJobs before xs ys in
  let perfs := fold_left (fun d p => pset p (validate p) d) (List.concat jobs) [] in
  let! k := zargmax (map snd perfs) in
  match nth_error perfs k with Some e => Ok (fst e, perfs) | None => Err IndexError end.
End Grid2D.

(** numpy.linspace *)
Definition linspace (lo hi : Q) (n : nat) : list Q :=
  match n with
  | 0 => []
  | 1 => [lo]
  | S (S m) => map (fun k => (lo + inject_Z (Z.of_nat k) * ((hi - lo) / inject_Z (Z.of_nat (S m))))%Q) (seq 0 n)
  end.

(** ** GridSearchDOE (gridsearch.py:148-252) *)
Definition h : Q := (1 # 2)%Q.
Definition doe_pat : list (Q * Q) :=
  [(-1, 1); (0, 1); (1, 1); (-h, h); (h, h); (-1, 0); (0, 0); (1, 0); (-h, -h); (h, -h); (-1, -1); (0, -1); (1, -1)]%Q.
Definition qmin_of (l : list Q) : Q := match l with [] => 0%Q | a :: t => fold_left (fun m x => if Qle_bool m x then m else x) t a end.
Definition qmax_of (l : list Q) : Q := match l with [] => 0%Q | a :: t => fold_left (fun m x => if Qle_bool x m then m else x) t a end.
Definition qltb (a b : Q) : bool := negb (Qle_bool b a).
(** one coordinate of _moveGridIntoBounds (:225-240): the second assignment wins *)
Definition translation (lo hi : Q) (col : list Q) : Q :=
  let t := if qltb (qmin_of col) lo then (lo - qmin_of col)%Q else 0%Q in
  if qltb hi (qmax_of col) then (hi - qmax_of col)%Q else t.
Definition move_into_bounds (lo hi : Q * Q) (grid : list (Q * Q)) : list (Q * Q) :=
  let t1 := translation (fst lo) (fst hi) (map fst grid) in
  let t2 := translation (snd lo) (snd hi) (map snd grid) in
  map (fun p => (fst p + t1, snd p + t2)%Q) grid.
(** _calcGrid (:210-223) *)
Definition pow2 (n : nat) : Q := inject_Z (2 ^ Z.of_nat n).
Definition calc_grid (lo hi center : Q * Q) (level : nat) : list (Q * Q) :=
  let s1 := ((fst hi - fst lo) / pow2 level / 2)%Q in
  let s2 := ((snd hi - snd lo) / pow2 level / 2)%Q in
  move_into_bounds lo hi (map (fun p => (fst p * s1 + fst center, snd p * s2 + snd center)%Q) doe_pat).
(** argmax over rationals *)
Fixpoint qargmax_go (best : nat) (bv : Q) (k : nat) (l : list Q) : nat :=
  match l with
  | [] => best
  | v :: t => if qltb bv v then qargmax_go k v (S k) t else qargmax_go best bv (S k) t
  end.
Definition qargmax (l : list Q) : nat := match l with [] => 0 | a :: t => qargmax_go 0 a 1 t end.
(** search (:182-200); returns the final centre and every point evaluated *)
Fixpoint doe_loop (lo hi : Q * Q) (validate : Q * Q -> Q) (level n : nat) (center : Q * Q) (seen : list (Q * Q)) : (Q * Q) * list (Q * Q) :=
  match n with
  | 0 => (center, seen)
  | S n' =>
      let grid := calc_grid lo hi center level in
      let best := nth (qargmax (map validate grid)) grid center in
      doe_loop lo hi validate (S level) n' best (seen ++ grid)
  end.
Definition doe_search (lo hi : Q * Q) (validate : Q * Q -> Q) (n_iterations : nat) : (Q * Q) * list (Q * Q) :=
  doe_loop lo hi validate 0 n_iterations (fst lo + (fst hi - fst lo) / 2, snd lo + (snd hi - snd lo) / 2)%Q [].
