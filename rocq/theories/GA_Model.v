(** Model of optimization/populationbased/ga.py (GA) and evolution.py (Evolution).

    An individual is its parameter array (list of rationals).  The random outcomes of a generation
    are arguments: the two shuffles, the crossover points, the indices of the children sampled again
    and, for every child and coordinate, whether it is mutated and by how much.  Not modelled: the
    unused crossOverOld / mutatedOld / old_jpq_mutated, storeAllPopulations. *)
From Verif Require Import Base StableSort Opt_Model.
From Coq Require Import QArith Qround.
Local Open Scope nat_scope.

Definition indiv : Type := list Q.
Record ga : Type := {
  g_popSize : nat; g_top : Q;                            (* populationSize, topProportion *)
  g_elitism : bool; g_eliteProp : Q; g_eliteSize : option nat;   (* elitism, eliteProportion, _eliteSize *)
  g_tournament : bool;
  g_dim : nat;                                           (* numParameters *)
  g_bounds : option (list Q * list Q) }.                 (* mins, maxs when xBound is given *)
Record draws : Type := {
  d_shuffle1 : list indiv -> list indiv; d_shuffle2 : list indiv -> list indiv;
  d_point : nat -> nat; d_pick : nat -> nat; d_noise : nat -> nat -> option Q }.

(** int(x) for x >= 0 *)
Definition q_int (q : Q) : nat := Z.to_nat (Qfloor q).
(** ga.py:173-176 selectionSize *)
Definition selectionSize (g : ga) : nat := q_int (inject_Z (Z.of_nat (g_popSize g)) * g_top g)%Q.
(** ga.py:178-186 eliteSize *)
Definition eliteSize (g : ga) : nat :=
  if g_elitism g then match g_eliteSize g with Some n => n | None => q_int (inject_Z (Z.of_nat (g_popSize g)) * g_eliteProp g)%Q end else 0.
(** ga.py:188-199 select *)
Definition fit_leb (a b : Q * indiv) : bool := Qle_bool (fst a) (fst b).
Definition select (g : ga) (fits : list Q) (pop : list indiv) : result (list indiv) :=
  if g_tournament g then Err NotImplementedError
  else let tmp := isort fit_leb (combine fits pop) in
       Ok (map snd (firstn (selectionSize g) (rev tmp))).

(** ga.py:104-114 the two children of a pair *)
Definition cross (g : ga) (p1 p2 : indiv) (choice : nat) : list indiv :=
  if g_dim g <? 2 then [p1; p2]
  else let point := choice + 1 in
       [firstn point p1 ++ skipn point p2; firstn point p2 ++ skipn point p1].
(** ga.py:119-120 while len(children) < nbChildren: children += sample(children, 1) *)
Fixpoint refill (n : nat) (pick : nat -> nat) (children : list indiv) : result (list indiv) :=
  match n with
  | O => Ok children
  | S n' => match nth_error children (pick n mod length children) with
            | Some c => refill n' pick (children ++ [c])
            | None => Err ValueError                     (* sample from an empty list *)
            end
  end.
(** ga.py:91-121 crossOver *)
Definition crossOver (g : ga) (d : draws) (parents : list indiv) (nbChildren : nat) : result (list indiv) :=
  let ps := d_shuffle1 d parents in
  let half := length ps / 2 in
  let children := d_shuffle2 d (flat_map (fun i => cross g (nth i ps []) (nth (i + half) ps []) (d_point d i)) (seq 0 half)) in
  if nbChildren <? length children then Ok (firstn nbChildren children)
  else refill (nbChildren - length children) (d_pick d) children.

Definition pymin (a b : Q) : Q := if Qle_bool a b then a else b.
Definition pymax (a b : Q) : Q := if Qle_bool b a then a else b.
(** ga.py:131-142 mutated *)
Definition mutate_gene (b : option (list Q * list Q)) (i : nat) (x noise : Q) : Q :=
  match b with
  | None => (x + noise)%Q
  | Some (mins, maxs) => pymax (pymin (x + noise)%Q (nth i maxs 0%Q)) (nth i mins 0%Q)
  end.
Fixpoint mutate_from (b : option (list Q * list Q)) (noise : nat -> option Q) (i : nat) (l : indiv) : indiv :=
  match l with
  | [] => []
  | x :: l' => (match noise i with Some q => mutate_gene b i x q | None => x end) :: mutate_from b noise (S i) l'
  end.
Definition mutated (g : ga) (noise : nat -> option Q) (c : indiv) : indiv := mutate_from (g_bounds g) noise 0 c.

(** ga.py:201-212 produceOffspring *)
Definition elites (g : ga) : nat := Nat.min (eliteSize g) (selectionSize g).
Definition mutate_all (g : ga) (d : draws) (children : list indiv) : list indiv :=
  map (fun kc => mutated g (d_noise d (fst kc)) (snd kc)) (combine (seq 0 (length children)) children).
Definition produceOffspring (g : ga) (d : draws) (fits : list Q) (pop : list indiv) : result (list indiv) :=
  let! parents := select g fits pop in
  let es := elites g in
  let nb := if g_popSize g <=? es then length parents else g_popSize g - es in
  let! children := crossOver g d parents nb in
  Ok (firstn es parents ++ mutate_all g d children).

(** ga.py:41-62 initPopulation; start is _initEvaluable, rnd k the k-th vector of rd.random or of randn scaled *)
Definition vadd (a b : list Q) : list Q := map (fun xy => fst xy + snd xy)%Q (combine a b).
Definition place (mins maxs u : list Q) : indiv :=
  vadd (map (fun xy => fst xy * snd xy)%Q (combine u (map (fun xy => fst xy - snd xy)%Q (combine maxs mins)))) mins.
Definition initPopulation (g : ga) (start : indiv) (rnd : nat -> list Q) : list indiv :=
  start :: map (fun k => match g_bounds g with
                         | None => vadd start (rnd k)
                         | Some (mins, maxs) => place mins maxs (rnd k)
                         end) (seq 0 (g_popSize g - 1)).

(** evolution.py:22-27 _learnStep; the state is the number of the generation and the population *)
Definition ga_step (g : ga) (rnd : nat -> draws) (s : nat * list indiv) (o : opt indiv) : prog indiv (nat * list indiv) :=
  evaluate_all (snd s) (fun fits => match produceOffspring g (rnd (fst s)) fits (snd s) with
                                    | Ok pop => Ret (S (fst s), pop)
                                    | Err e => Fail e
                                    end).
