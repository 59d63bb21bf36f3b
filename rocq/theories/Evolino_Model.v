(** Model of the populations of Evolino (supervised/evolino/gpopulation.py, population.py, individual.py) and of the operators on
    them (supervised/evolino/filter.py).

    A sub-individual is its identity (the counter of individual.py:43-44) with its genome; sets of objects are lists without
    repetition, in the order in which Python happens to iterate them.  Fitness values are exact, [None] is -Infinity.  The draws of
    randrange are a function from the number of the draw to a number, taken modulo the bound.  Evaluating a network is a function of
    the combination of sub-individuals; the mutation is a function of the number of the child and its genome. *)
From Verif Require Import Base Dict StableSort.
From Coq Require Import QArith.
Local Open Scope nat_scope.

Section Evolino.
Context {G : Type}.
Definition sub : Type := nat * G.
(** gpopulation.py:56-60 *)
Record pop := { members : list sub; fitness : dict (option Q) }.
Definition empty_pop : pop := {| members := []; fitness := [] |}.
(** gpopulation.py:65-71 *)
Definition addIndividual (p : pop) (x : sub) : pop :=
  {| members := if existsb (fun y => fst y =? fst x) (members p) then members p else members p ++ [x]; fitness := dset (fst x) None (fitness p) |}.
Definition addIndividuals (p : pop) (l : list sub) : pop := fold_left addIndividual l p.
(** gpopulation.py:74-84 *)
Definition removeIndividual (p : pop) (k : nat) : result pop :=
  match dget k (fitness p) with
  | None => Err KeyError
  | Some _ => Ok {| members := filter (fun y => negb (k =? fst y)) (members p); fitness := ddel k (fitness p) |}
  end.
Fixpoint removeIndividuals (p : pop) (ks : list nat) : result pop :=
  match ks with [] => Ok p | k :: t => let! p' := removeIndividual p k in removeIndividuals p' t end.
(** gpopulation.py:88-93 *)
Definition setFitness (p : pop) (k : nat) (f : Q) : pop := {| members := members p; fitness := dset k (Some f) (fitness p) |}.
Definition getFitness (p : pop) (k : nat) : result (option Q) := match dget k (fitness p) with None => Err KeyError | Some f => Ok f end.
(** gpopulation.py:96-99 *)
Definition clearFitness (p : pop) : pop := {| members := members p; fitness := map (fun e => (fst e, None)) (fitness p) |}.
(** -Infinity is below everything *)
Definition fle (a b : option Q) : bool := match a, b with None, _ => true | Some _, None => false | Some x, Some y => Qle_bool x y end.
Definition fit (p : pop) (k : nat) : option Q := match dget k (fitness p) with Some f => f | None => None end.
(** gpopulation.py:139-142 *)
Definition getSortedIndividualList (p : pop) : list nat := isort (fun a b => fle (fit p b) (fit p a)) (dkeys (fitness p)).
(** gpopulation.py:119-120, 128: [:n] and [-n:] for n >= 0; [-0:] is the whole list *)
Definition getBestIndividualsSorted (p : pop) (n : nat) : list nat := firstn n (getSortedIndividualList p).
Definition getWorstIndividuals (p : pop) (n : nat) : list nat :=
  let s := getSortedIndividualList p in if n =? 0 then s else skipn (length s - n) s.
(** gpopulation.py:130-136 *)
Definition removeWorstIndividuals (p : pop) (n : nat) : result pop := removeIndividuals p (getWorstIndividuals p n).
Definition getIndividualsN (p : pop) : nat := length (members p).

(** filter.py:221-234; a negative nParents fails the first assertion *)
Definition subSelection (nParents : option nat) (p : pop) : result pop :=
  let n := getIndividualsN p in
  let nKeep := match nParents with None => n / 4 | Some k => k end in
  if n <? nKeep then Err AssertionError else removeWorstIndividuals p (n - nKeep).

(** filter.py:272-276: the parents of the children; the loop is given the number of rounds it may take *)
Fixpoint one_round (free : nat) (best children : list nat) : list nat :=
  match best with
  | [] => children
  | b :: t => let c := children ++ [b] in if free <=? length c then c else one_round free t c
  end.
Fixpoint breed (fuel free : nat) (best children : list nat) : result (list nat) :=
  if free <=? length children then Ok children
  else match fuel with 0 => Err OutOfFuel | S k => breed k free best (one_round free best children) end.
Definition genome_of (p : pop) (k : nat) : option G := option_map snd (find (fun y => fst y =? k) (members p)).
(** the children: new identities, mutated copies of the genomes of the parents *)
Fixpoint children_of (p : pop) (mutate : nat -> G -> G) (next : nat) (parents : list nat) : list sub :=
  match parents with
  | [] => []
  | b :: t => match genome_of p b with
              | Some g => (next, mutate next g) :: children_of p mutate (S next) t
              | None => children_of p mutate (S next) t
              end
  end.
(** filter.py:261-283; next is the next identity *)
Definition subReproduction (fuel max_n next : nat) (mutate : nat -> G -> G) (p : pop) : result pop :=
  let freespace := max_n - getIndividualsN p in
  let best := getBestIndividualsSorted p freespace in
  let! parents := breed fuel freespace best [] in
  let p' := addIndividuals p (children_of p mutate next parents) in
  if max_n =? getIndividualsN p' then Ok p' else Err AssertionError.
(** filter.py:202-206: n_toremove = getIndividualsN() - 1; for an empty population [-(-1):] drops the first element of an empty list *)
Definition burst (fuel max_n next : nat) (mutate : nat -> G -> G) (p : pop) : result pop :=
  let! p' := (match getIndividualsN p with 0 => Ok p | S k => removeWorstIndividuals p k end) in
  subReproduction fuel max_n next mutate p'.

(** population.py:76-78: one sub-individual from each list *)
Fixpoint take_one (draw : nat -> nat) (c : nat) (ls : list (list nat)) : result (list nat * list (list nat) * nat) :=
  match ls with
  | [] => Ok ([], [], c)
  | l :: t =>
      match l with
      | [] => Err ValueError
      | _ => let i := draw c mod length l in
             let! r := take_one draw (S c) t in
             let '(xs, ls', c') := r in Ok (nth i l 0 :: xs, (firstn i l ++ skipn (S i) l) :: ls', c')
      end
  end.
(** population.py:74-79 *)
Fixpoint assemble (draw : nat -> nat) (c n : nat) (ls : list (list nat)) : result (list (list nat) * nat) :=
  match n with
  | 0 => Ok ([], c)
  | S k => let! r := take_one draw c ls in
           let '(xs, ls', c') := r in
           let! r2 := assemble draw c' k ls' in
           Ok (xs :: fst r2, snd r2)
  end.
(** population.py:69-79: subPopulations are given by the identities of their members *)
Fixpoint combinations (draw : nat -> nat) (c nComb : nat) (sps : list (list nat)) : result (list (list nat)) :=
  match nComb with
  | 0 => Ok []
  | S k => let! r := assemble draw c (length (hd [] sps)) sps in
           let! rest := combinations draw (snd r) k sps in
           Ok (fst r ++ rest)
  end.
(** population.py:52-81 *)
Definition getIndividuals (draw : nat -> nat) (nComb : nat) (sps : list pop) : result (list (list nat)) :=
  match sps with [] => Err AssertionError | _ => combinations draw 0 nComb (map (fun p => map fst (members p)) sps) end.

(** population.py:105-110 *)
Fixpoint setIndividualFitness (sps : list pop) (ind : list nat) (f : Q) : result (list pop) :=
  match sps with
  | [] => Ok []
  | sp :: t =>
      match ind with
      | [] => Err IndexError
      | k :: ks =>
          let! old := getFitness sp k in
          let sp' := if fle (Some f) old then sp else setFitness sp k f in
          let! t' := setIndividualFitness t ks f in
          Ok (sp' :: t')
      end
  end.
(** filter.py:107-127: the populations with the fitness values, the best individual and its fitness *)
Fixpoint evaluate_all (eval : list nat -> Q) (sps : list pop) (inds : list (list nat)) (best : option (list nat * Q)) : result (list pop * option (list nat * Q)) :=
  match inds with
  | [] => Ok (sps, best)
  | ind :: t =>
      let f := eval ind in
      let! sps' := setIndividualFitness sps ind f in
      evaluate_all eval sps' t (match best with
                                | None => Some (ind, f)
                                | Some (_, b) => if Qle_bool f b then best else Some (ind, f)
                                end)
  end.
Definition evaluate (eval : list nat -> Q) (draw : nat -> nat) (nComb : nat) (sps : list pop) : result (list pop * option (list nat * Q)) :=
  let sps' := map clearFitness sps in
  let! inds := getIndividuals draw nComb sps' in evaluate_all eval sps' inds None.
End Evolino.
