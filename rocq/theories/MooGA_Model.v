(** Model of a generation of the multi-objective genetic algorithms (optimization/populationbased/multiobjective/nsga2.py:26-56 and
    constnsga2.py:27-61, which differ in the front they ask for) with what optimizer.py:154-156, 225-251 keeps for vectors.

    An individual is the number of its tuple: equal tuples are the same number.  An evaluation may be noisy: it is a function of how many
    there were before.  The front is a function of the items with their fitness values; the set it returns is a list in some order.
    The populations are handed in, one for each generation, so that select, crossover and mutation are arbitrary.  For fitness
    vectors _oneEvaluation only counts.  storeAllPopulations is not modelled. *)
From Verif Require Import Base Dict.
Local Open Scope nat_scope.

Section MooGA.
Context {F : Type} (eval : nat -> nat -> F) (front : list (nat * F) -> list nat).

(** bestEvaluable: the initial evaluable (optimizer.py:156), an array, or a list of tuples *)
Inductive best := Initial | Front (l : list nat).
Record state := { fitnesses : dict F; evaluations : nat; bestEvaluable : best; bestEvaluation : list F }.
(** evolution.py:17: fitnesses is a list at first; the dictionary made then is the one that nothing old is found for *)
Definition start : state := {| fitnesses := []; evaluations := 0; bestEvaluable := Initial; bestEvaluation := [] |}.

(** nsga2.py:30-41: the lookup is in the old dictionary *)
Definition evaluate_one (old : dict F) (acc : dict F * nat) (k : nat) : dict F * nat :=
  match dget k old with
  | Some v => (dset k v (fst acc), snd acc)
  | None => (dset k (eval (snd acc) k) (fst acc), S (snd acc))
  end.
Definition evaluate (old : dict F) (pop : list nat) (n : nat) : dict F * nat := fold_left (evaluate_one old) pop ([], n).

Fixpoint with_keys (d : dict F) (l : list nat) : result (list (nat * F)) :=
  match l with
  | [] => Ok []
  | k :: t => match dget k d with
              | None => Err KeyError
              | Some v => let! r := with_keys d t in Ok ((k, v) :: r)
              end
  end.
(** nsga2.py:46-53: a list plus an array is an array, whose rows cannot be keys *)
Definition candidates (elitism : bool) (pop : list nat) (b : best) : result (list nat) :=
  if elitism then Ok pop else match b with Initial => Err TypeError | Front l => Ok (pop ++ l) end.
(** nsga2.py:26-56 *)
Definition generation (elitism : bool) (s : state) (pop : list nat) : result state :=
  let '(d, n) := evaluate (fitnesses s) pop (evaluations s) in
  let! c := candidates elitism pop (bestEvaluable s) in
  let! kc := with_keys d c in
  let b := front kc in
  let! kb := with_keys d b in
  Ok {| fitnesses := d; evaluations := n; bestEvaluable := Front b; bestEvaluation := map snd kb |}.
Fixpoint generations (elitism : bool) (s : state) (pops : list (list nat)) : result state :=
  match pops with [] => Ok s | p :: t => let! s' := generation elitism s p in generations elitism s' t end.
End MooGA.
