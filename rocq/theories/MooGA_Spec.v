(** What a user relies on over the generations, said about the populations alone. *)
From Verif Require Import Base.
Local Open Scope nat_scope.

(** the members of a population that the one before did not have, every copy counted *)
Definition newcomers (before pop : list nat) : nat := length (filter (fun k => if in_dec Nat.eq_dec k before then false else true) pop).
(** all of them over the generations *)
Fixpoint all_newcomers (before : list nat) (pops : list (list nat)) : nat :=
  match pops with [] => 0 | p :: t => newcomers before p + all_newcomers p t end.
(** a front picks among the items *)
Definition picks {F} (front : list (nat * F) -> list nat) : Prop := forall l k, In k (front l) -> In k (map fst l).
