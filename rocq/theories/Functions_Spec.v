(** Specification of a benchmark function: function.py:12 "A n-to-1 mapping function to be with a single
    minimum of value zero, at xopt." *)
From Coq Require Import Reals.
From Verif Require Import Base.
Local Open Scope R_scope.

(** zero is the least value, and it is taken at p *)
Definition zero_at (n : nat) (f : list R -> R) (p : list R) : Prop :=
  length p = n /\ f p = 0 /\ forall x, length x = n -> 0 <= f x.
(** .. and nowhere else *)
Definition single_zero (n : nat) (f : list R -> R) (p : list R) : Prop :=
  zero_at n f p /\ forall x, length x = n -> f x = 0 -> x = p.
