(** Spec for C88: universal search and the simple race. *)
From Verif Require Import Base Search_Model.
From Coq Require Import Reals.
Local Open Scope nat_scope.

Section Levin.
  Context {P : Type} (gen : nat -> option (nat * P)) (runp : P -> option bool).
  (** an enumeration by increasing complexity, with finitely many programs of each *)
  Definition ordered : Prop := (forall i j c d p q, i <= j -> gen i = Some (c, p) -> gen j = Some (d, q) -> c <= d) /\
    (forall i j, i <= j -> gen i = None -> gen j = None).
  Definition finitary : Prop := forall m, exists n, forall i c p, n <= i -> gen i = Some (c, p) -> m < c.
  Definition occurs (c : nat) (p : P) : Prop := exists i, gen i = Some (c, p).
  (** there are programs of this complexity, and all of them end without success *)
  Definition fruitless (c : nat) : Prop := (exists p, occurs c p) /\ forall p, occurs c p -> runp p = Some false.
End Levin.

(** the numbers of the messages *)
Definition waypoint (l : list R) : R := nth 16 l 0%R.
Definition turn (x : R) : nat := if Rlt_dec (3 / 10) x then 2 else if Rlt_dec x (- (3 / 10)) then 0 else 1.
