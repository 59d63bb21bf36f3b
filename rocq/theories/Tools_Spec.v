(** Spec for C87: small tools. *)
From Verif Require Import Base Tools_Model.
From Coq Require Import QArith Reals.
Local Open Scope nat_scope.

(** indices that go up, starting at lo at least *)
Fixpoint ascending (lo : Z) (l : list (Z * Q)) : Prop := match l with [] => True | (i, _) :: r => (lo <= i)%Z /\ ascending (i + 1) r end.
(** the value given for an index, 0 if there is none *)
Fixpoint value_of (l : list (Z * Q)) (k : Z) : Q := match l with [] => 0%Q | (i, v) :: r => if Z.eqb i k then v else value_of r k end.
(** text that holds a piece *)
Definition holds (s piece : str) : Prop := exists a b, s = a ++ piece ++ b.
