(** What the finite-difference searches are measured against. *)
From Coq Require Import Reals.
From Verif Require Import Base Functions_Model.
Local Open Scope R_scope.

(** a better than b *)
Definition better_than (minimize : bool) (a b : R) : Prop := if minimize then a < b else b < a.
(** x + k d, coordinate by coordinate *)
Definition along (x : list R) (k : R) (d : list R) : list R := map (fun p => fst p + k * snd p) (combine x d).
(** P behaves as a pseudo-inverse of D on vectors of length n: D P D = D *)
Definition inverts (n : nat) (D P : list (list R)) : Prop :=
  length P = n /\
  forall a, length a = n -> map (fun row => rdot row (map (fun p => rdot p (map (fun r => rdot r a) D)) P)) D = map (fun r => rdot r a) D.
(** the rows of D tell all directions apart *)
Definition spanning (n : nat) (D : list (list R)) : Prop :=
  forall a b, length a = n -> length b = n -> map (fun r => rdot r a) D = map (fun r => rdot r b) D -> a = b.
