(** Specification of C70: mixture density networks. *)
From Coq Require Import Reals.
From Verif Require Import Base RingOps Net_Gradient.
Local Open Scope R_scope.

(** the isotropic normal density in D dimensions, as a product over the dimensions *)
Definition normal (m s x : R) : R := / (s * sqrt (2 * PI)) * exp (- ((x - m) ^ 2 / (2 * s ^ 2))).
Fixpoint prodn (n : nat) (f : nat -> R) : R := match n with O => 1 | S n => prodn n f * f n end.
Definition isotropic (D : nat) (m : nat -> R) (s : R) (x : nat -> R) : R := prodn D (fun j => normal (m j) s (x j)).
(** a mixture: weights, deviations and means *)
Definition mixture (K D : nat) (c s : nat -> R) (m : nat -> nat -> R) (x : nat -> R) : R := sumn K (fun k => c k * isotropic D (m k) (s k) x).
(** the softmax of activations *)
Definition softmax (K : nat) (a : nat -> R) (k : nat) : R := exp (a k) / sumn K (fun j => exp (a j)).
(** the negative log likelihood of a target, as a function of the activations *)
Definition nll (K D : nat) (a target : nat -> R) : R :=
  - ln (mixture K D (softmax K a) (fun k => exp (a (K + k)%nat)) (fun k j => a (2 * K + k * D + j)%nat) target).
(** activations inside the range where safeExp is exp *)
Definition moderate (K : nat) (a : nat -> R) : Prop := forall i, (i < 2 * K)%nat -> Rabs (a i) < 500.
