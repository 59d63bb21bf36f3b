(** Model of structure/modules/mixturedensity.py (MixtureDensityLayer) and of supervised/trainers/mixturedensity.py (gaussian,
    BackpropTrainerMix._calcDerivs) over the real numbers.

    K is the number of Gaussians (mix), D the dimension of the target; vectors are functions of the index.
    Positions of a layer with K * (D + 2) units: mixing coefficients from 0, deviations from K, the mean of Gaussian k from 2 * K + k * D.
    The outputs of the network at the times of the sequence are an argument of the trainer, as are the targets; a target sample has no
    importance (with one, the two-element unpacking raises).  In exact arithmetic no exponential is 0, so that the sum of the gammas is not 0;
    for deviations that underflow the code would divide by zero.
    Not modelled: setData, RPropMinusTrainerMix (which takes this _calcDerivs and the rest of RPropMinusTrainer). *)
From Coq Require Import Reals.
From Verif Require Import Base RingOps Net_Model Net_Gradient Layers_R.
Local Open Scope R_scope.

(** modules/mixturedensity.py:27-37; inputs and outputs have the same positions *)
Definition mix_forward (K : nat) (a : rvec) : rvec := fun i =>
  if (i <? K)%nat then safeExp (a i) / sumn K (fun j => safeExp (a j)) else if (i <? 2 * K)%nat then safeExp (a i) else a i.
(** modules/mixturedensity.py:39-45 *)
Definition mix_backward (outerr : rvec) : rvec := outerr.
(** modules/mixturedensity.py:17-22 *)
Definition mix_layer (K D : nat) : rlayer := mklayer (K * (D + 2)) (K * (D + 2)) (fun i _ => mix_forward K i) (fun e _ _ _ => mix_backward e).

(** trainers/mixturedensity.py:8-12 *)
Definition gaussian (D : nat) (x mean : rvec) (stddev : R) : R :=
  let tmp := - (1 / 2) * sumn D (fun j => ((x j - mean j) / stddev) ^ 2) in
  exp tmp / (Rpower (2 * PI) (INR D / 2) * stddev).
(** trainers/mixturedensity.py:44-86: one sample *)
Definition mean_of (K D : nat) (par : rvec) (k : nat) : rvec := fun j => par (2 * K + k * D + j)%nat.
Definition stddev_of (K : nat) (par : rvec) (k : nat) : R := par (K + k)%nat.
Definition gamma0 (K D : nat) (par target : rvec) (k : nat) : R := par k * gaussian D target (mean_of K D par k) (stddev_of K par k).
Definition sumg (K D : nat) (par target : rvec) : R := sumn K (gamma0 K D par target).
Definition gamma (K D : nat) (par target : rvec) (k : nat) : R := gamma0 K D par target k / sumg K D par target.
Definition invvariance (K : nat) (par : rvec) (k : nat) : R := 1 / (par (K + k)%nat) ^ 2.
Definition invstddev (K : nat) (par : rvec) (k : nat) : R := 1 / stddev_of K par k.
Definition delta (K D : nat) (par target : rvec) (k : nat) : rvec := fun j => mean_of K D par k j - target j.
Definition grad_c (K D : nat) (par target : rvec) (k : nat) : R := par k - gamma K D par target k.
Definition grad_s (K D : nat) (par target : rvec) (k : nat) : R :=
  - gamma K D par target k * (sumn D (fun j => delta K D par target k j * delta K D par target k j) * invvariance K par k * invstddev K par k - invstddev K par k).
Definition grad_m (K D : nat) (par target : rvec) (k j : nat) : R := gamma K D par target k * delta K D par target k j * invvariance K par k.
Definition pattern_error (K D : nat) (par target : rvec) : R := - ln (sumg K D par target).
Definition pattern_outerr (K D : nat) (par target : rvec) : rvec := fun i =>
  - (if (i <? K)%nat then grad_c K D par target i else if (i <? 2 * K)%nat then grad_s K D par target (i - K) else grad_m K D par target ((i - 2 * K) / D) ((i - 2 * K) mod D)).
(** trainers/mixturedensity.py:29-89: outs are the outputs at the times of the sequence; the errors sent back, in the order of the calls of backward *)
Fixpoint calc (K D : nat) (rs : list (rvec * rvec)) (error : R) (sent : list rvec) : R * list rvec :=
  match rs with
  | [] => (error, sent)
  | (par, target) :: t => calc K D t (error + pattern_error K D par target) (sent ++ [pattern_outerr K D par target])
  end.
Definition calcDerivs (K D : nat) (outs targets : list rvec) : R * R * list rvec :=
  let '(error, sent) := calc K D (rev (combine outs targets)) 0 [] in (error, 1, sent).
