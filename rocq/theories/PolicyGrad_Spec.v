(** Specification of C67: policy gradients. *)
From Coq Require Import Reals.
From Verif Require Import Base Functions_Model PolicyGrad_Model.
Local Open Scope R_scope.

(** the logarithm of the normal density with mean m and deviation s at y, and of independent ones *)
Definition normal_loglik (s m y : R) : R := - ln (sqrt (2 * PI) * s) - (y - m) ^ 2 / (2 * s ^ 2).
Definition loglik (s m y : rvec) : R :=
  rsum (map (fun j => normal_loglik (nth j s 0) (nth j m 0) (nth j y 0)) (seq 0 (length y))).
(** d is the derivative of f in its i-th argument *)
Definition partial (f : rvec -> R) (x : rvec) (i : nat) (d : R) : Prop := derivable_pt_lim (fun t => f (upd i t x)) (nth i x 0) d.
(** the backward pass of the controller: for every error of the right size, the derivatives of its inner product with the action *)
Definition backward_ok (F : rvec -> rvec -> rvec) (VJP : rvec -> rvec -> rvec -> rvec) (adim : nat) (th o : rvec) : Prop :=
  (forall th', length th' = length th -> length (F th' o) = adim) /\
  forall e, length e = adim -> length (VJP th o e) = length th /\ forall k, (k < length th)%nat -> partial (fun th => rdot e (F th o)) th k (nth k (VJP th o e) 0).

(** what one exploration contributes: the error is deviation times draw *)
Definition error (sg z : rvec) : rvec := rmul (map expln sg) z.
Definition contribution (VJP : rvec -> rvec -> rvec -> rvec) (th sg : rvec) (i : interaction) : rvec :=
  let '(o, z, _) := i in VJP th o (error sg z) ++ rzip (fun p z => expln p * explnPrime p * (z * z - 1)) sg z.
(** sums of a sequence of vectors up to each of them *)
Fixpoint running (d : rvec) (l : list rvec) : list rvec :=
  match l with [] => [] | x :: t => radd d x :: running (radd d x) t end.
(** cut a list into pieces of the given lengths *)
Fixpoint pieces {A} (ns : list nat) (l : list A) : list (list A) :=
  match ns with [] => [] | n :: t => firstn n l :: pieces t (skipn n l) end.
Definition return_of (ep : list interaction) : R := rsum (map snd ep).

(** the spread that a baseline leaves *)
Definition spread (g returns : rvec) (b : R) : R := rsum (rzip (fun x r => (x * (r - b)) ^ 2) g returns).
(** the policy gradient estimate for a baseline *)
Definition estimate (g returns : rvec) (b : R) : R := rsum (rzip (fun x r => x * (r - b)) g returns) / INR (length returns).

(** two of Penrose's conditions *)
Definition cols (k : nat) (M : list rvec) : Prop := Forall (fun r => length r = k) M.
Definition pseudo_inverse (k : nat) (P M : list rvec) : Prop :=
  length P = k /\
  (forall x, length x = k -> mat_vec M (mat_vec P (mat_vec M x)) = mat_vec M x) /\
  (forall u v, length u = length M -> length v = length M -> rdot (mat_vec M (mat_vec P u)) v = rdot u (mat_vec M (mat_vec P v))).
Definition injective (k : nat) (M : list rvec) : Prop := forall x y, length x = k -> length y = k -> mat_vec M x = mat_vec M y -> x = y.
Definition sq_dist (a b : rvec) : R := rdot (rsub a b) (rsub a b).

(** the squared error of explaining the returns by a linear function of the summed derivatives, and a constant *)
Definition regression_error (L : list rvec) (returns w : rvec) (c : R) : R :=
  rsum (map (fun p => (rdot (fst p) w + c - snd p) ^ 2) (combine L returns)).

(** sizes: as many deviations and draws as actions *)
Definition fits (adim : nat) (i : interaction) : Prop := let '(_, z, _) := i in length z = adim.
(** what the controller computes, and the derivatives it starts with *)
Definition one_weight (th o : rvec) : rvec := [nth 0 th 0 * nth 0 o 0].
Definition one_weight_vjp (th o e : rvec) : rvec := [nth 0 e 0 * nth 0 o 0].
