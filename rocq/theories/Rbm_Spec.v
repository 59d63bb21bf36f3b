(** What a restricted Boltzmann machine is, independently of the code: an energy
    over binary units, the conditional probabilities it induces by summing
    Boltzmann weights over all configurations, its free energy, and the
    momentum-smoothed sum of a sequence of updates. *)
From Coq Require Import Reals List Arith.
From Verif Require Import Base RingOps Net_Gradient.
Open Scope R_scope.

Definition b2r (b : bool) : R := if b then 1 else 0.
Definition units (h : nat -> bool) : nat -> R := fun j => b2r (h j).

(** The sum of [f] over the 2^n configurations of the units 0 .. n-1. *)
Definition setb (h : nat -> bool) (n : nat) (b : bool) : nat -> bool := fun i => if (i =? n)%nat then b else h i.
Fixpoint bsum (n : nat) (f : (nat -> bool) -> R) : R :=
  match n with
  | O => f (fun _ => false)
  | S m => bsum m (fun h => f (setb h m false)) + bsum m (fun h => f (setb h m true))
  end.

Record machine := { nv : nat; nh : nat; W : nat -> nat -> R; hb : nat -> R; vb : nat -> R }.

(** W j i joins the hidden unit j to the visible unit i. *)
Definition energy (m : machine) (x y : nat -> R) : R :=
  - sumn (nh m) (fun j => sumn (nv m) (fun i => W m j i * x i * y j))
  - sumn (nh m) (fun j => hb m j * y j) - sumn (nv m) (fun i => vb m i * x i).

Definition weight (m : machine) (x y : nat -> R) : R := exp (- energy m x y).

(** P (hidden j = 1 | visible = x) and P (visible i = 1 | hidden = y). *)
Definition condH (m : machine) (x : nat -> R) (j : nat) : R :=
  bsum (nh m) (fun h => if h j then weight m x (units h) else 0) / bsum (nh m) (fun h => weight m x (units h)).
Definition condV (m : machine) (y : nat -> R) (i : nat) : R :=
  bsum (nv m) (fun v => if v i then weight m (units v) y else 0) / bsum (nv m) (fun v => weight m (units v) y).

(** The free energy of a visible vector: minus the logarithm of the total weight
    of the configurations that contain it. *)
Definition freeEnergy (m : machine) (x : nat -> R) : R := - ln (bsum (nh m) (fun h => weight m x (units h))).

(** One parameter moved by [s]. *)
Definition upd (f : nat -> R) (k : nat) (s : R) : nat -> R := fun i => if (i =? k)%nat then f i + s else f i.
Definition upd2 (f : nat -> nat -> R) (j i : nat) (s : R) : nat -> nat -> R :=
  fun a b => if (a =? j)%nat then upd (f a) i s b else f a b.
Definition moveW (m : machine) (j i : nat) (s : R) : machine :=
  {| nv := nv m; nh := nh m; W := upd2 (W m) j i s; hb := hb m; vb := vb m |}.
Definition moveH (m : machine) (j : nat) (s : R) : machine :=
  {| nv := nv m; nh := nh m; W := W m; hb := upd (hb m) j s; vb := vb m |}.
Definition moveV (m : machine) (i : nat) (s : R) : machine :=
  {| nv := nv m; nh := nh m; W := W m; hb := hb m; vb := upd (vb m) i s |}.

(** Momentum: at step q the momentum is [mu q]; the velocity of step s counts the
    step q <= s with the product of the momenta of the steps after q. *)
Fixpoint prodr (a n : nat) (mu : nat -> R) : R := match n with O => 1 | S k => prodr a k mu * mu (a + k)%nat end.
Definition velocity (mu g : nat -> R) (s : nat) : R :=
  sumn (S s) (fun q => prodr (S q) (s - q) mu * g q).
