(** structure/modules/mdlstm.py: the multi-dimensional LSTM layer.  It keeps no state of
    its own between steps: previous states come in and the current state goes out through
    the last inputs and outputs, so it is a layer in the sense of Net_Model once the
    peephole weights are fixed.  The buffers of row [offset] that the backward pass reads
    are those the forward pass computed from the same input row (modules run forward at an
    offset before they run backward at it), so they appear as functions of that row. *)
From Coq Require Import Ring.
From Verif Require Import Base RingOps Net_Model.

Section Mdlstm.
Context {K : Type} {Ops : RingOps K}.
Notation vec := (@vec K).
Local Open Scope r_scope.
Context (f fprime g gprime h hprime : K -> K) (size dimensions : nat) (peepholes : bool).

(** the slices of inbuf, mdlstm.py:92-96 *)
Definition md_cellx (x : vec) : vec := fun i => x (size * (1 + dimensions) + i)%nat.
Definition md_laststates (x : vec) : vec := fun q => x (size * (3 + dimensions) + q)%nat.
(** mdlstm.py:92,99-101 *)
Definition md_ingatex (p x : vec) : vec := fun i =>
  if peepholes then x i + sumn dimensions (fun k => p i * md_laststates x (size * k + i)%nat) else x i.
(** mdlstm.py:93,102 *)
Definition md_forgetgatex (p x : vec) : vec := fun q =>
  if peepholes then x (size + q)%nat + p (size + q)%nat * md_laststates x q else x (size + q)%nat.
(** mdlstm.py:104-109 *)
Definition md_state (p x : vec) : vec := fun i =>
  f (md_ingatex p x i) * g (md_cellx x i) +
  sumn dimensions (fun k => f (md_forgetgatex p x (size * k + i)%nat) * md_laststates x (size * k + i)%nat).
(** mdlstm.py:95,111-112 *)
Definition md_outgatex (p x : vec) : vec := fun i =>
  if peepholes then x (size * (2 + dimensions) + i)%nat + p (size * (1 + dimensions) + i)%nat * md_state p x i
  else x (size * (2 + dimensions) + i)%nat.
(** mdlstm.py:88-116 *)
Definition md_forward (p x : vec) : vec := fun j =>
  if (j <? size)%nat then f (md_outgatex p x j) * h (md_state p x j) else md_state p x (j - size)%nat.

(** mdlstm.py:118-135 *)
Definition md_outgateError (p x outerr2 : vec) : vec := fun i => fprime (md_outgatex p x i) * outerr2 i * h (md_state p x i).
Definition md_stateError (p x outerr2 : vec) : vec := fun i =>
  let s := outerr2 i * f (md_outgatex p x i) * hprime (md_state p x i) + outerr2 (size + i)%nat in
  if peepholes then s + md_outgateError p x outerr2 i * p (size * (1 + dimensions) + i)%nat else s.
Definition md_cellError (p x outerr2 : vec) : vec := fun i =>
  f (md_ingatex p x i) * gprime (md_cellx x i) * md_stateError p x outerr2 i.
(** indexed by size*k+i for dimension k and cell i *)
Definition md_forgetgateError (p x outerr2 : vec) : vec := fun q =>
  fprime (md_forgetgatex p x q) * md_stateError p x outerr2 (q mod size) * md_laststates x q.
Definition md_ingateError (p x outerr2 : vec) : vec := fun i =>
  fprime (md_ingatex p x i) * md_stateError p x outerr2 i * g (md_cellx x i).
(** mdlstm.py:137-143: what one call adds to the derivatives *)
Definition md_derivs (p x outerr2 : vec) : vec := fun q =>
  if negb peepholes then 0
  else if (q <? size)%nat then sumn dimensions (fun k => md_ingateError p x outerr2 q * md_laststates x (size * k + q)%nat)
  else if (q <? size * (1 + dimensions))%nat then md_forgetgateError p x outerr2 (q - size)%nat * md_laststates x (q - size)%nat
  else md_outgateError p x outerr2 (q - size * (1 + dimensions))%nat * md_state p x (q - size * (1 + dimensions))%nat.
(** mdlstm.py:145-152 *)
Definition md_instateErrors (p x outerr2 : vec) : vec := fun q =>
  let e := md_stateError p x outerr2 (q mod size) * f (md_forgetgatex p x q) in
  if peepholes then e + md_ingateError p x outerr2 (q mod size) * p (q mod size) + md_forgetgateError p x outerr2 q * p (size + q)%nat else e.
(** mdlstm.py:154-158 *)
Definition md_backward (p x outerr2 : vec) : vec := fun j =>
  if (j <? size)%nat then md_ingateError p x outerr2 j
  else if (j <? size * (1 + dimensions))%nat then md_forgetgateError p x outerr2 (j - size)%nat
  else if (j <? size * (2 + dimensions))%nat then md_cellError p x outerr2 (j - size * (1 + dimensions))%nat
  else if (j <? size * (3 + dimensions))%nat then md_outgateError p x outerr2 (j - size * (2 + dimensions))%nat
  else md_instateErrors p x outerr2 (j - size * (3 + dimensions))%nat.

(** the module inside a network, its peephole weights being p *)
Definition mdlstm_layer (p : vec) : @layer K :=
  mklayer (size * (3 + 2 * dimensions))%nat (size * 2)%nat (fun x _ => md_forward p x) (fun e _ _ x => md_backward p x e).
End Mdlstm.
