(** The LSTM cell as in the literature: a scalar recurrence per cell, no buffers. *)
From Verif Require Import Base RingOps.

Section Cell.
Context {K : Type} {Ops : RingOps K}.
Local Open Scope r_scope.
Context (f g h : K -> K) (wi wf wo : K) (xi xf xc xo : nat -> K).
(** the internal state before step t *)
Fixpoint cell_state (t : nat) : K :=
  match t with
  | O => 0
  | S t => let s := cell_state t in f (xi t + wi * s) * g (xc t) + f (xf t + wf * s) * s
  end.
(** the output of step t *)
Definition cell_out (t : nat) : K := f (xo t + wo * cell_state (S t)) * h (cell_state (S t)).
End Cell.
