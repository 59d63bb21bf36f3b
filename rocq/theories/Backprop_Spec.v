(** Specification of an epoch: gradient descent with momentum, written entry by entry. *)
From Verif Require Import Base RingOps.

Section Spec.
Context {K : Type} {Ops : RingOps K}.
Local Open Scope r_scope.
Context {S : Type} (err pond : list K -> S -> K) (grad : list K -> S -> list K).
Context (momentum alphadecay weightdecay : K).

(** where descent stands: the parameters, the last change, the learning rate *)
Record point := mkpoint { pt_theta : list K; pt_mom : list K; pt_rate : K }.

(** the step from x to y for a direction g (given entry by entry) *)
Definition moves (g : nat -> K) (x y : point) : Prop :=
  pt_rate y = pt_rate x * alphadecay /\
  length (pt_theta y) = length (pt_theta x) /\ length (pt_mom y) = length (pt_theta x) /\
  forall i, (i < length (pt_theta x))%nat ->
    nth i (pt_mom y) 0 = momentum * nth i (pt_mom x) 0 + pt_rate x * g i /\
    nth i (pt_theta y) 0 = nth i (pt_theta x) 0 + nth i (pt_mom y) 0.

(** online: one step per sequence, each with the gradient where descent then stands; e and p add up *)
Inductive online : list S -> point -> point -> K -> K -> Prop :=
| online_nil x : online [] x x 0 0
| online_cons s r x y z e p :
    moves (fun i => nth i (grad (pt_theta x) s) 0 - weightdecay * nth i (pt_theta x) 0) x y ->
    online r y z e p -> online (s :: r) x z (err (pt_theta x) s + e) (pond (pt_theta x) s + p).

(** batch: one step with the sum of the gradients *)
Definition batched (l : list S) (x y : point) : Prop := moves (fun i => suml l (fun s => nth i (grad (pt_theta x) s) 0)) x y.
End Spec.
