(** C80: what the gate layers put out. *)
From Coq Require Import Reals.
From Verif Require Import Base Layers_R Mdrnn_Model Mdrnn_Spec Mdrnn_Proofs.
Local Open Scope R_scope.

(** Entry by entry: products, gated values, gated values and the rest, switches. *)
Theorem C80_gates : forall v w, length v = length w -> forall i, (i < length v)%nat -> let n := length v in let a := nth i v 0 in let b := nth i w 0 in
  nth i (gateOut Mult v w) 0 = a * b /\ nth i (gateOut Gate v w) 0 = sigmoid a * b /\
  nth i (gateOut DoubleGate v w) 0 = sigmoid a * b /\ nth (n + i) (gateOut DoubleGate v w) 0 = (1 - sigmoid a) * b /\
  nth i (gateOut Switch v w) 0 = sigmoid a /\ nth (n + i) (gateOut Switch v w) 0 = 1 - sigmoid a /\
  length (gateOut Mult v w) = n /\ length (gateOut Gate v w) = n /\ length (gateOut DoubleGate v w) = (2 * n)%nat /\ length (gateOut Switch v w) = (2 * n)%nat.
Proof.
  intros v w L i Hi n a b. assert (Z : forall f : R -> R -> R, nth i (map (fun p => f (fst p) (snd p)) (combine v w)) 0 = f a b).
  { intro f. rewrite (nth_indep _ 0 ((fun p => f (fst p) (snd p)) (0, 0))) by (rewrite map_length, combine_length; lia). rewrite (map_nth (fun p => f (fst p) (snd p)) (combine v w) (0, 0) i), combine_nth by exact L. reflexivity. }
  assert (Y : forall f : R -> R, nth i (map f v) 0 = f a) by (intro f; rewrite (nth_indep _ 0 (f 0)) by (rewrite map_length; exact Hi); rewrite map_nth; reflexivity).
  assert (Lz : forall f : R -> R -> R, length (map (fun p => f (fst p) (snd p)) (combine v w)) = n) by (intro f; rewrite map_length, combine_length; unfold n; lia).
  unfold gateOut. rewrite !app_length, !Lz, !map_length. split; [apply (Z Rmult)|]. split; [apply (Z (fun a b => sigmoid a * b))|].
  split; [rewrite app_nth1 by (rewrite (Lz (fun a b => sigmoid a * b)); exact Hi); apply (Z (fun a b => sigmoid a * b))|].
  split; [rewrite app_nth2 by (rewrite (Lz (fun a b => sigmoid a * b)); lia); rewrite (Lz (fun a b => sigmoid a * b)); replace (n + i - n)%nat with i by lia; apply (Z (fun a b => (1 - sigmoid a) * b))|].
  split; [rewrite app_nth1 by (rewrite map_length; exact Hi); apply (Y sigmoid)|].
  split; [rewrite app_nth2 by (rewrite map_length; unfold n; lia); rewrite map_length; replace (n + i - length v)%nat with i by (unfold n; lia); apply (Y (fun a => 1 - sigmoid a))|].
  rewrite combine_length. unfold n. repeat split; lia.
Qed.
Print Assumptions C80_gates.
Example C80_gates_ex : gateOut Mult [2; 3] [5; 7] = [2 * 5; 3 * 7].
Proof. reflexivity. Qed.
