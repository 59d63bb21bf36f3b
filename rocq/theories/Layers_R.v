(** The neuron layers over the real numbers: tools/functions.py and the layers whose
    backward pass is (or is not) the transposed derivative.  C18, C23. *)
From Coq Require Import Ring Reals Lra.
From Verif Require Import Base RingOps Net_Model Net_Spec Propagate Net_Events Net_Forward Conn_Adjoint Net_Backward Net_Adjoint Net_Gradient.
Local Open Scope R_scope.

(** scipy.clip(x, lo, hi) *)
Definition clip (lo hi x : R) : R := Rmax lo (Rmin x hi).
(** tools/functions.py:53-55 *)
Definition safeExp (x : R) : R := exp (clip (-500) 500 x).
(** tools/functions.py:58-60 *)
Definition sigmoid (x : R) : R := 1 / (1 + safeExp (- x)).
(** tools/functions.py:63-66 *)
Definition sigmoidPrime (x : R) : R := sigmoid x * (1 - sigmoid x).
(** modules/sigmoidlayer.py:10-14 *)
Definition sigmoid_layer (n : nat) : rlayer := elem_layer n sigmoid (fun o => o * (1 - o)).
(** modules/tanhlayer.py:11-15 *)
Definition tanh_layer (n : nat) : rlayer := elem_layer n tanh (fun o => 1 - o * o).
(** modules/softsign.py:12-16 *)
Definition softsign (x : R) : R := x / (1 + Rabs x).
Definition softsign_layer (n : nat) : rlayer := elem_layer n softsign (fun o => (1 - Rabs o) * (1 - Rabs o)).
(** modules/relulayer.py:8-12; the comparison inbuf > 0 is 1 or 0 *)
Definition pos (x : R) : R := if Rlt_dec 0 x then 1 else 0.
Definition relu_layer (n : nat) : rlayer :=
  mklayer n n (fun i _ k => i k * pos (i k)) (fun e _ _ i k => e k * pos (i k)).
(** modules/softmax.py:15-20 *)
Definition softmax_layer (n : nat) : rlayer :=
  mklayer n n (fun i _ k => safeExp (i k) / sumn n (fun j => safeExp (i j))) (fun e _ _ _ => e).

(** ** Layers of scalar functions *)
Lemma elem_diff n (f h : R -> R) (v : rvec) :
  (forall i, (i < n)%nat -> derivable_pt_lim f (v i) (h (f (v i)))) -> layer_diff_at (elem_layer n f h) v.
Proof.
  intros H w d H0 Hd. cbn [elem_layer l_in l_out l_fwd l_bwd] in *. exists (fun i => h (f (v i)) * d i). split.
  - intros i Hi. apply (dlim_comp (fun s => w s i) f); auto. rewrite H0 by auto. auto.
  - intro e. unfold dot. apply sumn_ext. intros i Hi. cbn. ring.
Qed.
Lemma linear_diff n v : layer_diff_at (linear_layer n) v.
Proof. intros w d H0 Hd. exists d. split; auto. Qed.
Lemma bias_diff v : layer_diff_at bias_unit v.
Proof. intros w d H0 Hd. exists (fun _ => 0). split; [intros; cbn; apply dlim_const|]. intro e. unfold dot. cbn. ring. Qed.

Lemma sumn_two n (f : nat -> R) : sumn (2 * n) f = sumn n f + sumn n (fun i => f (n + i)%nat).
Proof. replace (2 * n)%nat with (n + n)%nat by lia. apply (sumn_app (L := RLaws)). Qed.
Lemma sumn_plus n (f g : nat -> R) : sumn n f + sumn n g = sumn n (fun i => f i + g i).
Proof. symmetry. apply (sumn_add (L := RLaws)). Qed.

Ltac bools := repeat match goal with
  | |- context [(?a <? ?b)%nat] => destruct (Nat.ltb_spec a b); try lia
  end.
Lemma multiplication_diff n v : layer_diff_at (multiplication_layer n) v.
Proof.
  intros w d H0 Hd. cbn [multiplication_layer l_in l_out l_fwd l_bwd] in *.
  exists (fun i => d i * v (n + i)%nat + v i * d (n + i)%nat). split.
  - intros i Hi. eapply dlim_ext; [intro s; unfold zvec; cbn [radd rmul rsub r0 r1 ROps]; symmetry; apply Rplus_0_l|]. cbv beta.
    rewrite <- (H0 i), <- (H0 (n + i)%nat) by lia. apply (dlim_mul (fun s => w s i) (fun s => w s (n + i)%nat)); apply Hd; lia.
  - intro e. unfold dot. rewrite sumn_two, sumn_plus. apply sumn_ext. intros i Hi. bools.
    replace (n + i - n)%nat with i by lia. unfold zvec. cbn. ring.
Qed.
Lemma gate_diff n sg sg' v : (forall i, (i < n)%nat -> derivable_pt_lim sg (v i) (sg' (v i))) -> layer_diff_at (gate_layer n sg sg') v.
Proof.
  intros Hs w d H0 Hd. cbn [gate_layer l_in l_out l_fwd l_bwd] in *.
  exists (fun i => sg' (v i) * d i * v (n + i)%nat + sg (v i) * d (n + i)%nat). split.
  - intros i Hi. eapply dlim_ext; [intro s; unfold zvec; cbn [radd rmul rsub r0 r1 ROps]; symmetry; apply Rplus_0_l|]. cbv beta. eapply dlim_val.
    2:{ apply (dlim_mul (fun s => sg (w s i)) (fun s => w s (n + i)%nat)); [|apply Hd; lia].
        apply (dlim_comp (fun s => w s i) sg); [apply Hd; lia|]. rewrite H0 by lia. apply Hs. auto. }
    cbv beta. rewrite !H0 by lia. ring.
  - intro e. unfold dot. rewrite sumn_two, sumn_plus. apply sumn_ext. intros i Hi. bools.
    replace (n + i - n)%nat with i by lia. unfold zvec. cbn. ring.
Qed.
Lemma double_gate_diff n sg sg' v : (forall i, (i < n)%nat -> derivable_pt_lim sg (v i) (sg' (v i))) -> layer_diff_at (double_gate_layer n sg sg') v.
Proof.
  intros Hs w d H0 Hd. cbn [double_gate_layer l_in l_out l_fwd l_bwd] in *.
  exists (fun i => if (i <? n)%nat then sg' (v i) * d i * v (n + i)%nat + sg (v i) * d (n + i)%nat
                   else - (sg' (v (i - n)%nat) * d (i - n)%nat * v i) + (1 - sg (v (i - n)%nat)) * d i). split.
  - intros i Hi. eapply dlim_ext; [intro s; unfold zvec; cbn [radd rmul rsub r0 r1 ROps]; symmetry; apply Rplus_0_l|]. cbv beta. bools.
    + eapply dlim_val.
      2:{ apply (dlim_mul (fun s => sg (w s i)) (fun s => w s (n + i)%nat)); [|apply Hd; lia].
          apply (dlim_comp (fun s => w s i) sg); [apply Hd; lia|]. rewrite H0 by lia. apply Hs. auto. }
      cbv beta. rewrite !H0 by lia. ring.
    + eapply dlim_val.
      2:{ apply (dlim_mul (fun s => 1 - sg (w s (i - n)%nat)) (fun s => w s i)); [|apply Hd; lia].
          apply (dlim_sub (fun _ => 1)); [apply dlim_const|].
          apply (dlim_comp (fun s => w s (i - n)%nat) sg); [apply Hd; lia|]. rewrite H0 by lia. apply Hs. lia. }
      cbv beta. rewrite !H0 by lia. ring.
  - intro e. unfold dot. rewrite !sumn_two, !sumn_plus. apply sumn_ext. intros i Hi. bools.
    replace (n + i - n)%nat with i by lia. unfold zvec. cbn. ring.
Qed.
Lemma switch_diff n sg sg' v : (forall i, (i < n)%nat -> derivable_pt_lim sg (v i) (sg' (v i))) -> layer_diff_at (switch_layer n sg sg') v.
Proof.
  intros Hs w d H0 Hd. cbn [switch_layer l_in l_out l_fwd l_bwd] in *.
  exists (fun i => if (i <? n)%nat then sg' (v i) * d i else - (sg' (v (i - n)%nat) * d (i - n)%nat)). split.
  - intros i Hi. eapply dlim_ext; [intro s; unfold zvec; cbn [radd rmul rsub r0 r1 ROps]; symmetry; apply Rplus_0_l|]. cbv beta. bools.
    + eapply dlim_val; [|apply (dlim_comp (fun s => w s i) sg); [apply Hd; lia|]]; [reflexivity|]. rewrite H0 by lia. apply Hs. auto.
    + eapply dlim_val.
      2:{ apply (dlim_sub (fun _ => 1)); [apply dlim_const|].
          apply (dlim_comp (fun s => w s (i - n)%nat) sg); [apply Hd; lia|]. rewrite H0 by lia. apply Hs. lia. }
      cbv beta. ring.
  - intro e. unfold dot. rewrite !sumn_two, !sumn_plus. apply sumn_ext. intros i Hi. bools.
    replace (n + i - n)%nat with i by lia. unfold zvec. cbn. ring.
Qed.

(** ** The squashing functions *)
Lemma dlim_local (f g : R -> R) x l del : 0 < del -> (forall y, Rabs (y - x) < del -> f y = g y) -> derivable_pt_lim f x l -> derivable_pt_lim g x l.
Proof.
  intros Hd H Hf eps He. destruct (Hf eps He) as (d1 & H1).
  assert (Hm : 0 < Rmin del d1) by (apply Rmin_pos; [auto|apply cond_pos]).
  exists (mkposreal _ Hm). intros h Hh Hl. cbn in Hl.
  rewrite <- (H (x + h)), <- (H x).
  - apply H1; auto. eapply Rlt_le_trans; [exact Hl|apply Rmin_r].
  - replace (x - x) with 0 by ring. rewrite Rabs_R0. auto.
  - replace (x + h - x) with h by ring. eapply Rlt_le_trans; [exact Hl|apply Rmin_l].
Qed.
Lemma clip_id lo hi x : lo <= x <= hi -> clip lo hi x = x.
Proof. intros [A B]. unfold clip. rewrite Rmin_left by auto. apply Rmax_right. auto. Qed.
Lemma clip_range lo hi x : lo <= hi -> lo <= clip lo hi x <= hi.
Proof. intro H. unfold clip. split; [apply Rmax_l|]. apply Rmax_lub; [auto|apply Rmin_r]. Qed.
Lemma safeExp_pos x : 0 < safeExp x.
Proof. apply exp_pos. Qed.
Lemma logistic_deriv x : derivable_pt_lim (fun y => 1 / (1 + exp (- y))) x ((1 / (1 + exp (- x))) * (1 - 1 / (1 + exp (- x)))).
Proof.
  assert (P : forall y, 0 < 1 + exp (- y)) by (intro y; pose proof (exp_pos (- y)); lra).
  assert (E : derivable_pt_lim (fun y => 1 + exp (- y)) x (- exp (- x))).
  { eapply (fun a b => eq_ind a (fun l => derivable_pt_lim _ x l) b (- exp (- x))).
    - apply (derivable_pt_lim_plus (fun _ => 1) (fun y => exp (- y))); [apply derivable_pt_lim_const|].
      apply (derivable_pt_lim_comp (fun y => - y) exp).
      + apply (derivable_pt_lim_opp (fun y => y)). apply derivable_pt_lim_id.
      + apply derivable_pt_lim_exp.
    - ring. }
  eapply (fun a b => eq_ind a (fun l => derivable_pt_lim _ x l) b).
  - apply (derivable_pt_lim_div (fun _ => 1) (fun y => 1 + exp (- y)) x 0 (- exp (- x))); [apply derivable_pt_lim_const|exact E|specialize (P x); lra].
  - pose proof (P x). unfold Rsqr. field. lra.
Qed.
Lemma sigmoid_inner x : Rabs x <= 500 -> sigmoid x = 1 / (1 + exp (- x)).
Proof.
  intro H. unfold sigmoid, safeExp. rewrite clip_id; auto.
  unfold Rabs in H. destruct (Rcase_abs x); lra.
Qed.
Lemma sigmoid_deriv x : Rabs x < 500 -> derivable_pt_lim sigmoid x (sigmoidPrime x).
Proof.
  intro H. unfold sigmoidPrime. rewrite sigmoid_inner by lra.
  apply (dlim_local (fun y => 1 / (1 + exp (- y))) sigmoid x _ (500 - Rabs x)); [lra| |apply logistic_deriv].
  intros y Hy. symmetry. apply sigmoid_inner. pose proof (Rabs_triang (y - x) x). replace (y - x + x) with y in H0 by ring. lra.
Qed.
(** Outside the clipping range the sigmoid is constant, the backward pass is not. *)
Lemma sigmoid_deriv_outside x : 500 < Rabs x -> derivable_pt_lim sigmoid x 0.
Proof.
  intro H. unfold Rabs in H. destruct (Rcase_abs x).
  - apply (dlim_local (fun _ => 1 / (1 + exp 500)) sigmoid x _ (- x - 500)); [lra| |apply derivable_pt_lim_const].
    intros y Hy. unfold sigmoid, safeExp, clip. rewrite Rmin_right, Rmax_right; auto; [lra|].
    unfold Rabs in Hy. destruct (Rcase_abs (y - x)); lra.
  - apply (dlim_local (fun _ => 1 / (1 + exp (-500))) sigmoid x _ (x - 500)); [lra| |apply derivable_pt_lim_const].
    intros y Hy. unfold sigmoid, safeExp, clip. rewrite Rmin_left, Rmax_left; auto; unfold Rabs in Hy; destruct (Rcase_abs (y - x)); lra.
Qed.
Lemma sigmoid_range x : 0 < sigmoid x < 1.
Proof.
  unfold sigmoid. pose proof (safeExp_pos (- x)). split.
  - apply Rdiv_lt_0_compat; lra.
  - apply (Rmult_lt_reg_r (1 + safeExp (- x))); [lra|]. unfold Rdiv. rewrite Rmult_assoc, Rinv_l by lra. lra.
Qed.
Lemma sigmoidPrime_pos x : 0 < sigmoidPrime x.
Proof. unfold sigmoidPrime. pose proof (sigmoid_range x). apply Rmult_lt_0_compat; lra. Qed.
Lemma tanh_deriv x : derivable_pt_lim tanh x (1 - tanh x * tanh x).
Proof.
  assert (C : 0 < cosh x) by (unfold cosh; pose proof (exp_pos x); pose proof (exp_pos (- x)); lra).
  eapply (fun a b => eq_ind a (fun l => derivable_pt_lim _ x l) b).
  - apply (derivable_pt_lim_div sinh cosh x (cosh x) (sinh x)); [apply derivable_pt_lim_sinh|apply derivable_pt_lim_cosh|lra].
  - unfold tanh, Rsqr. field. lra.
Qed.
Lemma sigmoid_diff n v : (forall i, (i < n)%nat -> Rabs (v i) < 500) -> layer_diff_at (sigmoid_layer n) v.
Proof. intro H. apply elem_diff. intros i Hi. apply sigmoid_deriv. auto. Qed.
Lemma tanh_diff n v : layer_diff_at (tanh_layer n) v.
Proof. apply elem_diff. intros i Hi. apply tanh_deriv. Qed.

Lemma softsign_deriv x : derivable_pt_lim softsign x ((1 - Rabs (softsign x)) * (1 - Rabs (softsign x))).
Proof.
  assert (Hp : 0 < 1 + Rabs x) by (pose proof (Rabs_pos x); lra).
  assert (E : 1 - Rabs (softsign x) = / (1 + Rabs x)).
  { unfold softsign, Rdiv. rewrite Rabs_mult, Rabs_inv, (Rabs_right (1 + Rabs x)) by lra. field. lra. }
  rewrite E. destruct (Rtotal_order x 0) as [H|[H|H]].
  - apply (dlim_local (fun y => y / (1 - y)) softsign x _ (- x)); [lra| |].
    + intros y Hy. unfold softsign. rewrite (Rabs_left y); [unfold Rminus; auto|]. unfold Rabs in Hy. destruct (Rcase_abs (y - x)); lra.
    + eapply (fun a b => eq_ind a (fun l => derivable_pt_lim _ x l) b).
      * apply (derivable_pt_lim_div (fun y => y) (fun y => 1 - y) x 1 (0 - 1)); [apply derivable_pt_lim_id| |lra].
        apply (derivable_pt_lim_minus (fun _ => 1) (fun y => y)); [apply derivable_pt_lim_const|apply derivable_pt_lim_id].
      * rewrite Rabs_left by lra. unfold Rsqr. field. lra.
  - subst x. rewrite Rabs_R0. intros eps He. assert (Hd : 0 < eps) by auto. exists (mkposreal eps Hd). intros h Hh Hl. cbn in Hl.
    unfold softsign. rewrite Rplus_0_l, Rabs_R0. pose proof (Rabs_pos_lt h Hh) as Hph.
    replace ((h / (1 + Rabs h) - 0 / (1 + 0)) / h - / (1 + 0) * / (1 + 0)) with (- (Rabs h / (1 + Rabs h))) by (field; lra).
    rewrite Rabs_Ropp, Rabs_right.
    + apply (Rmult_lt_reg_r (1 + Rabs h)); [lra|]. unfold Rdiv. rewrite Rmult_assoc, Rinv_l by lra.
      assert (0 < eps * Rabs h) by (apply Rmult_lt_0_compat; lra). lra.
    + apply Rle_ge. apply Rlt_le. apply Rdiv_lt_0_compat; lra.
  - apply (dlim_local (fun y => y / (1 + y)) softsign x _ x); [lra| |].
    + intros y Hy. unfold softsign. rewrite (Rabs_right y); auto. unfold Rabs in Hy. destruct (Rcase_abs (y - x)); lra.
    + eapply (fun a b => eq_ind a (fun l => derivable_pt_lim _ x l) b).
      * apply (derivable_pt_lim_div (fun y => y) (fun y => 1 + y) x 1 (0 + 1)); [apply derivable_pt_lim_id| |lra].
        apply (derivable_pt_lim_plus (fun _ => 1) (fun y => y)); [apply derivable_pt_lim_const|apply derivable_pt_lim_id].
      * rewrite Rabs_right by lra. unfold Rsqr. field. lra.
Qed.
Lemma softsign_diff n v : layer_diff_at (softsign_layer n) v.
Proof. apply elem_diff. intros i Hi. apply softsign_deriv. Qed.

Lemma pos_local x y : x <> 0 -> Rabs (y - x) < Rabs x -> pos y = pos x.
Proof.
  intros Hx Hy. unfold pos. unfold Rabs in Hy. destruct (Rlt_dec 0 y), (Rlt_dec 0 x); auto; destruct (Rcase_abs (y - x)), (Rcase_abs x); lra.
Qed.
Lemma relu_diff n v : (forall i, (i < n)%nat -> v i <> 0) -> layer_diff_at (relu_layer n) v.
Proof.
  intros H w d H0 Hd. cbn [relu_layer l_in l_out l_fwd l_bwd] in *. exists (fun i => d i * pos (v i)). split.
  - intros i Hi. eapply dlim_val; [|apply (dlim_comp (fun s => w s i) (fun x => x * pos x) (d i) (pos (v i))); auto].
    + cbn. ring.
    + rewrite H0 by auto. apply (dlim_local (fun y => y * pos (v i)) _ (v i) _ (Rabs (v i))).
      * apply Rabs_pos_lt. auto.
      * intros y Hy. rewrite (pos_local (v i) y); auto.
      * eapply (fun a b => eq_ind a (fun l => derivable_pt_lim _ (v i) l) b).
        -- apply (derivable_pt_lim_mult (fun y => y) (fun _ => pos (v i))); [apply derivable_pt_lim_id|apply derivable_pt_lim_const].
        -- ring.
  - intro e. unfold dot. apply sumn_ext. intros i Hi. cbn. ring.
Qed.

(** ** Locality *)
Lemma relu_local n : layer_local (relu_layer n).
Proof. intros x y i H Hi. cbn in *. rewrite H by auto. auto. Qed.
Lemma softmax_local n : layer_local (softmax_layer n).
Proof. intros x y i H Hi. cbn in *. rewrite H by auto. apply (f_equal (fun s => safeExp (y i) / s)). apply sumn_ext. intros. rewrite H by auto. auto. Qed.
