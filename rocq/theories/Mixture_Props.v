(** C70: mixture density networks. *)
From Coq Require Import Reals Lra Psatz.
From Verif Require Import Base RingOps Net_Model Net_Gradient Layers_R Net_Gradient_Props Mixture_Model Mixture_Spec Mixture_Proofs.
Local Open Scope R_scope.

(** the outputs: mixing coefficients that are the softmax of their activations, exponentials, and the means as they are; also outside the range of exp
    the coefficients are positive and sum to 1 and the deviations are positive *)
Theorem C70_outputs K D a : (0 < K)%nat -> let y := l_fwd (mix_layer K D) a zvec in
  (forall k, (k < K)%nat -> 0 < y k) /\ sumn K y = 1 /\ (forall k, (k < K)%nat -> 0 < y (K + k)%nat)
  /\ (forall k j, y (2 * K + k * D + j)%nat = a (2 * K + k * D + j)%nat)
  /\ (moderate K a -> forall k, (k < K)%nat -> y k = softmax K a k /\ y (K + k)%nat = exp (a (K + k)%nat)).
Proof.
  intros HK y. destruct (proper_forward K a HK) as (_ & P & S). split; [intros k Hk; apply P; exact Hk|]. split; [exact S|]. split; [intros k Hk; apply (P k Hk)|].
  split; [intros; apply fwd_mean|]. intros HM k Hk. split.
  - change (y k) with (mix_forward K a k). rewrite fwd_mix by exact Hk. unfold softmax. rewrite safeExp_exp by (apply Rlt_le, HM; lia). f_equal.
    apply sumn_ext. intros j Hj. apply safeExp_exp. apply Rlt_le, HM. lia.
  - change (y (K + k)%nat) with (mix_forward K a (K + k)%nat). rewrite fwd_dev by exact Hk. apply safeExp_exp. apply Rlt_le, HM. lia.
Qed.
Example C70_outputs_ex : l_fwd (mix_layer 2 1) (fun i => INR i) zvec 5%nat = 5 /\ moderate 2 (fun i => INR i).
Proof.
  split; [cbn; lra|]. intros i Hi. rewrite Rabs_right; [|apply Rle_ge, pos_INR]. apply lt_INR in Hi. cbn [Nat.mul Nat.add INR] in Hi. lra.
Qed.

(** the error of a sample: the negative logarithm of the mixture, in which Gaussian k of D + 1 dimensions is too large by the D-th power of its deviation *)
Lemma error_closed K D a t : (0 < K)%nat -> moderate K a ->
  pattern_error K (S D) (mix_forward K a) t =
  - ln (mixture K (S D) (fun k => softmax K a k * exp (a (K + k)%nat) ^ D) (fun k => exp (a (K + k)%nat)) (fun k j => a (2 * K + k * S D + j)%nat) t).
Proof.
  intros HK HM. unfold pattern_error, sumg, mixture. f_equal. f_equal. apply sumn_ext. intros k Hk. unfold gamma0, stddev_of.
  destruct (C70_outputs K (S D) a HK) as (_ & _ & _ & Hm & He). specialize (He HM k Hk). destruct He as [E1 E2]. cbn [mix_layer l_fwd] in E1, E2, Hm.
  rewrite E1, E2, gaussian_isotropic by apply exp_pos. rewrite Rmult_assoc. f_equal. f_equal. unfold isotropic.
  assert (X : forall n, prodn n (fun j => normal (mean_of K (S D) (mix_forward K a) k j) (exp (a (K + k)%nat)) (t j)) = prodn n (fun j => normal (a (2 * K + k * S D + j)%nat) (exp (a (K + k)%nat)) (t j))).
  { induction n as [|n IH]; [reflexivity|]. cbn [prodn]. rewrite IH. unfold mean_of. rewrite fwd_mean. reflexivity. }
  apply X.
Qed.
Theorem C70_error K a t : (0 < K)%nat -> moderate K a -> pattern_error K 1 (mix_forward K a) t = nll K 1 a t.
Proof.
  intros HK HM. rewrite error_closed by assumption. unfold nll, mixture. f_equal. f_equal. apply sumn_ext. intros k Hk. cbn [pow]. rewrite Rmult_1_r. reflexivity.
Qed.
(** with one Gaussian the error differs from the negative log likelihood by the logarithm of the deviation for every dimension but the first *)
Lemma one_softmax a : softmax 1 a 0 = 1.
Proof. unfold softmax. cbn [sumn]. cbn [radd r0 ROps]. pose proof (exp_pos (a 0%nat)). field. lra. Qed.
Theorem C70_error_dimensions_refuted D a t : moderate 1 a -> pattern_error 1 (S D) (mix_forward 1 a) t = nll 1 (S D) a t - INR D * a 1%nat.
Proof.
  intro HM. rewrite error_closed by (lia || assumption). unfold nll, mixture. cbn [sumn]. cbn [radd r0 ROps]. rewrite !Rplus_0_l, one_softmax, !Rmult_1_l.
  rewrite ln_mult; [|apply pow_lt; apply exp_pos|apply isotropic_pos; apply exp_pos]. change (1 + 0)%nat with 1%nat.
  assert (E : ln (exp (a 1%nat) ^ D) = INR D * a 1%nat). { rewrite <- Rpower_pow by apply exp_pos. unfold Rpower. rewrite !ln_exp. reflexivity. }
  rewrite E. ring.
Qed.
Example C70_error_dimensions_refuted_ex : let a := fun i => match i with 1%nat => 1 | _ => 0 end in moderate 1 a /\ nll 1 2 a (fun _ => 0) <> pattern_error 1 2 (mix_forward 1 a) (fun _ => 0).
Proof.
  set (a := fun i => match i with 1%nat => 1 | _ => 0 end). assert (HM : moderate 1 a) by (intros i Hi; unfold a; destruct i as [|[|i]]; rewrite ?Rabs_R0, ?Rabs_R1; lra).
  split; [exact HM|]. rewrite (C70_error_dimensions_refuted 1 a (fun _ => 0) HM). cbn [a INR]. lra.
Qed.

(** the errors sent back: minus the derivative of the error by the activations of the coefficients and of the means, but by the deviations themselves *)
Theorem C70_gradient K D t (w : R -> rvec) (a d : rvec) : (0 < K)%nat -> moderate K a ->
  (forall i, (i < K * (D + 2))%nat -> w 0 i = a i) -> (forall i, (i < K * (D + 2))%nat -> dlim (fun s => w s i) (d i)) ->
  let e := l_bwd (mix_layer K D) (pattern_outerr K D (mix_forward K (w 0)) t) zvec zvec zvec in
  dlim (fun s => pattern_error K D (mix_forward K (w s)) t)
    (- (sumn K (fun k => e k * d k) + sumn K (fun k => safeExp (a (K + k)%nat) * (e (K + k)%nat * d (K + k)%nat))
        + sumn K (fun k => sumn D (fun j => e (2 * K + k * D + j)%nat * d (2 * K + k * D + j)%nat)))).
Proof.
  intros HK HM H0 Hd e. eapply dlim_val; [|apply (error_deriv K D t w a d HK H0 Hd HM)]. f_equal. f_equal. f_equal.
  apply sumn_ext. intros k Hk. unfold stddev_of. rewrite fwd_dev by exact Hk. rewrite H0 by nia. reflexivity.
Qed.
Lemma moderate_near K (w : R -> rvec) (d : rvec) : moderate K (w 0) -> (forall i, (i < 2 * K)%nat -> dlim (fun s => w s i) (d i)) ->
  exists del, 0 < del /\ forall s, Rabs s < del -> moderate K (w s).
Proof.
  unfold moderate. generalize (2 * K)%nat as n. induction n as [|n IH]; intros HM Hd.
  - exists 1. split; [lra|]. intros s _ i Hi. lia.
  - destruct IH as (d1 & P1 & H1); [intros; apply HM; lia|intros; apply Hd; lia|].
    assert (Cn : continuity_pt (fun s => w s n) 0). { apply derivable_continuous_pt. exists (d n). apply Hd. lia. }
    assert (Pe : 0 < 500 - Rabs (w 0 n)) by (specialize (HM n ltac:(lia)); lra). destruct (Cn _ Pe) as (d2 & P2 & H2).
    exists (Rmin d1 d2). split; [apply Rmin_pos; assumption|]. intros s Hs i Hi. pose proof (Rmin_l d1 d2). pose proof (Rmin_r d1 d2).
    destruct (Nat.eq_dec i n) as [->|]; [|apply H1; [lra|lia]]. destruct (Req_dec s 0) as [->|Hne]; [apply HM; lia|].
    assert (X : Rabs (w s n - w 0 n) < 500 - Rabs (w 0 n)).
    { apply (H2 s). split; [split; [exact I|lra]|]. cbn. unfold R_dist. rewrite Rminus_0_r. lra. }
    pose proof (Rabs_triang (w s n - w 0 n) (w 0 n)) as T. replace (w s n - w 0 n + w 0 n) with (w s n) in T by ring. lra.
Qed.
(** in one dimension this is the likelihood *)
Theorem C70_gradient_likelihood K t (w : R -> rvec) (d : rvec) : (0 < K)%nat -> moderate K (w 0) -> (forall i, (i < K * (1 + 2))%nat -> dlim (fun s => w s i) (d i)) ->
  let e := pattern_outerr K 1 (mix_forward K (w 0)) t in
  dlim (fun s => nll K 1 (w s) t)
    (- (sumn K (fun k => e k * d k) + sumn K (fun k => exp (w 0 (K + k)%nat) * (e (K + k)%nat * d (K + k)%nat)) + sumn K (fun k => e (2 * K + k)%nat * d (2 * K + k)%nat))).
Proof.
  intros HK HM Hd e. destruct (moderate_near K w d HM) as (del & Pd & HN); [intros i Hi; apply Hd; lia|].
  apply (dlim_local (fun s => pattern_error K 1 (mix_forward K (w s)) t) _ 0 _ del); [exact Pd| |].
  - intros s Hs. rewrite Rminus_0_r in Hs. apply C70_error; [exact HK|apply HN; exact Hs].
  - eapply dlim_val; [|apply (C70_gradient K 1 t w (w 0) d HK HM); [reflexivity|exact Hd]]. f_equal. f_equal; [f_equal|].
    + apply sumn_ext. intros k Hk. rewrite safeExp_exp by (apply Rlt_le, HM; lia). reflexivity.
    + apply sumn_ext. intros k Hk. cbn [sumn]. cbn [radd r0 ROps]. rewrite Rplus_0_l. replace (2 * K + k * 1 + 0)%nat with (2 * K + k)%nat by lia. reflexivity.
Qed.
(** hence the errors are not minus the derivatives by the activations *)
Theorem C70_deviation_refuted : ~ (forall K t (w : R -> rvec) (d : rvec), (0 < K)%nat -> moderate K (w 0) -> (forall i, (i < K * (1 + 2))%nat -> dlim (fun s => w s i) (d i)) ->
  dlim (fun s => nll K 1 (w s) t) (- sumn (K * (1 + 2)) (fun i => pattern_outerr K 1 (mix_forward K (w 0)) t i * d i))).
Proof.
  intro H. set (u := fun i : nat => match i with 1%nat => 1 | _ => 0 end). set (w := fun s i => u i + s * u i).
  assert (HM : moderate 1 (w 0)) by (intros i Hi; unfold w, u; destruct i as [|[|i]]; rewrite Rmult_0_l, Rplus_0_r, ?Rabs_R0, ?Rabs_R1; lra).
  assert (Hd : forall i, (i < 1 * (1 + 2))%nat -> dlim (fun s => w s i) (u i)) by (intros; apply dlim_line).
  pose proof (H 1%nat (fun _ => 0) w u ltac:(lia) HM Hd) as H1. pose proof (C70_gradient_likelihood 1 (fun _ => 0) w u ltac:(lia) HM Hd) as H2. cbv zeta in H2.
  pose proof (uniqueness_limite _ _ _ _ H1 H2) as E. change (1 * (1 + 2))%nat with 3%nat in E. cbn [sumn] in E. cbn [radd r0 ROps] in E.
  unfold u in E at 1 2 3 4 5 6. cbn [Nat.add Nat.mul] in E. change (1 + 0)%nat with 1%nat in E. change (2 + 0)%nat with 2%nat in E. cbv match in E.
  set (e := pattern_outerr 1 1 (mix_forward 1 (w 0)) (fun _ => 0) 1%nat) in E.
  assert (Ee : e = - 1 * / exp 1).
  { unfold e. change 1%nat with (1 + 0)%nat at 4. rewrite outerr_s by lia. unfold grad_s. 
    pose proof (gamma_sum 1 1 (mix_forward 1 (w 0)) (fun _ => 0) (proper_forward 1 (w 0) ltac:(lia))) as G. cbn [sumn] in G. cbn [radd r0 ROps] in G. rewrite Rplus_0_l in G. rewrite G.
    cbn [sumn]. cbn [radd r0 ROps]. unfold delta, mean_of, invvariance, invstddev, stddev_of. rewrite fwd_mean. rewrite fwd_dev by lia.
    unfold w, u. cbn [Nat.add Nat.mul]. rewrite safeExp_exp by (rewrite Rmult_0_l, Rplus_0_r, Rabs_R1; lra). replace (1 + 0 * 1) with 1 by ring. pose proof (exp_pos 1). field. lra. }
  replace (w 0 1%nat) with 1 in E by (unfold w, u; ring). rewrite Ee in E. pose proof (exp_ineq1 1 R1_neq_R0) as X. assert (Y : / exp 1 < 1) by (apply Rmult_lt_reg_l with (exp 1); [lra|rewrite Rinv_r; lra]).
  assert (exp 1 * / exp 1 = 1) by (apply Rinv_r; lra). lra.
Qed.
(** one Gaussian in D + 1 dimensions: the deviation that training aims for is the distance of the target, the most likely one is smaller *)
Theorem C70_deviation_aim_refuted D par t : par 0%nat = 1 -> 0 < par 1%nat ->
  (pattern_outerr 1 (S D) par t 1%nat = 0 <-> sumn (S D) (fun j => (t j - par (2 + j)%nat) ^ 2) = par 1%nat ^ 2)
  /\ (forall s, 0 < s -> let Q := sumn (S D) (fun j => (t j - par (2 + j)%nat) ^ 2) in
      derivable_pt_lim (fun u => - ln (isotropic (S D) (fun j => par (2 + j)%nat) u t)) s (INR (S D) / s - Q / s ^ 3)).
Proof.
  intros P0 P1. assert (PR : proper 1 par). { split; [lia|]. split; [intros k Hk; replace k with 0%nat by lia; unfold stddev_of; cbn [Nat.add]; split; [rewrite P0; exact Rlt_0_1|exact P1]|]. cbn [sumn]. cbn [radd r0 ROps]. rewrite P0. ring. }
  split.
  - change 1%nat with (1 + 0)%nat at 2. rewrite outerr_s by lia. unfold grad_s. pose proof (gamma_sum 1 (S D) par t PR) as G. cbn [sumn] in G. cbn [radd r0 ROps] in G. rewrite Rplus_0_l in G. rewrite G.
    unfold delta, mean_of, invvariance, invstddev, stddev_of. change (1 + 0)%nat with 1%nat. set (Q := sumn (S D) (fun j => (t j - par (2 + j)%nat) ^ 2)).
    replace (sumn (S D) (fun j => (par (2 * 1 + 0 * S D + j)%nat - t j) * (par (2 * 1 + 0 * S D + j)%nat - t j))) with Q.
    2:{ apply sumn_ext. intros j Hj. replace (2 * 1 + 0 * S D + j)%nat with (2 + j)%nat by lia. ring. }
    set (s := par 1%nat) in *. replace (- (- (1) * (Q * (1 / s ^ 2) * (1 / s) - 1 / s))) with ((Q - s ^ 2) * / s ^ 3) by (field; lra).
    assert (Hs : / s ^ 3 <> 0) by (apply Rinv_neq_0_compat; apply pow_nonzero; lra). split; intro H; [|rewrite H; ring].
    apply Rmult_integral in H. destruct H as [H|H]; [lra|contradiction].
  - intros s Ps Q. set (n := S D). set (C := sqrt (2 * PI) ^ n). assert (PC : 0 < C) by (apply pow_lt; apply sqrt_lt_R0; pose proof PI_RGT_0; lra).
    apply (dlim_local (fun u => Q / 2 * / u ^ 2 + (ln C + INR n * ln u)) _ s _ s); [exact Ps| |].
    + intros u Hu. assert (Pu : 0 < u) by (unfold Rabs in Hu; destruct (Rcase_abs (u - s)); lra). rewrite isotropic_closed by exact Pu. fold C.
      assert (Pn : 0 < u ^ n) by (apply pow_lt; exact Pu). set (A := - (1 / 2) * sumn n (fun j => ((t j - par (2 + j)%nat) / u) ^ 2)).
      replace (ln (exp A / (C * u ^ n))) with (A - (ln C + ln (u ^ n))).
      2:{ unfold Rdiv. assert (0 < C * u ^ n) by (apply Rmult_lt_0_compat; assumption). rewrite ln_mult; [|apply exp_pos|apply Rinv_0_lt_compat; assumption]. rewrite ln_exp, ln_Rinv by assumption. rewrite ln_mult by assumption. ring. }
      assert (E : ln (u ^ n) = INR n * ln u) by (rewrite <- Rpower_pow by exact Pu; unfold Rpower; apply ln_exp). rewrite E. unfold A.
      replace (sumn n (fun j => ((t j - par (2 + j)%nat) / u) ^ 2)) with (/ u ^ 2 * Q); [lra|]. unfold Q. fold n. rewrite rsum_mul_l. apply sumn_ext. intros j Hj. field. lra.
    + eapply (fun x y => eq_ind x (fun l => derivable_pt_lim _ s l) y).
      * apply (derivable_pt_lim_plus (fun u => Q / 2 * / u ^ 2) (fun u => ln C + INR n * ln u)).
        -- apply (derivable_pt_lim_div (fun _ => Q / 2) (fun u => u ^ 2)); [apply derivable_pt_lim_const|apply (derivable_pt_lim_pow s 2)|apply pow_nonzero; lra].
        -- apply (derivable_pt_lim_plus (fun _ => ln C) (fun u => INR n * ln u)); [apply derivable_pt_lim_const|].
           apply (derivable_pt_lim_mult (fun _ => INR n) ln); [apply derivable_pt_lim_const|apply derivable_pt_lim_ln; exact Ps].
      * unfold Rsqr. cbn [INR pow Init.Nat.pred]. field. lra.
Qed.

(** posterior probabilities: positive, they sum to 1; the errors of the coefficients are between -1 and 1 and cancel *)
Theorem C70_posterior K D a t : (0 < K)%nat -> let par := mix_forward K a in let e := pattern_outerr K D par t in
  (forall k, (k < K)%nat -> 0 < gamma K D par t k <= 1) /\ sumn K (gamma K D par t) = 1 /\ (forall k, (k < K)%nat -> -1 < e k < 1) /\ sumn K e = 0.
Proof.
  intros HK par e. pose proof (proper_forward K a HK) as PR. fold par in PR. pose proof (gamma_sum K D par t PR) as G.
  assert (LE : forall n (f : nat -> R), (forall i, (i < n)%nat -> 0 < f i) -> forall k, (k < n)%nat -> f k <= sumn n f).
  { clear. induction n as [|n IH]; intros f P k Hk; [lia|]. cbn [sumn]. cbn [radd ROps]. destruct (Nat.eq_dec k n) as [->|].
    - destruct n as [|n]; [cbn; lra|]. pose proof (Rsum_pos (S n) f ltac:(lia) (fun i Hi => P i ltac:(lia))). lra.
    - pose proof (IH f (fun i Hi => P i ltac:(lia)) k ltac:(lia)). pose proof (P n ltac:(lia)). lra. }
  assert (Hg : forall k, (k < K)%nat -> 0 < gamma K D par t k <= 1).
  { intros k Hk. split; [apply gamma_pos; assumption|]. rewrite <- G. apply LE; [|exact Hk]. intros. apply gamma_pos; assumption. }
  split; [exact Hg|]. split; [exact G|]. split.
  - intros k Hk. unfold e. rewrite outerr_c by exact Hk. unfold grad_c. specialize (Hg k Hk). destruct PR as (_ & P & S). pose proof (LE K par (fun i Hi => proj1 (P i Hi)) k Hk). rewrite S in H. destruct (P k Hk). lra.
  - transitivity (- sumn K (grad_c K D par t)); [rewrite rsum_opp; apply sumn_ext; intros; apply outerr_c; assumption|]. rewrite grad_c_sum by exact PR. ring.
Qed.

(** a sequence: the errors of the samples add up, every time gets the error of its own sample, last first; the weight is 1 whatever the length *)
Lemma calc_spec K D rs e0 sent : calc K D rs e0 sent = (e0 + suml rs (fun r => pattern_error K D (fst r) (snd r)), sent ++ map (fun r => pattern_outerr K D (fst r) (snd r)) rs).
Proof.
  revert e0 sent. induction rs as [|[p t] rs IH]; intros e0 sent; cbn [calc suml map]; cbn [radd r0 ROps].
  - rewrite Rplus_0_r, app_nil_r. reflexivity.
  - rewrite IH, <- app_assoc. cbn [fst snd app]. f_equal. ring.
Qed.
Lemma suml_rev {A} (l : list A) (f : A -> R) : suml (rev l) f = suml l f.
Proof.
  assert (X : forall a b, suml (a ++ b) f = suml a f + suml b f).
  { induction a as [|x a IH]; intro b; cbn [app suml]; cbn [radd r0 ROps]; [ring|]. rewrite IH. ring. }
  induction l as [|x l IH]; [reflexivity|]. cbn [rev]. rewrite X, IH. cbn [suml]. cbn [radd r0 ROps]. ring.
Qed.
Theorem C70_sequence K D outs targets : length outs = length targets ->
  calcDerivs K D outs targets = (suml (combine outs targets) (fun r => pattern_error K D (fst r) (snd r)), 1, rev (map (fun r => pattern_outerr K D (fst r) (snd r)) (combine outs targets))).
Proof. intros _. unfold calcDerivs. rewrite calc_spec, suml_rev, map_rev. rewrite Rplus_0_l. reflexivity. Qed.
Example C70_sequence_ex K D o1 o2 t1 t2 : exists e, calcDerivs K D [o1; o2] [t1; t2] = (e, 1, [pattern_outerr K D o2 t2; pattern_outerr K D o1 t1]).
Proof. eexists. apply (C70_sequence K D [o1; o2] [t1; t2]). reflexivity. Qed.

(** a case that meets the hypotheses of the gradient theorems: two Gaussians, all activations moving *)
Example C70_gradient_ex : let w := fun (s : R) (i : nat) => 1 / 2 + s * 3 in moderate 2 (w 0) /\ (forall i, (i < 2 * (1 + 2))%nat -> dlim (fun s => w s i) 3).
Proof. split; [intros i _; cbv beta; replace (1 / 2 + 0 * 3) with (1 / 2) by ring; rewrite Rabs_right; lra|]. intros i _. apply dlim_line. Qed.
Example C70_deviation_aim_ex : let par := fun i : nat => match i with 0%nat | 1%nat => 1 | _ => 0 end in par 0%nat = 1 /\ 0 < par 1%nat /\ sumn 2 (fun j => (1 - par (2 + j)%nat) ^ 2) <> par 1%nat ^ 2.
Proof. cbn. repeat split; lra. Qed.

Print Assumptions C70_outputs.
Print Assumptions C70_error.
Print Assumptions C70_error_dimensions_refuted.
Print Assumptions C70_gradient.
Print Assumptions C70_gradient_likelihood.
Print Assumptions C70_deviation_refuted.
Print Assumptions C70_deviation_aim_refuted.
Print Assumptions C70_posterior.
Print Assumptions C70_sequence.
