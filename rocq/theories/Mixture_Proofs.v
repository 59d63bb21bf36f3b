(** Proofs for C70. *)
From Coq Require Import Reals Lra Psatz.
From Verif Require Import Base RingOps Net_Model Net_Gradient Layers_R Net_Gradient_Props Mixture_Model Mixture_Spec.
Local Open Scope R_scope.
Ltac flat := cbn [radd rmul rsub r0 r1 ropp ROps] in *.

Lemma dlim_exp f a : dlim f a -> dlim (fun s => exp (f s)) (exp (f 0) * a).
Proof. intro H. apply (dlim_comp f exp); [exact H|apply derivable_pt_lim_exp]. Qed.
Lemma dlim_ln f a : 0 < f 0 -> dlim f a -> dlim (fun s => ln (f s)) (/ f 0 * a).
Proof. intros P H. apply (dlim_comp f ln); [exact H|apply derivable_pt_lim_ln; exact P]. Qed.
Lemma dlim_div f g a b : g 0 <> 0 -> dlim f a -> dlim g b -> dlim (fun s => f s / g s) ((a * g 0 - b * f 0) / (g 0) ^ 2).
Proof.
  intros P H1 H2. eapply dlim_val; [|apply (derivable_pt_lim_div f g 0 a b H1 H2 P)]. unfold Rsqr. field. exact P.
Qed.
Lemma dlim_opp f a : dlim f a -> dlim (fun s => - f s) (- a).
Proof. apply (derivable_pt_lim_opp f). Qed.
Lemma dlim_sq f a : dlim f a -> dlim (fun s => (f s) ^ 2) (2 * f 0 * a).
Proof.
  intro H. eapply dlim_ext; [|eapply dlim_val; [|apply (dlim_mul f f a a H H)]]; [intro s; cbv beta; ring|ring].
Qed.
Lemma safeExp_exp x : Rabs x <= 500 -> safeExp x = exp x.
Proof. intro H. unfold safeExp. rewrite clip_id; [reflexivity|]. unfold Rabs in H. destruct (Rcase_abs x); lra. Qed.
Lemma safeExp_deriv x : Rabs x < 500 -> derivable_pt_lim safeExp x (safeExp x).
Proof.
  intro H. rewrite safeExp_exp by lra. apply (dlim_local exp safeExp x _ (500 - Rabs x)); [lra| |apply derivable_pt_lim_exp].
  intros y Hy. symmetry. apply safeExp_exp. pose proof (Rabs_triang (y - x) x) as T. replace (y - x + x) with y in T by ring. lra.
Qed.
Lemma dlim_safe f a : Rabs (f 0) < 500 -> dlim f a -> dlim (fun s => safeExp (f s)) (safeExp (f 0) * a).
Proof. intros P H. apply (dlim_comp f safeExp); [exact H|apply safeExp_deriv; exact P]. Qed.

(** ** one Gaussian *)
Lemma root_power D : Rpower (2 * PI) (INR D / 2) = sqrt (2 * PI) ^ D.
Proof.
  assert (P : 0 < 2 * PI) by (pose proof PI_RGT_0; lra). replace (INR D / 2) with (/ 2 * INR D) by field. rewrite <- Rpower_mult, Rpower_sqrt by exact P.
  apply Rpower_pow. apply sqrt_lt_R0. exact P.
Qed.
Lemma gaussian_pos D x m s : 0 < s -> 0 < gaussian D x m s.
Proof. intro P. unfold gaussian. apply Rdiv_lt_0_compat; [apply exp_pos|]. apply Rmult_lt_0_compat; [apply exp_pos|exact P]. Qed.
Lemma isotropic_closed D m s x : 0 < s ->
  isotropic D m s x = exp (- (1 / 2) * sumn D (fun j => ((x j - m j) / s) ^ 2)) / (sqrt (2 * PI) ^ D * s ^ D).
Proof.
  intro P. assert (P2 : 0 < sqrt (2 * PI)) by (apply sqrt_lt_R0; pose proof PI_RGT_0; lra). unfold isotropic. induction D as [|D IH].
  - cbn [prodn sumn pow]. flat. rewrite Rmult_0_r, exp_0. field.
  - cbn [prodn sumn]. flat. rewrite IH. unfold normal. rewrite Rmult_plus_distr_l, exp_plus.
    replace (- ((x D - m D) ^ 2 / (2 * s ^ 2))) with (- (1 / 2) * ((x D - m D) / s) ^ 2) by (field; lra).
    rewrite <- !tech_pow_Rmult. set (E1 := exp _). set (E2 := exp _).
    assert (0 < sqrt (2 * PI) ^ D) by (apply pow_lt; exact P2). assert (0 < s ^ D) by (apply pow_lt; exact P). field. repeat split; lra.
Qed.
Lemma isotropic_pos D m s x : 0 < s -> 0 < isotropic D m s x.
Proof.
  intro P. rewrite isotropic_closed by exact P. apply Rdiv_lt_0_compat; [apply exp_pos|].
  assert (P2 : 0 < sqrt (2 * PI)) by (apply sqrt_lt_R0; pose proof PI_RGT_0; lra). apply Rmult_lt_0_compat; apply pow_lt; assumption.
Qed.
(** the code divides by the deviation once, not once for every dimension *)
Lemma gaussian_isotropic D x m s : 0 < s -> gaussian (S D) x m s = s ^ D * isotropic (S D) m s x.
Proof.
  intro P. rewrite isotropic_closed by exact P. unfold gaussian. cbv zeta. rewrite root_power.
  assert (P2 : 0 < sqrt (2 * PI)) by (apply sqrt_lt_R0; pose proof PI_RGT_0; lra).
  assert (0 < sqrt (2 * PI) ^ S D) by (apply pow_lt; exact P2). assert (0 < s ^ D) by (apply pow_lt; exact P). cbn [pow]. cbn [pow] in H. field. repeat split; try lra.
  apply Rgt_not_eq. apply pow_lt. exact P2.
Qed.
Lemma gaussian_deriv D x (m : R -> rvec) (dm : rvec) (s : R -> R) ds : 0 < s 0 -> (forall j, (j < D)%nat -> dlim (fun u => m u j) (dm j)) -> dlim s ds ->
  dlim (fun u => gaussian D x (m u) (s u))
       (gaussian D x (m 0) (s 0) * (sumn D (fun j => (x j - m 0 j) / (s 0) ^ 2 * dm j) + (sumn D (fun j => (x j - m 0 j) ^ 2) / (s 0) ^ 3 - / s 0) * ds)).
Proof.
  intros P Hm Hs. unfold gaussian. set (C := Rpower (2 * PI) (INR D / 2)). assert (PC : 0 < C) by apply exp_pos.
  set (T := fun u => - (1 / 2) * sumn D (fun j => ((x j - m u j) / s u) ^ 2)).
  assert (HT : dlim T (sumn D (fun j => (x j - m 0 j) / (s 0) ^ 2 * dm j) + sumn D (fun j => (x j - m 0 j) ^ 2) / (s 0) ^ 3 * ds)).
  { eapply dlim_val. 2:{ apply (dlim_mul (fun _ => - (1 / 2)) (fun u => sumn D (fun j => ((x j - m u j) / s u) ^ 2))); [apply dlim_const|].
      apply dlim_sumn with (d := fun j => 2 * ((x j - m 0 j) / s 0) * (((0 - dm j) * s 0 - ds * (x j - m 0 j)) / (s 0) ^ 2)). intros j Hj.
      apply (dlim_sq (fun u => (x j - m u j) / s u)). apply (dlim_div (fun u => x j - m u j) s); [lra| |exact Hs].
      apply (dlim_sub (fun _ => x j)); [apply dlim_const|apply Hm; exact Hj]. }
    cbv beta. rewrite Rmult_0_l, Rplus_0_l. unfold Rdiv at 5. rewrite Rmult_assoc, (Rmult_comm (/ s 0 ^ 3) ds). 
    change Rmult with (@rmul R ROps). rewrite <- (sumn_mul_l (L := RLaws)), <- (sumn_mul_r (L := RLaws)). flat.
    change Rplus with (@radd R ROps). rewrite <- (sumn_add (L := RLaws)). flat. apply sumn_ext. intros j Hj. field. lra. }
  eapply dlim_val. 2:{ apply (dlim_div (fun u => exp (T u)) (fun u => C * s u)).
    - apply Rgt_not_eq. apply Rmult_lt_0_compat; assumption.
    - apply dlim_exp. exact HT.
    - apply (dlim_mul (fun _ => C) s); [apply dlim_const|exact Hs]. }
  fold (T 0). field. lra.
Qed.

(** ** the layer *)
Lemma Rsum_pos n (f : nat -> R) : (0 < n)%nat -> (forall i, (i < n)%nat -> 0 < f i) -> 0 < sumn n f.
Proof. intros H1 H2. apply sumn_pos; auto. Qed.
Lemma fwd_mix K a i : (i < K)%nat -> mix_forward K a i = safeExp (a i) / sumn K (fun j => safeExp (a j)).
Proof. intro H. unfold mix_forward. destruct (Nat.ltb_spec i K); [reflexivity|lia]. Qed.
Lemma fwd_dev K a k : (k < K)%nat -> mix_forward K a (K + k)%nat = safeExp (a (K + k)%nat).
Proof. intro H. unfold mix_forward. destruct (Nat.ltb_spec (K + k) K); [lia|]. destruct (Nat.ltb_spec (K + k) (2 * K)); [reflexivity|lia]. Qed.
Lemma fwd_mean K D a k j : mix_forward K a (2 * K + k * D + j)%nat = a (2 * K + k * D + j)%nat.
Proof. unfold mix_forward. destruct (Nat.ltb_spec (2 * K + k * D + j) K); [lia|]. destruct (Nat.ltb_spec (2 * K + k * D + j) (2 * K)); [lia|reflexivity]. Qed.
Lemma exps_pos K a : (0 < K)%nat -> 0 < sumn K (fun j => safeExp (a j)).
Proof. intro H. apply Rsum_pos; [exact H|]. intros. apply safeExp_pos. Qed.
Lemma coeff_pos K a k : (k < K)%nat -> 0 < mix_forward K a k.
Proof. intro H. rewrite fwd_mix by exact H. apply Rdiv_lt_0_compat; [apply safeExp_pos|apply exps_pos; lia]. Qed.
Lemma coeff_sum K a : (0 < K)%nat -> sumn K (mix_forward K a) = 1.
Proof.
  intro H. pose proof (exps_pos K a H). transitivity (sumn K (fun i => safeExp (a i) * / sumn K (fun j => safeExp (a j)))).
  - apply sumn_ext. intros i Hi. apply fwd_mix. exact Hi.
  - change Rmult with (@rmul R ROps). rewrite (sumn_mul_r (L := RLaws)). flat. apply Rinv_r. lra.
Qed.
Lemma outerr_c K D par t k : (k < K)%nat -> pattern_outerr K D par t k = - grad_c K D par t k.
Proof. intro H. unfold pattern_outerr. destruct (Nat.ltb_spec k K); [reflexivity|lia]. Qed.
Lemma outerr_s K D par t k : (k < K)%nat -> pattern_outerr K D par t (K + k)%nat = - grad_s K D par t k.
Proof.
  intro H. unfold pattern_outerr. destruct (Nat.ltb_spec (K + k) K); [lia|]. destruct (Nat.ltb_spec (K + k) (2 * K)); [|lia].
  replace (K + k - K)%nat with k by lia. reflexivity.
Qed.
Lemma outerr_m K D par t k j : (j < D)%nat -> pattern_outerr K D par t (2 * K + k * D + j)%nat = - grad_m K D par t k j.
Proof.
  intro H. unfold pattern_outerr. destruct (Nat.ltb_spec (2 * K + k * D + j) K); [lia|]. destruct (Nat.ltb_spec (2 * K + k * D + j) (2 * K)); [lia|].
  replace (2 * K + k * D + j - 2 * K)%nat with (j + k * D)%nat by lia. rewrite Nat.div_add, Nat.mod_add, Nat.div_small, Nat.mod_small by lia. reflexivity.
Qed.
Lemma gamma0_pos K D par t k : 0 < par k -> 0 < stddev_of K par k -> 0 < gamma0 K D par t k.
Proof. intros A B. unfold gamma0. apply Rmult_lt_0_compat; [exact A|apply gaussian_pos; exact B]. Qed.
Definition proper (K : nat) (par : rvec) : Prop := (0 < K)%nat /\ (forall k, (k < K)%nat -> 0 < par k /\ 0 < stddev_of K par k) /\ sumn K par = 1.
Lemma proper_forward K a : (0 < K)%nat -> proper K (mix_forward K a).
Proof.
  intro H. split; [exact H|]. split; [|apply coeff_sum; exact H]. intros k Hk. split; [apply coeff_pos; exact Hk|]. unfold stddev_of. rewrite fwd_dev by exact Hk. apply safeExp_pos.
Qed.
Lemma sumg_pos K D par t : proper K par -> 0 < sumg K D par t.
Proof. intros (H & P & _). apply Rsum_pos; [exact H|]. intros k Hk. destruct (P k Hk). apply gamma0_pos; assumption. Qed.
Lemma gamma_pos K D par t k : proper K par -> (k < K)%nat -> 0 < gamma K D par t k.
Proof. intros P Hk. pose proof (sumg_pos K D par t P). destruct P as (_ & P & _). destruct (P k Hk). apply Rdiv_lt_0_compat; [apply gamma0_pos; assumption|assumption]. Qed.
Lemma gamma_sum K D par t : proper K par -> sumn K (gamma K D par t) = 1.
Proof.
  intro P. pose proof (sumg_pos K D par t P) as G. unfold gamma, Rdiv. change Rmult with (@rmul R ROps). rewrite (sumn_mul_r (L := RLaws)). flat. apply Rinv_r.
  change (sumn K (gamma0 K D par t)) with (sumg K D par t). lra.
Qed.
Lemma grad_c_sum K D par t : proper K par -> sumn K (grad_c K D par t) = 0.
Proof.
  intro P. unfold grad_c. change Rminus with (@rsub R ROps). rewrite (sumn_sub (L := RLaws)). flat.
  change (sumn K (fun i => gamma K D par t i)) with (sumn K (gamma K D par t)). change (sumn K (fun i => par i)) with (sumn K par). rewrite gamma_sum by exact P. destruct P as (_ & _ & ->). ring.
Qed.

(** ** the derivative of the error along a curve of activations *)
Lemma rsum_mul_l n c (f : nat -> R) : c * sumn n f = sumn n (fun i => c * f i).
Proof. symmetry. apply (sumn_mul_l (L := RLaws)). Qed.
Lemma rsum_add n (f g : nat -> R) : sumn n f + sumn n g = sumn n (fun i => f i + g i).
Proof. symmetry. apply (sumn_add (L := RLaws)). Qed.
Lemma rsum_sub n (f g : nat -> R) : sumn n f - sumn n g = sumn n (fun i => f i - g i).
Proof. symmetry. apply (sumn_sub (L := RLaws)). Qed.
Lemma rsum_opp n (f : nat -> R) : - sumn n f = sumn n (fun i => - f i).
Proof. replace (- sumn n f) with (-1 * sumn n f) by ring. rewrite rsum_mul_l. apply sumn_ext. intros. ring. Qed.
Section Curve.
Context (K D : nat) (t : rvec) (w : R -> rvec) (a d : rvec).
Hypothesis HK : (0 < K)%nat.
Hypothesis H0 : forall i, (i < K * (D + 2))%nat -> w 0 i = a i.
Hypothesis Hd : forall i, (i < K * (D + 2))%nat -> dlim (fun s => w s i) (d i).
Hypothesis HM : moderate K a.
Let par := mix_forward K (w 0).
Lemma small i : (i < 2 * K)%nat -> Rabs (w 0 i) < 500.
Proof using HK H0 HM. intro H. rewrite H0 by nia. apply HM. exact H. Qed.
Lemma coeff_deriv k : (k < K)%nat -> dlim (fun s => mix_forward K (w s) k) (par k * (d k - sumn K (fun j => par j * d j))).
Proof using HK H0 Hd HM.
  intro Hk. apply (dlim_ext (fun s => safeExp (w s k) / sumn K (fun j => safeExp (w s j)))); [intro s; symmetry; apply fwd_mix; exact Hk|]. set (S := sumn K (fun j => safeExp (w 0 j))).
  assert (PS : 0 < S) by (apply exps_pos; exact HK). eapply dlim_val.
  2:{ apply (dlim_div (fun s => safeExp (w s k)) (fun s => sumn K (fun j => safeExp (w s j)))); [fold S; lra| |].
      - apply dlim_safe; [apply small; lia|apply Hd; nia].
      - apply (dlim_sumn K (fun j s => safeExp (w s j))) with (d := fun j => safeExp (w 0 j) * d j). intros j Hj. apply dlim_safe; [apply small; lia|apply Hd; nia]. }
  fold S. unfold par. rewrite fwd_mix by exact Hk. fold S.
  assert (E : sumn K (fun j => mix_forward K (w 0) j * d j) = / S * sumn K (fun j => safeExp (w 0 j) * d j)).
  { rewrite rsum_mul_l. apply sumn_ext. intros j Hj. rewrite fwd_mix by exact Hj. fold S. unfold Rdiv. ring. }
  rewrite E. field. lra.
Qed.
Definition logd (k : nat) : R :=
  sumn D (fun j => (t j - mean_of K D par k j) / (stddev_of K par k) ^ 2 * d (2 * K + k * D + j)%nat)
  + (sumn D (fun j => (t j - mean_of K D par k j) ^ 2) / (stddev_of K par k) ^ 3 - / stddev_of K par k) * (stddev_of K par k * d (K + k)%nat).
Lemma gamma0_deriv k : (k < K)%nat -> dlim (fun s => gamma0 K D (mix_forward K (w s)) t k) (gamma0 K D par t k * (d k - sumn K (fun j => par j * d j) + logd k)).
Proof using HK H0 Hd HM.
  intro Hk. unfold gamma0. assert (Ps : 0 < stddev_of K par k) by (apply (proper_forward K (w 0) HK); exact Hk). eapply dlim_val.
  2:{ apply (dlim_mul (fun s => mix_forward K (w s) k) (fun s => gaussian D t (mean_of K D (mix_forward K (w s)) k) (stddev_of K (mix_forward K (w s)) k))); [apply coeff_deriv; exact Hk|].
      apply (gaussian_deriv D t (fun s => mean_of K D (mix_forward K (w s)) k) (fun j => d (2 * K + k * D + j)%nat) (fun s => stddev_of K (mix_forward K (w s)) k) (stddev_of K par k * d (K + k)%nat)).
      - exact Ps.
      - intros j Hj. unfold mean_of. apply (dlim_ext (fun s => w s (2 * K + k * D + j)%nat)); [intro s; symmetry; apply fwd_mean|]. apply Hd. nia.
      - unfold stddev_of. unfold par. rewrite fwd_dev by exact Hk. apply (dlim_ext (fun s => safeExp (w s (K + k)%nat))); [intro s; symmetry; apply fwd_dev; exact Hk|]. apply (dlim_safe (fun s => w s (K + k)%nat)); [apply small; lia|apply Hd; nia]. }
  fold par. unfold logd. ring.
Qed.
Lemma error_deriv : let e := pattern_outerr K D par t in
  dlim (fun s => pattern_error K D (mix_forward K (w s)) t)
    (- (sumn K (fun k => e k * d k) + sumn K (fun k => stddev_of K par k * (e (K + k)%nat * d (K + k)%nat)) + sumn K (fun k => sumn D (fun j => e (2 * K + k * D + j)%nat * d (2 * K + k * D + j)%nat)))).
Proof using HK H0 Hd HM.
  intro e. unfold pattern_error. pose proof (sumg_pos K D par t (proper_forward K (w 0) HK)) as G. eapply dlim_val.
  2:{ apply dlim_opp. apply (dlim_ln (fun s => sumg K D (mix_forward K (w s)) t)); [exact G|]. unfold sumg.
      apply (dlim_sumn K (fun k s => gamma0 K D (mix_forward K (w s)) t k)) with (d := fun k => gamma0 K D par t k * (d k - sumn K (fun j => par j * d j) + logd k)).
      intros k Hk. apply gamma0_deriv. exact Hk. }
  fold par. f_equal. set (mu := sumn K (fun j => par j * d j)).
  transitivity (sumn K (fun k => gamma K D par t k * (d k + logd k)) - mu).
  - replace (sumn K (fun k => gamma0 K D par t k * (d k - mu + logd k))) with (sumg K D par t * sumn K (fun k => gamma K D par t k * (d k - mu + logd k))).
    + rewrite <- Rmult_assoc, Rinv_l, Rmult_1_l by lra.
      assert (Em : sumn K (fun k => mu * gamma K D par t k) = mu) by (rewrite <- rsum_mul_l, (gamma_sum K D par t (proper_forward K (w 0) HK)); ring).
      transitivity (sumn K (fun k => gamma K D par t k * (d k + logd k)) - sumn K (fun k => mu * gamma K D par t k)); [|rewrite Em; reflexivity].
      rewrite rsum_sub. apply sumn_ext. intros. ring.
    + rewrite rsum_mul_l. apply sumn_ext. intros k Hk. unfold gamma. field. lra.
  - rewrite !rsum_add. unfold mu. rewrite rsum_sub. apply sumn_ext. intros k Hk. unfold e.
    rewrite outerr_c, outerr_s by exact Hk. assert (Ps : 0 < stddev_of K par k) by (apply (proper_forward K (w 0) HK); exact Hk).
    replace (sumn D (fun j => pattern_outerr K D par t (2 * K + k * D + j)%nat * d (2 * K + k * D + j)%nat))
      with (gamma K D par t k * sumn D (fun j => (t j - mean_of K D par k j) / (stddev_of K par k) ^ 2 * d (2 * K + k * D + j)%nat)).
    2:{ rewrite rsum_mul_l. apply sumn_ext. intros j Hj. rewrite outerr_m by exact Hj. unfold grad_m, delta, invvariance. change (par (K + k)%nat) with (stddev_of K par k). field. lra. }
    unfold grad_c, grad_s, logd, invvariance, invstddev, delta. change (par (K + k)%nat) with (stddev_of K par k).
    rewrite (sumn_ext D (fun j => (mean_of K D par k j - t j) * (mean_of K D par k j - t j)) (fun j => (t j - mean_of K D par k j) ^ 2)) by (intros; flat; ring).
    set (Q := sumn D (fun j => (t j - mean_of K D par k j) ^ 2)). set (M := sumn D _). field. lra.
Qed.
End Curve.
