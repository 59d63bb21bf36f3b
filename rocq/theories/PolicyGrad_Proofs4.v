(** Lemmas for C67: layers, baselines, steps. *)
From Coq Require Import Reals Lra Permutation.
From Verif Require Import Base Functions_Model Functions_Proofs FiniteDiff_Proofs PolicyGrad_Model PolicyGrad_Spec PolicyGrad_Proofs PolicyGrad_Proofs2 PolicyGrad_Proofs3.
Local Open Scope R_scope.

(** ** layers *)
Lemma vsq_len v : length (vsq v) = length v.
Proof. apply map_length. Qed.
Lemma nth_vsq v i : (i < length v)%nat -> nth i (vsq v) 0 = nth i v 0 * nth i v 0.
Proof. intros. unfold vsq. rewrite nth_map0 by auto. reflexivity. Qed.
Lemma nth_e2 p i : (i < length p)%nat -> nth i (vsq (map expln p)) 0 = expln (nth i p 0) * expln (nth i p 0).
Proof. intros. rewrite nth_vsq by (rewrite map_length; auto). rewrite nth_map0 by auto. reflexivity. Qed.
Section Layer.
Context (n : nat) (p d y m : rvec) (Hp : length p = n) (Hd : length d = n) (Hy : length y = n) (Hm : length m = n).
Lemma gauss_lens aa : length (fst (gauss_backward aa p d y m)) = n /\ length (snd (gauss_backward aa p d y m)) = n.
Proof.
  unfold gauss_backward. assert (L : length (radd d (sigma_term p y m)) = n) by (apply rzip_length; auto; apply sigma_term_len; auto). assert (L2 : length (rsub y m) = n) by (apply rzip_length; auto).
  assert (L3 : length (vsq (map expln p)) = n) by (rewrite vsq_len, map_length; auto). destruct aa; cbn [fst snd]; split; auto; apply rzip_length; auto.
Qed.
Lemma gauss_nth aa i : (i < n)%nat -> let s := expln (nth i p 0) in let q := nth i y 0 - nth i m 0 in
  nth i (fst (gauss_backward aa p d y m)) 0 = (nth i d 0 + (q * q - s * s) / s * explnPrime (nth i p 0)) / (if aa then 1 else s * s) /\
  nth i (snd (gauss_backward aa p d y m)) 0 = q / (if aa then 1 else s * s).
Proof.
  intros Hi s q. unfold gauss_backward. assert (LS : length (sigma_term p y m) = n) by (apply sigma_term_len; auto). assert (L : length (radd d (sigma_term p y m)) = n) by (apply rzip_length; auto). assert (L2 : length (rsub y m) = n) by (apply rzip_length; auto).
  assert (L3 : length (vsq (map expln p)) = n) by (rewrite vsq_len, map_length; auto).
  assert (A : nth i (radd d (sigma_term p y m)) 0 = nth i d 0 + (q * q - s * s) / s * explnPrime (nth i p 0)).
  { unfold radd. rewrite (nth_zip2 _ _ _ n) by auto. rewrite (nth_sigma_term _ _ _ n) by auto. reflexivity. }
  assert (B : nth i (rsub y m) 0 = q) by (unfold rsub; rewrite (nth_zip2 _ _ _ n) by auto; reflexivity).
  destruct aa; cbn [fst snd].
  - rewrite A, B. split; field.
    + pose proof (expln_pos (nth i p 0)). unfold s. lra.
  - unfold rdiv. rewrite !(nth_zip2 Rdiv _ _ n) by auto. rewrite A, B, nth_e2 by lia. fold s. auto.
Qed.
End Layer.
Lemma normal_is_auto p d y m : normal_backward p d y m = gauss_backward true p d y m.
Proof. reflexivity. Qed.
Lemma nth_repeat0 i n : nth i (repeat 0 n) 0 = 0.
Proof. revert i. induction n as [|n IH]; intros [|i]; cbn; auto. Qed.

(** one sigma for everything *)
Lemma nth_repeat_lt {A} (c z : A) i n : (i < n)%nat -> nth i (repeat c n) z = c.
Proof. revert i. induction n as [|n IH]; intros [|i] H; cbn; try lia; auto. apply IH. lia. Qed.
Lemma one_sigma_deriv p c m y : c <> 0 -> let e := expln p in 0 < c ->
  derivable_pt_lim (fun t => normal_loglik (expln t * c) m y) p (((y - m) * (y - m) - e * e * (c * c)) / (e * e * e * (c * c)) * explnPrime p).
Proof.
  intros Nc e Pc. pose proof (expln_pos p) as Pe. fold e in Pe. eapply dlim_eq.
  - apply (derivable_pt_lim_comp (fun t => expln t * c) (fun s => normal_loglik s m y)).
    + apply (derivable_pt_lim_mult expln (fun _ => c)); [apply expln_deriv | apply derivable_pt_lim_const].
    + apply loglik_dev_deriv. apply Rmult_lt_0_compat; auto.
  - fold e. field. lra.
Qed.
Lemma sum_zip_seq (f : R -> R -> R) (a b : rvec) : length a = length b -> rsum (rzip f a b) = rsum (map (fun j => f (nth j a 0) (nth j b 0)) (seq 0 (length b))).
Proof. revert b. induction a as [|x a IH]; intros [|z b] H; try discriminate; [reflexivity |]. cbn [length seq map]. rewrite rzip_cons, !rsum_cons. f_equal. rewrite <- seq_shift, map_map. apply IH. now injection H. Qed.
Lemma rdot_pos_ne v : rdot v v <> 0 -> 0 < rdot v v.
Proof. intros N. pose proof (rdot_pos v). lra. Qed.
Lemma map_rzip (h : R -> R) f (a b : rvec) : map h (rzip f a b) = rzip (fun x y => h (f x y)) a b.
Proof. revert b. induction a as [|x a IH]; intros [|y b]; cbn; auto. f_equal. apply IH. Qed.
Lemma one_sigma_param p state m y : length m = length y -> rdot state state <> 0 -> let c := sqrt (rdot state state) in
  derivable_pt_lim (fun t => loglik (repeat (expln t * c) (length y)) m y) p (fst (sd_one_backward false p 0 state y m)).
Proof.
  intros L N c. pose proof (rdot_pos_ne _ N) as P. assert (Pc : 0 < c) by (apply sqrt_lt_R0; auto). assert (CC : c * c = rdot state state) by (apply sqrt_sqrt; lra).
  unfold sd_one_backward. set (e := expln p). assert (Pe : 0 < e) by apply expln_pos. destruct (Req_EM_T (rdot state state) 0) as [Z | _]; [contradiction |]. cbn [negb andb fst].
  unfold loglik. eapply dlim_eq.
  - apply (dsum (seq 0 (length y)) (fun j t => normal_loglik (nth j (repeat (expln t * c) (length y)) 0) (nth j m 0) (nth j y 0)) (fun j => ((nth j y 0 - nth j m 0) * (nth j y 0 - nth j m 0) - e * e * (c * c)) / (e * e * e * (c * c)) * explnPrime p)).
    intros j Hj. apply in_seq in Hj. apply (dlim_near (fun t => normal_loglik (expln t * c) (nth j m 0) (nth j y 0)) _ _ _ 1); [lra | | apply one_sigma_deriv; lra]. intros t _. rewrite nth_repeat_lt by lia. reflexivity.
  - rewrite CC. unfold vsq, rsub. rewrite map_map, map_rzip. rewrite sum_zip_seq by auto. rewrite L.
    set (X := rdot state state) in *. transitivity (rsum (map (fun j => (explnPrime p / (e * e * e * X)) * ((nth j y 0 - nth j m 0) * (nth j y 0 - nth j m 0) - e * e * X)) (seq 0 (length y)))).
    + f_equal. apply map_ext. intros j. field. lra.
    + rewrite (rsum_scale (explnPrime p / (e * e * e * X))). field. lra.
Qed.
Lemma one_sigma_input p state m y i : length m = length y -> rdot state state <> 0 -> (i < length y)%nat -> let c := sqrt (rdot state state) in
  partial (fun m => loglik (repeat (expln p * c) (length y)) m y) m i (nth i (snd (sd_one_backward false p 0 state y m)) 0).
Proof.
  intros L N Hi c. pose proof (rdot_pos_ne _ N) as P. assert (Pc : 0 < c) by (apply sqrt_lt_R0; auto). assert (CC : c * c = rdot state state) by (apply sqrt_sqrt; lra). pose proof (expln_pos p) as Pe.
  unfold sd_one_backward. destruct (Req_EM_T (rdot state state) 0) as [Z | _]; [contradiction |]. cbn [negb andb snd].
  eapply dlim_eq; [apply loglik_mean_partial; auto; rewrite nth_repeat_lt by auto; assert (0 < expln p * c) by (apply Rmult_lt_0_compat; auto); lra |].
  rewrite nth_repeat_lt by auto. rewrite nth_map0 by (unfold rsub; rewrite (rzip_length _ _ _ (length y)); auto). unfold rsub. rewrite (nth_zip2 _ _ _ (length y)) by auto. rewrite <- CC. field. lra.
Qed.

(** a sigma for each weight *)
Definition row_var (params state : rvec) : R := rdot (vsq state) (vsq (map expln params)).
Lemma row_var_seq params state : length params = length state -> row_var params state = rsum (map (fun j => nth j state 0 * nth j state 0 * (expln (nth j params 0) * expln (nth j params 0))) (seq 0 (length state))).
Proof.
  intros L. unfold row_var. rewrite (rdot_seq (length state)) by (rewrite vsq_len, ?map_length; auto). f_equal. apply map_ext_in. intros j Hj. apply in_seq in Hj. rewrite nth_vsq, nth_e2 by lia. reflexivity.
Qed.
Lemma row_var_pos params state : length params = length state -> 0 <= row_var params state.
Proof.
  intros L. rewrite row_var_seq by auto. induction (seq 0 (length state)) as [|j l IH]; cbn [map]; [cbn; lra |]. rewrite rsum_cons.
  assert (0 <= nth j state 0 * nth j state 0 * (expln (nth j params 0) * expln (nth j params 0))); [| lra]. apply Rmult_le_pos; [apply Rle_0_sqr |]. pose proof (expln_pos (nth j params 0)). apply Rmult_le_pos; lra.
Qed.
Lemma row_var_deriv params state i : length params = length state -> (i < length state)%nat ->
  derivable_pt_lim (fun t => row_var (upd i t params) state) (nth i params 0) (2 * (nth i state 0 * nth i state 0) * (expln (nth i params 0) * explnPrime (nth i params 0))).
Proof.
  intros L Hi. set (D := 2 * (nth i state 0 * nth i state 0) * (expln (nth i params 0) * explnPrime (nth i params 0))).
  apply (dlim_near (fun t => rsum (map (fun j => nth j state 0 * nth j state 0 * (expln (nth j (upd i t params) 0) * expln (nth j (upd i t params) 0))) (seq 0 (length state)))) _ _ _ 1); [lra | intros; symmetry; apply row_var_seq; rewrite upd_length; auto |].
  eapply dlim_eq; [apply (dsum (seq 0 (length state)) (fun j t => nth j state 0 * nth j state 0 * (expln (nth j (upd i t params) 0) * expln (nth j (upd i t params) 0))) (fun j => if (j =? i)%nat then D else 0)) | apply rsum_pick; auto].
  intros j Hj. apply in_seq in Hj. destruct (Nat.eqb_spec j i) as [-> | N].
  - apply (dlim_near (fun t => nth i state 0 * nth i state 0 * (expln t * expln t)) _ _ _ 1); [lra | intros; rewrite nth_upd_same by lia; reflexivity |].
    eapply dlim_eq; [apply (derivable_pt_lim_scal (fun t => expln t * expln t)); apply (derivable_pt_lim_mult expln expln); apply expln_deriv |]. unfold D. ring.
  - apply (dlim_near (fun t => nth j state 0 * nth j state 0 * (expln (nth j params 0) * expln (nth j params 0))) _ _ _ 1); [lra | intros; rewrite nth_upd_other by auto; reflexivity | apply derivable_pt_lim_const].
Qed.
Lemma row_param_deriv params state out inp i : length params = length state -> (i < length state)%nat -> row_var params state <> 0 -> let v := row_var params state in
  partial (fun p => normal_loglik (sqrt (row_var p state)) inp out) params i
    (((out - inp) * (out - inp) - v) / (v * v) * (nth i state 0 * nth i state 0) * expln (nth i params 0) * explnPrime (nth i params 0)).
Proof.
  intros L Hi N v. assert (P : 0 < v) by (pose proof (row_var_pos params state L); unfold v; lra). unfold partial.
  assert (UI : upd i (nth i params 0) params = params).
  { apply (vec_eq _ _ (length params)); [apply upd_length | auto |]. intros j Hj. destruct (Nat.eq_dec j i) as [-> | Nj]; [rewrite nth_upd_same by lia; reflexivity | rewrite nth_upd_other by auto; reflexivity]. }
  assert (Ps : 0 < sqrt v) by (apply sqrt_lt_R0; auto). assert (SS : sqrt v * sqrt v = v) by (apply sqrt_sqrt; lra).
  eapply dlim_eq.
  - apply (derivable_pt_lim_comp (fun t => sqrt (row_var (upd i t params) state)) (fun s => normal_loglik s inp out)).
    + apply (derivable_pt_lim_comp (fun t => row_var (upd i t params) state) sqrt); [apply row_var_deriv; auto |]. rewrite UI. apply derivable_pt_lim_sqrt. auto.
    + rewrite UI. apply loglik_dev_deriv. auto.
  - fold v. rewrite SS. replace (v * v) with (v * (sqrt v * sqrt v)) by (rewrite SS; ring). field. lra.
Qed.
Lemma row_backward_nth aa params state out inp i : length params = length state -> (i < length state)%nat -> row_var params state <> 0 -> let v := row_var params state in
  nth i (fst (sd_row_backward aa params state out inp)) 0 =
    (if aa then 1 else v) * (((out - inp) * (out - inp) - v) / (v * v) * (nth i state 0 * nth i state 0) * expln (nth i params 0) * explnPrime (nth i params 0)) /\
  snd (sd_row_backward aa params state out inp) = (if aa then v else 1) * ((out - inp) / (sqrt v * sqrt v)).
Proof.
  intros L Hi N v. assert (P : 0 < v) by (pose proof (row_var_pos params state L); unfold v; lra). rewrite sqrt_sqrt by lra. unfold sd_row_backward. fold (row_var params state). fold v.
  destruct (Req_EM_T v 0) as [Z | _]; [lra |]. destruct aa; cbn [negb andb fst snd]; (rewrite (nth_zip2 _ _ _ (length state)) by auto; split; field; lra).
Qed.

(** ** baselines *)
Lemma rsum_perm a b : Permutation a b -> rsum a = rsum b.
Proof. induction 1; rewrite ?rsum_cons in *; try congruence. ring. Qed.
Lemma rzip_combine f (a b : rvec) : rzip f a b = map (fun p => f (fst p) (snd p)) (combine a b).
Proof. revert b. induction a as [|x a IH]; intros [|y b]; cbn; auto. f_equal. apply IH. Qed.
Lemma Sgg_combine (g rt : rvec) : length g = length rt -> Sgg g = rsum (map (fun p => fst p * fst p) (combine g rt)).
Proof. intros L. unfold Sgg, vsq. rewrite <- (sum_zip_fst (fun x => x * x) g rt L), rzip_combine. reflexivity. Qed.
Lemma Sgg_zero g : Sgg g = 0 <-> Forall (fun x => x = 0) g.
Proof.
  split.
  - induction g as [|x g IH]; intros H; constructor; unfold Sgg, vsq in *; cbn [map] in H; rewrite rsum_cons in H; pose proof (Sgg_pos g) as P; unfold Sgg, vsq in P; pose proof (Rle_0_sqr x) as Q; unfold Rsqr in Q.
    + assert (x * x = 0) by lra. destruct (Rmult_integral _ _ H0); auto.
    + apply IH. lra.
  - induction 1 as [|x g -> H IH]; [reflexivity |]. unfold Sgg, vsq in *. cbn [map]. rewrite rsum_cons, IH. ring.
Qed.
Lemma baseline_best (g rt : rvec) : length g = length rt -> Sgg g <> 0 -> forall b, spread g rt b = spread g rt (Sggr g rt / Sgg g) + Sgg g * (b - Sggr g rt / Sgg g) ^ 2.
Proof. intros L N b. rewrite !spread_form by auto. field. auto. Qed.
Lemma Sggr_shift (g rt : rvec) c : length g = length rt -> Sggr g (map (fun r => r + c) rt) = Sggr g rt + c * Sgg g.
Proof.
  intros L. unfold Sggr, Sgg, vsq. rewrite rzip_map_r. rewrite (rzip_ext _ (fun x y => x * x * y + c * (x * x))) by (intros; ring). rewrite (rsum_zip_lin (fun x y => x * x * y) (fun x _ => x * x)). rewrite (sum_zip_fst (fun x => x * x)) by auto. reflexivity.
Qed.
Lemma Sgr_shift (g rt : rvec) c : length g = length rt -> Sgr g (map (fun r => r + c) rt) = Sgr g rt + c * rsum g.
Proof.
  intros L. unfold Sgr. rewrite rzip_map_r. rewrite (rzip_ext _ (fun x y => x * y + c * x)) by (intros; ring). rewrite (rsum_zip_lin Rmult (fun x _ => x)). rewrite (sum_zip_fst (fun x => x)), map_id by auto. reflexivity.
Qed.
Lemma rsum_mulc c l : rsum (map (fun x => c * x) l) = c * rsum l.
Proof. induction l as [|x l IH]; cbn [map]; [cbn; ring | rewrite !rsum_cons, IH; ring]. Qed.
Lemma Sggr_scale (g rt : rvec) c : Sggr g (map (fun r => c * r) rt) = c * Sggr g rt.
Proof. unfold Sggr. rewrite rzip_map_r. rewrite <- rsum_mulc, map_rzip. f_equal. apply rzip_ext. intros. ring. Qed.
Lemma Sgr_scale (g rt : rvec) c : Sgr g (map (fun r => c * r) rt) = c * Sgr g rt.
Proof. unfold Sgr. rewrite rzip_map_r. rewrite <- rsum_mulc, map_rzip. f_equal. apply rzip_ext. intros. ring. Qed.
Lemma reinforce1_closed (g rt : rvec) : length g = length rt -> (0 < length rt)%nat ->
  reinforce1 g rt = if Req_EM_T (Sgg g) 0 then None else Some (- ((Sgr g rt - Sggr g rt / Sgg g * rsum g) / INR (length rt))).
Proof.
  intros L P. destruct (reinforce1_form g rt L P) as [A B]. destruct (Req_EM_T (Sgg g) 0) as [Z | N]; [auto |]. rewrite B by auto. rewrite estimate_form by auto. reflexivity.
Qed.
Lemma all_some_map g : all_some (map Some g) = Some g.
Proof. induction g as [|x g IH]; cbn; [reflexivity | rewrite IH; reflexivity]. Qed.
Lemma all_some_none l k : nth_error l k = Some None -> all_some l = None.
Proof. revert k. induction l as [|[x|] l IH]; intros [|k] H; cbn in *; try discriminate; auto. rewrite (IH k) by auto. reflexivity. Qed.

(** ** scaling *)
Definition rmax_fold (t : rvec) (x : R) : R := fold_left (fun m y => if Rlt_dec m y then y else m) t x.
Lemma max_some x t : max_opt (map Some (x :: t)) = Some (rmax_fold t x).
Proof.
  unfold max_opt, rmax_fold. cbn [map]. revert x. induction t as [|y t IH]; intros x; cbn [map fold_left]; [reflexivity |]. unfold gt_opt at 2. destruct (Rlt_dec x y); apply IH.
Qed.
Lemma rmax_ge t x : x <= rmax_fold t x /\ Forall (fun y => y <= rmax_fold t x) t.
Proof.
  revert x. unfold rmax_fold. induction t as [|y t IH]; intros x; cbn [fold_left]; [split; [lra | constructor] |]. destruct (Rlt_dec x y); destruct (IH (if Rlt_dec x y then y else x)) as [A B]; destruct (Rlt_dec x y); try contradiction; (split; [lra | constructor; [lra | auto]]).
Qed.
Lemma rmax_in t x : In (rmax_fold t x) (x :: t).
Proof.
  revert x. unfold rmax_fold. induction t as [|y t IH]; intros x; cbn [fold_left]; [left; auto |]. destruct (Rlt_dec x y).
  - right. apply IH.
  - destruct (IH x) as [E | E]; [left; exact E | right; right; exact E].
Qed.
