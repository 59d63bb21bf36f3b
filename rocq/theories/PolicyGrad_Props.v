(** C67: the policy gradient learners. *)
From Coq Require Import Reals Lra Permutation.
From Verif Require Import Base Functions_Model Functions_Proofs FiniteDiff_Proofs PolicyGrad_Model PolicyGrad_Spec PolicyGrad_Proofs PolicyGrad_Proofs2 PolicyGrad_Proofs3 PolicyGrad_Proofs4 PolicyGrad_Proofs5.
Local Open Scope R_scope.

(** ** expln and its derivative *)
Theorem C67_expln : (forall x, 0 < expln x) /\ (forall x y, x < y -> expln x < expln y) /\ (forall x, derivable_pt_lim expln x (explnPrime x)).
Proof. split; [exact expln_pos | split; [exact expln_increasing | exact expln_deriv]]. Qed.
Example C67_expln_ex : expln 0 = 1 /\ explnPrime 0 = 1 /\ expln (exp 1 - 1) = 2.
Proof. split; [exact expln_0 | split; [exact explnPrime_0 | exact expln_2]]. Qed.
Print Assumptions C67_expln.

(** ** the Gaussian layer: derivatives of the log likelihood, or those times the variance *)
Theorem C67_gaussian_layer n aa p m y : length p = n -> length m = n -> length y = n ->
  let '(derivs, inerr) := gauss_backward aa p (repeat 0 n) y m in
  length derivs = n /\ length inerr = n /\
  forall i, (i < n)%nat -> let s := expln (nth i p 0) in exists g h,
    partial (fun m => loglik (map expln p) m y) m i g /\ partial (fun p => loglik (map expln p) m y) p i h /\
    nth i inerr 0 = (if aa then s * s else 1) * g /\ nth i derivs 0 = (if aa then s * s else 1) * h.
Proof.
  intros Hp Hm Hy. pose proof (gauss_lens n p (repeat 0 n) y m Hp (repeat_length _ _) Hy Hm aa) as [L1 L2]. pose proof (gauss_nth n p (repeat 0 n) y m Hp (repeat_length _ _) Hy Hm aa) as N.
  destruct (gauss_backward aa p (repeat 0 n) y m) as [d e]. cbn [fst snd] in *. split; [exact L1 |]. split; [exact L2 |]. intros i Hi. set (s := expln (nth i p 0)). destruct (N i Hi) as [N1 N2]. clear N. pose proof (expln_pos (nth i p 0)) as Ps. fold s in Ps, N1, N2.
  exists ((nth i y 0 - nth i m 0) / (s * s)), (((nth i y 0 - nth i m 0) * (nth i y 0 - nth i m 0) - s * s) / (s * s * s) * explnPrime (nth i p 0)).
  assert (E : nth i (map expln p) 0 = s) by (rewrite nth_map0 by lia; reflexivity).
  split; [rewrite <- E; apply loglik_mean_partial; try lia; rewrite E; lra |]. split; [apply loglik_sigma_partial; lia |].
  rewrite nth_repeat0 in N1. rewrite N1, N2. destruct aa; split; field; lra.
Qed.
Example C67_gaussian_layer_ex : gauss_backward false [0] [0] [3] [1] = ([3], [2]).
Proof. unfold gauss_backward, sigma_term, rdiv, rmul, radd, rsub, vsq. cbn [map rzip]. rewrite expln_0, explnPrime_0. f_equal; f_equal; field. Qed.
Print Assumptions C67_gaussian_layer.
(** a second backward pass divides the derivatives already there as well *)
Theorem C67_gaussian_accumulate_refuted : exists p d y m,
  fst (gauss_backward false [p] [d] [y] [m]) <> radd [d] (fst (gauss_backward false [p] [0] [y] [m])).
Proof.
  exists (exp 1 - 1), 1, 0, 0. unfold gauss_backward, sigma_term, rdiv, rmul, radd, rsub, vsq. cbn [map rzip fst]. rewrite expln_2. intros H. injection H as H. lra.
Qed.
Print Assumptions C67_gaussian_accumulate_refuted.
(** the forward pass: the input plus deviation times draw; the input itself when switched off *)
Theorem C67_gaussian_forward n p m z : length p = n -> length m = n -> length z = n ->
  gauss_forward false p m z = m /\ normal_forward p m z = gauss_forward true p m z /\ length (gauss_forward true p m z) = n /\
  forall i, (i < n)%nat -> nth i (gauss_forward true p m z) 0 = nth i m 0 + expln (nth i p 0) * nth i z 0.
Proof.
  intros Hp Hm Hz. assert (L : length (rmul (map expln p) z) = n) by (apply rzip_length; rewrite ?map_length; auto). split; [reflexivity |]. split; [reflexivity |]. split; [apply rzip_length; auto |].
  intros i Hi. unfold gauss_forward, radd. rewrite (nth_zip2 _ _ _ n) by auto. unfold rmul. rewrite (nth_zip2 Rmult _ _ n) by (rewrite ?map_length; auto). rewrite nth_map0 by lia. reflexivity.
Qed.
Example C67_gaussian_forward_ex : gauss_forward true [0] [5] [2] = [7].
Proof. unfold gauss_forward, radd, rmul. cbn [map rzip]. rewrite expln_0. f_equal. ring. Qed.
Print Assumptions C67_gaussian_forward.

(** ** exploring: what a fresh learner accumulates for one action *)
Theorem C67_explorer F VJP n th sg al o z : backward_ok F VJP n th o -> length sg = n -> length z = n ->
  let '(l, y) := explore F VJP (new_pg th sg (repeat 0 (length th)) (repeat 0 n) al) o z in
  length y = n /\ loglh l = [dmod l ++ dexp l] /\
  (forall i, (i < n)%nat -> nth i y 0 = nth i (F th o) 0 + expln (nth i sg 0) * nth i z 0) /\
  (forall i, (i < n)%nat -> exists h, partial (fun sg => loglik (map expln sg) (F th o) y) sg i h /\ nth i (dexp l) 0 = expln (nth i sg 0) ^ 2 * h) /\
  (forall p, sg = repeat p n -> forall k, (k < length th)%nat -> exists g, partial (fun th => loglik (map expln sg) (F th o) y) th k g /\ nth k (dmod l) 0 = expln p ^ 2 * g).
Proof.
  intros OK Hs Hz. pose proof (action_len F VJP n th o OK) as LA. destruct (C67_gaussian_forward n sg (F th o) z Hs LA Hz) as (_ & GF & LY & NY).
  assert (G : forall y, length y = n -> let '(d, e) := gauss_backward true sg (repeat 0 n) y (F th o) in length e = n /\ (forall i, (i < n)%nat -> exists h, partial (fun sg => loglik (map expln sg) (F th o) y) sg i h /\ nth i d 0 = expln (nth i sg 0) ^ 2 * h)).
  { intros y Hy. pose proof (C67_gaussian_layer n true sg (F th o) y Hs LA Hy) as Q. destruct (gauss_backward true sg (repeat 0 n) y (F th o)) as [d e]. destruct Q as (_ & Q2 & Q). split; [exact Q2 |]. intros i Hi. destruct (Q i Hi) as (g & h & _ & Qh & _ & E). exists h. split; [exact Qh |]. rewrite E. cbn. ring. }
  unfold explore, new_pg. cbn [theta sigma dmod dexp loglh gdvalues alpha]. rewrite GF. set (y := gauss_forward true sg (F th o) z) in *. specialize (G y LY). rewrite normal_is_auto. 
  assert (EE : snd (gauss_backward true sg (repeat 0 n) y (F th o)) = rsub y (F th o)) by reflexivity.
  destruct (gauss_backward true sg (repeat 0 n) y (F th o)) as [d e]. cbn [snd] in EE. destruct G as [Le Gd]. cbn [theta sigma dmod dexp loglh]. split; [exact LY |]. split; [reflexivity |]. split; [exact NY |]. split; [exact Gd |].
  intros p Ep k Hk. assert (LV : length (VJP th o e) = length th) by (apply (vjp_len F VJP n); auto). unfold radd. rewrite (nth_zip2 _ _ _ (length th)) by (auto; apply repeat_length). rewrite nth_repeat0, Rplus_0_l.
  pose proof (expln_pos p) as Pp. eexists. split; [apply (controller_score F VJP n th o OK); auto |].
  - rewrite map_length. auto.
  - apply Forall_forall. intros x Hx. apply in_map_iff in Hx as (q & <- & _). pose proof (expln_pos q). lra.
  - assert (L1 : length (rsub y (F th o)) = n) by (apply rzip_length; auto). assert (L2 : length (vsq (map expln sg)) = n) by (rewrite vsq_len, map_length; auto).
    assert (L3 : length (rdiv (rsub y (F th o)) (vsq (map expln sg))) = n) by (apply rzip_length; auto).
    rewrite <- (vjp_scale F VJP n th o OK) by auto. rewrite EE. f_equal. f_equal. apply (vec_eq _ _ n); [exact L1 | rewrite map_length; exact L3 |].
    intros j Hj. rewrite nth_map0 by lia. unfold rdiv. rewrite (nth_zip2 Rdiv _ _ n) by auto. rewrite nth_e2 by lia.
    replace (nth j sg 0) with p by (rewrite Ep, nth_repeat_lt by auto; reflexivity). field. lra.
Qed.
Example C67_explorer_ex : dmod (fst (explore one_weight one_weight_vjp (new_pg [5] [0] [0] [0] 1) [2] [3])) = [6] /\ backward_ok one_weight one_weight_vjp 1 [5] [2].
Proof. split; [| apply one_weight_ok]. unfold explore, new_pg, normal_forward, normal_backward, one_weight, one_weight_vjp, radd, rsub, rmul. cbn [theta sigma dmod dexp map rzip nth fst]. rewrite expln_0. f_equal. ring. Qed.
Print Assumptions C67_explorer.
(** with different deviations the derivative of a shared weight can have the wrong sign *)
Definition two_outputs (th o : rvec) : rvec := [nth 0 th 0; nth 0 th 0].
Definition two_outputs_vjp (th o e : rvec) : rvec := [nth 0 e 0 + nth 1 e 0].
Theorem C67_explorer_refuted : exists sg z g, backward_ok two_outputs two_outputs_vjp 2 [0] [] /\
  let '(l, y) := explore two_outputs two_outputs_vjp (new_pg [0] sg [0] [0; 0] 1) [] z in
  partial (fun th => loglik (map expln sg) (two_outputs th []) y) [0] 0 g /\ 0 < g /\ nth 0 (dmod l) 0 < 0.
Proof.
  exists [0; exp 1 - 1], [1; -1], (1 / 2).
  assert (OK : backward_ok two_outputs two_outputs_vjp 2 [0] []).
  { split; [reflexivity |]. intros e He. destruct e as [|e0 [|e1 [|? ?]]]; try discriminate. split; [reflexivity |]. intros [|k] Hk; cbn in Hk; [| lia]. unfold partial. cbn [two_outputs_vjp nth].
    apply (dlim_near (fun t => (e0 + e1) * t) _ _ _ 1); [lra | intros; unfold rdot, two_outputs; cbn; ring |]. eapply dlim_eq; [apply (derivable_pt_lim_scal id); apply derivable_pt_lim_id | ring]. }
  split; [exact OK |]. unfold explore, new_pg, normal_forward, normal_backward. cbn [theta sigma dmod dexp]. cbn [two_outputs nth]. unfold radd, rmul, rsub. cbn [map rzip]. rewrite expln_0, expln_2.
  split; [| split; [lra | cbn; lra]].
  eapply dlim_eq.
  - apply (controller_score two_outputs two_outputs_vjp 2 [0] [] OK [1; 2]); try reflexivity; [cbn; lia |]. repeat constructor; lra.
  - unfold two_outputs_vjp, two_outputs, rdiv, rsub, vsq. cbn. field.
Qed.
Print Assumptions C67_explorer_refuted.

(** ** state dependent exploration *)
Theorem C67_state_dependent p state m y : length m = length y -> rdot state state <> 0 ->
  let '(d, inerr) := sd_one_backward false p 0 state y m in
  let s t := repeat (expln t * sqrt (rdot state state)) (length y) in
  derivable_pt_lim (fun t => loglik (s t) m y) p d /\
  forall i, (i < length y)%nat -> partial (fun m => loglik (s p) m y) m i (nth i inerr 0).
Proof.
  intros L N. pose proof (one_sigma_param p state m y L N) as A. pose proof (fun i Hi => one_sigma_input p state m y i L N Hi) as B. cbv zeta in A, B. destruct (sd_one_backward false p 0 state y m) as [d e]. cbn [fst snd] in *. auto.
Qed.
Example C67_state_dependent_ex : sd_one_backward false 0 0 [2] [3] [1] = (0, [1 / 2]).
Proof.
  unfold sd_one_backward. assert (E : rdot [2] [2] = 4) by (unfold rdot; cbn; ring). rewrite E. destruct (Req_EM_T 4 0); [lra |]. cbn [negb andb rsub rzip vsq map rsum fold_right]. rewrite expln_0, explnPrime_0. unfold rsub, rsum. cbn. f_equal; [field | f_equal; field].
Qed.
Print Assumptions C67_state_dependent.
(** with a sigma for each weight autoalpha is on for the parameters when it is off for the input *)
Theorem C67_state_dependent_rows aa params state out inp : length params = length state -> row_var params state <> 0 ->
  let v := row_var params state in
  let '(d, inerr) := sd_row_backward aa params state out inp in
  (exists g, derivable_pt_lim (fun m => normal_loglik (sqrt v) m out) inp g /\ inerr = (if aa then v else 1) * g) /\
  forall i, (i < length state)%nat -> exists h, partial (fun p => normal_loglik (sqrt (row_var p state)) inp out) params i h /\ nth i d 0 = (if aa then 1 else v) * h.
Proof.
  intros L N v. pose proof (fun i Hi => row_backward_nth aa params state out inp i L Hi N) as B. assert (P : 0 < v) by (pose proof (row_var_pos params state L); unfold v; lra). assert (Ps : 0 < sqrt v) by (apply sqrt_lt_R0; auto).
  assert (NS : (0 < length state)%nat) by (destruct state; [exfalso; apply N; unfold row_var, rdot; reflexivity | cbn; lia]). destruct (B 0%nat NS) as [_ BI]. fold v in BI.
  destruct (sd_row_backward aa params state out inp) as [d e]. cbn [fst snd] in *. split.
  - eexists. split; [apply loglik_mean_deriv; lra | exact BI].
  - intros i Hi. destruct (B i Hi) as [BD _]. eexists. split; [apply row_param_deriv; auto | exact BD].
Qed.
Example C67_state_dependent_rows_ex : row_var [0] [2] = 4.
Proof. unfold row_var, rdot, vsq. cbn [map rzip]. rewrite expln_0. unfold rsum. cbn. ring. Qed.
Print Assumptions C67_state_dependent_rows.
Theorem C67_state_dependent_rows_refuted : exists params state out inp h,
  partial (fun p => normal_loglik (sqrt (row_var p state)) inp out) params 0 h /\ nth 0 (fst (sd_row_backward false params state out inp)) 0 <> h.
Proof.
  exists [0], [2], 4, 0. assert (N : row_var [0] [2] <> 0) by (rewrite C67_state_dependent_rows_ex; lra).
  eexists. split; [apply row_param_deriv; auto |]. destruct (row_backward_nth false [0] [2] 4 0 0 eq_refl ltac:(cbn; lia) N) as [-> _]. rewrite C67_state_dependent_rows_ex. cbn [nth]. rewrite expln_0, explnPrime_0. intros H. lra.
Qed.
Print Assumptions C67_state_dependent_rows_refuted.
(** the explorer has one parameter for each action: its backward pass works for states of length one only *)
Theorem C67_sde_refuted params state outbuf : length params = length outbuf -> outbuf <> [] ->
  (length state <> 1%nat -> sde_reshape params state outbuf = Err ValueError) /\
  (length state = 1%nat -> exists rows, sde_reshape params state outbuf = Ok rows /\ length rows = length outbuf /\ concat rows = params).
Proof.
  intros L NE. assert (P : (0 < length outbuf)%nat) by (destruct outbuf; [congruence | cbn; lia]). unfold sde_reshape. rewrite L. split; intros H.
  - destruct (Nat.eqb_spec (length outbuf) (length outbuf * length state)) as [E | _]; [| reflexivity]. exfalso. apply H. nia.
  - rewrite H, Nat.mul_1_r, Nat.eqb_refl. eexists. split; [reflexivity |]. split; [rewrite map_length, seq_length; reflexivity |]. rewrite <- L. clear. 
    assert (G : forall a (l : rvec), concat (map (fun j => firstn 1 (skipn (j * 1) (a ++ l))) (seq (length a) (length l))) = l); [| apply (G [])].
    intros a l. revert a. induction l as [|x l IH]; intros a; [reflexivity |]. cbn [length seq map concat]. rewrite Nat.mul_1_r, skipn_app, skipn_all, Nat.sub_diag. cbn [app skipn firstn]. f_equal.
    specialize (IH (a ++ [x])). rewrite app_length in IH. cbn [length] in IH. rewrite Nat.add_1_r, <- app_assoc in IH. exact IH.
Qed.
Example C67_sde_ex : sde_reshape [0; 0] [1; 2; 3] [0; 0] = Err ValueError.
Proof. reflexivity. Qed.
Print Assumptions C67_sde_refuted.

(** ** a whole session: rows are sums of everything so far; each episode keeps its own rows and return *)
Theorem C67_session F VJP n k th sg d e al eps : length sg = n -> length d = length th -> length e = n ->
  Forall (Forall (fun i => backward_ok F VJP n th (fst (fst i)) /\ fits n i)) eps -> eps <> [] -> Forall (fun ep => ep <> []) eps ->
  let dim := (length th + n)%nat in
  let rows := running (d ++ e) (map (contribution VJP th sg) (concat eps)) in
  let L := map (sum_rows dim) (pieces (map (@length _) eps) rows) in
  exists x, agent_run F VJP k (new_agent (new_pg th sg d e al)) (doEpisodes eps) = Ok (Some x) /\
  theta (lrn x) = th /\ sigma (lrn x) = sg /\ loglh (lrn x) = rows /\ gdvalues (lrn x) = th ++ sg /\ alpha (lrn x) = al /\
  learning x = true /\ seqidx x <> [] /\ rewards x = map snd (concat eps) /\
  sequence_sums dim (seqidx x) (loglh (lrn x)) = L /\ sequence_returns (seqidx x) (rewards x) = map return_of eps /\
  calculateGradient Reinforce (lrn x) (seqidx x) (rewards x) = Ok (reinforce dim L (map return_of eps)) /\
  forall pinv, calculateGradient (ENAC pinv) (lrn x) (seqidx x) (rewards x) = Ok (map Some (enac pinv L (map return_of eps))).
Proof.
  intros Hs Hd He OK NE Hne. cbv zeta.
  assert (S : sized n (length th) (new_pg th sg d e al)) by (repeat split; auto).
  destruct (session F VJP n (length th) k (new_pg th sg d e al) eps S eq_refl NE Hne OK) as (x & RN & AF & SI & C8 & P1 & P2 & G1 & G2). exists x. split; [exact RN |].
  pose proof AF as (A1 & A2 & A3 & A4 & A5 & A6 & A7 & A8 & A9). cbn [new_agent new_pg lrn theta sigma alpha] in *.
  split; [exact A4 |]. split; [exact A5 |]. split; [exact C8 |]. split; [destruct A3 as (_ & _ & _ & _ & Q); rewrite Q, A4, A5; reflexivity |]. split; [exact A6 |]. split; [exact A1 |].
  split; [rewrite SI; destruct eps; [congruence | discriminate] |]. split; [exact A9 |]. split; [exact P1 |]. split; [exact P2 |]. split; [exact G1 | exact G2].
Qed.
Lemma ex_session_fits t eps : Forall (Forall (fun i => length (snd (fst i)) = 1%nat)) eps ->
  Forall (Forall (fun i => backward_ok one_weight one_weight_vjp 1 [t] (fst (fst i)) /\ fits 1 i)) eps.
Proof. apply Forall_impl. intros ep. apply Forall_impl. intros [[o z] r] H. split; [apply one_weight_ok | exact H]. Qed.
Definition ex_eps : list (list interaction) := [[([1], [-1], 0)]; [([1], [3], 1)]].
Lemma ex_ok t : Forall (Forall (fun i => backward_ok one_weight one_weight_vjp 1 [t] (fst (fst i)) /\ fits 1 i)) ex_eps.
Proof. apply ex_session_fits. repeat constructor. Qed.
Lemma ex_ne : Forall (fun ep => ep <> []) ex_eps.
Proof. repeat constructor; discriminate. Qed.
Lemma ex_rows t : running ([0] ++ [0]) (map (contribution one_weight_vjp [t] [0]) (concat ex_eps)) = [[-1; 0]; [2; 8]].
Proof.
  cbn [ex_eps concat app map running contribution]. unfold one_weight_vjp, error, rmul, radd. cbn [nth map rzip app]. rewrite expln_0, explnPrime_0. repeat f_equal; ring.
Qed.
Example C67_session_ex t k : exists x, agent_run one_weight one_weight_vjp k (new_agent (new_pg [t] [0] [0] [0] 1)) (doEpisodes ex_eps) = Ok (Some x) /\ loglh (lrn x) = [[-1; 0]; [2; 8]].
Proof.
  destruct (C67_session one_weight one_weight_vjp 1 k [t] [0] [0] [0] 1 ex_eps eq_refl eq_refl eq_refl (ex_ok t) ltac:(discriminate) ex_ne) as (x & RN & _ & _ & H & _). exists x. rewrite ex_rows in H. auto.
Qed.
Print Assumptions C67_session.
(** the second row is not the contribution of the second action: the derivatives are never cleared *)
Theorem C67_rows_refuted : exists x i, agent_run one_weight one_weight_vjp Reinforce (new_agent (new_pg [0] [0] [0] [0] 1)) (doEpisodes ex_eps) = Ok (Some x) /\
  nth 1 (concat ex_eps) i = ([1], [3], 1) /\ nth 1 (loglh (lrn x)) [] <> contribution one_weight_vjp [0] [0] ([1], [3], 1).
Proof.
  destruct (C67_session_ex 0 Reinforce) as (x & RN & H). exists x, ([], [], 0). split; [exact RN |]. split; [reflexivity |]. rewrite H. unfold contribution, one_weight_vjp, error, rmul. cbn [nth map rzip app]. rewrite expln_0. intros E. injection E as E _. lra.
Qed.
Print Assumptions C67_rows_refuted.

(** ** REINFORCE's baseline leaves the least spread; what the gradient does not depend on *)
Theorem C67_baseline (g rt : rvec) : length g = length rt -> rt <> [] ->
  (reinforce1 g rt = None <-> Forall (fun x => x = 0) g) /\
  (~ Forall (fun x => x = 0) g -> exists b, reinforce1 g rt = Some (- estimate g rt b) /\ forall b', b' <> b -> spread g rt b < spread g rt b') /\
  (forall c, reinforce1 g (map (fun r => r + c) rt) = reinforce1 g rt) /\
  (forall c, reinforce1 g (map (fun r => c * r) rt) = option_map (Rmult c) (reinforce1 g rt)) /\
  (forall c, ~ Forall (fun x => x = 0) g -> rt = repeat c (length rt) -> reinforce1 g rt = Some 0) /\
  (forall g' rt', length g' = length rt' -> Permutation (combine g rt) (combine g' rt') -> reinforce1 g' rt' = reinforce1 g rt).
Proof.
  intros L NE. assert (P : (0 < length rt)%nat) by (destruct rt; [congruence | cbn; lia]). assert (PI : 0 < INR (length rt)) by (apply lt_0_INR; auto).
  destruct (reinforce1_form g rt L P) as [A B]. assert (NZ : ~ Forall (fun x => x = 0) g -> Sgg g <> 0) by (intros N Z; apply N, Sgg_zero, Z).
  split; [| split; [| split; [| split; [| split]]]].
  - rewrite <- Sgg_zero. split; [| exact A]. intros E. destruct (Req_dec (Sgg g) 0) as [Z | N]; [exact Z |]. rewrite B in E by auto. discriminate.
  - intros N. specialize (NZ N). exists (Sggr g rt / Sgg g). split; [auto |]. intros b' Nb. rewrite (baseline_best g rt L NZ b'). pose proof (Sgg_pos g). assert (0 < (b' - Sggr g rt / Sgg g) ^ 2) by (cbn; rewrite Rmult_1_r; apply Rsqr_pos_lt; lra). assert (0 < Sgg g) by lra. assert (0 < Sgg g * (b' - Sggr g rt / Sgg g) ^ 2) by (apply Rmult_lt_0_compat; auto). lra.
  - intros c. rewrite !reinforce1_closed by (rewrite ?map_length; auto). destruct (Req_EM_T (Sgg g) 0); [reflexivity |]. rewrite Sggr_shift, Sgr_shift, map_length by auto. f_equal. field; repeat split; auto; lra.
  - intros c. rewrite !reinforce1_closed by (rewrite ?map_length; auto). destruct (Req_EM_T (Sgg g) 0); [reflexivity |]. rewrite Sggr_scale, Sgr_scale, map_length. cbn [option_map]. f_equal. field; repeat split; auto; lra.
  - intros c N E. specialize (NZ N). rewrite reinforce1_closed by auto. destruct (Req_EM_T (Sgg g) 0); [contradiction |].
    assert (E1 : forall (f : R -> R) (g rt : rvec), length g = length rt -> rt = repeat c (length rt) -> rsum (rzip (fun x r => f x * r) g rt) = c * rsum (map f g)).
    { clear. intros f. induction g as [|x g IH]; intros [|r rt] L E; try discriminate; [cbn; ring |]. cbn [length repeat] in E. injection E as -> E. cbn [map]. rewrite rzip_cons, !rsum_cons, IH by (auto; now injection L). ring. }
    unfold Sggr, Sgr. rewrite (E1 (fun x => x * x) g rt L E). rewrite (rzip_ext Rmult (fun x r => id x * r)) by reflexivity. rewrite (E1 id g rt L E), map_id. fold (vsq g). fold (Sgg g). f_equal. field; repeat split; auto; lra.
  - intros g' rt' L' PM. assert (LL : length rt' = length rt) by (apply Permutation_length in PM; rewrite !combine_length in PM; lia).
    assert (Q : forall f : R -> R -> R, rsum (rzip f g' rt') = rsum (rzip f g rt)) by (intros f; rewrite !rzip_combine; apply rsum_perm, Permutation_map, Permutation_sym, PM).
    rewrite !reinforce1_closed by (auto; lia). rewrite LL. unfold Sgr, Sggr. rewrite !Q. assert (Q1 : Sgg g' = Sgg g) by (unfold Sgg, vsq; rewrite <- (sum_zip_fst (fun x => x * x) g' rt'), <- (sum_zip_fst (fun x => x * x) g rt) by auto; apply Q).
    assert (Q2 : rsum g' = rsum g) by (rewrite <- (map_id g'), <- (map_id g), <- (sum_zip_fst (fun x => x) g' rt'), <- (sum_zip_fst (fun x => x) g rt) by auto; apply Q). rewrite Q1, Q2. reflexivity.
Qed.
Lemma ex_reinforce r : reinforce1 [-1; 2] [0; r] = Some (- (3 / 5 * r)).
Proof. rewrite reinforce1_closed by (cbn; auto; lia). unfold Sgg, Sggr, Sgr, vsq, rsum. cbn. destruct (Req_EM_T _ 0) as [E | N]; [exfalso; lra |]. f_equal. field. Qed.
Example C67_baseline_ex : reinforce1 [-1; 2] [0; 1] = Some (- (3 / 5)).
Proof. rewrite ex_reinforce. f_equal. ring. Qed.
Print Assumptions C67_baseline.

(** ** the step of learn: along the gradient, shortened so that no entry is above 1000 *)
Theorem C67_learn k l idx rw g : gdvalues l = theta l ++ sigma l -> calculateGradient k l idx rw = Ok (map Some g) -> g <> [] -> length g = length (gdvalues l) ->
  exists l' c, pg_learn k l idx rw = Ok (Some l') /\ 0 < c <= 1 /\
  theta l' ++ sigma l' = radd (theta l ++ sigma l) (map (fun x => alpha l * (c * x)) g) /\ length (theta l') = length (theta l) /\ gdvalues l' = theta l' ++ sigma l' /\
  Forall (fun x => c * x <= 1000) g /\ (Exists (fun x => 1000 < x) g -> Exists (fun x => c * x = 1000) g) /\ (Forall (fun x => x <= 1000) g -> c = 1) /\
  dmod l' = dmod l /\ dexp l' = dexp l /\ loglh l' = loglh l /\ alpha l' = alpha l.
Proof.
  intros S E NE LG. destruct (learn_step k l idx rw g E NE LG) as (l' & c & H1 & H2 & H3 & H4 & H5 & H6 & H7 & H8 & H9). exists l', c. rewrite H7, H3, S. repeat (split; [auto; fail |]). split; [apply H8; rewrite S, app_length; lia |]. repeat (split; [auto; fail |]). auto.
Qed.
Print Assumptions C67_learn.
(** large negative entries are not shortened: rewards that differ by a sign move a weight three times as far *)
Definition ex_learner (al : R) : pg := mkPg [0] [] [0] [] [[-1]; [2]] [0] al.
Lemma ex_gradient al r : calculateGradient Reinforce (ex_learner al) [0%nat; 1%nat] [0; r] = Ok (map Some [- (3 / 5 * r)]).
Proof.
  unfold calculateGradient. cbn [gdvalues ex_learner length loglh seq forallb seq_slice Nat.eqb nth]. unfold seq_slice, slice, reinforce, sequence_sums, sequence_returns, sum_rows, column. cbn [length seq map Nat.eqb nth skipn firstn]. cbn [forallb andb].
  unfold sum_rows, column. cbn [map seq nth]. unfold seq_slice, slice. cbn. rewrite !Rplus_0_r. rewrite ex_reinforce. reflexivity.
Qed.
Theorem C67_scale_refuted : exists l1 l2,
  pg_learn Reinforce (ex_learner 1) [0%nat; 1%nat] [0; -5000] = Ok (Some l1) /\ theta l1 = [1000] /\
  pg_learn Reinforce (ex_learner 1) [0%nat; 1%nat] [0; 5000] = Ok (Some l2) /\ theta l2 = [-3000].
Proof.
  destruct (C67_learn Reinforce (ex_learner 1) [0%nat; 1%nat] [0; -5000] [- (3 / 5 * -5000)] eq_refl (ex_gradient 1 (-5000)) ltac:(discriminate) eq_refl) as (l1 & c1 & A1 & A2 & A3 & A4 & A5 & A6 & A7 & A8 & _).
  destruct (C67_learn Reinforce (ex_learner 1) [0%nat; 1%nat] [0; 5000] [- (3 / 5 * 5000)] eq_refl (ex_gradient 1 5000) ltac:(discriminate) eq_refl) as (l2 & c2 & B1 & B2 & B3 & B4 & B5 & B6 & B7 & B8 & _).
  exists l1, l2. split; [exact A1 |]. cbn [ex_learner theta sigma app radd rzip map alpha length] in *. unfold radd in *. cbn [rzip] in *.
  assert (E1 : c1 * - (3 / 5 * -5000) = 1000) by (assert (Q : Exists (fun x => 1000 < x) [- (3 / 5 * -5000)]) by (constructor; lra); specialize (A7 Q); apply Exists_cons in A7 as [A7 | A7]; [exact A7 | inversion A7]).
  assert (E2 : c2 = 1) by (apply B8; constructor; [lra | constructor]).
  split; [destruct (theta l1) as [|a [|? ?]]; try discriminate; injection A3 as A3; f_equal; lra |]. split; [exact B1 |].
  destruct (theta l2) as [|b [|? ?]]; try discriminate. injection B3 as B3. f_equal. rewrite B3, E2. lra.
Qed.
Print Assumptions C67_scale_refuted.

(** REINFORCE moves against its estimate, by the same factor for every parameter *)
Theorem C67_reinforce l idx rw : gdvalues l = theta l ++ sigma l -> gdvalues l <> [] -> idx <> [] -> (forall n, (n < length idx)%nat -> seq_slice idx n (loglh l) <> []) ->
  let dim := length (gdvalues l) in let L := sequence_sums dim idx (loglh l) in let rt := sequence_returns idx rw in
  (forall k, (k < dim)%nat -> ~ Forall (fun x => x = 0) (column k L)) ->
  exists l' c, pg_learn Reinforce l idx rw = Ok (Some l') /\ 0 < c <= 1 /\ length (theta l') = length (theta l) /\
  forall k, (k < dim)%nat -> exists b, (forall b', b' <> b -> spread (column k L) rt b < spread (column k L) rt b') /\
    nth k (theta l' ++ sigma l') 0 = nth k (theta l ++ sigma l) 0 - alpha l * c * estimate (column k L) rt b.
Proof.
  intros S NG NI NS dim L rt NZ. assert (LL : length L = length rt) by (unfold L, rt, sequence_sums, sequence_returns; rewrite !map_length; reflexivity).
  assert (NR : rt <> []) by (unfold rt, sequence_returns; destruct idx; [congruence | discriminate]).
  assert (EG : calculateGradient Reinforce l idx rw = Ok (reinforce dim L rt)).
  { unfold calculateGradient. replace (forallb _ _) with true; [reflexivity |]. symmetry. apply forallb_forall. intros n Hn. apply in_seq in Hn. specialize (NS n ltac:(lia)). destruct (seq_slice idx n (loglh l)); [congruence | reflexivity]. }
  assert (RB : forall k, (k < dim)%nat -> exists b, reinforce1 (column k L) rt = Some (- estimate (column k L) rt b) /\ forall b', b' <> b -> spread (column k L) rt b < spread (column k L) rt b').
  { intros k Hk. apply (C67_baseline (column k L) rt); [rewrite column_len; auto | auto | apply NZ; auto]. }
  destruct (option_all (reinforce dim L rt)) as [g Eg].
  { apply Forall_forall. intros o Ho. unfold reinforce in Ho. apply in_map_iff in Ho as (k & <- & Hk). apply in_seq in Hk. destruct (RB k ltac:(lia)) as (b & -> & _). discriminate. }
  assert (Lg : length g = dim) by (apply (f_equal (@length _)) in Eg; unfold reinforce in Eg; rewrite !map_length, seq_length in Eg; auto).
  rewrite Eg in EG. destruct (C67_learn Reinforce l idx rw g S EG) as (l' & c & H1 & H2 & H3 & H4 & _); [intros ->; apply NG; destruct (gdvalues l); [reflexivity | discriminate] | exact Lg |].
  exists l', c. split; [exact H1 |]. split; [exact H2 |]. split; [exact H4 |]. intros k Hk. destruct (RB k Hk) as (b & EB & BB). exists b. split; [exact BB |].
  assert (NK : nth k g 0 = - estimate (column k L) rt b).
  { assert (N1 : nth_error (map Some g) k = Some (Some (- estimate (column k L) rt b))).
    { rewrite <- Eg. unfold reinforce. rewrite nth_error_map, (nth_error_nth' _ 0%nat) by (rewrite seq_length; auto). rewrite seq_nth by auto. cbn [option_map Nat.add]. rewrite EB. reflexivity. }
    rewrite nth_error_map in N1. destruct (nth_error g k) as [x|] eqn:Ex; [| discriminate]. injection N1 as ->. apply nth_error_nth. exact Ex. }
  rewrite H3. unfold radd. rewrite (nth_zip2 _ _ _ dim) by (rewrite ?map_length; auto; rewrite <- S; reflexivity). rewrite nth_map0 by lia. rewrite NK. ring.
Qed.
Print Assumptions C67_reinforce.
(** the higher action earned more, and the weight goes down *)
Theorem C67_reinforce_refuted t al : 0 < al -> exists x, agent_run one_weight one_weight_vjp Reinforce (new_agent (new_pg [t] [0] [0] [0] al)) (doEpisodes ex_eps ++ [Learn 1]) = Ok (Some x) /\
  theta (lrn x) = [t - al * (3 / 5)] /\ sigma (lrn x) = [0].
Proof.
  intros Pa. destruct (C67_session one_weight one_weight_vjp 1 Reinforce [t] [0] [0] [0] al ex_eps eq_refl eq_refl eq_refl (ex_ok t) ltac:(discriminate) ex_ne) as (x & RN & T & S & LL & GD & AL & LN & NI & RW & SS & SR & G & _).
  rewrite ex_rows in *. assert (EG : calculateGradient Reinforce (lrn x) (seqidx x) (rewards x) = Ok (map Some [- (3 / 5); 0])).
  { rewrite G. cbn [ex_eps map length pieces firstn skipn Nat.add]. unfold sum_rows, reinforce, column. cbn [seq map nth length Nat.add]. unfold return_of. cbn [map snd]. unfold rsum. cbn [fold_right]. rewrite !Rplus_0_r. rewrite C67_baseline_ex. f_equal. f_equal. f_equal.
    rewrite reinforce1_closed by (cbn; auto; lia). unfold Sgg, Sggr, Sgr, vsq, rsum. cbn. destruct (Req_EM_T _ 0) as [E | N]; [exfalso; lra |]. f_equal. field. }
  destruct (C67_learn Reinforce (lrn x) (seqidx x) (rewards x) [- (3 / 5); 0] ltac:(rewrite GD, T, S; reflexivity) EG ltac:(discriminate) ltac:(rewrite GD; reflexivity)) as (l' & c & H1 & H2 & H3 & H4 & _ & _ & _ & H8 & _).
  assert (C1 : c = 1) by (apply H8; repeat constructor; lra). subst c.
  eexists. rewrite agent_run_app, RN. cbn [rbind agent_run agent_step]. rewrite LN. cbn [learn_times]. rewrite H1. cbn [rbind option_map]. split; [reflexivity |]. cbn [lrn].
  rewrite T, S, AL in *. unfold radd in H3. cbn [app map rzip length] in H3, H4. destruct (theta l') as [|a [|? ?]]; try discriminate H4. cbn [app] in H3. destruct (sigma l') as [|b [|? ?]]; [discriminate H3 | | discriminate H3]. injection H3 as -> ->. split; f_equal; lra.
Qed.
Print Assumptions C67_reinforce_refuted.
(** a parameter whose derivatives sum to zero in every episode becomes nan *)
Theorem C67_nan_refuted F VJP n th sg d e al eps k : length sg = n -> length d = length th -> length e = n ->
  Forall (Forall (fun i => backward_ok F VJP n th (fst (fst i)) /\ fits n i)) eps -> eps <> [] -> Forall (fun ep => ep <> []) eps -> (k < length th + n)%nat ->
  Forall (fun x => x = 0) (column k (map (sum_rows (length th + n)) (pieces (map (@length _) eps) (running (d ++ e) (map (contribution VJP th sg) (concat eps)))))) ->
  agent_run F VJP Reinforce (new_agent (new_pg th sg d e al)) (doEpisodes eps ++ [Learn 1]) = Ok None.
Proof.
  intros Hs Hd He OK NE Hne Hk Z. destruct (C67_session F VJP n Reinforce th sg d e al eps Hs Hd He OK NE Hne) as (x & RN & T & S & LL & GD & AL & LN & NI & RW & SS & SR & G & _).
  assert (LG : length (gdvalues (lrn x)) = (length th + n)%nat) by (rewrite GD, app_length, Hs; reflexivity).
  rewrite agent_run_app, RN. cbn [rbind agent_run agent_step]. rewrite LN. cbn [learn_times]. rewrite (nan_step (lrn x) (seqidx x) (rewards x) k); [reflexivity | | exact NI | lia |].
  - rewrite LG, SS, SR. exact G.
  - rewrite LG, SS. exact Z.
Qed.
Example C67_nan_ex t al : agent_run one_weight one_weight_vjp Reinforce (new_agent (new_pg [t] [0] [0] [0] al)) (doEpisodes [[([0], [2], 1)]] ++ [Learn 1]) = Ok None.
Proof.
  apply (C67_nan_refuted one_weight one_weight_vjp 1 [t] [0] [0] [0] al [[([0], [2], 1)]] 0); try reflexivity; [apply ex_session_fits; repeat constructor | discriminate | repeat constructor; discriminate | cbn; lia |].
  unfold one_weight_vjp, column, sum_rows. cbn. repeat constructor. cbn. ring.
Qed.
Print Assumptions C67_nan_refuted.

(** ** ENAC: regression of the returns on the summed derivatives *)
Theorem C67_enac k pinv L rt : cols k L -> length L = length rt -> pseudo_inverse (k + 1) (pinv (enac_X L)) (enac_X L) ->
  length (enac pinv L rt) = k /\
  (exists b, forall w c, length w = k -> regression_error L rt (enac pinv L rt) b <= regression_error L rt w c) /\
  (injective (k + 1) (enac_X L) ->
    (forall w c, length w = k -> rt = map (fun r => rdot r w + c) L -> enac pinv L rt = w) /\
    (forall s, enac pinv L (map (fun r => r + s) rt) = enac pinv L rt)).
Proof.
  intros C LL PI. pose proof (enac_X_cols k L C) as CX. assert (LX : length (enac_X L) = length L) by (unfold enac_X; apply map_length). pose proof (fun rt => enac_split pinv k L rt (proj1 PI)) as SP.
  assert (BEST : forall rt b, length rt = length L -> mat_vec (pinv (enac_X L)) rt = enac pinv L rt ++ [b] -> length (enac pinv L rt) = k -> forall w c, length w = k -> regression_error L rt (enac pinv L rt) b <= regression_error L rt w c).
  { intros r b Lr E Le w c Hw. rewrite !(regression_dist k) by auto. rewrite <- E. rewrite (least_squares_eq (k + 1) (pinv (enac_X L)) (enac_X L) r (w ++ [c])) by (auto; rewrite ?app_length, ?LX; cbn; lia). cbv zeta. match goal with |- _ <= _ + rdot ?z _ => pose proof (rdot_pos z) end. lra. }
  assert (UNI : injective (k + 1) (enac_X L) -> forall rt b, length rt = length L -> mat_vec (pinv (enac_X L)) rt = enac pinv L rt ++ [b] -> length (enac pinv L rt) = k -> forall w c, length w = k -> regression_error L rt w c <= regression_error L rt (enac pinv L rt) b -> w = enac pinv L rt).
  { intros I r b Lr E Le w c Hw H. rewrite !(regression_dist k) in H by auto. rewrite <- E in H. apply (least_squares_unique (k + 1)) in H; auto; [| rewrite LX; auto | rewrite app_length; cbn; lia]. rewrite E in H. apply app_inj_tail in H. tauto. }
  destruct (SP rt) as (b & E & Le). split; [exact Le |]. split; [exists b; apply BEST; auto |]. intros I. split.
  - intros w c Hw ER. symmetry. apply (UNI I rt b) with (c := c); auto. replace (regression_error L rt w c) with 0.
    + unfold regression_error. induction (combine L rt) as [|p l IH]; cbn [map]; [cbn; lra |]. rewrite rsum_cons. pose proof (pow2_ge_0 (rdot (fst p) (enac pinv L rt) + b - snd p)). lra.
    + rewrite ER. unfold regression_error. clear. induction L as [|r L IH]; [reflexivity |]. cbn [map combine]. rewrite rsum_cons, <- IH. cbn [fst snd]. ring.
  - intros s. assert (SH : forall w c, regression_error L (map (fun r => r + s) rt) w (c + s) = regression_error L rt w c).
    { intros w c. unfold regression_error. clear -LL. revert rt LL. induction L as [|r L IH]; intros [|u rt] LL; try discriminate; [reflexivity |]. cbn [map combine]. rewrite !rsum_cons, IH by (now injection LL). cbn [fst snd]. f_equal. ring. }
    destruct (SP (map (fun r => r + s) rt)) as (b' & E' & Le'). symmetry. apply (UNI I _ b') with (c := b + s); auto; [rewrite map_length; auto |]. rewrite SH. replace b' with ((b' - s) + s) by ring. rewrite SH. apply BEST; auto.
Qed.
Definition ex_pinv (X : list rvec) : list rvec := [[-1; 1]; [1; 0]].
Example C67_enac_ex : pseudo_inverse 2 (ex_pinv (enac_X [[0]; [1]])) (enac_X [[0]; [1]]) /\ injective 2 (enac_X [[0]; [1]]) /\ enac ex_pinv [[0]; [1]] [3; 5] = [2].
Proof.
  assert (MV : forall a b, mat_vec (enac_X [[0]; [1]]) [a; b] = [b; a + b]) by (intros; unfold mat_vec, enac_X, rdot, rsum; cbn; f_equal; [ring | f_equal; ring]).
  assert (PV : forall a b, mat_vec (ex_pinv (enac_X [[0]; [1]])) [a; b] = [b - a; a]) by (intros; unfold mat_vec, ex_pinv, rdot, rsum; cbn; f_equal; [ring | f_equal; ring]).
  assert (LP : length (ex_pinv (enac_X [[0]; [1]])) = 2%nat) by reflexivity.
  assert (EN : enac ex_pinv [[0]; [1]] [3; 5] = removelast (mat_vec (ex_pinv (enac_X [[0]; [1]])) [3; 5])) by reflexivity. rewrite EN. clear EN.
  assert (LX : length (enac_X [[0]; [1]]) = 2%nat) by reflexivity. generalize dependent (ex_pinv (enac_X [[0]; [1]])). generalize dependent (enac_X [[0]; [1]]). intros X MV LX P PV LP.
  split; [| split].
  - split; [exact LP |]. rewrite LX. split.
    + intros [|a [|b [|? ?]]] H; try discriminate. rewrite MV, PV, MV. replace (a + b - b) with a by ring. reflexivity.
    + intros [|a [|b [|? ?]]] [|c [|d [|? ?]]] H K; try discriminate. rewrite !PV, !MV. unfold rdot, rsum. cbn. ring.
  - intros [|a [|b [|? ?]]] [|c [|d [|? ?]]] H K; try discriminate. rewrite !MV. intros E. injection E as E1 E2. f_equal; [lra | f_equal; lra].
  - rewrite PV. cbn [removelast]. f_equal. ring.
Qed.
Print Assumptions C67_enac.

(** ** the agent over all calls: the descent's values are the parameters in the network *)
Theorem C67_in_step F VJP k th sg d e al cs x : agent_run F VJP k (new_agent (new_pg th sg d e al)) cs = Ok (Some x) ->
  gdvalues (lrn x) = theta (lrn x) ++ sigma (lrn x) /\ length (theta (lrn x)) = length th /\ length (sigma (lrn x)) = length sg.
Proof.
  intros H. destruct (run_synced F VJP k cs (new_agent (new_pg th sg d e al)) x eq_refl H) as (A & B & C). cbn [new_agent new_pg lrn theta gdvalues] in B, C. split; [exact A |]. split; [exact B |]. rewrite A, !app_length, B in C. lia.
Qed.
Example C67_in_step_ex t : exists x, agent_run one_weight one_weight_vjp Reinforce (new_agent (new_pg [t] [0] [0] [0] 1)) (doEpisodes ex_eps ++ [Learn 1]) = Ok (Some x) /\ gdvalues (lrn x) = [t - 1 * (3 / 5); 0].
Proof. destruct (C67_reinforce_refuted t 1 ltac:(lra)) as (x & RN & T & S). exists x. split; [exact RN |]. destruct (C67_in_step _ _ _ _ _ _ _ _ _ _ RN) as [-> _]. rewrite T, S. reflexivity. Qed.
Print Assumptions C67_in_step.
(** an episode acted without learning, but logged, shifts the rows: the later episode's derivatives meet the earlier one's return *)
Theorem C67_alignment_refuted o1 z1 r1 o2 z2 r2 t : length z1 = 1%nat -> length z2 = 1%nat -> exists x,
  (forall k, agent_run one_weight one_weight_vjp k (new_agent (new_pg [t] [0] [0] [0] 1)) (SetLearning false :: doEpisodes [[(o1, z1, r1)]] ++ SetLearning true :: doEpisodes [[(o2, z2, r2)]]) = Ok (Some x)) /\
  sequence_sums 2 (seqidx x) (loglh (lrn x)) = [contribution one_weight_vjp [t] [0] (o2, z2, r2); [0; 0]] /\ sequence_returns (seqidx x) (rewards x) = [r1; r2] /\
  calculateGradient Reinforce (lrn x) (seqidx x) (rewards x) = Err ValueError.
Proof.
  intros H1 H2. destruct (explore_step one_weight one_weight_vjp 1 1 (new_pg [t] [0] [0] [0] 1) o2 z2) with (r := r2) as (_ & _ & _ & _ & E5 & E6); [repeat split | apply one_weight_ok | exact H2 |].
  pose proof (eq_refl (gdvalues (fst (explore one_weight one_weight_vjp (new_pg [t] [0] [0] [0] 1) o2 z2)))) as E7. unfold explore at 2 in E7. cbn [fst normal_backward gdvalues new_pg theta sigma app] in E7.
  eexists. split.
  - intros k. lazy beta iota zeta delta [doEpisodes flat_map oneInteraction app agent_run agent_step rbind act reward newEpisode new_agent lastobs lastaction lastreward rewards seqidx learning logging lrn length Nat.eqb last].
    rewrite (surjective_pairing (explore one_weight one_weight_vjp (new_pg [t] [0] [0] [0] 1) o2 z2)). cbn [lastobs lastaction lastreward rewards seqidx learning logging lrn length Nat.eqb last rbind app]. reflexivity.
  - cbn [seqidx rewards lrn]. set (l := fst _) in *. rewrite E5 in E6. cbn [new_pg dmod dexp theta sigma loglh app] in E6. unfold calculateGradient. rewrite E7. unfold sequence_sums, sequence_returns, seq_slice, slice. cbn [length seq map Nat.eqb nth skipn firstn]. rewrite E6. cbn [skipn firstn forallb andb].
    assert (SC : sum_rows 2 [radd [0; 0] (contribution one_weight_vjp [t] [0] (o2, z2, r2))] = contribution one_weight_vjp [t] [0] (o2, z2, r2)).
    { destruct z2 as [|b [|? ?]]; try discriminate. unfold contribution, one_weight_vjp, error, rmul, radd, sum_rows, column. cbn [map nth rzip app seq]. unfold rsum. cbn [fold_right]. f_equal; [ring | f_equal; ring]. }
    split; [| split; [| reflexivity]].
    + f_equal. exact SC.
    + unfold rsum. cbn [fold_right]. f_equal; [ring | f_equal; ring].
Qed.
Print Assumptions C67_alignment_refuted.

(** ** reset: rows, rewards and episodes start again together, whatever the agent went through before; the derivatives of module and explorer
    are not cleared, so that the first row starts from them *)
Theorem C67_reset F VJP n k x eps : learning x = true -> logging x = true -> gdvalues (lrn x) = theta (lrn x) ++ sigma (lrn x) ->
  length (sigma (lrn x)) = n -> length (dmod (lrn x)) = length (theta (lrn x)) -> length (dexp (lrn x)) = n ->
  Forall (Forall (fun i => backward_ok F VJP n (theta (lrn x)) (fst (fst i)) /\ fits n i)) eps -> eps <> [] -> Forall (fun ep => ep <> []) eps ->
  exists y, agent_run F VJP k x (Reset :: doEpisodes eps) = Ok (Some y) /\
    loglh (lrn y) = running (dmod (lrn x) ++ dexp (lrn x)) (map (contribution VJP (theta (lrn x)) (sigma (lrn x))) (concat eps)) /\
    rewards y = map snd (concat eps) /\ sequence_returns (seqidx y) (rewards y) = map return_of eps /\ theta (lrn y) = theta (lrn x).
Proof.
  intros Hl Hg Hv H1 H2 H3 H4 H5 H6. destruct (C67_session F VJP n k (theta (lrn x)) (sigma (lrn x)) (dmod (lrn x)) (dexp (lrn x)) (alpha (lrn x)) eps H1 H2 H3 H4 H5 H6)
    as (y & RN & Q1 & _ & Q2 & _ & _ & _ & _ & Q3 & _ & Q4 & _). exists y. split; [| auto]. rewrite <- RN.
  assert (E : agent_reset x = new_agent (new_pg (theta (lrn x)) (sigma (lrn x)) (dmod (lrn x)) (dexp (lrn x)) (alpha (lrn x)))).
  { unfold agent_reset, new_agent, pg_reset, new_pg. rewrite Hl, Hg, Hv. reflexivity. }
  rewrite <- E. reflexivity.
Qed.
Example C67_reset_ex t : let x := mkAgent (mkPg [t] [0] [5] [6] [[7; 8]] [t; 0] 1) None None None [9] [0%nat] true true in
  exists y, agent_run one_weight one_weight_vjp Reinforce x (Reset :: doEpisodes ex_eps) = Ok (Some y) /\ rewards y = [0; 1] /\ length (loglh (lrn y)) = 2%nat.
Proof.
  cbv zeta. destruct (C67_reset one_weight one_weight_vjp 1 Reinforce (mkAgent (mkPg [t] [0] [5] [6] [[7; 8]] [t; 0] 1) None None None [9] [0%nat] true true) ex_eps eq_refl eq_refl eq_refl eq_refl eq_refl eq_refl
    (ex_ok t) ltac:(discriminate) ex_ne) as (y & RN & Q1 & Q2 & _). exists y. split; [exact RN |]. split; [exact Q2 |]. rewrite Q1. reflexivity.
Qed.
Print Assumptions C67_reset.

(** ** the two switches: with logging off no reward and no episode is recorded, with learning off nothing of the learner changes *)
Theorem C67_switches F VJP k : forall cs x y, agent_run F VJP k x cs = Ok (Some y) ->
  (logging x = false -> Forall (fun c => match c with SetLogging _ | Reset => False | _ => True end) cs -> rewards y = rewards x /\ seqidx y = seqidx x) /\
  (learning x = false -> Forall (fun c => match c with SetLearning _ => False | _ => True end) cs -> lrn y = lrn x).
Proof.
  induction cs as [|c cs IH]; intros x y H; cbn [agent_run] in H; [injection H as <-; auto |].
  assert (G : exists z, agent_step F VJP k x c = Ok (Some z) /\ agent_run F VJP k z cs = Ok (Some y)).
  { destruct (agent_step F VJP k x c) as [[z|]|]; cbn [rbind] in H; try discriminate. eauto. }
  clear H. destruct G as (z & E & H). destruct (IH z y H) as [I1 I2]. split.
  - intros Hg Hc. apply Forall_cons_iff in Hc. destruct Hc as [Hc Hcs].
    assert (Q : logging z = false /\ rewards z = rewards x /\ seqidx z = seqidx x).
    { destruct c; cbn [agent_step] in E; try contradiction.
      - injection E as <-. auto.
      - unfold act in E. destruct (lastobs x), (lastaction x), (lastreward x); cbn [rbind] in E; try discriminate. destruct (if learning x then _ else _). cbn [rbind] in E. injection E as <-. auto.
      - unfold reward in E. destruct (lastobs x), (lastaction x), (lastreward x); cbn [rbind] in E; try discriminate. injection E as <-. rewrite Hg. auto.
      - unfold newEpisode in E. rewrite Hg in E. cbn [rbind] in E. injection E as <-. auto.
      - destruct (learning x); [| injection E as <-; auto]. destruct (learn_times _ _ _ _ _) as [[l|]|]; cbn [rbind option_map] in E; try discriminate. injection E as <-. auto.
      - injection E as <-. auto. }
    destruct Q as (Q1 & Q2 & Q3). destruct (I1 Q1 Hcs) as [-> ->]. auto.
  - intros Hg Hc. apply Forall_cons_iff in Hc. destruct Hc as [Hc Hcs].
    assert (Q : learning z = false /\ lrn z = lrn x).
    { destruct c; cbn [agent_step] in E; try contradiction.
      - injection E as <-. auto.
      - unfold act in E. destruct (lastobs x), (lastaction x), (lastreward x); cbn [rbind] in E; try discriminate. rewrite Hg in E. cbn [rbind] in E. injection E as <-. auto.
      - unfold reward in E. destruct (lastobs x), (lastaction x), (lastreward x); cbn [rbind] in E; try discriminate. injection E as <-. auto.
      - unfold newEpisode in E. destruct (logging x); [| cbn [rbind] in E; injection E as <-; auto]. destruct (_ =? _)%nat; [cbn [rbind] in E; injection E as <-; auto |].
        destruct (_ =? _)%nat; cbn [rbind] in E; try discriminate. injection E as <-. auto.
      - injection E as <-. unfold agent_reset. rewrite Hg. auto.
      - rewrite Hg in E. injection E as <-. auto.
      - injection E as <-. auto. }
    destruct Q as (Q1 & Q2). rewrite (I2 Q1 Hcs). auto.
Qed.
Example C67_switches_ex t : exists y, agent_run one_weight one_weight_vjp Reinforce (new_agent (new_pg [t] [0] [0] [0] 1))
  [SetLogging false; SetLearning false; Observe [1]; Act [1]; Reward 7; Learn 1] = Ok (Some y) /\ rewards y = [] /\ lrn y = new_pg [t] [0] [0] [0] 1.
Proof. eexists. split; [reflexivity |]. auto. Qed.
Print Assumptions C67_switches.
