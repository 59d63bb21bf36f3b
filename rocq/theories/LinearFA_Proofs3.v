(** Least squares, policies, learning rate, and the agent (C66). *)
From Coq Require Import Reals Lra.
From Verif Require Import Base Functions_Model Functions_Proofs FiniteDiff_Proofs LinearFA_Model LinearFA_Spec LinearFA_Proofs LinearFA_Proofs2.
Local Open Scope R_scope.

Section LS.
Context (p : params).
Notation n := (num_actions p).
Notation m := (num_features p).
Notation k := (n * m)%nat.
Notation gamma := (rewardDiscount p).

Definition sys (th : mat) (l : learner) : Prop :=
  length (theta l) = n /\ shape n m (etraces l) /\ shape k k (mA l) /\ length (vb l) = k /\ mat_vec (mA l) (ravel th) = vb l.
Lemma reshape_len a b v : length (reshape a b v) = a.
Proof. unfold reshape. now rewrite map_length, seq_length. Qed.
Lemma shape_outer' u v a b : length u = a -> length v = b -> shape a b (outer u v).
Proof. intros <- <-. apply shape_outer. Qed.
Lemma system_step th A b e f r : shape k k A -> length b = k -> length e = k -> length f = k -> mat_vec A (ravel th) = b -> rdot f (ravel th) = r ->
  shape k k (madd A (outer e f)) /\ length (vadd b (vscale r e)) = k /\ mat_vec (madd A (outer e f)) (ravel th) = vadd b (vscale r e).
Proof.
  intros SA Lb Le Lf E D. split; [apply shape_madd; auto; apply shape_outer'; auto |]. split; [apply vadd_len; auto; rewrite vscale_len; auto |].
  rewrite (mat_vec_madd k k) by (auto; apply shape_outer'; auto). now rewrite E, mat_vec_outer, D.
Qed.
Lemma outer_onehot th s' g : shape n m th -> (g < n)%nat -> length s' = m -> rv_dot (outer (upd g 1 (zeros n)) s') th = value th s' g.
Proof.
  intros S Hg Hs. rewrite rv_dot_comm, rv_dot_outer; [| rewrite upd_length; unfold zeros; rewrite repeat_length; destruct S; auto | destruct S as [_ F]; rewrite Hs; auto].
  rewrite rdot_onehot; [| auto | unfold qValues; rewrite mat_vec_len; destruct S; auto]. apply nth_qValues. destruct S. lia.
Qed.
Lemma lstdq_step th l s a r s' d : shape n m th -> (0 < n)%nat -> sys th l -> length s = m -> (a < n)%nat -> length s' = m ->
  value th s a = r + gamma * value th s' (r_argmax (qValues (theta l) s') d) -> sys th (update_lstdq p l s a r s' d).
Proof.
  intros STH Hn (LT & SE & SA & Lb & E) Hs Ha Hs' SV. unfold update_lstdq, sys. cbn [theta etraces mA vb with_theta with_system updateEtraces with_etraces].
  split; [apply reshape_len |]. assert (SE' : shape n m (addrow a s (mscale (gamma * lambda p * 1) (etraces l)))) by (apply shape_addrow; [apply shape_mscale |]; auto).
  split; [auto |]. set (e := ravel _) in *.
  assert (NE : qValues (theta l) s' <> []) by (unfold qValues, mat_vec; destruct (theta l); [cbn in LT; lia | discriminate]).
  destruct (r_argmax_spec (qValues (theta l) s') d NE) as [G _]. unfold qValues in G at 2. rewrite mat_vec_len, LT in G.
  assert (L1 : length (ravel (phi_of p a s)) = k) by (apply ravel_len, shape_phi; auto).
  assert (L2 : length (ravel (outer (greedyPolicy n (theta l) s' d) s')) = k) by (apply ravel_len, shape_outer_greedy; auto).
  apply system_step; auto.
  - apply ravel_len. auto.
  - apply vsub_len; [auto | rewrite vscale_len; auto].
  - rewrite rdot_vsub by (rewrite vscale_len; congruence). rewrite rdot_vscale. fold (rv_dot (phi_of p a s) th). fold (rv_dot (outer (greedyPolicy n (theta l) s' d) s') th).
    rewrite rv_dot_phi by auto. unfold greedyPolicy. rewrite outer_onehot by auto. lra.
Qed.
Lemma lstdq_run th beh : shape n m th -> (0 < n)%nat -> forall es l l', sys th l -> Forall (in_range p) es -> solved_greedy p beh th l es -> tell_all LSTDQLambda p beh l es = Ok l' -> sys th l'.
Proof.
  intros STH Hn. induction es as [|e es IH]; intros l l' S HR SV H; cbn [tell_all solved_greedy] in *; [injection H as <-; auto |].
  destruct SV as [SV1 SV2]. destruct (tell LSTDQLambda p beh l e) as [l1|] eqn:E; [| discriminate]. cbn [rbind] in H. inversion HR as [| ? ? R1 R2]; subst.
  apply (IH l1 l'); auto. destruct e as [| s a r s' nx [[d1 d2] d3]]; cbn [tell] in E.
  - injection E as <-. destruct S as (A & _ & B). split; [exact A |]. split; [apply shape_zeros2 | exact B].
  - destruct nx; cbn [updateWeights] in E; [discriminate |]. injection E as <-. cbn [in_range] in R1. destruct R1 as (Hs & Ha & Hs' & _). apply lstdq_step; auto.
Qed.
Lemma solution th A : shape n m th -> good_pinv (pinv2 p) k -> shape k k A -> injective k A -> reshape n m (mat_vec (pinv2 p A) (mat_vec A (ravel th))) = th.
Proof. intros STH G SA I. rewrite (G A SA I) by (apply ravel_len; auto). apply reshape_ravel. auto. Qed.

(** LSPI *)
Lemma lspi_step th l s a r s' b : exploring p = false -> shape n m th -> sys th l -> length s = m -> (a < n)%nat -> length s' = m -> (b < n)%nat ->
  value th s a = r + gamma * value th s' b -> 
  let l1 := update_lspi p l s a r s' b in sys th l1 /\ count l1 = S (count l) /\
  (match lazyInversions p with None => True | Some c => (count l mod c = 0)%nat end -> theta l1 = reshape n m (mat_vec (pinv2 p (mA l1)) (vb l1))).
Proof.
  intros EX STH (LT & SE & SA & Lb & E) Hs Ha Hs' Hb SV. cbv zeta. unfold update_lspi, sys. cbn [theta etraces mA vb count]. rewrite EX.
  assert (L1 : length (ravel (phi_of p a s)) = k) by (apply ravel_len, shape_phi; auto).
  assert (L2 : length (ravel (phi_of p b s')) = k) by (apply ravel_len, shape_phi; auto).
  split; [| split; [auto |]].
  - split; [destruct (match lazyInversions p with None => true | Some c => _ end); [apply reshape_len | auto] |]. split; [auto |]. apply system_step; auto.
    + apply vsub_len; [auto | rewrite vscale_len; auto].
    + rewrite rdot_vsub by (rewrite vscale_len; congruence). rewrite rdot_vscale. fold (rv_dot (phi_of p a s) th). fold (rv_dot (phi_of p b s') th). rewrite !rv_dot_phi by auto. lra.
  - intros D. destruct (lazyInversions p) as [c|]; [| auto]. rewrite D. reflexivity.
Qed.
Lemma lspi_run th beh : exploring p = false -> shape n m th -> forall es l l', sys th l -> Forall (in_range p) es -> Forall (solved p th) es -> tell_all LSPI p beh l es = Ok l' ->
  sys th l' /\ count l' = (count l + length (filter is_transition es))%nat.
Proof.
  intros EX STH. induction es as [|e es IH]; intros l l' S HR SV H; cbn [tell_all filter length] in *; [injection H as <-; split; [auto | lia] |].
  destruct (tell LSPI p beh l e) as [l1|] eqn:E; [| discriminate]. cbn [rbind] in H. inversion HR as [| ? ? R1 R2]; inversion SV as [| ? ? V1 V2]; subst.
  destruct e as [| s a r s' nx [[d1 d2] d3]]; cbn [tell is_transition length] in *.
  - injection E as <-. apply (IH _ l') in H; auto. destruct S as (A & _ & B). split; [exact A |]. split; [apply shape_zeros2 | exact B].
  - destruct nx as [b|]; cbn [updateWeights] in E; [| discriminate]. injection E as <-. cbn [in_range solved] in *. destruct R1 as (Hs & Ha & Hs' & Hb).
    destruct (lspi_step th l s a r s' b EX STH S Hs Ha Hs' Hb V1) as (S1 & C1 & _). apply (IH _ l') in H as [H1 H2]; auto. split; [auto |]. rewrite H2, C1. lia.
Qed.
Lemma tell_all_app al beh l es es' : tell_all al p beh l (es ++ es') = rbind (tell_all al p beh l es) (fun l1 => tell_all al p beh l1 es').
Proof. revert l. induction es as [|e es IH]; intros l; cbn [app tell_all]; [reflexivity |]. destruct (tell al p beh l e); cbn [rbind]; auto. Qed.
End LS.

(** ** policies *)
Lemma rsum_onehot n g : (g < n)%nat -> rsum (upd g 1 (zeros n)) = 1.
Proof.
  unfold zeros. revert g. induction n as [|n IH]; intros g H; [lia |]. cbn [repeat]. destruct g as [|g]; cbn [upd]; rewrite rsum_cons.
  - rewrite rsum_zeros by (apply Forall_repeat; auto). lra.
  - rewrite IH by lia. lra.
Qed.
Lemma onehot_dist n g : (g < n)%nat -> distribution n (upd g 1 (zeros n)).
Proof.
  intros H. split; [rewrite upd_length; apply repeat_length |]. split; [| now apply rsum_onehot]. apply Forall_forall. intros x Hx. apply upd_In in Hx as [-> | Hx]; [lra |]. apply repeat_spec in Hx. lra.
Qed.
Lemma rsum_map_div t l : rsum (map (fun x => x / t) l) = rsum l / t.
Proof. unfold Rdiv. induction l as [|x l IH]; cbn [map]; [unfold rsum; cbn; lra |]. rewrite !rsum_cons, IH. lra. Qed.
Lemma normalised n l : length l = n -> Forall (fun x => 0 <= x) l -> 0 < rsum l -> distribution n (map (fun x => x / rsum l) l).
Proof.
  intros L F P. split; [rewrite map_length; auto |]. split; [| rewrite rsum_map_div; field; lra]. apply Forall_map. eapply Forall_impl; [| exact F]. cbn. intros x Hx.
  apply Rmult_le_pos; [auto |]. left. apply Rinv_0_lt_compat. auto.
Qed.
Lemma rsum_positive l : l <> [] -> Forall (fun x => 0 < x) l -> 0 < rsum l.
Proof.
  destruct l as [|x l]; [congruence |]. intros _ F. inversion F; subst. rewrite rsum_cons. assert (0 <= rsum l) by (apply rsum_pos; eapply Forall_impl; [| eassumption]; cbn; intros; lra). lra.
Qed.
Lemma boltzmann_dist q T d : q <> [] -> distribution (length q) (boltzmannProbs q T d).
Proof.
  intros NE. unfold boltzmannProbs. cbv zeta. destruct (Req_EM_T T 0).
  - destruct (r_argmax_spec q d NE) as [G _]. destruct (onehot_dist _ _ G) as (A & B & C). apply normalised; auto. rewrite C. lra.
  - assert (F : Forall (fun x => 0 < x) (map (fun x => exp (clip (-20) 0 (x - vmax (map (fun x => x / T) q)))) (map (fun x => x / T) q))) by (apply Forall_map, Forall_forall; intros; apply exp_pos).
    apply normalised; [rewrite !map_length; auto | eapply Forall_impl; [| exact F]; cbn; intros; lra |]. apply rsum_positive; auto. destruct q; [congruence | discriminate].
Qed.
Lemma clip_mono lo hi x y : x <= y -> clip lo hi x <= clip lo hi y.
Proof. intros H. unfold clip, Rmin, Rmax. repeat destruct (Rle_dec _ _); lra. Qed.
Lemma clip_low x : -20 <= clip (-20) 0 x.
Proof. unfold clip, Rmin, Rmax. repeat destruct (Rle_dec _ _); lra. Qed.
Lemma clip_high x : clip (-20) 0 x <= 0.
Proof. unfold clip, Rmin, Rmax. repeat destruct (Rle_dec _ _); lra. Qed.
Lemma clip_id x : -20 <= x <= 0 -> clip (-20) 0 x = x.
Proof. unfold clip, Rmin, Rmax. repeat destruct (Rle_dec _ _); lra. Qed.
Lemma exp_mono x y : x <= y -> exp x <= exp y.
Proof. intros [H | ->]; [left; now apply exp_increasing | lra]. Qed.
Lemma boltz_nth q T d i : T <> 0 -> (i < length q)%nat ->
  let t := map (fun x => x / T) q in
  nth i (boltzmannProbs q T d) 0 = exp (clip (-20) 0 (nth i q 0 / T - vmax t)) / rsum (map (fun x => exp (clip (-20) 0 (x - vmax t))) t).
Proof.
  intros HT Hi t. unfold boltzmannProbs. destruct (Req_EM_T T 0); [contradiction |]. fold t. cbv zeta.
  rewrite nth_map0 by (unfold t; rewrite !map_length; auto). rewrite nth_map0 by (unfold t; rewrite !map_length; auto). unfold t at 1. rewrite nth_map0 by auto. reflexivity.
Qed.
Lemma boltz_total q T : q <> [] -> let t := map (fun x => x / T) q in 0 < rsum (map (fun x => exp (clip (-20) 0 (x - vmax t))) t) <= INR (length q).
Proof.
  intros NE t. split.
  - apply rsum_positive; [unfold t; destruct q; [congruence | discriminate] |]. apply Forall_map, Forall_forall. intros. apply exp_pos.
  - replace (INR (length q)) with (rsum (map (fun _ : R => 1) t)) by (rewrite rsum_const; unfold t; rewrite map_length; lra). apply rsum_le. intros x _. rewrite <- exp_0. apply exp_mono, clip_high.
Qed.
Lemma boltz_positive q T d i : T <> 0 -> (i < length q)%nat -> exp (-20) / INR (length q) <= nth i (boltzmannProbs q T d) 0.
Proof.
  intros HT Hi. assert (NE : q <> []) by (destruct q; [cbn in Hi; lia | discriminate]). rewrite boltz_nth by auto. cbv zeta. destruct (boltz_total q T NE) as [P Q].
  assert (0 < INR (length q)) by (apply lt_0_INR; lia). unfold Rdiv. apply Rmult_le_compat; [left; apply exp_pos | left; apply Rinv_0_lt_compat; auto | apply exp_mono, clip_low | apply Rinv_le_contravar; auto].
Qed.
Lemma boltz_mono q T d i j : 0 < T -> (i < length q)%nat -> (j < length q)%nat -> nth i q 0 <= nth j q 0 -> nth i (boltzmannProbs q T d) 0 <= nth j (boltzmannProbs q T d) 0.
Proof.
  intros HT Hi Hj H. assert (NE : q <> []) by (destruct q; [cbn in Hi; lia | discriminate]). rewrite !boltz_nth by (auto; lra). cbv zeta. destruct (boltz_total q T NE) as [P Q].
  unfold Rdiv. apply Rmult_le_compat_r; [left; apply Rinv_0_lt_compat; auto |]. apply exp_mono, clip_mono. apply Rplus_le_compat_r. apply Rmult_le_compat_r; [left; apply Rinv_0_lt_compat; auto | auto].
Qed.
Lemma boltz_gibbs q T d i : 0 < T -> (forall a b, In a q -> In b q -> a - b <= 20 * T) -> (i < length q)%nat ->
  nth i (boltzmannProbs q T d) 0 = exp (nth i q 0 / T) / rsum (map (fun x => exp (x / T)) q).
Proof.
  intros HT HS Hi. assert (NE : q <> []) by (destruct q; [cbn in Hi; lia | discriminate]). rewrite boltz_nth by (auto; lra). cbv zeta. set (t := map (fun x => x / T) q).
  assert (NT : t <> []) by (unfold t; destruct q; [congruence | discriminate]). destruct (vmax_spec t NT) as [V1 V2].
  assert (CL : forall x, In x q -> exp (clip (-20) 0 (x / T - vmax t)) = exp (- vmax t) * exp (x / T)).
  { intros x Hx. rewrite clip_id; [rewrite <- exp_plus; f_equal; lra |]. assert (A := V2 (x / T) (in_map (fun x => x / T) q x Hx)). unfold t in V1. apply in_map_iff in V1 as (y & E & Hy). fold t in E. rewrite <- E in *.
    specialize (HS y x Hy Hx). assert (y / T - x / T <= 20); [| lra]. replace (y / T - x / T) with ((y - x) / T) by (field; lra). apply Rmult_le_reg_r with T; [auto |]. unfold Rdiv. rewrite Rmult_assoc, Rinv_l by lra. lra. }
  rewrite (CL (nth i q 0)) by (apply nth_In; auto). assert (E : rsum (map (fun x => exp (clip (-20) 0 (x - vmax t))) t) = exp (- vmax t) * rsum (map (fun x => exp (x / T)) q)).
  { rewrite <- rsum_scale. unfold t at 2. rewrite map_map. f_equal. apply map_ext_in. intros x Hx. apply CL. auto. }
  rewrite E. assert (0 < exp (- vmax t)) by apply exp_pos. assert (0 < rsum (map (fun x => exp (x / T)) q)) by (apply rsum_positive; [destruct q; [congruence | discriminate] | apply Forall_map, Forall_forall; intros; apply exp_pos]).
  field. lra.
Qed.

(** ** the learning rate *)
Lemma tell_rate al p beh l e l1 : tell al p beh l e = Ok l1 ->
  match e with
  | Start => callcount l1 = S (callcount l) /\ learningRate l1 = learningRate l * ((learningRateDecay p + INR (S (callcount l))) / (learningRateDecay p + INR (S (callcount l)) + 1))
  | Transition _ _ _ _ _ _ => callcount l1 = callcount l /\ learningRate l1 = learningRate l
  end.
Proof.
  intros H. destruct e as [| s a r s' nx [[d1 d2] d3]]; cbn [tell] in H; [injection H as <-; auto |].
  destruct al, nx; cbn [updateWeights] in H; try discriminate; injection H as <-; auto.
Qed.
Lemma rate_run al p beh es : 0 <= learningRateDecay p -> forall l l', tell_all al p beh l es = Ok l' ->
  learningRate l' = learningRate l * ((learningRateDecay p + INR (callcount l) + 1) / (learningRateDecay p + INR (callcount l) + INR (starts es) + 1)).
Proof.
  intros Hd. induction es as [|e es IH]; intros l l' H; cbn [tell_all] in H.
  - injection H as <-. unfold starts. cbn [filter length INR]. pose proof (pos_INR (callcount l)). field. lra.
  - destruct (tell al p beh l e) as [l1|] eqn:E; [| discriminate]. cbn [rbind] in H. apply IH in H. apply tell_rate in E. rewrite H. clear H. pose proof (pos_INR (callcount l)).
    destruct e as [| s a r s' nx [[d1 d2] d3]]; destruct E as [-> ->]; unfold starts; cbn [filter is_transition negb length].
    + rewrite !S_INR. pose proof (pos_INR (length (filter (fun e => negb (is_transition e)) es))). field. lra.
    + reflexivity.
Qed.
