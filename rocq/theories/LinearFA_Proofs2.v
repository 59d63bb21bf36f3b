(** Learners (C66). *)
From Coq Require Import Reals Lra.
From Verif Require Import Base Functions_Model Functions_Proofs FiniteDiff_Proofs LinearFA_Model LinearFA_Spec LinearFA_Proofs.
Local Open Scope R_scope.

Section L.
Context (p : params).
Notation n := (num_actions p).
Notation m := (num_features p).
Notation gamma := (rewardDiscount p).
Notation shp := (shape n m).

(** ** one update *)
Lemma addrow_value th a v t b : shp th -> (a < n)%nat -> length v = m ->
  value (addrow a v th) t b = value th t b + (if (a =? b)%nat then rdot v t else 0).
Proof.
  intros S Ha Hv. unfold value, addrow. rewrite nth_upd. rewrite (proj1 S), (proj2 (Nat.ltb_lt _ _) Ha), (Nat.eqb_sym a b).
  destruct (Nat.eqb_spec b a) as [-> |]; cbn [andb]; [| lra]. apply rdot_vadd. rewrite (shape_row n m); auto.
Qed.
Lemma update_q_value l s a r s' t b : shp (theta l) -> (a < n)%nat -> length s = m ->
  value (theta (update_q p l s a r s')) t b = value (theta l) t b + (if (a =? b)%nat then learningRate l * td_max p l s a r s' * rdot s t else 0).
Proof. intros S Ha Hs. unfold update_q, with_theta. cbn [theta]. rewrite addrow_value by (auto; rewrite vscale_len; auto). now rewrite rdot_vscale. Qed.
Lemma update_q_ent l s a r s' i j : shp (theta l) -> (a < n)%nat -> length s = m ->
  ent (theta (update_q p l s a r s')) i j = ent (theta l) i j + (if (a =? i)%nat then learningRate l * td_max p l s a r s' * nth j s 0 else 0).
Proof. intros S Ha Hs. unfold update_q, with_theta. cbn [theta]. rewrite (ent_addrow n m) by (auto; rewrite vscale_len; auto). now rewrite nth_vscale. Qed.
Lemma update_q_shape l s a r s' : shp (theta l) -> length s = m -> shp (theta (update_q p l s a r s')).
Proof. intros S Hs. unfold update_q, with_theta. cbn [theta]. apply shape_addrow; auto. now rewrite vscale_len. Qed.
Lemma traces_shape l s a resp : shp (etraces l) -> length s = m -> shp (etraces (updateEtraces p l s a resp)).
Proof. intros S Hs. unfold updateEtraces, with_etraces. cbn [etraces]. apply shape_addrow; auto. now apply shape_mscale. Qed.
Lemma traces_ent l s a resp i j : shp (etraces l) -> length s = m -> (a < n)%nat ->
  ent (etraces (updateEtraces p l s a resp)) i j = gamma * lambda p * resp * ent (etraces l) i j + (if (a =? i)%nat then nth j s 0 else 0).
Proof. intros S Hs Ha. unfold updateEtraces, with_etraces. cbn [etraces]. rewrite (ent_addrow n m) by (auto using shape_mscale). now rewrite ent_mscale. Qed.
Lemma update_qlambda_ent l s a r s' i j : shp (theta l) -> shp (etraces l) -> (a < n)%nat -> length s = m ->
  ent (theta (update_qlambda p l s a r s')) i j = ent (theta l) i j + learningRate l * td_max p l s a r s' * ent (etraces (update_qlambda p l s a r s')) i j.
Proof.
  intros S E Ha Hs. unfold update_qlambda, with_theta. cbn [theta etraces]. rewrite (ent_madd n m); [| auto | apply shape_mscale, traces_shape; auto]. rewrite ent_mscale. reflexivity.
Qed.
Lemma update_sarsa_ent l s a r s' b i j : shp (theta l) -> shp (etraces l) -> (a < n)%nat -> length s = m ->
  ent (theta (update_sarsa p l s a r s' b)) i j = ent (theta l) i j + learningRate l * (r + gamma * value (theta l) s' b - value (theta l) s a) * ent (etraces (update_sarsa p l s a r s' b)) i j.
Proof.
  intros S E Ha Hs. unfold update_sarsa, with_theta. cbn [theta etraces]. rewrite (ent_madd n m); [| auto | apply shape_mscale, traces_shape; auto]. rewrite ent_mscale. reflexivity.
Qed.

(** the shape of weights and traces is kept *)
Definition wf (l : learner) : Prop := shp (theta l) /\ shp (etraces l) /\ shp (sec_weights l).
Definition plain (al : algo) : bool := match al with LSTDQLambda | LSPI => false | _ => true end.
Lemma greedyPolicy_len th s d : length (greedyPolicy n th s d) = n.
Proof. unfold greedyPolicy. rewrite upd_length. apply repeat_length. Qed.
Lemma shape_outer_greedy th s s' d : length s' = m -> shp (outer (greedyPolicy n th s d) s').
Proof. intros H. pose proof (shape_outer (greedyPolicy n th s d) s') as X. now rewrite greedyPolicy_len, H in X. Qed.
Lemma reshape_shape k v : (n * m <= length v)%nat -> k = n -> shape k m (reshape k m v).
Proof.
  intros H ->. unfold reshape. split; [rewrite map_length, seq_length; auto |]. apply Forall_map, Forall_forall. intros i Hi. apply in_seq in Hi.
  rewrite firstn_length, skipn_length. assert ((i + 1) * m <= n * m)%nat by (apply Nat.mul_le_mono_r; lia). lia.
Qed.
Lemma tell_etraces al beh l e l1 : has_traces al = true -> tell al p beh l e = Ok l1 -> 
  match e with
  | Start => etraces l1 = zeros2 n m
  | Transition s a r s' nx (d1, d2, d3) => etraces l1 = etraces (updateEtraces p l s a (responsibility al p beh l s a d1 d3))
  end.
Proof.
  intros HT H. destruct e as [| s a r s' nx [[d1 d2] d3]]; cbn [tell] in H; [injection H as <-; reflexivity |].
  destruct al; try discriminate; destruct nx; cbn [updateWeights] in H; try discriminate; injection H as <-; reflexivity.
Qed.

(** ** traces *)
Lemma rprod_app a b : rprod (a ++ b) = rprod a * rprod b.
Proof. induction a as [|x a IH]; cbn [app rprod]; [lra |]. rewrite IH. lra. Qed.
Lemma rsum_app a b : rsum (a ++ b) = rsum a + rsum b.
Proof. unfold rsum. induction a as [|x a IH]; cbn [app fold_right]; [lra |]. rewrite IH. lra. Qed.
Lemma trace_snoc c vs v a j : trace c (vs ++ [v]) a j = c * v_resp v * trace c vs a j + (if (v_action v =? a)%nat then nth j (v_state v) 0 else 0).
Proof.
  unfold trace. rewrite app_length. cbn [length]. rewrite seq_app, map_app, rsum_app. cbn [seq map Nat.add]. f_equal.
  - rewrite <- rsum_scale. f_equal. apply map_ext_in. intros i Hi. apply in_seq in Hi. cbv zeta. rewrite app_nth1 by lia.
    rewrite skipn_app, map_app, rprod_app. replace (S i - length vs)%nat with 0%nat by lia. cbn [skipn map rprod]. lra.
  - rewrite app_nth2, Nat.sub_diag by lia. cbn [nth]. rewrite skipn_all2 by (rewrite app_length; cbn; lia). unfold rsum. cbn. lra.
Qed.
Lemma traces_run al beh : has_traces al = true -> forall es l l' vs, Forall (in_range p) es -> Forall (fun e => is_transition e = true) es ->
  shp (etraces l) -> (forall i j, (i < n)%nat -> ent (etraces l) i j = trace (gamma * lambda p) vs i j) ->
  tell_all al p beh l es = Ok l' -> forall i j, (i < n)%nat -> ent (etraces l') i j = trace (gamma * lambda p) (vs ++ visits al p beh l es) i j.
Proof.
  intros HT. induction es as [|e es IH]; intros l l' vs HR HI S HV H i j Hi; cbn [tell_all visits] in *.
  - injection H as <-. rewrite app_nil_r. auto.
  - destruct (tell al p beh l e) as [l1|] eqn:E; [| discriminate]. cbn [rbind] in H. inversion HR as [| ? ? R1 R2]; inversion HI as [| ? ? I1 I2]; subst. apply tell_etraces in E; [| auto].
    destruct e as [| s a r s' nx [[d1 d2] d3]]; [discriminate |]. cbn [in_range] in R1. destruct R1 as (Hs & Ha & _).
    change (vs ++ ?x :: ?t) with (vs ++ [x] ++ t). rewrite app_assoc. eapply IH; eauto; rewrite E.
    + apply traces_shape; auto.
    + intros i' j' Hi'. rewrite traces_ent by auto. rewrite trace_snoc. cbn [v_resp v_action v_state]. rewrite HV by auto. reflexivity.
Qed.

(** ** solved weights stay *)
Lemma greedy_expect th s' d : shp th -> (0 < n)%nat -> length s' = m -> rv_dot th (outer (greedyPolicy n th s' d) s') = vmax (qValues th s').
Proof.
  intros S Hn Hs. rewrite rv_dot_outer; [| rewrite greedyPolicy_len; destruct S; auto | destruct S as [_ F]; rewrite Hs; auto].
  assert (NE : qValues th s' <> []) by (unfold qValues, mat_vec; destruct S as [L _], th; [cbn in L; lia | discriminate]).
  destruct (r_argmax_spec (qValues th s') d NE) as [A B]. assert (LQ : length (qValues th s') = n) by (unfold qValues; rewrite mat_vec_len; destruct S; auto).
  unfold greedyPolicy. rewrite rdot_onehot by (auto; lia). auto.
Qed.
Lemma madd_zero A B : shp A -> shp B -> (forall i j, ent B i j = 0) -> madd A B = A.
Proof. intros SA SB H. apply (mat_ext n m); auto using shape_madd. intros. rewrite (ent_madd n m), H by auto. lra. Qed.
Lemma value_td l s a r s' : shp (theta l) -> (0 < n)%nat -> (exists v, greatest (theta l) n s' v /\ value (theta l) s a = r + gamma * v) -> td_max p l s a r s' = 0.
Proof.
  intros S Hn (v & G & E). unfold td_max. rewrite (greatest_unique (theta l) n s' (vmax (qValues (theta l) s')) v) by (auto; eapply vmax_greatest; eauto).
  unfold value in E. lra.
Qed.
Lemma sec_zero l : sec_weights l = zeros2 n m -> forall B, rv_dot (sec_weights l) B = 0.
Proof. intros -> B. apply rv_dot_zeros. Qed.
Lemma solved_stays al beh l e l1 : plain al = true -> wf l -> sec_weights l = zeros2 n m -> (0 < n)%nat -> in_range p e -> solved p (theta l) e -> tell al p beh l e = Ok l1 ->
  theta l1 = theta l /\ wf l1 /\ sec_weights l1 = zeros2 n m.
Proof.
  intros HP (ST & SE & SW) W Hn R SV H. destruct e as [| s a r s' nx [[d1 d2] d3]]; cbn [tell] in H.
  - injection H as <-. unfold newEpisode. cbn [theta sec_weights]. split; [auto |]. split; [| auto]. split; [auto |]. split; [apply shape_zeros2 | auto].
  - cbn [in_range] in R. destruct R as (Hs & Ha & Hs' & Hb). cbn [solved] in SV.
    assert (SE' : forall resp, shp (etraces (updateEtraces p l s a resp))) by (intros; apply traces_shape; auto).
    destruct al; try discriminate; destruct nx as [b|]; cbn [updateWeights] in H; try discriminate; injection H as <-.
    + assert (TD := value_td l s a r s' ST Hn SV). assert (TH : theta (update_q p l s a r s') = theta l).
      { apply (mat_ext n m); auto; [apply update_q_shape; auto |]. intros i j. rewrite update_q_ent, TD by auto. destruct (a =? i)%nat; lra. }
      split; [auto |]. split; [split; [rewrite TH; auto | split; auto] | auto].
    + assert (TD := value_td l s a r s' ST Hn SV). assert (TH : theta (update_qlambda p l s a r s') = theta l).
      { unfold update_qlambda, with_theta. cbn [theta]. apply madd_zero; [auto | apply shape_mscale; auto |]. intros i j. rewrite ent_mscale. change (td_max p (updateEtraces p l s a 1) s a r s') with (td_max p l s a r s'). rewrite TD. lra. }
      split; [auto |]. split; [split; [rewrite TH; auto | split; [apply SE' | auto]] | auto].
    + assert (TH : theta (update_sarsa p l s a r s' b) = theta l).
      { unfold update_sarsa, with_theta. cbn [theta]. apply madd_zero; [auto | apply shape_mscale; auto |]. intros i j. rewrite ent_mscale. unfold value in SV. rewrite SV. ring. }
      split; [auto |]. split; [split; [rewrite TH; auto | split; [apply SE' | auto]] | auto].
    + assert (TD := value_td l s a r s' ST Hn SV). unfold update_gq. cbn [theta updateEtraces with_etraces learningRate sec_weights etraces].
      rewrite greedy_expect by auto. unfold td_max in TD. rewrite TD. rewrite !(sec_zero l W).
      set (e := etraces (updateEtraces p l s a (nth a (greedyPolicy n (theta l) s d1) 0 / nth a (beh l s d3) 0))).
      assert (Se : shp e) by apply SE'. assert (SO : shp (outer (greedyPolicy n (theta l) s' d2) s')) by (apply shape_outer_greedy; auto). assert (SP : shp (phi_of p a s)) by (apply shape_phi; auto).
      change (addrow a s (mscale (gamma * lambda p * (nth a (greedyPolicy n (theta l) s d1) 0 / nth a (beh l s d3) 0)) (etraces l))) with e.
      assert (Z1 : madd (theta l) (mscale (learningRate l) (madd (mscale 0 e) (mscale (- (gamma * (1 - lambda p) * 0)) (outer (greedyPolicy n (theta l) s' d2) s')))) = theta l).
      { apply madd_zero; [auto | apply shape_mscale, shape_madd; apply shape_mscale; auto |]. intros i j. rewrite ent_mscale, (ent_madd n m) by (apply shape_mscale; auto). rewrite !ent_mscale. ring. }
      assert (Z2 : madd (sec_weights l) (mscale (learningRate l * sec_learningRate p) (madd (mscale 0 e) (mscale (- 0) (phi_of p a s)))) = sec_weights l).
      { apply madd_zero; [auto | apply shape_mscale, shape_madd; apply shape_mscale; auto |]. intros i j. rewrite ent_mscale, (ent_madd n m) by (apply shape_mscale; auto). rewrite !ent_mscale. ring. }
      rewrite Z1, Z2. split; [auto |]. split; [| auto]. split; [auto |]. split; [apply Se | auto].
Qed.
Lemma solved_stays_run al beh es : plain al = true -> (0 < n)%nat -> forall l l', wf l -> sec_weights l = zeros2 n m -> Forall (in_range p) es -> Forall (solved p (theta l)) es ->
  tell_all al p beh l es = Ok l' -> theta l' = theta l.
Proof.
  intros HP Hn. induction es as [|e es IH]; intros l l' W SW HR HS H; cbn [tell_all] in H; [injection H as <-; auto |].
  destruct (tell al p beh l e) as [l1|] eqn:E; [| discriminate]. cbn [rbind] in H. inversion HR; inversion HS; subst.
  apply solved_stays in E as (T & W1 & SW1); auto. rewrite <- T. apply IH with (l' := l') in W1; auto. rewrite T. auto.
Qed.
End L.
