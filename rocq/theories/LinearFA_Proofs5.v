(** Tabular features (C66). *)
From Coq Require Import Reals Lra.
From Verif Require Import Base Functions_Model Functions_Proofs FiniteDiff_Proofs LinearFA_Model LinearFA_Spec LinearFA_Proofs LinearFA_Proofs2 LinearFA_Proofs3 LinearFA_Proofs4.
Local Open Scope R_scope.

Lemma indicator_len m k : length (indicator m k) = m.
Proof. unfold indicator. now rewrite map_length, seq_length. Qed.
Lemma indicator_nth m k j : (k < m)%nat -> nth j (indicator m k) 0 = if (j =? k)%nat then 1 else 0.
Proof.
  intros Hk. destruct (Nat.ltb_spec j m) as [H | H].
  - unfold indicator. rewrite nth_indep with (d' := if (0 =? k)%nat then 1 else 0) by (rewrite map_length, seq_length; auto). rewrite (map_nth (fun j => if (j =? k)%nat then 1 else 0)), seq_nth by auto. reflexivity.
  - rewrite nth_overflow by (rewrite indicator_len; auto). destruct (Nat.eqb_spec j k); [lia | auto].
Qed.
Lemma indicator_upd m k : (k < m)%nat -> indicator m k = upd k 1 (zeros m).
Proof.
  intros H. apply vext; [rewrite indicator_len, upd_length; unfold zeros; now rewrite repeat_length |]. intros j. rewrite indicator_nth, nth_upd by auto. unfold zeros. rewrite repeat_length, (proj2 (Nat.ltb_lt _ _) H), Bool.andb_true_r, nth_repeat0.
  destruct (j =? k)%nat, (j <? m)%nat; auto.
Qed.
Lemma value_indicator n m th k b : shape n m th -> (k < m)%nat -> (b < n)%nat -> value th (indicator m k) b = ent th b k.
Proof. intros S Hk Hb. unfold value. rewrite indicator_upd, rdot_comm, rdot_onehot by (auto; eapply shape_row; eauto). reflexivity. Qed.
Lemma table_update n m th th' a k c : shape n m th -> (a < n)%nat -> (k < m)%nat -> (forall i j, ent th' i j = ent th i j + (if (a =? i)%nat then c * nth j (indicator m k) 0 else 0)) ->
  ent th' a k = ent th a k + c /\ forall i j, (i, j) <> (a, k) -> ent th' i j = ent th i j.
Proof.
  intros S Ha Hk H. split.
  - rewrite H, Nat.eqb_refl, indicator_nth, Nat.eqb_refl by auto. lra.
  - intros i j N. rewrite H. destruct (Nat.eqb_spec a i) as [<- |]; [| lra]. rewrite indicator_nth by auto. destruct (Nat.eqb_spec j k) as [-> |]; [congruence | lra].
Qed.

Section Bounded.
Context (p : params) (st : settings) (B : R).
Notation n := (num_actions p).
Notation m := (num_features p).
Notation gamma := (rewardDiscount p).
Context (Hg : 0 <= gamma <= 1) (Hd : 0 <= learningRateDecay p) (Hn : (0 < n)%nat).

Definition ok_state (s : vec) : Prop := exists k, (k < m)%nat /\ s = indicator m k.
Definition ok_reward (r : R) : Prop := Rabs r <= (1 - gamma) * B.
Definition ok_step (t : step) : Prop := let '(s, a, r) := t in ok_state s /\ (a < n)%nat /\ ok_reward r.
Definition ok_learner (l : learner) : Prop := shape n m (theta l) /\ (forall i j, Rabs (ent (theta l) i j) <= B) /\ 0 <= learningRate l <= 1.
Definition ok_agent (x : agent) : Prop := ok_learner (ln x) /\
  (forall s, lastobs x = Some s -> ok_state s) /\ (forall a, lastaction x = Some a -> (a < n)%nat) /\ (forall r, lastreward x = Some r -> ok_reward r) /\
  oaro x = None /\ Forall (Forall ok_step) (history x).

Lemma abs_le x b : Rabs x <= b <-> - b <= x <= b.
Proof. split; [intros H; unfold Rabs in H; destruct (Rcase_abs x); lra | intros H; apply Rabs_le; auto]. Qed.
Lemma q_bounded l s a r s' : ok_learner l -> ok_state s -> (a < n)%nat -> ok_reward r -> ok_state s' -> ok_learner (update_q p l s a r s').
Proof.
  intros (S & Bd & Rt) (k & Hk & ->) Ha Hr (k' & Hk' & ->). split; [apply update_q_shape; auto; apply indicator_len |]. split; [| exact Rt].
  assert (E := fun i j => update_q_ent p l (indicator m k) a r (indicator m k') i j S Ha (indicator_len m k)). destruct (table_update n m _ _ a k _ S Ha Hk E) as [E1 E2].
  intros i j. destruct (Nat.eq_dec i a) as [-> | Ni]; [destruct (Nat.eq_dec j k) as [-> | Nj] |]; [| rewrite E2 by congruence; auto | rewrite E2 by congruence; auto].
  rewrite E1. unfold td_max. fold (value (theta l) (indicator m k) a). rewrite (value_indicator n m) by auto.
  destruct (vmax_greatest n m (theta l) (indicator m k') S Hn) as [(b & Hb & <-) _]. rewrite (value_indicator n m) by auto. pose proof (Bd a k) as B1. pose proof (Bd b k') as B2. unfold ok_reward in Hr. rewrite abs_le in *.
  set (x := ent (theta l) a k) in *. set (v := ent (theta l) b k') in *. set (al := learningRate l) in *.
  assert (P1 := Rmult_le_compat_l (1 - al) x B ltac:(lra) ltac:(lra)). assert (P2 := Rmult_le_compat_l (1 - al) (- B) x ltac:(lra) ltac:(lra)).
  assert (G1 := Rmult_le_compat_l gamma v B ltac:(lra) ltac:(lra)). assert (G2 := Rmult_le_compat_l gamma (- B) v ltac:(lra) ltac:(lra)).
  assert (Q1 := Rmult_le_compat_l al (r + gamma * v) B ltac:(lra) ltac:(lra)). assert (Q2 := Rmult_le_compat_l al (- B) (r + gamma * v) ltac:(lra) ltac:(lra)). lra.
Qed.
Lemma newEpisode_bounded l : ok_learner l -> ok_learner (newEpisode p l).
Proof.
  intros (S & Bd & Rt). split; [exact S |]. split; [exact Bd |]. cbn [newEpisode learningRate]. pose proof (pos_INR (callcount l)). rewrite S_INR. set (d := learningRateDecay p + (INR (callcount l) + 1)).
  assert (0 < d) by (unfold d; lra). assert (F : 0 <= d / (d + 1) <= 1).
  { split; [apply Rmult_le_pos; [lra | left; apply Rinv_0_lt_compat; lra] |]. apply Rmult_le_reg_r with (d + 1); [lra |]. unfold Rdiv. rewrite Rmult_assoc, Rinv_l by lra. lra. }
  split; [apply Rmult_le_pos; tauto |]. apply Rle_trans with (1 * 1); [apply Rmult_le_compat; tauto | lra].
Qed.
Lemma call_bounded x d s s' x' : ok_agent x -> lastobs x = Some s -> ok_state s' -> call_learner Q_LinFA p x d s (lastaction x) (lastreward x) s' None = Ok x' -> ok_agent x' /\ lastobs x' = lastobs x /\ lastaction x' = lastaction x /\ lastreward x' = lastreward x /\ history x' = history x.
Proof.
  intros (OL & OO & OA & ORr & ON & OH) LO Hs' H. unfold call_learner in H. destruct d as [[d1 d2] d3]. destruct (lastaction x) as [a|] eqn:LA; [| discriminate]. destruct (lastreward x) as [r|] eqn:LR; [| discriminate].
  cbn [updateWeights rbind] in H. injection H as <-. cbn [with_ln lastobs lastaction lastreward history]. split; [| auto]. split; [apply q_bounded; auto |]. cbn [with_ln lastobs lastaction lastreward history oaro]. rewrite LA, LR. repeat (split; [assumption |]). auto.
Qed.
Lemma Forall_into_last {A} (P : A -> Prop) h x : Forall (Forall P) h -> P x -> Forall (Forall P) (into_last h x).
Proof.
  intros F Px. induction F as [|e h He F IH]; cbn [into_last]; [repeat constructor; auto |]. destruct h as [|e' h]; [| constructor; auto].
  constructor; [| constructor]. apply Forall_app. auto.
Qed.
Lemma learn_seq_bounded draws sq : Forall ok_step sq -> forall k x k' x', ok_agent x -> learn_seq Q_LinFA p k draws sq x = Ok (k', x') -> ok_agent x'.
Proof.
  induction 1 as [|[[o a] r] sq (Ho & Ha & Hr) F IH]; intros k x k' x' OX H; cbn [learn_seq] in H; [injection H as <- <-; auto |].
  assert (K : forall y, ok_agent y -> ok_agent (with_last y (Some o) (Some a) (Some r))).
  { intros y (A1 & A2 & A3 & A4 & A5 & A6). split; [exact A1 |]. cbn. repeat (split; [intros ? [= <-]; auto |]). auto. }
  destruct (lastobs x) as [po|] eqn:LO.
  - destruct (call_learner _ _ _ _ _ _ _ _ _) as [x1|] eqn:E; [| discriminate]. cbn [rbind fst snd] in H. apply call_bounded in E as (E & _); auto. apply IH in H; auto.
  - cbn [rbind fst snd] in H. apply IH in H; auto.
Qed.
Lemma learn_seqs_bounded draws h : Forall (Forall ok_step) h -> forall k x x', ok_agent x -> learn_seqs Q_LinFA p k draws h x = Ok x' -> ok_agent x'.
Proof.
  induction 1 as [|sq h Hs F IH]; intros k x x' OX H; cbn [learn_seqs] in H; [injection H as <-; auto |].
  destruct (learn_seq Q_LinFA p k draws sq x) as [[k1 x1]|] eqn:E; [| discriminate]. cbn [rbind fst snd] in H. apply learn_seq_bounded in E; auto. apply IH in H; auto. destruct E as (A1 & A2). split; [apply newEpisode_bounded; auto | exact A2].
Qed.
Lemma newEpisode_agent_bounded x x' : ok_agent x -> agent_newEpisode p st x = Ok x' -> ok_agent x'.
Proof.
  intros OX H. unfold agent_newEpisode in H. destruct (if logging (fl x) then _ else _) as [x1|] eqn:E; [| discriminate]. cbn [rbind] in H.
  assert (O1 : ok_agent x1).
  { destruct (logging (fl x)); [| injection E as <-; auto]. unfold newSequence in E. destruct OX as (A1 & A2 & A3 & A4 & A5 & A6). destruct (forallb _ (history x)); [injection E as <-; repeat (split; [auto |]); auto |].
    destruct (last (history x) []); [discriminate |]. injection E as <-. repeat (split; [auto |]). cbn [with_history history]. apply Forall_app. split; [auto | repeat constructor]. }
  destruct O1 as (A1 & A2). destruct (online x1); injection H as <-; (split; [apply newEpisode_bounded; exact A1 | exact A2]).
Qed.
Lemma step_bounded x c x' : ok_agent x -> valid_call n m ((1 - gamma) * B) c -> agent_step Q_LinFA p st x c = Ok x' -> ok_agent x'.
Proof.
  intros OX V H. pose proof OX as (A1 & A2 & A3 & A4 & A5 & A6). destruct c as [o d | a d | r | | | dr | f]; cbn [agent_step valid_call] in *.
  - unfold integrateObservation in H. destruct (match lastobs x with Some _ => _ | None => _ end) as [x1|] eqn:E; [| discriminate]. cbn [rbind] in H. injection H as <-.
    assert (O1 : ok_agent x1). { destruct (lastobs x) as [po|] eqn:LO; [| injection E as <-; auto]. destruct (online x); [| injection E as <-; auto]. cbn [passNextAction] in E. apply call_bounded in E as (E & _); auto. }
    destruct O1 as (C1 & C2 & C3 & C4 & C5 & C6). split; [exact C1 |]. cbn. split; [intros ? [= <-]; auto |]. split; [discriminate |]. split; [discriminate |]. auto.
  - unfold getAction in H. destruct (lastobs x) as [o|] eqn:LO; [| discriminate]. cbn [with_last oaro] in H. rewrite A5 in H. injection H as <-. split; [exact A1 |]. cbn. split; [auto |]. split; [intros ? [= <-]; auto |]. auto.
  - unfold giveReward in H. destruct (lastobs x) as [o|] eqn:LO; [| discriminate]. destruct (lastaction x) as [a|] eqn:LA; [| discriminate]. destruct (lastreward x); [discriminate |].
    assert (O1 : ok_agent (with_last x (Some o) (Some a) (Some r))) by (split; [exact A1 |]; cbn; split; [intros ? [= <-]; auto |]; split; [intros ? [= <-]; auto |]; split; [intros ? [= <-]; auto |]; auto).
    destruct (logging (fl x)); injection H as <-; [| auto]. destruct O1 as (C1 & C2 & C3 & C4 & C5 & C6). split; [exact C1 |]. cbn [with_history lastobs lastaction lastreward oaro history] in *. repeat (split; [auto |]). apply Forall_into_last; [auto |]. split; [auto |]. split; auto.
  - eapply newEpisode_agent_bounded; eauto.
  - unfold agent_reset in H. eapply newEpisode_agent_bounded; [| exact H]. split; [apply newEpisode_bounded; exact A1 |]. cbn. repeat (split; [discriminate |]). split; [auto |]. repeat constructor.
  - unfold learn in H. destruct (negb (learning (fl x))); [injection H as <-; auto |]. destruct (negb (batchMode (fl x))); [injection H as <-; auto |]. eapply learn_seqs_bounded; eauto.
  - injection H as <-. exact OX.
Qed.
Lemma run_bounded cs : Forall (valid_call n m ((1 - gamma) * B)) cs -> forall x x', ok_agent x -> agent_run Q_LinFA p st x cs = Ok x' -> ok_agent x'.
Proof.
  induction 1 as [|c cs V F IH]; intros x x' OX H; cbn [agent_run] in H; [injection H as <-; auto |]. destruct (agent_step Q_LinFA p st x c) as [y|] eqn:E; [| discriminate]. cbn [rbind] in H. eapply IH; [| exact H]. eapply step_bounded; eauto.
Qed.
Lemma new_agent_bounded l f x : ok_learner l -> new_agent p st l f = Ok x -> ok_agent x.
Proof.
  intros OL H. unfold new_agent, agent_reset in H. eapply newEpisode_agent_bounded; [| exact H]. split; [apply newEpisode_bounded; exact OL |]. cbn. repeat (split; [discriminate |]). split; [auto |]. repeat constructor.
Qed.
End Bounded.
