(** The episodes of CaptureGameTask and GomokuTask are games. *)
From Coq Require Import QArith Qround Lqa.
From Verif Require Import Base Dict Duel_Model Duel_Spec.

Section Task.
Context {G A W : Type}.
Variable R : rules G A.
Variable k : tcfg.
Variables opponent agent : player G A W.
Notation task := (task G W).
Notation game := (game R opponent agent).
Definition fair : Prop :=
  r_winner R (r_reset R) = None /\
  forall g x, r_winner R g = Some x -> x = 1%Z \/ x = (-1)%Z \/ (x = 0%Z /\ k_draws k = true).

(** the state of the task after n moves of a game begun with the opponent's colour c *)
Definition tinv (c : Z) (n : nat) (t : task) : Prop :=
  t_samples t = n /\
  match r_winner R (t_g t) with
  | Some _ => t_switched t = k_alternate k /\ t_color t = (if k_alternate k then - c else c)%Z /\ t_cum t == discounted k n (payoff R k (- c) (t_g t))
  | None => t_switched t = false /\ t_color t = c /\ t_cum t == 0
  end.

Lemma finished_id c n t : tinv c n t -> isFinished R k t = (over R (t_g t), t).
Proof.
  intros [_ H]. unfold isFinished, over. destruct (r_winner R (t_g t)); cbn [andb]; [| reflexivity].
  destruct H as (-> & _). destruct (k_alternate k); reflexivity.
Qed.
Lemma reward_id c n t r t' : tinv c n t -> getReward R k t = Ok (r, t') -> t' = t.
Proof.
  intros H. unfold getReward. rewrite (finished_id c n t H). destruct (over R (t_g t)) eqn:E; cbn [negb]; [| congruence].
  unfold over in E. destruct (r_winner R (t_g t)); [| discriminate].
  destruct (k_draws k && _); [congruence |]. destruct (_ =? 0)%Z; congruence.
Qed.
Lemma perform_spec c n t col a t' : fair -> (c = 1 \/ c = -1)%Z -> tinv c n t -> r_winner R (t_g t) = None -> perform R k t col a = Ok t' ->
  exists g, r_move R (t_g t) col a = Ok g /\ t_g t' = g /\ t_w t' = t_w t /\ tinv c (S n) t'.
Proof.
  intros [_ F] Hc [Hs H] U. rewrite U in H. destruct H as (H1 & H2 & H3). unfold perform.
  destruct (r_move R (t_g t) col a) as [g|e] eqn:E; cbn [rbind]; [| discriminate]. intros P. exists g. split; [reflexivity |].
  unfold getReward, isFinished, over in P. cbn [t_g t_w t_color t_switched t_cum t_samples] in P. rewrite H1 in P.
  destruct (r_winner R g) as [x|] eqn:X.
  - specialize (F g x X). cbn [andb negb] in P.
    assert (D : forall (q y : Q), y == q -> match k_discount k with Some d => if Qeq_bool d 0 then 1%Q else Qpower d (Z.of_nat (S (t_samples t))) | None => 1%Q end * y == discounted k (S n) q).
    { intros q y Hy. unfold discounted. rewrite Hs. destruct (k_discount k) as [d|]; [| rewrite Hy; ring].
      destruct (Qeq_dec d 0) as [E0|E0]; [apply Qeq_bool_iff in E0; rewrite E0, Hy; ring |].
      destruct (Qeq_bool d 0) eqn:E1; [apply Qeq_bool_iff in E1; contradiction |]. rewrite Hy. reflexivity. }
    destruct (k_alternate k) eqn:Ka; cbn [andb negb t_g t_color t_switched t_w t_cum t_samples] in P; rewrite ?X in P; rewrite ?H1, ?H2 in P;
    (destruct (k_draws k && (x =? 0)%Z) eqn:Dr;
     [ cbn [rbind] in P; injection P as <-; cbn [t_g t_w t_samples]; split; [reflexivity |]; split; [reflexivity |]; unfold tinv; cbn [t_g t_color t_switched t_cum t_samples];
       rewrite X, ?Ka; split; [now rewrite Hs |]; repeat split; auto; rewrite D with (q := payoff R k (- c) g);
       [rewrite H3; ring | unfold payoff; rewrite X; apply andb_true_iff in Dr as [_ Dr]; apply Z.eqb_eq in Dr; subst; reflexivity]
     | destruct (k_max k - k_min k =? 0)%Z eqn:Z0; cbn [rbind] in P; [discriminate |];
       injection P as <-; cbn [t_g t_w t_samples]; split; [reflexivity |]; split; [reflexivity |]; unfold tinv; cbn [t_g t_color t_switched t_cum t_samples];
       rewrite X, ?Ka; split; [now rewrite Hs |]; repeat split; auto; rewrite D with (q := payoff R k (- c) g);
       [rewrite H3; ring |];
       unfold payoff; rewrite X; destruct (Z.eq_dec x 0) as [->|Nx]; [exfalso; destruct F as [F|[F|[_ F]]]; try lia; rewrite F in Dr; discriminate |];
       set (v := (k_reward k - k_coeff k * inject_Z (r_moves R g - k_min k) / inject_Z (k_max k - k_min k))%Q);
       destruct (Z.eqb_spec x (- c)); destruct (Z.eq_dec x (- c)); destruct (Z.eqb_spec x c); cbn [negb];
       try (exfalso; lia); try ring ]).
  - cbn [andb negb rbind t_g t_w t_color t_switched t_cum t_samples] in P. injection P as <-. cbn [t_g t_w t_color t_switched t_cum t_samples].
    split; [reflexivity |]. split; [reflexivity |]. unfold tinv. cbn [t_g t_w t_color t_switched t_cum t_samples]. split; [now rewrite Hs |]. rewrite X. repeat split; auto. rewrite H3. ring.
Qed.
Lemma perform_ok c n t col a g : fair -> (k_max k <> k_min k) -> tinv c n t -> r_winner R (t_g t) = None -> r_move R (t_g t) col a = Ok g ->
  exists t', perform R k t col a = Ok t'.
Proof.
  intros _ Hm _ _ E. unfold perform. rewrite E. cbn [rbind]. unfold getReward. destruct (isFinished _ _ _) as [fin t1]. destruct fin; cbn [negb rbind]; [| eauto].
  destruct (r_winner R (t_g t1)); cbn [rbind]; [| eauto]. destruct (k_draws k && _); cbn [rbind]; [eauto |].
  destruct (Z.eqb_spec (k_max k - k_min k) 0); [lia |]. cbn [rbind]. eauto.
Qed.
Lemma with_w_inv c n t w : tinv c n t -> tinv c n (with_w t w).
Proof. auto. Qed.

Lemma opponent_spec c n t t' : fair -> (c = 1 \/ c = -1)%Z -> tinv c n t -> r_winner R (t_g t) = None -> opponentMove R k opponent t = Ok t' ->
  exists a w g, opponent (t_w t) (t_g t) c = Ok (a, w) /\ r_move R (t_g t) c a = Ok g /\ t_g t' = g /\ t_w t' = w /\ tinv c (S n) t'.
Proof.
  intros F Hc I U. pose proof I as [_ H]. rewrite U in H. destruct H as (_ & H2 & _). unfold opponentMove. rewrite H2.
  destruct (opponent (t_w t) (t_g t) c) as [[a w]|e] eqn:E; cbn [rbind fst snd]; [| discriminate]. intros P.
  destruct (perform_spec c n (with_w t w) c a t' F Hc (with_w_inv c n t w I) U P) as (g & P1 & P2 & P3 & P4).
  exists a, w, g. auto.
Qed.
Lemma opponent_ok c n t a w g : fair -> (k_max k <> k_min k) -> tinv c n t -> r_winner R (t_g t) = None ->
  opponent (t_w t) (t_g t) c = Ok (a, w) -> r_move R (t_g t) c a = Ok g -> exists t', opponentMove R k opponent t = Ok t'.
Proof.
  intros F Hm I U E1 E2. pose proof I as [_ H]. rewrite U in H. destruct H as (_ & H2 & _). unfold opponentMove. rewrite H2, E1. cbn [rbind fst snd].
  eapply (perform_ok c n (with_w t w)); eauto.
Qed.

Lemma turn_me (c : Z) (x y : result (A * W)) : (if Z.eq_dec (- c) (- c) then x else y) = x.
Proof. destruct (Z.eq_dec (- c) (- c)); [auto | lia]. Qed.
Lemma turn_opp (c : Z) (x y : result (A * W)) : (c = 1 \/ c = -1)%Z -> (if Z.eq_dec c (- c) then x else y) = y.
Proof. intros Hc. destruct (Z.eq_dec c (- c)); [lia | auto]. Qed.

Lemma interaction_spec c n t t' : fair -> (c = 1 \/ c = -1)%Z -> tinv c n t -> r_winner R (t_g t) = None -> oneInteraction R k opponent agent (- c) t = Ok t' ->
  exists m, tinv c (n + m) t' /\ (0 < m)%nat /\
    forall j g2 w2, game (- c) (t_g t') (t_w t') (- c) j g2 w2 -> (r_winner R (t_g t') <> None -> j = 0%nat) -> game (- c) (t_g t) (t_w t) (- c) (m + j) g2 w2.
Proof.
  intros F Hc I U. unfold oneInteraction. destruct (agent (t_w t) (t_g t) (- c)%Z) as [[a w]|e] eqn:E; cbn [rbind fst snd]; [| discriminate].
  unfold performAction. destruct (perform R k (with_w t w) (- c) a) as [t1|e] eqn:P; cbn [rbind]; [| discriminate].
  destruct (perform_spec c n (with_w t w) _ a t1 F Hc (with_w_inv c n t w I) U P) as (g & P1 & P2 & P3 & P4).
  rewrite (finished_id c (S n) t1 P4). destruct (over R (t_g t1)) eqn:O1; cbn [negb rbind].
  - destruct (getReward R k t1) as [[r t2]|e] eqn:Rw; cbn [rbind snd]; [| discriminate]. intros Q. injection Q as <-.
    apply (reward_id c (S n)) in Rw; auto. subst t2. exists 1%nat. split; [now rewrite Nat.add_1_r |]. split; [lia |].
    intros j g2 w2 Hg Hj. unfold over in O1. destruct (r_winner R (t_g t1)) as [x|] eqn:X; [| discriminate].
    assert (j = 0%nat) by (apply Hj; discriminate). subst j. inversion Hg; subst.
    cbn [with_w t_w] in P3. eapply game_move; [exact U | rewrite turn_me; exact E | exact P1 |]. rewrite <- P3. eapply game_over; eauto.
  - destruct (opponentMove R k opponent t1) as [t2|e] eqn:P'; cbn [rbind]; [| discriminate].
    assert (U1 : r_winner R (t_g t1) = None) by (unfold over in O1; destruct (r_winner R (t_g t1)); [discriminate | auto]).
    destruct (opponent_spec c (S n) t1 t2 F Hc P4 U1 P') as (a2 & wx & gx & Q1 & Q2 & Q3 & Q4 & Q5).
    destruct (getReward R k t2) as [[r t3]|e] eqn:Rw; cbn [rbind snd]; [| discriminate]. intros Q. injection Q as <-.
    apply (reward_id c (S (S n))) in Rw; auto. subst t3. exists 2%nat. split; [now replace (n + 2)%nat with (S (S n)) by lia |]. split; [lia |].
    intros j g3 w3 Hg Hj. cbn [with_w t_w] in P3. eapply game_move; [exact U | rewrite turn_me; exact E | exact P1 |]. rewrite Z.opp_involutive.
    eapply game_move; [rewrite <- P2; auto | rewrite turn_opp by auto; rewrite <- P3, <- P2; eauto | rewrite <- P2; eauto |].
    rewrite <- Q3, <- Q4. exact Hg.
Qed.

Lemma interactions_spec c fuel : fair -> (c = 1 \/ c = -1)%Z -> forall n t t', tinv c n t -> interactions R k opponent agent fuel (- c) t = Ok t' ->
  exists m, tinv c (n + m) t' /\ game (- c) (t_g t) (t_w t) (- c) m (t_g t') (t_w t') /\ r_winner R (t_g t') <> None /\ (r_winner R (t_g t) <> None -> m = 0%nat).
Proof.
  intros F Hc. induction fuel as [|fuel IH]; intros n t t' I; cbn [interactions]; [discriminate |]. rewrite (finished_id c n t I).
  unfold over. destruct (r_winner R (t_g t)) as [x|] eqn:X.
  - intros P. injection P as <-. exists 0%nat. rewrite Nat.add_0_r. split; [auto |]. split; [eapply game_over; eauto |]. split; [congruence | auto].
  - destruct (oneInteraction R k opponent agent (- c) t) as [t1|e] eqn:P; cbn [rbind]; [| discriminate]. intros P2.
    destruct (interaction_spec c n t t1 F Hc I X P) as (m & I1 & Hm & K). destruct (IH _ _ _ I1 P2) as (j & I2 & K2 & K3 & K4).
    exists (m + j)%nat. rewrite Nat.add_assoc. split; [auto |]. split; [apply K; auto |]. split; [auto |]. congruence.
Qed.

Lemma reset_inv (t : task) : fair ->
  tinv (t_color t) 0 {| t_g := r_reset R; t_w := t_w t; t_color := t_color t; t_switched := false; t_cum := 0; t_samples := 0 |}.
Proof. intros [F _]. split; [reflexivity |]. cbn [t_g]. rewrite F. repeat split. Qed.

Lemma episode_spec c fuel t t' : fair -> (c = 1 \/ c = -1)%Z -> t_color t = c -> doEpisode R k opponent agent fuel (- c) t = Ok t' ->
  exists n, tinv c n t' /\ game (- c) (r_reset R) (t_w t) BLACK n (t_g t') (t_w t') /\ r_winner R (t_g t') <> None.
Proof.
  intros F Hc Ec. pose proof (reset_inv t F) as I. unfold doEpisode, t_reset. rewrite Ec in *.
  set (t0 := {| t_g := r_reset R; t_w := t_w t; t_color := c; t_switched := false; t_cum := 0; t_samples := 0 |}) in *.
  change (t_color t0) with c. change BLACK with 1%Z. destruct (Z.eqb_spec c 1) as [E1|E1].
  - destruct (opponentMove R k opponent t0) as [t1|e] eqn:P; cbn [rbind]; [| discriminate]. intros P2.
    destruct (opponent_spec c 0 t0 t1 F Hc I (proj1 F) P) as (a & w & g & Q1 & Q2 & Q3 & Q4 & Q5).
    destruct (interactions_spec c fuel F Hc _ _ _ Q5 P2) as (m & K1 & K2 & K3 & K4). exists (S m). split; [auto |]. split; [| auto].
    rewrite <- E1. eapply game_move; [apply (proj1 F) | rewrite turn_opp by auto; apply Q1 | apply Q2 |]. rewrite <- Q3, <- Q4. exact K2.
  - cbn [rbind]. intros P. destruct (interactions_spec c fuel F Hc _ _ _ I P) as (m & K1 & K2 & K3 & K4). exists m. split; [auto |]. split; [| auto].
    replace 1%Z with (- c)%Z by lia. exact K2.
Qed.

(** every game the rules allow is played to its end *)
Lemma interactions_ok c : fair -> (c = 1 \/ c = -1)%Z -> k_max k <> k_min k -> forall m n t g2 w2 fuel, tinv c n t -> (m < fuel)%nat ->
  game (- c) (t_g t) (t_w t) (- c) m g2 w2 -> exists t', interactions R k opponent agent fuel (- c) t = Ok t'.
Proof.
  intros F Hc Hm m. induction m as [m IH] using lt_wf_ind. intros n t g2 w2 [|fuel] I L Hg; [lia |]. cbn [interactions]. rewrite (finished_id c n t I). unfold over.
  inversion Hg as [g0 w0 tu x X | g0 w0 tu a w1 g1 m1 g3 w3 X E1 E2 E3]; subst; rewrite X; [eauto |].
  rewrite turn_me in E1.
  destruct (perform_ok c n (with_w t w1) (- c) a g1 F Hm (with_w_inv c n t w1 I) X E2) as (t1 & P).
  destruct (perform_spec c n (with_w t w1) _ a t1 F Hc (with_w_inv c n t w1 I) X P) as (g & P1 & P2 & P3 & P4).
  cbn [with_w t_g t_w] in P1, P3. assert (P2a : t_g t1 = g1) by congruence. clear P1 P2 g. rename P2a into P2.
  assert (RW : forall n t, tinv c n t -> exists r, getReward R k t = Ok (r, t)).
  { intros n' t'' I'. unfold getReward. rewrite (finished_id c n' t'' I'). destruct (over R (t_g t'')) eqn:O1; cbn [negb]; [| eauto].
    unfold over in O1. destruct (r_winner R (t_g t'')); [| eauto]. destruct (k_draws k && _); [eauto |]. destruct (Z.eqb_spec (k_max k - k_min k) 0); [lia | eauto]. }
  unfold oneInteraction, performAction. rewrite E1. cbn [rbind fst snd]. rewrite P. cbn [rbind]. rewrite (finished_id c (S n) t1 P4). unfold over. rewrite P2.
  inversion E3 as [g0 w0 tu x X1 | g0 w0 tu a' w1' g1' m1' g3 w3 X1 F1 F2 F3]; subst g0 w0 tu; rewrite X1; cbn [negb rbind]; try rewrite <- P2 in X1.
  - rewrite <- H3, <- P2 in X1. destruct (RW _ _ P4) as [r ->]. cbn [rbind snd]. destruct fuel as [|fuel]; [lia |]. cbn [interactions]. rewrite (finished_id c (S n) t1 P4). unfold over. rewrite X1. eauto.
  - rewrite Z.opp_involutive in *. rewrite turn_opp in F1 by auto. rewrite <- P2, <- P3 in F1. rewrite <- P2 in F2. 
    destruct (opponent_ok c (S n) t1 a' w1' g1' F Hm P4 X1 F1 F2) as (t2 & Q). rewrite Q. cbn [rbind].
    destruct (opponent_spec c (S n) t1 t2 F Hc P4 X1 Q) as (a2 & wx & gx & Q1 & Q2 & Q3 & Q4 & Q5).
    destruct (RW _ _ Q5) as [r ->]. cbn [rbind snd]. rewrite F1 in Q1. injection Q1 as -> ->. rewrite F2 in Q2. injection Q2 as <-.
    eapply (IH m1'); [lia | exact Q5 | lia | rewrite Q3, Q4; eauto].
Qed.
Lemma episode_ok c n g2 w2 fuel t : fair -> (c = 1 \/ c = -1)%Z -> k_max k <> k_min k -> t_color t = c -> (n < fuel)%nat ->
  game (- c) (r_reset R) (t_w t) BLACK n g2 w2 -> exists t', doEpisode R k opponent agent fuel (- c) t = Ok t'.
Proof.
  intros F Hc Hm Ec L Hg. pose proof (reset_inv t F) as I. unfold doEpisode, t_reset. rewrite Ec in *.
  set (t0 := {| t_g := r_reset R; t_w := t_w t; t_color := c; t_switched := false; t_cum := 0; t_samples := 0 |}) in *.
  change (t_color t0) with c. change BLACK with 1%Z in *. destruct (Z.eqb_spec c 1) as [E1|E1].
  - inversion Hg as [g0 w0 tu x X | g0 w0 tu a w1 g1 m1 g3 w3 X F1 F2 F3]; subst g0 w0 tu; [destruct F as [F _]; congruence |].
    assert (U0 : r_winner R (t_g t0) = None) by apply (proj1 F).
    replace 1%Z with c in F1, F2, F3 by auto. rewrite turn_opp in F1 by auto.
    destruct (opponent_ok c 0 t0 a w1 g1 F Hm I U0 F1 F2) as (t1 & P). rewrite P. cbn [rbind].
    destruct (opponent_spec c 0 t0 t1 F Hc I U0 P) as (a2 & wx & gx & Q1 & Q2 & Q3 & Q4 & Q5).
    change (t_w t0) with (t_w t) in Q1. change (t_g t0) with (r_reset R) in Q1, Q2. rewrite F1 in Q1. injection Q1 as -> ->. rewrite F2 in Q2. injection Q2 as <-.
    subst n. eapply (interactions_ok c F Hc Hm m1); [exact Q5 | lia | rewrite Q3, Q4; eauto].
  - cbn [rbind]. eapply (interactions_ok c F Hc Hm n); [exact I | lia |]. replace 1%Z with (- c)%Z in Hg by lia. exact Hg.
Qed.

Lemma evaluations_spec fuel m : fair -> k_batch k = 1%nat -> forall c t res v t', (c = 1 \/ c = -1)%Z -> t_color t = c ->
  evaluations R k opponent agent fuel m res t = Ok (v, t') ->
  exists l, series R opponent agent k m c (t_w t) l (t_color t') (t_w t') /\ v == res + total R k l.
Proof.
  intros F Hb. induction m as [|m IH]; intros c t res v t' Hc Ec; cbn [evaluations].
  - intros P. injection P as <- <-. exists []. split; [rewrite <- Ec; constructor |]. cbn [total fold_right]. ring.
  - unfold episodic_f. rewrite Hb. cbn [episodes Nat.eqb]. rewrite Ec. destruct (doEpisode R k opponent agent fuel (- c) t) as [t1|e] eqn:P; cbn [rbind fst snd]; [| discriminate].
    destruct (episode_spec c fuel t t1 F Hc Ec P) as (n & I & Hg & Hw). intros P2. destruct I as [_ I]. destruct (r_winner R (t_g t1)) as [x|]; [| congruence]. destruct I as (_ & I2 & I3).
    destruct (IH (if k_alternate k then - c else c)%Z t1 _ _ _ ltac:(destruct (k_alternate k); lia) I2 P2) as (l & S1 & S2).
    exists ((- c, n, t_g t1)%Z :: l). split; [econstructor; eauto |].
    rewrite S2. cbn [total fold_right fst snd]. rewrite I3. fold (total R k l). unfold Qdiv. change (/ inject_Z (Z.of_nat 1)) with (/ 1). field.
Qed.
End Task.
