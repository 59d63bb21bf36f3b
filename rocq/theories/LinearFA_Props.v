(** Property C66: reinforcement learning with linear function approximation. *)
From Coq Require Import Reals Lra.
From Verif Require Import Base Functions_Model Functions_Proofs FiniteDiff_Proofs LinearFA_Model LinearFA_Spec LinearFA_Proofs LinearFA_Proofs2 LinearFA_Proofs3 LinearFA_Proofs4 LinearFA_Proofs5 LinearFA_Proofs6.
Local Open Scope R_scope.

(** ** the updates *)
(** Q_LinFA moves the weights of the action taken along the features, by the learning rate times the temporal difference:
    the value of every state changes by its overlap with the state visited, and only for that action. *)
Theorem C66_update : forall p l s a r s', shape (num_actions p) (num_features p) (theta l) -> (a < num_actions p)%nat -> length s = num_features p ->
  exists v, greatest (theta l) (num_actions p) s' v /\
  let delta := r + rewardDiscount p * v - value (theta l) s a in
  let th' := theta (update_q p l s a r s') in
  (forall t b, value th' t b = value (theta l) t b + (if (a =? b)%nat then learningRate l * delta * rdot s t else 0)) /\
  value th' s a = (1 - learningRate l * sq_norm s) * value (theta l) s a + learningRate l * sq_norm s * (r + rewardDiscount p * v).
Proof.
  intros p l s a r s' S Ha Hs. exists (vmax (qValues (theta l) s')). split; [eapply vmax_greatest; eauto; lia |]. cbv zeta.
  assert (E : forall t b, value (theta (update_q p l s a r s')) t b = value (theta l) t b + (if (a =? b)%nat then learningRate l * (r + rewardDiscount p * vmax (qValues (theta l) s') - value (theta l) s a) * rdot s t else 0)) by (intros; apply update_q_value; auto).
  split; [exact E |]. rewrite E, Nat.eqb_refl, rdot_self. ring.
Qed.
Print Assumptions C66_update.

(** QLambda_LinFA and SARSALambda_LinFA move all weights along the traces; they differ in the value of the next state. *)
Theorem C66_lambda_update : forall p l s a r s', shape (num_actions p) (num_features p) (theta l) -> shape (num_actions p) (num_features p) (etraces l) -> (a < num_actions p)%nat -> length s = num_features p ->
  (exists v, greatest (theta l) (num_actions p) s' v /\ let l' := update_qlambda p l s a r s' in
     forall i j, ent (etraces l') i j = rewardDiscount p * lambda p * ent (etraces l) i j + (if (a =? i)%nat then nth j s 0 else 0) /\
                 ent (theta l') i j = ent (theta l) i j + learningRate l * (r + rewardDiscount p * v - value (theta l) s a) * ent (etraces l') i j) /\
  (forall b, let l' := update_sarsa p l s a r s' b in
     forall i j, ent (etraces l') i j = rewardDiscount p * lambda p * ent (etraces l) i j + (if (a =? i)%nat then nth j s 0 else 0) /\
                 ent (theta l') i j = ent (theta l) i j + learningRate l * (r + rewardDiscount p * value (theta l) s' b - value (theta l) s a) * ent (etraces l') i j).
Proof.
  intros p l s a r s' S E Ha Hs. split.
  - exists (vmax (qValues (theta l) s')). split; [eapply vmax_greatest; eauto; lia |]. cbv zeta. intros i j. split; [| apply update_qlambda_ent; auto].
    change (etraces (update_qlambda p l s a r s')) with (etraces (updateEtraces p l s a 1)). rewrite traces_ent by auto. ring.
  - intros b. cbv zeta. intros i j. split; [| apply update_sarsa_ent; auto]. change (etraces (update_sarsa p l s a r s' b)) with (etraces (updateEtraces p l s a 1)). rewrite traces_ent by auto. ring.
Qed.
Print Assumptions C66_lambda_update.

(** GQLambda: the expected value of the next state under the learned policy, traces weighted by the importance of the action, a correction
    by the second weights, and the second weights following the temporal difference. *)
Lemma rv_dot_inner n m A B : shape n m A -> shape n m B -> rv_dot A B = inner n A B.
Proof.
  intros [LA FA] [LB FB]. subst n. unfold inner. revert B LB FB. induction FA as [|x A Hx FA IH]; intros [|y B] LB FB; try discriminate; [reflexivity |]. inversion FB; subst.
  rewrite rv_dot_cons by auto. cbn [length seq map]. rewrite rsum_cons. f_equal. rewrite <- seq_shift, map_map. apply IH; auto.
Qed.
Lemma expected_value n th q s : length th = n -> length q = n -> rdot q (qValues th s) = rsum (map (fun b => nth b q 0 * value th s b) (seq 0 n)).
Proof.
  intros <-. revert q. induction th as [|x t IH]; intros [|y q] H; try discriminate; [reflexivity |]. unfold rdot, qValues, mat_vec in *. cbn [map rzip length seq]. rewrite !rsum_cons. f_equal.
  rewrite IH by (now injection H). rewrite <- seq_shift, map_map. reflexivity.
Qed.
Theorem C66_gq_update : forall p l s a r s' pi_s beh_s pi_n outcome, let n := num_actions p in let m := num_features p in
  shape n m (theta l) -> shape n m (etraces l) -> shape n m (sec_weights l) -> (a < n)%nat -> length s = m -> length s' = m -> length pi_n = n ->
  let l' := update_gq p l s a r s' pi_s beh_s pi_n outcome in
  let e := etraces l' in let w := sec_weights l in
  let delta := r + (match outcome with Some o => (1 - rewardDiscount p) * o | None => 0 end)
               + rewardDiscount p * rsum (map (fun b => nth b pi_n 0 * value (theta l) s' b) (seq 0 n)) - value (theta l) s a in
  forall i j, ent e i j = rewardDiscount p * lambda p * (nth a pi_s 0 / nth a beh_s 0) * ent (etraces l) i j + (if (a =? i)%nat then nth j s 0 else 0) /\
    ent (theta l') i j = ent (theta l) i j + learningRate l * (delta * ent e i j - rewardDiscount p * (1 - lambda p) * inner n w e * (nth i pi_n 0 * nth j s' 0)) /\
    ent (sec_weights l') i j = ent w i j + learningRate l * sec_learningRate p * (delta * ent e i j - value w s a * (if (a =? i)%nat then nth j s 0 else 0)).
Proof.
  intros p l s a r s' pi_s beh_s pi_n outcome n m ST SE SW Ha Hs Hs' Hp l' e w delta i j. unfold l' in *. unfold update_gq in e |- *. cbn [etraces theta sec_weights updateEtraces with_etraces learningRate] in e |- *.
  set (resp := nth a pi_s 0 / nth a beh_s 0) in *. set (e' := addrow a s (mscale (rewardDiscount p * lambda p * resp) (etraces l))) in *.
  assert (Se : shape n m e') by (apply shape_addrow; [apply shape_mscale |]; auto). assert (SO : shape n m (outer pi_n s')) by (pose proof (shape_outer pi_n s') as X; rewrite Hp, Hs' in X; exact X).
  assert (SP : shape n m (phi_of p a s)) by (apply shape_phi; auto).
  assert (D : rv_dot (theta l) (outer pi_n s') = rsum (map (fun b => nth b pi_n 0 * value (theta l) s' b) (seq 0 n))).
  { destruct ST as [LT FT]. rewrite rv_dot_outer; [| congruence | rewrite Hs'; auto]. apply expected_value; auto. }
  assert (DE : (match outcome with Some o => r + rewardDiscount p * rv_dot (theta l) (outer pi_n s') - rdot (nth a (theta l) []) s + (1 - rewardDiscount p) * o | None => r + rewardDiscount p * rv_dot (theta l) (outer pi_n s') - rdot (nth a (theta l) []) s end) = delta).
  { unfold delta. rewrite D. unfold value. destruct outcome; ring. }
  rewrite DE. split; [| split].
  - unfold e, e'. rewrite (ent_addrow n m) by (auto; apply shape_mscale; auto). now rewrite ent_mscale.
  - rewrite (ent_madd n m) by (auto; apply shape_mscale, shape_madd; apply shape_mscale; auto). rewrite ent_mscale, (ent_madd n m) by (apply shape_mscale; auto). rewrite !ent_mscale, ent_outer.
    rewrite (rv_dot_inner n m) by auto. unfold e, w. ring.
  - rewrite (ent_madd n m) by (auto; apply shape_mscale, shape_madd; apply shape_mscale; auto). rewrite ent_mscale, (ent_madd n m) by (apply shape_mscale; auto). rewrite !ent_mscale.
    rewrite rv_dot_comm, rv_dot_phi by auto. unfold phi_of. rewrite (ent_addrow n m) by (auto; apply shape_zeros2). rewrite ent_zeros2. unfold e, w. ring.
Qed.
Print Assumptions C66_gq_update.

(** Eligibility traces: after any number of transitions since the start of an episode, the trace of an action's feature is the sum over
    the visits, each decayed by discount, lambda and importance once for every later visit. *)
Theorem C66_traces : forall al p beh l es l', has_traces al = true -> Forall (in_range p) es -> Forall (fun e => is_transition e = true) es ->
  tell_all al p beh (newEpisode p l) es = Ok l' ->
  forall i j, (i < num_actions p)%nat -> ent (etraces l') i j = trace (rewardDiscount p * lambda p) (visits al p beh (newEpisode p l) es) i j.
Proof.
  intros al p beh l es l' HT HR HI H i j Hi. apply (traces_run p al beh HT es (newEpisode p l) l' [] HR HI); auto; [apply shape_zeros2 |].
  intros i' j' _. change (etraces (newEpisode p l)) with (zeros2 (num_actions p) (num_features p)). now rewrite ent_zeros2.
Qed.
Print Assumptions C66_traces.

(** ** tables *)
(** When the features are indicators of states, Q_LinFA is tabular Q-learning; so is QLambda_LinFA with lambda 0, and SARSALambda_LinFA is then SARSA. *)
Theorem C66_tabular : forall p l a r k k', let n := num_actions p in let m := num_features p in
  shape n m (theta l) -> shape n m (etraces l) -> (a < n)%nat -> (k < m)%nat -> (k' < m)%nat ->
  let s := indicator m k in let s' := indicator m k' in
  let tabular th' q := ent th' a k = (1 - learningRate l) * ent (theta l) a k + learningRate l * (r + rewardDiscount p * q) /\
                       forall i j, (i, j) <> (a, k) -> ent th' i j = ent (theta l) i j in
  (exists b, (b < n)%nat /\ (forall c, (c < n)%nat -> ent (theta l) c k' <= ent (theta l) b k') /\
     tabular (theta (update_q p l s a r s')) (ent (theta l) b k') /\
     (lambda p = 0 -> tabular (theta (update_qlambda p l s a r s')) (ent (theta l) b k'))) /\
  (forall b, (b < n)%nat -> lambda p = 0 -> tabular (theta (update_sarsa p l s a r s' b)) (ent (theta l) b k')).
Proof.
  intros p l a r k k' n m S E Ha Hk Hk' s s' tabular.
  assert (Ls : length s = m) by apply indicator_len.
  assert (TB : forall th' v, (forall i j, ent th' i j = ent (theta l) i j + (if (a =? i)%nat then learningRate l * (r + rewardDiscount p * v - value (theta l) s a) * nth j s 0 else 0)) -> tabular th' v).
  { intros th' v H. destruct (table_update n m _ _ a k _ S Ha Hk H) as [H1 H2]. split; [| exact H2]. rewrite H1. unfold s. rewrite (value_indicator n m) by auto. ring. }
  assert (EZ : lambda p = 0 -> forall i j, ent (etraces (updateEtraces p l s a 1)) i j = if (a =? i)%nat then nth j s 0 else 0) by (intros L0 i j; rewrite traces_ent, L0 by auto; ring).
  split.
  - destruct (vmax_greatest n m (theta l) s' S ltac:(lia)) as [(b & Hb & EV) G]. exists b. split; [auto |]. unfold s' in EV. rewrite (value_indicator n m) in EV by auto. fold s' in EV. split.
    { intros c Hc. specialize (G c Hc). rewrite <- EV in G. unfold s' in G. rewrite (value_indicator n m) in G by auto. exact G. }
    split.
    + apply TB. intros i j. rewrite update_q_ent by auto. unfold td_max. fold (value (theta l) s a). rewrite EV. reflexivity.
    + intros L0. apply TB. intros i j. rewrite update_qlambda_ent by auto. change (etraces (update_qlambda p l s a r s')) with (etraces (updateEtraces p l s a 1)). rewrite (EZ L0). unfold td_max. fold (value (theta l) s a). rewrite EV.
      destruct (a =? i)%nat; ring.
  - intros b Hb L0. apply TB. intros i j. rewrite update_sarsa_ent by auto. change (etraces (update_sarsa p l s a r s' b)) with (etraces (updateEtraces p l s a 1)). rewrite (EZ L0). unfold s' at 1. rewrite (value_indicator n m) by auto.
    destruct (a =? i)%nat; ring.
Qed.
Print Assumptions C66_tabular.

(** With such features, a learning rate of at most one and rewards of size at most (1 - gamma) B, no entry of the table ever leaves [-B, B],
    whatever calls are made to the agent. *)
Theorem C66_bounded : forall p st l f cs x x' B, 0 <= rewardDiscount p <= 1 -> 0 <= learningRateDecay p -> (0 < num_actions p)%nat ->
  shape (num_actions p) (num_features p) (theta l) -> (forall i j, Rabs (ent (theta l) i j) <= B) -> 0 <= learningRate l <= 1 ->
  Forall (valid_call (num_actions p) (num_features p) ((1 - rewardDiscount p) * B)) cs ->
  new_agent p st l f = Ok x -> agent_run Q_LinFA p st x cs = Ok x' -> forall i j, Rabs (ent (theta (ln x')) i j) <= B.
Proof.
  intros p st l f cs x x' B Hg Hd Hn S Bd Rt V N H. assert (O := new_agent_bounded p st B Hg Hd l f x (conj S (conj Bd Rt)) N).
  destruct (run_bounded p st B Hg Hd Hn cs V x x' O H) as ((_ & K & _) & _). exact K.
Qed.
Print Assumptions C66_bounded.

(** ** fixed points and least squares *)
(** Weights that satisfy the Bellman equation for everything observed are left alone by the four incremental learners. *)
Theorem C66_fixpoint : forall al p beh l es l', plain al = true -> (0 < num_actions p)%nat -> wf p l -> sec_weights l = zeros2 (num_actions p) (num_features p) ->
  Forall (in_range p) es -> Forall (solved p (theta l)) es -> tell_all al p beh l es = Ok l' -> theta l' = theta l.
Proof. intros al p beh l es l' HP Hn W SW HR HS H. eapply solved_stays_run; eauto. Qed.
Print Assumptions C66_fixpoint.

Lemma zeros2_vec j k v : mat_vec (zeros2 j k) v = zeros j.
Proof. unfold zeros2, zeros at 2. induction j as [|j IH]; cbn; [reflexivity |]. rewrite rdot_zeros_l. unfold mat_vec in IH. rewrite IH. reflexivity. Qed.
(** LSTDQLambda: if some weights satisfy the Bellman equation for everything observed, they solve its linear system, and they are what is
    learned as soon as the matrix can be inverted. *)
Theorem C66_lstd : forall p beh th l es s a r s' d l', let n := num_actions p in let m := num_features p in
  (0 < n)%nat -> shape n m th -> shape n m (theta l) -> shape n m (etraces l) -> mA l = zeros2 (n * m) (n * m) -> vb l = zeros (n * m) ->
  Forall (in_range p) (es ++ [Transition s a r s' None d]) -> solved_greedy p beh th l (es ++ [Transition s a r s' None d]) ->
  tell_all LSTDQLambda p beh l (es ++ [Transition s a r s' None d]) = Ok l' ->
  mat_vec (mA l') (ravel th) = vb l' /\ (good_pinv (pinv2 p) (n * m) -> injective (n * m) (mA l') -> theta l' = th).
Proof.
  intros p beh th l es s a r s' d l' n m Hn STH ST SE EA Eb HR SV H.
  assert (S0 : sys p th l). { split; [destruct ST; auto |]. split; [auto |]. rewrite EA, Eb. split; [apply shape_zeros2 |]. split; [apply repeat_length |].
    apply zeros2_vec. }
  assert (S1 := lstdq_run p th beh STH Hn _ l l' S0 HR SV H). pose proof S1 as (_ & _ & SA & _ & E). split; [exact E |]. intros G I.
  rewrite (tell_all_app p) in H. destruct (tell_all LSTDQLambda p beh l es) as [l1|]; [| discriminate]. cbn [rbind tell_all tell] in H. destruct d as [[d1 d2] d3]. cbn [updateWeights rbind] in H. injection H as <-.
  unfold update_lstdq at 1. cbn [theta with_theta].
  change (reshape (num_actions p) (num_features p) (mat_vec (pinv2 p (mA (update_lstdq p l1 s a r s' d1))) (vb (update_lstdq p l1 s a r s' d1))) = th). rewrite <- E. apply solution; auto.
Qed.
Print Assumptions C66_lstd.

(** LSPI likewise, for the action taken next, whenever it recomputes its weights. *)
Theorem C66_lspi : forall p beh th l es s a r s' b d l', let n := num_actions p in let m := num_features p in
  exploring p = false -> shape n m th -> shape n m (theta l) -> shape n m (etraces l) -> mA l = zeros2 (n * m) (n * m) -> vb l = zeros (n * m) ->
  Forall (in_range p) (es ++ [Transition s a r s' (Some b) d]) -> Forall (solved p th) (es ++ [Transition s a r s' (Some b) d]) ->
  tell_all LSPI p beh l (es ++ [Transition s a r s' (Some b) d]) = Ok l' ->
  mat_vec (mA l') (ravel th) = vb l' /\
  (match lazyInversions p with None => True | Some c => ((count l + length (filter is_transition es)) mod c = 0)%nat end ->
   good_pinv (pinv2 p) (n * m) -> injective (n * m) (mA l') -> theta l' = th).
Proof.
  intros p beh th l es s a r s' b d l' n m EX STH ST SE EA Eb HR SV H.
  assert (S0 : sys p th l). { split; [destruct ST; auto |]. split; [auto |]. rewrite EA, Eb. split; [apply shape_zeros2 |]. split; [apply repeat_length |].
    apply zeros2_vec. }
  destruct (lspi_run p th beh EX STH _ l l' S0 HR SV H) as [S1 _]. pose proof S1 as (_ & _ & SA & _ & E). split; [exact E |]. intros DUE G I.
  rewrite (tell_all_app p) in H. destruct (tell_all LSPI p beh l es) as [l1|] eqn:E1; [| discriminate]. cbn [rbind tell_all tell] in H. destruct d as [[d1 d2] d3]. cbn [updateWeights rbind] in H. injection H as <-.
  apply Forall_app in HR as [HR1 HR2]. apply Forall_app in SV as [SV1 SV2]. destruct (lspi_run p th beh EX STH _ l l1 S0 HR1 SV1 E1) as [SL1 CL1]. apply Forall_inv in HR2 as (Hs & Ha & Hs' & Hb). apply Forall_inv in SV2. rename SV2 into V. cbn [solved] in V.
  destruct (lspi_step p th l1 s a r s' b EX STH SL1 Hs Ha Hs' Hb V) as (_ & _ & T). rewrite T by (rewrite CL1; exact DUE). rewrite <- E. apply solution; auto.
Qed.
Print Assumptions C66_lspi.

(** While exploring it pretends a reward for every weight whose feature was zero whenever its action was taken. *)
Theorem C66_lspi_bonus : forall p beh es l s a r s' b d l', let n := num_actions p in let m := num_features p in let es' := es ++ [Transition s a r s' (Some b) d] in
  exploring p = true -> lazyInversions p = None -> untouched l = repeat true (n * m) -> Forall (in_range p) es' -> tell_all LSPI p beh l es' = Ok l' ->
  exists bonus, theta l' = reshape n m (mat_vec (pinv2 p (mA l')) (vadd (vb l') bonus)) /\ length bonus = (n * m)%nat /\
    forall i c, (i < n)%nat -> (c < m)%nat ->
      (touched es' i c -> nth (i * m + c) bonus 0 = 0) /\ (~ touched es' i c -> nth (i * m + c) bonus 0 = explorationReward p).
Proof. intros p beh es l s a r s' b d l' n m es' EX LZ U F H. eapply bonus_run; eauto. Qed.
Print Assumptions C66_lspi_bonus.
(** With lazy inversions (the default) it only looks at the features when it inverts: what was touched in between is still rewarded. *)
Definition p4 : params := mkParams 1 1 (/ 2) 0 0 1 true 7 (Some 2%nat) (fun A => A).
Definition es4 : list event := [Transition [0] 0 0 [0] (Some 0%nat) (0, 0, 0)%nat; Transition [1] 0 0 [0] (Some 0%nat) (0, 0, 0)%nat; Transition [0] 0 0 [0] (Some 0%nat) (0, 0, 0)%nat].
Theorem C66_lspi_lazy_refuted : exists l', tell_all LSPI p4 (fun _ _ _ => []) (new_learner p4 [[0]] 1 [[0]] [0]) es4 = Ok l' /\ touched es4 0 0 /\
  theta l' = reshape 1 1 (mat_vec (pinv2 p4 (mA l')) (vadd (vb l') [explorationReward p4])).
Proof.
  assert (A : exists l1, tell_all LSPI p4 (fun _ _ _ => []) (new_learner p4 [[0]] 1 [[0]] [0]) [nth 0 es4 Start; nth 1 es4 Start] = Ok l1 /\ untouched l1 = [true] /\ count l1 = 2%nat).
  { eexists. split; [reflexivity |]. split; [| reflexivity]. unfold is_zero. unfold update_lspi, new_learner, reset, newEpisode, with_theta. cbn.
    replace (0 + 0) with 0 by lra. unfold is_zero. destruct (Req_EM_T 0 0); [reflexivity | congruence]. }
  destruct A as (l1 & A & U & C). eexists. split.
  - change es4 with ([nth 0 es4 Start; nth 1 es4 Start] ++ [nth 2 es4 Start]). rewrite (tell_all_app p4), A. reflexivity.
  - split; [exists [1], 0, [0], (Some 0%nat), (0, 0, 0)%nat; split; [right; left; reflexivity | cbn; lra] |].
    unfold update_lspi. rewrite U, C. cbn [p4 exploring lazyInversions Nat.modulo Nat.divmod fst snd Nat.sub Nat.eqb andb theta mA vb].
    replace (band [true] (map is_zero (ravel (phi_of p4 0 [0])))) with [true]; [reflexivity |]. cbn. replace (0 + 0) with 0 by lra. unfold is_zero. destruct (Req_EM_T 0 0); [reflexivity | congruence].
Qed.
Print Assumptions C66_lspi_lazy_refuted.

(** ** policies *)
(** Whatever its mode, the agent acts with a probability distribution; the greedy policy puts everything on an action of greatest value,
    epsilon-greedy keeps epsilon / n for every action. *)
Lemma rsum_const {A} (c : R) (l : list A) : rsum (map (fun _ => c) l) = INR (length l) * c.
Proof. induction l as [|x l IH]; [cbn; ring |]. cbn [map]. rewrite rsum_cons, IH. cbn [length]. rewrite S_INR. ring. Qed.
Lemma nth_map0 (f : R -> R) l i : (i < length l)%nat -> nth i (map f l) 0 = f (nth i l 0).
Proof. intros H. rewrite (nth_indep _ 0 (f 0)) by (rewrite map_length; auto). apply map_nth. Qed.
Theorem C66_policy : forall p x s d, let n := num_actions p in (0 < n)%nat -> length (theta (ln x)) = n -> 0 <= expl_proportion x <= 1 ->
  distribution n (actionProbs p x s d) /\
  exists g, (g < n)%nat /\ (forall b, (b < n)%nat -> value (theta (ln x)) s b <= value (theta (ln x)) s g) /\
  (greedy (fl x) = true -> forall i, nth i (actionProbs p x s d) 0 = if (i =? g)%nat then 1 else 0) /\
  (greedy (fl x) = false -> epsilonGreedy (fl x) = true -> forall i, (i < n)%nat ->
     nth i (actionProbs p x s d) 0 = (if (i =? g)%nat then 1 - expl_proportion x else 0) + expl_proportion x / INR n).
Proof.
  intros p x s d n Hn LT He. set (q := qValues (theta (ln x)) s). assert (LQ : length q = n) by (unfold q, qValues; rewrite mat_vec_len; auto). assert (NE : q <> []) by (destruct q; [cbn in LQ; lia | discriminate]).
  destruct (r_argmax_spec q d NE) as [G1 G2]. rewrite LQ in G1. set (g := r_argmax q d) in *.
  assert (GP : greedyPolicy n (theta (ln x)) s d = upd g 1 (zeros n)) by reflexivity.
  assert (NG : forall i, nth i (upd g 1 (zeros n)) 0 = if (i =? g)%nat then 1 else 0).
  { intros i. rewrite nth_upd. unfold zeros. rewrite repeat_length, (proj2 (Nat.ltb_lt _ _) G1), Bool.andb_true_r, nth_repeat0. destruct (i =? g)%nat, (i <? n)%nat; auto. }
  assert (HN : 0 < INR n) by (apply lt_0_INR; auto). destruct (onehot_dist n g G1) as (O1 & O2 & O3).
  split.
  - unfold actionProbs. fold n q. rewrite GP. destruct (greedy (fl x)); [split; auto |]. destruct (epsilonGreedy (fl x)).
    + split; [rewrite map_length; auto |]. assert (0 <= expl_proportion x / INR n) by (apply Rmult_le_pos; [tauto | left; apply Rinv_0_lt_compat; auto]). split.
      * apply Forall_map. eapply Forall_impl; [| exact O2]. cbn. intros y Hy. apply Rplus_le_le_0_compat; [apply Rmult_le_pos; lra | auto].
      * rewrite rsum_map_plus. rewrite rsum_const, O1. replace (rsum (map (fun y => y * (1 - expl_proportion x)) (upd g 1 (zeros n)))) with ((1 - expl_proportion x) * rsum (map (fun y => y) (upd g 1 (zeros n)))) by (rewrite <- rsum_scale; f_equal; apply map_ext; intros; ring).
        rewrite map_id, O3. field. lra.
    + rewrite <- LQ. apply boltzmann_dist. auto.
  - exists g. split; [auto |]. split.
    { intros b Hb. destruct (vmax_spec q NE) as [_ V]. rewrite <- !nth_qValues by lia. fold q. rewrite G2. apply V, nth_In. lia. }
    split.
    + intros GR i. unfold actionProbs. rewrite GR. fold n. rewrite GP. apply NG.
    + intros GR EG i Hi. unfold actionProbs. rewrite GR, EG. fold n. rewrite GP. rewrite nth_map0 by (rewrite O1; auto). rewrite NG. destruct (i =? g)%nat; ring.
Qed.
Print Assumptions C66_policy.

(** Boltzmann exploration: every action keeps a probability of at least exp(-20)/n, better actions are not less likely, and if the values differ
    by at most 20 temperatures the probabilities are those of Gibbs. *)
Theorem C66_boltzmann : forall q T d i, 0 < T -> (i < length q)%nat ->
  exp (-20) / INR (length q) <= nth i (boltzmannProbs q T d) 0 /\
  (forall j, (j < length q)%nat -> nth i q 0 <= nth j q 0 -> nth i (boltzmannProbs q T d) 0 <= nth j (boltzmannProbs q T d) 0) /\
  ((forall a b, In a q -> In b q -> a - b <= 20 * T) -> nth i (boltzmannProbs q T d) 0 = exp (nth i q 0 / T) / rsum (map (fun x => exp (x / T)) q)).
Proof. intros q T d i HT Hi. split; [apply boltz_positive; auto; lra |]. split; [intros; apply boltz_mono; auto | intros; apply boltz_gibbs; auto]. Qed.
Print Assumptions C66_boltzmann.

(** ** learning rate and exploration *)
(** The learning rate depends only on the number of episodes started since the learner was reset. *)
Theorem C66_rate : forall al p beh l es l', 0 <= learningRateDecay p -> tell_all al p beh (reset p l) es = Ok l' ->
  learningRate l' = learningRate l * ((learningRateDecay p + 1) / (learningRateDecay p + 2 + INR (starts es))).
Proof.
  intros al p beh l es l' Hd H. apply rate_run in H; [| auto]. rewrite H. cbn [reset newEpisode learningRate callcount]. pose proof (pos_INR (starts es)). change (INR 1) with 1. field. lra.
Qed.
Print Assumptions C66_rate.
(** Resetting does not restore it: the rate before the reset is what decays further; the weights stay as well. *)
Theorem C66_reset_refuted : forall p l, 0 <= learningRateDecay p -> 0 < learningRate l -> learningRate (reset p l) < learningRate l /\ theta (reset p l) = theta l.
Proof.
  intros p l Hd Hl. split; [| reflexivity]. cbn [reset newEpisode learningRate callcount]. change (INR 1) with 1. set (d := learningRateDecay p + 1). rewrite <- (Rmult_1_r (learningRate l)) at 2. apply Rmult_lt_compat_l; [auto |].
  unfold Rdiv. apply Rmult_lt_reg_r with (d + 1); [unfold d; lra |]. rewrite Rmult_assoc, Rinv_l by (unfold d; lra). lra.
Qed.
Print Assumptions C66_reset_refuted.
(** Temperature and proportion of exploration decay with every episode - except while the agent learns online. *)
Theorem C66_exploration : forall al p st l f cs x x', Forall (fun c => c <> Reset /\ forall g, c <> SetFlags g) cs ->
  new_agent p st l f = Ok x -> agent_run al p st x cs = Ok x' ->
  let decays := negb (learning f && negb (batchMode f)) in
  temperature x' = init_temperature st * (if decays then temperature_decay st ^ S (new_episodes cs) else 1) /\
  expl_proportion x' = init_exploration st * (if decays then exploration_decay st ^ S (new_episodes cs) else 1).
Proof.
  intros al p st l f cs x x' F N H decays. destruct (new_agent_rest p st l f) as (y & E & _ & _ & FL & _ & _ & T & X). rewrite N in E. injection E as <-. apply exploration_run in H as [H1 H2]; [| auto].
  unfold online in *. rewrite FL in *. unfold decays. rewrite H1, H2, T, X. destruct (learning f && negb (batchMode f)); cbn [negb pow]; lra.
Qed.
Print Assumptions C66_exploration.
(** So a learning agent never becomes greedier, however many episodes it plays. *)
Theorem C66_exploration_refuted : forall al p st l f cs x x', learning f = true -> batchMode f = false -> Forall (fun c => c <> Reset /\ forall g, c <> SetFlags g) cs ->
  new_agent p st l f = Ok x -> agent_run al p st x cs = Ok x' -> temperature x' = init_temperature st /\ expl_proportion x' = init_exploration st.
Proof.
  intros al p st l f cs x x' L1 L2 F N H. destruct (C66_exploration al p st l f cs x x' F N H) as [A B]. rewrite L1, L2 in A, B. cbn [negb andb] in A, B. lra.
Qed.
Print Assumptions C66_exploration_refuted.

(** ** what the agent learns from *)
(** Online, the learner is told every pair of consecutive steps of the whole stream of episodes, once and in order, and the start of every episode. *)
Theorem C66_stream : forall al p st l f eps, learning f = true -> batchMode f = false -> Forall (fun ep => ep <> []) eps ->
  exists x x', new_agent p st l f = Ok x /\ agent_run al p st x (doEpisodes eps) = Ok x' /\
  tell_all al p (behaviour p f (init_temperature st) (init_exploration st)) (newEpisode p (reset p l)) (stream (passNextAction al) None eps) = Ok (ln x').
Proof.
  intros al p st l f eps L1 L2 F. destruct (new_agent_rest p st l f) as (x & E & RE & RD & FL & LN & _ & T & X). rewrite L1, L2 in T, X. cbn [negb andb] in T, X. rewrite Rmult_1_r in T, X.
  destruct (episodes_online al p st eps F x None RE RD) as (x' & A & B); [unfold online; rewrite FL, L1, L2; reflexivity |]. exists x, x'. rewrite FL, LN, T, X in B. auto.
Qed.
Print Assumptions C66_stream.

(** a table of one action and two states *)
Definition pinv0 : mat -> mat := fun A => A.
Definition p2 : params := mkParams 1 2 (/ 2) 0 0 1 false 1 None pinv0.
Definition st2 : settings := mkSettings (/ 10) (99 / 100) 1 (99 / 100).
Definition l2 : learner := mkLearner [[0; 10]] [] 1 0 [] [] (zeros2 1 2) [] 0.
Definition f_online : flags := mkFlags true false false true false.
Definition f_batch : flags := mkFlags true false false true true.
Definition d0 : nat * nat * nat := (0, 0, 0)%nat.
Lemma shape2 : shape 1 2 [[0; 10]].
Proof. split; [reflexivity | repeat constructor]. Qed.

(** Two episodes of one step each: nothing happens within them, but the end of the first is learned as if the start of the second followed from it. *)
Definition two_episodes : list (list interaction) := [[((indicator 2 0, 0%nat, 1), d0, d0)]; [((indicator 2 1, 0%nat, 0), d0, d0)]].
Theorem C66_boundary_refuted : exists x x' l', new_agent p2 st2 l2 f_online = Ok x /\ agent_run Q_LinFA p2 st2 x (doEpisodes two_episodes) = Ok x' /\
  tell_all Q_LinFA p2 (behaviour p2 f_online 1 (/ 10)) (newEpisode p2 (reset p2 l2)) (separate false two_episodes) = Ok l' /\
  ent (theta l') 0 0 = 0 /\ ent (theta (ln x')) 0 0 = learningRate (ln x') * 6 /\ 0 < learningRate (ln x').
Proof.
  destruct (C66_stream Q_LinFA p2 st2 l2 f_online two_episodes) as (x & x' & A & B & C); [auto | auto | repeat constructor; discriminate |].
  exists x, x', (newEpisode p2 (newEpisode p2 (newEpisode p2 (reset p2 l2)))). split; [auto |]. split; [auto |]. split; [reflexivity |]. split; [reflexivity |].
  cbn [stream two_episodes links link app tell_all tell rbind updateWeights passNextAction last_step rev fst d0] in C. injection C as C. set (l3 := newEpisode p2 (newEpisode p2 (newEpisode p2 (reset p2 l2)))) in C.
  assert (TH : theta l3 = [[0; 10]]) by reflexivity. rewrite <- C. change (learningRate (update_q p2 l3 _ _ _ _)) with (learningRate l3).
  destruct (C66_tabular p2 l3 0 1 0 1) as [(b & Hb & _ & (T & _) & _) _]; [exact shape2 | apply shape_zeros2 | cbn; lia | cbn; lia | cbn; lia |].
  assert (b = 0%nat) by (cbn in Hb; lia). subst b. change (num_features p2) with 2%nat in T. split.
  - change (let '(_, _, _) := ((0, 0, 0)%nat) in update_q p2 l3 (indicator 2 0) 0 1 (indicator 2 1)) with (update_q p2 l3 (indicator 2 0) 0 1 (indicator 2 1)). rewrite T, TH. unfold ent. cbn [nth p2 rewardDiscount]. lra.
  - unfold l3. cbn [newEpisode reset learningRate callcount l2 p2 learningRateDecay INR]. lra.
Qed.
Print Assumptions C66_boundary_refuted.

(** In batch mode nothing is learned while acting, and learn() goes through the recorded steps, linked one to the next across the episodes -
    with the very last step in front of the first. *)
Theorem C66_batch : forall al p st l f eps draws, passNextAction al = false -> learning f = true -> batchMode f = true -> logging f = true -> eps <> [] -> Forall (fun ep => ep <> []) eps ->
  exists x x1 x2 s, new_agent p st l f = Ok x /\ agent_run al p st x (doEpisodes eps) = Ok x1 /\ theta (ln x1) = theta l /\
  history x1 = map steps_of eps /\ last_step None (concat eps) = Some s /\ agent_run al p st x1 [Learn draws] = Ok x2 /\
  tell_all al p (behaviour p f (temperature x1) (expl_proportion x1)) (ln x1) (replays 0 draws (Some s) (map steps_of eps)) = Ok (ln x2).
Proof.
  intros al p st l f eps draws PF L1 L2 L3 NE F. destruct (new_agent_rest p st l f) as (x & E & RE & RD & FL & LN & HI & _). 
  destruct (episodes_batch al p st eps F x None [] RE) as (x1 & A & B & C & D & H); [unfold online; rewrite FL, L1, L2; reflexivity | congruence | left; auto |]. specialize (H NE). cbn [app] in H.
  assert (LS : exists s, last_step None (concat eps) = Some s).
  { unfold last_step. destruct (rev (concat eps)) as [|i t] eqn:RV; [| eauto]. apply (f_equal (@rev _)) in RV. rewrite rev_involutive in RV. destruct eps as [|ep eps]; [congruence |]. inversion F; subst. destruct ep; [congruence | discriminate]. }
  destruct LS as [s LS]. rewrite LS in C. destruct C as [RM _]. destruct (learn_seqs_run al p draws (map steps_of eps) PF 0 x1 (Some s) RM) as (x2 & X & Y).
  exists x, x1, x2, s. split; [auto |]. split; [auto |]. split.
  - assert (TS : forall k l l', tell_all al p (fun _ _ _ => []) l (repeat Start k) = Ok l' -> theta l' = theta l) by (clear; induction k as [|k IH]; intros l l' H; cbn in H; [injection H as <-; auto |]; apply IH in H; rewrite H; reflexivity).
    rewrite (TS _ _ _ B), LN. reflexivity.
  - split; [auto |]. split; [auto |]. rewrite D, FL in Y. split; [| exact Y]. cbn [agent_run agent_step]. unfold learn. rewrite D, FL, L1, L2, H. cbn [negb]. rewrite X. reflexivity.
Qed.
Print Assumptions C66_batch.
(** A single step is then learned as a step back to itself, although nothing that followed it was seen. *)
Definition one_step : list (list interaction) := [[((indicator 2 1, 0%nat, 1), d0, d0)]].
Theorem C66_batch_refuted : exists x x1 x2, new_agent p2 st2 l2 f_batch = Ok x /\ agent_run Q_LinFA p2 st2 x (doEpisodes one_step) = Ok x1 /\ theta (ln x1) = [[0; 10]] /\
  agent_run Q_LinFA p2 st2 x1 [Learn (fun _ => d0)] = Ok x2 /\ ent (theta (ln x2)) 0 1 = 10 - learningRate (ln x1) * 4 /\ 0 < learningRate (ln x1).
Proof.
  destruct (C66_batch Q_LinFA p2 st2 l2 f_batch one_step (fun _ => d0)) as (x & x1 & x2 & s & A & B & T & H & S & L & Y); [reflexivity | reflexivity | reflexivity | reflexivity | discriminate | repeat constructor; discriminate |].
  exists x, x1, x2. split; [auto |]. split; [auto |]. split; [auto |]. split; [auto |]. cbn in S. injection S as <-. 
  assert (E1 : exists x0, new_agent p2 st2 l2 f_batch = Ok x0 /\ ln x0 = newEpisode p2 (reset p2 l2)) by (destruct (new_agent_rest p2 st2 l2 f_batch) as (y & Y1 & _ & _ & _ & Y2 & _); eauto). destruct E1 as (x0 & E1 & E2). rewrite E1 in A. injection A as ->.
  destruct (new_agent_rest p2 st2 l2 f_batch) as (y & Y1 & RE & _ & FL & LN & HI & _). rewrite E1 in Y1. injection Y1 as <-.
  destruct (episodes_batch Q_LinFA p2 st2 one_step ltac:(repeat constructor; discriminate) x None [] RE) as (z & Z1 & Z2 & _); [unfold online; rewrite FL; reflexivity | rewrite FL; reflexivity | left; auto |]. rewrite Z1 in B. injection B as ->.
  cbn [one_step length repeat tell_all tell rbind] in Z2. injection Z2 as Z2.
  assert (P : 0 < learningRate (ln x1)) by (rewrite <- Z2, LN; cbn [newEpisode reset learningRate callcount l2 p2 learningRateDecay INR]; lra). split; [| exact P].
  cbn [one_step map steps_of fst replays replay app tell_all tell rbind updateWeights d0] in Y. injection Y as Y. rewrite <- Y. 
  destruct (C66_tabular p2 (ln x1) 0 1 1 1) as [(b & Hb & _ & (TT & _) & _) _]; [rewrite T; exact shape2 | rewrite <- Z2; apply shape_zeros2 | cbn; lia | cbn; lia | cbn; lia |].
  assert (b = 0%nat) by (cbn in Hb; lia). subst b. change (num_features p2) with 2%nat in TT. change (theta (newEpisode p2 ?k)) with (theta k). 
  etransitivity; [exact TT |]. rewrite T. unfold ent. cbn [nth p2 rewardDiscount theta l2]. lra.
Qed.
Print Assumptions C66_batch_refuted.
(** The learners that need the next action cannot learn in batch mode at all. *)
Theorem C66_batch_next_action_refuted : forall al p st l f eps draws, passNextAction al = true -> learning f = true -> batchMode f = true -> logging f = true -> eps <> [] -> Forall (fun ep => ep <> []) eps ->
  exists x x1, new_agent p st l f = Ok x /\ agent_run al p st x (doEpisodes eps) = Ok x1 /\ agent_run al p st x1 [Learn draws] = Err TypeError.
Proof.
  intros al p st l f eps draws PF L1 L2 L3 NE F. destruct (new_agent_rest p st l f) as (x & E & RE & RD & FL & LN & HI & _). 
  destruct (episodes_batch al p st eps F x None [] RE) as (x1 & A & B & C & D & H); [unfold online; rewrite FL, L1, L2; reflexivity | congruence | left; auto |]. specialize (H NE). cbn [app] in H.
  assert (LS : exists s, last_step None (concat eps) = Some s).
  { unfold last_step. destruct (rev (concat eps)) as [|i t] eqn:RV; [| eauto]. apply (f_equal (@rev _)) in RV. rewrite rev_involutive in RV. destruct eps as [|ep eps]; [congruence |]. inversion F; subst. destruct ep; [congruence | discriminate]. }
  destruct LS as [[[so sa] sr] LS]. rewrite LS in C. destruct C as [(R1 & R2 & R3) _].
  exists x, x1. split; [auto |]. split; [auto |]. cbn [agent_run agent_step]. unfold learn. rewrite D, FL, L1, L2, H. cbn [negb]. destruct eps as [|ep eps]; [congruence |]. inversion F as [| ? ? N1 F1]; subst. destruct ep as [|[[[[o a] r] q] q'] ep]; [congruence |].
  cbn [map steps_of fst learn_seqs learn_seq]. rewrite R1. unfold call_learner. rewrite R2, R3. destruct (draws 0%nat) as [[e1 e2] e3].
  destruct al; try discriminate; reflexivity.
Qed.
Print Assumptions C66_batch_next_action_refuted.

(** ** the theorems apply *)
Definition l3 : learner := newEpisode p2 (reset p2 l2).
(** a Q-learning step on the table: 0 becomes (1 - alpha) 0 + alpha (1 + 10/2) *)
Example C66_tabular_applies : ent (theta (update_q p2 l3 (indicator 2 0) 0 1 (indicator 2 1))) 0 0 = learningRate l3 * 6 /\ 0 < learningRate l3.
Proof.
  destruct (C66_tabular p2 l3 0 1 0 1) as [(b & Hb & _ & (T & _) & _) _]; [exact shape2 | apply shape_zeros2 | cbn; lia | cbn; lia | cbn; lia |].
  assert (b = 0%nat) by (cbn in Hb; lia). subst b. split; [etransitivity; [exact T |]; unfold ent, l3; cbn [nth newEpisode reset theta l2 p2 rewardDiscount]; lra |].
  unfold l3. cbn [newEpisode reset learningRate callcount l2 p2 learningRateDecay INR]. lra.
Qed.
(** two visits leave a decayed and a fresh trace *)
Definition p3 : params := mkParams 1 2 (/ 2) (/ 2) 0 1 false 1 None pinv0.
Definition es3 : list event := [Transition [1; 2] 0 0 [3; 4] None d0; Transition [3; 4] 0 0 [1; 1] None d0].
Example C66_traces_applies : exists l', tell_all QLambda_LinFA p3 (fun _ _ _ => []) (newEpisode p3 l2) es3 = Ok l' /\
  ent (etraces l') 0 0 = 13 / 4 /\ ent (etraces l') 0 1 = 9 / 2.
Proof.
  assert (A : exists l', tell_all QLambda_LinFA p3 (fun _ _ _ => []) (newEpisode p3 l2) es3 = Ok l') by (eexists; reflexivity). destruct A as [l' A]. exists l'. split; [exact A |].
  assert (T := C66_traces QLambda_LinFA p3 (fun _ _ _ => []) l2 es3 l' eq_refl ltac:(repeat constructor) ltac:(repeat constructor) A). split; (rewrite T by (cbn; lia));
    unfold trace; cbn [es3 visits tell updateWeights d0 responsibility length seq map skipn nth rprod v_resp v_action v_state Nat.eqb p3 rewardDiscount lambda]; unfold rsum; cbn [fold_right fold_left]; lra.
Qed.
(** least squares on one number: a reward of 3 that leads back to itself, discounted by one half, is worth 6 *)
Definition pinv1 : mat -> mat := fun A => [[/ ent A 0 0]].
Definition p1 : params := mkParams 1 1 (/ 2) (/ 2) 0 1 false 1 None pinv1.
Definition l1 : learner := mkLearner [[5]] [[0]] 1 0 (zeros2 1 1) (zeros 1) (zeros2 1 1) [true] 0.
Lemma one_entry (A : mat) : shape 1 1 A -> A = [[ent A 0 0]].
Proof. intros [L F]. destruct A as [|[|x [|y u]] [|w t]]; try discriminate; inversion F; try discriminate; reflexivity. Qed.
Lemma good_pinv1 : good_pinv pinv1 1.
Proof.
  intros A SA I x Lx. rewrite (one_entry A SA) in *. set (a := ent A 0 0) in *. destruct x as [|x [|y t]]; try discriminate. destruct (Req_EM_T a 0) as [Z | Z].
  - exfalso. specialize (I [0] [1] eq_refl eq_refl). rewrite Z in I. assert (E : [0] = [1]) by (apply I; unfold mat_vec, rdot, rsum; cbn; f_equal; lra). injection E as E. lra.
  - unfold pinv1, mat_vec, rdot, rsum, ent. cbn. f_equal. field. auto.
Qed.
Example C66_lstd_applies : exists l', tell_all LSTDQLambda p1 (fun _ _ _ => []) l1 ([] ++ [Transition [1] 0 3 [1] None d0]) = Ok l' /\ theta l' = [[6]].
Proof.
  eexists. split; [reflexivity |]. assert (S1 : forall a, shape 1 1 [[a]]) by (intros; split; [reflexivity | repeat constructor]).
  refine (proj2 (C66_lstd p1 (fun _ _ _ => []) [[6]] l1 [] [1] 0 3 [1] d0 _ _ (S1 6) (S1 5) (S1 0) eq_refl eq_refl _ _ eq_refl) good_pinv1 _).
  - cbn. lia.
  - repeat constructor.
  - cbn [app solved_greedy d0]. split; [| exact I]. assert (NE : qValues (theta l1) [1] <> []) by discriminate. destruct (r_argmax_spec (qValues (theta l1) [1]) 0 NE) as [G _]. change (length (qValues (theta l1) [1])) with 1%nat in G.
    assert (G0 : r_argmax (qValues (theta l1) [1]) 0 = 0%nat) by lia. rewrite G0. unfold value, rdot, rsum. cbn. lra.
  - assert (NE : qValues (theta l1) [1] <> []) by discriminate. destruct (r_argmax_spec (qValues (theta l1) [1]) 0 NE) as [G _]. change (length (qValues (theta l1) [1])) with 1%nat in G. assert (G0 : r_argmax (qValues (theta l1) [1]) 0 = 0%nat) by lia.
    intros x y Lx Ly. cbn [update_lstdq mA with_theta with_system updateEtraces with_etraces theta etraces]. unfold greedyPolicy. cbn [p1 num_actions num_features rewardDiscount]. rewrite G0. destruct x as [|x [|? ?]]; try discriminate. destruct y as [|y [|? ?]]; try discriminate.
    unfold mat_vec, madd, outer, vsub, vscale, ravel, phi_of, addrow, vadd, rdot, rsum. cbn. intros [= E]. f_equal. lra.
Qed.
(** Gibbs probabilities of two values *)
Example C66_boltzmann_applies : forall d, nth 0 (boltzmannProbs [1; 2] 1 d) 0 = exp (1 / 1) / (exp (1 / 1) + (exp (2 / 1) + 0)).
Proof. intros d. destruct (C66_boltzmann [1; 2] 1 d 0) as (_ & _ & H); [lra | cbn; lia |]. apply H. intros a b [<- | [<- | []]] [<- | [<- | []]]; lra. Qed.
(** rewards of at most 5 keep the table within 10 *)
Example C66_bounded_applies : exists x x', new_agent p2 st2 l2 f_online = Ok x /\ agent_run Q_LinFA p2 st2 x (doEpisodes two_episodes) = Ok x' /\ forall i j, Rabs (ent (theta (ln x')) i j) <= 10.
Proof.
  destruct (C66_stream Q_LinFA p2 st2 l2 f_online two_episodes) as (x & x' & A & B & _); [auto | auto | repeat constructor; discriminate |].
  exists x, x'. split; [auto |]. split; [auto |]. apply (C66_bounded p2 st2 l2 f_online (doEpisodes two_episodes) x x' 10); cbn [p2 rewardDiscount learningRateDecay num_actions num_features l2 theta learningRate]; auto; try lra; try lia.
  - exact shape2.
  - intros [|[|i]] [|[|[|j]]]; unfold ent; cbn [nth]; unfold Rabs; destruct (Rcase_abs _); lra.
  - unfold two_episodes, doEpisodes. cbn. repeat (constructor; [cbn; repeat match goal with |- exists k, _ => first [exists 0%nat; split; [lia | reflexivity] | exists 1%nat; split; [lia | reflexivity]] end; try exact I; try lia; try (unfold Rabs; destruct (Rcase_abs _); lra) |]). constructor.
Qed.
(** a state worth 10 that leads back to itself with reward 5, discounted by one half *)
Example C66_fixpoint_applies : exists l', tell_all GQLambda p2 (behaviour p2 f_online 1 (/ 10)) l3 [Transition [0; 1] 0 5 [0; 1] None d0; Start; Transition [0; 1] 0 5 [0; 1] None d0] = Ok l' /\ theta l' = [[0; 10]].
Proof.
  assert (A : exists l', tell_all GQLambda p2 (behaviour p2 f_online 1 (/ 10)) l3 [Transition [0; 1] 0 5 [0; 1] None d0; Start; Transition [0; 1] 0 5 [0; 1] None d0] = Ok l') by (eexists; reflexivity). destruct A as [l' A]. exists l'. split; [exact A |].
  assert (S : solved p2 [[0; 10]] (Transition [0; 1] 0 5 [0; 1] None d0)).
  { exists 10. split; [split; [exists 0%nat; split; [cbn; lia |] | intros [|b] H; [| cbn in H; lia]] |]; unfold value, rdot, rsum; cbn; lra. }
  refine (C66_fixpoint GQLambda p2 _ l3 _ l' eq_refl _ _ eq_refl _ _ A).
  - cbn. lia.
  - split; [exact shape2 | split; apply shape_zeros2].
  - repeat constructor.
  - repeat constructor; exact S.
Qed.
