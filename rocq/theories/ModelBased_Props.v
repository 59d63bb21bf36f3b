(** Property C44: planning with a known model. *)
From Verif Require Import Base Value_Model Value_Props ModelBased_Model ModelBased_Proofs ModelBased_Proofs2.
From Coq Require Import QArith Qround Qabs Lqa.
Local Open Scope nat_scope.

(** ** Spec *)
(** the value of doing a in s and obtaining V from the next state on *)
Definition lookahead (n : nat) (Ts : list mat) (R : nat -> Q) (g : Q) (V : nat -> Q) (s a : nat) : Q :=
  sigma n (fun s' => ent (nth a Ts []) s s' * (R s' + g * V s'))%Q.
(** V is the value function of the transition matrix, of the policy *)
Definition bellman (n : nat) (T : mat) (R : nat -> Q) (g : Q) (V : nat -> Q) : Prop :=
  forall s, s < n -> (V s == sigma n (fun s' => ent T s s' * (R s' + g * V s')))%Q.
Definition policy_value (n : nat) (Ts : list mat) (R : nat -> Q) (g : Q) (p : mat) (V : nat -> Q) : Prop :=
  forall s, s < n -> (V s == sigma (length Ts) (fun a => ent p s a * lookahead n Ts R g V s a))%Q.
(** a policy that chooses uniformly among the actions with the best look-ahead *)
Definition greedy_for (n : nat) (Ts : list mat) (R : nat -> Q) (g : Q) (V : nat -> Q) (p : mat) : Prop :=
  forall s, s < n -> uniform_row (length Ts) (ent p s) /\
    forall a, a < length Ts -> ((0 < ent p s a)%Q <-> maximising (length Ts) (lookahead n Ts R g V s) a).
(** no policy has a larger value in any state *)
Definition optimal (n : nat) (Ts : list mat) (R : nat -> Q) (g : Q) (p : mat) : Prop :=
  exists V, policy_value n Ts R g p V /\
    forall p' V', stochastic n (length Ts) p' -> policy_value n Ts R g p' V' -> forall s, s < n -> (V' s <= V s)%Q.

(** ** Values *)
Theorem C44_values n T R g : shape n n T -> length R = n ->
  ((1 <= g)%Q -> trueValues T R g = Err AssertionError) /\
  ((g < 1)%Q -> exists V, trueValues T R g = Ok V /\ length V = n /\ forall s, s < n -> (at_ V s == value n (ent T) (at_ R) g (Nat.max 1 (horizon g)) s)%Q).
Proof.
  intros HT HR. unfold trueValues. split; intros Hg.
  - now rewrite (proj2 (Qle_bool_iff 1 g) Hg).
  - destruct (Qle_bool 1 g) eqn:E; [apply Qle_bool_iff in E; lra |]. eexists. split; [reflexivity |]. split.
    + rewrite values_loop_length. unfold mat_vec. rewrite build_length. apply (shape_rows _ _ _ HT).
    + intros s Hs. rewrite (values_spec n) by auto. replace (S (horizon g - 1)) with (Nat.max 1 (horizon g)) by lia. reflexivity.
Qed.
(** the discounted sum: the value is the sum over the steps i of g^i times the expected reward after i+1 steps *)
Fixpoint expected (n : nat) (T : nat -> nat -> Q) (R : nat -> Q) (i : nat) (s : nat) : Q :=
  match i with 0 => sigma n (fun s' => T s s' * R s')%Q | S j => sigma n (fun s' => T s s' * expected n T R j s')%Q end.
Lemma value_sum n T R g : forall k s, (value n T R g k s == sigma k (fun i => qpow g i * expected n T R i s))%Q.
Proof.
  induction k as [| k IH]; intros s; cbn [value]; [reflexivity |]. rewrite sigma_head. cbn [qpow expected].
  rewrite (sigma_ext n _ (fun s' => (T s s' * R s' + g * (T s s' * value n T R g k s'))%Q)) by (intros; lra). rewrite sigma_plus, sigma_scale.
  assert (E : (sigma n (fun s' => T s s' * value n T R g k s') == sigma k (fun i => qpow g i * sigma n (fun s' => T s s' * expected n T R i s')))%Q).
  { rewrite (sigma_ext n _ (fun s' => sigma k (fun i => qpow g i * (T s s' * expected n T R i s'))%Q)).
    - rewrite sigma_swap. apply sigma_ext. intros. now rewrite sigma_scale.
    - intros s' _. rewrite (IH s'), <- sigma_scale. apply sigma_ext. intros. lra. }
  rewrite E, <- sigma_scale. rewrite (sigma_ext k (fun i => (g * (qpow g i * sigma n (fun s' => T s s' * expected n T R i s')))%Q) (fun i => (g * qpow g i * sigma n (fun s' => T s s' * expected n T R i s'))%Q)) by (intros; lra). lra.
Qed.
Theorem C44_discounted_sum n T R g V : shape n n T -> length R = n -> trueValues T R g = Ok V ->
  forall s, s < n -> (at_ V s == sigma (Nat.max 1 (horizon g)) (fun i => qpow g i * expected n (ent T) (at_ R) i s))%Q.
Proof.
  intros HT HR E s Hs. destruct (C44_values n T R g HT HR) as [A B]. destruct (Qlt_le_dec g 1) as [K | K].
  - destruct (B K) as (V' & E' & _ & H). assert (V' = V) by congruence. subst V'. rewrite (H s Hs). apply value_sum.
  - rewrite (A K) in E. discriminate.
Qed.
(** the distance to the exact values: g^horizon of the largest of them, at most a thousandth *)
Lemma value_error n T R g U B : (forall s, s < n -> stochastic_row n (T s)) -> (0 <= g)%Q ->
  (forall s, s < n -> (U s == sigma n (fun s' => T s s' * (R s' + g * U s')))%Q) -> (forall s, s < n -> (Qabs (U s) <= B)%Q) ->
  forall k s, s < n -> (Qabs (U s - value n T R g k s) <= qpow g k * B)%Q.
Proof.
  intros HT Hg HU HB. induction k as [| k IH]; intros s Hs; cbn [value qpow].
  - setoid_replace (U s - 0)%Q with (U s) by lra. specialize (HB s Hs). lra.
  - rewrite (HU s Hs). set (W := value n T R g k) in *.
    assert (E : (sigma n (fun s' => T s s' * (R s' + g * U s')) - sigma n (fun s' => T s s' * (R s' + g * W s')) == g * sigma n (fun s' => T s s' * (U s' - W s')))%Q).
    { rewrite <- sigma_scale. setoid_replace (sigma n (fun s' => T s s' * (R s' + g * U s'))%Q) with (sigma n (fun s' => T s s' * (R s' + g * W s') + g * (T s s' * (U s' - W s')))%Q) by (apply sigma_ext; intros; lra). rewrite sigma_plus. lra. }
    rewrite E. assert (IHU : forall s', s' < n -> (U s' - W s' <= qpow g k * B)%Q) by (intros; eapply Qle_trans; [apply Qle_Qabs | auto]).
    assert (IHL : forall s', s' < n -> (- (U s' - W s') <= qpow g k * B)%Q) by (intros; eapply Qle_trans; [apply Qle_Qabs | rewrite Qabs_opp; auto]).
    pose proof (average_le n (T s) (fun s' => (U s' - W s')%Q) _ (HT s Hs) IHU) as K1. pose proof (average_le n (T s) (fun s' => (- (U s' - W s'))%Q) _ (HT s Hs) IHL) as K2. cbn beta in K1, K2.
    assert (E2 : (sigma n (fun a => T s a * - (U a - W a)) == - sigma n (fun s' => T s s' * (U s' - W s')))%Q).
    { setoid_replace (- sigma n (fun s' => T s s' * (U s' - W s')))%Q with ((-1) * sigma n (fun s' => T s s' * (U s' - W s')))%Q by lra. rewrite <- sigma_scale. apply sigma_ext. intros. lra. }
    rewrite E2 in K2. set (x := sigma n (fun s' => T s s' * (U s' - W s'))%Q) in *. set (y := (qpow g k * B)%Q) in *.
    setoid_replace (g * qpow g k * B)%Q with (g * y)%Q by (unfold y; ring). clearbody x y. apply Qabs_Qle_condition. split; nra.
Qed.
Theorem C44_precision n T R g U B : shape n n T -> length R = n -> stochastic n n T -> (0 <= g)%Q -> (g < 1)%Q ->
  bellman n T (at_ R) g U -> (forall s, s < n -> (Qabs (U s) <= B)%Q) ->
  exists V, trueValues T R g = Ok V /\ forall s, s < n -> (Qabs (U s - at_ V s) <= qpow g (horizon g) * B)%Q /\ (Qabs (U s - at_ V s) <= B / 1024)%Q.
Proof.
  intros HT HR HS Hg0 Hg1 HU HB. destruct (proj2 (C44_values n T R g HT HR) Hg1) as (V & E & _ & HV). exists V. split; [auto |]. intros s Hs.
  destruct (horizon_small g Hg0 Hg1) as [H10 H1024]. replace (Nat.max 1 (horizon g)) with (horizon g) in HV by lia.
  assert (K : (Qabs (U s - at_ V s) <= qpow g (horizon g) * B)%Q) by (rewrite (HV s Hs); apply value_error; auto).
  split; [auto |]. eapply Qle_trans; [exact K |]. assert (0 <= B)%Q by (pose proof (HB s Hs); pose proof (Qabs_nonneg (U s)); lra). pose proof (qpow_nonneg g (horizon g) Hg0).
  setoid_replace (B / 1024)%Q with ((1 # 1024) * B)%Q by (field). nra.
Qed.
(** the "true" values are not the fixed point, even where everything is exact *)
Theorem C44_true_values_refuted : exists T R g U V, shape 1 1 T /\ stochastic 1 1 T /\ (g < 1)%Q /\ bellman 1 T (at_ R) g U /\ trueValues T R g = Ok V /\ ~ (at_ V 0 == U 0%nat)%Q.
Proof.
  exists [[1%Q]], [1%Q], (1 # 2)%Q, (fun _ => 2%Q). eexists. split; [split; [auto | repeat constructor] |].
  split; [intros s Hs; assert (s = 0) by lia; subst; split; [intros a Ha; assert (a = 0) by lia; subst; cbn; lra | vm_compute; reflexivity] |].
  split; [lra |]. split; [intros s Hs; assert (s = 0) by lia; subst; vm_compute; reflexivity |]. split; [vm_compute; reflexivity |]. vm_compute. discriminate.
Qed.

(** ** Collapsed transitions and state-action values *)
Theorem C44_collapsed n Ts policy : 0 < n -> Ts <> [] -> Forall (shape n n) Ts -> shape n (length Ts) policy ->
  exists T, collapsedTransitions Ts policy = Ok T /\ shape n n T /\
  (forall s s', s < n -> s' < n -> (ent T s s' == sigma (length Ts) (fun a => ent policy s a * ent (nth a Ts []) s s'))%Q) /\
  (Forall (stochastic n n) Ts -> stochastic n (length Ts) policy -> stochastic n n T).
Proof.
  intros Hn HT HS HP. destruct (collapsed_spec n Ts policy Hn HT HS HP) as (T & E & S & C). exists T. split; [auto |]. split; [auto |]. split; [exact C |].
  intros H1 H2. eapply collapsed_stochastic; eauto.
Qed.
Lemma v_next_at n V R g s : length V = n -> s < n -> (at_ (v_next V R g) s == at_ R s + g * at_ V s)%Q.
Proof. intros H Hs. unfold v_next. rewrite at_build by lia. lra. Qed.
Lemma dot_lookahead n Ts R g V s a : Forall (shape n n) Ts -> length V = n -> s < n -> a < length Ts ->
  (dot (nth s (nth a Ts []) []) (v_next V R g) == lookahead n Ts (at_ R) g (at_ V) s a)%Q.
Proof.
  intros HS HV Hs Ha. rewrite Forall_forall in HS. rewrite (dot_row n) by (auto; apply HS, nth_In; auto). apply sigma_ext. intros s' Hs'. rewrite (v_next_at n) by auto. reflexivity.
Qed.
Theorem C44_q_values n Ts R g policy : 0 < n -> Ts <> [] -> Forall (shape n n) Ts -> shape n (length Ts) policy -> length R = n -> (g < 1)%Q ->
  exists T V Qs, collapsedTransitions Ts policy = Ok T /\ trueValues T R g = Ok V /\ trueQValues Ts R g policy = Ok Qs /\ shape n (length Ts) Qs /\
  forall s a, s < n -> a < length Ts -> (ent Qs s a == lookahead n Ts (at_ R) g (at_ V) s a)%Q.
Proof.
  intros Hn HT HS HP HR Hg. destruct (collapsed_spec n Ts policy Hn HT HS HP) as (T & E & S & C). destruct (proj2 (C44_values n T R g S HR) Hg) as (V & EV & LV & _).
  exists T, V. eexists. split; [auto |]. split; [auto |]. unfold trueQValues. rewrite E. cbn [rbind]. rewrite EV. cbn [rbind]. split; [reflexivity |]. rewrite HR. split; [apply shape_build2 |].
  intros s a Hs Ha. rewrite ent_build2 by auto. now apply dot_lookahead.
Qed.

(** ** Greedy policies *)
Lemma maximising_ext k x y a : (forall b, b < k -> (x b == y b)%Q) -> a < k -> maximising k x a -> maximising k y a.
Proof. intros H Ha M b Hb. rewrite <- (H b Hb), <- (H a Ha). auto. Qed.
Theorem C44_greedy n Ts R g V : 0 < n -> Ts <> [] -> Forall (shape n n) Ts -> length V = n ->
  exists policy T, greedyPolicy Ts R g V = Ok (policy, T) /\ shape n (length Ts) policy /\ shape n n T /\ greedy_for n Ts (at_ R) g (at_ V) policy /\ collapse_of n Ts policy T.
Proof.
  intros Hn HT HS HV. assert (Hk : 0 < length Ts) by (destruct Ts; [congruence | cbn; lia]).
  set (f := fun si => greedy_row (length Ts) (map (fun T => dot (nth si T []) (v_next V R g)) Ts)).
  destruct (mapR_ok f (seq 0 (length V))) as (policy & E & F).
  { intros si _. unfold f. destruct (greedy_row_spec (length Ts) (map (fun T => dot (nth si T []) (v_next V R g)) Ts) Hk (map_length _ _)) as (r & Er & _). eauto. }
  assert (SP : shape n (length Ts) policy).
  { split; [apply Forall2_length' in F; rewrite seq_length in F; lia |]. clear - F Hk. revert F. generalize (seq 0 (length V)). intros l F. induction F as [| x y l l' H _ IH]; constructor; auto.
    unfold f in H. destruct (greedy_row_spec (length Ts) (map (fun T => dot (nth x T []) (v_next V R g)) Ts) Hk (map_length _ _)) as (r & Er & Lr & _). congruence. }
  destruct (collapsed_spec n Ts policy Hn HT HS SP) as (T & ET & ST & CT). exists policy, T. unfold greedyPolicy. fold f. rewrite E. cbn [rbind]. rewrite ET. cbn [rbind].
  split; [auto |]. split; [auto |]. split; [auto |]. split; [| auto]. intros s Hs. pose proof (Forall2_nth' _ _ _ F s 0 [] ltac:(rewrite seq_length; lia)) as K. rewrite seq_nth in K by lia. cbn [Nat.add] in K. unfold f in K.
  destruct (greedy_row_spec (length Ts) (map (fun T => dot (nth s T []) (v_next V R g)) Ts) Hk (map_length _ _)) as (r & Er & Lr & U & M). rewrite Er in K. injection K as K. unfold ent. rewrite <- K. split; [auto |].
  assert (EQ : forall b, b < length Ts -> (at_ (map (fun T0 => dot (nth s T0 []) (v_next V R g)) Ts) b == lookahead n Ts (at_ R) g (at_ V) s b)%Q).
  { intros b Hb. unfold at_ at 1. rewrite (nth_indep _ 0%Q (dot (nth s [] []) (v_next V R g))) by (rewrite map_length; auto). rewrite (map_nth (fun T0 => dot (nth s T0 []) (v_next V R g))). now apply dot_lookahead. }
  intros a Ha. rewrite (M a Ha). split; apply maximising_ext; auto. intros; symmetry; auto.
Qed.
Theorem C44_greedy_q Qs n k : shape n k Qs -> 0 < n -> 0 < k -> exists policy, greedyQPolicy Qs = Ok policy /\ shape n k policy /\
  forall s, s < n -> uniform_row k (ent policy s) /\ forall a, a < k -> ((0 < ent policy s a)%Q <-> maximising k (ent Qs s) a).
Proof.
  intros HS Hn Hk. unfold greedyQPolicy. destruct Qs as [| q0 Qs'] eqn:EQ; [destruct HS as [H _]; cbn in H; lia |]. rewrite <- EQ in *.
  assert (L0 : length q0 = k) by (destruct HS as [_ F]; rewrite EQ in F; now inversion F). rewrite L0.
  destruct (mapR_ok (fun q => greedy_row k q) Qs) as (policy & E & F).
  { intros q Hq. destruct HS as [_ FA]. rewrite Forall_forall in FA. destruct (greedy_row_spec k q Hk (FA q Hq)) as (r & Er & _). eauto. }
  exists policy. split; [auto |]. assert (LF := Forall2_length' _ _ _ F). destruct HS as [HL FA]. split.
  - split; [transitivity (length Qs); [symmetry; exact LF | exact HL] |]. clear - F FA Hk. induction F as [| x y l l' H _ IH]; [constructor |]. inversion FA; subst. constructor; [| auto]. destruct (greedy_row_spec (length x) x Hk eq_refl) as (r & Er & Lr & _). congruence.
  - intros s Hs. assert (HsL : s < length Qs) by (rewrite HL; auto). pose proof (Forall2_nth' _ _ _ F s [] [] HsL) as K. cbn beta in K. rewrite Forall_forall in FA. destruct (greedy_row_spec k (nth s Qs []) Hk) as (r & Er & Lr & U & M); [apply FA, nth_In; exact HsL |].
    assert (K' : Ok r = Ok (nth s policy [])) by (etransitivity; [symmetry; exact Er | exact K]). injection K' as K'. unfold ent. rewrite <- K'. auto.
Qed.
Theorem C44_random n Ts : 0 < n -> Ts <> [] -> Forall (shape n n) Ts -> exists policy T, randomPolicy Ts = Ok (policy, T) /\
  shape n (length Ts) policy /\ shape n n T /\ (forall s, s < n -> uniform_row (length Ts) (ent policy s)) /\ (forall s a, s < n -> a < length Ts -> (0 < ent policy s a)%Q) /\ collapse_of n Ts policy T.
Proof.
  intros Hn HT HS. unfold randomPolicy. destruct Ts as [| T0 Ts'] eqn:E; [congruence |]. rewrite <- E in *. assert (S0 : shape n n T0) by (rewrite E in HS; now inversion HS).
  rewrite (shape_rows _ _ _ S0), (shape_cols _ _ _ S0 Hn). set (k := length Ts). assert (Hk : 0 < k) by (unfold k; rewrite E; cbn; lia). set (c := inject_Z (Z.of_nat k)).
  assert (Hc : (0 < c)%Q) by (unfold c; change 0%Q with (inject_Z 0); rewrite <- Zlt_Qlt; lia). assert (Hp : (0 < 1 / c)%Q) by (apply Qlt_shift_div_l; lra).
  eexists; eexists; split; [reflexivity |]. split; [apply shape_build2 |]. split; [apply shape_build2 |]. split; [| split].
  - intros s Hs. split; [split |].
    + intros a Ha. rewrite ent_build2 by auto. lra.
    + rewrite (sigma_ext k _ (fun _ => (1 / c)%Q)) by (intros; rewrite ent_build2 by auto; reflexivity). rewrite sigma_const. fold c. field. lra.
    + intros a b Ha Hb. rewrite !ent_build2 by auto. reflexivity.
  - intros s a Hs Ha. rewrite ent_build2 by auto. auto.
  - intros s s' Hs Hs'. rewrite ent_build2 by auto. fold k. transitivity (sigma k (fun a => 1 / c * ent (nth a Ts []) s s'))%Q; [| apply sigma_ext; intros; rewrite ent_build2 by auto; reflexivity].
    rewrite sigma_scale. field. lra.
Qed.
Theorem C44_random_deterministic_refuted Ts choices : Ts <> [] -> choices <> [] -> randomDeterministic Ts choices = Err TypeError.
Proof. intros H1 H2. destruct Ts; [congruence |]. destruct choices; [congruence | reflexivity]. Qed.

(** ** Policy iteration *)
(** With any evaluator, what comes out is a policy and the transition matrix of a policy that differs from it by less than a thousandth. *)
Theorem C44_policy_iteration n Ts R g ev init m : 0 < n -> Ts <> [] -> Forall (shape n n) Ts ->
  (forall T, shape n n T -> exists V, ev T = Ok V /\ length V = n) ->
  (forall p, init = Some p -> shape n (length Ts) p /\ stochastic n (length Ts) p) ->
  exists policy T p', policyIteration Ts R g (Some ev) init m = Ok (policy, T) /\ shape n (length Ts) policy /\ stochastic n (length Ts) policy /\
    shape n (length Ts) p' /\ collapse_of n Ts p' T /\
    (p' = policy \/ (difference p' policy < 1 # 1000)%Q /\ exists T0 V, collapse_of n Ts policy T0 /\ ev T0 = Ok V /\ greedy_for n Ts (at_ R) g (at_ V) p').
Proof.
  intros Hn HT HS Hev Hinit. unfold policyIteration.
  assert (H0 : exists p0 T0, match init with None => randomPolicy Ts | Some p => let! T := collapsedTransitions Ts p in Ok (p, T) end = Ok (p0, T0) /\
    shape n (length Ts) p0 /\ stochastic n (length Ts) p0 /\ shape n n T0 /\ collapse_of n Ts p0 T0).
  { destruct init as [p |].
    - destruct (Hinit p eq_refl) as [A B]. destruct (collapsed_spec n Ts p Hn HT HS A) as (T & E & S & C). exists p, T. rewrite E. auto.
    - destruct (C44_random n Ts Hn HT HS) as (p & T & E & A & B & U & _ & C). exists p, T. repeat (split; auto); intros; apply U; auto. }
  destruct H0 as (p0 & T0 & -> & A & B & C & D). cbn [rbind fst snd]. clear Hinit init. revert p0 T0 A B C D. induction m as [| m IH]; intros p T A B C D; cbn [iterate].
  - exists p, T, p. repeat (split; auto).
  - destruct (Hev T C) as (V & EV & LV). rewrite EV. cbn [rbind]. destruct (C44_greedy n Ts R g V Hn HT HS LV) as (new & T' & EG & SN & ST & G & CN). rewrite EG. cbn [rbind fst snd].
    destruct (qltb (difference new p) (1 # 1000)) eqn:EQ.
    + exists p, T', new. unfold qltb in EQ. apply negb_true_iff in EQ. assert (difference new p < 1 # 1000)%Q by (apply Qnot_le_lt; intros K; apply Qle_bool_iff in K; congruence). repeat (split; auto). right. split; [auto |]. exists T, V. auto.
    + apply IH; auto. intros s Hs. apply (G s Hs).
Qed.

(** ** Optimality *)
Section Optimal.
Context (n : nat) (Ts : list mat) (R : vec) (g : Q).
Context (Hn : 0 < n) (HT : Ts <> []) (HS : Forall (shape n n) Ts) (HST : Forall (stochastic n n) Ts) (Hg0 : (0 <= g)%Q) (Hg1 : (g < 1)%Q).
Notation k := (length Ts).
Notation look := (lookahead n Ts (at_ R) g).

Lemma compare q V' V : stochastic n k q ->
  (forall s, s < n -> (V' s <= sigma k (fun a => ent q s a * look V' s a))%Q) ->
  (forall s, s < n -> (sigma k (fun a => ent q s a * look V s a) <= V s)%Q) -> forall s, s < n -> (V' s <= V s)%Q.
Proof.
  intros HQ H1 H2 s Hs. set (P := fun s s' => sigma k (fun a => ent q s a * ent (nth a Ts []) s s')%Q).
  assert (HP : forall s, s < n -> stochastic_row n (P s)).
  { assert (C : collapse_of n Ts q (build2 n n P)) by (intros x y Hx Hy; rewrite ent_build2 by auto; reflexivity). pose proof (collapsed_stochastic n Ts q _ HST HQ C) as K.
    intros x Hx. destruct (K x Hx) as [K0 K1]. split; [intros y Hy; specialize (K0 y Hy); rewrite ent_build2 in K0 by auto; auto |].
    rewrite <- K1. apply sigma_ext. intros y Hy. rewrite ent_build2 by auto. reflexivity. }
  assert (L : forall x, x < n -> (V' x - V x <= g * sigma n (fun y => P x y * (V' y - V y)))%Q).
  { intros x Hx. specialize (H1 x Hx). specialize (H2 x Hx).
    assert (E : (sigma k (fun a => ent q x a * look V' x a) == sigma k (fun a => ent q x a * look V x a) + g * sigma n (fun y => P x y * (V' y - V y)))%Q).
    { assert (EP : (sigma n (fun y => P x y * (V' y - V y)) == sigma k (fun a => ent q x a * sigma n (fun y => ent (nth a Ts []) x y * (V' y - V y))))%Q).
      { unfold P. rewrite (sigma_ext n _ (fun y => sigma k (fun a => ent q x a * (ent (nth a Ts []) x y * (V' y - V y)))%Q)).
        - rewrite sigma_swap. apply sigma_ext. intros. now rewrite sigma_scale.
        - intros y Hy. rewrite <- sigma_scale_r. apply sigma_ext. intros. lra. }
      rewrite EP, <- sigma_scale, <- sigma_plus. apply sigma_ext. intros a Ha. unfold lookahead.
      rewrite (sigma_ext n (fun s' => (ent (nth a Ts []) x s' * (at_ R s' + g * V' s'))%Q) (fun s' => (ent (nth a Ts []) x s' * (at_ R s' + g * V s') + g * (ent (nth a Ts []) x s' * (V' s' - V s')))%Q)) by (intros; lra).
      rewrite sigma_plus, sigma_scale. lra. }
    rewrite E in H1. lra. }
  pose proof (contraction n P g (fun x => (V' x - V x)%Q) HP Hg0 Hg1 L s Hs) as K. cbn beta in K. lra.
Qed.
Lemma value_unique q V V' : stochastic n k q -> policy_value n Ts (at_ R) g q V -> policy_value n Ts (at_ R) g q V' -> forall s, s < n -> (V s == V' s)%Q.
Proof.
  intros HQ H1 H2 s Hs. apply Qle_antisym; apply (compare q); auto; intros x Hx; first [rewrite (H1 x Hx) at 1 | rewrite (H2 x Hx) at 1]; try apply Qle_refl.
Qed.
Lemma greedy_average V p q s : greedy_for n Ts (at_ R) g V p -> stochastic n k q -> s < n ->
  (sigma k (fun a => ent q s a * look V s a) <= sigma k (fun a => ent p s a * look V s a))%Q.
Proof.
  intros G HQ Hs. destruct (G s Hs) as [[[P0 P1] _] M]. destruct (sigma_pos_ex k (ent p s)) as (b & Hb & Pb); [lra |]. pose proof (proj1 (M b Hb) Pb) as Mb.
  apply Qle_trans with (look V s b); [apply average_le; auto |].
  rewrite (sigma_ext k (fun a => (ent p s a * look V s a)%Q) (fun a => (ent p s a * look V s b)%Q)); [rewrite sigma_scale_r, P1; lra |].
  intros a Ha. destruct (Qlt_le_dec 0 (ent p s a)) as [K | K]; [| specialize (P0 a Ha); assert (E : (ent p s a == 0)%Q) by lra; rewrite E; lra].
  pose proof (proj1 (M a Ha) K b Hb). pose proof (Mb a Ha). assert (E : (look V s a == look V s b)%Q) by lra. rewrite E. reflexivity.
Qed.
Lemma greedy_stochastic V p : greedy_for n Ts (at_ R) g V p -> stochastic n k p.
Proof. intros G s Hs. apply (G s Hs). Qed.
(** A policy that is greedy for its own value function is optimal. *)
Theorem C44_stable_optimal p V : policy_value n Ts (at_ R) g p V -> greedy_for n Ts (at_ R) g V p -> optimal n Ts (at_ R) g p.
Proof.
  intros HV G. exists V. split; [auto |]. intros p' V' HP' HV' s Hs. apply (compare p'); auto.
  - intros x Hx. rewrite (HV' x Hx) at 1. apply Qle_refl.
  - intros x Hx. rewrite (HV x Hx). now apply greedy_average.
Qed.
(** Acting greedily does not lose anything in any state. *)
Theorem C44_improvement p V p' V' : stochastic n k p -> policy_value n Ts (at_ R) g p V -> greedy_for n Ts (at_ R) g V p' -> policy_value n Ts (at_ R) g p' V' ->
  forall s, s < n -> (V s <= V' s)%Q.
Proof.
  intros HP HV G HV' s Hs. apply (compare p'); auto; [eapply greedy_stochastic; eauto | |].
  - intros x Hx. rewrite (HV x Hx) at 1. now apply greedy_average.
  - intros x Hx. rewrite (HV' x Hx). apply Qle_refl.
Qed.

Lemma collapse_value p T V : collapse_of n Ts p T -> bellman n T (at_ R) g V <-> policy_value n Ts (at_ R) g p V.
Proof.
  intros C. assert (E : forall s, s < n -> (sigma n (fun s' => ent T s s' * (at_ R s' + g * V s')) == sigma k (fun a => ent p s a * look V s a))%Q).
  { intros s Hs. unfold lookahead. rewrite (sigma_ext n _ (fun s' => sigma k (fun a => ent p s a * (ent (nth a Ts []) s s' * (at_ R s' + g * V s')))%Q)).
    - rewrite sigma_swap. apply sigma_ext. intros. now rewrite sigma_scale.
    - intros s' Hs'. unfold collapse_of in C. rewrite (C s s' Hs Hs'), <- sigma_scale_r. apply sigma_ext. intros. lra. }
  split; intros H s Hs; [rewrite <- (E s Hs) | rewrite (E s Hs)]; apply H; auto.
Qed.

(** supports *)
Definition support (p : mat) : list (list bool) := map (fun s => map (fun a => qltb 0 (ent p s a)) (seq 0 k)) (seq 0 n).
Fixpoint tuples {A} (l : list A) (m : nat) : list (list A) := match m with 0 => [[]] | S j => flat_map (fun x => map (cons x) (tuples l j)) l end.
Lemma tuples_In {A} (l : list A) m : forall x, length x = m -> Forall (fun y => In y l) x -> In x (tuples l m).
Proof.
  induction m as [| m IH]; intros x Hx F; cbn [tuples]; [destruct x; [left; auto | discriminate] |]. destruct x as [| y x]; [discriminate |]. inversion F; subst. apply in_flat_map. exists y. split; [auto |]. apply in_map. apply IH; auto.
Qed.
Definition all_supports : list (list (list bool)) := tuples (tuples [true; false] k) n.
Lemma support_all p : In (support p) all_supports.
Proof.
  apply tuples_In; [unfold support; now rewrite map_length, seq_length |]. apply Forall_map, Forall_forall. intros s _. apply tuples_In; [now rewrite map_length, seq_length |].
  apply Forall_map, Forall_forall. intros a _. destruct (qltb 0 (ent p s a)); cbn; auto.
Qed.
Lemma qltb_pos x : qltb 0 x = true <-> (0 < x)%Q.
Proof. unfold qltb. rewrite negb_true_iff. split; [intros H; apply Qnot_le_lt; intros K; apply Qle_bool_iff in K; congruence | intros H; apply Bool.not_true_iff_false; rewrite Qle_bool_iff; lra]. Qed.
Definition uniform_policy (p : mat) : Prop := forall s, s < n -> uniform_row k (ent p s).
Definition same (p q : mat) : Prop := forall s a, s < n -> a < k -> (ent p s a == ent q s a)%Q.
Lemma support_same p q : uniform_policy p -> uniform_policy q -> support p = support q -> same p q.
Proof.
  intros UP UQ E s a Hs Ha. apply (uniform_same k (ent p s) (ent q s)); auto. intros b Hb. unfold support in E.
  pose proof (ext_in_map E s ltac:(apply in_seq; lia)) as E1. cbn beta in E1. pose proof (ext_in_map E1 b ltac:(apply in_seq; lia)) as E2. cbn beta in E2. rewrite <- !qltb_pos, E2. reflexivity.
Qed.
Lemma same_value p q V : same p q -> policy_value n Ts (at_ R) g p V -> policy_value n Ts (at_ R) g q V.
Proof. intros S H s Hs. rewrite (H s Hs) at 1. apply sigma_ext. intros a Ha. rewrite (S s a Hs Ha). reflexivity. Qed.
Lemma same_collapse p q T : same p q -> collapse_of n Ts p T -> collapse_of n Ts q T.
Proof. intros S H s s' Hs Hs'. unfold collapse_of in H. rewrite (H s s' Hs Hs'). apply sigma_ext. intros a Ha. rewrite (S s a Hs Ha). reflexivity. Qed.
Lemma same_greedy p q V : same p q -> uniform_policy q -> greedy_for n Ts (at_ R) g V p -> greedy_for n Ts (at_ R) g V q.
Proof. intros S U G s Hs. split; [auto |]. intros a Ha. rewrite <- (S s a Hs Ha). apply (G s Hs). auto. Qed.
Lemma difference_same p q : k <= 1000 -> shape n k p -> uniform_policy p -> uniform_policy q -> (difference p q < 1 # 1000)%Q -> same p q.
Proof.
  intros Hk SP UP UQ HD s a Hs Ha. apply (uniform_same k (ent p s) (ent q s)); auto. intros b Hb. apply (uniform_close k); auto. unfold difference in HD. rewrite (shape_rows _ _ _ SP), (shape_cols _ _ _ SP Hn) in HD.
  eapply Qle_lt_trans; [| exact HD]. apply (sigma_member n (fun s => sigma k (fun a => Qabs (ent p s a - ent q s a))) s Hs). intros. apply sigma_nonneg. intros. apply Qabs_nonneg.
Qed.
Lemma same_difference p q : shape n k p -> same p q -> (difference p q == 0)%Q.
Proof.
  intros SP S. unfold difference. rewrite (shape_rows _ _ _ SP), (shape_cols _ _ _ SP Hn). rewrite <- (sigma_zero n). apply sigma_ext. intros s Hs. rewrite <- (sigma_zero k). apply sigma_ext. intros a Ha.
  rewrite (S s a Hs Ha). setoid_replace (ent q s a - ent q s a)%Q with 0%Q by lra. reflexivity.
Qed.

Context (ev : mat -> result vec) (Hk : k <= 1000).
Context (Hev : forall T, shape n n T -> stochastic n n T -> exists V, ev T = Ok V /\ length V = n /\ bellman n T (at_ R) g (at_ V)).
Definition sound (p T : mat) : Prop := shape n k p /\ uniform_policy p /\ shape n n T /\ collapse_of n Ts p T.
Lemma sound_stochastic p T : sound p T -> stochastic n k p.
Proof. intros (_ & U & _) s Hs. apply (U s Hs). Qed.
Lemma sound_step p T : sound p T -> exists V new T', ev T = Ok V /\ policy_value n Ts (at_ R) g p (at_ V) /\
  greedyPolicy Ts R g V = Ok (new, T') /\ sound new T' /\ greedy_for n Ts (at_ R) g (at_ V) new.
Proof.
  intros Hs. pose proof (sound_stochastic p T Hs) as HP. destruct Hs as (SP & UP & ST & C). destruct (Hev T ST) as (V & E & L & B); [eapply collapsed_stochastic; eauto |].
  destruct (C44_greedy n Ts R g V Hn HT HS L) as (new & T' & EG & SN & ST' & G & CN). exists V, new, T'. split; [auto |]. split; [now apply (collapse_value p T) |]. split; [auto |]. split; [| auto].
  split; [auto |]. split; [intros s Hs; apply (G s Hs) |]. auto.
Qed.
Lemma stop p T V new T' : sound p T -> policy_value n Ts (at_ R) g p (at_ V) -> sound new T' -> greedy_for n Ts (at_ R) g (at_ V) new -> (difference new p < 1 # 1000)%Q ->
  optimal n Ts (at_ R) g p /\ collapse_of n Ts p T'.
Proof.
  intros (SP & UP & ST & C) HV (SN & UN & ST' & C') G HD. assert (S := difference_same new p Hk SN UN UP HD). split.
  - eapply C44_stable_optimal; eauto. eapply same_greedy; eauto.
  - eapply same_collapse; eauto.
Qed.
Lemma iterate_optimal : forall m p T L, sound p T -> NoDup L -> incl L all_supports ->
  (forall V p' V', policy_value n Ts (at_ R) g p V -> uniform_policy p' -> In (support p') L -> policy_value n Ts (at_ R) g p' V' -> forall s, s < n -> (V' s <= V s)%Q) ->
  length all_supports + 2 <= m + length L ->
  exists p' T', iterate Ts R g ev m p T = Ok (p', T') /\ optimal n Ts (at_ R) g p' /\ collapse_of n Ts p' T'.
Proof.
  induction m as [| m IH]; intros p T L HSo ND IN INV HM.
  { pose proof (NoDup_incl_length ND IN). lia. }
  cbn [iterate]. destruct (sound_step p T HSo) as (V & new & T' & EV & PV & EG & SN & G). rewrite EV. cbn [rbind]. rewrite EG. cbn [rbind fst snd].
  destruct (qltb (difference new p) (1 # 1000)) eqn:EQ.
  { assert (difference new p < 1 # 1000)%Q. { unfold qltb in EQ. apply negb_true_iff in EQ. apply Qnot_le_lt. intros K. apply Qle_bool_iff in K. congruence. }
    exists p, T'. split; [auto |]. eapply stop; eauto. }
  clear EQ. destruct (sound_step new T' SN) as (V2 & new2 & T2 & EV2 & PV2 & EG2 & SN2 & G2).
  pose proof (C44_improvement p (at_ V) new (at_ V2) (sound_stochastic _ _ HSo) PV G PV2) as IMP.
  destruct (forallb (fun s => Qle_bool (at_ V2 s) (at_ V s)) (seq 0 n)) eqn:EF.
  - rewrite forallb_forall in EF. assert (EQV : forall s, s < n -> (at_ V s == at_ V2 s)%Q). { intros s Hs. apply Qle_antisym; [auto |]. apply Qle_bool_iff. apply EF. apply in_seq. lia. }
    destruct m as [| m]; [pose proof (NoDup_incl_length ND IN); lia |]. cbn [iterate]. rewrite EV2. cbn [rbind]. rewrite EG2. cbn [rbind fst snd].
    assert (ELook : forall s a, s < n -> a < k -> (look (at_ V2) s a == look (at_ V) s a)%Q) by (intros s a Hs Ha; apply sigma_ext; intros s' Hs'; rewrite (EQV s' Hs'); reflexivity).
    assert (SM : same new2 new).
    { destruct SN as (_ & UN & _). destruct SN2 as (_ & UN2 & _). intros s a Hs Ha. apply (uniform_same k (ent new2 s) (ent new s)); auto. intros b Hb.
      rewrite (proj2 (G s Hs) b Hb), (proj2 (G2 s Hs) b Hb). split; apply maximising_ext; auto; intros; first [apply ELook; auto | symmetry; apply ELook; auto]. }
    assert (D0 := same_difference new2 new (proj1 SN2) SM). assert (DL : (difference new2 new < 1 # 1000)%Q) by (rewrite D0; reflexivity).
    replace (qltb (difference new2 new) (1 # 1000)) with true by (symmetry; unfold qltb; apply negb_true_iff, Bool.not_true_iff_false; rewrite Qle_bool_iff; lra).
    exists new, T2. split; [auto |]. eapply stop; eauto.
  - assert (ST : exists s, s < n /\ (at_ V s < at_ V2 s)%Q).
    { apply Bool.not_true_iff_false in EF. destruct (Forall_Exists_dec (fun s => (at_ V2 s <= at_ V s)%Q) ltac:(intros x; destruct (Qlt_le_dec (at_ V x) (at_ V2 x)); [right; lra | left; auto]) (seq 0 n)) as [F | F].
      - exfalso. apply EF. apply forallb_forall. intros x Hx. apply Qle_bool_iff. rewrite Forall_forall in F. auto.
      - apply Exists_exists in F as (x & Hx & Hlt). exists x. apply in_seq in Hx. split; [lia |]. lra. }
    destruct ST as (s0 & Hs0 & Hlt). assert (UN : uniform_policy new) by apply SN.
    assert (NI : ~ In (support new) L). { intros K. pose proof (INV (at_ V) new (at_ V2) PV UN K PV2 s0 Hs0). lra. }
    apply (IH new T' (support new :: L)); auto.
    + constructor; auto.
    + intros x [<- | Hx]; [apply support_all | auto].
    + intros W p' V' HW UP' HI HV' s Hs. destruct HI as [E | HI].
      * assert (S := support_same p' new UP' UN (eq_sym E)). pose proof (same_value p' new V' S HV') as HV2. rewrite (value_unique new V' W (sound_stochastic _ _ SN) HV2 HW s Hs). apply Qle_refl.
      * apply Qle_trans with (at_ V s); [eapply INV; eauto |]. eapply C44_improvement; eauto. eapply sound_stochastic; eauto.
    + cbn [length]. lia.
Qed.
(** With an evaluator that returns the exact value function of the policy and with enough iterations, policy iteration returns an
    optimal policy together with its transition matrix. *)
Theorem C44_policy_iteration_optimal init : (forall p, init = Some p -> shape n k p /\ uniform_policy p) ->
  exists N, forall m, N <= m -> exists p T, policyIteration Ts R g (Some ev) init m = Ok (p, T) /\ optimal n Ts (at_ R) g p /\ collapse_of n Ts p T.
Proof.
  intros Hinit. exists (length all_supports + 2). intros m Hm. unfold policyIteration.
  assert (H0 : exists p0 T0, match init with None => randomPolicy Ts | Some p => let! T := collapsedTransitions Ts p in Ok (p, T) end = Ok (p0, T0) /\ sound p0 T0).
  { destruct init as [p |].
    - destruct (Hinit p eq_refl) as [A B]. destruct (collapsed_spec n Ts p Hn HT HS A) as (T & E & S & C). exists p, T. rewrite E. repeat (split; auto).
    - destruct (C44_random n Ts Hn HT HS) as (p & T & E & A & B & U & _ & C). exists p, T. repeat (split; auto). }
  destruct H0 as (p0 & T0 & -> & Hs). cbn [rbind fst snd]. apply (iterate_optimal m p0 T0 []); auto; [constructor | intros x [] | intros V p' V' _ _ [] | cbn [length]; lia].
Qed.
End Optimal.

(** ** Cases *)
(** two states: the exact evaluator by Cramer's rule *)
Definition solve2 (R : vec) (g : Q) (T : mat) : result vec :=
  let a := ent T 0 0 in let b := ent T 0 1 in let c := ent T 1 0 in let d := ent T 1 1 in
  let u := (a * at_ R 0 + b * at_ R 1)%Q in let w := (c * at_ R 0 + d * at_ R 1)%Q in
  let det := ((1 - g * a) * (1 - g * d) - g * b * (g * c))%Q in
  Ok [((1 - g * d) * u + g * b * w) / det; (g * c * u + (1 - g * a) * w) / det]%Q.
Example C44_exact_evaluator R g T : (0 <= g)%Q -> (g < 1)%Q -> stochastic 2 2 T ->
  exists V, solve2 R g T = Ok V /\ length V = 2 /\ bellman 2 T (at_ R) g (at_ V).
Proof.
  intros Hg0 Hg1 HT. eexists. split; [reflexivity |]. split; [reflexivity |]. destruct (HT 0 ltac:(lia)) as [P0 P1]. destruct (HT 1 ltac:(lia)) as [Q0 Q1]. cbn [sigma] in P1, Q1.
  pose proof (P0 0 ltac:(lia)). pose proof (P0 1 ltac:(lia)). pose proof (Q0 0 ltac:(lia)). pose proof (Q0 1 ltac:(lia)). clear P0 Q0 HT.
  set (a := ent T 0 0) in *. set (b := ent T 0 1) in *. set (c := ent T 1 0) in *. set (d := ent T 1 1) in *.
  assert (Hb : (b == 1 - a)%Q) by lra. assert (Hc : (c == 1 - d)%Q) by lra.
  assert (Hdet : ((1 - g * a) * (1 - g * d) - g * b * (g * c) == (1 - g) * (1 - g * (a + d - 1)))%Q) by (rewrite Hb, Hc; ring).
  assert (HN : ~ ((1 - g * a) * (1 - g * d) - g * b * (g * c) == 0)%Q).
  { rewrite Hdet. assert (0 < (1 - g) * (1 - g * (a + d - 1)))%Q; [| lra]. apply Qmult_lt_0_compat; [lra |]. nra. }
  intros s Hs. destruct s as [| [| s]]; [| | lia]; cbn [sigma]; fold a b c d; clearbody a b c d; cbn [at_ nth]; field; exact HN.
Qed.
Definition stay : mat := [[1; 0]; [0; 1]]%Q.
Definition switch : mat := [[0; 1]; [1; 0]]%Q.
Lemma two_rows (m : mat) k : (forall a, a < k -> (0 <= ent m 0 a)%Q /\ (0 <= ent m 1 a)%Q) -> (sigma k (ent m 0) == 1)%Q -> (sigma k (ent m 1) == 1)%Q -> stochastic 2 k m.
Proof. intros H E0 E1 s Hs. destruct s as [| [| s]]; [split; [intros; apply H; auto | auto] | split; [intros; apply H; auto | auto] | lia]. Qed.
Example C44_two_states : Forall (shape 2 2) [stay; switch] /\ Forall (stochastic 2 2) [stay; switch] /\
  policyIteration [stay; switch] [0; 1]%Q (1 # 2) (Some (solve2 [0; 1]%Q (1 # 2))) None 20 = Ok ([[0; 1]; [1; 0]]%Q, [[0; 1]; [0; 1]]%Q).
Proof.
  split; [repeat constructor |]. split; [| vm_compute; reflexivity].
  apply Forall_cons; [| apply Forall_cons; [| apply Forall_nil]]; (apply two_rows; [intros [| [| a]] Ha; [cbn; lra | cbn; lra | lia] | reflexivity | reflexivity]).
Qed.
Example C44_values_case : exists V, trueValues [[0; 1]; [1 # 2; 1 # 2]]%Q [1; 0]%Q 0 = Ok V /\ (at_ V 0 == 0)%Q /\ (at_ V 1 == 1 # 2)%Q.
Proof. eexists. split; [vm_compute; reflexivity |]. split; vm_compute; reflexivity. Qed.

Print Assumptions C44_values. Print Assumptions C44_discounted_sum. Print Assumptions C44_precision. Print Assumptions C44_true_values_refuted.
Print Assumptions C44_collapsed. Print Assumptions C44_q_values. Print Assumptions C44_greedy. Print Assumptions C44_greedy_q. Print Assumptions C44_random.
Print Assumptions C44_random_deterministic_refuted. Print Assumptions C44_policy_iteration. Print Assumptions C44_stable_optimal. Print Assumptions C44_improvement.
Print Assumptions C44_policy_iteration_optimal.
