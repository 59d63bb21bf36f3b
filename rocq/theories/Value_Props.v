(** Property C39: tabular Q-learning, SARSA and Q(lambda). *)
From Verif Require Import Base Value_Model.
From Coq Require Import QArith Qround Lqa.
Local Open Scope nat_scope.

(** ** Spec *)
Definition val (t : table) (s a : nat) : Q := nth (s * t_cols t + a) (t_vals t) 0%Q.
Definition shaped (t : table) : Prop := length (t_vals t) = t_rows t * t_cols t.
(** consecutive steps of an episode *)
Definition pairs (ep : list step) : list (step * step) := combine ep (tl ep).
Inductive kind := KQ | KSarsa.
Definition greatest (q : nat -> nat -> Q) (cols s : nat) (m : Q) : Prop :=
  (exists b, b < cols /\ q s b = m) /\ forall b, b < cols -> (q s b <= m)%Q.
(** one temporal-difference update with learning rate alpha for a pair of steps *)
Definition td (kd : kind) (gamma : Q) (rows cols : nat) (alpha : Q) (tr : step * step) (q q' : nat -> nat -> Q) : Prop :=
  let '((s, a, r), (s', a', _)) := tr in
  s < rows /\ a < cols /\ s' < rows /\
  (exists m, match kd with KQ => greatest q cols s' m | KSarsa => a' < cols /\ m = q s' a' end /\
             (q' s a == (1 - alpha) * q s a + alpha * (r + gamma * m))%Q) /\
  forall x y, x < rows -> y < cols -> (x, y) <> (s, a) -> q' x y = q x y.
Inductive td_run (kd : kind) (gamma : Q) (rows cols : nat) : list (Q * (step * step)) -> (nat -> nat -> Q) -> (nat -> nat -> Q) -> Prop :=
| td_nil : forall q, td_run kd gamma rows cols [] q q
| td_cons : forall alpha tr l q q1 q2, td kd gamma rows cols alpha tr q q1 -> td_run kd gamma rows cols l q1 q2 -> td_run kd gamma rows cols ((alpha, tr) :: l) q q2.
Definition next_of (kd : kind) (draw : nat -> nat) := match kd with KQ => next_q draw | KSarsa => next_sarsa end.
Fixpoint qpow (q : Q) (n : nat) : Q := match n with O => 1%Q | S k => (qpow q k * q)%Q end.

(** ** Lemmas *)
Lemma getValue_spec t s a q : getValue t s a = Ok q -> s < t_rows t /\ a < t_cols t /\ val t s a = q.
Proof.
  unfold getValue. destruct (Nat.ltb_spec s (t_rows t)); [| discriminate]. destruct (Nat.ltb_spec a (t_cols t)); [| discriminate]. cbn [andb]. destruct (nth_error _ _) eqn:E; [| discriminate]. intros [= <-].
  split; [auto |]. split; [auto |]. unfold val. now apply nth_error_nth.
Qed.
Lemma index_lt r c s a : s < r -> a < c -> s * c + a < r * c.
Proof. intros. nia. Qed.
Lemma index_inj c s a s' a' : a < c -> a' < c -> s * c + a = s' * c + a' -> s = s' /\ a = a'.
Proof.
  intros Ha Ha' E. assert (s = s'); [| subst; lia]. assert (A : (s * c + a) / c = s) by (rewrite Nat.div_add_l by lia; rewrite Nat.div_small by lia; lia).
  assert (B : (s' * c + a') / c = s') by (rewrite Nat.div_add_l by lia; rewrite Nat.div_small by lia; lia). rewrite E in A. lia.
Qed.
Lemma getValue_ok t s a : shaped t -> s < t_rows t -> a < t_cols t -> getValue t s a = Ok (val t s a).
Proof.
  intros S Hs Ha. unfold getValue. rewrite (proj2 (Nat.ltb_lt _ _) Hs), (proj2 (Nat.ltb_lt _ _) Ha). cbn [andb]. destruct (nth_error _ _) as [q|] eqn:E; [unfold val; now rewrite (nth_error_nth _ _ _ E) |].
  apply nth_error_None in E. pose proof (index_lt _ _ _ _ Hs Ha). unfold shaped in S. lia.
Qed.
Lemma updateValue_spec t s a v t' : shaped t -> updateValue t s a v = Ok t' ->
  shaped t' /\ t_rows t' = t_rows t /\ t_cols t' = t_cols t /\ s < t_rows t /\ a < t_cols t /\ val t' s a = v /\
  forall x y, x < t_rows t -> y < t_cols t -> (x, y) <> (s, a) -> val t' x y = val t x y.
Proof.
  unfold updateValue. intros S H. destruct (Nat.ltb_spec s (t_rows t)) as [Hs|]; [| discriminate]. destruct (Nat.ltb_spec a (t_cols t)) as [Ha|]; [| discriminate]. cbn [andb] in H. injection H as <-. unfold shaped, val in *. cbn [t_rows t_cols t_vals].
  rewrite upd_length. pose proof (index_lt _ _ _ _ Hs Ha). do 5 (split; [auto |]). split; [apply nth_error_nth, nth_error_upd_eq; lia |].
  intros x y Hx Hy Hn. assert (E : nth_error (upd (s * t_cols t + a) v (t_vals t)) (x * t_cols t + y) = nth_error (t_vals t) (x * t_cols t + y)).
  { apply nth_error_upd_neq. intros E. apply index_inj in E as [-> ->]; auto. }
  pose proof (index_lt _ _ _ _ Hx Hy). destruct (nth_error (t_vals t) (x * t_cols t + y)) eqn:EN; [rewrite (nth_error_nth _ _ _ EN), (nth_error_nth _ _ _ E); auto |]. apply nth_error_None in EN. lia.
Qed.
Lemma updateValue_ok t s a v : s < t_rows t -> a < t_cols t -> exists t', updateValue t s a v = Ok t'.
Proof. intros Hs Ha. unfold updateValue. rewrite (proj2 (Nat.ltb_lt _ _) Hs), (proj2 (Nat.ltb_lt _ _) Ha). cbn [andb]. eauto. Qed.
Lemma qmax_spec : forall l x, In (qmax x l) (x :: l) /\ forall y, In y (x :: l) -> (y <= qmax x l)%Q.
Proof.
  unfold qmax. induction l as [|z l IH]; intros x; cbn [fold_left]; [split; [left; auto | intros y [-> | []]; lra] |].
  destruct (Qle_bool z x) eqn:E.
  - apply Qle_bool_iff in E. destruct (IH x) as [A B]. split; [destruct A as [A | A]; [left; auto | right; right; auto] |]. intros y [-> | [-> | Hy]]; [apply B; left; auto | pose proof (B x ltac:(left; auto)); lra | apply B; right; auto].
  - assert (x < z)%Q by (apply Qnot_le_lt; intros K; apply Qle_bool_iff in K; congruence). destruct (IH z) as [A B]. split; [destruct A as [A | A]; [right; left; auto | right; right; auto] |].
    intros y [-> | [-> | Hy]]; [pose proof (B z ltac:(left; auto)); lra | apply B; left; auto | apply B; right; auto].
Qed.
Lemma where_eq_spec m : forall l i x, In x (where_eq m i l) <-> exists j, j < length l /\ x = i + j /\ (nth j l 0 == m)%Q.
Proof.
  induction l as [|y l IH]; intros i x; cbn [where_eq length].
  - split; [intros [] | intros (j & H & _); lia].
  - assert (R : In x (where_eq m (i + 1) l) <-> exists j, S j < S (length l) /\ x = i + S j /\ (nth (S j) (y :: l) 0 == m)%Q).
    { rewrite IH. split; intros (j & A & B & C); exists j; repeat split; auto; lia. }
    destruct (Qeq_bool y m) eqn:E; cbn [In]; rewrite R; split.
    + intros [<- | (j & H)]; [exists 0; repeat split; [lia | lia | apply Qeq_bool_iff; auto] | exists (S j); auto].
    + intros ([|j] & A & B & C); [left; lia | right; exists j; auto].
    + intros (j & H). exists (S j); auto.
    + intros ([|j] & A & B & C); [exfalso; apply Qeq_bool_iff in C; cbn in C; congruence | exists j; auto].
Qed.
Lemma row_nth t s b : shaped t -> s < t_rows t -> b < t_cols t -> nth b (slice (s * t_cols t) (s * t_cols t + t_cols t) (t_vals t)) 0%Q = val t s b.
Proof.
  intros S Hs Hb. unfold slice, val. pose proof (index_lt _ _ _ _ Hs Hb). unfold shaped in S.
  assert (E : nth_error (skipn (s * t_cols t) (firstn (s * t_cols t + t_cols t) (t_vals t))) b = nth_error (t_vals t) (s * t_cols t + b)).
  { assert (SK : forall (l : list Q) n k, nth_error (skipn n l) k = nth_error l (n + k)) by (clear; induction l as [|x l IH]; intros [|n] k; cbn; auto; destruct k; auto).
    assert (FS : forall (l : list Q) n k, k < n -> nth_error (firstn n l) k = nth_error l k) by (clear; induction l as [|x l IH]; intros [|n] [|k] H; cbn; auto; try lia; apply IH; lia).
    rewrite SK, FS; [auto | lia]. }
  destruct (nth_error (t_vals t) (s * t_cols t + b)) eqn:EN; [rewrite (nth_error_nth _ _ _ EN), (nth_error_nth _ _ _ E); auto |]. apply nth_error_None in EN. lia.
Qed.
Lemma row_length t s : shaped t -> s < t_rows t -> length (slice (s * t_cols t) (s * t_cols t + t_cols t) (t_vals t)) = t_cols t.
Proof. intros S Hs. unfold slice. rewrite skipn_length, firstn_length. unfold shaped in S. assert ((s + 1) * t_cols t <= t_rows t * t_cols t) by (apply Nat.mul_le_mono_r; lia). lia. Qed.
Lemma getMaxAction_spec t s d : shaped t -> s < t_rows t -> 0 < t_cols t -> exists b, getMaxAction t s d = Ok b /\ b < t_cols t /\ exists m, (val t s b == m)%Q /\ greatest (val t) (t_cols t) s m.
Proof.
  intros S Hs Hc. unfold getMaxAction, getActionValues. rewrite (proj2 (Nat.ltb_lt _ _) Hs). cbn [rbind]. pose proof (row_length t s S Hs) as L. pose proof (fun b => row_nth t s b S Hs) as N.
  destruct (slice _ _ _) as [|x l]; [cbn in L; lia |]. destruct (qmax_spec l x) as [M1 M2]. set (m := qmax x l) in *.
  destruct (In_nth _ _ 0%Q M1) as (j & J1 & J2). rewrite L in J1. assert (IW : In j (where_eq m 0 (x :: l))) by (apply where_eq_spec; exists j; split; [rewrite L; auto | split; [auto | rewrite J2; reflexivity]]).
  set (best := where_eq m 0 (x :: l)) in *. eexists. split; [reflexivity |]. assert (LB : length best <> 0) by (destruct best; [destruct IW | discriminate]).
  assert (IB : In (nth (d mod length best) best 0) best) by (apply nth_In, Nat.mod_upper_bound; auto). apply where_eq_spec in IB as (b & B1 & B2 & B3). cbn [Nat.add] in B2. rewrite B2, L in *.
  split; [auto |]. exists m. rewrite <- (N b B1). split; [auto |]. split; [exists j; split; [auto | rewrite <- (N j J1); auto] |].
  intros c Hc'. rewrite <- (N c Hc'). apply M2, nth_In. lia.
Qed.
Lemma next_spec kd draw k t s a v : shaped t -> next_of kd draw k t s a = Ok v -> s < t_rows t /\ exists m, (v == m)%Q /\ match kd with KQ => greatest (val t) (t_cols t) s m | KSarsa => a < t_cols t /\ m = val t s a end.
Proof.
  intros S H. destruct kd; cbn in H.
  - unfold next_q in H. destruct (getMaxAction t s (draw k)) as [b|] eqn:EB; [| discriminate]. cbn [rbind] in H. apply getValue_spec in H as (H1 & H2 & H3).
    destruct (getMaxAction_spec t s (draw k) S H1 ltac:(lia)) as (b' & E & _ & m & M1 & M2). rewrite EB in E. injection E as <-. split; [auto |]. exists m. split; [| auto]. rewrite <- H3. auto.
  - unfold next_sarsa in H. apply getValue_spec in H as (H1 & H2 & H3). split; [auto |]. exists v. split; [reflexivity | auto].
Qed.
Lemma next_ok kd draw k t s a : shaped t -> s < t_rows t -> a < t_cols t -> exists v, next_of kd draw k t s a = Ok v.
Proof.
  intros S Hs Ha. destruct kd; cbn; unfold next_q, next_sarsa; [| rewrite getValue_ok by auto; eauto].
  destruct (getMaxAction_spec t s (draw k) S Hs ltac:(lia)) as (b & -> & Hb & _). cbn [rbind]. rewrite getValue_ok by auto. eauto.
Qed.
Definition same_dims (t t' : table) : Prop := shaped t' /\ t_rows t' = t_rows t /\ t_cols t' = t_cols t.
Lemma td_run_app kd gamma rows cols l1 l2 q q1 q2 : td_run kd gamma rows cols l1 q q1 -> td_run kd gamma rows cols l2 q1 q2 -> td_run kd gamma rows cols (l1 ++ l2) q q2.
Proof. induction 1; intros H2; cbn; [auto |]. econstructor; eauto. Qed.
Lemma one_update kd gamma draw alpha k t ls la lr s a r qv nv t' : shaped t -> getValue t ls la = Ok qv -> next_of kd draw k t s a = Ok nv ->
  updateValue t ls la (qv + alpha * (lr + gamma * nv - qv))%Q = Ok t' -> same_dims t t' /\ td kd gamma (t_rows t) (t_cols t) alpha ((ls, la, lr), (s, a, r)) (val t) (val t').
Proof.
  intros S E1 E2 E3. apply getValue_spec in E1 as (G1 & G2 & G3). apply next_spec in E2 as (N1 & m & N2 & N3); [| auto]. apply updateValue_spec in E3 as (U1 & U2 & U3 & U4 & U5 & U6 & U7); [| auto].
  split; [split; auto |]. cbn. do 3 (split; [auto |]). split; [| auto]. exists m. split; [destruct kd; auto |]. rewrite U6, <- G3, N2. ring.
Qed.
Lemma learn_seq_spec kd alpha gamma draw : forall seq k last t k' t', shaped t -> learn_seq alpha gamma (next_of kd draw) k last seq t = Ok (k', t') ->
  same_dims t t' /\ td_run kd gamma (t_rows t) (t_cols t) (map (fun p => (alpha, p)) (match last with None => pairs seq | Some x => pairs (x :: seq) end)) (val t) (val t').
Proof.
  induction seq as [|[[s a] r] seq IH]; intros k last t k' t' S H; cbn [learn_seq] in H.
  - injection H as <- <-. split; [split; auto |]. destruct last; constructor.
  - destruct last as [[[ls la] lr]|].
    + destruct (getValue t ls la) as [qv|] eqn:EQ; [| discriminate]. cbn [rbind] in H. destruct (next_of kd draw k t s a) as [nv|] eqn:EN; [| discriminate]. cbn [rbind] in H.
      destruct (updateValue _ _ _ _) as [t1|] eqn:EU; [| discriminate]. cbn [rbind] in H. destruct (one_update kd gamma draw alpha k t ls la lr s a r qv nv t1 S EQ EN EU) as [(S1 & R1 & C1) T].
      apply IH in H as [(S2 & R2 & C2) T2]; [| auto]. split; [split; [auto | split; congruence] |]. rewrite R1, C1 in T2. change (pairs ((ls, la, lr) :: (s, a, r) :: seq)) with (((ls, la, lr), (s, a, r)) :: pairs ((s, a, r) :: seq)). cbn [map]. econstructor; eauto.
    + apply IH in H; auto.
Qed.
Lemma learn_seqs_spec kd alpha gamma draw : forall seqs k t k' t', shaped t -> learn_seqs alpha gamma (next_of kd draw) k seqs t = Ok (k', t') ->
  same_dims t t' /\ td_run kd gamma (t_rows t) (t_cols t) (map (fun p => (alpha, p)) (flat_map pairs seqs)) (val t) (val t').
Proof.
  induction seqs as [|seq seqs IH]; intros k t k' t' S H; cbn [learn_seqs] in H.
  - injection H as <- <-. split; [split; auto | constructor].
  - destruct (learn_seq _ _ _ k None seq t) as [[k1 t1]|] eqn:E; [| discriminate]. cbn [rbind fst snd] in H. apply learn_seq_spec in E as [(S1 & R1 & C1) T1]; [| auto]. apply IH in H as [(S2 & R2 & C2) T2]; [| auto].
    split; [split; [auto | split; congruence] |]. cbn [flat_map]. rewrite map_app. rewrite R1, C1 in T2. eapply td_run_app; eauto.
Qed.

(** ** C39 *)
(** Batch learning makes exactly one update for each pair of consecutive steps within an episode, in order. *)
Theorem C39_batch : forall kd alpha gamma draw episodes marker t t', shaped t -> learn alpha gamma (next_of kd draw) true episodes marker t = Ok t' ->
  same_dims t t' /\ td_run kd gamma (t_rows t) (t_cols t) (map (fun p => (alpha, p)) (flat_map pairs episodes)) (val t) (val t').
Proof.
  intros kd alpha gamma draw episodes marker t t' S H. unfold learn in H. cbn [rbind] in H. destruct (learn_seqs _ _ _ _ _ _) as [[k t1]|] eqn:E; [| discriminate]. cbn [rbind snd] in H. injection H as <-. now apply learn_seqs_spec in E.
Qed.
Theorem C39_total : forall kd alpha gamma draw episodes marker t, shaped t ->
  (forall ep s a r, In ep episodes -> In (s, a, r) ep -> s < t_rows t /\ a < t_cols t) -> exists t', learn alpha gamma (next_of kd draw) true episodes marker t = Ok t'.
Proof.
  intros kd alpha gamma draw episodes marker t S H. unfold learn. cbn [rbind].
  assert (L1 : forall (seq : list step) k (last : option step) t, shaped t -> (forall s a r, In (s, a, r) seq -> s < t_rows t /\ a < t_cols t) -> (forall s a r, last = Some (s, a, r) -> s < t_rows t /\ a < t_cols t) -> exists kt, learn_seq alpha gamma (next_of kd draw) k last seq t = Ok kt).
  { clear. induction seq as [|[[s a] r] seq IH]; intros k last t S H HL; cbn [learn_seq]; [eauto |]. destruct (H s a r ltac:(left; auto)) as [Hs Ha]. destruct last as [[[ls la] lr]|].
    - destruct (HL ls la lr eq_refl) as [Hls Hla]. rewrite getValue_ok by auto. cbn [rbind]. destruct (next_ok kd draw k t s a S Hs Ha) as (v & ->). cbn [rbind]. match goal with |- context[updateValue t ls la ?v] => destruct (updateValue_ok t ls la v Hls Hla) as (t1 & E) end. rewrite E. cbn [rbind].
      apply updateValue_spec in E as (S1 & R1 & C1 & _); [| auto]. apply IH; [auto | |]; rewrite R1, C1; [intros; eapply H; right; eauto | intros ? ? ? [= <- <- <-]; auto].
    - apply IH; [auto | intros; eapply H; right; eauto | intros ? ? ? [= <- <- <-]; auto]. }
  assert (L2 : forall (seqs : list (list step)) k t, shaped t -> (forall ep s a r, In ep seqs -> In (s, a, r) ep -> s < t_rows t /\ a < t_cols t) -> exists kt, learn_seqs alpha gamma (next_of kd draw) k seqs t = Ok kt).
  { clear -L1. induction seqs as [|seq seqs IH]; intros k t S H; cbn [learn_seqs]; [eauto |]. destruct (L1 seq k None t S) as ([k1 t1] & E); [intros; eapply H; [left; auto | eauto] | discriminate |]. rewrite E. cbn [rbind fst snd].
    apply learn_seq_spec in E as [(S1 & R1 & C1) _]; [| auto]. apply IH; [auto |]. rewrite R1, C1. intros; eapply H; [right; eauto | eauto]. }
  destruct (L2 episodes 0 t S H) as ([k t1] & ->). cbn. eauto.
Qed.
(** Values stay within the discounted sums of the least and the greatest reward. *)
Definition bounded (lo hi gamma : Q) (rows cols : nat) (q : nat -> nat -> Q) : Prop :=
  forall s a, s < rows -> a < cols -> (lo <= (1 - gamma) * q s a <= hi)%Q.
Lemma td_bounded kd gamma rows cols lo hi l q q' : (0 <= gamma)%Q -> (gamma < 1)%Q -> td_run kd gamma rows cols l q q' ->
  (forall alpha s a r x, In (alpha, ((s, a, r), x)) l -> (0 <= alpha <= 1)%Q /\ (lo <= r <= hi)%Q) -> bounded lo hi gamma rows cols q -> bounded lo hi gamma rows cols q'.
Proof.
  intros G0 G1 H. induction H as [q|alpha [[[s a] r] [[s' a'] r']] l q q1 q2 T _ IH]; intros HL B; [auto |]. apply IH; [intros; eapply HL; right; eauto |]. clear IH.
  destruct (HL alpha s a r _ (or_introl eq_refl)) as [[A0 A1] [R0 R1]]. cbn in T. destruct T as (T1 & T2 & T3 & (m & M & E) & U).
  assert (BM : (lo <= (1 - gamma) * m <= hi)%Q).
  { destruct kd; [destruct M as [(b & Hb & <-) _]; apply B; auto | destruct M as [Ha' ->]; apply B; auto]. }
  intros x y Hx Hy. destruct (Nat.eq_dec x s) as [-> |]; [destruct (Nat.eq_dec y a) as [-> |] |]; [| rewrite U by (auto; congruence); apply B; auto | rewrite U by (auto; congruence); apply B; auto].
  rewrite E. pose proof (B s a Hx Hy) as [B0 B1].
  set (v := ((1 - gamma) * q s a)%Q) in *. set (w := ((1 - gamma) * m)%Q) in *. 
  assert (EX : ((1 - gamma) * ((1 - alpha) * q s a + alpha * (r + gamma * m)) == (1 - alpha) * v + alpha * ((1 - gamma) * r + gamma * w))%Q) by (unfold v, w; ring). rewrite EX. clearbody v w. clear EX E U.
  assert (C0 : (lo <= (1 - gamma) * r + gamma * w)%Q).
  { assert (0 <= (1 - gamma) * (r - lo))%Q by (apply Qmult_le_0_compat; lra). assert (0 <= gamma * (w - lo))%Q by (apply Qmult_le_0_compat; lra). lra. }
  assert (C1 : ((1 - gamma) * r + gamma * w <= hi)%Q).
  { assert (0 <= (1 - gamma) * (hi - r))%Q by (apply Qmult_le_0_compat; lra). assert (0 <= gamma * (hi - w))%Q by (apply Qmult_le_0_compat; lra). lra. }
  set (z := ((1 - gamma) * r + gamma * w)%Q) in *. clearbody z.
  assert (0 <= (1 - alpha) * (v - lo))%Q by (apply Qmult_le_0_compat; lra). assert (0 <= alpha * (z - lo))%Q by (apply Qmult_le_0_compat; lra).
  assert (0 <= (1 - alpha) * (hi - v))%Q by (apply Qmult_le_0_compat; lra). assert (0 <= alpha * (hi - z))%Q by (apply Qmult_le_0_compat; lra). split; lra.
Qed.
Lemma pairs_In ep p : In p (pairs ep) -> In (fst p) ep.
Proof. unfold pairs. destruct p as [x y]. intros H. apply in_combine_l in H. auto. Qed.
Theorem C39_bounded : forall kd alpha gamma draw episodes marker t t' lo hi, shaped t -> (0 <= alpha <= 1)%Q -> (0 <= gamma < 1)%Q ->
  (forall ep s a r, In ep episodes -> In (s, a, r) ep -> (lo <= r <= hi)%Q) ->
  bounded lo hi gamma (t_rows t) (t_cols t) (val t) -> learn alpha gamma (next_of kd draw) true episodes marker t = Ok t' ->
  bounded lo hi gamma (t_rows t) (t_cols t) (val t').
Proof.
  intros kd alpha gamma draw episodes marker t t' lo hi S A [G0 G1] HR B H. apply C39_batch in H as [_ T]; [| auto]. eapply td_bounded; eauto.
  intros al s a r x Hin. apply in_map_iff in Hin as (p & [= <- ->] & Hp). split; [auto |]. apply in_flat_map in Hp as (ep & E1 & E2). apply pairs_In in E2. eauto.
Qed.
(** A table set to zero is within the bounds whenever zero is a possible reward. *)
Lemma C39_initialized : forall t gamma lo hi, (lo <= 0 <= hi)%Q -> bounded lo hi gamma (t_rows t) (t_cols t) (val (initialize t 0)).
Proof.
  intros t gamma lo hi H s a Hs Ha. unfold val, initialize. cbn [t_cols t_vals]. assert (E : forall l n, nth n (map (fun _ : Q => 0%Q) l) 0%Q = 0%Q) by (induction l; intros [|n]; cbn; auto). rewrite E. split; lra.
Qed.
Theorem C39_initialize : forall t v s a, shaped t -> s < t_rows t -> a < t_cols t ->
  val (initialize t v) s a = v /\ t_rows (initialize t v) = t_rows t /\ t_cols (initialize t v) = t_cols t.
Proof.
  intros t v s a S Hs Ha. split; [| auto]. unfold val, initialize. cbn [t_cols t_vals]. unfold shaped in S.
  assert (Hi : s * t_cols t + a < length (t_vals t)) by (rewrite S; nia). clear S Hs Ha. revert Hi. generalize (s * t_cols t + a). induction (t_vals t) as [|x l IH]; intros [|n] Hi; cbn in *; try lia; auto. apply IH. lia.
Qed.
(** Without batch mode nothing is ever learned. *)
Theorem C39_non_batch : forall kd alpha gamma draw episodes marker t t', learn alpha gamma (next_of kd draw) false episodes marker t = Ok t' -> t' = t.
Proof.
  intros kd alpha gamma draw episodes marker t t' H. unfold learn in H. destruct (nth_error _ _) as [[[s a] r]|]; [| discriminate]. cbn in H. now injection H as <-.
Qed.
(** The reward of the last step of an episode has no influence. *)
Theorem C39_last_reward_refuted : forall kd alpha gamma draw ep s a r r' marker t,
  learn alpha gamma (next_of kd draw) true [ep ++ [(s, a, r)]] marker t = learn alpha gamma (next_of kd draw) true [ep ++ [(s, a, r')]] marker t.
Proof.
  intros kd alpha gamma draw ep s a r r' marker t. unfold learn. cbn [rbind learn_seqs].
  assert (L : forall (ep : list step) k (last : option step) t, learn_seq alpha gamma (next_of kd draw) k last (ep ++ [(s, a, r)]) t = learn_seq alpha gamma (next_of kd draw) k last (ep ++ [(s, a, r')]) t).
  { clear. induction ep as [|[[s0 a0] r0] ep IH]; intros k last t; cbn [app learn_seq].
    - destruct last as [[[ls la] lr]|]; reflexivity.
    - destruct last as [[[ls la] lr]|]; [| apply IH]. destruct (getValue t ls la); [| reflexivity]. cbn [rbind]. destruct (next_of kd draw k t s0 a0); [| reflexivity]. cbn [rbind]. destruct (updateValue _ _ _ _); [| reflexivity]. cbn [rbind]. apply IH. }
  now rewrite L.
Qed.
Definition ex_table := {| t_rows := 3; t_cols := 2; t_vals := [0; 0; 1; 4; 2; 0]%Q |}.
Definition ex_eps : list (list step) := [[(0, 0, 1%Q); (1, 1, 2%Q); (2, 0, 3%Q)]; [(1, 0, 1%Q); (2, 1, 1%Q)]].
Example C39_ex : shaped ex_table /\ (forall ep s a r, In ep ex_eps -> In (s, a, r) ep -> s < 3 /\ a < 2) /\
  match learn (1 # 2) (1 # 2) (next_of KQ (fun n => n)) true ex_eps 0 ex_table with Ok t => map Qred (t_vals t) = [3 # 2; 0; 3 # 2; 7 # 2; 2; 0]%Q | _ => False end /\
  match learn (1 # 2) (1 # 2) (next_of KSarsa (fun n => n)) true ex_eps 0 ex_table with Ok t => map Qred (t_vals t) = [3 # 2; 0; 1; 7 # 2; 2; 0]%Q | _ => False end.
Proof.
  split; [reflexivity |]. split; [| split; vm_compute; reflexivity]. intros ep s a r [<- | [<- | []]] H; cbn in H; repeat (destruct H as [[= <- <- <-] | H]); try destruct H; lia.
Qed.

(** *** Q(lambda) *)
Definition truncated (x : step) : step := let '(s, a, r) := x in (s, a, trunc r).
Lemma qlambda_spec alpha gamma lambda draw hist : forall i j lbda t t', shaped t -> (lbda == qpow lambda j)%Q -> qlambda_loop alpha gamma lambda draw hist i j lbda t = Ok t' ->
  same_dims t t' /\ exists J upds, J <= i /\ (forall n, n < J -> (1 # 10000 <= qpow lambda (j + n))%Q) /\ (J = i \/ (qpow lambda (j + J) < 1 # 10000)%Q) /\
    td_run KQ gamma (t_rows t) (t_cols t) upds (val t) (val t') /\ length upds = J /\
    forall n u, nth_error upds n = Some u -> (fst u == alpha * qpow lambda (j + n))%Q /\ exists x y, nth_error hist (i - n - 1) = Some x /\ nth_error hist (i - n) = Some y /\ snd u = (truncated x, y).
Proof.
  induction i as [|i IH]; intros j lbda t t' S HL H; cbn [qlambda_loop] in H.
  - injection H as <-. split; [split; auto |]. exists 0, []. split; [auto |]. split; [lia |]. split; [auto |]. split; [constructor |]. split; [auto |]. intros [|n] u; discriminate.
  - destruct (Qle_bool (1 # 10000) lbda) eqn:EB; cbn [negb] in H.
    + apply Qle_bool_iff in EB. destruct (nth_error hist (Datatypes.S i)) as [[[s a'] r']|] eqn:E1; [| discriminate]. destruct (nth_error hist i) as [[[ls la] lr]|] eqn:E2; [| discriminate].
      destruct (getValue t ls la) as [qv|] eqn:EQ; [| discriminate]. cbn [rbind] in H. destruct (next_q draw j t s 0) as [nv|] eqn:EN; [| discriminate]. cbn [rbind] in H. destruct (updateValue _ _ _ _) as [t1|] eqn:EU; [| discriminate]. cbn [rbind] in H.
      assert (EN' : next_of KQ draw j t s a' = Ok nv) by exact EN. destruct (one_update KQ gamma draw (alpha * lbda)%Q j t ls la (trunc lr) s a' r' qv nv t1 S EQ EN' EU) as [(S1 & R1 & C1) T].
      apply IH in H as [(S2 & R2 & C2) (J & upds & K1 & K2 & K3 & K4 & K5 & K6)]; [| auto | replace (j + 1) with (Datatypes.S j) by lia; cbn [qpow]; now rewrite HL].
      split; [split; [auto | split; congruence] |]. exists (Datatypes.S J), ((alpha * lbda, (truncated (ls, la, lr), (s, a', r')))%Q :: upds). split; [lia |]. split.
      { intros [|n] Hn; [rewrite Nat.add_0_r; lra |]. replace (j + Datatypes.S n) with (j + 1 + n) by lia. apply K2. lia. }
      split; [destruct K3 as [-> | K3]; [auto | right; replace (j + Datatypes.S J) with (j + 1 + J) by lia; auto] |]. split; [rewrite R1, C1 in K4; econstructor; [exact T | auto] |]. split; [cbn; auto |].
      intros [|n] u Hu; cbn [nth_error] in Hu.
      * injection Hu as <-. cbn [fst snd]. rewrite Nat.add_0_r. split; [now rewrite HL |]. exists (ls, la, lr), (s, a', r'). rewrite !Nat.sub_0_r. cbn [Nat.sub]. rewrite Nat.sub_0_r. auto.
      * destruct (K6 n u Hu) as (A & x & y & B & C & D). split; [rewrite A; replace (j + Datatypes.S n) with (j + 1 + n) by lia; reflexivity |]. exists x, y. cbn [Nat.sub]. auto.
    + injection H as <-. assert (lbda < 1 # 10000)%Q by (apply Qnot_le_lt; intros K; apply Qle_bool_iff in K; congruence). split; [split; auto |]. exists 0, []. split; [lia |]. split; [intros; lia |]. split; [right; rewrite Nat.add_0_r; lra |]. split; [constructor |]. split; [auto |]. intros [|n] u; discriminate.
Qed.
(** Q(lambda) goes backwards through the whole history, with learning rate alpha lambda^n for the n-th pair from the end
    as long as lambda^n is at least 1/10000; rewards are cut to whole numbers. *)
Theorem C39_lambda : forall alpha gamma lambda draw episodes t t', shaped t -> qlambda_learn alpha gamma lambda draw episodes t = Ok t' ->
  let hist := concat episodes in let last := length hist - 1 in
  same_dims t t' /\ exists J upds, J <= last /\ (forall n, n < J -> (1 # 10000 <= qpow lambda n)%Q) /\ (J = last \/ (qpow lambda J < 1 # 10000)%Q) /\
    td_run KQ gamma (t_rows t) (t_cols t) upds (val t) (val t') /\ length upds = J /\
    forall n u, nth_error upds n = Some u -> (fst u == alpha * qpow lambda n)%Q /\ exists x y, nth_error hist (last - n - 1) = Some x /\ nth_error hist (last - n) = Some y /\ snd u = (truncated x, y).
Proof.
  intros alpha gamma lambda draw episodes t t' S H. unfold qlambda_learn in H. apply qlambda_spec in H as (A & J & upds & B); [| auto | reflexivity]. split; [auto |]. exists J, upds. exact B.
Qed.
Example C39_lambda_ex : match qlambda_learn (1 # 2) (1 # 2) (1 # 2) (fun n => n) ex_eps ex_table with Ok t => map Qred (t_vals t) = [379 # 2048; 0; 3 # 2; 251 # 64; 11 # 4; 0]%Q | _ => False end.
Proof. vm_compute. reflexivity. Qed.
(** It learns from the step between two episodes (state 2 of the first leads to the start of the second), which the other learners do not. *)
Theorem C39_lambda_crosses_episodes_refuted : exists t t', shaped t /\ qlambda_learn 1 1 1 (fun n => n) [[(0, 0, 1%Q)]; [(1, 0, 0%Q)]] t = Ok t' /\ (val t' 0 0 == val t 0 0 + 5)%Q /\
  learn 1 1 (next_of KQ (fun n => n)) true [[(0, 0, 1%Q)]; [(1, 0, 0%Q)]] 0 t = Ok t.
Proof.
  exists {| t_rows := 2; t_cols := 1; t_vals := [0; 4]%Q |}. eexists. split; [reflexivity |]. split; [vm_compute; reflexivity |]. split; [vm_compute; reflexivity | vm_compute; reflexivity].
Qed.
(** A reward between -1 and 1 counts as no reward. *)
Theorem C39_lambda_truncates_refuted : forall alpha gamma lambda draw s a r s' a' r' t, (-1 < r < 1)%Q ->
  qlambda_learn alpha gamma lambda draw [[(s, a, r); (s', a', r')]] t = qlambda_learn alpha gamma lambda draw [[(s, a, 0%Q); (s', a', r')]] t.
Proof.
  intros alpha gamma lambda draw s a r s' a' r' t [H1 H2]. unfold qlambda_learn. cbn [concat app length Nat.sub qlambda_loop nth_error].
  assert (E : trunc r = trunc 0%Q).
  { change (trunc 0%Q) with (inject_Z 0). unfold trunc. destruct (Qle_bool 0 r) eqn:E.
    - apply Qle_bool_iff in E. f_equal. pose proof (Qfloor_le r). pose proof (Qlt_floor r).
      assert (F1 : (inject_Z (Qfloor r) < inject_Z 1)%Q) by (change (inject_Z 1) with 1%Q; lra). assert (F2 : (inject_Z (-1) < inject_Z (Qfloor r))%Q) by (rewrite inject_Z_plus in H0; change (inject_Z (-1)) with (-1)%Q; change (inject_Z 1) with 1%Q in H0; lra).
      rewrite <- Zlt_Qlt in F1, F2. lia.
    - assert (r < 0)%Q by (apply Qnot_le_lt; intros K; apply Qle_bool_iff in K; congruence). f_equal. pose proof (Qle_ceiling r). pose proof (Qceiling_lt r).
      assert (F1 : (inject_Z (-1) < inject_Z (Qceiling r))%Q) by (change (inject_Z (-1)) with (-1)%Q; lra). unfold Z.sub in H3. rewrite inject_Z_plus in H3. change (inject_Z (- (1))) with (-1)%Q in H3. assert (F2 : (inject_Z (Qceiling r) < inject_Z 1)%Q) by (change (inject_Z 1) with 1%Q; lra).
      rewrite <- Zlt_Qlt in F1, F2. lia. }
  rewrite E. reflexivity.
Qed.

Print Assumptions C39_batch.
Print Assumptions C39_total.
Print Assumptions C39_bounded.
Print Assumptions C39_non_batch.
Print Assumptions C39_last_reward_refuted.
Print Assumptions C39_lambda.
Print Assumptions C39_lambda_crosses_episodes_refuted.
Print Assumptions C39_lambda_truncates_refuted.
