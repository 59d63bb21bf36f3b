(** Property C25: masked parameters. *)
From Verif Require Import Base Masked_Model.
From Coq Require Import QArith.
Local Open Scope nat_scope.

(** ** Spec *)
Definition qz (l : list Q) (j : nat) : Q := nth j l 0%Q.
(** the number of positions below n where the mask is on *)
Definition on_count (mask : list bool) : nat := length (filter (fun j => nth j mask false) (seq 0 (length mask))).
(** the random arguments are possible outcomes for a container of n parameters *)
Definition sample_of (bits : list bool) (k : nat) (drop : list nat) : Prop :=
  NoDup drop /\ length drop = k /\ forall i, In i drop -> nth_error bits i = Some true.
Definition possible (n : nat) (maxs : nat -> nat) (o : mop) : Prop :=
  match o with
  | MSet _ _ | MCopy _ => True
  | MMutate _ noise => length noise = n
  | MTopology _ flips _ => length flips = n
  | MRandomize i bits drop vals => length bits = n /\ length vals = n /\ sample_of bits (on_count bits - maxs i) drop
  end.
(** every object fits the container and its budget *)
Definition within (n : nat) (o : masked) : Prop := length (m_mask o) = n /\ length (m_vals o) = n /\ on_count (m_mask o) <= m_max o.
(** what the container holds for object o: zero exactly where masked *)
Definition shows (n : nat) (pc : list Q) (o : masked) : Prop :=
  length pc = n /\ forall j, j < n -> qz pc j = if nth j (m_mask o) false then qz (m_vals o) j else 0%Q.
Definition same_budget (k : nat) (w : world) : Prop := Forall (fun o => m_max o = k) (snd w).

(** ** Lemmas *)
Lemma on_count_enabled mask : on_count mask = enabled mask.
Proof.
  unfold on_count. induction mask as [|b mask IH] using rev_ind; [reflexivity |]. rewrite app_length. cbn [length]. rewrite Nat.add_1_r, seq_S, filter_app. cbn [filter Nat.add]. unfold enabled in *. rewrite count_occ_app, <- IH. cbn [count_occ].
  rewrite app_length. rewrite app_nth2 by lia. rewrite Nat.sub_diag. cbn [nth].
  replace (filter (fun j => nth j (mask ++ [b]) false) (seq 0 (length mask))) with (filter (fun j => nth j mask false) (seq 0 (length mask))).
  - destruct b; cbn; lia.
  - apply filter_ext_in. intros j Hj. apply in_seq in Hj. now rewrite app_nth1 by lia.
Qed.
Lemma enabled_upd : forall mask i, nth_error mask i = Some true -> S (enabled (upd i false mask)) = enabled mask.
Proof.
  unfold enabled. induction mask as [|b mask IH]; intros [|i] H; cbn [nth_error upd] in *; try discriminate; cbn [count_occ].
  - injection H as ->. destruct (bool_dec false true); [discriminate |]. destruct (bool_dec true true); congruence.
  - destruct (bool_dec b true); rewrite <- (IH i H); auto.
Qed.
Lemma enabled_upd_on : forall mask i, enabled mask = 0 -> i < length mask -> enabled (upd i true mask) = 1.
Proof.
  unfold enabled. induction mask as [|b mask IH]; intros [|i] H Hi; cbn [upd length] in *; try lia; cbn [count_occ] in *; destruct (bool_dec b true); try discriminate.
  - destruct (bool_dec true true); congruence.
  - apply IH; [auto | lia].
Qed.
Lemma disable_spec : forall picks k mask mask' ps, disable picks k mask = Ok (mask', ps) -> length mask' = length mask /\ enabled mask' + k = enabled mask.
Proof.
  induction picks as [|i picks IH]; intros [|k] mask mask' ps H; cbn [disable] in H; try discriminate; try (injection H as <- <-; split; [auto | lia]).
  destruct (nth_error mask i) as [[]|] eqn:E; [| | discriminate].
  - apply IH in H as [L C]. rewrite upd_length in L. split; [auto |]. pose proof (enabled_upd mask i E). lia.
  - apply IH in H. auto.
Qed.
Lemma drop_spec : forall drop bits, NoDup drop -> (forall i, In i drop -> nth_error bits i = Some true) ->
  length (fold_left (fun m i => upd i false m) drop bits) = length bits /\ enabled (fold_left (fun m i => upd i false m) drop bits) + length drop = enabled bits.
Proof.
  induction drop as [|i drop IH]; intros bits ND H; cbn [fold_left length]; [split; [auto | lia] |]. apply NoDup_cons_iff in ND as [N1 N2]. destruct (IH (upd i false bits) N2) as [L C].
  - intros j Hj. rewrite nth_error_upd_neq; [apply H; right; auto | intros ->; contradiction].
  - rewrite upd_length in L. split; [auto |]. pose proof (enabled_upd bits i (H i ltac:(left; auto))). lia.
Qed.
Lemma setVisible_ok : forall mask vals x, length vals = length mask -> length x = enabled mask -> exists v, setVisible mask vals x = Ok v /\ length v = length vals /\
  flat_map (fun e => if fst e : bool then [snd e] else []) (combine mask v) = x /\ forall j, j < length mask -> nth j mask false = false -> qz v j = qz vals j.
Proof.
  unfold enabled. induction mask as [|b mask IH]; intros vals x L H; destruct vals as [|y vals]; cbn [length] in L; try lia.
  - destruct x; [| discriminate]. exists []. cbn. repeat split; auto.
  - cbn [count_occ] in H. destruct b; cbn [setVisible].
    + destruct (bool_dec true true); [| congruence]. destruct x as [|a x]; [discriminate |]. destruct (IH vals x) as (v & E & Lv & F & Z); [lia | cbn in H; lia |]. rewrite E. cbn [rbind]. exists (a :: v). split; [auto |]. split; [cbn; lia |]. split; [cbn; f_equal; auto |].
      intros [|j] Hj Hm; [discriminate |]. apply (Z j); [cbn in Hj; lia | auto].
    + destruct (bool_dec false true); [discriminate |]. destruct (IH vals x) as (v & E & Lv & F & Z); [lia | auto |]. rewrite E. cbn [rbind]. exists (y :: v). split; [auto |]. split; [cbn; lia |]. split; [cbn; auto |].
      intros [|j] Hj Hm; [auto |]. apply (Z j); [cbn in Hj; lia | auto].
Qed.
Lemma setVisible_length : forall mask vals x v, length vals = length mask -> setVisible mask vals x = Ok v -> length v = length vals.
Proof.
  induction mask as [|b mask IH]; intros vals x v L H; destruct vals as [|y vals]; cbn [length] in L; try lia; [now injection H as <- |]. cbn [setVisible] in H. destruct b.
  - destruct x as [|a x]; [discriminate |]. destruct (setVisible mask vals x) as [r|] eqn:E; [| discriminate]. injection H as <-. cbn. f_equal. eapply IH; [| exact E]. lia.
  - destruct (setVisible mask vals x) as [r|] eqn:E; [| discriminate]. injection H as <-. cbn. f_equal. eapply IH; [| exact E]. lia.
Qed.
Lemma applyMask_shows n o : length (m_mask o) = n -> length (m_vals o) = n -> shows n (applyMask o) o.
Proof.
  intros H1 H2. unfold shows, applyMask. split; [rewrite map_length, combine_length; lia |]. intros j Hj. unfold qz. destruct o as [mask vals mx]. cbn in *. clear mx.
  revert mask vals n H1 H2 Hj. induction j as [|j IH]; intros [|b mask] [|v vals] n H1 H2 Hj; cbn in *; try lia; [auto |]. apply (IH mask vals (n - 1)); lia.
Qed.
Lemma randomize_within n bits drop vals o : length bits = n -> length vals = n -> sample_of bits (on_count bits - m_max o) drop -> within n (randomize bits drop vals o).
Proof.
  intros H1 H2 (S1 & S2 & S3). unfold within, randomize. cbn [m_mask m_vals m_max]. rewrite on_count_enabled in *. destruct (Nat.ltb_spec (m_max o) (enabled bits)).
  - destruct (drop_spec drop bits S1 S3) as [L C]. rewrite L. split; [auto |]. split; [auto |]. lia.
  - auto.
Qed.
Lemma topologyMutate_within n flips picks o o' : within n o -> 1 <= m_max o -> length flips = n -> topologyMutate flips picks o = Ok o' ->
  within n o' /\ 1 <= on_count (m_mask o') /\ m_vals o' = m_vals o /\ m_max o' = m_max o.
Proof.
  intros (L & LV & _) H1 HF H. unfold topologyMutate in H. set (mask := map _ (combine flips (m_mask o))) in H. assert (LM : length mask = n) by (unfold mask; rewrite map_length, combine_length; lia).
  destruct (disable picks (enabled mask - m_max o) mask) as [[mask' ps]|] eqn:ED; [| discriminate]. cbn [rbind] in H. apply disable_spec in ED as [L' C']. unfold within. rewrite !on_count_enabled.
  destruct (Nat.eqb_spec (enabled mask') 0) as [E0|E0].
  - destruct ps as [|i ps]; [discriminate |]. destruct (Nat.ltb_spec i (length mask')); [| discriminate]. cbn [rbind] in H. injection H as <-. cbn [m_mask m_vals m_max]. rewrite upd_length, enabled_upd_on by auto. repeat split; auto; lia.
  - cbn [rbind] in H. injection H as <-. cbn [m_mask m_vals m_max]. repeat split; auto; lia.
Qed.
Definition minv (n k : nat) (w : world) : Prop := Forall (within n) (snd w) /\ same_budget k w /\ length (fst w) = n.
Lemma Forall_upd {A} (P : A -> Prop) : forall l i x, Forall P l -> P x -> Forall P (upd i x l).
Proof. induction l as [|a l IH]; intros [|i] x F Hx; cbn; auto; inversion F; subst; constructor; auto. Qed.
Lemma Forall_nth_error {A} (P : A -> Prop) l i x : Forall P l -> nth_error l i = Some x -> P x.
Proof. intros F E. apply nth_error_In in E. rewrite Forall_forall in F. auto. Qed.
Lemma with_obj_inv n k i f w w' : minv n k w -> with_obj i f w = Ok w' -> (forall o o', within n o -> m_max o = k -> f o = Ok o' -> within n o' /\ m_max o' = k) ->
  minv n k w' /\ exists o o', nth_error (snd w) i = Some o /\ f o = Ok o' /\ nth_error (snd w') i = Some o' /\ fst w' = applyMask o' /\ forall j, j <> i -> nth_error (snd w') j = nth_error (snd w) j.
Proof.
  intros (F & B & L) H HF. unfold with_obj in H. destruct (nth_error (snd w) i) as [o|] eqn:E; [| discriminate]. destruct (f o) as [o'|] eqn:EF; [| discriminate]. cbn [rbind] in H. injection H as <-. cbn [fst snd].
  destruct (HF o o' (Forall_nth_error _ _ _ _ F E) (Forall_nth_error _ _ _ _ B E) EF) as [W M]. split.
  - split; [apply Forall_upd; auto |]. split; [apply Forall_upd; auto |]. cbn. destruct W as (W1 & W2 & _). unfold applyMask. rewrite map_length, combine_length. lia.
  - exists o, o'. split; [auto |]. split; [auto |]. split; [apply nth_error_upd_eq; apply nth_error_Some; congruence |]. split; [auto |]. intros j Hj. apply nth_error_upd_neq. auto.
Qed.
Lemma mstep_inv n k w o w' : 1 <= k -> minv n k w -> possible n (fun _ => k) o -> mstep w o = Ok w' ->
  minv n k w' /\ match acts o with
                 | Some i => exists m, nth_error (snd w') i = Some m /\ fst w' = applyMask m /\ forall j, j <> i -> nth_error (snd w') j = nth_error (snd w) j
                 | None => fst w' = fst w
                 end.
Proof.
  intros Hk I P H. destruct o as [i x|i noise|i flips picks|i bits drop vals|i]; cbn [mstep acts possible] in *.
  - destruct (with_obj_inv n k i _ w w' I H) as [I' (m & m' & _ & _ & A & B & C)]; [| split; [auto |]; exists m'; auto]. intros a a' (W1 & W2 & W3) M E. unfold setParameters in E. destruct (setVisible _ _ _) as [v|] eqn:EV; [| discriminate]. injection E as <-. unfold within. cbn.
    apply setVisible_length in EV; [| lia]. repeat split; auto; lia.
  - destruct (with_obj_inv n k i _ w w' I H) as [I' (m & m' & _ & _ & A & B & C)]; [| split; [auto |]; exists m'; auto]. intros a a' (W1 & W2 & W3) M [= <-]. unfold within. cbn. rewrite map_length, combine_length. repeat split; auto; lia.
  - destruct (with_obj_inv n k i _ w w' I H) as [I' (m & m' & _ & _ & A & B & C)]; [| split; [auto |]; exists m'; auto]. intros a a' W M E. apply (topologyMutate_within n) in E as (E1 & _ & _ & E4); auto; [split; [auto | congruence] | lia].
  - destruct P as (P1 & P2 & P3). destruct (with_obj_inv n k i _ w w' I H) as [I' (m & m' & _ & _ & A & B & C)]; [| split; [auto |]; exists m'; auto]. intros a a' W M [= <-]. split; [apply randomize_within; auto; rewrite M; auto | auto].
  - destruct (nth_error (snd w) i) as [m|] eqn:E; [| discriminate]. injection H as <-. destruct I as (F & B & L). split; [| auto]. split; [apply Forall_app; split; [auto | repeat constructor; eapply (Forall_nth_error (within n)); eauto] |]. split; [| auto].
    apply Forall_app; split; [auto |]. constructor; [| constructor]. apply (Forall_nth_error _ _ _ _ B E).
Qed.

(** ** C25 *)
(** a freshly created object: the world it lives in *)
Definition fresh (n k : nat) (bits : list bool) (drop : list nat) (vals : list Q) : world := let o := create n (Some k) bits drop vals in (applyMask o, [o]).
Lemma fresh_inv n k bits drop vals : length bits = n -> length vals = n -> sample_of bits (on_count bits - k) drop -> minv n k (fresh n k bits drop vals) /\ exists o, snd (fresh n k bits drop vals) = [o] /\ shows n (fst (fresh n k bits drop vals)) o.
Proof.
  intros H1 H2 S. pose proof (randomize_within n bits drop vals {| m_mask := []; m_vals := []; m_max := k |} H1 H2 S) as (W1 & W2 & W3).
  assert (W : within n (create n (Some k) bits drop vals)).
  { unfold within, create. cbn [m_mask m_vals m_max]. split; [exact W1 |]. split; [| exact W3]. unfold applyMask. rewrite map_length, combine_length. lia. }
  unfold fresh. split.
  - split; [repeat constructor; apply W |]. split; [repeat constructor |]. cbn [fst]. unfold applyMask. destruct W as (A & B & _). rewrite map_length, combine_length. lia.
  - exists (create n (Some k) bits drop vals). split; [auto |]. apply applyMask_shows; apply W.
Qed.
Theorem C25_budget : forall n k bits drop vals ops w, 1 <= k -> length bits = n -> length vals = n -> sample_of bits (on_count bits - k) drop ->
  Forall (possible n (fun _ => k)) ops -> mrun (fresh n k bits drop vals) ops = Ok w ->
  forall o, In o (snd w) -> length (m_mask o) = n /\ on_count (m_mask o) <= k.
Proof.
  intros n k bits drop vals ops w Hk H1 H2 S. assert (I : minv n k (fresh n k bits drop vals)) by (apply fresh_inv; auto). revert I. generalize (fresh n k bits drop vals). induction ops as [|op ops IH]; intros w0 I F H; cbn [mrun] in H.
  - injection H as <-. intros o Ho. destruct I as (F' & B & _). unfold same_budget in B. rewrite Forall_forall in F', B. destruct (F' o Ho) as (A & _ & C). rewrite (B o Ho) in C. auto.
  - inversion F; subst. destruct (mstep w0 op) as [w1|] eqn:E; [| discriminate]. cbn [rbind] in H. destruct (mstep_inv (length bits) k w0 op w1 Hk I H4 E) as [I1 _]. eauto.
Qed.
(** Whatever was done by whichever objects: the container holds what the object that acted last wants it to hold. *)
Theorem C25_zero_where_masked : forall n k bits drop vals ops op i w, 1 <= k -> length bits = n -> length vals = n -> sample_of bits (on_count bits - k) drop ->
  Forall (possible n (fun _ => k)) (ops ++ [op]) -> mrun (fresh n k bits drop vals) (ops ++ [op]) = Ok w -> acts op = Some i ->
  exists o, nth_error (snd w) i = Some o /\ shows n (fst w) o.
Proof.
  intros n k bits drop vals ops op i w Hk H1 H2 S. assert (I : minv n k (fresh n k bits drop vals)) by (apply fresh_inv; auto). revert I. generalize (fresh n k bits drop vals). induction ops as [|op' ops IH]; intros w0 I F H A; cbn [app mrun] in *; inversion F; subst.
  - destruct (mstep w0 op) as [w1|] eqn:E; [| discriminate]. cbn [rbind] in H. injection H as <-. destruct (mstep_inv (length bits) k w0 op w1 Hk I H4 E) as [(F1 & _) M]. rewrite A in M. destruct M as (m & M1 & M2 & _). exists m. split; [auto |]. rewrite M2.
    destruct (Forall_nth_error _ _ _ _ F1 M1) as (A1 & A2 & _). apply applyMask_shows; auto.
  - destruct (mstep w0 op') as [w1|] eqn:E; [| discriminate]. cbn [rbind] in H. destruct (mstep_inv (length bits) k w0 op' w1 Hk I H4 E) as [I1 _]. eauto.
Qed.
(** Setting the visible parameters and reading them back. *)
Theorem C25_set_get : forall n o x, within n o -> length x = on_count (m_mask o) ->
  exists o', setParameters o x = Ok o' /\ visible o' = x /\ m_mask o' = m_mask o /\ m_max o' = m_max o /\
    forall j, j < n -> nth j (m_mask o) false = false -> qz (m_vals o') j = qz (m_vals o) j.
Proof.
  intros n o x (L & LV & _) H. rewrite on_count_enabled in H. unfold setParameters. destruct (setVisible_ok (m_mask o) (m_vals o) x) as (v & E & Lv & F & Z); [lia | auto |]. rewrite E. cbn [rbind]. eexists. split; [reflexivity |]. cbn.
  split; [exact F |]. split; [auto |]. split; [auto |]. intros j Hj. apply Z. lia.
Qed.
(** A mutation of the mask leaves at least one parameter enabled, the budget kept and the hidden values untouched,
    and it does finish when every position is eventually drawn. *)
Theorem C25_topology : forall n flips picks o o', within n o -> 1 <= m_max o -> length flips = n -> topologyMutate flips picks o = Ok o' ->
  1 <= on_count (m_mask o') <= m_max o' /\ m_vals o' = m_vals o /\ m_max o' = m_max o.
Proof. intros n flips picks o o' W H1 HF H. apply (topologyMutate_within n) in H as ((_ & _ & A) & B & C & D); auto. Qed.
Lemma disable_total : forall picks k mask, k <= length (filter (fun j => nth j mask false) (nodup Nat.eq_dec picks)) -> Forall (fun i => i < length mask) picks -> exists r, disable picks k mask = Ok r.
Proof.
  induction picks as [|i picks IH]; intros k mask H F; destruct k as [|k]; cbn [disable]; eauto; [cbn in H; lia |]. inversion F; subst.
  destruct (nth_error mask i) as [b|] eqn:E; [| apply nth_error_None in E; lia].
  assert (EN : nth i mask false = b) by (apply nth_error_nth; auto). destruct b.
  - apply IH; [| rewrite upd_length; auto].
    assert (EF : forall l, ~ In i l -> filter (fun j => nth j (upd i false mask) false) l = filter (fun j => nth j mask false) l).
    { intros l Hl. apply filter_ext_in. intros j Hj. assert (j <> i) by (intros ->; contradiction). assert (NE : nth_error (upd i false mask) j = nth_error mask j) by (apply nth_error_upd_neq; auto).
      destruct (nth_error mask j) as [c|] eqn:EJ; [rewrite (nth_error_nth _ _ _ NE), (nth_error_nth _ _ _ EJ); auto |]. apply nth_error_None in NE, EJ. now rewrite !nth_overflow by auto. }
    assert (EU : nth i (upd i false mask) false = false) by (apply nth_error_nth, nth_error_upd_eq; auto).
    cbn [nodup] in H. destruct (in_dec Nat.eq_dec i picks) as [Hi|Hi].
    + assert (NI : In i (nodup Nat.eq_dec picks)) by (apply nodup_In; auto). pose proof (NoDup_nodup Nat.eq_dec picks) as ND. apply in_split in NI as (l1 & l2 & EQ). rewrite EQ in *.
      assert (N1 : ~ In i l1 /\ ~ In i l2) by (apply NoDup_remove_2 in ND; rewrite in_app_iff in ND; tauto). destruct N1 as [N1 N2].
      rewrite filter_app in *. cbn [filter] in *. rewrite EN in H. rewrite EU. rewrite !EF by auto. rewrite app_length in *. cbn [length] in H. lia.
    + cbn [filter] in H. rewrite EN in H. cbn [length] in H. rewrite EF by (rewrite nodup_In; auto). lia.
  - apply IH; [| auto]. cbn [nodup] in H. destruct (in_dec Nat.eq_dec i picks); [auto |]. cbn [filter] in H. rewrite EN in H. auto.
Qed.
Theorem C25_topology_total : forall n flips picks o, within n o -> 1 <= m_max o -> length flips = n ->
  (forall i, In i picks -> i < n) -> (forall i, i < n -> In i picks) -> 0 < n -> exists o', topologyMutate flips (picks ++ picks) o = Ok o'.
Proof.
  intros n flips picks o (L & LV & _) H1 HF HB HA Hn. unfold topologyMutate. set (mask := map _ (combine flips (m_mask o))). assert (LM : length mask = n) by (unfold mask; rewrite map_length, combine_length; lia).
  assert (D : exists r, disable picks (enabled mask - m_max o) mask = Ok r).
  { apply disable_total; [| apply Forall_forall; intros; rewrite LM; auto]. rewrite <- on_count_enabled. unfold on_count. etransitivity; [apply Nat.le_sub_l |]. apply NoDup_incl_length; [apply NoDup_filter, seq_NoDup |].
    intros j Hj. apply filter_In in Hj as [Hj Hm]. apply in_seq in Hj. apply filter_In. split; [apply nodup_In, HA; lia | auto]. }
  assert (APP : forall p q k m m' r, disable p k m = Ok (m', r) -> disable (p ++ q) k m = Ok (m', r ++ q)).
  { clear. induction p as [|i p IH]; intros q [|k] m m' r H; cbn [app disable] in *; try discriminate; try (injection H as <- <-; auto; destruct q; auto).
    destruct (nth_error m i) as [[]|]; auto. discriminate. }
  assert (SUB : forall p k m m' r, disable p k m = Ok (m', r) -> incl r p).
  { clear. induction p as [|i p IH]; intros [|k] m m' r H; cbn [disable] in *; try discriminate; try (injection H as <- <-; apply incl_refl). destruct (nth_error m i) as [[]|]; try discriminate; apply IH in H; apply incl_tl; auto. }
  destruct D as ([mask' ps] & D). rewrite (APP _ picks _ _ _ _ D). cbn [rbind]. pose proof (SUB _ _ _ _ _ D) as SB. apply disable_spec in D as [L' C'].
  destruct (enabled mask' =? 0); [| cbn; eauto]. destruct (ps ++ picks) as [|i r] eqn:EP.
  - exfalso. apply app_eq_nil in EP as [_ EP]. specialize (HA 0 Hn). rewrite EP in HA. destruct HA.
  - assert (IN : In i (ps ++ picks)) by (rewrite EP; left; auto). assert (i < n) by (apply in_app_iff in IN as [IN | IN]; auto).
    rewrite (proj2 (Nat.ltb_lt i (length mask'))) by lia. cbn. eauto.
Qed.

(** ** A history with two objects *)
Definition ex_world := fresh 4 2 [true; true; false; true] [1] [5; 6; 7; 8]%Q.
Definition ex_ops := [MCopy 0; MTopology 1 [true; true; true; false] [3; 1; 2; 0]; MMutate 0 [1; 1; 1; 1]%Q; MSet 1 [20; 30]%Q].
Example C25_ex : sample_of [true; true; false; true] (on_count [true; true; false; true] - 2) [1] /\ Forall (possible 4 (fun _ => 2)) ex_ops /\
  mrun ex_world ex_ops = Ok ([0; 20; 30; 0]%Q, [{| m_mask := [true; false; false; true]; m_vals := [6; 1; 1; 9]%Q; m_max := 2 |}; {| m_mask := [false; true; true; false]; m_vals := [5; 20; 30; 8]%Q; m_max := 2 |}]).
Proof.
  split; [split; [repeat constructor; cbn; tauto |]; split; [auto |]; intros i [<- | []]; auto |]. split; [| reflexivity].
  repeat (apply Forall_cons || apply Forall_nil); cbn; auto.
Qed.
(** A budget of no parameters at all is not kept. *)
Theorem C25_zero_budget_refuted : exists flips picks o o', topologyMutate flips picks o = Ok o' /\ m_max o' = 0 /\ on_count (m_mask o) = 0 /\ on_count (m_mask o') = 1.
Proof.
  exists [false; false], [1], {| m_mask := [false; false]; m_vals := [1; 2]%Q; m_max := 0 |}, {| m_mask := [false; true]; m_vals := [1; 2]%Q; m_max := 0 |}. vm_compute. auto.
Qed.
(** With returnZeros, what .params returns is not what _setParameters takes. *)
Theorem C25_return_zeros_refuted : exists o o', let pc := applyMask o in setParameters o (params true pc o) = Ok o' /\ params true (applyMask o') o' <> params true pc o /\ on_count (m_mask o) = 1.
Proof.
  exists {| m_mask := [false; true]; m_vals := [0; 5]%Q; m_max := 2 |}, {| m_mask := [false; true]; m_vals := [0; 0]%Q; m_max := 2 |}. vm_compute. split; [auto |]. split; [intros H; discriminate | auto].
Qed.
(** Copies share the container: changing one changes what another reads with returnZeros, and leaves non-zero values where it is masked. *)
Theorem C25_shared_container_refuted : exists ops pc o c, mrun ex_world ops = Ok (pc, [o; c]) /\ nth_error ops 0 = Some (MCopy 0) /\ Forall (fun op => acts op <> Some 0) ops /\ ~ shows 4 pc o.
Proof.
  exists [MCopy 0; MTopology 1 [false; true; false; false] [0; 1; 2; 3]; MMutate 1 [1; 1; 1; 1]%Q], [0; 1; 0; 9]%Q, {| m_mask := [true; false; false; true]; m_vals := [5; 0; 0; 8]%Q; m_max := 2 |}, {| m_mask := [false; true; false; true]; m_vals := [6; 1; 1; 9]%Q; m_max := 2 |}.
  split; [vm_compute; reflexivity |]. split; [auto |]. split; [repeat (apply Forall_cons || apply Forall_nil); discriminate |].
  intros [_ H]. specialize (H 1 ltac:(lia)). discriminate.
Qed.

Print Assumptions C25_budget.
Print Assumptions C25_zero_where_masked.
Print Assumptions C25_set_get.
Print Assumptions C25_topology.
Print Assumptions C25_topology_total.
Print Assumptions C25_zero_budget_refuted.
Print Assumptions C25_return_zeros_refuted.
Print Assumptions C25_shared_container_refuted.
