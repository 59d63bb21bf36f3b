(** Property C54: generated architectures. *)
From Verif Require Import Base Dict StableSort Topo_Model Topo_Spec Topo_Proofs Topo_Proofs2 Arch_Model Arch_Proofs.
From Verif Require Utilities_Model Utilities_Proofs.

Lemma NoDup_map_on {A B} (g : A -> B) l : (forall a b, In a l -> In b l -> g a = g b -> a = b) -> NoDup l -> NoDup (map g l).
Proof.
  intros H ND. induction ND as [| x l Hx ND IH]; cbn [map]; constructor.
  - intros K. apply in_map_iff in K as (y & E & Hy). apply Hx. rewrite (H x y); auto; [left | right]; auto.
  - apply IH. intros a b Ha Hb. apply H; right; auto.
Qed.
(** ** buildNetwork *)
Section Spec.
Variables (o : options) (layers : list nat).
Let n := length layers.
(** the identity of the module of layer i, the sizes of its buffers and its own parameters *)
Definition layer_id (i : nat) : nat := if i =? 0 then 0 else if i =? n - 1 then 1 else 2 + i.
Definition lclass_of (i : nat) : lclass := if i =? 0 then plain else if i =? n - 1 then o_out o else o_hidden o.
Definition lin (i : nat) : nat := k_in (lclass_of i) (nth i layers 0).
Definition lout (i : nat) : nat := k_out (lclass_of i) (nth i layers 0).
Definition lpar (i : nat) : nat := k_par (lclass_of i) (nth i layers 0).
(** weights between consecutive layers, parameters of layers, bias weights, recurrent weights *)
Definition expected_params : nat :=
  sum (fun i => lout i * lin (i + 1)) (seq 0 (n - 1)) + sum lpar (seq 0 n) +
  (if o_bias o then sum lin (seq 1 (n - 2)) + (if o_outputbias o then lin (n - 1) else 0) else 0) +
  (if k_lstm (o_hidden o) then lout 1 * lin 1 else 0).
(** each layer is connected to the next; the bias to all but the input, and to the output if that is wanted *)
Definition joined (u v : nat) : Prop :=
  (exists i, i + 1 < n /\ u = layer_id i /\ v = layer_id (i + 1)) \/
  (o_bias o = true /\ u = 2 /\ exists i, 1 <= i < n /\ v = layer_id i /\ (i = n - 1 -> o_outputbias o = true)).
Definition expected_modules : list nat := map layer_id (seq 0 n) ++ (if o_bias o then [2] else []).
End Spec.

Lemma last_nth (l : list nat) : last l 0 = nth (length l - 1) l 0.
Proof.
  induction l as [| x l IH]; [auto |]. destruct l as [| y l]; [auto |]. change (last (x :: y :: l) 0) with (last (y :: l) 0). rewrite IH. cbn [length]. replace (S (S (length l)) - 1) with (S (S (length l) - 1)) by lia. reflexivity.
Qed.
Section BuildProof.
Variables (cname : nat -> nat -> nat) (o : options) (layers : list nat).
Let n := length layers.
Hypothesis Hn : 2 <= n.
Notation lid := (layer_id layers). Notation full := (full cname).
Lemma lid0 : lid 0 = 0. Proof. reflexivity. Qed.
Lemma lid_out : lid (n - 1) = 1. Proof. unfold layer_id. fold n. destruct (Nat.eqb_spec (n - 1) 0); [lia |]. now rewrite Nat.eqb_refl. Qed.
Lemma lid_hid i : 1 <= i < n - 1 -> lid i = 2 + i.
Proof. intros H. unfold layer_id. fold n. destruct (Nat.eqb_spec i 0); [lia |]. destruct (Nat.eqb_spec i (n - 1)); lia. Qed.
Lemma lid_cases i : i < n -> (i = 0 /\ lid i = 0) \/ (i = n - 1 /\ lid i = 1) \/ (1 <= i < n - 1 /\ lid i = 2 + i).
Proof.
  intros H. destruct (Nat.eq_dec i 0) as [-> | ]; [left; auto |]. destruct (Nat.eq_dec i (n - 1)) as [E | ]; [right; left; rewrite E; split; [auto | apply lid_out] |]. right; right. split; [lia | apply lid_hid; lia].
Qed.
Lemma lid_inj i j : i < n -> j < n -> lid i = lid j -> i = j.
Proof. intros Hi Hj E. destruct (lid_cases i Hi) as [[? ?] | [[? ?] | [? ?]]], (lid_cases j Hj) as [[? ?] | [[? ?] | [? ?]]]; lia. Qed.
Lemma lid_not2 i : i < n -> lid i <> 2.
Proof. intros Hi. destruct (lid_cases i Hi) as [[? ?] | [[? ?] | [? ?]]]; lia. Qed.
Lemma sizes i : i < n -> size_in o layers (lid i) = lin o layers i /\ size_out o layers (lid i) = lout o layers i /\ mod_par o layers (lid i) = lpar o layers i.
Proof.
  intros Hi. unfold lin, lout, lpar, lclass_of. fold n. destruct (lid_cases i Hi) as [[-> E] | [[-> E] | [H E]]]; rewrite E.
  - cbn. auto.
  - destruct (Nat.eqb_spec (n - 1) 0); [lia |]. rewrite Nat.eqb_refl. cbn [size_in size_out mod_par]. rewrite last_nth. auto.
  - destruct (Nat.eqb_spec i 0); [lia |]. destruct (Nat.eqb_spec i (n - 1)); [lia |]. cbn [size_in size_out mod_par Nat.add]. replace (nth (1 + (i - 1)) layers 0) with (nth i layers 0) by (f_equal; lia).
    destruct i as [| j]; [lia |]. cbn [size_in size_out mod_par Nat.add]. auto.
Qed.
Definition the_ops : list nop :=
  [AddModule 0; AddModule 1] ++ (if o_bias o then AddModule 2 :: (if o_outputbias o then [AddConnection (full 2 1)] else []) else []) ++
  flat_map (fun i => AddModule (3 + i) :: (if o_bias o then [AddConnection (full 2 (3 + i))] else [])) (seq 0 (n - 2)) ++
  map (fun i => AddConnection (full (3 + i) (3 + (i + 1)))) (seq 0 (n - 3)) ++
  (if n =? 2 then [AddConnection (full 0 1)] else [AddConnection (full 0 3); AddConnection (full (3 + (n - 3)) 1)]).
Definition the_rec : list conn := if k_lstm (o_hidden o) then [full 3 3] else [].
Lemma build_eq : (k_lstm (o_hidden o) = true -> n = 3) -> buildNetwork cname o layers = Ok (the_ops, the_rec).
Proof.
  intros Hl.  unfold buildNetwork, the_ops, the_rec. fold n. destruct (Nat.ltb_spec n 2); [lia |]. cbn zeta. destruct (k_lstm (o_hidden o)) eqn:E; [| reflexivity]. specialize (Hl eq_refl). destruct (Nat.ltb_spec 3 n); [lia |]. destruct (Nat.eqb_spec (n - 2) 0); [lia | reflexivity].
Qed.
Lemma In_conn c : In (AddConnection c) the_ops <->
  (o_bias o = true /\ o_outputbias o = true /\ c = full 2 1) \/ (o_bias o = true /\ exists i, i < n - 2 /\ c = full 2 (3 + i)) \/
  (exists i, i < n - 3 /\ c = full (3 + i) (3 + (i + 1))) \/ (n = 2 /\ c = full 0 1) \/ (n <> 2 /\ (c = full 0 3 \/ c = full (3 + (n - 3)) 1)).
Proof.
  unfold the_ops. rewrite !in_app_iff, in_flat_map, in_map_iff. split.
  - intros [H | [H | [(i & Hi & H) | [(i & E & Hi) | H]]]].
    + destruct H as [H | [H | []]]; discriminate.
    + destruct (o_bias o); [| destruct H]. destruct H as [H | H]; [discriminate |]. destruct (o_outputbias o); [| destruct H]. destruct H as [H | []]. injection H as <-. auto.
    + apply in_seq in Hi. destruct H as [H | H]; [discriminate |]. destruct (o_bias o); [| destruct H]. destruct H as [H | []]. injection H as <-. right; left. split; [auto |]. exists i. split; [lia | auto].
    + apply in_seq in Hi. injection E as <-. right; right; left. exists i. split; [lia | auto].
    + destruct (Nat.eqb_spec n 2).
      * destruct H as [H | []]. injection H as <-. right; right; right; left; auto.
      * destruct H as [H | [H | []]]; injection H as <-; right; right; right; right; auto.
  - intros [(B & OB & ->) | [(B & i & Hi & ->) | [(i & Hi & ->) | [(E & ->) | (E & H)]]]].
    + right; left. rewrite B, OB. right; left; auto.
    + right; right; left. exists i. split; [apply in_seq; lia |]. rewrite B. right; left; auto.
    + right; right; right; left. exists i. split; [auto | apply in_seq; lia].
    + right; right; right; right. rewrite E. cbn [Nat.eqb]. left; auto.
    + right; right; right; right. destruct (Nat.eqb_spec n 2); [lia |]. destruct H as [-> | ->]; [left | right; left]; auto.
Qed.
Lemma joined_iff u v : linked the_ops u v <-> joined o layers u v.
Proof.
  unfold linked, joined. fold n. split.
  - intros (c & Hc & <- & <-). apply In_conn in Hc as [(B & OB & ->) | [(B & i & Hi & ->) | [(i & Hi & ->) | [(E & ->) | (E & H)]]]]; cbn [c_in c_out full].
    + right. split; [auto |]. split; [auto |]. exists (n - 1). rewrite lid_out. repeat split; auto; lia.
    + right. split; [auto |]. split; [auto |]. exists (S i). rewrite lid_hid by lia. repeat split; auto; lia.
    + left. exists (S i). rewrite !lid_hid by lia. repeat split; auto; lia.
    + left. exists 0. split; [lia |]. split; [auto |]. replace (0 + 1) with (n - 1) by lia. now rewrite lid_out.
    + left. destruct H as [-> | ->]; cbn [c_in c_out full].
      * exists 0. split; [lia |]. split; [auto |]. rewrite lid_hid by lia. auto.
      * exists (n - 2). split; [lia |]. split; [rewrite lid_hid by lia; lia |]. replace (n - 2 + 1) with (n - 1) by lia. now rewrite lid_out.
  - intros [(i & Hi & -> & ->) | (B & -> & i & Hi & -> & OB)].
    + destruct (Nat.eq_dec n 2) as [E | E].
      * exists (full 0 1). split; [apply In_conn; right; right; right; left; auto |]. assert (i = 0) by lia. subst i. cbn [c_in c_out full]. split; [auto |]. replace (0 + 1) with (n - 1) by lia. now rewrite lid_out.
      * destruct (Nat.eq_dec i 0) as [-> | Hi0]; [| destruct (Nat.eq_dec (i + 1) (n - 1)) as [Ei | Ei]].
        -- exists (full 0 3). split; [apply In_conn; right; right; right; right; auto |]. cbn [c_in c_out full]. split; [auto |]. rewrite lid_hid by lia. auto.
        -- exists (full (3 + (n - 3)) 1). split; [apply In_conn; right; right; right; right; auto |]. cbn [c_in c_out full]. rewrite Ei, lid_out. split; [rewrite lid_hid by lia; lia | auto].
        -- exists (full (3 + (i - 1)) (3 + ((i - 1) + 1))). split; [apply In_conn; right; right; left; exists (i - 1); split; [lia | auto] |]. cbn [c_in c_out full]. rewrite !lid_hid by lia. split; lia.
    + destruct (Nat.eq_dec i (n - 1)) as [-> | Hi0].
      * exists (full 2 1). split; [apply In_conn; left; auto |]. rewrite lid_out. auto.
      * exists (full 2 (3 + (i - 1))). split; [apply In_conn; right; left; split; [auto |]; exists (i - 1); split; [lia | auto] |]. cbn [c_in c_out full]. rewrite lid_hid by lia. split; [auto | lia].
Qed.
Lemma modules_iff m : In m (expected_modules o layers) <-> has_module the_ops m.
Proof.
  unfold expected_modules, has_module. fold n. rewrite in_app_iff, in_map_iff. unfold the_ops. rewrite !in_app_iff, in_flat_map, in_map_iff. split.
  - intros [(i & <- & Hi) | H].
    + apply in_seq in Hi. destruct (lid_cases i ltac:(lia)) as [[-> E] | [[-> E] | [H E]]]; rewrite E; [left; left; auto | left; right; left; auto |]. right; right; left. exists (i - 1). split; [apply in_seq; lia |]. left. f_equal. lia.
    + destruct (o_bias o); [| destruct H]. destruct H as [<- | []]. right; left. left. auto.
  - intros [H | [H | [(i & Hi & H) | [(i & E & Hi) | H]]]].
    + left. destruct H as [H | [H | []]]; injection H as <-; [exists 0 | exists (n - 1)]; (split; [first [exact lid_out | reflexivity] | apply in_seq; lia]).
    + destruct (o_bias o); [| destruct H]. destruct H as [H | H]; [injection H as <-; right; left; auto |]. destruct (o_outputbias o); [| destruct H]. destruct H as [H | []]; discriminate.
    + apply in_seq in Hi. destruct H as [H | H]; [| destruct (o_bias o); [destruct H as [H | []]; discriminate | destruct H]]. injection H as <-. left. exists (S i). split; [rewrite lid_hid by lia; auto | apply in_seq; lia].
    + discriminate.
    + destruct (n =? 2); [destruct H as [H | []]; discriminate | destruct H as [H | [H | []]]; discriminate].
Qed.
Lemma modules_nodup : NoDup (expected_modules o layers).
Proof.
  unfold expected_modules. fold n. assert (A : NoDup (map lid (seq 0 n))).
  { apply NoDup_map_on; [| apply seq_NoDup]. intros i j Hi Hj. apply in_seq in Hi, Hj. apply lid_inj; lia. }
  destruct (o_bias o); [| now rewrite app_nil_r]. eapply Permutation_NoDup; [apply Permutation_cons_append | constructor; auto]. intros K. apply in_map_iff in K as (i & E & Hi). apply in_seq in Hi. revert E. apply lid_not2. lia.
Qed.
Lemma ops_closed : closed the_ops.
Proof.
  intros c Hc. assert (L : linked the_ops (c_in c) (c_out c)) by (exists c; auto). apply joined_iff in L. rewrite <- !modules_iff. unfold expected_modules, joined in *. fold n in L |- *.
  destruct L as [(i & Hi & -> & ->) | (B & -> & i & Hi & -> & _)].
  - split; apply in_or_app; left; apply in_map; apply in_seq; lia.
  - split; apply in_or_app; [right; rewrite B; left; auto | left; apply in_map; apply in_seq; lia].
Qed.
Definition rank (m : nat) : nat := match m with 0 => 1 | 1 => n + 2 | 2 => 0 | S k => k + 1 end.
Lemma ops_acyclic : acyclic (linked the_ops).
Proof.
  apply (rank_acyclic _ rank). intros u v L. apply joined_iff in L. unfold joined in L. fold n in L. destruct L as [(i & Hi & -> & ->) | (B & -> & i & Hi & -> & _)].
  - destruct (lid_cases i ltac:(lia)) as [[H E] | [[H E] | [H E]]], (lid_cases (i + 1) ltac:(lia)) as [[H' E'] | [[H' E'] | [H' E']]]; rewrite ?E, ?E'; try lia; (destruct i as [| i]; [cbn [Nat.add rank] in *; lia |]); cbn [Nat.add rank]; lia.
  - destruct (lid_cases i ltac:(lia)) as [[H' E'] | [[H' E'] | [H' E']]]; rewrite E'; cbn [rank]; try lia. destruct i; cbn [Nat.add rank]; lia.
Qed.
Lemma conns_sum : sum (conn_par o layers) (conns_list the_ops) = sum (fun i => lout o layers i * lin o layers (i + 1)) (seq 0 (n - 1)) +
  (if o_bias o then sum (lin o layers) (seq 1 (n - 2)) + (if o_outputbias o then lin o layers (n - 1) else 0) else 0).
Proof.
  unfold conns_list, the_ops. rewrite !flat_map_app, !sum_app. set (cp := conn_par o layers). cbn [flat_map app]. rewrite sum_nil, Nat.add_0_l.
  assert (CP : forall i j, i < n -> j < n -> cp (full (lid i) (lid j)) = lout o layers i * lin o layers j). { intros i j Hi Hj. unfold cp, conn_par. cbn [c_in c_out full]. destruct (sizes i Hi) as (_ & -> & _). destruct (sizes j Hj) as (-> & _ & _). auto. }
  assert (CB : forall j, j < n -> cp (full 2 (lid j)) = lin o layers j). { intros j Hj. unfold cp, conn_par. cbn [c_in c_out full]. destruct (sizes j Hj) as (-> & _ & _). change (size_out o layers 2) with 1. lia. }
  set (F := fun op => match op with AddModule _ => [] | AddConnection c => [c] end).
  assert (P1 : sum cp (flat_map F (if o_bias o then AddModule 2 :: (if o_outputbias o then [AddConnection (full 2 1)] else []) else [])) = if o_bias o then (if o_outputbias o then lin o layers (n - 1) else 0) else 0).
  { destruct (o_bias o); [| reflexivity]. destruct (o_outputbias o); cbn [flat_map F app]; rewrite ?sum_cons, ?sum_nil; [| reflexivity]. pose proof (CB (n - 1) ltac:(lia)) as K. rewrite lid_out in K. lia. }
  assert (P2 : sum cp (flat_map F (flat_map (fun i => AddModule (3 + i) :: (if o_bias o then [AddConnection (full 2 (3 + i))] else [])) (seq 0 (n - 2)))) = if o_bias o then sum (lin o layers) (seq 1 (n - 2)) else 0).
  { rewrite <- seq_shift, sum_map. destruct (o_bias o) eqn:B.
    - assert (G : forall l, (forall i, In i l -> i < n - 2) -> sum cp (flat_map F (flat_map (fun i => AddModule (3 + i) :: [AddConnection (full 2 (3 + i))]) l)) = sum (fun x => lin o layers (S x)) l).
      { induction l as [| i l IH]; intros H; [reflexivity |]. cbn [flat_map app]. cbn [F app]. rewrite !sum_cons, IH by (intros; apply H; right; auto). f_equal. assert (i < n - 2) by (apply H; left; auto). pose proof (CB (S i) ltac:(lia)) as K. rewrite lid_hid in K by lia. exact K. }
      apply G. intros i Hi. apply in_seq in Hi. lia.
    - induction (seq 0 (n - 2)) as [| i l IH]; [reflexivity |]. cbn [flat_map app]. exact IH. }
  assert (P3 : sum cp (flat_map F (map (fun i => AddConnection (full (3 + i) (3 + (i + 1)))) (seq 0 (n - 3)))) = sum (fun i => lout o layers (S i) * lin o layers (S i + 1)) (seq 0 (n - 3))).
  { assert (G : forall l, (forall i, In i l -> i < n - 3) -> sum cp (flat_map F (map (fun i => AddConnection (full (3 + i) (3 + (i + 1)))) l)) = sum (fun i => lout o layers (S i) * lin o layers (S i + 1)) l).
    { induction l as [| i l IH]; intros H; [reflexivity |]. cbn [map flat_map]. cbn [F app]. rewrite !sum_cons, IH by (intros; apply H; right; auto). f_equal. assert (i < n - 3) by (apply H; left; auto). pose proof (CP (S i) (S i + 1) ltac:(lia) ltac:(lia)) as K. rewrite !lid_hid in K by lia. exact K. }
    apply G. intros i Hi. apply in_seq in Hi. lia. }
  rewrite P1.
rewrite P2, P3. set (h := fun i => lout o layers i * lin o layers (i + 1)) in *. destruct (Nat.eqb_spec n 2) as [E | E].
  - rewrite E. cbn [Nat.sub seq flat_map F app]. rewrite !sum_cons, !sum_nil. pose proof (CP 0 (n - 1) ltac:(lia) ltac:(lia)) as K. rewrite lid_out, lid0 in K. rewrite K. unfold h.
 replace (n - 1) with 1 by lia. cbn [Nat.sub Nat.add].
 destruct (o_bias o), (o_outputbias o); lia.
  - cbn [flat_map F app]. rewrite !sum_cons, sum_nil. assert (E1 : cp (full 0 3) = h 0). { pose proof (CP 0 1 ltac:(lia) ltac:(lia)) as K. rewrite (lid_hid 1) in K by lia. exact K. }
    assert (E2 : cp (full (3 + (n - 3)) 1) = h (n - 2)). { pose proof (CP (n - 2) (n - 2 + 1) ltac:(lia) ltac:(lia)) as K. unfold h. rewrite <- K. replace (n - 2 + 1) with (n - 1) by lia. rewrite lid_out, lid_hid by lia. replace (2 + (n - 2)) with (3 + (n - 3)) by lia. reflexivity. }
    rewrite E1, E2. assert (E3 : sum h (seq 0 (n - 1)) = h 0 + sum (fun i => h (S i)) (seq 0 (n - 3)) + h (n - 2)).
    { replace (n - 1) with (S (n - 3) + 1) by lia. rewrite seq_app, sum_app. cbn [seq Nat.add]. rewrite !sum_cons, sum_nil. rewrite <- seq_shift, sum_map. replace (S (n - 3)) with (n - 2) by lia. lia. }
    rewrite E3. change (fun i : nat => lout o layers (S i) * lin o layers (S i + 1)) with (fun i => h (S i)).
    destruct (o_bias o), (o_outputbias o); lia.
Qed.
End BuildProof.

(** With any list of at least two sizes (exactly one hidden layer for LSTM) the network is built as described and sorts, in a correct order, and has the expected number of parameters. *)
Theorem C54_build cname name o layers : 2 <= length layers -> (k_lstm (o_hidden o) = true -> length layers = 3) ->
  exists ops rec order conns, buildNetwork cname o layers = Ok (ops, rec) /\ (forall u v, linked ops u v <-> joined o layers u v) /\
  sortModules name (nrun empty_net ops) = Ok (order, conns) /\ Permutation order (expected_modules o layers) /\ (forall u v, joined o layers u v -> before u v order) /\
  build_paramdim o layers rec (order, conns) = expected_params o layers.
Proof.
  intros Hn Hl. pose proof (ops_closed cname o layers Hn) as HC. pose proof (ops_acyclic cname o layers Hn) as HA. set (ops := the_ops cname o layers) in *. destruct (topo_session name ops HC) as [T _]. destruct (T HA) as (order & E & ND & Ho & Hb).
  exists ops, (the_rec cname o), order, (sort_conns (nrun empty_net ops)). assert (ES : sortModules name (nrun empty_net ops) = Ok (order, sort_conns (nrun empty_net ops))) by (unfold sortModules; rewrite E; reflexivity).
  split; [apply build_eq; auto |]. split; [apply joined_iff; auto |]. split; [auto |]. split. { apply NoDup_Permutation; [auto | apply modules_nodup; auto |]. intros m. rewrite Ho. symmetry. apply modules_iff; auto. }
  split; [intros u v H; apply Hb; apply joined_iff; auto |]. unfold build_paramdim.
  rewrite (paramdim_total name _ _ _ ops _ (expected_modules o layers) HC HA (modules_nodup o layers Hn) (modules_iff cname o layers Hn) ES). unfold ops. rewrite conns_sum by auto. unfold expected_params.
  assert (SM : sum (mod_par o layers) (expected_modules o layers) = sum (lpar o layers) (seq 0 (length layers))).
  { unfold expected_modules. rewrite sum_app, sum_map. rewrite (sum_ext _ (lpar o layers)); [destruct (o_bias o); rewrite ?sum_cons, ?sum_nil; cbn [mod_par]; lia |]. intros i Hi. apply in_seq in Hi. apply (sizes o layers Hn); lia. }
  rewrite SM. assert (SR : list_sum (map (conn_par o layers) (the_rec cname o)) = if k_lstm (o_hidden o) then lout o layers 1 * lin o layers 1 else 0).
  { unfold the_rec. destruct (k_lstm (o_hidden o)) eqn:K; [| reflexivity]. specialize (Hl eq_refl). cbn [map list_sum fold_right]. unfold conn_par. cbn [c_in c_out full]. destruct (sizes o layers Hn 1 ltac:(lia)) as (S1 & S2 & _). rewrite lid_hid in S1, S2 by (rewrite ?Hl; lia). cbn [Nat.add] in S1, S2. rewrite S1, S2. lia. }
  rewrite SR. lia.
Qed.
(** An LSTM network with another number of hidden layers is refused, not always with a reason. *)
Theorem C54_lstm_refuted cname o layers : k_lstm (o_hidden o) = true -> 2 <= length layers -> length layers <> 3 ->
  buildNetwork cname o layers = Err (if length layers =? 2 then AttributeError else PlainException).
Proof.
  intros K H1 H2. unfold buildNetwork. destruct (Nat.ltb_spec (length layers) 2); [lia |]. cbn zeta. rewrite K. destruct (Nat.ltb_spec 3 (length layers)).
  - destruct (Nat.eqb_spec (length layers) 2); [lia | reflexivity].
  - assert (E : length layers = 2) by lia. rewrite E. reflexivity.
Qed.
Example ex_build : exists ops rec order conns, buildNetwork (fun u v => u + v) {| o_bias := true; o_outputbias := true; o_hidden := plain; o_out := plain |} [2; 3; 4; 1] = Ok (ops, rec) /\
  sortModules (fun m => m) (nrun empty_net ops) = Ok (order, conns) /\ order = [0; 2; 3; 4; 1] /\ build_paramdim {| o_bias := true; o_outputbias := true; o_hidden := plain; o_out := plain |} [2; 3; 4; 1] rec (order, conns) = 6 + 12 + 4 + 3 + 4 + 1.
Proof. do 4 eexists. split; [reflexivity |]. split; [vm_compute; reflexivity |]. split; vm_compute; reflexivity. Qed.
Example ex_lstm : expected_params {| o_bias := true; o_outputbias := true; o_hidden := lstm true; o_out := plain |} [2; 3; 1] = 24 + 3 + 9 + 12 + 1 + 36.
Proof. vm_compute. reflexivity. Qed.
Print Assumptions C54_build.
Print Assumptions C54_lstm_refuted.
