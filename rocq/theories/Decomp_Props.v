(** Property C24: access to the parameters neuron by neuron. *)
From Verif Require Import Base Decomp_Model.

(** ** Spec *)
Definition owned (d : indices) (n : neuron) (w : nat) : Prop := exists idx, In (n, idx) d /\ In w idx.
Definition total (cs : list container) : nat := list_sum (map csize cs).
(** plain layers (and the bias unit, which has no input) and LSTM layers; at most one parameter per neuron *)
Definition wf_layer (l : layer) : Prop :=
  l_out l = l_dim l /\ l_par l <= l_dim l /\ match l_kind l with Plain => l_in l = l_dim l \/ l_in l = 0 | Lstm => l_in l = 4 * l_dim l end.
(** full connections between whole layers of the network *)
Definition wf_container (mods : list layer) (c : container) : Prop :=
  match c with
  | Full a b i o => In a mods /\ In b mods /\ i = l_out a /\ o = l_in b
  | Layer l => In l mods
  | Other _ => False
  end.
Definition shape (d : indices) : list nat := filter (fun k => negb (k =? 0)) (map (fun e => length (snd e)) d).

(** ** Lemmas *)
Lemma neuron_eqb_iff a b : neuron_eqb a b = true <-> a = b.
Proof.
  destruct a as [a1 a2], b as [b1 b2]. unfold neuron_eqb. cbn. rewrite andb_true_iff, !Nat.eqb_eq. split; [intros [-> ->]; auto | intros [= -> ->]; auto].
Qed.
Lemma append_at_ok n w : forall d, In n (map fst d) -> exists d', append_at n w d = Ok d'.
Proof.
  induction d as [|[k l] d IH]; cbn; [intros [] |]. intros H. destruct (neuron_eqb n k) eqn:E; [eauto |]. destruct H as [-> | H]; [rewrite (proj2 (neuron_eqb_iff n n)) in E; [discriminate | auto] |].
  destruct (IH H) as (d' & ->). cbn. eauto.
Qed.
Definition tidy (w : nat) (d : indices) : Prop := Forall (fun e => StronglySorted lt (snd e) /\ Forall (fun x => x < w) (snd e)) d.
Lemma ssorted_snoc w l : StronglySorted lt l -> Forall (fun x => x < w) l -> StronglySorted lt (l ++ [w]).
Proof.
  induction l as [|a l IH]; cbn; intros H1 H2; [repeat constructor |]. inversion H1; subst. inversion H2; subst. constructor; [auto |]. apply Forall_app; auto.
Qed.
Lemma append_at_spec n w : forall d d', append_at n w d = Ok d' ->
  map fst d' = map fst d /\ Permutation (concat (map snd d')) (w :: concat (map snd d)) /\ owned d' n w /\
  (forall m x, owned d m x -> owned d' m x) /\ (tidy w d -> tidy (w + 1) d').
Proof.
  induction d as [|[k l] d IH]; cbn; intros d' H; [discriminate |]. destruct (neuron_eqb n k) eqn:E.
  - injection H as <-. apply neuron_eqb_iff in E as ->. cbn. split; [auto |]. split.
    { rewrite <- app_assoc. cbn. symmetry. apply Permutation_middle. }
    split; [exists (l ++ [w]); split; [left; auto | apply in_app_iff; right; left; auto] |]. split.
    + intros m x (idx & [[= -> ->] | Hi] & Hx); [exists (idx ++ [w]); split; [left; auto | apply in_app_iff; auto] | exists idx; split; [right; auto | auto]].
    + unfold tidy. rewrite !Forall_cons_iff. cbn. intros [[S F] T]. split; [split; [apply ssorted_snoc; auto | apply Forall_app; split; [eapply Forall_impl; [| exact F]; cbn; lia | repeat constructor; lia]] |].
      eapply Forall_impl; [| exact T]. cbn. intros e [S' F']. split; [auto |]. eapply Forall_impl; [| exact F']. cbn; lia.
  - destruct (append_at n w d) as [d1|] eqn:EA; [| discriminate]. cbn in H. injection H as <-. destruct (IH d1 eq_refl) as (F & P & O & M & T). cbn. split; [f_equal; auto |]. split.
    { rewrite P. symmetry. apply Permutation_middle. }
    split; [destruct O as (idx & O1 & O2); exists idx; split; [right; auto | auto] |]. split.
    + intros m x (idx & [[= -> ->] | Hi] & Hx); [exists idx; split; [left; auto | auto] |]. destruct (M m x) as (idx' & A & B); [exists idx; auto |]. exists idx'; split; [right; auto | auto].
    + unfold tidy. rewrite !Forall_cons_iff. cbn. intros [[S F'] T']. split; [split; [auto | eapply Forall_impl; [| exact F']; cbn; lia] | apply T; auto].
Qed.
Lemma fill_spec esp outs : forall info w d d', fill esp outs w info d = Ok d' ->
  map fst d' = map fst d /\ Permutation (concat (map snd d')) (concat (map snd d) ++ seq w (length info)) /\
  (forall m x, owned d m x -> owned d' m x) /\ (forall j i, nth_error info j = Some i -> owned d' (target esp outs i) (w + j)) /\
  (tidy w d -> tidy (w + length info) d').
Proof.
  induction info as [|i info IH]; intros w d d' H; cbn [fill] in H.
  - injection H as <-. cbn. rewrite app_nil_r, Nat.add_0_r. split; [auto |]. split; [auto |]. split; [auto |]. split; [intros [|j]; discriminate | auto].
  - destruct (append_at (target esp outs i) w d) as [d1|] eqn:EA; [| discriminate]. cbn [rbind] in H. apply append_at_spec in EA as (F & P & O & M & T). apply IH in H as (F2 & P2 & M2 & O2 & T2).
    split; [congruence |]. split.
    { rewrite P2, P. cbn [length seq]. replace (S w) with (w + 1) by lia. apply Permutation_middle. }
    split; [auto |]. split.
    + intros [|j] x; cbn [nth_error]; [intros [= <-]; rewrite Nat.add_0_r; auto |]. intros Hj. replace (w + S j) with (w + 1 + j) by lia. auto.
    + intros Ht. replace (w + length (i :: info)) with (w + 1 + length info) by (cbn; lia). auto.
Qed.
Lemma fill_ok esp outs : forall info w d, (forall i, In i info -> In (target esp outs i) (map fst d)) -> exists d', fill esp outs w info d = Ok d'.
Proof.
  induction info as [|i info IH]; intros w d H; cbn [fill]; [eauto |]. destruct (append_at_ok (target esp outs i) w d) as (d1 & E); [apply H; left; auto |]. rewrite E. cbn [rbind].
  apply IH. apply append_at_spec in E as (F & _). rewrite F. intros; apply H; right; auto.
Qed.
Lemma paramInfo_length : forall cs info, paramInfo cs = Ok info -> length info = total cs.
Proof.
  unfold total. induction cs as [|c cs IH]; intros info H; cbn [paramInfo] in H; [now injection H as <- |].
  change (list_sum (map csize (c :: cs))) with (csize c + list_sum (map csize cs)).
  destruct c as [a b i o|l|n]; cbn [rbind] in H; try discriminate; destruct (paramInfo cs) as [r|]; try discriminate; cbn [rbind] in H; injection H as <-; rewrite app_length, map_length, seq_length; cbn [csize]; rewrite <- (IH r eq_refl); auto.
Qed.
Lemma nth_error_seq0 n x : x < n -> nth_error (seq 0 n) x = Some x.
Proof. intros H. rewrite (nth_error_nth' (seq 0 n) 0) by (rewrite seq_length; auto). now rewrite seq_nth by auto. Qed.
Lemma paramInfo_nth_full : forall pre a b i o post info x, paramInfo (pre ++ Full a b i o :: post) = Ok info -> x < i * o ->
  nth_error info (total pre + x) = Some ((l_id a, x mod l_out a), (l_id b, whichNeuronIn b (x / l_out a))).
Proof.
  induction pre as [|c pre IH]; intros a b i o post info x H Hx; cbn [app paramInfo] in H.
  - cbn [rbind] in H. destruct (paramInfo post); [| discriminate]. cbn [rbind] in H. injection H as <-. cbn [total map list_sum fold_right Nat.add]. rewrite nth_error_app1 by (rewrite map_length, seq_length; auto).
    rewrite nth_error_map. rewrite nth_error_seq0 by auto. reflexivity.
  - unfold total in *. change (list_sum (map csize (c :: pre))) with (csize c + list_sum (map csize pre)).
    destruct c as [a' b' i' o'|l|n]; cbn [rbind] in H; try discriminate; destruct (paramInfo (pre ++ Full a b i o :: post)) as [r|] eqn:E; try discriminate; cbn [rbind] in H; injection H as <-;
    cbn [csize]; rewrite nth_error_app2 by (rewrite map_length, seq_length; unfold neuron in *; lia); rewrite map_length, seq_length; rewrite <- (IH a b i o post r x E Hx); rewrite <- Nat.add_assoc, Nat.add_comm, Nat.add_sub; reflexivity.
Qed.
Lemma paramInfo_nth_layer : forall pre l post info x, paramInfo (pre ++ Layer l :: post) = Ok info -> x < l_par l ->
  nth_error info (total pre + x) = Some ((l_id l, x), (l_id l, x)).
Proof.
  induction pre as [|c pre IH]; intros l post info x H Hx; cbn [app paramInfo] in H.
  - cbn [rbind] in H. destruct (paramInfo post); [| discriminate]. cbn [rbind] in H. injection H as <-. cbn [total map list_sum fold_right Nat.add]. rewrite nth_error_app1 by (rewrite map_length, seq_length; auto).
    rewrite nth_error_map. rewrite nth_error_seq0 by auto. reflexivity.
  - unfold total in *. change (list_sum (map csize (c :: pre))) with (csize c + list_sum (map csize pre)).
    destruct c as [a' b' i' o'|l'|n]; cbn [rbind] in H; try discriminate; destruct (paramInfo (pre ++ Layer l :: post)) as [r|] eqn:E; try discriminate; cbn [rbind] in H; injection H as <-;
    cbn [csize]; rewrite nth_error_app2 by (rewrite map_length, seq_length; unfold neuron in *; lia); rewrite map_length, seq_length; rewrite <- (IH l post r x E Hx); rewrite <- Nat.add_assoc, Nat.add_comm, Nat.add_sub; reflexivity.
Qed.
Lemma neurons_In mods m n : In m mods -> n < l_dim m -> In (l_id m, n) (neurons mods).
Proof. intros H Hn. unfold neurons. apply in_flat_map. exists m. split; [auto |]. apply in_map_iff. exists n. split; [auto | apply in_seq; lia]. Qed.
Lemma which_lt b y : wf_layer b -> y < l_in b -> whichNeuronIn b y < l_dim b.
Proof.
  intros (_ & _ & H) Hy. unfold whichNeuronIn. destruct (l_kind b); [lia |]. apply Nat.mod_upper_bound. lia.
Qed.
Lemma paramInfo_ok mods : Forall wf_layer mods -> forall cs, Forall (wf_container mods) cs ->
  exists info, paramInfo cs = Ok info /\ forall i, In i info -> In (fst i) (neurons mods) /\ In (snd i) (neurons mods).
Proof.
  intros WM. rewrite Forall_forall in WM. induction 1 as [|c cs W _ (info & E & I)]; [exists []; split; [auto | intros i []] |]. cbn [paramInfo]. rewrite E.
  destruct c as [a b i o|l|n]; cbn in W; [| | destruct W]; cbn [rbind]; eexists; (split; [reflexivity |]); intros p Hp; apply in_app_iff in Hp as [Hp | Hp]; auto; apply in_map_iff in Hp as (x & <- & Hx); apply in_seq in Hx.
  - destruct W as (Wa & Wb & -> & ->). cbn [whichBuffers fst snd]. pose proof (WM a Wa) as (A1 & _). assert (l_out a <> 0) by nia. split.
    + apply neurons_In; [auto |]. rewrite <- A1. apply Nat.mod_upper_bound. auto.
    + apply neurons_In; [auto |]. apply which_lt; [auto |]. apply Nat.div_lt_upper_bound; lia.
  - pose proof (WM l W) as (_ & L & _). cbn [fst snd]. split; apply neurons_In; auto; lia.
Qed.

(** ** C24 *)
Theorem C24_partition : forall esp outs mods cs d, decompose esp outs mods cs = Ok d ->
  map fst d = neurons mods /\ Permutation (concat (map snd d)) (seq 0 (total cs)) /\ Forall (fun e => StronglySorted lt (snd e)) d /\
  forall w, w < total cs -> exists! n, owned d n w.
Proof.
  intros esp outs mods cs d H. unfold decompose in H. destruct (paramInfo cs) as [info|] eqn:EI; [| discriminate]. cbn [rbind] in H. pose proof (paramInfo_length _ _ EI) as L. apply fill_spec in H as (F & P & _ & _ & T).
  rewrite map_map in F. cbn in F. rewrite map_id in F. rewrite map_map in P. cbn [snd] in P.
  assert (N : concat (map (fun _ : neuron => @nil nat) (neurons mods)) = []) by (clear; induction (neurons mods); cbn; auto). rewrite N, L in P. cbn [app] in P.
  split; [auto |]. split; [auto |]. split.
  { assert (T0 : tidy 0 (map (fun n : neuron => (n, [])) (neurons mods))) by (unfold tidy; apply Forall_forall; intros e He; apply in_map_iff in He as (n & <- & _); cbn; split; constructor).
    specialize (T T0). eapply Forall_impl; [| exact T]. cbn. tauto. }
  intros w Hw. assert (ND : NoDup (concat (map snd d))) by (eapply Permutation_NoDup; [symmetry; exact P | apply seq_NoDup]).
  assert (IW : In w (concat (map snd d))) by (eapply Permutation_in; [symmetry; exact P | apply in_seq; lia]).
  apply in_concat in IW as (idx & I1 & I2). apply in_map_iff in I1 as ([n idx'] & E & I1). cbn in E. subst idx'. exists n. split; [exists idx; auto |].
  intros n' (idx' & J1 & J2). clear -ND I1 I2 J1 J2. induction d as [|[k l] d IH]; cbn in *; [destruct I1 |].
  assert (NA : NoDup l /\ NoDup (concat (map snd d)) /\ forall x, In x l -> ~ In x (concat (map snd d))).
  { clear -ND. induction l as [|a l IH]; cbn in *; [split; [constructor | split; [auto | intros x []]] |]. apply NoDup_cons_iff in ND as [N1 N2]. destruct (IH N2) as (A & B & C). split; [constructor; [intros K; apply N1, in_app_iff; auto | auto] |].
    split; [auto |]. intros x [<- | Hx]; [intros K; apply N1, in_app_iff; auto | auto]. }
  destruct NA as (_ & N2 & N3). assert (HC : forall m i, In (m, i) d -> In w i -> In w (concat (map snd d))) by (intros m i A B; apply in_concat; exists i; split; [apply in_map_iff; exists (m, i); auto | auto]).
  destruct I1 as [[= -> ->] | I1], J1 as [[= -> ->] | J1]; auto; exfalso; eapply N3; eauto.
Qed.
Theorem C24_attribution : forall esp outs mods cs, Forall wf_layer mods -> Forall (wf_container mods) cs ->
  exists d, decompose esp outs mods cs = Ok d /\
    (forall pre a b i o post x g k, cs = pre ++ Full a b i o :: post -> x < l_out a -> k < l_dim b -> g * l_dim b + k < l_in b ->
       owned d (if esp && existsb (Nat.eqb (l_id b)) outs then (l_id a, x) else (l_id b, k)) (total pre + (g * l_dim b + k) * i + x)) /\
    (forall pre l post x, cs = pre ++ Layer l :: post -> x < l_par l -> owned d (l_id l, x) (total pre + x)).
Proof.
  intros esp outs mods cs WM WC. destruct (paramInfo_ok mods WM cs WC) as (info & EI & I). unfold decompose. rewrite EI. cbn [rbind].
  destruct (fill_ok esp outs info 0 (map (fun n => (n, [])) (neurons mods))) as (d & E).
  { intros i Hi. rewrite map_map. cbn. rewrite map_id. destruct (I i Hi). unfold target. destruct (esp && _); auto. }
  exists d. split; [auto |]. apply fill_spec in E as (_ & _ & _ & O & _). split.
  - intros pre a b i o post x g k -> Hx Hk Hg. apply Forall_app in WC as [_ WC]. apply Forall_inv in WC. cbn in WC. destruct WC as (Wa & Wb & -> & ->).
    set (y := g * l_dim b + k) in *. assert (HY : y * l_out a + x < l_out a * l_in b) by nia.
    pose proof (paramInfo_nth_full pre a b _ _ post info (y * l_out a + x) EI HY) as N. apply O in N. cbn [Nat.add] in N.
    assert (E1 : (y * l_out a + x) mod l_out a = x) by (rewrite Nat.add_comm, Nat.mod_add by lia; now apply Nat.mod_small).
    assert (E2 : (y * l_out a + x) / l_out a = y) by (rewrite Nat.div_add_l by lia; rewrite Nat.div_small by lia; lia).
    rewrite E1, E2 in N. assert (E3 : whichNeuronIn b y = k).
    { rewrite Forall_forall in WM. destruct (WM b Wb) as (_ & _ & Hk'). unfold whichNeuronIn. destruct (l_kind b).
      - assert (g = 0) by nia. subst g. unfold y. lia.
      - unfold y. rewrite Nat.add_comm, Nat.mod_add by lia. now apply Nat.mod_small. }
    rewrite E3 in N. unfold target in N. cbn [fst snd] in N. replace (total pre + y * l_out a + x) with (total pre + (y * l_out a + x)) by lia. destruct (esp && _); auto.
  - intros pre l post x -> Hx. pose proof (paramInfo_nth_layer pre l post info x EI Hx) as N. apply O in N. cbn [Nat.add] in N. unfold target in N. cbn [fst snd] in N. destruct (esp && _); auto.
Qed.

Section Roundtrip.
  Context {V : Type}.
  Implicit Types (p : list V) (d : indices).
  Lemma read_all_ok p idx : Forall (fun i => i < length p) idx -> exists v, read_all p idx = Ok v /\ length v = length idx /\ forall j i, nth_error idx j = Some i -> nth_error v j = nth_error p i.
  Proof.
    induction 1 as [|i idx Hi _ (v & E & L & N)]; cbn; [exists []; repeat split; auto; intros [|j]; discriminate |]. destruct (nth_error p i) as [x|] eqn:EN; [| apply nth_error_None in EN; lia].
    rewrite E. cbn. exists (x :: v). split; [auto |]. split; [cbn; auto |]. intros [|j] i'; cbn; [intros [= <-]; auto | auto].
  Qed.
  Lemma read_all_ext p q : forall idx, (forall i, In i idx -> nth_error p i = nth_error q i) -> read_all p idx = read_all q idx.
  Proof. induction idx as [|i idx IH]; intros H; cbn; [auto |]. rewrite (H i) by (left; auto). rewrite IH by (intros; apply H; right; auto). auto. Qed.
  Lemma upd_same : forall p i x, nth_error p i = Some x -> upd i x p = p.
  Proof. induction p as [|a p IH]; intros [|i] x; cbn; intros H; try discriminate; [congruence | f_equal; auto]. Qed.
  Lemma write_read p : forall idx v, read_all p idx = Ok v -> Forall (fun i => i < length p) idx -> write_all p idx v = Ok p.
  Proof.
    induction idx as [|i idx IH]; intros v H F; cbn [read_all write_all] in *; [auto |]. destruct (nth_error p i) as [x|] eqn:EN; [| discriminate]. destruct (read_all p idx) as [r|]; [| discriminate]. cbn [rbind] in H. injection H as <-.
    inversion F; subst. rewrite (proj2 (Nat.ltb_lt i (length p))) by auto. rewrite (upd_same p i x EN). auto.
  Qed.
  Lemma write_all_ok : forall idx v p, length v = length idx -> Forall (fun i => i < length p) idx -> NoDup idx ->
    exists p', write_all p idx v = Ok p' /\ length p' = length p /\ read_all p' idx = Ok v /\ forall i, ~ In i idx -> nth_error p' i = nth_error p i.
  Proof.
    induction idx as [|i idx IH]; intros v p L F ND; destruct v as [|x v]; cbn [write_all read_all length In] in *; try lia; [exists p; auto |]. inversion F; subst. apply NoDup_cons_iff in ND as [N1 N2].
    rewrite (proj2 (Nat.ltb_lt i (length p))) by auto. destruct (IH v (upd i x p)) as (p' & E & L' & R & K); [lia | rewrite upd_length; auto | auto |].
    exists p'. split; [auto |]. split; [rewrite L', upd_length; auto |]. split.
    - rewrite (K i N1), nth_error_upd_eq by auto. rewrite R. reflexivity.
    - intros j Hj. rewrite (K j) by tauto. apply nth_error_upd_neq. intros ->. apply Hj; auto.
  Qed.
  Lemma get_set d p v : Forall (fun e => Forall (fun i => i < length p) (snd e)) d -> getDecomposition d p = Ok v -> setDecomposition d v p = Ok p.
  Proof.
    revert v. induction d as [|[n idx] d IH]; intros v F H; cbn in *; [auto |]. inversion F; subst. cbn in *. destruct idx as [|i idx]; [auto |]. destruct (read_all p (i :: idx)) as [x|] eqn:ER; [| discriminate]. cbn [rbind] in H.
    destruct (getDecomposition d p) as [r|]; [| discriminate]. cbn [rbind] in H. injection H as <-. rewrite (write_read p (i :: idx) x ER) by auto. cbn [rbind]. auto.
  Qed.
  Lemma get_ok d p : Forall (fun e => Forall (fun i => i < length p) (snd e)) d -> exists v, getDecomposition d p = Ok v /\ map (@length V) v = shape d.
  Proof.
    induction 1 as [|[n idx] d F _ (v & E & S)]; cbn; [exists []; auto |]. cbn in F. destruct idx as [|i idx]; [exists v; auto |]. destruct (read_all_ok p (i :: idx) F) as (x & EX & L & _). rewrite EX, E. cbn [rbind].
    exists (x :: v). split; [auto |]. transitivity (length x :: shape d); [cbn [map]; f_equal; exact S |]. rewrite L. reflexivity.
  Qed.
  Lemma get_ext d p q : (forall i, In i (concat (map snd d)) -> nth_error p i = nth_error q i) -> getDecomposition d p = getDecomposition d q.
  Proof.
    induction d as [|[n idx] d IH]; cbn [map snd concat]; intros H; [auto |]. cbn. assert (E : getDecomposition d p = getDecomposition d q) by (apply IH; intros; apply H, in_app_iff; auto).
    destruct idx as [|i idx]; [auto |]. rewrite (read_all_ext p q (i :: idx)) by (intros; apply H, in_app_iff; auto). now rewrite E.
  Qed.
  Lemma set_get d : forall v p, NoDup (concat (map snd d)) -> Forall (fun e => Forall (fun i => i < length p) (snd e)) d -> map (@length V) v = shape d ->
    exists p', setDecomposition d v p = Ok p' /\ length p' = length p /\ getDecomposition d p' = Ok v /\ forall i, ~ In i (concat (map snd d)) -> nth_error p' i = nth_error p i.
  Proof.
    induction d as [|[n idx] d IH]; intros v p ND F S; cbn [map snd concat] in *; [destruct v; [| discriminate]; exists p; cbn; auto |].
    inversion F; subst. cbn [snd] in *.
    assert (NA : NoDup idx /\ NoDup (concat (map snd d)) /\ forall x, In x idx -> ~ In x (concat (map snd d))).
    { clear -ND. induction idx as [|a l IH]; cbn in *; [split; [constructor | split; [auto | intros x []]] |]. apply NoDup_cons_iff in ND as [N1 N2]. destruct (IH N2) as (A & B & C). split; [constructor; [intros K; apply N1, in_app_iff; auto | auto] |].
      split; [auto |]. intros x [<- | Hx]; [intros K; apply N1, in_app_iff; auto | auto]. }
    destruct NA as (N1 & N2 & N3). destruct idx as [|i idx]; cbn [setDecomposition getDecomposition].
    - destruct (IH v p N2 H2 S) as (p' & E & L & G & K). exists p'. auto.
    - set (ii := i :: idx) in *. assert (SH : shape ((n, ii) :: d) = length ii :: shape d) by reflexivity. rewrite SH in S. clearbody ii. destruct v as [|x v]; [discriminate |]. cbn [map] in S. injection S as S1 S2.
      destruct (write_all_ok ii x p S1 H1 N1) as (p1 & E1 & L1 & R1 & K1). rewrite E1. cbn [rbind]. destruct (IH v p1 N2) as (p' & E & L & G & K); [rewrite L1; auto | auto |].
      exists p'. split; [auto |]. split; [congruence |]. split.
      + rewrite (read_all_ext p' p1 ii) by (intros j Hj; apply K, N3; auto). rewrite R1. cbn [rbind]. rewrite G. reflexivity.
      + intros j Hj. rewrite K, K1; [auto | |]; intros HH; apply Hj, in_app_iff; auto.
  Qed.
End Roundtrip.
Lemma decompose_bounds esp outs mods cs d n : decompose esp outs mods cs = Ok d -> total cs <= n -> Forall (fun e => Forall (fun i => i < n) (snd e)) d.
Proof.
  intros H Hn. destruct (C24_partition _ _ _ _ _ H) as (_ & P & _). apply Forall_forall. intros e He. apply Forall_forall. intros i Hi.
  assert (In i (seq 0 (total cs))) by (eapply Permutation_in; [exact P |]; apply in_concat; exists (snd e); split; [apply in_map; auto | auto]). apply in_seq in H0. lia.
Qed.
Theorem C24_set_after_get : forall (V : Type) esp outs mods cs d (p : list V), decompose esp outs mods cs = Ok d -> length p = total cs ->
  exists v, getDecomposition d p = Ok v /\ map (@length V) v = shape d /\ setDecomposition d v p = Ok p.
Proof.
  intros V esp outs mods cs d p H L. assert (B : Forall (fun e => Forall (fun i => i < length p) (snd e)) d) by (eapply decompose_bounds; [exact H | lia]).
  destruct (get_ok d p B) as (v & E & S). exists v. split; [auto |]. split; [auto |]. now apply get_set.
Qed.
Theorem C24_get_after_set : forall (V : Type) esp outs mods cs d (v : list (list V)) (p : list V), decompose esp outs mods cs = Ok d -> length p = total cs -> map (@length V) v = shape d ->
  exists p', setDecomposition d v p = Ok p' /\ length p' = length p /\ getDecomposition d p' = Ok v.
Proof.
  intros V esp outs mods cs d v p H L S. assert (B : Forall (fun e => Forall (fun i => i < length p) (snd e)) d) by (eapply decompose_bounds; [exact H | lia]).
  destruct (C24_partition _ _ _ _ _ H) as (_ & P & _). destruct (set_get d v p) as (p' & E & L' & G & _); [eapply Permutation_NoDup; [symmetry; exact P | apply seq_NoDup] | auto | auto |]. exists p'. auto.
Qed.

(** ** A network with an LSTM layer, a bias and parameters in the output layer *)
Definition ex_in := {| l_id := 0; l_dim := 2; l_in := 2; l_out := 2; l_par := 0; l_kind := Plain |}.
Definition ex_hid := {| l_id := 1; l_dim := 1; l_in := 4; l_out := 1; l_par := 0; l_kind := Lstm |}.
Definition ex_bias := {| l_id := 2; l_dim := 1; l_in := 0; l_out := 1; l_par := 0; l_kind := Plain |}.
Definition ex_out := {| l_id := 3; l_dim := 2; l_in := 2; l_out := 2; l_par := 2; l_kind := Plain |}.
Definition ex_mods := [ex_bias; ex_out; ex_in; ex_hid].
Definition ex_cs := [Full ex_bias ex_out 1 2; Full ex_in ex_hid 2 4; Full ex_hid ex_out 1 2; Layer ex_out].
Example C24_ex : Forall wf_layer ex_mods /\ Forall (wf_container ex_mods) ex_cs /\
  decompose true [3] ex_mods ex_cs = Ok [((2, 0), [0; 1]); ((3, 0), [12]); ((3, 1), [13]); ((0, 0), []); ((0, 1), []); ((1, 0), [2; 3; 4; 5; 6; 7; 8; 9; 10; 11])] /\
  decompose false [3] ex_mods ex_cs = Ok [((2, 0), []); ((3, 0), [0; 10; 12]); ((3, 1), [1; 11; 13]); ((0, 0), []); ((0, 1), []); ((1, 0), [2; 3; 4; 5; 6; 7; 8; 9])].
Proof. split; [repeat (apply Forall_cons || apply Forall_nil); unfold wf_layer; cbn; lia |]. split; [repeat (apply Forall_cons || apply Forall_nil); cbn; auto 10 |]. split; reflexivity. Qed.
(** Layers with more parameters or inputs than neurons make sorting the network fail. *)
Theorem C24_peepholes_refuted : forall esp outs l, 0 < l_dim l -> l_par l = 3 * l_dim l -> decompose esp outs [l] [Layer l] = Err KeyError.
Proof.
  intros esp outs l H E. unfold decompose. cbn [paramInfo rbind]. rewrite app_nil_r, E.
  assert (T : forall n, target esp outs ((l_id l, n), (l_id l, n)) = (l_id l, n)) by (intros; unfold target; destruct (_ && _); auto).
  assert (A : forall n w d d', append_at (l_id l, n) w d = Ok d' -> map fst d' = map fst d) by (intros n w d d' HA; apply append_at_spec in HA; tauto).
  assert (KE : forall n w d, ~ In n (map fst d) -> append_at n w d = Err KeyError).
  { clear. induction d as [|[k x] d IH]; cbn; intros HN; [auto |]. destruct (neuron_eqb n k) eqn:EN; [apply neuron_eqb_iff in EN; exfalso; apply HN; left; auto |]. rewrite IH by tauto. auto. }
  assert (G : forall m s w d, map fst d = neurons [l] -> s <= l_dim l -> l_dim l < s + m ->
    fill esp outs w (map (fun n => ((l_id l, n), (l_id l, n))) (seq s m)) d = Err KeyError).
  { induction m as [|m IH]; intros s w d HK H1 H2; [lia |]. cbn [seq map fill]. rewrite T.
    destruct (Nat.eq_dec s (l_dim l)) as [-> |].
    - rewrite KE; [auto |]. rewrite HK. unfold neurons. cbn. rewrite app_nil_r. intros K. apply in_map_iff in K as (x & [= ->] & Kx). apply in_seq in Kx. lia.
    - destruct (append_at_ok (l_id l, s) w d) as (d' & E'); [rewrite HK; apply neurons_In; [left; auto | lia] |]. rewrite E'. cbn [rbind]. apply IH; [rewrite (A s w d d' E'); auto | lia | lia]. }
  apply G; [rewrite map_map; cbn [fst]; apply map_id | lia | lia].
Qed.
Theorem C24_gate_layer_refuted : exists a b, l_kind b = Plain /\ l_in b = 2 * l_dim b /\ l_out b = l_dim b /\ decompose true [] [a; b] [Full a b 1 2] = Err KeyError.
Proof. exists {| l_id := 0; l_dim := 1; l_in := 1; l_out := 1; l_par := 0; l_kind := Plain |}, {| l_id := 1; l_dim := 1; l_in := 2; l_out := 1; l_par := 0; l_kind := Plain |}. vm_compute. auto. Qed.
(** A connection from the second of two input neurons only: its weights to three neurons, 0, 1 and 2, are taken to belong to the neurons 0, 0 and 1. *)
Theorem C24_slices_refuted : exists a b, l_out a = 2 /\ l_dim b = 3 /\
  decompose false [] [a; b] [Full a b 1 3] = Ok [((0, 0), []); ((0, 1), []); ((1, 0), [0; 1]); ((1, 1), [2]); ((1, 2), [])].
Proof. exists ex_in, {| l_id := 1; l_dim := 3; l_in := 3; l_out := 3; l_par := 0; l_kind := Plain |}. vm_compute. auto. Qed.

Print Assumptions C24_partition.
Print Assumptions C24_attribution.
Print Assumptions C24_set_after_get.
Print Assumptions C24_get_after_set.
Print Assumptions C24_peepholes_refuted.
Print Assumptions C24_gate_layer_refuted.
Print Assumptions C24_slices_refuted.
