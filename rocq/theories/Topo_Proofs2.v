(** Independence of set and dictionary iteration order. *)
From Verif Require Import Base Dict StableSort Topo_Model Topo_Spec Topo_Proofs.

Definition deq {V} (d d' : dict V) : Prop := forall k, dget k d = dget k d'.

Lemma deq_dset {V} k (v : V) d d' : deq d d' -> deq (dset k v d) (dset k v d').
Proof. intros H x. rewrite !dget_dset. destruct (x =? k); auto. Qed.
Lemma deq_ddel {V} k (d d' : dict V) : deq d d' -> deq (ddel k d) (ddel k d').
Proof. intros H x. rewrite !dget_ddel. destruct (x =? k); auto. Qed.

Definition req (r r' : result (graph * list nat)) : Prop :=
  match r, r' with
  | Ok (g, l), Ok (g', l') => deq g g' /\ l = l'
  | Err e, Err e' => e = e'
  | _, _ => False
  end.

Lemma visit_ext ch : forall r r', req r r' -> req (visit_child r ch) (visit_child r' ch).
Proof.
  intros [[g l]|e] [[g' l']|e'] H; cbn in *; try contradiction; auto.
  destruct H as [Hd <-]. rewrite <- Hd. destruct (dget ch g) as [[z k]|]; cbn; auto.
  split; auto. apply deq_dset; auto.
Qed.
Lemma visits_ext chs : forall r r', req r r' -> req (fold_left visit_child chs r) (fold_left visit_child chs r').
Proof. induction chs; intros r r' H; cbn [fold_left]; auto. apply IHchs, visit_ext, H. Qed.

Lemma kahn_ext fuel : forall (g g' : graph) roots acc, deq g g' -> req (kahn fuel g roots acc) (kahn fuel g' roots acc).
Proof.
  induction fuel as [|fuel IH]; intros g g' [|root rest] acc Hd; cbn [kahn]; try (cbn; auto; fail).
  rewrite <- Hd. destruct (dget root g) as [[z chs]|]; [|reflexivity].
  assert (H := visits_ext chs (Ok (g, rest)) (Ok (g', rest)) (conj Hd eq_refl)).
  destruct (fold_left visit_child chs (Ok (g, rest))) as [[g1 r1]|e];
    destruct (fold_left visit_child chs (Ok (g', rest))) as [[g2 r2]|e']; cbn in H; try contradiction.
  - destruct H as [H1 <-]. cbn [rbind]. apply IH, deq_ddel, H1.
  - subst. reflexivity.
Qed.

Lemma deq_perm {V} (d d' : dict V) : NoDup (dkeys d) -> NoDup (dkeys d') -> deq d d' -> Permutation d d'.
Proof.
  intros H H' Hd. apply NoDup_Permutation.
  - eapply NoDup_map_inv; exact H.
  - eapply NoDup_map_inv; exact H'.
  - intros [k v]. split; intro Hin.
    + apply dget_In. rewrite <- Hd. apply In_dget; auto.
    + apply dget_In. rewrite Hd. apply In_dget; auto.
Qed.

Definition consistent (d : dict (list conn)) : Prop := forall k l, In (k, l) d -> forall c, In c l -> c_in c = k.

Lemma kids_of_dict (d : dict (list conn)) k : NoDup (dkeys d) -> consistent d ->
  filter (fun c => c_in c =? k) (concat (map snd d)) = match dget k d with Some l => l | None => [] end.
Proof.
  induction d as [|[a l] d IH]; intros Hn Hc; cbn [map snd concat dget]; auto.
  inversion Hn; subst. rewrite filter_app.
  assert (Hc' : consistent d) by (intros x y H; apply Hc; right; auto).
  rewrite (IH H2 Hc'). 
  assert (Hl : forall c, In c l -> c_in c = a) by (apply (Hc a l); left; auto).
  destruct (Nat.eqb_spec k a) as [->|Hne].
  - replace (dget a d) with (@None (list conn)) by (symmetry; apply dget_none; auto). rewrite app_nil_r.
    clear -Hl. induction l as [|c l IH]; auto. cbn [filter]. rewrite (Hl c (or_introl eq_refl)), Nat.eqb_refl.
    f_equal. apply IH. intros; apply Hl; right; auto.
  - replace (filter (fun c => c_in c =? k) l) with (@nil conn); auto.
    clear -Hl Hne. induction l as [|c l IH]; auto. cbn [filter]. rewrite (Hl c (or_introl eq_refl)).
    destruct (Nat.eqb_spec a k); [congruence|]. apply IH. intros; apply Hl; right; auto.
Qed.

Lemma perm_concat_snd (d d' : dict (list conn)) : Permutation d d' ->
  Permutation (concat (map snd d)) (concat (map snd d')).
Proof.
  induction 1; cbn [map concat]; auto.
  - apply Permutation_app_head; auto.
  - rewrite !app_assoc. apply Permutation_app_tail, Permutation_app_comm.
  - etransitivity; eauto.
Qed.

Lemma perm_filter_length {A} (p : A -> bool) l l' : Permutation l l' -> length (filter p l) = length (filter p l').
Proof.
  induction 1; cbn [filter]; auto.
  - destruct (p x); cbn; auto.
  - destruct (p x), (p y); reflexivity.
  - congruence.
Qed.

Lemma perm_filter {A} (p : A -> bool) l l' : Permutation l l' -> Permutation (filter p l) (filter p l').
Proof.
  induction 1; cbn [filter]; auto.
  - destruct (p x); auto.
  - destruct (p x), (p y); auto. apply perm_swap.
  - etransitivity; eauto.
Qed.

(** two descriptions of the same network that differ only in iteration order *)
Record same_net (n n' : net) : Prop := {
  sn_mod : Permutation (n_modules n) (n_modules n');
  sn_nd : NoDup (dkeys (n_conns n));
  sn_nd' : NoDup (dkeys (n_conns n'));
  sn_cons : consistent (n_conns n);
  sn_get : deq (n_conns n) (n_conns n')
}.

Definition distinct_names (name : nat -> nat) (l : list nat) : Prop :=
  forall x y, In x l -> In y l -> name x = name y -> x = y.

Lemma topo_same name n n' : same_net n n' -> nwf n -> distinct_names name (n_modules n) ->
  topologicalSort name n = topologicalSort name n'.
Proof.
  intros [Hm Hk Hk' Hcons Hd] [HM Hc] Hnm.
  pose proof (deq_perm _ _ Hk Hk' Hd) as Hpd.
  pose proof (perm_concat_snd _ _ Hpd) as HpE. fold (conns_of n) in HpE. fold (conns_of n') in HpE.
  assert (Hcons' : consistent (n_conns n')).
  { intros k l Hin. apply Hcons. eapply Permutation_in; [symmetry; eauto|auto]. }
  assert (HM' : NoDup (n_modules n')) by (eapply Permutation_NoDup; eauto).
  assert (Hc' : forall c, In c (conns_of n') -> In (c_in c) (n_modules n') /\ In (c_out c) (n_modules n')).
  { intros c Hin. apply (Permutation_in _ (Permutation_sym HpE)) in Hin. destruct (Hc c Hin).
    split; eapply Permutation_in; eauto. }
  destruct (build_graph_ok n HM Hc) as (g & Eg & Wk & Wg).
  destruct (build_graph_ok n' HM' Hc') as (g' & Eg' & Wk' & Wg').
  assert (Hdg : deq g g').
  { intro k. destruct (in_dec Nat.eq_dec k (n_modules n)) as [Hi|Hi].
    - rewrite Wg by auto. rewrite Wg' by (eapply Permutation_in; eauto).
      unfold kids, conns_of. rewrite !kids_of_dict by auto. rewrite Hd.
      rewrite (perm_filter_length _ _ _ HpE). reflexivity.
    - rewrite !(proj2 (dget_none _ _)); auto; rewrite ?Wk, ?Wk'; auto.
      intro H. apply Hi. eapply Permutation_in; [symmetry; eauto|auto]. }
  assert (Hroots : find_roots name g = find_roots name g').
  { unfold find_roots. apply isort_canonical.
    - intros; apply nat_key_total.
    - intros x y z; apply nat_key_trans.
    - apply Permutation_map, perm_filter. apply deq_perm; auto; [rewrite Wk|rewrite Wk']; auto.
    - assert (Hin : forall x, In x (map fst (filter (fun e : nat * (Z * list nat) => (fst (snd e) =? 0)%Z) g)) -> In x (n_modules n)).
      { intros x Hx. apply in_map_iff in Hx. destruct Hx as (e & <- & He). apply filter_In in He.
        rewrite <- Wk. apply in_map. tauto. }
      intros x y Hx Hy H1 H2. unfold nat_key_leb in *. rewrite Nat.leb_le in *. apply Hnm; auto. lia. }
  unfold topologicalSort. rewrite Eg, Eg'. cbn [rbind]. rewrite Hroots, (Permutation_length Hm).
  pose proof (kahn_ext (S (length (n_modules n'))) g g' (find_roots name g') [] Hdg) as H.
  destruct (kahn _ g _ _) as [[g1 l1]|e]; destruct (kahn _ g' _ _) as [[g2 l2]|e']; cbn in H; try contradiction.
  - destruct H as [H <-]. cbn [rbind]. destruct g1 as [|e1 g1].
    + rewrite (dict_nil g2); auto. intro k. rewrite <- H. reflexivity.
    + destruct g2 as [|e2 g2]; auto. exfalso.
      assert (E : e1 :: g1 = []) by (apply dict_nil; intro k; rewrite H; reflexivity). discriminate.
  - subst. reflexivity.
Qed.

Lemma sort_conns_get n k : NoDup (n_modules n) ->
  dget k (sort_conns n) = match dget k (n_conns n) with
    | Some l => Some (if inS k (n_modules n) then isort (nat_key_leb c_name) l else l) | None => None end.
Proof.
  unfold sort_conns. generalize (n_conns n) as d. induction (n_modules n) as [|m M IH]; intros d Hn; cbn [fold_left].
  - destruct (dget k d); reflexivity.
  - inversion Hn; subst. rewrite IH by auto. unfold inS. cbn [existsb]. fold (inS k M).
    destruct (dget m d) as [l|] eqn:E.
    + rewrite dget_dset. destruct (Nat.eqb_spec k m) as [->|Hne]; auto.
      rewrite E. cbn [orb]. destruct (inS m M) eqn:Ei; auto. apply inS_In in Ei. contradiction.
    + destruct (Nat.eqb_spec k m) as [->|]; auto. rewrite E. reflexivity.
Qed.

Lemma sort_same name n n' : same_net n n' -> nwf n -> distinct_names name (n_modules n) ->
  match sortModules name n, sortModules name n' with
  | Ok s, Ok s' => fst s = fst s' /\ containers s = containers s'
  | Err e, Err e' => e = e'
  | _, _ => False
  end.
Proof.
  intros Hs Hw Hn. unfold sortModules. rewrite <- (topo_same name n n' Hs Hw Hn).
  destruct (topologicalSort name n) as [l|e]; cbn [rbind]; auto. split; auto.
  unfold containers. cbn [fst snd]. apply flat_map_ext. intro m. do 2 f_equal.
  destruct Hw as [HM _]. assert (HM' : NoDup (n_modules n')) by (eapply Permutation_NoDup; [apply Hs|auto]).
  rewrite !sort_conns_get by auto. rewrite (sn_get _ _ Hs). destruct (dget m (n_conns n')); auto.
  replace (inS m (n_modules n)) with (inS m (n_modules n')); auto.
  apply eq_true_iff_eq. rewrite !inS_In. split; apply Permutation_in; [symmetry|]; apply Hs.
Qed.

Lemma sess_consistent ops : consistent (n_conns (nrun empty_net ops)).
Proof.
  intros k l Hin c Hc. pose proof (sess_run ops) as Hs.
  apply In_dget in Hin; [|apply Hs]. apply (s_get _ _ Hs) in Hin. subst l.
  apply in_flat_map in Hc. destruct Hc as ([m|x] & _ & Hx); [destruct Hx|].
  destruct (Nat.eqb_spec (c_in x) k); [|destruct Hx]. destruct Hx as [<-|[]]. auto.
Qed.

Lemma sess_nwf ops : closed ops -> nwf (nrun empty_net ops).
Proof.
  intro Hc. pose proof (sess_run ops) as Hs. split; [apply Hs|].
  intros c Hin. apply Hs in Hin. destruct (Hc c Hin). split; apply Hs; auto.
Qed.

Lemma sessions_same ops ops' : (forall m, has_module ops m <-> has_module ops' m) ->
  (forall k, outgoing ops k = outgoing ops' k) ->
  same_net (nrun empty_net ops) (nrun empty_net ops').
Proof.
  intros Hm Ho. pose proof (sess_run ops) as Hs. pose proof (sess_run ops') as Hs'.
  constructor.
  - apply NoDup_Permutation; [apply Hs|apply Hs'|]. intro m. rewrite (s_mod _ _ Hs), (s_mod _ _ Hs'). apply Hm.
  - apply Hs.
  - apply Hs'.
  - apply sess_consistent.
  - assert (Hex : forall o k, (exists c, In (AddConnection c) o /\ c_in c = k) <-> outgoing o k <> []).
    { intros o k. unfold outgoing. split.
      - intros (c & Hc & <-) E. apply in_split in Hc. destruct Hc as (a & b & ->).
        rewrite flat_map_app in E. cbn in E. rewrite Nat.eqb_refl in E. destruct (flat_map _ a); discriminate.
      - intro Hne. destruct (flat_map _ o) as [|c l] eqn:E; [congruence|].
        assert (Hin : In c (c :: l)) by (left; auto). rewrite <- E in Hin. apply in_flat_map in Hin.
        destruct Hin as ([m|x] & H1 & H2); [destruct H2|]. destruct (Nat.eqb_spec (c_in x) k); [|destruct H2].
        destruct H2 as [<-|[]]. eauto. }
    intro k. destruct (dget k (n_conns (nrun empty_net ops))) as [l|] eqn:E;
      destruct (dget k (n_conns (nrun empty_net ops'))) as [l'|] eqn:E'; auto.
    + apply (s_get _ _ Hs) in E. apply (s_get _ _ Hs') in E'. subst. f_equal. apply Ho.
    + exfalso. apply dget_none in E'. apply E'. apply (s_key _ _ Hs'). rewrite Hex, <- Ho, <- Hex, <- Hm.
      apply (s_key _ _ Hs), dget_keys. eauto.
    + exfalso. apply dget_none in E. apply E. apply (s_key _ _ Hs). rewrite Hex, Ho, <- Hex, Hm.
      apply (s_key _ _ Hs'), dget_keys. eauto.
Qed.
