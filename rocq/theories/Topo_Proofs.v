From Verif Require Import Base Dict StableSort Topo_Model Topo_Spec.

(** ** Edges and counts *)
Definition conns_of (n : net) : list conn := concat (map snd (n_conns n)).
Definition edgeE (E : list conn) (u v : nat) : Prop := exists c, In c E /\ c_in c = u /\ c_out c = v.
Definition inS (x : nat) (S : list nat) : bool := existsb (Nat.eqb x) S.
Lemma inS_In x S : inS x S = true <-> In x S.
Proof.
  unfold inS. rewrite existsb_exists. split.
  - intros (y & Hy & E). apply Nat.eqb_eq in E. congruence.
  - intro H. exists x. split; auto. apply Nat.eqb_refl.
Qed.
(** number of connections into [k] from nodes of [S] *)
Definition cnt (E : list conn) (S : list nat) (k : nat) : nat :=
  length (filter (fun c => (c_out c =? k) && inS (c_in c) S) E).
Definition kids (E : list conn) (u : nat) : list nat := map c_out (filter (fun c => c_in c =? u) E).
Definition occ (l : list nat) (k : nat) : nat := count_occ Nat.eq_dec l k.

Lemma cnt_zero E S k : cnt E S k = 0 <-> forall u, edgeE E u k -> ~ In u S.
Proof.
  unfold cnt. split.
  - intros H u (c & Hc & <- & <-) Hin.
    assert (In c (filter (fun x => (c_out x =? c_out c) && inS (c_in x) S) E)).
    { apply filter_In. split; auto. rewrite Nat.eqb_refl. apply inS_In in Hin. rewrite Hin. reflexivity. }
    destruct (filter _ E); [contradiction|discriminate].
  - intro H. destruct (filter _ E) as [|c l] eqn:Ef; auto. exfalso.
    assert (Hc : In c (c :: l)) by (left; auto). rewrite <- Ef in Hc. apply filter_In in Hc.
    destruct Hc as [Hc Hb]. apply andb_true_iff in Hb. destruct Hb as [H1 H2].
    apply Nat.eqb_eq in H1. apply inS_In in H2. eapply H; [|exact H2]. exists c. auto.
Qed.

Lemma cnt_remove E S r k : In r S ->
  cnt E S k = cnt E (filter (fun x => negb (r =? x)) S) k + occ (kids E r) k.
Proof.
  intro Hr. unfold cnt, occ, kids. induction E as [|c E IH]; [reflexivity|].
  cbn [filter]. destruct (Nat.eqb_spec (c_in c) r) as [Ec|Ec].
  - rewrite Ec. assert (H1 : inS r S = true) by (apply inS_In; auto).
    assert (H2 : inS r (filter (fun x => negb (r =? x)) S) = false).
    { destruct (inS r (filter (fun x => negb (r =? x)) S)) eqn:Ei; auto. apply inS_In in Ei. apply filter_In in Ei.
      rewrite Nat.eqb_refl in Ei. destruct Ei; discriminate. }
    rewrite H1, H2, andb_true_r, andb_false_r. cbn [map count_occ].
    destruct (Nat.eqb_spec (c_out c) k) as [Ek|Ek]; destruct (Nat.eq_dec (c_out c) k); try contradiction;
      cbn [length]; rewrite IH; cbn [length]; lia.
  - assert (H1 : inS (c_in c) S = inS (c_in c) (filter (fun x => negb (r =? x)) S)).
    { apply eq_true_iff_eq. rewrite !inS_In, filter_In. split; [|tauto]. intro. split; auto.
      destruct (Nat.eqb_spec r (c_in c)); [congruence|reflexivity]. }
    rewrite <- H1. destruct ((c_out c =? k) && inS (c_in c) S); cbn [length]; rewrite IH; lia.
Qed.

Lemma occ_pos E u k : 0 < occ (kids E u) k <-> edgeE E u k.
Proof.
  unfold occ. change (0 < count_occ Nat.eq_dec (kids E u) k) with (count_occ Nat.eq_dec (kids E u) k > 0).
  rewrite <- count_occ_In. unfold kids. rewrite in_map_iff. split.
  - intros (c & H1 & H2). apply filter_In in H2. destruct H2 as [H2 H3]. apply Nat.eqb_eq in H3. exists c. auto.
  - intros (c & H1 & H2 & H3). exists c. split; auto. apply filter_In. split; auto. apply Nat.eqb_eq; auto.
Qed.

(** ** Building the graph *)
Definition gwf (E : list conn) (S : list nat) (g : graph) : Prop :=
  dkeys g = S /\ forall k, In k S -> dget k g = Some (Z.of_nat (length (filter (fun c => c_out c =? k) E)), kids E k).

Lemma filter_snoc {A} (p : A -> bool) l x : filter p (l ++ [x]) = filter p l ++ (if p x then [x] else []).
Proof. rewrite filter_app. reflexivity. Qed.

Lemma add_edge_ok E S g c : gwf E S g -> In (c_in c) S -> In (c_out c) S ->
  exists g', add_edge g c = Ok g' /\ gwf (E ++ [c]) S g'.
Proof.
  intros [Hk Hg] Hi Ho. unfold add_edge. rewrite (Hg _ Hi).
  rewrite dget_dset. 
  set (g1 := dset (c_in c) _ g).
  assert (Hk1 : dkeys g1 = S) by (unfold g1; rewrite dkeys_dset_in; [auto|rewrite Hk; auto]).
  assert (Hl : forall x k, length (filter (fun c0 => c_out c0 =? k) (E ++ [x]))
              = length (filter (fun c0 => c_out c0 =? k) E) + (if c_out x =? k then 1 else 0)).
  { intros. rewrite filter_snoc, app_length. destruct (c_out x =? k); reflexivity. }
  assert (Hkid : forall x k, kids (E ++ [x]) k = kids E k ++ (if c_in x =? k then [c_out x] else [])).
  { intros. unfold kids. rewrite filter_snoc, map_app. destruct (c_in x =? k); reflexivity. }
  destruct (Nat.eqb_spec (c_out c) (c_in c)) as [Eq|Ne].
  - eexists. split; [reflexivity|]. split.
    + rewrite dkeys_dset_in; auto. rewrite Hk1. auto.
    + intros k Hin. rewrite dget_dset, Hl, Hkid. unfold g1. rewrite dget_dset.
      destruct (Nat.eqb_spec k (c_out c)) as [->|Hne].
      * rewrite Eq, !Nat.eqb_refl. do 2 f_equal. lia.
      * destruct (Nat.eqb_spec k (c_in c)); [congruence|].
        destruct (Nat.eqb_spec (c_out c) k); [congruence|]. destruct (Nat.eqb_spec (c_in c) k); [congruence|].
        rewrite Hg by auto. rewrite Nat.add_0_r, app_nil_r. reflexivity.
  - rewrite (Hg _ Ho). eexists. split; [reflexivity|]. split.
    + rewrite dkeys_dset_in; auto. rewrite Hk1. auto.
    + intros k Hin. rewrite dget_dset, Hl, Hkid. unfold g1. rewrite dget_dset.
      destruct (Nat.eqb_spec k (c_out c)) as [->|Hne].
      * rewrite Nat.eqb_refl. destruct (Nat.eqb_spec (c_in c) (c_out c)); [congruence|].
        rewrite app_nil_r. do 2 f_equal. lia.
      * destruct (Nat.eqb_spec (c_out c) k); [congruence|]. rewrite Nat.add_0_r.
        destruct (Nat.eqb_spec k (c_in c)) as [->|Hne2].
        -- rewrite Nat.eqb_refl. reflexivity.
        -- destruct (Nat.eqb_spec (c_in c) k); [congruence|]. rewrite app_nil_r. apply Hg; auto.
Qed.

Lemma build_fold_ok S l : forall E g, gwf E S g ->
  (forall c, In c l -> In (c_in c) S /\ In (c_out c) S) ->
  exists g', fold_left (fun acc c => let! g := acc in add_edge g c) l (Ok g) = Ok g' /\ gwf (E ++ l) S g'.
Proof.
  induction l as [|c l IH]; intros E g Hg Hl; cbn [fold_left].
  - exists g. rewrite app_nil_r. auto.
  - cbn [rbind]. destruct (Hl c (or_introl eq_refl)) as [Hi Ho].
    destruct (add_edge_ok E S g c Hg Hi Ho) as (g1 & E1 & W1). rewrite E1.
    destruct (IH (E ++ [c]) g1 W1) as (g2 & E2 & W2). { intros; apply Hl; right; auto. }
    exists g2. split; auto. rewrite <- app_assoc in W2. exact W2.
Qed.

Lemma gwf_init S : NoDup S -> gwf [] S (map (fun m => (m, (0%Z, []))) S).
Proof.
  intro Hn. split.
  - unfold dkeys. rewrite map_map. cbn. apply map_id.
  - intros k Hk. apply In_dget.
    + unfold dkeys. rewrite map_map. cbn. rewrite map_id. auto.
    + apply in_map_iff. exists k. auto.
Qed.

Lemma build_graph_ok n : NoDup (n_modules n) ->
  (forall c, In c (conns_of n) -> In (c_in c) (n_modules n) /\ In (c_out c) (n_modules n)) ->
  exists g, build_graph n = Ok g /\ gwf (conns_of n) (n_modules n) g.
Proof.
  intros Hn Hc. unfold build_graph. fold (conns_of n).
  destruct (build_fold_ok (n_modules n) (conns_of n) [] _ (gwf_init _ Hn) Hc) as (g & E & W). exists g. auto.
Qed.

(** a missing endpoint raises KeyError *)
Lemma build_fold_missing S l : forall E g, gwf E S g ->
  (exists c, In c l /\ (~ In (c_in c) S \/ ~ In (c_out c) S)) ->
  fold_left (fun acc c => let! g := acc in add_edge g c) l (Ok g) = Err KeyError.
Proof.
  assert (Herr : forall l e, fold_left (fun acc c => let! g := acc in add_edge g c) l (Err e) = Err e).
  { induction l0; intros; cbn [fold_left rbind]; auto. }
  induction l as [|c l IH]; intros E g Hg (x & Hx & Hbad); [destruct Hx|]. cbn [fold_left rbind].
  destruct (in_dec Nat.eq_dec (c_in c) S) as [Hi|Hi]; [destruct (in_dec Nat.eq_dec (c_out c) S) as [Ho|Ho]|].
  - destruct (add_edge_ok E S g c Hg Hi Ho) as (g1 & E1 & W1). rewrite E1. eapply IH; eauto.
    exists x. split; auto. destruct Hx as [<-|Hx]; auto. tauto.
  - destruct Hg as [Hk Hg]. unfold add_edge. rewrite (Hg _ Hi), dget_dset.
    destruct (Nat.eqb_spec (c_out c) (c_in c)); [congruence|].
    rewrite (proj2 (dget_none _ _)); [apply Herr|rewrite Hk; auto].
  - destruct Hg as [Hk Hg]. unfold add_edge. rewrite (proj2 (dget_none _ _)); [apply Herr|rewrite Hk; auto].
Qed.

(** ** The loop *)
Section Loop.
Context (E : list conn) (M : list nat).

Record inv (g : graph) (roots acc : list nat) : Prop := {
  i_nd : NoDup (dkeys g);
  i_acc : NoDup acc;
  i_perm : Permutation (acc ++ dkeys g) M;
  i_g : forall k, In k (dkeys g) -> dget k g = Some (Z.of_nat (cnt E (dkeys g) k), kids E k);
  i_rnd : NoDup roots;
  i_roots : forall k, In k roots <-> In k (dkeys g) /\ cnt E (dkeys g) k = 0;
  i_order : forall l1 v l2, acc = l1 ++ v :: l2 -> forall u, edgeE E u v -> In u l1
}.

(** state inside the children loop: [done] children already visited *)
Record cinv (g0 : graph) (root : nat) (done : list nat) (g : graph) (roots : list nat) : Prop := {
  c_keys : dkeys g = dkeys g0;
  c_g : forall k, In k (dkeys g0) ->
        dget k g = Some (Z.of_nat (cnt E (dkeys g0) k) - Z.of_nat (occ done k), kids E k)%Z;
  c_rnd : NoDup roots;
  c_roots : forall k, In k roots <-> k <> root /\ In k (dkeys g0) /\ cnt E (dkeys g0) k = occ done k
}.

Lemma occ_app l m k : occ (l ++ m) k = occ l k + occ m k.
Proof. unfold occ. apply count_occ_app. Qed.

Lemma visit_ok g0 root : In root (dkeys g0) -> cnt E (dkeys g0) root = 0 ->
  (forall k, In k (dkeys g0) -> occ (kids E root) k <= cnt E (dkeys g0) k) ->
  (forall k, edgeE E root k -> In k (dkeys g0)) ->
  forall rest done g roots, kids E root = done ++ rest -> cinv g0 root done g roots ->
  exists g' roots', fold_left visit_child rest (Ok (g, roots)) = Ok (g', roots') /\
    cinv g0 root (kids E root) g' roots'.
Proof.
  intros Hr Hr0 Hle Hkids. induction rest as [|ch rest IH]; intros done g roots Ed Hc; cbn [fold_left].
  - rewrite app_nil_r in Ed. rewrite Ed. eauto.
  - assert (Hin : In ch (dkeys g0)).
    { apply Hkids. apply occ_pos. rewrite Ed, occ_app. unfold occ. cbn [count_occ].
      destruct (Nat.eq_dec ch ch); [lia|congruence]. }
    assert (Hlt : occ done ch < cnt E (dkeys g0) ch).
    { specialize (Hle ch Hin). rewrite Ed, occ_app in Hle. unfold occ in *. cbn [count_occ] in Hle.
      destruct (Nat.eq_dec ch ch); [lia|congruence]. }
    assert (Hne : ch <> root) by (intro; subst; lia).
    destruct Hc as [Ck Cg Cn Cr].
    assert (Hgo : forall g' roots', cinv g0 root (done ++ [ch]) g' roots' ->
      exists g'' roots'', fold_left visit_child rest (Ok (g', roots')) = Ok (g'', roots'') /\
        cinv g0 root (kids E root) g'' roots'').
    { intros g' roots' H. apply IH with (done := done ++ [ch]); auto. rewrite <- app_assoc. exact Ed. }
    unfold visit_child at 2. cbn [rbind]. rewrite (Cg ch Hin).
    assert (Hocc1 : occ (done ++ [ch]) ch = S (occ done ch)).
    { rewrite occ_app. unfold occ. cbn [count_occ]. destruct (Nat.eq_dec ch ch); [lia|congruence]. }
    assert (Hocc2 : forall k, k <> ch -> occ (done ++ [ch]) k = occ done k).
    { intros k Hk. rewrite occ_app. unfold occ. cbn [count_occ]. destruct (Nat.eq_dec ch k); [congruence|lia]. }
    assert (Hkeys : forall v, dkeys (dset ch v g) = dkeys g0).
    { intro v. rewrite dkeys_dset_in; auto. rewrite Ck; auto. }
    assert (Hget : forall k, In k (dkeys g0) ->
       dget k (dset ch (Z.of_nat (cnt E (dkeys g0) ch) - Z.of_nat (occ done ch) - 1, kids E ch)%Z g)
       = Some (Z.of_nat (cnt E (dkeys g0) k) - Z.of_nat (occ (done ++ [ch]) k), kids E k)%Z).
    { intros k Hk. rewrite dget_dset. destruct (Nat.eqb_spec k ch) as [->|Hkc].
      - rewrite Hocc1. do 2 f_equal. lia.
      - rewrite Hocc2 by auto. apply Cg; auto. }
    destruct (Z.eqb_spec (Z.of_nat (cnt E (dkeys g0) ch) - Z.of_nat (occ done ch) - 1) 0) as [Ez|Ez].
    + apply Hgo. constructor; auto.
      * rewrite <- (rev_involutive (roots ++ [ch])), rev_app_distr. apply NoDup_rev. cbn.
        constructor; [|apply NoDup_rev; auto]. rewrite <- in_rev. intro H. apply Cr in H. lia.
      * intro k. rewrite in_app_iff, Cr. cbn [In]. split.
        -- intros [(H1 & H2 & H3)|[<-|[]]].
           ++ repeat split; auto. rewrite Hocc2; auto. intro; subst. lia.
           ++ repeat split; auto. rewrite Hocc1. lia.
        -- intros (H1 & H2 & H3). destruct (Nat.eq_dec k ch) as [->|Hk]; auto.
           left. rewrite Hocc2 in H3; auto.
    + apply Hgo. constructor; auto.
      intro k. rewrite Cr. split; intros (H1 & H2 & H3); repeat split; auto.
      * rewrite Hocc2; auto. intro; subst. lia.
      * destruct (Nat.eq_dec k ch) as [->|Hk]; [rewrite Hocc1 in H3; lia|rewrite Hocc2 in H3; auto].
Qed.

Context (HE : forall u v, edgeE E u v -> In u M /\ In v M).

Lemma nodup_snoc {A} (l : list A) x : NoDup l -> ~ In x l -> NoDup (l ++ [x]).
Proof.
  intros Hn Hx. rewrite <- (rev_involutive (l ++ [x])), rev_app_distr. apply NoDup_rev. cbn.
  constructor; [rewrite <- in_rev; auto|apply NoDup_rev; auto].
Qed.

Lemma perm_remove (l : list nat) r : NoDup l -> In r l -> Permutation l (r :: filter (fun x => negb (r =? x)) l).
Proof.
  induction l as [|a l IH]; intros Hn Hr; [destruct Hr|]. inversion Hn; subst. cbn [filter].
  destruct (Nat.eqb_spec r a) as [->|Hne]; cbn [negb].
  - constructor. replace (filter (fun x => negb (a =? x)) l) with l; auto.
    clear -H1. induction l as [|b l IH]; auto. cbn [filter]. destruct (Nat.eqb_spec a b) as [->|].
    + exfalso. apply H1. left; auto.
    + cbn. f_equal. apply IH. intro; apply H1; right; auto.
  - destruct Hr as [|Hr]; [congruence|]. rewrite (IH H2 Hr) at 1. constructor.
Qed.

Lemma inv_keys_M g roots acc : inv g roots acc -> NoDup M -> forall k, In k M -> ~ In k acc -> In k (dkeys g).
Proof.
  intros H _ k Hk Hn. assert (In k (acc ++ dkeys g)) by (eapply Permutation_in; [symmetry; apply H|auto]).
  apply in_app_or in H0. destruct H0; tauto.
Qed.

Lemma kahn_step g root rest acc : NoDup M -> inv g (root :: rest) acc ->
  exists ch g' roots', dget root g = Some ch /\
    fold_left visit_child (snd ch) (Ok (g, rest)) = Ok (g', roots') /\
    inv (ddel root g') roots' (acc ++ [root]) /\ length (dkeys (ddel root g')) < length (dkeys g).
Proof.
  intros HM Hi. pose proof (inv_keys_M _ _ _ Hi HM) as Hkm. destruct Hi as [Hnd Hacc Hp Hg Hrn Hr Ho].
  destruct (proj1 (Hr root) (or_introl eq_refl)) as [Hin Hc0]. inversion Hrn as [|? ? Hnr Hrn']; subst.
  assert (Hdis : forall k, In k (dkeys g) -> ~ In k acc).
  { intros k H1 H2. assert (Hnn : NoDup (acc ++ dkeys g)) by (eapply Permutation_NoDup; [symmetry; eauto|auto]).
    clear -Hnn H1 H2. induction acc as [|a l IH]; [destruct H2|]. inversion Hnn; subst. destruct H2 as [<-|H2]; auto.
    apply H3. apply in_or_app; auto. }
  (* children of a root are still in the graph *)
  assert (Hkids : forall k, edgeE E root k -> In k (dkeys g)).
  { intros k Hk. apply Hkm; [apply (HE root k Hk)|]. intro Hka. apply in_split in Hka. destruct Hka as (l1 & l2 & Ea).
    assert (In root l1) by (eapply Ho; eauto). apply (Hdis root Hin). rewrite Ea. apply in_or_app; auto. }
  assert (Hle : forall k, In k (dkeys g) -> occ (kids E root) k <= cnt E (dkeys g) k).
  { intros k _. rewrite (cnt_remove E (dkeys g) root k Hin). lia. }
  exists (Z.of_nat (cnt E (dkeys g) root), kids E root). rewrite (Hg root Hin). cbn [snd].
  destruct (visit_ok g root Hin Hc0 Hle Hkids (kids E root) [] g rest eq_refl) as (g' & roots' & Ef & Hc).
  { constructor; auto.
    - intros k Hk. rewrite (Hg k Hk). do 2 f_equal. cbn. lia.
    - intro k. cbn. split.
      + intro H. destruct (proj1 (Hr k) (or_intror H)). repeat split; auto. intro; subst; auto.
      + intros (H1 & H2 & H3). assert (H : In k (root :: rest)) by (apply Hr; auto). destruct H; congruence. }
  exists g', roots'. split; auto. split; auto. destruct Hc as [Ck Cg Cn Cr].
  assert (Hkeys' : dkeys (ddel root g') = filter (fun x => negb (root =? x)) (dkeys g)) by (rewrite dkeys_ddel, Ck; auto).
  assert (Hpr := perm_remove (dkeys g) root Hnd Hin).
  split.
  - constructor.
    + apply ddel_nodup. rewrite Ck; auto.
    + apply nodup_snoc; auto.
    + rewrite Hkeys', <- app_assoc. cbn [app]. rewrite <- Hpr. exact Hp.
    + intros k Hk. rewrite Hkeys' in *. apply filter_In in Hk. destruct Hk as [Hk Hb].
      rewrite dget_ddel. destruct (Nat.eqb_spec k root) as [->|Hne]; [rewrite Nat.eqb_refl in Hb; discriminate|].
      rewrite (Cg k Hk). rewrite (cnt_remove E (dkeys g) root k Hin). do 2 f_equal. lia.
    + auto.
    + intro k. rewrite Cr, Hkeys', filter_In. rewrite (cnt_remove E (dkeys g) root k Hin). split.
      * intros (H1 & H2 & H3). split; [split; auto|lia]. destruct (Nat.eqb_spec root k); [congruence|reflexivity].
      * intros ((H1 & H2) & H3). repeat split; auto; [|lia]. intro; subst. rewrite Nat.eqb_refl in H2. discriminate.
    + intros l1 v l2 Ea u Hu. destruct (exists_last (l := v :: l2) ltac:(discriminate)) as (l2' & x & Ex).
      destruct l2 as [|y l2].
      * apply app_inj_tail in Ea. destruct Ea as [<- <-].
        pose proof (proj1 (cnt_zero _ _ _) Hc0 u Hu) as Hnu.
        destruct (in_dec Nat.eq_dec u acc) as [|Hna]; auto. exfalso. apply Hnu. apply Hkm; auto. apply (HE u root Hu).
      * assert (Ex' : v :: y :: l2 = (v :: removelast (y :: l2)) ++ [last (y :: l2) 0]).
        { rewrite (app_removelast_last 0 (l := y :: l2)) at 1 by discriminate. reflexivity. }
        rewrite Ex' in Ea. rewrite app_assoc in Ea. apply app_inj_tail in Ea. destruct Ea as [Ea _].
        eapply Ho; eauto.
  - rewrite Hkeys'. apply Permutation_length in Hpr. cbn [length] in Hpr. lia.
Qed.

Lemma kahn_ok : NoDup M -> forall fuel g roots acc, inv g roots acc -> length (dkeys g) < fuel ->
  exists g' acc', kahn fuel g roots acc = Ok (g', acc') /\ inv g' [] acc'.
Proof.
  intro HM. induction fuel as [|fuel IH]; intros g roots acc Hi Hf; [lia|].
  destruct roots as [|root rest].
  - exists g, acc. split; auto.
  - destruct (kahn_step g root rest acc HM Hi) as ([z ch] & g' & roots' & E1 & E2 & Hi' & Hl).
    cbn [kahn snd] in *. rewrite E1, E2. cbn [rbind]. apply IH; auto. lia.
Qed.
End Loop.

(** ** Cycles *)
Lemma backward_chain (E : list conn) (S : list nat) x0 : In x0 S ->
  (forall k, In k S -> exists p, In p S /\ edgeE E p k) ->
  forall n, exists x l, length l = n /\ incl (x :: l) S /\
    forall l1 a b l2, x :: l = l1 ++ a :: b :: l2 -> edgeE E a b.
Proof.
  intros H0 Hp. induction n as [|n (x & l & Hl & Hi & He)].
  - exists x0, []. split; auto. split; [intros y [<-|[]]; auto|].
    intros [|c l1] a b l2 H; [discriminate|]. destruct l1; discriminate.
  - destruct (Hp x (Hi x (or_introl eq_refl))) as (p & Hps & Hpe).
    exists p, (x :: l). split; [cbn; auto|]. split; [intros y [<-|Hy]; auto|].
    intros [|c l1] a b l2 H.
    + injection H as -> -> _. auto.
    + injection H as -> H. eapply He; eauto.
Qed.

Lemma chain_trans (E : list conn) l : (forall l1 a b l2, l = l1 ++ a :: b :: l2 -> edgeE E a b) ->
  forall l1 a l2 b l3, l = l1 ++ a :: l2 ++ b :: l3 -> clos_trans nat (edgeE E) a b.
Proof.
  intros He l1 a l2. revert l1 a. induction l2 as [|c l2 IH]; intros l1 a b l3 Hl.
  - apply t_step. eapply He. exact Hl.
  - apply t_trans with c.
    + apply t_step. eapply He. exact Hl.
    + apply IH with (l1 := l1 ++ [a]) (l3 := l3). rewrite <- app_assoc. exact Hl.
Qed.

Lemma not_nodup_split (l : list nat) : ~ NoDup l -> exists l1 a l2 l3, l = l1 ++ a :: l2 ++ a :: l3.
Proof.
  induction l as [|x l IH]; intro H; [exfalso; apply H; constructor|].
  destruct (in_dec Nat.eq_dec x l) as [Hi|Hi].
  - apply in_split in Hi. destruct Hi as (l2 & l3 & ->). exists [], x, l2, l3. reflexivity.
  - destruct IH as (l1 & a & l2 & l3 & ->); [intro Hn; apply H; constructor; auto|].
    exists (x :: l1), a, l2, l3. reflexivity.
Qed.

Lemma no_source_cycle E S : S <> [] -> (forall k, In k S -> exists p, In p S /\ edgeE E p k) ->
  ~ acyclic (edgeE E).
Proof.
  intros Hne Hp Hac. destruct S as [|x0 S]; [congruence|].
  destruct (backward_chain E (x0 :: S) x0 (or_introl eq_refl) Hp (length (x0 :: S))) as (x & l & Hl & Hi & He).
  destruct (not_nodup_split (x :: l)) as (l1 & a & l2 & l3 & Ea).
  { intro Hn. apply NoDup_incl_length in Hi; auto. cbn [length] in *. lia. }
  apply (Hac a). eapply chain_trans; eauto.
Qed.

Lemma order_acyclic (R : nat -> nat -> Prop) (l : list nat) : NoDup l -> (forall u v, R u v -> In v l) ->
  (forall l1 v l2, l = l1 ++ v :: l2 -> forall u, R u v -> In u l1) -> acyclic R.
Proof.
  intros Hn Hv Ho.
  assert (Hlt : forall u v, clos_trans nat R u v -> exists l1 l2, l = l1 ++ v :: l2 /\ In u l1).
  { intros u v H. induction H as [u v H|u w v H1 IH1 H2 IH2].
    - destruct (in_split _ _ (Hv u v H)) as (l1 & l2 & E). exists l1, l2. split; auto. eapply Ho; eauto.
    - destruct IH1 as (l1 & l2 & E1 & Hu). destruct IH2 as (m1 & m2 & E2 & Hw).
      exists m1, m2. split; auto. apply in_split in Hw. destruct Hw as (a & b & ->).
      rewrite E1 in E2. rewrite <- app_assoc in E2. cbn [app] in E2.
      assert (Ea : l1 = a).
      { rewrite E1 in Hn. rewrite E2 in Hn. clear -Hn E2. revert a E2 Hn. 
        induction l1 as [|x l1 IH]; intros [|y a] E Hn; auto; cbn in *.
        - injection E as -> E. inversion Hn; subst. exfalso. apply H1. apply in_or_app; right; left; auto.
        - injection E as <- E. inversion Hn; subst. exfalso. apply H1. rewrite <- E. apply in_or_app; right; left; auto.
        - injection E as <- E. f_equal. inversion Hn; subst. eapply IH; eauto. }
      subst. apply in_or_app; auto. }
  intros x Hx. destruct (Hlt x x Hx) as (l1 & l2 & E & Hin). rewrite E in Hn.
  apply NoDup_remove_2 in Hn. apply Hn. apply in_or_app; auto.
Qed.

(** ** The sort *)
Lemma roots_of_graph name E M g : NoDup M -> gwf E M g -> (forall u v, edgeE E u v -> In u M /\ In v M) ->
  inv E M g (find_roots name g) [].
Proof.
  intros HM [Hk Hg] HE.
  assert (Hcnt : forall k, length (filter (fun c => c_out c =? k) E) = cnt E M k).
  { intro k. unfold cnt. f_equal. apply filter_ext_in. intros c Hc.
    destruct (c_out c =? k); auto. cbn. symmetry. apply inS_In. apply (HE (c_in c) (c_out c)). exists c; auto. }
  constructor.
  - rewrite Hk; auto.
  - constructor.
  - rewrite Hk. reflexivity.
  - intros k H. rewrite Hk in *. rewrite Hg by auto. rewrite Hcnt. reflexivity.
  - unfold find_roots. eapply Permutation_NoDup; [symmetry; apply isort_perm|].
    rewrite <- Hk in HM. clear -HM. unfold dkeys in HM. induction g as [|[a b] g IH]; cbn in *; [constructor|].
    inversion HM; subst. destruct (fst b =? 0)%Z; cbn; auto. constructor; auto.
    intro H. apply H1. apply in_map_iff in H. destruct H as (x & <- & Hx). apply filter_In in Hx.
    apply in_map. tauto.
  - intro k. unfold find_roots. rewrite isort_In, in_map_iff. rewrite Hk. split.
    + intros ([a [z ch]] & <- & Hx). apply filter_In in Hx. cbn in Hx. destruct Hx as [Hx Hz].
      apply Z.eqb_eq in Hz. subst z. cbn.
      assert (Ha : In a M). { rewrite <- Hk. unfold dkeys. change a with (fst (a, (0%Z, ch))). apply in_map; auto. }
      split; auto. apply In_dget in Hx; [|rewrite Hk; auto]. rewrite Hg in Hx by auto. rewrite Hcnt in Hx.
      injection Hx as Hx _. lia.
    + intros [H1 H2]. exists (k, (0%Z, kids E k)). split; auto. apply filter_In. split; auto.
      apply dget_In. rewrite Hg by auto. rewrite Hcnt, H2. reflexivity.
  - intros [|? ?] v l2 H; discriminate.
Qed.

Definition nwf (n : net) : Prop :=
  NoDup (n_modules n) /\
  forall c, In c (conns_of n) -> In (c_in c) (n_modules n) /\ In (c_out c) (n_modules n).

Lemma topo_cases name n : nwf n ->
  (exists l, topologicalSort name n = Ok l /\ Permutation l (n_modules n) /\
     forall l1 v l2, l = l1 ++ v :: l2 -> forall u, edgeE (conns_of n) u v -> In u l1) \/
  (topologicalSort name n = Err NetworkConstructionError /\ ~ acyclic (edgeE (conns_of n))).
Proof.
  intros [HM Hc]. destruct (build_graph_ok n HM Hc) as (g & Eg & Wg).
  assert (HE : forall u v, edgeE (conns_of n) u v -> In u (n_modules n) /\ In v (n_modules n)).
  { intros u v (c & H1 & <- & <-). auto. }
  pose proof (roots_of_graph name _ _ g HM Wg HE) as Hi.
  assert (Hlen : length (dkeys g) < S (length (n_modules n))) by (destruct Wg as [-> _]; lia).
  destruct (kahn_ok (conns_of n) (n_modules n) HE HM _ g (find_roots name g) [] Hi Hlen) as (g' & acc & Ek & Hi').
  unfold topologicalSort. rewrite Eg. cbn [rbind]. rewrite Ek. cbn [rbind].
  destruct g' as [|e g'].
  - left. exists acc. split; auto. destruct Hi' as [_ _ Hp _ _ _ Ho]. cbn in Hp. rewrite app_nil_r in Hp. auto.
  - right. split; auto. apply (no_source_cycle _ (dkeys (e :: g'))); [discriminate|].
    intros k Hk. destruct Hi' as [_ _ _ _ _ Hr _].
    assert (Hc1 : cnt (conns_of n) (dkeys (e :: g')) k <> 0) by (intro H0; apply (proj2 (Hr k)); auto).
    assert (Hex : exists c, In c (filter (fun c => (c_out c =? k) && inS (c_in c) (dkeys (e :: g'))) (conns_of n))).
    { unfold cnt in Hc1. destruct (filter _ (conns_of n)) as [|c l]; [cbn in Hc1; congruence|]. exists c. left; auto. }
    destruct Hex as (c & Hin). apply filter_In in Hin. destruct Hin as [H1 H2]. apply andb_true_iff in H2.
    destruct H2 as [H2 H3]. apply Nat.eqb_eq in H2. apply inS_In in H3. exists (c_in c). split; auto. exists c. auto.
Qed.

Lemma before_of_order (R : nat -> nat -> Prop) l : (forall u v, R u v -> In v l) ->
  (forall l1 v l2, l = l1 ++ v :: l2 -> forall u, R u v -> In u l1) -> forall u v, R u v -> before u v l.
Proof.
  intros Hv Ho u v H. destruct (in_split _ _ (Hv u v H)) as (l1 & l2 & E).
  specialize (Ho _ _ _ E u H). apply in_split in Ho. destruct Ho as (a & b & ->).
  exists a, b, l2. rewrite E, <- app_assoc. reflexivity.
Qed.

Lemma topo_spec name n : nwf n ->
  (acyclic (edgeE (conns_of n)) ->
     exists l, topologicalSort name n = Ok l /\ Permutation l (n_modules n) /\
       forall u v, edgeE (conns_of n) u v -> before u v l) /\
  (~ acyclic (edgeE (conns_of n)) -> topologicalSort name n = Err NetworkConstructionError).
Proof.
  intros Hw. destruct (topo_cases name n Hw) as [(l & El & Hp & Ho)|[El Hn]].
  - assert (Hv : forall u v, edgeE (conns_of n) u v -> In v l).
    { intros u v (c & H1 & <- & <-). eapply Permutation_in; [symmetry; eauto|]. apply Hw; auto. }
    split.
    + intros _. exists l. split; auto. split; auto. apply before_of_order; auto.
    + intro H. exfalso. apply H. eapply order_acyclic; eauto. eapply Permutation_NoDup; [symmetry; eauto|apply Hw].
  - split; [intro; contradiction|auto].
Qed.

(** ** Sessions *)
Lemma conns_dset_app k (l : list conn) c d : NoDup (dkeys d) -> dget k d = Some l ->
  Permutation (concat (map snd (dset k (l ++ [c]) d))) (c :: concat (map snd d)).
Proof.
  induction d as [|[a b] d IH]; cbn [dget dset dkeys map fst]; intros Hn H; [discriminate|].
  inversion Hn; subst. destruct (Nat.eqb_spec k a) as [->|Hne].
  - injection H as ->. cbn [map snd concat]. rewrite <- app_assoc. cbn.
    rewrite <- Permutation_middle. reflexivity.
  - cbn [map snd concat]. rewrite (IH H3 H). rewrite <- Permutation_middle. reflexivity.
Qed.
Lemma conns_dset_new k (l : list conn) d : dget k d = None ->
  concat (map snd (dset k l d)) = concat (map snd d) ++ l.
Proof.
  induction d as [|[a b] d IH]; cbn [dget dset map snd concat]; intro H.
  - rewrite app_nil_r. reflexivity.
  - destruct (k =? a); [discriminate|]. cbn [map snd concat]. rewrite IH by auto. rewrite app_assoc. reflexivity.
Qed.

(** the invariant every session keeps *)
Record sess (ops : list nop) (n : net) : Prop := {
  s_nd : NoDup (n_modules n);
  s_mod : forall m, In m (n_modules n) <-> has_module ops m;
  s_keys : NoDup (dkeys (n_conns n));
  s_conn : forall c, In c (conns_of n) <-> In (AddConnection c) ops;
  s_src : forall k, dget k (n_conns n) = None -> ~ has_module ops k /\ forall c, In (AddConnection c) ops -> c_in c <> k;
  s_get : forall k l, dget k (n_conns n) = Some l ->
     l = flat_map (fun o => match o with AddConnection c => if c_in c =? k then [c] else [] | _ => [] end) ops;
  s_key : forall k, In k (dkeys (n_conns n)) <-> (has_module ops k \/ exists c, In (AddConnection c) ops /\ c_in c = k)
}.

Lemma sess_nil : sess [] empty_net.
Proof.
  constructor; cbn; try constructor; try tauto.
  - intros k l H; discriminate.
  - intros [[]|(c & [] & _)].
Qed.

Lemma sess_step ops n o : sess ops n -> sess (ops ++ [o]) (nstep n o).
Proof.
  intros [Hnd Hm Hk Hc Hs Hg Hkey]. destruct o as [m|c].
  - constructor; cbn [nstep addModule n_modules n_conns].
    + destruct (existsb (Nat.eqb m) (n_modules n)) eqn:E; auto.
      apply nodup_snoc; auto. intro H. apply inS_In in H. unfold inS in H. congruence.
    + intro k. unfold has_module. rewrite in_app_iff. cbn [In].
      destruct (existsb (Nat.eqb m) (n_modules n)) eqn:E.
      * rewrite Hm. unfold has_module. split; auto. intros [H|[H|[]]]; auto. injection H as ->.
        apply Hm. apply inS_In. exact E.
      * rewrite in_app_iff, Hm. unfold has_module. cbn [In]. split; intros [H|[H|[]]]; auto;
          injection H as ->; auto.
    + destruct (dget m (n_conns n)); auto. apply dset_nodup; auto.
    + intro c. rewrite in_app_iff. cbn [In]. unfold conns_of, nstep, addModule, addConnection. cbn [n_conns].
      assert (E : concat (map snd (match dget m (n_conns n) with Some _ => n_conns n | None => dset m [] (n_conns n) end)) = conns_of n).
      { destruct (dget m (n_conns n)) eqn:E; auto. rewrite conns_dset_new by auto. apply app_nil_r. }
      transitivity (In c (conns_of n)); [rewrite <- E; reflexivity|].
      rewrite Hc. split; auto. intros [H|[H|[]]]; auto. discriminate.
    + intros k H. assert (H' : dget k (n_conns n) = None /\ k <> m).
      { destruct (dget m (n_conns n)) eqn:E.
        - split; auto. intro; subst; congruence.
        - rewrite dget_dset in H. destruct (Nat.eqb_spec k m); [discriminate|auto]. }
      destruct H' as [H1 H2]. destruct (Hs k H1) as [H3 H4]. unfold has_module. split.
      * rewrite in_app_iff. cbn [In]. intros [H5|[H5|[]]]; [auto|]. injection H5 as ->. auto.
      * intros c. rewrite in_app_iff. cbn [In]. intros [H5|[H5|[]]]; [auto|discriminate].
    + intros k l H. rewrite flat_map_app. cbn. rewrite app_nil_r.
      destruct (dget m (n_conns n)) eqn:E.
      * apply Hg; auto.
      * rewrite dget_dset in H. destruct (Nat.eqb_spec k m) as [->|]; [|apply Hg; auto].
        injection H as <-. destruct (Hs m E) as [_ H4]. symmetry.
        clear -H4. induction ops as [|[x|c] ops IH]; cbn [flat_map]; auto.
        -- apply IH. intros; apply H4; right; auto.
        -- destruct (Nat.eqb_spec (c_in c) m) as [Em|].
           ++ exfalso. apply (H4 c); auto. left; auto.
           ++ apply IH. intros; apply H4; right; auto.
    + intro k. assert (E : In k (dkeys (match dget m (n_conns n) with Some _ => n_conns n | None => dset m [] (n_conns n) end)) <-> In k (dkeys (n_conns n)) \/ k = m).
      { destruct (dget m (n_conns n)) eqn:E.
        - split; auto. intros [| ->]; auto. apply dget_keys. eauto.
        - rewrite dkeys_dset_new by (apply dget_none; auto). rewrite in_app_iff. cbn. intuition. }
      rewrite E, Hkey. unfold has_module. rewrite in_app_iff. cbn [In]. split.
      * intros [[H|(c & H1 & H2)]| ->]; auto. right. exists c. rewrite in_app_iff; auto.
      * intros [[H|[H|[]]]|(c & H1 & H2)]; auto; [injection H as ->; auto|].
        rewrite in_app_iff in H1. cbn in H1. destruct H1 as [H1|[H1|[]]]; [|discriminate]. left; right; eauto.
  - constructor; cbn [nstep addConnection n_modules n_conns]; auto.
    + intro k. rewrite Hm. unfold has_module. rewrite in_app_iff. cbn [In]. split; auto. intros [H|[H|[]]]; auto. discriminate.
    + destruct (dget (c_in c) (n_conns n)); apply dset_nodup; auto.
    + intro x. rewrite in_app_iff. cbn [In]. unfold conns_of, nstep, addModule, addConnection. cbn [n_conns].
      assert (E : Permutation (concat (map snd (match dget (c_in c) (n_conns n) with
         | Some l => dset (c_in c) (l ++ [c]) (n_conns n) | None => dset (c_in c) [c] (n_conns n) end))) (c :: conns_of n)).
      { destruct (dget (c_in c) (n_conns n)) eqn:E.
        - apply conns_dset_app; auto.
        - rewrite conns_dset_new by auto. rewrite <- Permutation_middle, app_nil_r. reflexivity. }
      split.
      * intro H. apply (Permutation_in _ E) in H. destruct H as [<-|H]; auto. left. apply Hc; auto.
      * intro H. apply (Permutation_in _ (Permutation_sym E)). destruct H as [H|[H|[]]]; [right; apply Hc; auto|].
        injection H as ->. left; auto.
    + intros k H. assert (H' : dget k (n_conns n) = None /\ k <> c_in c).
      { destruct (dget (c_in c) (n_conns n)) eqn:E; rewrite dget_dset in H;
          destruct (Nat.eqb_spec k (c_in c)); try discriminate; auto. }
      destruct H' as [H1 H2]. destruct (Hs k H1) as [H3 H4]. unfold has_module. split.
      * rewrite in_app_iff. cbn [In]. intros [H5|[H5|[]]]; [auto|]. discriminate.
      * intros x. rewrite in_app_iff. cbn [In]. intros [H5|[H5|[]]]; [auto|]. injection H5 as <-. auto.
    + intros k l H. rewrite flat_map_app. cbn. rewrite app_nil_r.
      destruct (dget (c_in c) (n_conns n)) eqn:E; rewrite dget_dset in H;
        destruct (Nat.eqb_spec k (c_in c)) as [->|Hne].
      * rewrite Nat.eqb_refl. injection H as <-. f_equal. apply Hg; auto.
      * destruct (Nat.eqb_spec (c_in c) k); [congruence|]. rewrite app_nil_r. apply Hg; auto.
      * rewrite Nat.eqb_refl. injection H as <-. destruct (Hs _ E) as [_ H4].
        replace (flat_map _ ops) with (@nil conn); [reflexivity|]. symmetry.
        clear -H4. induction ops as [|[x|c'] ops IH]; cbn [flat_map]; auto.
        -- apply IH. intros; apply H4; right; auto.
        -- destruct (Nat.eqb_spec (c_in c') (c_in c)) as [Em|].
           ++ exfalso. apply (H4 c'); auto. left; auto.
           ++ apply IH. intros; apply H4; right; auto.
      * destruct (Nat.eqb_spec (c_in c) k); [congruence|]. rewrite app_nil_r. apply Hg; auto.
    + intro k. assert (E : In k (dkeys (match dget (c_in c) (n_conns n) with
         | Some l => dset (c_in c) (l ++ [c]) (n_conns n) | None => dset (c_in c) [c] (n_conns n) end)) <-> In k (dkeys (n_conns n)) \/ k = c_in c).
      { destruct (dget (c_in c) (n_conns n)) eqn:E.
        - assert (Hi : In (c_in c) (dkeys (n_conns n))) by (apply dget_keys; eauto).
          rewrite dkeys_dset_in by auto. split; auto. intros [| ->]; auto.
        - rewrite dkeys_dset_new by (apply dget_none; auto). rewrite in_app_iff. cbn. intuition. }
      rewrite E, Hkey. unfold has_module. rewrite in_app_iff. cbn [In]. split.
      * intros [[H|(x & H1 & H2)]| ->]; auto.
        -- right. exists x. rewrite in_app_iff; auto.
        -- right. exists c. rewrite in_app_iff. cbn; auto.
      * intros [[H|[H|[]]]|(x & H1 & H2)]; auto; [discriminate|].
        rewrite in_app_iff in H1. cbn in H1. destruct H1 as [H1|[H1|[]]]; [left; right; eauto|].
        injection H1 as <-. auto.
Qed.

Lemma sess_run ops : sess ops (nrun empty_net ops).
Proof.
  unfold nrun. rewrite <- (rev_involutive ops). induction (rev ops) as [|o l IH]; cbn [rev].
  - apply sess_nil.
  - rewrite fold_left_app. cbn [fold_left]. apply sess_step. exact IH.
Qed.

Lemma acyclic_ext {A} (R R' : A -> A -> Prop) : (forall x y, R x y <-> R' x y) -> acyclic R -> acyclic R'.
Proof.
  intros H Ha x Hx. apply (Ha x).
  assert (G : forall u v, clos_trans A R' u v -> clos_trans A R u v).
  { clear -H. induction 1; [apply t_step, H; auto|eapply t_trans; eauto]. }
  auto.
Qed.

Lemma topo_session name ops : closed ops ->
  (acyclic (linked ops) ->
     exists l, topologicalSort name (nrun empty_net ops) = Ok l /\ NoDup l /\
       (forall m, In m l <-> has_module ops m) /\ forall u v, linked ops u v -> before u v l) /\
  (~ acyclic (linked ops) -> topologicalSort name (nrun empty_net ops) = Err NetworkConstructionError).
Proof.
  intro Hc. pose proof (sess_run ops) as Hs. set (n := nrun empty_net ops) in *.
  assert (Hl : forall u v, edgeE (conns_of n) u v <-> linked ops u v).
  { intros u v. unfold edgeE, linked. split; intros (c & H1 & H2); exists c; split; auto; apply Hs; auto. }
  assert (Hw : nwf n).
  { split; [apply Hs|]. intros c Hin. apply Hs in Hin. destruct (Hc c Hin). split; apply Hs; auto. }
  destruct (topo_spec name n Hw) as [H1 H2]. split.
  - intro Ha. destruct H1 as (l & El & Hp & Hb).
    { eapply acyclic_ext; [|exact Ha]. intros; symmetry; apply Hl. }
    exists l. split; auto. split; [eapply Permutation_NoDup; [symmetry; eauto|apply Hs]|]. split.
    + intro m. rewrite <- (s_mod _ _ Hs). split; apply Permutation_in; [|symmetry]; auto.
    + intros u v H. apply Hb, Hl, H.
  - intro Hn. apply H2. intro Ha. apply Hn. eapply acyclic_ext; eauto.
Qed.

Lemma topo_missing name ops : ~ closed ops -> topologicalSort name (nrun empty_net ops) = Err KeyError.
Proof.
  intro Hc. pose proof (sess_run ops) as Hs. set (n := nrun empty_net ops) in *.
  assert (Hex : exists c, In c (conns_of n) /\ (~ In (c_in c) (n_modules n) \/ ~ In (c_out c) (n_modules n))).
  { assert (Hd : forall l, (exists c, In c l /\ (~ In (c_in c) (n_modules n) \/ ~ In (c_out c) (n_modules n))) \/
       forall c, In c l -> In (c_in c) (n_modules n) /\ In (c_out c) (n_modules n)).
    { induction l as [|c l [IH|IH]]; [right; intros ? []| |].
      - left. destruct IH as (x & H1 & H2). exists x. split; auto. right; auto.
      - destruct (in_dec Nat.eq_dec (c_in c) (n_modules n)); destruct (in_dec Nat.eq_dec (c_out c) (n_modules n));
          [right; intros x [<-|Hx]; auto|left; exists c; split; [left; auto|tauto]..]. }
    destruct (Hd (conns_of n)) as [|Hall]; auto. exfalso. apply Hc. intros c Hin. apply Hs in Hin.
    destruct (Hall c Hin). split; apply Hs; auto. }
  assert (Eg : build_graph n = Err KeyError).
  { exact (build_fold_missing (n_modules n) (conns_of n) [] _ (gwf_init _ (s_nd _ _ Hs)) Hex). }
  unfold topologicalSort. rewrite Eg. reflexivity.
Qed.
