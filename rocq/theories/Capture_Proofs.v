(** The group and liberty bookkeeping of the capture game is exact. *)
From Verif Require Import Base Games_Model Games_Spec Games_Proofs Capture_Model Capture_Spec.
From Coq Require Import Lia Relations.
Local Open Scope Z_scope.

(** ** Sets *)
Lemma pmem_In p s : pmem p s = true <-> In p s.
Proof.
  unfold pmem. rewrite existsb_exists. split; [intros (x & Hx & E); apply pos_eqb_iff in E; subst; auto | intros H; exists p; split; [auto | apply pos_eqb_refl]].
Qed.
Lemma sunion_In : forall t s p, In p (sunion s t) <-> In p s \/ In p t.
Proof.
  induction t as [|x t IH]; intros s p; cbn [sunion fold_left]; [cbn; tauto |].
  fold (sunion (if pmem x s then s else s ++ [x]) t). rewrite IH. destruct (pmem x s) eqn:E.
  - apply pmem_In in E. cbn. split; [tauto |]. intros [|[<- |]]; auto.
  - rewrite in_app_iff. cbn. tauto.
Qed.
Lemma NoDup_snoc' (s : list pos) x : NoDup s -> ~ In x s -> NoDup (s ++ [x]).
Proof.
  induction s as [|y s IH]; cbn; intros Hn Hx; [constructor; [auto | apply NoDup_nil] |]. inversion Hn; subst. constructor.
  - rewrite in_app_iff. cbn. intuition.
  - apply IH; auto.
Qed.
Lemma sunion_NoDup : forall t s, NoDup s -> NoDup (sunion s t).
Proof.
  induction t as [|x t IH]; intros s H; cbn [sunion fold_left]; [auto |].
  fold (sunion (if pmem x s then s else s ++ [x]) t). apply IH. destruct (pmem x s) eqn:E; [auto |].
  apply NoDup_snoc'; auto. rewrite <- pmem_In, E. discriminate.
Qed.
Lemma sdiff1_In s p q : In q (sdiff1 s p) <-> In q s /\ q <> p.
Proof. unfold sdiff1. rewrite filter_In, negb_true_iff, pos_eqb_neq. tauto. Qed.
Lemma sdiff1_NoDup s p : NoDup s -> NoDup (sdiff1 s p).
Proof. apply NoDup_filter. Qed.

(** ** Neighbours *)
Lemma neighbors_In n p q : on_board (square n) p -> (In q (neighbors n p) <-> on_board (square n) q /\ adj p q).
Proof.
  unfold on_board, square, neighbors, adj. cbn [fst snd]. intros Hp. destruct p as [x y], q as [u v]. cbn [fst snd] in *. rewrite !in_app_iff.
  assert (E : forall (t : bool) (z w : pos), In w (if t then [z] else []) <-> t = true /\ w = z) by (intros [] z w; cbn; intuition congruence).
  rewrite !E, !Z.ltb_lt. split.
  - intros [[H [= -> ->]] | [[H [= -> ->]] | [[H [= -> ->]] | [H [= -> ->]]]]]; lia.
  - intros [H A].
    assert (C : (u = x /\ v = y + 1) \/ (u = x /\ v = y - 1) \/ (u = x + 1 /\ v = y) \/ (u = x - 1 /\ v = y)) by lia.
    destruct C as [[-> ->] | [[-> ->] | [[-> ->] | [-> ->]]]]; [left | right; left | right; right; left | right; right; right]; (split; [lia | reflexivity]).
Qed.
Lemma adj_sym p q : adj p q -> adj q p. Proof. unfold adj. lia. Qed.
Lemma adj_irrefl p : ~ adj p p. Proof. unfold adj. lia. Qed.

(** ** The invariant *)
Record cinv (n : Z) (g : cgame) : Prop := {
  ci_mark : forall p, c_b g p <> Mark;
  ci_dom : forall p c, on_board (square n) p -> c_b g p = Stone c -> exists h, c_groups g p = Some h;
  ci_stone : forall p h, c_groups g p = Some h -> on_board (square n) p /\ exists c, c_b g p = Stone c;
  ci_conn : forall p q h, c_groups g p = Some h -> (c_groups g q = Some h <-> conn (square n) (c_b g) p q);
  ci_id : forall p h, c_groups g p = Some h -> exists q, on_board (square n) q /\ c_b g q <> Empty /\ h = n * fst q + snd q;
  ci_libs : forall p h, c_groups g p = Some h -> exists s, c_libs g h = Some s /\ NoDup s /\
    forall e, In e s <-> on_board (square n) e /\ c_b g e = Empty /\ exists q, c_groups g q = Some h /\ adj q e;
  ci_keys : forall h, c_libs g h <> None -> exists p, c_groups g p = Some h }.

Lemma capture_reset_inv n : cinv n capture_reset.
Proof. constructor; cbn; intros; try discriminate; try congruence. Qed.

Section SetStone.
  Variables (n : Z) (b0 : board) (G0 : pos -> option Z) (L0 : Z -> option (list pos)) (c : color) (p : pos) (own : Z) (freen : list pos).
  Hypothesis He : b0 p = Empty.
  Hypothesis Hgp : G0 p = None.
  Hypothesis Hcol : forall m m' h, G0 m = Some h -> G0 m' = Some h -> b0 m = b0 m'.
  Hypothesis Hown : forall q h, G0 q = Some h -> h <> own.
  Hypothesis HL : forall q h, G0 q = Some h -> exists s, L0 h = Some s /\ NoDup s.
  Hypothesis Hkeys : forall h, L0 h <> None -> exists q, G0 q = Some h.
  Hypothesis Hfree : NoDup freen.
  Hypothesis Hfreep : ~ In p freen.

  Definition friend (m : pos) : bool := cell_eqb (b0 m) (Stone c).
  Definition sameg (m q : pos) : bool := match G0 m, G0 q with Some x, Some y => x =? y | _, _ => false end.
  Definition M (done : list pos) (q : pos) : bool := pos_eqb q p || existsb (fun m => friend m && sameg m q) done.
  Lemma friend_iff m : friend m = true <-> b0 m = Stone c. Proof. apply cell_eqb_iff. Qed.
  Lemma sameg_iff m q : sameg m q = true <-> exists h, G0 m = Some h /\ G0 q = Some h.
  Proof.
    unfold sameg. destruct (G0 m) as [x|], (G0 q) as [y|]; try (split; [discriminate | intros (h & [= ] & [= ])]).
    rewrite Z.eqb_eq. split; [intros ->; eauto | intros (h & [= ->] & [= ->]); auto].
  Qed.
  Lemma M_iff done q : M done q = true <-> q = p \/ exists m h, In m done /\ b0 m = Stone c /\ G0 m = Some h /\ G0 q = Some h.
  Proof.
    unfold M. rewrite orb_true_iff, pos_eqb_iff, existsb_exists. split.
    - intros [-> | (m & Hm & E)]; [auto |]. apply andb_true_iff in E as [E1 E2]. apply friend_iff in E1. apply sameg_iff in E2 as (h & E2 & E3). right. eauto 8.
    - intros [-> | (m & h & Hm & E1 & E2 & E3)]; [auto |]. right. exists m. split; [auto |]. apply andb_true_iff. split; [now apply friend_iff | apply sameg_iff; eauto].
  Qed.
  Lemma M_snoc done m q : M (done ++ [m]) q = M done q || (friend m && sameg m q).
  Proof. unfold M. rewrite existsb_app. cbn. rewrite orb_false_r, orb_assoc. reflexivity. Qed.

  Record linv (done : list pos) (st : sst) : Prop := {
    li_merge : fst (fst st) = true <-> exists m, In m done /\ b0 m = Stone c;
    li_main : exists gs S,
      snd (fst st) p = Some gs /\
      (fst (fst st) = false -> gs = own) /\
      (fst (fst st) = true -> exists m, In m done /\ b0 m = Stone c /\ G0 m = Some gs) /\
      (forall q, M done q = true -> snd (fst st) q = Some gs) /\
      (forall q, M done q = false -> snd (fst st) q = G0 q) /\
      snd st gs = Some S /\ NoDup S /\
      (forall e, In e S <-> e <> p /\ (In e freen \/ exists m h s, In m done /\ b0 m = Stone c /\ G0 m = Some h /\ L0 h = Some s /\ In e s)) /\
      (forall q h, M done q = false -> G0 q = Some h -> exists s s', L0 h = Some s /\ snd st h = Some s' /\ NoDup s' /\
         forall e, In e s' <-> In e s /\ ~ (e = p /\ exists m, In m done /\ b0 m = Stone (opp c) /\ G0 m = Some h)) /\
      (forall h, snd st h <> None -> h = gs \/ exists q, M done q = false /\ G0 q = Some h) }.

  Lemma M_nil q : M [] q = pos_eqb q p. Proof. unfold M. cbn. apply orb_false_r. Qed.
  Lemma linv_start : linv [] (false, gset G0 p own, lset L0 own (Some (sunion [] freen))).
  Proof.
    constructor; cbn [fst snd].
    - split; [discriminate | intros (m & [] & _)].
    - exists own, (sunion [] freen). unfold gset, lset. rewrite pos_eqb_refl, Z.eqb_refl. repeat split; auto; try discriminate.
      + intros q Hq. rewrite M_nil in Hq. now rewrite Hq.
      + intros q Hq. rewrite M_nil in Hq. now rewrite Hq.
      + apply sunion_NoDup, NoDup_nil.
      + apply sunion_In in H as [[] | H]. intros ->. contradiction.
      + apply sunion_In in H as [[] | H]. auto.
      + intros [_ [H | (m & h & s & [] & _)]]. apply sunion_In. auto.
      + intros q h Hq Hh. destruct (HL q h Hh) as (s & Hs & Hn). exists s, s. apply Hown in Hh. apply Z.eqb_neq in Hh. rewrite Hh.
        repeat split; auto; [intros [_ (m & [] & _)] | tauto].
      + intros h Hh. destruct (h =? own) eqn:E; [left; now apply Z.eqb_eq | right]. destruct (Hkeys h Hh) as (q & Hq). exists q. split; [| auto].
        rewrite M_nil. apply pos_eqb_neq. intros ->. congruence.
  Qed.

  Let b := bset b0 p (Stone c).
  Lemma linv_step done m st : m <> p -> (forall c', b0 m = Stone c' -> exists h, G0 m = Some h) -> linv done st ->
    exists st', set_step b c p freen st m = Ok st' /\ linv (done ++ [m]) st'.
  Proof.
    intros Hmp Hdom [Hmerge (gs & S & Hgs & Hf & Ht & HM & HN & HS & HnS & HSi & Hq & Hk)].
    destruct st as [[mg G] L]. cbn [fst snd] in *. unfold set_step. unfold b. rewrite bset_other by auto.
    assert (HMm : forall q, M done q = true -> q <> p -> b0 q = Stone c).
    { intros q H Hqp. apply M_iff in H as [-> | (m' & h & _ & H1 & H2 & H3)]; [contradiction |]. rewrite <- H1. eauto. }
    assert (Hgsne : forall q h, M done q = false -> G0 q = Some h -> h <> gs).
    { intros q h H1 H2 ->. destruct mg.
      - destruct (Ht eq_refl) as (m' & H3 & H4 & H5). apply not_true_iff_false in H1. apply H1, M_iff. right. eauto 8.
      - rewrite (Hf eq_refl) in H2. apply Hown in H2. congruence. }
    destruct (cell_eqb (b0 m) (Stone (opp c))) eqn:Eo.
    { (* an enemy stone loses a liberty *)
      apply cell_eqb_iff in Eo. destruct (Hdom _ Eo) as (h & Hh).
      assert (Hnc : b0 m <> Stone c) by (rewrite Eo; destruct c; discriminate).
      assert (HMf : M done m = false) by (apply not_true_iff_false; intros H; apply HMm in H; auto).
      rewrite (HN m HMf), Hh. cbn [oget rbind]. destruct (Hq m h HMf Hh) as (s & s' & Hs & Hs' & Hnd & Hi). rewrite Hs'. cbn [oget rbind].
      eexists. split; [reflexivity |].
      assert (Hfr : friend m = false) by (apply not_true_iff_false; rewrite friend_iff; auto).
      assert (HMe : forall q, M (done ++ [m]) q = M done q) by (intros q; rewrite M_snoc, Hfr; cbn; apply orb_false_r).
      assert (Hhg : h <> gs) by eauto.
      constructor; cbn [fst snd].
      - rewrite Hmerge. split; intros (m' & H1 & H2); [exists m'; rewrite in_app_iff; auto |]. apply in_app_iff in H1 as [H1 | [<- | []]]; [eauto | contradiction].
      - exists gs, S. repeat apply conj; auto.
        + intros T. destruct (Ht T) as (m' & H1 & H2). exists m'. rewrite in_app_iff. auto.
        + intros q. rewrite HMe. auto.
        + intros q. rewrite HMe. auto.
        + unfold lset. destruct (gs =? h) eqn:E; [apply Z.eqb_eq in E; congruence | auto].
        + intros e. rewrite HSi. split; intros [H1 H2]; (split; [auto |]); (destruct H2 as [H2 | (m' & h' & s0 & H2 & H3 & H4)]; [auto | right]).
          * exists m', h', s0. rewrite in_app_iff. auto.
          * apply in_app_iff in H2 as [H2 | [<- | []]]; [| contradiction]. eauto 8.
        + intros q h'. rewrite HMe. intros H1 H2. destruct (Hq q h' H1 H2) as (s1 & s1' & K1 & K2 & K3 & K4). unfold lset.
          destruct (h' =? h) eqn:E.
          * apply Z.eqb_eq in E. subst h'. exists s1, (sdiff1 s' p). repeat apply conj; auto; [now apply sdiff1_NoDup |].
            intros e. rewrite sdiff1_In. assert (s1' = s') by congruence. subst s1'. rewrite K4. split.
            -- intros [[A1 A2] A3]. split; [auto |]. tauto.
            -- intros [A1 A2]. assert (A3 : e <> p) by (intros ->; apply A2; split; [auto |]; exists m; rewrite in_app_iff; cbn; auto). tauto.
          * apply Z.eqb_neq in E. exists s1, s1'. repeat apply conj; auto. intros e. rewrite K4.
            assert (X : (exists m0, In m0 done /\ b0 m0 = Stone (opp c) /\ G0 m0 = Some h') <-> exists m0, In m0 (done ++ [m]) /\ b0 m0 = Stone (opp c) /\ G0 m0 = Some h').
            { split; intros (m0 & A & B & C); exists m0; (split; [| auto]); rewrite in_app_iff in *; [auto |]. destruct A as [A | [<- | []]]; [auto | congruence]. }
            rewrite X. tauto.
        + intros h'. unfold lset. destruct (h' =? h) eqn:E; [apply Z.eqb_eq in E; subst h' | ].
          * intros _. right. exists m. rewrite HMe. auto.
          * intros H. apply Hk in H as [H | (q & H1 & H2)]; [auto |]. right. exists q. rewrite HMe. auto. }
    destruct (cell_eqb (b0 m) (Stone c)) eqn:Ef.
    2: { (* an empty point *)
      eexists. split; [reflexivity |].
      assert (Hnc : b0 m <> Stone c) by (rewrite <- cell_eqb_iff; congruence).
      assert (Hno : b0 m <> Stone (opp c)) by (rewrite <- cell_eqb_iff; congruence).
      assert (HMe : forall q, M (done ++ [m]) q = M done q) by (intros q; rewrite M_snoc; unfold friend; rewrite Ef; cbn; apply orb_false_r).
      assert (Hin : forall c' (P : pos -> Prop), (c' = c \/ c' = opp c) -> ((exists m0, In m0 done /\ b0 m0 = Stone c' /\ P m0) <-> exists m0, In m0 (done ++ [m]) /\ b0 m0 = Stone c' /\ P m0)).
      { intros c' P Hc'. split; intros (m0 & A & B & C); exists m0; (split; [| auto]); rewrite in_app_iff in *; [auto |]. destruct A as [A | [<- | []]]; [auto | destruct Hc'; subst; contradiction]. }
      constructor; cbn [fst snd].
      - rewrite Hmerge. pose proof (Hin c (fun _ => True) (or_introl eq_refl)) as X. split; intros (m0 & A & B).
        + destruct (proj1 X) as (m1 & ? & ? & _); eauto.
        + destruct (proj2 X) as (m1 & ? & ? & _); eauto.
      - exists gs, S. repeat apply conj; auto.
        + intros T. apply Hin; auto.
        + intros q. rewrite HMe. auto.
        + intros q. rewrite HMe. auto.
        + intros e. rewrite HSi. split; intros [H1 H2]; (split; [auto |]); (destruct H2 as [H2 | (m' & h' & s0 & H2 & H3 & H4)]; [auto | right]).
          * exists m', h', s0. rewrite in_app_iff. auto.
          * apply in_app_iff in H2 as [H2 | [<- | []]]; [| contradiction]. eauto 8.
        + intros q h'. rewrite HMe. intros H1 H2. destruct (Hq q h' H1 H2) as (s1 & s1' & K1 & K2 & K3 & K4). exists s1, s1'. repeat apply conj; auto.
          intros e. rewrite K4. rewrite (Hin (opp c) (fun m0 => G0 m0 = Some h')) by auto. tauto.
        + intros h' H. apply Hk in H as [H | (q & H1 & H2)]; [auto |]. right. exists q. rewrite HMe. auto. }
    apply cell_eqb_iff in Ef. destruct (Hdom _ Ef) as (h & Hh).
    assert (Hfr : friend m = true) by now apply friend_iff.
    assert (Hm' : exists m0, In m0 (done ++ [m]) /\ b0 m0 = Stone c) by (exists m; rewrite in_app_iff; cbn; auto).
    assert (Hopp : forall h', (exists m0, In m0 done /\ b0 m0 = Stone (opp c) /\ G0 m0 = Some h') <-> exists m0, In m0 (done ++ [m]) /\ b0 m0 = Stone (opp c) /\ G0 m0 = Some h').
    { intros h'. split; intros (m0 & A & B & C); exists m0; (split; [| auto]); rewrite in_app_iff in *; [auto |]. destruct A as [A | [<- | []]]; [auto |].
      rewrite Ef in B. destruct c; discriminate. }
    (* the liberties of m's group were not touched by enemies *)
    assert (HMs : forall q, M (done ++ [m]) q = true <-> M done q = true \/ G0 q = Some h).
    { intros q. rewrite M_snoc, Hfr, orb_true_iff. cbn. rewrite sameg_iff. split; (intros [H | H]; [auto | right]).
      - destruct H as (h' & A & B). congruence.
      - eauto. }
    assert (HMs' : forall q, M (done ++ [m]) q = false -> M done q = false /\ G0 q <> Some h).
    { intros q H. rewrite <- !not_true_iff_false in *. rewrite HMs in H. tauto. }
    assert (HNo : ~ exists m0, In m0 done /\ b0 m0 = Stone (opp c) /\ G0 m0 = Some h).
    { intros (m0 & A & B & C). rewrite (Hcol m0 m h C Hh), Ef in B. destruct c; discriminate. }
    destruct mg.
    - rewrite Hgs. cbn [oget rbind]. destruct (M done m) eqn:EM.
      + (* already joined *)
        rewrite (HM m EM). cbn [oget rbind]. rewrite Z.eqb_refl, HS. cbn [oget rbind]. eexists. split; [reflexivity |].
        pose proof EM as EM'. apply M_iff in EM' as [-> | (m1 & h1 & I1 & I2 & I3 & I4)]; [contradiction |].
        assert (h1 = h) by congruence. subst h1.
        assert (HMe : forall q, M (done ++ [m]) q = M done q).
        { intros q. rewrite M_snoc. destruct (M done q) eqn:E; [reflexivity |]. cbn. rewrite Hfr. cbn. apply not_true_iff_false. rewrite sameg_iff.
          intros (h2 & A & B). apply not_true_iff_false in E. apply E, M_iff. right. exists m1, h2. repeat split; auto; congruence. }
        constructor; cbn [fst snd]; [split; auto |].
        exists gs, (sdiff1 S p). repeat apply conj; auto.
        * intros T. destruct (Ht T) as (m' & H1 & H2). exists m'. rewrite in_app_iff. auto.
        * intros q. rewrite HMe. auto.
        * intros q. rewrite HMe. auto.
        * unfold lset. now rewrite Z.eqb_refl.
        * now apply sdiff1_NoDup.
        * intros e. rewrite sdiff1_In, HSi. split.
          -- intros [[A1 A2] _]. split; [auto |]. destruct A2 as [A2 | (m' & h' & s0 & B1 & B2)]; [auto | right]. exists m', h', s0. rewrite in_app_iff. auto.
          -- intros [A1 A2]. split; [| auto]. split; [auto |]. destruct A2 as [A2 | (m' & h' & s0 & B1 & B2 & B3 & B4)]; [auto | right].
             apply in_app_iff in B1 as [B1 | [<- | []]]; [eauto 8 |]. assert (h' = h) by congruence. subst h'. exists m1, h, s0. auto.
        * intros q h' H1 H2. rewrite HMe in H1. destruct (Hq q h' H1 H2) as (s1 & s1' & K1 & K2 & K3 & K4). exists s1, s1'.
          unfold lset. destruct (h' =? gs) eqn:E; [apply Z.eqb_eq in E; subst; exfalso; eapply Hgsne; eauto |].
          repeat apply conj; auto. intros e. rewrite K4, <- Hopp. tauto.
        * intros h'. unfold lset. destruct (h' =? gs) eqn:E; [apply Z.eqb_eq in E; auto |]. intros H. apply Hk in H as [H | (q & H1 & H2)]; [auto |].
          right. exists q. rewrite HMe. auto.
      + (* two groups merge *)
        rewrite (HN m EM), Hh. cbn [oget rbind]. assert (Hhg : h <> gs) by eauto.
        destruct (gs =? h) eqn:Egh; [apply Z.eqb_eq in Egh; congruence |].
        destruct (Hq m h EM Hh) as (s & s' & Hs & Hs' & Hnd & Hi). rewrite HS, Hs'. cbn [oget rbind]. eexists. split; [reflexivity |].
        constructor; cbn [fst snd]; [split; auto |].
        exists gs, (sdiff1 (sunion S s') p). unfold relabel, lset. repeat apply conj; auto.
        * rewrite Hgs, Egh. auto.
        * intros T. destruct (Ht T) as (m' & H1 & H2). exists m'. rewrite in_app_iff. auto.
        * intros q H. apply HMs in H. destruct (M done q) eqn:E; [rewrite (HM q E), Egh; auto |]. destruct H as [H | H]; [discriminate |].
          rewrite (HN q E), H, Z.eqb_refl. auto.
        * intros q H. destruct (HMs' q H) as [H1 H2]. rewrite (HN q H1). destruct (G0 q) as [k|]; [| auto].
          destruct (k =? h) eqn:E; [apply Z.eqb_eq in E; congruence | auto].
        * rewrite Egh, Z.eqb_refl. auto.
        * apply sdiff1_NoDup, sunion_NoDup. auto.
        * intros e. rewrite sdiff1_In, sunion_In, HSi, Hi. split.
          -- intros [[[A1 A2] | [A1 A2]] A3]; (split; [auto |]).
             ++ destruct A2 as [A2 | (m' & h' & s0 & B1 & B2)]; [auto | right]. exists m', h', s0. rewrite in_app_iff. auto.
             ++ right. exists m, h, s. rewrite in_app_iff. cbn. auto.
          -- intros [A1 A2]. split; [| auto]. destruct A2 as [A2 | (m' & h' & s0 & B1 & B2 & B3 & B4 & B5)]; [auto |].
             apply in_app_iff in B1 as [B1 | [<- | []]]; [left; split; [auto |]; right; eauto 8 |]. assert (h' = h) by congruence. subst h'.
             right. assert (s0 = s) by congruence. subst s0. split; [auto |]. intros [? _]. contradiction.
        * intros q h' H1 H2. destruct (HMs' q H1) as [H3 H4]. destruct (Hq q h' H3 H2) as (s1 & s1' & K1 & K2 & K3 & K4). exists s1, s1'.
          destruct (h' =? h) eqn:E1; [apply Z.eqb_eq in E1; congruence |].
          destruct (h' =? gs) eqn:E; [apply Z.eqb_eq in E; subst; exfalso; eapply Hgsne; eauto |].
          repeat apply conj; auto. intros e. rewrite K4, <- Hopp. tauto.
        * intros h'. destruct (h' =? h) eqn:E1; [congruence |]. destruct (h' =? gs) eqn:E; [apply Z.eqb_eq in E; auto |].
          intros H. apply Hk in H as [H | (q & H1 & H2)]; [auto |]. right. exists q. split; [| auto].
          apply not_true_iff_false. rewrite HMs, H1, H2. apply Z.eqb_neq in E1. intros [? | [= ?]]; [discriminate | contradiction].
    - (* the first friend *)
      rewrite Hgs. cbn [oget rbind]. rewrite HS. cbn [oget rbind].
      assert (Hnf : forall m0, In m0 done -> b0 m0 <> Stone c).
      { intros m0 A B. assert (X : false = true) by (apply Hmerge; eauto). discriminate. }
      assert (EMq : forall q, M done q = pos_eqb q p).
      { intros q. destruct (pos_eqb q p) eqn:E; [apply pos_eqb_iff in E; subst; apply M_iff; auto |]. apply not_true_iff_false. rewrite M_iff.
        intros [-> | (m0 & h0 & A & B & _)]; [rewrite pos_eqb_refl in E; discriminate | eapply Hnf; eauto]. }
      assert (EM : M done m = false) by (rewrite EMq; now apply pos_eqb_neq).
      rewrite (HN m EM), Hh. cbn [oget rbind]. assert (Hhg : h <> gs) by eauto.
      destruct (Hq m h EM Hh) as (s & s' & Hs & Hs' & Hnd & Hi).
      assert (E1 : lset L gs None h = Some s') by (unfold lset; destruct (h =? gs) eqn:E; [apply Z.eqb_eq in E; contradiction | auto]).
      rewrite E1. cbn [oget rbind]. eexists. split; [reflexivity |].
      constructor; cbn [fst snd]; [split; auto |].
      exists h, (sdiff1 (sunion s' freen) p). unfold gset, lset. repeat apply conj; auto.
      * now rewrite pos_eqb_refl.
      * discriminate.
      * intros _. exists m. rewrite in_app_iff. cbn. auto.
      * intros q H. apply HMs in H. rewrite EMq in H. destruct (pos_eqb q p) eqn:E; [auto |]. destruct H as [H | H]; [discriminate |].
        rewrite HN by (rewrite EMq; auto). auto.
      * intros q H. destruct (HMs' q H) as [H1 H2]. rewrite (HN q H1). rewrite EMq in H1. now rewrite H1.
      * now rewrite Z.eqb_refl.
      * apply sdiff1_NoDup, sunion_NoDup. auto.
      * intros e. rewrite sdiff1_In, sunion_In, Hi. split.
        -- intros [[[A1 A2] | A1] A3]; (split; [auto |]); [right; exists m, h, s; rewrite in_app_iff; cbn; auto | auto].
        -- intros [A1 A2]. split; [| auto]. destruct A2 as [A2 | (m' & h' & s0 & B1 & B2 & B3 & B4 & B5)]; [auto |].
           apply in_app_iff in B1 as [B1 | [<- | []]]; [exfalso; eapply Hnf; eauto |]. assert (h' = h) by congruence. subst h'.
           assert (s0 = s) by congruence. subst s0. left. split; [auto |]. intros [? _]. contradiction.
      * intros q h' H1 H2. destruct (HMs' q H1) as [H3 H4]. destruct (Hq q h' H3 H2) as (s1 & s1' & K1 & K2 & K3 & K4). exists s1, s1'.
        destruct (h' =? h) eqn:E2; [apply Z.eqb_eq in E2; congruence |].
        destruct (h' =? gs) eqn:E; [apply Z.eqb_eq in E; subst; exfalso; eapply Hgsne; eauto |].
        repeat apply conj; auto. intros e. rewrite K4, <- Hopp. tauto.
      * intros h'. destruct (h' =? h) eqn:E2; [apply Z.eqb_eq in E2; auto |]. destruct (h' =? gs) eqn:E; [congruence |].
        intros H. apply Hk in H as [H | (q & H1 & H2)]; [apply Z.eqb_neq in E; congruence |]. right. exists q. split; [| auto].
        apply not_true_iff_false. rewrite HMs, H1, H2. apply Z.eqb_neq in E2. intros [? | [= ?]]; [discriminate | contradiction].
  Qed.

  Lemma linv_loop ns : forall done st, (forall m, In m ns -> m <> p /\ forall c', b0 m = Stone c' -> exists h, G0 m = Some h) -> linv done st ->
    exists st', set_loop b c p freen ns st = Ok st' /\ linv (done ++ ns) st'.
  Proof.
    induction ns as [|m ns IH]; intros done st H I; cbn [set_loop].
    - exists st. rewrite app_nil_r. auto.
    - destruct (H m (or_introl eq_refl)) as [H1 H2]. destruct (linv_step done m st H1 H2 I) as (st' & E & I'). rewrite E. cbn [rbind].
      destruct (IH (done ++ [m]) st') as (st'' & E' & I''); [intros; apply H; right; auto | auto |]. exists st''. rewrite <- app_assoc in I''. auto.
  Qed.
End SetStone.
