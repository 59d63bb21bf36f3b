(** _setStone preserves the invariant; what suicide and capture mean on the board. *)
From Verif Require Import Base Games_Model Games_Spec Games_Proofs Capture_Model Capture_Spec Capture_Proofs.
From Coq Require Import Lia Relations.
Local Open Scope Z_scope.

Lemma neq_opp c c' : c' <> c -> c' = opp c.
Proof. destruct c, c'; cbn; congruence. Qed.
Lemma mk_linked s b x y c : on_board s x -> on_board s y -> adj x y -> b x = Stone c -> b y = Stone c -> linked s b x y.
Proof. intros. split; [auto |]. split; [auto |]. split; [auto |]. exists c. auto. Qed.
Lemma linked_sym s b x y : linked s b x y -> linked s b y x.
Proof. intros (H1 & H2 & H3 & c & H4 & H5). apply (mk_linked s b y x c); auto. now apply adj_sym. Qed.
Lemma conn_sym s b x y : conn s b x y -> conn s b y x.
Proof. intros H. induction H; [apply rt_step; now apply linked_sym | apply rt_refl | eapply rt_trans; eauto]. Qed.
Lemma conn_trans s b x y z : conn s b x y -> conn s b y z -> conn s b x z.
Proof. intros. eapply rt_trans; eauto. Qed.
Lemma conn_closed s b (P : pos -> Prop) : (forall x y, P x -> linked s b x y -> P y) -> forall x y, conn s b x y -> P x -> P y.
Proof. intros H x y C. induction C; intros; eauto. Qed.
Lemma conn_color s b c x y : conn s b x y -> on_board s x /\ b x = Stone c -> on_board s y /\ b y = Stone c.
Proof.
  apply (conn_closed s b (fun z => on_board s z /\ b z = Stone c)).
  intros u v [_ Hu] (H1 & H2 & _ & c' & H3 & H4). split; [auto | congruence].
Qed.
Lemma linked_placed s b p c x y : b p = Empty -> linked s b x y -> linked s (placed b p c) x y.
Proof.
  intros He (H1 & H2 & H3 & c' & H4 & H5). apply (mk_linked s _ x y c'); auto; rewrite placed_other by congruence; auto.
Qed.
Lemma conn_placed s b p c x y : b p = Empty -> conn s b x y -> conn s (placed b p c) x y.
Proof. intros He H. induction H; [apply rt_step; now apply linked_placed | apply rt_refl | eapply rt_trans; eauto]. Qed.

Section Place.
  Variables (n : Z) (g : cgame) (c : color) (p : pos).
  Hypothesis I : cinv n g.
  Hypothesis Hp : on_board (square n) p.
  Hypothesis He : c_b g p = Empty.
  Let s := square n.
  Let b' := placed (c_b g) p c.
  Let ns := neighbors n p.

  Lemma gp_none : c_groups g p = None.
  Proof. destruct (c_groups g p) as [h|] eqn:E; [| auto]. destruct (ci_stone n g I p h E) as (_ & c' & E'). congruence. Qed.
  Lemma group_color m m' h : c_groups g m = Some h -> c_groups g m' = Some h -> c_b g m = c_b g m'.
  Proof.
    intros H1 H2. pose proof (proj1 (ci_conn n g I m m' h H1) H2) as C. destruct (ci_stone n g I m h H1) as (Hb & c' & Hc).
    destruct (conn_color _ _ c' m m' C (conj Hb Hc)) as [_ E]. congruence.
  Qed.
  Lemma own_fresh q h : c_groups g q = Some h -> h <> n * fst p + snd p.
  Proof.
    intros H E. destruct (ci_id n g I q h H) as (r & Hr & Hne & E'). unfold on_board, square in *. cbn [fst snd] in *.
    assert (fst r = fst p /\ snd r = snd p) as [E1 E2].
    { assert (n * (fst r - fst p) = snd p - snd r) by lia. assert (fst r - fst p = 0) by nia. nia. }
    apply Hne. destruct r, p. cbn in *. now subst.
  Qed.

  Definition Mg (q : pos) : bool := M (c_b g) (c_groups g) c p ns q.
  Lemma Mg_iff q : Mg q = true <-> q = p \/ exists m h, on_board s m /\ adj p m /\ c_b g m = Stone c /\ c_groups g m = Some h /\ c_groups g q = Some h.
  Proof.
    unfold Mg. rewrite M_iff. split; (intros [-> | (m & h & H)]; [auto | right; exists m, h]).
    - destruct H as (H & H'). apply neighbors_In in H as [? ?]; auto.
    - destruct H as (H1 & H2 & H3). split; [apply neighbors_In; auto | auto].
  Qed.
  Lemma Mg_stone q : Mg q = true -> on_board s q /\ b' q = Stone c.
  Proof.
    intros H. apply Mg_iff in H as [-> | (m & h & H1 & H2 & H3 & H4 & H5)]; [split; [auto | apply placed_same] |].
    destruct (ci_stone n g I q h H5) as (Hb & c' & Hc). split; [auto |]. unfold b'. rewrite placed_other by congruence. rewrite <- H3. eapply group_color; eauto.
  Qed.
  Lemma Mg_closed x y : Mg x = true -> linked s b' x y -> Mg y = true.
  Proof.
    intros H L. pose proof (Mg_stone x H) as [_ Hx]. destruct L as (L1 & L2 & L3 & c' & L4 & L5). assert (c' = c) by congruence. subst c'.
    destruct (pos_dec y p) as [-> |Hy]; [apply Mg_iff; auto |]. unfold b' in L5. rewrite placed_other in L5 by auto.
    destruct (ci_dom n g I y c L2 L5) as (h & Hh). apply Mg_iff. right.
    apply Mg_iff in H as [-> | (m & h' & H1 & H2 & H3 & H4 & H5)].
    - exists y, h. auto.
    - exists m, h'. do 4 (split; [auto |]). apply (ci_conn n g I x y h' H5). apply rt_step. apply (mk_linked _ _ x y c); auto. destruct (ci_stone n g I x h' H5) as (_ & c'' & Hc). unfold b' in L4. rewrite placed_other in L4 by congruence. auto.
  Qed.
  Lemma Mg_conn q : Mg q = true <-> conn s b' p q.
  Proof.
    split.
    - intros H. apply Mg_iff in H as [-> | (m & h & H1 & H2 & H3 & H4 & H5)]; [apply rt_refl |]. apply conn_trans with m.
      + apply rt_step. apply (mk_linked _ _ p m c); auto; [apply placed_same |]. unfold b'. rewrite placed_other; [auto | congruence].
      + apply conn_placed; [auto |]. now apply (ci_conn n g I m q h).
    - intros H. apply (conn_closed s b' (fun z => Mg z = true)) with p; [exact Mg_closed | auto | apply Mg_iff; auto].
  Qed.
  (** away from the new stone nothing is connected differently *)
  Lemma other_conn x y : Mg x = false -> (conn s b' x y <-> conn s (c_b g) x y).
  Proof.
    intros Hx. split; [| apply conn_placed; auto]. intros H.
    cut (Mg y = false /\ conn s (c_b g) x y); [tauto |].
    apply (conn_closed s b' (fun z => Mg z = false /\ conn s (c_b g) x z)) with x; [| auto | split; [auto | apply rt_refl]].
    intros u v [Hu C] L. assert (Hv : Mg v = false).
    { apply not_true_iff_false. intros Hv. apply linked_sym in L. pose proof (Mg_closed v u Hv L). congruence. }
    split; [auto |]. apply conn_trans with u; [auto |]. apply rt_step. destruct L as (L1 & L2 & L3 & c' & L4 & L5).
    assert (u <> p) by (intros ->; unfold Mg in Hu; apply not_true_iff_false in Hu; apply Hu, M_iff; auto).
    assert (v <> p) by (intros ->; unfold Mg in Hv; apply not_true_iff_false in Hv; apply Hv, M_iff; auto).
    unfold b' in *. rewrite placed_other in L4, L5 by auto. apply (mk_linked _ _ u v c'); auto.
  Qed.
  Lemma neighbor_stone q c' : on_board s q -> adj q p -> c_b g q = Stone c' -> In q ns.
  Proof. intros H1 H2 _. apply neighbors_In; [auto |]. split; [auto | now apply adj_sym]. Qed.

  Lemma setStone_inv : exists g', setStone n g c p = Ok g' /\ c_b g' = b' /\ c_moves g' = c_moves g /\ c_winner g' = c_winner g /\ cinv n g'.
  Proof.
    unfold setStone. change (bset (c_b g) p (Stone c)) with b'. set (freen := filter (fun q => cell_eqb (b' q) Empty) (neighbors n p)).
    assert (Hfreen : forall e, In e freen <-> on_board s e /\ adj p e /\ b' e = Empty).
    { intros e. unfold freen. rewrite filter_In, cell_eqb_iff, neighbors_In by auto. tauto. }
    assert (Hfnd : NoDup freen).
    { apply NoDup_filter. unfold neighbors. destruct p as [x y]. cbn [fst snd].
      assert (Q : forall a b : Z * Z, {a = b} + {a <> b}) by (decide equality; apply Z.eq_dec).
      destruct (y <? n - 1), (0 <? y), (x <? n - 1), (0 <? x); cbn;
        repeat (constructor; [cbn; intros K; repeat (destruct K as [K | K]; [apply (f_equal fst) in K as K1; apply (f_equal snd) in K as K2; cbn in K1, K2; lia |]); destruct K |]); apply NoDup_nil. }
    assert (Hfp : ~ In p freen) by (rewrite Hfreen; intros (_ & H & _); now apply adj_irrefl in H).
    pose proof (linv_start (c_b g) (c_groups g) (c_libs g) c p (n * fst p + snd p) freen gp_none (own_fresh)
      (fun q h H => match ci_libs n g I q h H with ex_intro _ s (conj H1 (conj H2 _)) => ex_intro _ s (conj H1 H2) end) (ci_keys n g I) Hfp) as LS.
    destruct (linv_loop (c_b g) (c_groups g) (c_libs g) c p (n * fst p + snd p) freen group_color own_fresh ns [] _
      ltac:(intros m Hm; apply neighbors_In in Hm as [Hm1 Hm2]; auto; split; [intros ->; now apply adj_irrefl in Hm2 | intros c' Hc'; eapply ci_dom; eauto]) LS) as (st & E & LI).
    change (bset (c_b g) p (Stone c)) with b' in E. fold ns. rewrite E. cbn [rbind].
    eexists. split; [reflexivity |]. cbn [c_b c_moves c_winner]. repeat (split; [reflexivity |]).
    destruct st as [[mg G] L]. cbn [app] in LI. destruct LI as [Hmerge (gs & S & Hgs & Hf & Ht & HM & HN & HS & HnS & HSi & Hq & Hk)]. cbn [fst snd] in *.
    fold ns in HM, HN, Hq, Hk, Ht, HSi. change (M (c_b g) (c_groups g) c p ns) with Mg in *.
    assert (Hpm : Mg p = true) by (apply Mg_iff; auto).
    assert (Hgsne : forall q, Mg q = false -> c_groups g q <> Some gs).
    { intros q H1 H2. destruct mg.
      - destruct (Ht eq_refl) as (m' & H3 & H4 & H5). apply not_true_iff_false in H1. apply H1, M_iff. right. eauto 8.
      - rewrite (Hf eq_refl) in H2. apply own_fresh in H2. congruence. }
    assert (Hb' : forall q h, c_groups g q = Some h -> q <> p /\ b' q = c_b g q).
    { intros q h H. assert (q <> p) by (intros ->; pose proof gp_none; congruence). split; [auto | now apply placed_other]. }
    constructor; cbn [c_b c_groups c_libs].
    - intros q. unfold b', placed. destruct (pos_eqb q p); [discriminate | apply (ci_mark n g I)].
    - intros q c' H1 H2. destruct (Mg q) eqn:EM; [eauto |]. rewrite (HN q EM). destruct (pos_dec q p) as [-> |Hqp]; [congruence |].
      unfold b' in H2. rewrite placed_other in H2 by auto. eapply ci_dom; eauto.
    - intros q h H. destruct (Mg q) eqn:EM; [apply Mg_stone in EM as [? ?]; eauto |]. rewrite (HN q EM) in H. destruct (Hb' q h H) as [_ Eb].
      rewrite Eb. now apply (ci_stone n g I q h).
    - intros q r h H. destruct (Mg q) eqn:EM.
      + rewrite (HM q EM) in H. injection H as <-. split.
        * intros Hr. destruct (Mg r) eqn:EMr; [| rewrite (HN r EMr) in Hr; now apply Hgsne in Hr].
          apply conn_trans with p; [apply conn_sym |]; now apply Mg_conn.
        * intros C. apply HM, Mg_conn. apply conn_trans with q; [now apply Mg_conn | auto].
      + rewrite (HN q EM) in H. pose proof (ci_conn n g I q r h H) as CC. pose proof (other_conn q r EM) as OC. fold s in CC |- *. rewrite OC, <- CC. split.
        * intros Hr. destruct (Mg r) eqn:EMr; [rewrite (HM r EMr) in Hr; injection Hr as <-; now apply Hgsne in H | now rewrite (HN r EMr) in Hr].
        * intros Hr. destruct (Mg r) eqn:EMr; [| now rewrite (HN r EMr)].
          exfalso. assert (X : Mg q = true); [| congruence]. apply Mg_conn. apply conn_trans with r; [now apply Mg_conn |]. apply conn_placed; [auto |]. now apply (ci_conn n g I r q h).
    - intros q h H.
      assert (K : forall q0, c_groups g q0 = Some h -> exists q1, on_board (square n) q1 /\ b' q1 <> Empty /\ h = n * fst q1 + snd q1).
      { intros q0 H0. destruct (ci_id n g I q0 h H0) as (q1 & A & B & C). exists q1. repeat split; try apply A; auto. unfold b'. rewrite placed_other by congruence. auto. }
      destruct (Mg q) eqn:EM; [| rewrite (HN q EM) in H; eauto]. rewrite (HM q EM) in H. injection H as <-. destruct mg.
      + destruct (Ht eq_refl) as (m & _ & _ & Hm). eauto.
      + exists p. rewrite (Hf eq_refl). split; [auto |]. split; [unfold b'; rewrite placed_same; discriminate | auto].
    - intros q h H.
      assert (Hemp : forall e, b' e = Empty <-> e <> p /\ c_b g e = Empty).
      { intros e. unfold b'. destruct (pos_dec e p) as [-> |Hep]; [rewrite placed_same; split; [discriminate | intros [[] ?]; auto] | rewrite placed_other by auto; tauto]. }
      destruct (Mg q) eqn:EM.
      + rewrite (HM q EM) in H. injection H as <-. exists S. split; [auto |]. split; [auto |]. intros e. rewrite HSi, Hemp, Hfreen, Hemp. split.
        * intros [He1 [(A1 & A2 & A3 & A4) | (m & h & s0 & A1 & A2 & A3 & A4 & A5)]].
          -- split; [exact A1 |]. split; [split; assumption |]. exists p. split; auto.
          -- destruct (ci_libs n g I m h A3) as (s1 & B1 & _ & B2). assert (s1 = s0) by congruence. subst s1. apply B2 in A5 as (C1 & C2 & q0 & C3 & C4).
             split; [exact C1 |]. split; [split; assumption |]. exists q0. split; [| auto]. apply HM. apply M_iff. right. exists m, h. repeat split; auto.
        * intros (A1 & [A2 A3] & q0 & A4 & A5). split; [auto |]. destruct (Mg q0) eqn:EM0; [| rewrite (HN q0 EM0) in A4; now apply Hgsne in A4].
          unfold Mg in EM0. apply M_iff in EM0 as [-> | (m & h & B1 & B2 & B3 & B4)]; [left; repeat split; try apply A1; auto | right].
          destruct (ci_libs n g I m h B3) as (s1 & C1 & _ & C2). exists m, h, s1. repeat split; auto. apply C2. split; [exact A1 |]. split; [exact A3 |]. exists q0. auto.
      + rewrite (HN q EM) in H. destruct (Hq q h EM H) as (s0 & s' & A1 & A2 & A3 & A4). exists s'. split; [auto |]. split; [auto |]. intros e.
        destruct (ci_libs n g I q h H) as (s1 & B1 & _ & B2). assert (s1 = s0) by congruence. subst s1. rewrite A4, B2, Hemp. split.
        * intros [(C1 & C2 & q0 & C3 & C4) C5].
          assert (EM0 : Mg q0 = false).
          { apply not_true_iff_false. intros X. assert (Y : Mg q = true); [| congruence]. apply Mg_conn. apply conn_trans with q0; [now apply Mg_conn |].
            apply conn_placed; [auto |]. now apply (ci_conn n g I q0 q h). }
          split; [exact C1 |]. split; [split; [| exact C2] | exists q0; rewrite (HN q0 EM0); auto].
          intros ->. apply C5. split; [auto |]. exists q0. destruct (ci_stone n g I q0 h C3) as (D1 & c' & D2).
          split; [eapply neighbor_stone; eauto |]. split; [| auto]. rewrite D2. f_equal.
          apply neq_opp. intros ->. apply not_true_iff_false in EM0. apply EM0, M_iff. right. exists q0, h.
          repeat split; auto; eapply neighbor_stone; eauto.
        * intros (C1 & [C2 C3] & q0 & C4 & C5). split; [| intros [? _]; contradiction]. split; [exact C1 |]. split; [exact C3 |]. exists q0. split; [| auto].
          destruct (Mg q0) eqn:EM0; [rewrite (HM q0 EM0) in C4; injection C4 as <-; now apply Hgsne in H | now rewrite (HN q0 EM0) in C4].
    - intros h H. destruct (Hk h H) as [-> | (q & A & B)]; [eauto |]. exists q. rewrite (HN q A). auto.
  Qed.
End Place.
