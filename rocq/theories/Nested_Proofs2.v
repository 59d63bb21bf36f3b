(** The nested forward and backward passes at every level of the tree are the passes of the
    flat network whose modules are the inner networks' functions. *)
From Coq Require Import Ring FunctionalExtensionality.
From Verif Require Import Base RingOps Net_Model Net_Spec Propagate Net_Events Net_Forward Net_Backward Net_Adjoint Nested_Model Nested_Spec.

Section Refine.
Context {K : Type} {Ops : RingOps K} {Lw : RingLaws K}.
Notation vec := (@vec K).
Notation tbufs := (@tbufs K).
Notation tderivs := (@tderivs K).
Add Ring KR : rlaws.
Context (P : path -> nat -> vec) (Kp : path -> list nat) (pdim : path -> nat -> nat).

Notation settled := (settled P).

Definition under (p q : path) : Prop := exists s, q = s ++ p.
Definition below (p q : path) : Prop := exists s m, q = s ++ m :: p.
Lemma under_refl p : under p p.
Proof. exists []. reflexivity. Qed.
Lemma below_under p q : below p q -> under p q.
Proof. intros (s & m & ->). exists (s ++ [m]). rewrite <- app_assoc. reflexivity. Qed.
Lemma under_cons m p q : under (m :: p) q -> below p q.
Proof. intros [s ->]. exists s, m. reflexivity. Qed.
Lemma below_cons m p q : below (m :: p) q -> below p q.
Proof. intro H. apply (under_cons m). apply below_under. exact H. Qed.
Lemma below_len p q : below p q -> length p < length q.
Proof. intros (s & m & ->). rewrite app_length. cbn. lia. Qed.
Lemma not_below_self p : ~ below p p.
Proof. intro H. apply below_len in H. lia. Qed.
Lemma app_same_tail {A} (s s' : list A) a b p : s ++ a :: p = s' ++ b :: p -> a = b.
Proof.
  intro H. assert (E : rev (a :: p) ++ rev s = rev (b :: p) ++ rev s') by (rewrite <- !rev_app_distr; f_equal; auto).
  cbn [rev] in E. rewrite <- !app_assoc in E. apply app_inv_head in E. cbn in E. congruence.
Qed.
Lemma under_disjoint a b p q : under (a :: p) q -> under (b :: p) q -> a = b.
Proof. intros [s ->] [s' E]. exact (app_same_tail _ _ _ _ _ E). Qed.
Lemma under_not_self m p : ~ under (m :: p) p.
Proof. intro H. apply under_cons in H. exact (not_below_self _ H). Qed.
Lemma cons_under m p q : q = m :: p -> under (m :: p) q.
Proof. intros ->. apply under_refl. Qed.

Lemma nd_disj {A} (l r : list A) x : NoDup (l ++ r) -> In x l -> ~ In x r.
Proof.
  induction l as [|a l IH]; cbn; intros Hn Hi; [destruct Hi|]. inversion Hn as [|? ? H1 H2]; subst. destruct Hi as [->|Hi]; [|auto].
  intro Hr. apply H1. apply in_or_app; auto.
Qed.

Lemma peqb_refl p : peqb p p = true.
Proof. unfold peqb. destruct (list_eq_dec Nat.eq_dec p p); congruence. Qed.
Lemma peqb_neq p q : p <> q -> peqb p q = false.
Proof. unfold peqb. destruct (list_eq_dec Nat.eq_dec p q); congruence. Qed.
Lemma tset_same (B : tbufs) p x : tset B p x p = x.
Proof. unfold tset. rewrite peqb_refl. reflexivity. Qed.
Lemma tset_other (B : tbufs) p x q : q <> p -> tset B p x q = B q.
Proof. intro H. unfold tset. rewrite peqb_neq; auto. Qed.

Lemma view_tset p B m x : view p (tset B (m :: p) x) = bset (view p B) m 0 x.
Proof.
  apply functional_extensionality. intro a. apply functional_extensionality. intro o. unfold view, bset. destruct o; [|rewrite andb_false_r; reflexivity].
  rewrite andb_true_r. destruct (Nat.eqb_spec a m) as [->|Hn]; [apply tset_same|apply tset_other; congruence].
Qed.
Lemma view_ext p B B' : (forall m, B (m :: p) = B' (m :: p)) -> view p B = view p B'.
Proof. intro H. apply functional_extensionality. intro m. apply functional_extensionality. intro o. unfold view. destruct o; auto. Qed.
Lemma view_conn p c B : view p (tconn_forward P p c B) = conn_forward (P p) c 0 0 (view p B).
Proof. unfold tconn_forward, conn_forward. rewrite view_tset. reflexivity. Qed.
Lemma view_load L dim p ms (x : vec) : (forall m, dim m = l_in (L m)) -> forall index B,
  view p (tload_in dim p ms index x B) = load_in L 0 ms index x (view p B).
Proof.
  intro H. induction ms as [|m ms IH]; intros index B; cbn [tload_in load_in]; auto.
  rewrite IH, view_tset, H. reflexivity.
Qed.
Lemma view_load_err L dim p ms (x : vec) : (forall m, dim m = l_out (L m)) -> forall index B,
  view p (tload_err dim p ms index x B) = load_err L 0 ms index x (view p B).
Proof.
  intro H. induction ms as [|m ms IH]; intros index B; cbn [tload_err load_err]; auto.
  rewrite IH, view_tset, H. reflexivity.
Qed.
Lemma tload_frame dim p ms (x : vec) q : (forall m, q <> m :: p) -> forall index B, tload_in dim p ms index x B q = B q.
Proof. intro H. induction ms as [|m ms IH]; intros index B; cbn [tload_in]; auto. rewrite IH. apply tset_other. auto. Qed.
Lemma tload_err_frame dim p ms (x : vec) q : (forall m, q <> m :: p) -> forall index B, tload_err dim p ms index x B q = B q.
Proof. intro H. induction ms as [|m ms IH]; intros index B; cbn [tload_err]; auto. rewrite IH. apply tset_other. auto. Qed.
Lemma tload_err_in dim p ms (x : vec) q : forall index B, b_in (tload_err dim p ms index x B q) = b_in (B q).
Proof.
  induction ms as [|m ms IH]; intros index B; cbn [tload_err]; auto. rewrite IH. destruct (list_eq_dec Nat.eq_dec q (m :: p)) as [->|Hn].
  - rewrite tset_same. reflexivity.
  - rewrite tset_other; auto.
Qed.

Lemma dims_fold (f : nat -> nat) l : dims f l = fold_right (fun m a => f m + a) 0 l.
Proof. induction l; cbn; auto. Qed.
Lemma lay_dims (Q : path -> nat -> vec) t : forall p, l_in (lay Q t p) = t_in t /\ l_out (lay Q t p) = t_out t.
Proof.
  induction t as [l|mods IH sorted conns inm outm]; intro p; [split; reflexivity|].
  cbn [lay t_in t_out netlayer l_in l_out]. unfold in_dim, out_dim. cbn [n_layer n_inmods n_outmods]. split.
  - rewrite dims_fold. clear -IH. induction inm as [|a l IHl]; cbn; auto. rewrite (proj1 (IH a _)), IHl. reflexivity.
  - rewrite dims_fold. clear -IH. induction outm as [|a l IHl]; cbn; auto. rewrite (proj2 (IH a _)), IHl. reflexivity.
Qed.
Lemma wf_dims (L L' : nat -> @layer K) sorted conns recs inm outm : (forall m, l_in (L m) = l_in (L' m) /\ l_out (L m) = l_out (L' m)) ->
  wf_net (mknet L sorted conns recs inm outm) -> wf_net (mknet L' sorted conns recs inm outm).
Proof.
  intro H. assert (Hc : forall c, wf_conn L c -> wf_conn L' c).
  { intros c Hw. unfold wf_conn in *. rewrite <- (proj2 (H (c_in c))), <- (proj1 (H (c_out c))). exact Hw. }
  intros [A B C D E]. split; cbn in *; auto.
  - intros m c Hm Hin. destruct (B m c Hm Hin) as (X & Y & Z). auto.
  - intros c Hin. destruct (C c Hin) as (X & Y & Z). auto.
Qed.
Lemma flat_wf Q p mods sorted conns inm outm : wf_net (shape mods sorted conns inm outm) -> wf_net (flat Q p mods sorted conns inm outm).
Proof. apply wf_dims. intro m. destruct (lay_dims Q (mods m) (m :: p)) as [-> ->]. split; reflexivity. Qed.

Lemma gather_dims (dim dim' : nat -> nat) (g : nat -> vec) ms : (forall m, dim m = dim' m) -> gather dim g ms = gather dim' g ms.
Proof. intro H. induction ms as [|m l IHl]; cbn [gather]; auto. apply functional_extensionality. intro i. rewrite IHl, H. reflexivity. Qed.

(** ** Forward *)
Lemma settled_frame t : forall p (B B' : tbufs), (forall q, below p q -> B' q = B q) -> b_in (B' p) = b_in (B p) -> settled t p B -> settled t p B'.
Proof.
  induction t as [l|mods IH sorted conns inm outm]; intros p B B' H Hp; cbn [settled]; auto. intros [E S]. split.
  - rewrite Hp, <- E. apply view_ext. intro m. apply H. exists [], m. reflexivity.
  - intros m Hm. apply (IH m _ B); auto.
    + intros q Hq. apply H. eapply below_cons; eauto.
    + rewrite H; auto. exists [], m. reflexivity.
Qed.

(** one module and its connections *)
Lemma tconns_forward p cs : forall B,
  (forall q, (forall c, In c cs -> q <> c_out c :: p) -> fold_left (fun B c => tconn_forward P p c B) cs B q = B q) /\
  view p (fold_left (fun B c => tconn_forward P p c B) cs B) = fold_left (fun b c => conn_forward (P p) c 0 0 b) cs (view p B).
Proof.
  induction cs as [|c cs IH]; intro B; cbn [fold_left]; [split; auto|]. destruct (IH (tconn_forward P p c B)) as [F V]. split.
  - intros q Hq. rewrite F by (intros; apply Hq; right; auto). unfold tconn_forward. apply tset_other. apply Hq. left; auto.
  - rewrite V, view_conn. reflexivity.
Qed.

Lemma fwd_spec t : forall p (B : tbufs), tree_ok Kp pdim t p -> (forall q, below p q -> B q = zbuf) ->
  let B' := t_forward P t p B in
  (forall q, ~ under p q -> B' q = B q) /\
  B' p = mkbuf (b_in (B p)) (l_fwd (lay P t p) (b_in (B p)) (b_out (B p))) (b_ine (B p)) (b_oute (B p)) /\
  settled t p B'.
Proof.
  induction t as [l|mods IH sorted conns inm outm]; intros p B Hok Hz B'.
  - unfold B'. cbn [t_forward lay settled]. split; [|split; auto].
    + intros q Hq. apply tset_other. intros ->. apply Hq, under_refl.
    + apply tset_same.
  - destruct Hok as [(W & _ & _) Hok].
    set (N := flat P p mods sorted conns inm outm). set (L := n_layer N).
    assert (WN : wf_net N) by (apply flat_wf; auto).
    assert (Hdim : forall m, l_in (L m) = t_in (mods m) /\ l_out (L m) = t_out (mods m)) by (intro m; apply lay_dims).
    set (x := b_in (B p)). set (B1 := tload_in (fun m => t_in (mods m)) p inm 0 x B).
    set (body := fun B m => fold_left (fun B c => tconn_forward P p c B) (conns m) (t_forward P (mods m) (m :: p) B)).
    set (nbody := fun b m => fold_left (fun b c => conn_forward (P p) c 0 0 b) (conns m) (mod_forward L m 0 b)).
    assert (V1 : view p B1 = load_in L 0 inm 0 x reset_bufs).
    { unfold B1. rewrite (view_load L) by (intro m; symmetry; apply Hdim). f_equal.
      apply functional_extensionality. intro m. apply functional_extensionality. intro o. unfold view. destruct o; auto.
      rewrite Hz; [reflexivity|]. exists [], m. reflexivity. }
    assert (Loop : forall todo done Bd, sorted = done ++ todo ->
      (forall q, ~ below p q -> Bd q = B q) ->
      (forall m, In m done -> settled (mods m) (m :: p) Bd) ->
      (forall m q, ~ In m done -> below (m :: p) q -> Bd q = zbuf) ->
      let B2 := fold_left body todo Bd in
      (forall q, ~ below p q -> B2 q = B q) /\
      view p B2 = fold_left nbody todo (view p Bd) /\
      forall m, In m sorted -> settled (mods m) (m :: p) B2).
    { induction todo as [|a todo IHt]; intros done Bd Es Fr St Zr; cbn [fold_left].
      - rewrite app_nil_r in Es. subst done. auto.
      - assert (Ha : In a sorted) by (rewrite Es; apply in_or_app; right; left; auto).
        pose proof (wf_nodup _ W) as Hnd. cbn [n_sorted shape] in Hnd. rewrite Es in Hnd.
        assert (Had : ~ In a done) by (intro Hin; apply NoDup_remove_2 in Hnd; apply Hnd; apply in_or_app; auto).
        destruct (IH a (a :: p) Bd (Hok a Ha) (fun q Hq => Zr a q Had Hq)) as (F1 & E1 & S1).
        set (Ba := t_forward P (mods a) (a :: p) Bd) in *.
        destruct (tconns_forward p (conns a) Ba) as [F2 V2]. change (fold_left (fun B c => tconn_forward P p c B) (conns a) Ba) with (body Bd a) in F2, V2.
        assert (Hout : forall c, In c (conns a) -> ~ In (c_out c) (done ++ [a])).
        { intros c Hc. destruct (wf_conns _ W a c Ha Hc) as (_ & Hb & _). cbn [n_sorted shape] in Hb. rewrite Es in Hb.
          apply before_split in Hb; [|exact Hnd]. intro Hi. apply (nd_disj (done ++ [a]) todo (c_out c)); auto. rewrite <- app_assoc. exact Hnd. }
        assert (Fb : forall m q, In m (done ++ [a]) -> under (m :: p) q -> body Bd a q = Ba q).
        { intros m q Hm Hq. apply F2. intros c Hc ->. apply (Hout c Hc). assert (E : c_out c = m) by (eapply under_disjoint; [apply under_refl|exact Hq]). rewrite E. exact Hm. }
        destruct (IHt (done ++ [a]) (body Bd a)) as (A1 & A2 & A3).
        + rewrite <- app_assoc. exact Es.
        + intros q Hq. rewrite F2, F1; auto.
          * intro Hu. apply Hq. eapply under_cons; eauto.
          * intros c Hc ->. apply Hq. exists [], (c_out c). reflexivity.
        + intros m Hm. apply (settled_frame (mods m) (m :: p) Ba).
          * intros q Hq. apply (Fb m); auto. apply below_under. exact Hq.
          * rewrite (Fb m); auto. apply under_refl.
          * apply in_app_or in Hm. destruct Hm as [Hm|[<-|[]]]; [|exact S1].
            apply (settled_frame (mods m) (m :: p) Bd); [| |apply St; exact Hm].
            -- intros q Hq. apply F1. intro Hu. apply Had. rewrite (under_disjoint _ _ _ _ Hu (below_under _ _ Hq)). exact Hm.
            -- f_equal. apply F1. intro Hu. apply Had. rewrite (under_disjoint _ _ _ _ Hu (under_refl _)). exact Hm.
        + intros m q Hm Hq. rewrite F2.
          * rewrite F1; [apply (Zr m); auto|].
            -- intro Hi. apply Hm. apply in_or_app; auto.
            -- intro Hu. apply Hm. apply in_or_app. right. left. eapply under_disjoint; [exact Hu|apply below_under; exact Hq].
          * intros c Hc ->. apply below_len in Hq. cbn in Hq. lia.
        + split; [exact A1|]. split; [|exact A3]. rewrite A2. f_equal. rewrite V2. unfold nbody. f_equal.
          unfold mod_forward. transitivity (view p (tset Bd (a :: p) (Ba (a :: p)))).
          * apply view_ext. intro m. destruct (Nat.eq_dec m a) as [->|Hn]; [rewrite tset_same; auto|].
            rewrite tset_other by congruence. apply F1. intro Hu. apply Hn. eapply under_disjoint; [apply under_refl|exact Hu].
          * rewrite view_tset. f_equal. exact E1. }
    destruct (Loop sorted [] B1 eq_refl) as (L1 & L2 & L3).
    + intros q Hq. apply tload_frame. intros m ->. apply Hq. exists [], m. reflexivity.
    + intros m [].
    + intros m q _ Hq. unfold B1. rewrite tload_frame; [apply Hz; eapply below_cons; eauto|]. intros a ->. apply below_len in Hq. cbn in Hq. lia.
    + set (B2 := fold_left body sorted B1) in *.
      assert (E2 : view p B2 = ff_forward N (P p) reset_bufs x).
      { rewrite L2, V1. reflexivity. }
      assert (Ep : B2 p = B p) by (apply L1, not_below_self).
      assert (EB : B' = tset B2 p (mkbuf (b_in (B2 p)) (gather (fun m => t_out (mods m)) (fun m => b_out (B2 (m :: p))) outm) (b_ine (B2 p)) (b_oute (B2 p)))) by reflexivity.
      assert (Fr : forall q, q <> p -> B' q = B2 q) by (intros q Hq; rewrite EB; apply tset_other; auto).
      assert (EBp : B' p = mkbuf x (snd (ff_activate N (P p) (reset_bufs, fun _ => zvec) x)) (b_ine (B p)) (b_oute (B p))).
      { rewrite EB, tset_same, Ep. f_equal. cbn [ff_activate snd]. unfold outputs. rewrite <- E2.
        apply (gather_dims (fun m => t_out (mods m)) (fun m => l_out (L m))). intro m. symmetry. apply Hdim. }
      split; [|split].
      * intros q Hq. rewrite Fr; [apply L1; intro Hb; apply Hq; apply below_under; exact Hb|]. intros ->. apply Hq, under_refl.
      * exact EBp.
      * cbn [settled]. split.
        -- rewrite EBp. cbn [b_in]. refine (eq_trans _ E2). apply view_ext. intro m. apply Fr. intro E. exact (not_below_self p (ex_intro _ [] (ex_intro _ m (eq_sym E)))).
        -- intros m Hm. apply (settled_frame (mods m) (m :: p) B2); [| |apply L3; exact Hm].
           ++ intros q Hq. apply Fr. intros ->. apply below_len in Hq. cbn in Hq. lia.
           ++ f_equal. apply Fr. intro E. exact (not_below_self p (ex_intro _ [] (ex_intro _ m (eq_sym E)))).
Qed.

(** ** Backward *)
Definition pview (p : path) (s : tbufs * tderivs) : @bufs K * @derivs K := (view p (fst s), snd s p).
Fixpoint bsettled (t : @tmod K) (p : path) (s s' : tbufs * tderivs) : Prop :=
  match t with
  | TLayer _ => True
  | TNet mods sorted conns inm outm =>
      pview p s' = fst (ff_backActivate (flat P p mods sorted conns inm outm) (P p) (pview p s) (b_oute (fst s' p))) /\
      forall m, In m sorted -> bsettled (mods m) (m :: p) s s'
  end.
Lemma bsettled_frame t : forall p (s1 s2 s1' s2' : tbufs * tderivs),
  (forall q, below p q -> fst s1 q = fst s2 q) -> (forall q, under p q -> snd s1 q = snd s2 q) ->
  (forall q, below p q -> fst s1' q = fst s2' q) -> (forall q, under p q -> snd s1' q = snd s2' q) ->
  b_oute (fst s1' p) = b_oute (fst s2' p) -> bsettled t p s1 s1' -> bsettled t p s2 s2'.
Proof.
  induction t as [l|mods IH sorted conns inm outm]; intros p s1 s2 s1' s2' H1 D1 H2 D2 Ho; cbn [bsettled]; auto. intros [E S].
  assert (Hb : forall m, below p (m :: p)) by (intro m; exists [], m; reflexivity).
  assert (V : forall s1 s2 : tbufs * tderivs, (forall q, below p q -> fst s1 q = fst s2 q) -> (forall q, under p q -> snd s1 q = snd s2 q) -> pview p s1 = pview p s2).
  { intros a b Ha Hd. unfold pview. rewrite (Hd p (under_refl p)). f_equal. apply view_ext. intro m. auto. }
  split.
  - rewrite (V s1' s2'), (V s1 s2), Ho in E by auto. exact E.
  - intros m Hm. apply (IH m (m :: p) s1 s2 s1' s2'); auto.
    + intros q Hq. apply H1. eapply below_cons; eauto.
    + intros q Hq. apply D1. apply below_under. eapply under_cons; eauto.
    + intros q Hq. apply H2. eapply below_cons; eauto.
    + intros q Hq. apply D2. apply below_under. eapply under_cons; eauto.
    + rewrite H2; auto.
Qed.

Lemma view_conn_back p c s : pview p (tconn_backward P p c s) = conn_backward (P p) c 0 0 (pview p s).
Proof.
  destruct s as [B D]. unfold pview, tconn_backward, conn_backward. cbn [fst snd]. rewrite view_tset. f_equal.
  unfold tdadd, dadd. rewrite peqb_refl. reflexivity.
Qed.
Lemma tconns_backward p m cs : (forall c, In c cs -> c_in c = m) -> forall s : tbufs * tderivs,
  let s' := fold_left (fun s c => tconn_backward P p c s) cs s in
  (forall q, q <> m :: p -> fst s' q = fst s q) /\ (forall q, q <> p -> snd s' q = snd s q) /\
  b_in (fst s' (m :: p)) = b_in (fst s (m :: p)) /\
  pview p s' = fold_left (fun s c => conn_backward (P p) c 0 0 s) cs (pview p s).
Proof.
  induction cs as [|c cs IH]; intros Hc s; cbn [fold_left]; [auto|].
  destruct (IH (fun c' H => Hc c' (or_intror H)) (tconn_backward P p c s)) as (A & B & C & D).
  pose proof (Hc c (or_introl eq_refl)) as E. split; [|split; [|split]].
  - intros q Hq. rewrite A by auto. destruct s as [b d]. cbn [tconn_backward fst]. apply tset_other. congruence.
  - intros q Hq. rewrite B by auto. destruct s as [b d]. cbn [tconn_backward snd]. unfold tdadd. rewrite peqb_neq; auto.
  - rewrite C. destruct s as [b d]. cbn [tconn_backward fst]. rewrite E, tset_same. reflexivity.
  - rewrite D, view_conn_back. reflexivity.
Qed.

(** the buffers do not depend on the derivatives, which are only added to *)
Definition dplus (d d' : @derivs K) : @derivs K := fun k i => radd (d k i) (d' k i).
Lemma conns_back_derivs Q cs : forall (b : @bufs K) (d1 d2 : derivs),
  fst (fold_left (fun s c => conn_backward Q c 0 0 s) cs (b, d1)) = fst (fold_left (fun s c => conn_backward Q c 0 0 s) cs (b, d2)) /\
  forall k i, snd (fold_left (fun s c => conn_backward Q c 0 0 s) cs (b, dplus d1 d2)) k i = radd (d1 k i) (snd (fold_left (fun s c => conn_backward Q c 0 0 s) cs (b, d2)) k i).
Proof.
  induction cs as [|c cs IH]; intros b d1 d2; cbn [fold_left]; [auto|]. cbn [conn_backward]. set (b' := bset _ _ _ _). set (g := op_der _ _ _ _ _).
  split; [apply IH|]. intros k i. rewrite <- (proj2 (IH b' d1 (dadd d2 (c_par c) g)) k i). f_equal.
  assert (E : dadd (dplus d1 d2) (c_par c) g = dplus d1 (dadd d2 (c_par c) g)); [|rewrite E; reflexivity].
  apply functional_extensionality. intro k'. apply functional_extensionality. intro j. unfold dadd, dplus. destruct (k' =? c_par c); auto.
  clear -Lw. ring.
Qed.
Lemma modules_back_derivs N Q ms : forall (b : @bufs K) (d1 d2 : derivs),
  let f := fun s m => let s' := fold_left (fun s c => conn_backward Q c 0 0 s) (n_conns N m) s in (mod_backward (n_layer N) m 0 (fst s'), snd s') in
  fst (fold_left f ms (b, d1)) = fst (fold_left f ms (b, d2)) /\
  forall k i, snd (fold_left f ms (b, dplus d1 d2)) k i = radd (d1 k i) (snd (fold_left f ms (b, d2)) k i).
Proof.
  induction ms as [|m ms IH]; intros b d1 d2 f; cbn [fold_left]; [auto|].
  destruct (conns_back_derivs Q (n_conns N m) b d1 d2) as [A B].
  destruct (conns_back_derivs Q (n_conns N m) b (dplus d1 d2) d2) as [A' _].
  split.
  - unfold f at 2 4. cbv zeta. rewrite A. destruct (IH (mod_backward (n_layer N) m 0 (fst (fold_left (fun s c => conn_backward Q c 0 0 s) (n_conns N m) (b, d2))))
      (snd (fold_left (fun s c => conn_backward Q c 0 0 s) (n_conns N m) (b, d1))) (snd (fold_left (fun s c => conn_backward Q c 0 0 s) (n_conns N m) (b, d2)))) as [X _]. exact X.
  - intros k i. unfold f at 2 4. cbv zeta. rewrite A'.
    assert (E : snd (fold_left (fun s c => conn_backward Q c 0 0 s) (n_conns N m) (b, dplus d1 d2)) = dplus d1 (snd (fold_left (fun s c => conn_backward Q c 0 0 s) (n_conns N m) (b, d2)))).
    { apply functional_extensionality. intro k'. apply functional_extensionality. intro j. apply B. }
    rewrite E. apply (proj2 (IH _ d1 _)).
Qed.
Lemma backActivate_derivs N Q (b : @bufs K) (d : @derivs K) e :
  let r := ff_backActivate N Q (b, d) e in let r0 := ff_backActivate N Q (b, fun _ => zvec) e in
  fst (fst r) = fst (fst r0) /\ snd r = snd r0 /\ forall k i, snd (fst r) k i = radd (d k i) (snd (fst r0) k i).
Proof.
  intros r r0'. unfold r, r0', ff_backActivate, backward_modules. cbn [fst snd].
  destruct (modules_back_derivs N Q (rev (n_sorted N)) (load_err (n_layer N) 0 (n_outmods N) 0 e b) d (fun _ => zvec)) as [A B].
  cbv zeta in A, B. rewrite A. split; [reflexivity|split; [reflexivity|]]. intros k i. rewrite <- B. f_equal.
  assert (E : dplus d (fun _ => zvec) = d); [|rewrite E; reflexivity].
  apply functional_extensionality. intro k'. apply functional_extensionality. intro j. unfold dplus, zvec. clear -Lw. ring.
Qed.

Lemma bwd_spec t : forall p (s : tbufs * tderivs), tree_ok Kp pdim t p -> settled t p (fst s) ->
  let s' := t_backward P t p s in
  (forall q, ~ under p q -> fst s' q = fst s q /\ snd s' q = snd s q) /\
  fst s' p = mkbuf (b_in (fst s p)) (b_out (fst s p)) (l_bwd (lay P t p) (b_oute (fst s p)) (b_ine (fst s p)) (b_out (fst s p)) (b_in (fst s p))) (b_oute (fst s p)) /\
  bsettled t p s s'.
Proof.
  induction t as [l|mods IH sorted conns inm outm]; intros p s Hok Hset s'.
  - unfold s'. cbn [t_backward lay bsettled fst snd]. split; [|split; auto].
    + intros q Hq. split; auto. apply tset_other. intros ->. apply Hq, under_refl.
    + apply tset_same.
  - destruct Hok as [(W & _ & _) Hok]. destruct Hset as [Hv Hset].
    set (N := flat P p mods sorted conns inm outm) in *. set (L := n_layer N).
    assert (WN : wf_net N) by (apply flat_wf; auto).
    assert (Hdim : forall m, l_in (L m) = t_in (mods m) /\ l_out (L m) = t_out (mods m)) by (intro m; apply lay_dims).
    assert (Hbel : forall m, below p (m :: p)) by (intro m; exists [], m; reflexivity).
    assert (Hne : forall m, m :: p <> p) by (intros m E; apply (not_below_self p); rewrite <- E at 2; auto).
    set (e := b_oute (fst s p)). set (B1 := tload_err (fun m => t_out (mods m)) p outm 0 e (fst s)).
    set (body := fun s m => t_backward P (mods m) (m :: p) (fold_left (fun s c => tconn_backward P p c s) (conns m) s)).
    set (nbody := fun s m => let s' := fold_left (fun s c => conn_backward (P p) c 0 0 s) (conns m) s in (mod_backward L m 0 (fst s'), snd s')).
    assert (V1 : pview p (B1, snd s) = (load_err L 0 outm 0 e (view p (fst s)), snd s p)).
    { unfold pview, B1. cbn [fst snd]. rewrite (view_load_err L) by (intro m; symmetry; apply Hdim). reflexivity. }
    assert (Loop : forall todo done (sd : tbufs * tderivs), rev sorted = done ++ todo ->
      (forall q, ~ below p q -> fst sd q = fst s q /\ (q <> p -> snd sd q = snd s q)) ->
      (forall m, In m done -> bsettled (mods m) (m :: p) s sd) ->
      (forall m, ~ In m done -> (forall q, below (m :: p) q -> fst sd q = fst s q) /\ (forall q, under (m :: p) q -> snd sd q = snd s q)) ->
      (forall m, b_in (fst sd (m :: p)) = b_in (fst s (m :: p))) ->
      let s2 := fold_left body todo sd in
      (forall q, ~ below p q -> fst s2 q = fst s q /\ (q <> p -> snd s2 q = snd s q)) /\
      pview p s2 = fold_left nbody todo (pview p sd) /\
      forall m, In m sorted -> bsettled (mods m) (m :: p) s s2).
    { induction todo as [|a todo IHt]; intros done sd Es Fr St Zr Hin; cbn [fold_left].
      - rewrite app_nil_r in Es. split; [exact Fr|split; [reflexivity|]]. intros m Hm. apply St. rewrite <- Es. apply in_rev in Hm. exact Hm.
      - assert (Ha : In a sorted) by (apply in_rev; rewrite Es; apply in_or_app; right; left; auto).
        assert (Hnd : NoDup (done ++ a :: todo)) by (rewrite <- Es; apply NoDup_rev; exact (wf_nodup _ W)).
        assert (Had : ~ In a done) by (intro Hi; apply NoDup_remove_2 in Hnd; apply Hnd; apply in_or_app; auto).
        assert (Hcin : forall c, In c (conns a) -> c_in c = a) by (intros c Hc; apply (wf_conns _ W a c Ha Hc)).
        destruct (tconns_backward p a (conns a) Hcin sd) as (C1 & C2 & C3 & C4).
        set (sc := fold_left (fun s c => tconn_backward P p c s) (conns a) sd) in *.
        assert (Zc : (forall q, below (a :: p) q -> fst sc q = fst s q) /\ (forall q, under (a :: p) q -> snd sc q = snd s q)).
        { destruct (Zr a Had) as [Z1 Z2]. split; intros q Hq.
          - rewrite C1; [auto|]. intros ->. exact (not_below_self _ Hq).
          - rewrite C2; [auto|]. intros ->. exact (under_not_self _ _ Hq). }
        assert (Sc : settled (mods a) (a :: p) (fst sc)).
        { apply (settled_frame (mods a) (a :: p) (fst s)); [exact (proj1 Zc)|rewrite C3; apply Hin|apply Hset; auto]. }
        destruct (IH a (a :: p) sc (Hok a Ha) Sc) as (F1 & E1 & S1).
        change (t_backward P (mods a) (a :: p) sc) with (body sd a) in F1, E1, S1.
        assert (Hother : forall m q, m <> a -> under (m :: p) q -> fst (body sd a) q = fst sd q /\ snd (body sd a) q = snd sd q).
        { intros m q Hm Hq. assert (Hu : ~ under (a :: p) q) by (intro Hu; apply Hm; exact (under_disjoint _ _ _ _ Hq Hu)).
          destruct (F1 q Hu) as [-> ->]. split.
          - apply C1. intros ->. apply Hu, under_refl.
          - apply C2. intros ->. exact (under_not_self _ _ Hq). }
        destruct (IHt (done ++ [a]) (body sd a)) as (A1 & A2 & A3).
        + rewrite <- app_assoc. exact Es.
        + intros q Hq. assert (Hu : ~ under (a :: p) q) by (intro Hu; apply Hq; eapply under_cons; eauto).
          destruct (F1 q Hu) as [-> ->]. split.
          * rewrite C1; [apply Fr; auto|]. intros ->. apply Hq; auto.
          * intro Hqp. rewrite C2 by auto. apply Fr; auto.
        + intros m Hm. destruct (Nat.eq_dec m a) as [->|Hma].
          * apply (bsettled_frame (mods a) (a :: p) sc s (body sd a) (body sd a)); auto; [exact (proj1 Zc)|exact (proj2 Zc)].
          * apply in_app_or in Hm. destruct Hm as [Hm|[E|[]]]; [|congruence].
            apply (bsettled_frame (mods m) (m :: p) s s sd (body sd a)); auto.
            -- intros q Hq. symmetry. apply (Hother m); auto. apply below_under. exact Hq.
            -- intros q Hq. symmetry. apply (Hother m); auto.
            -- rewrite (proj1 (Hother m (m :: p) Hma (under_refl _))). reflexivity.
        + intros m Hm. assert (Hma : m <> a) by (intros ->; apply Hm; apply in_or_app; right; left; auto).
          assert (Hmd : ~ In m done) by (intro Hi; apply Hm; apply in_or_app; auto).
          split; intros q Hq.
          * rewrite (proj1 (Hother m q Hma (below_under _ _ Hq))). apply (Zr m Hmd). exact Hq.
          * rewrite (proj2 (Hother m q Hma Hq)). apply (Zr m Hmd). exact Hq.
        + intro m. destruct (Nat.eq_dec m a) as [->|Hma].
          * rewrite E1. cbn [b_in]. rewrite C3. apply Hin.
          * rewrite (proj1 (Hother m (m :: p) Hma (under_refl _))). apply Hin.
        + split; [exact A1|]. split; [|exact A3]. rewrite A2. f_equal. unfold nbody at 1. cbv zeta. rewrite <- C4. unfold pview at 1. cbn [fst snd pview]. f_equal.
          * unfold mod_backward. transitivity (view p (tset (fst sc) (a :: p) (fst (body sd a) (a :: p)))).
            -- apply view_ext. intro m. destruct (Nat.eq_dec m a) as [->|Hn]; [rewrite tset_same; auto|].
               rewrite tset_other by congruence. apply F1. intro Hu. apply Hn. eapply under_disjoint; [apply under_refl|exact Hu].
            -- rewrite view_tset. f_equal. exact E1.
          * apply F1. apply under_not_self. }
    destruct (Loop (rev sorted) [] (B1, snd s) eq_refl) as (L1 & L2 & L3); cbn [fst snd].
    + intros q Hq. split; auto. apply tload_err_frame. intros m ->. apply Hq; auto.
    + intros m [].
    + intros m _. split; auto. intros q Hq. apply tload_err_frame. intros a ->. apply below_len in Hq. cbn in Hq. lia.
    + intro m. apply tload_err_in.
    + set (s2 := fold_left body (rev sorted) (B1, snd s)) in *.
      assert (E2 : pview p s2 = fst (ff_backActivate N (P p) (pview p s) e)).
      { rewrite L2, V1. reflexivity. }
      assert (Ep : fst s2 p = fst s p) by (apply L1, not_below_self).
      assert (EB : s' = (tset (fst s2) p (mkbuf (b_in (fst s2 p)) (b_out (fst s2 p)) (gather (fun m => t_in (mods m)) (fun m => b_ine (fst s2 (m :: p))) inm) (b_oute (fst s2 p))), snd s2)) by reflexivity.
      assert (Fr : forall q, q <> p -> fst s' q = fst s2 q) by (intros q Hq; rewrite EB; apply tset_other; auto).
      assert (ED : snd s' = snd s2) by (rewrite EB; reflexivity).
      assert (EBp : fst s' p = mkbuf (b_in (fst s p)) (b_out (fst s p)) (snd (ff_backActivate N (P p) (pview p s) e)) e).
      { rewrite EB. cbn [fst]. rewrite tset_same, Ep. f_equal.
        assert (Ei : snd (ff_backActivate N (P p) (pview p s) e) = inputerrors N 0 (fst (pview p s2))) by (rewrite E2; reflexivity).
        rewrite Ei. unfold inputerrors, pview. cbn [fst view].
        apply (gather_dims (fun m => t_in (mods m)) (fun m => l_in (L m))). intro m. symmetry. apply Hdim. }
      assert (Vp : pview p s' = pview p s2).
      { unfold pview. rewrite ED. f_equal. apply view_ext. intro m. apply Fr. auto. }
      split; [|split].
      * intros q Hq. rewrite Fr, ED by (intros ->; apply Hq, under_refl).
        destruct (L1 q) as [X Y]; [intro Hb; apply Hq; apply below_under; exact Hb|]. split; [exact X|]. apply Y. intros ->. apply Hq, under_refl.
      * rewrite EBp. f_equal. cbn [lay netlayer l_bwd]. fold (flat P p mods sorted conns inm outm). fold N.
        unfold pview. rewrite Hv. cbn [ff_activate fst snd].
        apply (backActivate_derivs N (P p) (ff_forward N (P p) reset_bufs (b_in (fst s p))) (snd s p) e).
      * cbn [bsettled]. fold N. split.
        -- rewrite Vp, EBp. exact E2.
        -- intros m Hm. apply (bsettled_frame (mods m) (m :: p) s s s2 s'); auto.
           ++ intros q Hq. symmetry. apply Fr. intros ->. apply below_len in Hq. cbn in Hq. lia.
           ++ rewrite (Fr (m :: p)); auto.
Qed.
End Refine.
