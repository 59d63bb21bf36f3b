(** Gradients of networks whose modules have parameters of their own: everything may move
    along a curve, the inputs, the parameters of the connections and the modules. *)
From Coq Require Import Ring Reals Lra.
From Verif Require Import Base RingOps Net_Model Net_Spec Propagate Net_Events Net_Forward Conn_Adjoint Net_Backward Net_Adjoint Net_Gradient Net_Gradient2.

(** A family of layers lf is differentiable at the input v when, along every curve of
    inputs through v, its outputs have derivatives g that pair with any error e to the
    backward pass (of the layer at 0) plus the contribution xt e of its own parameters. *)
Definition pdiff_at (lf : R -> rlayer) (v : rvec) (xt : rvec -> R) : Prop :=
  (forall s, l_in (lf s) = l_in (lf 0%R) /\ l_out (lf s) = l_out (lf 0%R)) /\
  forall (w : R -> rvec) (d : rvec), w 0%R = v ->
    (forall i, i < l_in (lf 0%R) -> dlim (fun s => w s i) (d i)) ->
    exists g : rvec,
      (forall i, i < l_out (lf 0%R) -> dlim (fun s => l_fwd (lf s) (w s) zvec i) (g i)) /\
      forall e, dot (l_out (lf 0%R)) e g = (dot (l_in (lf 0%R)) (l_bwd (lf 0%R) e zvec (l_fwd (lf 0%R) v zvec) v) d + xt e)%R.

Lemma pdiff_plain l v : layer_diff_at l v -> pdiff_at (fun _ => l) v (fun _ => 0%R).
Proof.
  intro H. split; [auto|]. intros w d E Hd. destruct (H w d) as (g & G1 & G2); auto.
  { intros i _. rewrite E. reflexivity. }
  exists g. split; auto. intro e. rewrite G2. cbn. ring.
Qed.

Lemma external_deriv_c (L : nat -> rlayer) ms (Xs : R -> rvec) (dX : rvec) m i : i < l_in (L m) -> forall index,
  (forall j, j < index + dims (fun a => l_in (L a)) ms -> dlim (fun s => Xs s j) (dX j)) ->
  dlim (fun s => external L ms index (Xs s) m i) (external L ms index dX m i).
Proof.
  intro Hi. induction ms as [|a ms IH]; intros index H; cbn [external].
  - apply dlim_const.
  - cbn [dims] in H. destruct (Nat.eqb_spec a m) as [->|Hne].
    + apply H. lia.
    + apply IH. intros j Hj. apply H. lia.
Qed.
Lemma external_layers (L L' : nat -> rlayer) ms x m : (forall a, l_in (L a) = l_in (L' a)) -> forall index, external L ms index x m = external L' ms index x m.
Proof. intro H. induction ms as [|a ms IH]; intro index; cbn [external]; auto. rewrite H, IH. reflexivity. Qed.

Section Curves.
Context (sorted : list nat) (conns : nat -> list conn) (recs : list conn) (inm outm : list nat).
Context (Lf : R -> nat -> rlayer).
(** the network at s *)
Definition at_ (s : R) : rnet := mknet (Lf s) sorted conns recs inm outm.
Notation N := (at_ 0%R).
Context (HLf : forall s m, l_in (Lf s m) = l_in (Lf 0%R m) /\ l_out (Lf s m) = l_out (Lf 0%R m)).

Lemma wf_at s : wf_net N -> wf_net (at_ s).
Proof.
  assert (Hc : forall c, wf_conn (Lf 0%R) c -> wf_conn (Lf s) c).
  { intros c H. unfold wf_conn in *. rewrite (proj2 (HLf s (c_in c))), (proj1 (HLf s (c_out c))). exact H. }
  intros [A B C D E]. split; cbn in *; auto.
  - intros m c Hm Hin. destruct (B m c Hm Hin) as (X & Y & Z). auto.
  - intros c Hin. destruct (C c Hin) as (X & Y & Z). auto.
Qed.

Context (Ps : R -> nat -> rvec) (dP : nat -> rvec) (Xs : R -> nat -> rvec) (dX : nat -> rvec) (T : nat).
Context (HPs : forall k q, dlim (fun s => Ps s k q) (dP k q)).
Context (HXs : forall t j, t < T -> j < in_dim N -> dlim (fun s => Xs s t j) (dX t j)).
Context (W : wf_net N).
Notation P := (Ps 0%R).
Notation X := (Xs 0%R).

Section Tangent.
Context (Is Os : R -> nat -> nat -> rvec) (xt : nat -> nat -> rvec -> R).
Context (HI : forall s m t, In m sorted -> t < T -> forall i,
  Is s m t i = (external (Lf s) inm 0 (Xs s t) m i
    + suml (filter (fun c => c_out c =? m) (all_conns (at_ s))) (fun c => delivers (Ps s) c (Os s (c_in c) t) i)
    + match t with 0 => 0 | S t' => suml (filter (fun c => c_out c =? m) recs) (fun c => delivers (Ps s) c (Os s (c_in c) t') i) end)%R).
Context (HOs : forall s m t, In m sorted -> t < T -> Os s m t = l_fwd (Lf s m) (Is s m t) zvec).
Context (Hdiff : forall m t, In m sorted -> t < T -> pdiff_at (fun s => Lf s m) (Is 0%R m t) (xt m t)).
Notation I := (Is 0%R).
Notation O := (Os 0%R).

Definition ptgood (dI dO : nat -> nat -> rvec) (m t : nat) : Prop :=
  (forall i, dI m t i = tangent_in N P dP dX O dO m t i) /\
  (forall e, dot (l_out (Lf 0%R m)) e (dO m t) = (dot (l_in (Lf 0%R m)) (l_bwd (Lf 0%R m) e zvec (O m t) (I m t)) (dI m t) + xt m t e)%R) /\
  (forall i, i < l_out (Lf 0%R m) -> dlim (fun s => Os s m t i) (dO m t i)).

Definition pcovered (t : nat) (done : list nat) (m t' : nat) : Prop := (In m sorted /\ t' < t) \/ (In m done /\ t' = t).

Lemma ptangent_step t m0 done todo dI dO : t < T -> sorted = done ++ m0 :: todo ->
  (forall m t', pcovered t done m t' -> ptgood dI dO m t') ->
  exists dI' dO', forall m t', pcovered t (done ++ [m0]) m t' -> ptgood dI' dO' m t'.
Proof.
  intros Ht Es H.
  assert (Hm0 : In m0 sorted) by (rewrite Es; apply in_or_app; right; left; auto).
  pose proof (wf_nodup _ W) as Hnd. cbn [n_sorted at_] in Hnd. rewrite Es in Hnd.
  assert (Hmd : ~ In m0 done) by (intro Hin; apply NoDup_remove_2 in Hnd; apply Hnd; apply in_or_app; auto).
  assert (Hsrc : forall m c, In m (done ++ [m0]) -> In c (filter (fun c => c_out c =? m) (all_conns N)) -> In (c_in c) done /\ wf_conn (Lf 0%R) c).
  { intros m c Hm Hc. apply filter_In in Hc. destruct Hc as [Hc Ec]. apply Nat.eqb_eq in Ec. unfold all_conns in Hc. apply in_flat_map in Hc.
    destruct Hc as (u & Hu & Hc). destruct (wf_conns _ W u c Hu Hc) as (Eu & Hb & Hw). split; auto. rewrite Eu. cbn [n_sorted at_] in Hb. rewrite Ec, Es in Hb.
    apply in_app_or in Hm. destruct Hm as [Hm|[<-|[]]].
    - apply in_split in Hm. destruct Hm as (d1 & d2 & ->). rewrite <- app_assoc in Hb, Hnd. cbn [app] in Hb, Hnd.
      apply before_done in Hb; auto. apply in_or_app; auto.
    - apply before_done in Hb; auto. }
  assert (Hrc : forall m c, In c (filter (fun c => c_out c =? m) recs) -> In (c_in c) sorted /\ wf_conn (Lf 0%R) c).
  { intros m c Hc. apply filter_In in Hc. destruct Hc as [Hc _]. destruct (wf_rec _ W c Hc) as (A & _ & B). auto. }
  set (di := tangent_in N P dP dX O dO m0 t).
  assert (HdI : forall i, i < l_in (Lf 0%R m0) -> dlim (fun s => Is s m0 t i) (di i)).
  { intros i Hi. eapply dlim_ext; [intro s; symmetry; apply (HI s m0 t Hm0 Ht i)|]. unfold di, tangent_in.
    apply dlim_add; [apply dlim_add|].
    - apply (dlim_ext (fun s => external (Lf 0%R) inm 0 (Xs s t) m0 i)).
      { intro s. rewrite (external_layers (Lf s) (Lf 0%R)); [reflexivity|]. intro a. apply HLf. }
      apply (external_deriv_c (Lf 0%R) inm (fun s => Xs s t) (dX t) m0 i Hi 0). intros j Hj. apply HXs; auto.
    - change (dlim (fun s => suml (filter (fun c => c_out c =? m0) (all_conns N)) (fun c => delivers (Ps s) c (Os s (c_in c) t) i)) (suml (filter (fun c => c_out c =? m0) (all_conns N)) (fun c => radd (delivers P c (dO (c_in c) t) i) (dpar dP c (O (c_in c) t) i)))).
      apply (dlim_suml _ (fun c s => delivers (Ps s) c (Os s (c_in c) t) i)). intros c Hc. destruct (Hsrc m0 c) as [Hd Hw]; [apply in_or_app; right; left; auto|auto|].
      apply (delivers_deriv (Lf 0%R)); auto.
      intros j Hj. apply (H (c_in c) t); auto. right; auto.
    - destruct t as [|t']; [apply dlim_const|].
      apply (dlim_suml _ (fun c s => delivers (Ps s) c (Os s (c_in c) t') i)). intros c Hc. destruct (Hrc m0 c Hc) as [Hd Hw].
      apply (delivers_deriv (Lf 0%R)); auto.
      intros j Hj. apply (H (c_in c) t'); auto. left; split; auto. }
  destruct (proj2 (Hdiff m0 t Hm0 Ht) (fun s => Is s m0 t) di eq_refl HdI) as (g & Hg1 & Hg2).
  set (dI' := fun m t' => if (m =? m0) && (t' =? t) then di else dI m t').
  set (dO' := fun m t' => if (m =? m0) && (t' =? t) then g else dO m t').
  assert (HdO' : forall m t', m <> m0 \/ t' <> t -> dO' m t' = dO m t').
  { intros m t' Hne. unfold dO'. destruct (Nat.eqb_spec m m0), (Nat.eqb_spec t' t); auto. destruct Hne; contradiction. }
  assert (Htan : forall m t', pcovered t (done ++ [m0]) m t' -> forall i, tangent_in N P dP dX O dO' m t' i = tangent_in N P dP dX O dO m t' i).
  { intros m t' Hc i. unfold tangent_in. f_equal; [f_equal|].
    - apply suml_ext. intros c Hcc. rewrite HdO'; auto. destruct Hc as [[Hm Hlt]|[Hm ->]]; [right; lia|].
      left. intro E'. apply Hmd. rewrite <- E'. apply (Hsrc m c); auto.
    - destruct t' as [|t'']; auto. apply suml_ext. intros c Hcc. rewrite HdO'; auto. right. destruct Hc as [[_ Hlt]|[_ Heq]]; lia. }
  exists dI', dO'. intros m t' Hc.
  destruct (Nat.eq_dec m m0) as [->|Hm]; [destruct (Nat.eq_dec t' t) as [->|Ht']|].
  - unfold ptgood. split; [|split].
    + intro i. rewrite Htan by auto. unfold dI'. rewrite !Nat.eqb_refl. reflexivity.
    + unfold dI', dO'. rewrite !Nat.eqb_refl. cbn [andb]. rewrite HOs by auto. exact Hg2.
    + intros i Hi. unfold dO'. rewrite !Nat.eqb_refl. cbn [andb].
      eapply dlim_ext; [intro s; rewrite (HOs s m0 t Hm0 Ht); reflexivity|]. apply Hg1. auto.
  - assert (Hold : ptgood dI dO m0 t').
    { apply H. destruct Hc as [Hc|[_ Hc]]; [left; auto|contradiction]. }
    destruct Hold as (A & B & C). unfold ptgood. rewrite HdO' by auto.
    assert (EI : dI' m0 t' = dI m0 t') by (unfold dI'; destruct (Nat.eqb_spec t' t); [contradiction|rewrite andb_false_r; auto]).
    rewrite EI. split; [|split; auto]. intro i. rewrite Htan by auto. apply A.
  - assert (Hold : ptgood dI dO m t').
    { apply H. destruct Hc as [Hc|[Hc ->]]; [left; auto|right]. apply in_app_or in Hc. destruct Hc as [Hc|[Hc|[]]]; [auto|congruence]. }
    destruct Hold as (A & B & C). unfold ptgood. rewrite HdO' by auto.
    assert (EI : dI' m t' = dI m t') by (unfold dI'; destruct (Nat.eqb_spec m m0); [contradiction|auto]).
    rewrite EI. split; [|split; auto]. intro i. rewrite Htan by auto. apply A.
Qed.

Lemma ptangent_exists : exists dI dO, forall m t, In m sorted -> t < T -> ptgood dI dO m t.
Proof.
  assert (G : forall t, t <= T -> exists dI dO, forall m t', In m sorted -> t' < t -> ptgood dI dO m t').
  { induction t as [|t IH]; intro Ht.
    - exists (fun _ _ => zvec), (fun _ _ => zvec). intros; lia.
    - destruct IH as (dI & dO & H); [lia|].
      assert (Gl : forall todo done, sorted = done ++ todo -> forall dI dO, (forall m t', pcovered t done m t' -> ptgood dI dO m t') ->
        exists dI' dO', forall m t', pcovered t sorted m t' -> ptgood dI' dO' m t').
      { induction todo as [|m0 todo IHl]; intros done Es dI1 dO1 H1.
        - rewrite app_nil_r in Es. exists dI1, dO1. intros m t' Hc. apply H1. unfold pcovered in *. rewrite <- Es. exact Hc.
        - destruct (ptangent_step t m0 done todo dI1 dO1 ltac:(lia) Es H1) as (dI2 & dO2 & H2).
          apply (IHl (done ++ [m0])) with (dI := dI2) (dO := dO2); auto. rewrite <- app_assoc. auto. }
      destruct (Gl sorted [] eq_refl dI dO) as (dI' & dO' & H').
      + intros m t' [[Hm Hlt]|[[] _]]. apply H; auto.
      + exists dI', dO'. intros m t' Hm Hlt. apply H'. unfold pcovered. destruct (Nat.eq_dec t' t); [right|left]; auto. split; auto. lia. }
  apply (G T). auto.
Qed.
End Tangent.

Section Core.
Context (ks : list nat) (pdim : nat -> nat) (Fs : R -> @bufs R) (xt : nat -> nat -> rvec -> R).
Notation F0 := (Fs 0%R).
Context (Hg : conns_good N) (Hks : params_of N ks pdim).
Context (HFs : forall s n, pf (Fs s) n = gexec (ff_f (Lf s)) (pf reset_bufs) (evs (at_ s) (Ps s) 0 (map (Xs s) (seq 0 T))) n).
Context (Hdiff : forall m t, In m sorted -> t < T -> pdiff_at (fun s => Lf s m) (b_in (F0 m t)) (xt m t)).

(** the derivatives of the outputs exist, and pair with any E as the backward pass says *)
Theorem pgradient_core : exists dY : nat -> rvec,
  (forall t i, t < T -> i < out_dim N -> dlim (fun s => outputs (at_ s) t (Fs s) i) (dY t i)) /\
  forall (E : nat -> rvec) (mo : nat) (b : @bufs R) (d : @derivs R) (s' : @bufs R * @derivs R), T <= mo \/ recs = [] ->
  (forall c, In c recs -> forall i, b_ine (b (c_out c) T) i = 0%R) ->
  (forall m t, In m sorted -> t < T -> bwd_fresh (Lf 0%R m) (b_ine (b m t))) ->
  (forall n, pb s' n = gexec (bf_f (Lf 0%R) F0) (pb (b, d)) (bevs N P F0 mo T E) n) ->
  (forall m o, b_oute (b m o) = zvec) ->
  sumn T (fun t => dot (out_dim N) (E t) (dY t)) =
  (sumn T (fun t => dot (in_dim N) (inputerrors N t (fst s')) (dX t)) +
   suml ks (fun k => dot (pdim k) (fun q => snd s' k q - d k q) (dP k)) +
   sumn T (fun t => suml sorted (fun m => xt m t (b_oute (fst s' m t)))))%R.
Proof.
  set (Is := fun s m t => b_in (Fs s m t)). set (Os := fun s m t => b_out (Fs s m t)).
  assert (Qs : forall s t m, t < T -> In m sorted -> _) by (intros s t m Ht Hm; exact (exec_recurrence (at_ s) (Ps s) _ (Fs s) (wf_at s W) (HFs s) t (Xs s t) m (nth_error_map_seq (Xs s) T t Ht) Hm)).
  destruct (ptangent_exists Is Os xt) as (dI & dO & Htan).
  - intros s m t Hm Ht i. apply (Qs s t m Ht Hm).
  - intros s m t Hm Ht. apply (Qs s t m Ht Hm).
  - exact Hdiff.
  - exists (fun t => net_output N dO t). split.
    + intros t i Ht Hi. apply (dlim_ext (fun s => gather (fun m => l_out (Lf 0%R m)) (fun m => b_out (Fs s m t)) outm i)).
      { intro s. unfold outputs. cbn [n_layer n_outmods at_]. clear -HLf. generalize i. induction outm as [|m l IHl]; intro j; cbn [gather]; auto.
        rewrite (proj2 (HLf s m)). destruct (j <? _); auto. }
      unfold net_output. apply (gather_deriv (fun m => l_out (Lf 0%R m)) (fun s m => b_out (Fs s m t))); auto.
      intros m j Hm Hj. apply (Htan m t); auto. apply (proj2 (wf_out _ W)). auto.
    + intros E mo b d s' Hmo Hlast Hfresh Hs' He0.
      pose proof (adjoint_identity_x N P dP E dX T mo F0 b d s' dI dO ks pdim xt W Hg Hks Hmo Hs' Hlast) as Adj.
      cbn zeta in Adj.
      assert (A2 : forall m t, In m sorted -> t < T -> forall i, i < l_in (Lf 0%R m) -> dI m t i = tangent_in N P dP dX (fun m t => b_out (F0 m t)) dO m t i).
      { intros m t Hm Ht i _. apply (Htan m t Hm Ht). }
      assert (A3 : forall m t, In m sorted -> t < T -> forall e,
         dot (l_out (Lf 0%R m)) e (dO m t) = (dot (l_in (Lf 0%R m)) (l_bwd (Lf 0%R m) e (b_ine (b m t)) (b_out (F0 m t)) (b_in (F0 m t))) (dI m t) + xt m t e)%R).
      { intros m t Hm Ht e. destruct (Htan m t Hm Ht) as (_ & A & _). refine (eq_trans (A e) _). f_equal. apply sumn_ext. intros i Hi.
        rewrite (Hfresh m t Hm Ht) by auto. reflexivity. }
      specialize (Adj A2 A3). refine (eq_trans _ Adj).
      match goal with |- _ = radd ?A ?B => assert (Z : B = 0%R) end.
      { apply (sumn_zero' (L := RLaws)). intros t Ht. apply (suml_zero (L := RLaws)). intros m Hm. rewrite (He0 m t). apply (sumn_zero' (L := RLaws)). intros i _. cbn. ring. }
      rewrite Z. symmetry. apply Rplus_0_r.
Qed.
End Core.
End Curves.

(** ** Feed-forward networks *)
Theorem pff_gradient sorted conns inm outm (Lf : R -> nat -> rlayer) (Ps : R -> nat -> rvec) (dP : nat -> rvec) (xs : R -> rvec) (dx : rvec)
    (ks : list nat) (pdim : nat -> nat) (xt : nat -> rvec -> R) :
  let Ns := fun s => at_ sorted conns [] inm outm Lf s in
  let F := fun s => ff_forward (Ns s) (Ps s) reset_bufs (xs s) in
  (forall s m, l_in (Lf s m) = l_in (Lf 0%R m) /\ l_out (Lf s m) = l_out (Lf 0%R m)) ->
  (forall k q, dlim (fun s => Ps s k q) (dP k q)) ->
  (forall j, j < in_dim (Ns 0%R) -> dlim (fun s => xs s j) (dx j)) ->
  wf_net (Ns 0%R) -> conns_good (Ns 0%R) -> params_of (Ns 0%R) ks pdim ->
  (forall m, In m sorted -> pdiff_at (fun s => Lf s m) (b_in (F 0%R m 0)) (xt m)) ->
  exists dY : rvec,
    (forall i, i < out_dim (Ns 0%R) -> dlim (fun s => outputs (Ns s) 0 (F s) i) (dY i)) /\
    forall (e : rvec) (d : @derivs R),
      let r := ff_backActivate (Ns 0%R) (Ps 0%R) (F 0%R, d) e in
      dot (out_dim (Ns 0%R)) e dY =
      (dot (in_dim (Ns 0%R)) (snd r) dx + suml ks (fun k => dot (pdim k) (fun q => snd (fst r) k q - d k q) (dP k))
       + suml sorted (fun m => xt m (b_oute (fst (fst r) m 0%nat))))%R.
Proof.
  intros Ns F HLf HPs HXs W Hg Hks Hdiff.
  assert (HF : forall s n, pf (F s) n = gexec (ff_f (Lf s)) (pf reset_bufs) (evs (Ns s) (Ps s) 0 (map (fun _ => xs s) (seq 0 1))) n).
  { intros s n. unfold F. rewrite ff_forward_step. cbn [seq map evs]. rewrite app_nil_r. exact (proj1 (step_bufs_ev (Ns s) (Ps s) 0 (xs s) reset_bufs) n). }
  assert (He : forall m o, b_ine (F 0%R m o) = zvec /\ b_oute (F 0%R m o) = zvec).
  { intros m o. unfold F. rewrite ff_forward_step. destruct (step_bufs_ev (Ns 0%R) (Ps 0%R) 0 (xs 0%R) reset_bufs) as [_ S]. destruct (S m o) as [-> ->]. split; reflexivity. }
  destruct (pgradient_core sorted conns [] inm outm Lf HLf Ps dP (fun s _ => xs s) (fun _ => dx) 1 HPs (fun t j _ Hj => HXs j Hj) W ks pdim F (fun m _ => xt m) Hg Hks HF) as (dY & D1 & D2).
  { intros m t Hm Ht. replace t with 0 by lia. apply Hdiff. auto. }
  exists (dY 0). split; [intros i Hi; apply D1; auto|]. intros e d r.
  destruct (ff_back_ev (Ns 0%R) (Ps 0%R) (F 0%R) (F 0%R, d) e) as (Hb & _ & Hin); [split; reflexivity|].
  specialize (D2 (fun _ => e) 0 (F 0%R) d (fst r) (or_intror eq_refl) ltac:(intros c []) (fun m t _ _ => zvec_fresh _ _ (proj1 (He m t)))).
  cbn [sumn radd ROps r0] in D2. rewrite !Rplus_0_l in D2.
  unfold r. rewrite Hin. apply D2; [|intros; apply He].
  intro n. cbn [bevs]. rewrite app_nil_r. apply Hb.
Qed.
