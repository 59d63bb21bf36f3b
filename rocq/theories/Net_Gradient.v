(** C18: back-propagation computes the exact gradient, over the real numbers. *)
From Coq Require Import Ring Reals Lra.
From Verif Require Import Base RingOps Net_Model Net_Spec Propagate Net_Events Net_Forward Conn_Adjoint Net_Backward Net_Adjoint.

#[global] Instance ROps : RingOps R := {| r0 := 0%R; r1 := 1%R; radd := Rplus; rmul := Rmult; rsub := Rminus; ropp := Ropp |}.
#[global] Instance RLaws : RingLaws R := RTheory.

Notation rvec := (@vec R).
Notation rnet := (@net R).
Notation rlayer := (@layer R).

(** ** Derivatives of curves *)
Notation dlim f d := (derivable_pt_lim f 0%R d).

Lemma dlim_ext (f g : R -> R) d : (forall s, f s = g s) -> dlim f d -> dlim g d.
Proof. intros H Hf. intros eps He. destruct (Hf eps He) as (del & Hd). exists del. intros h Hh Hl. rewrite <- !H. auto. Qed.
Lemma dlim_val (f : R -> R) d d' : d = d' -> dlim f d -> dlim f d'.
Proof. intros ->. auto. Qed.
Lemma dlim_const c : dlim (fun _ => c) 0%R.
Proof. apply (derivable_pt_lim_const c 0). Qed.
Lemma dlim_add f g a b : dlim f a -> dlim g b -> dlim (fun s => f s + g s)%R (a + b)%R.
Proof. apply (derivable_pt_lim_plus f g). Qed.
Lemma dlim_sub f g a b : dlim f a -> dlim g b -> dlim (fun s => f s - g s)%R (a - b)%R.
Proof. apply (derivable_pt_lim_minus f g). Qed.
Lemma dlim_mul f g a b : dlim f a -> dlim g b -> dlim (fun s => f s * g s)%R (a * g 0%R + f 0%R * b)%R.
Proof. apply (derivable_pt_lim_mult f g). Qed.
Lemma dlim_comp (f g : R -> R) a b : dlim f a -> derivable_pt_lim g (f 0%R) b -> dlim (fun s => g (f s)) (b * a)%R.
Proof. intros H1 H2. apply (derivable_pt_lim_comp f g 0 a b H1 H2). Qed.
Lemma dlim_line p d : dlim (fun s => p + s * d)%R d.
Proof.
  apply (dlim_val _ (0 + (1 * d + 0 * 0))%R); [ring|]. apply (dlim_add (fun _ => p)); [apply dlim_const|].
  apply (dlim_mul (fun s => s) (fun _ => d)); [apply derivable_pt_lim_id|apply dlim_const].
Qed.
Lemma dlim_suml {A} (l : list A) (f : A -> R -> R) (d : A -> R) : (forall a, In a l -> dlim (f a) (d a)) -> dlim (fun s => suml l (fun a => f a s)) (suml l d).
Proof.
  induction l as [|a l IH]; intro H; cbn [suml].
  - apply dlim_const.
  - apply (dlim_add (f a)); [apply H; left; auto|apply IH; intros; apply H; right; auto].
Qed.
Lemma dlim_sumn n (f : nat -> R -> R) (d : nat -> R) : (forall i, i < n -> dlim (f i) (d i)) -> dlim (fun s => sumn n (fun i => f i s)) (sumn n d).
Proof.
  induction n as [|n IH]; intro H; cbn [sumn].
  - apply dlim_const.
  - apply (dlim_add (fun s => sumn n (fun i => f i s)) (f n)); [apply IH; intros; apply H; lia|apply H; lia].
Qed.

(** ** Layers whose backward pass is the transposed derivative at v *)
Definition layer_diff_at (l : rlayer) (v : rvec) : Prop :=
  forall (w : R -> rvec) (d : rvec),
    (forall i, i < l_in l -> w 0%R i = v i) ->
    (forall i, i < l_in l -> dlim (fun s => w s i) (d i)) ->
    exists g : rvec,
      (forall i, i < l_out l -> dlim (fun s => l_fwd l (w s) zvec i) (g i)) /\
      forall e, dot (l_out l) e g = dot (l_in l) (l_bwd l e zvec (l_fwd l v zvec) v) d.

(** ** Curves of parameters *)
Lemma delivers_deriv (L : nat -> rlayer) (Ps : R -> nat -> rvec) (P dP : nat -> rvec) (xs : R -> rvec) (x dx : rvec) c i :
  wf_conn L c -> (forall k q, Ps 0%R k q = P k q) -> (forall k q, dlim (fun s => Ps s k q) (dP k q)) ->
  (forall j, j < l_out (L (c_in c)) -> xs 0%R j = x j) -> (forall j, j < l_out (L (c_in c)) -> dlim (fun s => xs s j) (dx j)) ->
  dlim (fun s => delivers (Ps s) c (xs s) i) (delivers P c dx i + dpar dP c x i)%R.
Proof.
  intros W HP0 HP Hx0 Hx. pose proof W as (H1 & H2 & H3 & H4 & Hk). unfold delivers, dpar.
  destruct (Nat.leb_spec (c_outFrom c) i); cbn [andb]; [|apply (dlim_val _ 0%R); [cbn; ring|apply dlim_const]].
  destruct (Nat.ltb_spec i (c_outTo c)); [|apply (dlim_val _ 0%R); [cbn; ring|apply dlim_const]].
  set (i' := i - c_outFrom c). unfold c_indim, c_outdim in *.
  assert (HPx : forall q j f, j < c_inTo c - c_inFrom c ->
     dlim (fun s => Ps s (c_par c) q * f * xs s (c_inFrom c + j)%nat)%R (P (c_par c) q * f * dx (c_inFrom c + j)%nat + dP (c_par c) q * f * x (c_inFrom c + j)%nat)%R).
  { intros q j f Hj. eapply dlim_val; [|apply (dlim_mul (fun s => Ps s (c_par c) q * f)%R (fun s => xs s (c_inFrom c + j)) (dP (c_par c) q * f + P (c_par c) q * 0)%R (dx (c_inFrom c + j)))].
    - cbn beta. rewrite HP0, Hx0 by lia. ring.
    - eapply dlim_val; [|apply (dlim_mul (fun s => Ps s (c_par c) q) (fun _ => f)); [apply HP|apply dlim_const]]. cbn beta. rewrite HP0. ring.
    - apply Hx. lia. }
  unfold op_fwd, op_dpar. destruct (c_kind c) as [| | | |perm bs].
  - unfold op_fwd. eapply dlim_val; [refine (sumn_add _ _ _)|]. apply (dlim_sumn (c_inTo c - c_inFrom c)). intros j Hj.
    apply (dlim_ext (fun s => Ps s (c_par c) (i' * (c_inTo c - c_inFrom c) + j)%nat * 1 * xs s (c_inFrom c + j)%nat)%R); [intro; cbn; ring|].
    eapply dlim_val; [|apply HPx; auto]. cbn; ring.
  - apply (dlim_val _ (dx (c_inFrom c + i'))); [unfold zvec; cbn; ring|]. apply Hx. unfold i'. lia.
  - unfold op_fwd. apply (dlim_ext (fun s => Ps s (c_par c) i' * 1 * xs s (c_inFrom c + i')%nat)%R); [intro; cbn; ring|].
    eapply dlim_val; [|apply HPx; unfold i'; lia]. cbn; ring.
  - unfold op_fwd. eapply dlim_val; [refine (sumn_add _ _ _)|]. apply (dlim_sumn (c_inTo c - c_inFrom c)). intros j Hj.
    apply (dlim_ext (fun s => Ps s (c_par c) (i' * (c_inTo c - c_inFrom c) + j)%nat * (1 - delta i' j) * xs s (c_inFrom c + j)%nat)%R); [intro; reflexivity|].
    eapply dlim_val; [|apply HPx; auto]. cbn; ring.
  - apply (dlim_val _ (dx (c_inFrom c + (nth (i' / bs) perm 0 * bs + i' mod bs)))); [unfold zvec; cbn; ring|]. apply Hx.
    destruct Hk as (Hk & Hb & Hl & Hp).
    pose proof (sigma_bound perm bs i' Hp Hb) as Hsb. unfold sigma in Hsb. unfold i' in *. lia.
Qed.

Lemma external_deriv (L : nat -> rlayer) ms (X dX : rvec) m i : forall index,
  dlim (fun s => external L ms index (fun j => X j + s * dX j)%R m i) (external L ms index dX m i).
Proof.
  induction ms as [|a ms IH]; intro index; cbn [external].
  - apply dlim_const.
  - destruct (a =? m); [|apply IH]. apply dlim_line.
Qed.

(** ** The tangent of the recurrence *)
Section Tangent.
Variables (N : rnet) (P dP : nat -> rvec) (X dX : nat -> rvec) (T : nat).
Let Ps (s : R) : nat -> rvec := fun k q => (P k q + s * dP k q)%R.
Let Xs (s : R) (t : nat) : rvec := fun j => (X t j + s * dX t j)%R.
Variables (I O : nat -> nat -> rvec) (Is Os : R -> nat -> nat -> rvec).
Hypothesis W : wf_net N.
Hypothesis HO : forall m t, In m (n_sorted N) -> t < T -> O m t = l_fwd (n_layer N m) (I m t) zvec.
Hypothesis HI : forall s m t, In m (n_sorted N) -> t < T -> forall i,
  Is s m t i = (external (n_layer N) (n_inmods N) 0 (Xs s t) m i
    + suml (filter (fun c => c_out c =? m) (all_conns N)) (fun c => delivers (Ps s) c (Os s (c_in c) t) i)
    + match t with 0 => 0 | S t' => suml (filter (fun c => c_out c =? m) (n_rec N)) (fun c => delivers (Ps s) c (Os s (c_in c) t') i) end)%R.
Hypothesis HOs : forall s m t, In m (n_sorted N) -> t < T -> Os s m t = l_fwd (n_layer N m) (Is s m t) zvec.
Hypothesis H0I : forall m t i, In m (n_sorted N) -> t < T -> i < l_in (n_layer N m) -> Is 0%R m t i = I m t i.
Hypothesis H0O : forall m t i, In m (n_sorted N) -> t < T -> i < l_out (n_layer N m) -> Os 0%R m t i = O m t i.
Hypothesis Hdiff : forall m t, In m (n_sorted N) -> t < T -> layer_diff_at (n_layer N m) (I m t).

Definition tgood (dI dO : nat -> nat -> rvec) (m t : nat) : Prop :=
  (forall i, dI m t i = tangent_in N P dP dX O dO m t i) /\
  (forall e, dot (l_out (n_layer N m)) e (dO m t) = dot (l_in (n_layer N m)) (l_bwd (n_layer N m) e zvec (O m t) (I m t)) (dI m t)) /\
  (forall i, i < l_out (n_layer N m) -> dlim (fun s => Os s m t i) (dO m t i)).

Definition covered (t : nat) (done : list nat) (m t' : nat) : Prop := (In m (n_sorted N) /\ t' < t) \/ (In m done /\ t' = t).

Lemma tangent_step t m0 done todo dI dO : t < T -> n_sorted N = done ++ m0 :: todo ->
  (forall m t', covered t done m t' -> tgood dI dO m t') ->
  exists dI' dO', forall m t', covered t (done ++ [m0]) m t' -> tgood dI' dO' m t'.
Proof.
  intros Ht Es H.
  assert (Hm0 : In m0 (n_sorted N)) by (rewrite Es; apply in_or_app; right; left; auto).
  pose proof (wf_nodup _ W) as Hnd. rewrite Es in Hnd.
  assert (Hmd : ~ In m0 done) by (intro Hin; apply NoDup_remove_2 in Hnd; apply Hnd; apply in_or_app; auto).
  assert (Hsrc : forall m c, In m (done ++ [m0]) -> In c (filter (fun c => c_out c =? m) (all_conns N)) -> In (c_in c) done /\ wf_conn (n_layer N) c).
  { intros m c Hm Hc. apply filter_In in Hc. destruct Hc as [Hc Ec]. apply Nat.eqb_eq in Ec. unfold all_conns in Hc. apply in_flat_map in Hc.
    destruct Hc as (u & Hu & Hc). destruct (wf_conns _ W u c Hu Hc) as (Eu & Hb & Hw). split; auto. rewrite Eu. rewrite Ec, Es in Hb.
    apply in_app_or in Hm. destruct Hm as [Hm|[<-|[]]].
    - apply in_split in Hm. destruct Hm as (d1 & d2 & ->). rewrite <- app_assoc in Hb, Hnd. cbn [app] in Hb, Hnd.
      apply before_done in Hb; auto. apply in_or_app; auto.
    - apply before_done in Hb; auto. }
  assert (Hrc : forall m c, In c (filter (fun c => c_out c =? m) (n_rec N)) -> In (c_in c) (n_sorted N) /\ wf_conn (n_layer N) c).
  { intros m c Hc. apply filter_In in Hc. destruct Hc as [Hc _]. destruct (wf_rec _ W c Hc) as (A & _ & B). auto. }
  assert (Hdone : forall m, In m done -> In m (n_sorted N)) by (intros; rewrite Es; apply in_or_app; auto).
  set (di := tangent_in N P dP dX O dO m0 t).
  assert (HdI : forall i, dlim (fun s => Is s m0 t i) (di i)).
  { intro i. eapply dlim_ext; [intro s; symmetry; apply (HI s m0 t Hm0 Ht i)|]. unfold di, tangent_in.
    apply dlim_add; [apply dlim_add|].
    - apply external_deriv.
    - apply (dlim_suml _ (fun c s => delivers (Ps s) c (Os s (c_in c) t) i)). intros c Hc. destruct (Hsrc m0 c) as [Hd Hw]; [apply in_or_app; right; left; auto|auto|].
      apply (delivers_deriv (n_layer N)); auto.
      + intros. unfold Ps. ring.
      + intros. apply dlim_line.
      + intros j Hj. apply (H (c_in c) t); auto. right; auto.
    - destruct t as [|t']; [apply dlim_const|].
      apply (dlim_suml _ (fun c s => delivers (Ps s) c (Os s (c_in c) t') i)). intros c Hc. destruct (Hrc m0 c Hc) as [Hd Hw].
      apply (delivers_deriv (n_layer N)); auto.
      + intros. unfold Ps. ring.
      + intros. apply dlim_line.
      + intros j Hj. apply H0O; auto. lia.
      + intros j Hj. apply (H (c_in c) t'); auto. left; split; auto. }
  destruct (Hdiff m0 t Hm0 Ht (fun s => Is s m0 t) di) as (g & Hg1 & Hg2).
  { intros; apply H0I; auto. }
  { intros; apply HdI. }
  set (dI' := fun m t' => if (m =? m0) && (t' =? t) then di else dI m t').
  set (dO' := fun m t' => if (m =? m0) && (t' =? t) then g else dO m t').
  assert (HdO' : forall m t', m <> m0 \/ t' <> t -> dO' m t' = dO m t').
  { intros m t' Hne. unfold dO'. destruct (Nat.eqb_spec m m0), (Nat.eqb_spec t' t); auto. destruct Hne; contradiction. }
  assert (Htan : forall m t', covered t (done ++ [m0]) m t' -> forall i, tangent_in N P dP dX O dO' m t' i = tangent_in N P dP dX O dO m t' i).
  { intros m t' Hc i. unfold tangent_in. f_equal; [f_equal|].
    - apply suml_ext. intros c Hcc. rewrite HdO'; auto. destruct Hc as [[Hm Hlt]|[Hm ->]]; [right; lia|].
      left. intro E'. apply Hmd. rewrite <- E'. apply (Hsrc m c); auto.
    - destruct t' as [|t'']; auto. apply suml_ext. intros c Hcc. rewrite HdO'; auto. right. destruct Hc as [[_ Hlt]|[_ Heq]]; lia. }
  exists dI', dO'. intros m t' Hc.
  destruct (Nat.eq_dec m m0) as [->|Hm]; [destruct (Nat.eq_dec t' t) as [->|Ht']|].
  - unfold tgood. rewrite <- (fun i => Htan m0 t Hc i) in * || idtac. split; [|split].
    + intro i. rewrite Htan by auto. unfold dI'. rewrite !Nat.eqb_refl. reflexivity.
    + unfold dI', dO'. rewrite !Nat.eqb_refl. cbn [andb]. rewrite HO by auto. exact Hg2.
    + intros i Hi. unfold dO'. rewrite !Nat.eqb_refl. cbn [andb].
      eapply dlim_ext; [intro s; rewrite (HOs s m0 t Hm0 Ht); reflexivity|]. apply Hg1. auto.
  - assert (Hold : tgood dI dO m0 t').
    { apply H. destruct Hc as [Hc|[_ Hc]]; [left; auto|contradiction]. }
    destruct Hold as (A & B & C). unfold tgood. rewrite HdO' by auto.
    assert (EI : dI' m0 t' = dI m0 t') by (unfold dI'; destruct (Nat.eqb_spec t' t); [contradiction|rewrite andb_false_r; auto]).
    rewrite EI. split; [|split; auto]. intro i. rewrite Htan by auto. apply A.
  - assert (Hold : tgood dI dO m t').
    { apply H. destruct Hc as [Hc|[Hc ->]]; [left; auto|right]. apply in_app_or in Hc. destruct Hc as [Hc|[Hc|[]]]; [auto|congruence]. }
    destruct Hold as (A & B & C). unfold tgood. rewrite HdO' by auto.
    assert (EI : dI' m t' = dI m t') by (unfold dI'; destruct (Nat.eqb_spec m m0); [contradiction|auto]).
    rewrite EI. split; [|split; auto]. intro i. rewrite Htan by auto. apply A.
Qed.

Lemma tangent_exists : exists dI dO, forall m t, In m (n_sorted N) -> t < T -> tgood dI dO m t.
Proof.
  assert (G : forall t, t <= T -> exists dI dO, forall m t', In m (n_sorted N) -> t' < t -> tgood dI dO m t').
  { induction t as [|t IH]; intro Ht.
    - exists (fun _ _ => zvec), (fun _ _ => zvec). intros; lia.
    - destruct IH as (dI & dO & H); [lia|].
      assert (Gl : forall todo done, n_sorted N = done ++ todo -> forall dI dO, (forall m t', covered t done m t' -> tgood dI dO m t') ->
        exists dI' dO', forall m t', covered t (n_sorted N) m t' -> tgood dI' dO' m t').
      { induction todo as [|m0 todo IHl]; intros done Es dI1 dO1 H1.
        - rewrite app_nil_r in Es. rewrite Es in *. eauto.
        - destruct (tangent_step t m0 done todo dI1 dO1 ltac:(lia) Es H1) as (dI2 & dO2 & H2).
          apply (IHl (done ++ [m0])) with (dI := dI2) (dO := dO2); auto. rewrite <- app_assoc. auto. }
      destruct (Gl (n_sorted N) [] eq_refl dI dO) as (dI' & dO' & H').
      + intros m t' [[Hm Hlt]|[[] _]]. apply H; auto.
      + exists dI', dO'. intros m t' Hm Hlt. apply H'. unfold covered. destruct (Nat.eq_dec t' t); [right|left]; auto. split; auto. lia. }
  apply (G T). auto.
Qed.
End Tangent.
