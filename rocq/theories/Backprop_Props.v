(** C61: an epoch of BackpropTrainer is gradient descent on the squared error. *)
From Coq Require Import Ring Reals Lra FunctionalExtensionality.
From Verif Require Import Base RingOps Net_Model Net_Spec Conn_Adjoint Net_Adjoint Net_Gradient Net_Gradient2 Net_Props Net_Gradient_Props
  Backprop_Model Backprop_Spec Backprop_Proofs Backprop_Gradient.

(** ** The gradient.  Whatever state a recurrent network is in, _calcDerivs returns the weighted
    squared error of the sequence and adds minus its gradient to the derivatives. *)
Section Gradient.
Local Open Scope R_scope.
Context (N : rnet) (ks : list nat) (pdim : nat -> nat).
Notation size := (list_sum (map pdim ks)).
(** a network that has just been made *)
Definition fresh : @rstate R := mkr reset_bufs (fun _ => zvec) 0 0 1.
Definition smooth_run (P : nat -> rvec) (sq : list (@sample R)) (s : @rstate R) : Prop :=
  forall m t, In m (n_sorted N) -> (t < length sq)%nat ->
    layer_diff_at (n_layer N m) (b_in (r_b (fst (run_acts (rec_activate N P) (rec_reset s) (map x_in sq))) m t)).
Definition trainable : Prop :=
  wf_net N /\ (forall m, In m (n_sorted N) -> layer_local (n_layer N m)) /\ conns_good N /\ params_of N ks pdim.

(** the ponderation: the sum of the importances of all outputs, each 1 if there are none *)
Definition ponderation (x : @sample R) : R := sumn (out_dim N) (weight x).
Lemma pond_weight x : sample_pond (out_dim N) x = ponderation x.
Proof. unfold sample_pond, ponderation, weight. destruct (x_imp x); reflexivity. Qed.

Theorem C61_recurrent_gradient (P dP : nat -> rvec) (sq : list (@sample R)) (s : @rstate R) :
  trainable -> (0 < r_len s)%nat -> smooth_run P sq s ->
  let E := fun Q => sequence_error N sq (rec_outs N Q sq s) in
  exists s', rec_calc (/ 2) N P sq s = (s', E P, suml sq ponderation) /\
    derivable_pt_lim (fun z => E (fun k q => P k q + z * dP k q)) 0
      (- suml ks (fun k => dot (pdim k) (fun q => r_d s' k q - r_d s k q) (dP k))).
Proof. intros (W & HL & Hg & Hks) Hs Hd. rewrite <- (suml_ext sq _ _ (fun x _ => pond_weight x)). exact (rec_calc_gradient N P dP sq s ks pdim W HL Hg Hks Hs Hd). Qed.

Theorem C61_feedforward_gradient (P dP : nat -> rvec) (x : @sample R) (b : @bufs R) (d : @derivs R) :
  trainable -> n_rec N = [] ->
  (forall m, In m (n_sorted N) -> layer_diff_at (n_layer N m) (b_in (fst (fst (ff_activate N P (b, d) (x_in x))) m 0%nat))) ->
  let E := fun Q => square_error (out_dim N) (weight x) (x_target x) (snd (ff_activate N Q (b, d) (x_in x))) in
  exists b' d', ff_calc (/ 2) N P [x] (b, d) = Ok ((b', d'), E P, ponderation x) /\
    derivable_pt_lim (fun s => E (fun k q => P k q + s * dP k q)) 0 (- suml ks (fun k => dot (pdim k) (fun q => d' k q - d k q) (dP k))).
Proof. intros (W & HL & Hg & Hks) Hr Hd. rewrite <- pond_weight. exact (ff_calc_gradient N P dP x b d ks pdim W Hr HL Hg Hks Hd). Qed.

(** ** The same on the flat parameter array *)
Lemma flat_len (D : nat -> rvec) : length (flat pdim ks D) = size.
Proof. unfold flat. induction ks as [|k t IH]; [reflexivity|]. cbn. rewrite app_length, map_length, seq_length, IH. reflexivity. Qed.

Lemma upd_nth_same {A} i (x d : A) l : (i < length l)%nat -> nth i (upd i x l) d = x.
Proof. revert i. induction l as [|a l IH]; intros [|i] H; cbn in *; try lia; auto. apply IH. lia. Qed.
Lemma upd_nth_other {A} i j (x d : A) l : i <> j -> nth i (upd j x l) d = nth i l d.
Proof. revert i j. induction l as [|a l IH]; intros [|i] [|j] H; cbn; auto; try congruence. Qed.
Lemma skipn_upd_lt {A} i j (x : A) l : (j < i)%nat -> skipn i (upd j x l) = skipn i l.
Proof. revert i j. induction l as [|a l IH]; intros [|i] [|j] H; cbn; auto; try lia. apply IH. lia. Qed.
Lemma skipn_upd_ge {A} i j (x : A) l : (i <= j)%nat -> skipn i (upd j x l) = upd (j - i) x (skipn i l).
Proof.
  revert i j. induction l as [|a l IH]; intros [|i] [|j] H; cbn; auto; try lia.
  - destruct (j - i)%nat; reflexivity.
  - apply IH. lia.
Qed.

Lemma nth_skip {A} i j (d : A) l : nth j (skipn i l) d = nth (i + j) l d.
Proof. revert l. induction i as [|i IH]; intros [|a l]; cbn; auto. destruct j; reflexivity. Qed.

(** entry j of the array is entry q of container k *)
Lemma locate j : forall (th : list R), NoDup ks -> length th = size -> (j < size)%nat -> exists k q, In k ks /\ (q < pdim k)%nat /\
  (forall D : nat -> rvec, nth j (flat pdim ks D) 0 = D k q) /\
  forall z, unflat pdim ks (upd j z th) = fun k' q' => unflat pdim ks th k' q' + (z - nth j th 0) * (if (k' =? k)%nat && (q' =? q)%nat then 1 else 0).
Proof.
  revert j. induction ks as [|k0 t IH]; intros j th ND Hl Hj; [cbn in Hj; lia|]. inversion ND as [|? ? Hni ND']; subst.
  change (length th = pdim k0 + list_sum (map pdim t))%nat in Hl. change (j < pdim k0 + list_sum (map pdim t))%nat in Hj.
  destruct (Nat.lt_ge_cases j (pdim k0)) as [Hlt|Hge].
  - exists k0, j. split; [left; auto|]. split; [auto|]. split.
    + intro D. unfold flat. cbn [flat_map]. rewrite app_nth1 by (rewrite map_length, seq_length; auto).
      rewrite (nth_indep _ 0 (D k0 0%nat)) by (rewrite map_length, seq_length; auto). rewrite map_nth, seq_nth by auto. reflexivity.
    + intro z. apply functional_extensionality. intro k'. apply functional_extensionality. intro q'. cbn [unflat r0 ROps]. rewrite skipn_upd_lt by auto.
      destruct (Nat.eqb_spec k' k0) as [->|Hne]; cbn [andb].
      * destruct (Nat.eqb_spec q' j) as [->|Hq].
        -- replace (j <? pdim k0)%nat with true by (symmetry; apply Nat.ltb_lt; auto). rewrite upd_nth_same by lia. ring.
        -- rewrite upd_nth_other by auto. ring.
      * ring.
  - destruct (IH (j - pdim k0)%nat (skipn (pdim k0) th) ND') as (k & q & Hk & Hq & HD & HU).
    { rewrite skipn_length. lia. } { lia. }
    exists k, q. split; [right; auto|]. split; [auto|]. split.
    + intro D. unfold flat. cbn [flat_map]. rewrite app_nth2 by (rewrite map_length, seq_length; auto). rewrite map_length, seq_length. apply HD.
    + intro z. apply functional_extensionality. intro k'. apply functional_extensionality. intro q'. cbn [unflat r0 ROps]. rewrite skipn_upd_ge by auto. rewrite HU.
      rewrite nth_skip. replace (pdim k0 + (j - pdim k0))%nat with j by lia.
      destruct (Nat.eqb_spec k' k0) as [->|Hne]; [|reflexivity].
      replace (k0 =? k)%nat with false by (symmetry; apply Nat.eqb_neq; intros ->; contradiction). cbn [andb].
      rewrite Rmult_0_r, Rplus_0_r. destruct (q' <? pdim k0)%nat eqn:Eq; [|reflexivity]. apply Nat.ltb_lt in Eq. apply upd_nth_other. lia.
Qed.

Lemma pick k q (D : nat -> rvec) : NoDup ks -> In k ks -> (q < pdim k)%nat ->
  suml ks (fun k' => dot (pdim k') (D k') (fun q' => if (k' =? k)%nat && (q' =? q)%nat then 1 else 0)) = D k q.
Proof.
  intros ND Hk Hq.
  induction ks as [|k0 t IH]; [contradiction|]. cbn [suml]. inversion ND as [|? ? Hni ND']; subst.
    assert (Z : forall l, ~ In k l -> suml l (fun k' => dot (pdim k') (D k') (fun q' => if (k' =? k)%nat && (q' =? q)%nat then 1 else 0)) = 0).
    { intros l Hn. apply (suml_zero (L := RLaws)). intros k' Hin. unfold dot. apply (sumn_zero' (L := RLaws)). intros i _.
      replace (k' =? k)%nat with false by (symmetry; apply Nat.eqb_neq; intros ->; contradiction). cbn. ring. }
    destruct Hk as [->|Hk].
    - rewrite Z by auto. unfold dot. rewrite (sumn_single (L := RLaws) (pdim k) q) by (auto; intros i _ Hne; apply Nat.eqb_neq in Hne; rewrite Hne, Bool.andb_false_r; cbn; ring).
      rewrite !Nat.eqb_refl. cbn. ring.
    - rewrite IH by auto. assert (k0 <> k) by (intros ->; contradiction).
      assert (Z0 : dot (pdim k0) (D k0) (fun q' => if (k0 =? k)%nat && (q' =? q)%nat then 1 else 0) = 0).
      { unfold dot. apply (sumn_zero' (L := RLaws)). intros i _. apply Nat.eqb_neq in H. rewrite H. cbn. ring. }
      rewrite Z0. cbn. ring.
Qed.

Lemma flat_gradient (E : (nat -> rvec) -> R) (D : nat -> rvec) (th : list R) j : NoDup ks -> length th = size -> (j < size)%nat ->
  (forall dP, derivable_pt_lim (fun s => E (fun k q => unflat pdim ks th k q + s * dP k q)) 0 (- suml ks (fun k => dot (pdim k) (D k) (dP k)))) ->
  derivable_pt_lim (fun z => E (unflat pdim ks (upd j z th))) (nth j th 0) (- nth j (flat pdim ks D) 0).
Proof.
  intros ND Hl Hj H. destruct (locate j th ND Hl Hj) as (k & q & Hk & Hq & HD & HU). rewrite HD.
  specialize (H (fun k' q' => if (k' =? k)%nat && (q' =? q)%nat then 1 else 0)).
  assert (HS := pick k q D ND Hk Hq).
  cbv beta in H. rewrite HS in H. intros eps He. destruct (H eps He) as (del & Hd). exists del. intros h Hh Hb. specialize (Hd h Hh Hb). rewrite !HU.
  rewrite Rplus_0_l in Hd. replace (nth j th 0 + h - nth j th 0) with h by ring. replace (nth j th 0 - nth j th 0) with 0 by ring. exact Hd.
Qed.

Definition net_err (th : list R) (sq : list (@sample R)) : R := snd (fst (rec_calc (/ 2) N (unflat pdim ks th) sq fresh)).
Definition net_pond (th : list R) (sq : list (@sample R)) : R := snd (rec_calc (/ 2) N (unflat pdim ks th) sq fresh).
Definition net_grad (th : list R) (sq : list (@sample R)) : list R := flat pdim ks (r_d (fst (fst (rec_calc (/ 2) N (unflat pdim ks th) sq fresh)))).

Lemma net_err_E th sq : trainable -> net_err th sq = sequence_error N sq (rec_outs N (unflat pdim ks th) sq fresh).
Proof.
  intros (W & HL & Hg & Hks). unfold net_err, rec_calc, rec_outs. pose proof (run_len N (unflat pdim ks th) (map x_in sq) (rec_reset fresh)) as Hy.
  destruct (run_acts (rec_activate N (unflat pdim ks th)) (rec_reset fresh) (map x_in sq)) as [s1 ys]. rewrite back_fold. cbn [fst snd r0 ROps].
  rewrite Rplus_0_l. unfold sequence_error. rewrite <- (suml_perm (L := RLaws) _ _ _ (Permutation_rev (combine ys sq))). apply suml_ext. intros yx _.
  rewrite out_width_dim. apply sample_error_square.
Qed.

(** each entry of what is added to module.derivs is minus the partial derivative of the error *)
Theorem C61_partial_derivatives (th : list R) (sq : list (@sample R)) j :
  trainable -> length th = size -> (j < size)%nat -> smooth_run (unflat pdim ks th) sq fresh ->
  derivable_pt_lim (fun z => net_err (upd j z th) sq) (nth j th 0) (- nth j (net_grad th sq) 0).
Proof.
  intros HT Hl Hj Hd. pose proof HT as (W & HL & Hg & (ND & Hks)).
  pose proof (flat_gradient (fun Q => sequence_error N sq (rec_outs N Q sq fresh)) (r_d (fst (fst (rec_calc (/ 2) N (unflat pdim ks th) sq fresh)))) th j ND Hl Hj) as H.
  intros eps He. destruct H with (eps := eps) as (del & Hdel); [|auto|].
  - intro dP. destruct (rec_calc_gradient N (unflat pdim ks th) dP sq fresh ks pdim W HL Hg (conj ND Hks) ltac:(cbn; lia) Hd) as (s' & Ec & Hc).
    rewrite Ec. cbn [fst]. eapply dlim_val; [|exact Hc]. f_equal. apply suml_ext. intros k _. unfold dot. apply sumn_ext. intros q _. cbn. unfold zvec. cbn. ring.
  - exists del. intros h Hh Hb. rewrite !net_err_E by exact HT. exact (Hdel h Hh Hb).
Qed.

(** What the network did before does not matter: error, ponderation and the change of the derivatives
    are those of a network that has just been made.  (After a longer sequence maxoffset is larger, and the
    recurrent connections are then run backward even for the last sample.) *)
Lemma sequence_error_ext sq (ys ys' : list rvec) : length ys = length sq -> length ys' = length sq ->
  (forall t y y', nth_error ys t = Some y -> nth_error ys' t = Some y' -> forall i, y i = y' i) -> sequence_error N sq ys = sequence_error N sq ys'.
Proof.
  unfold sequence_error. revert ys ys'. induction sq as [|x sq IH]; intros [|y ys] [|y' ys'] H H' He; cbn in *; try discriminate; auto.
  rewrite (IH ys ys') by (auto; intros t; apply (He (S t))).
  replace (square_error (out_dim N) (weight x) (x_target x) y) with (square_error (out_dim N) (weight x) (x_target x) y'); [reflexivity|].
  replace y' with y; [reflexivity|]. apply functional_extensionality. exact (He 0%nat y y' eq_refl eq_refl).
Qed.
Lemma outs_any (P : nat -> rvec) sq s : trainable -> (0 < r_len s)%nat -> sequence_error N sq (rec_outs N P sq s) = sequence_error N sq (rec_outs N P sq fresh).
Proof.
  intros (W & HL & _) Hs. apply sequence_error_ext; unfold rec_outs; rewrite ?run_len, ?map_length; auto.
  intros t y y' H H'. exact (C21_reset_erases_history R ROps RLaws N P s (fun _ => zvec) 0 1 (map x_in sq) W HL Hs Nat.lt_0_1 t y y' H H').
Qed.
Theorem C61_any_state (P : nat -> rvec) (sq : list (@sample R)) (s : @rstate R) :
  trainable -> (0 < r_len s)%nat -> smooth_run P sq s -> smooth_run P sq fresh ->
  exists s1 s2 e p, rec_calc (/ 2) N P sq s = (s1, e, p) /\ rec_calc (/ 2) N P sq fresh = (s2, e, p) /\
    forall k q, In k ks -> (q < pdim k)%nat -> r_d s1 k q - r_d s k q = r_d s2 k q.
Proof.
  intros HT Hs Hd Hf. pose proof HT as (W & HL & Hg & (ND & Hks)).
  assert (A : forall s, (0 < r_len s)%nat -> smooth_run P sq s -> forall dP, derivable_pt_lim (fun z => sequence_error N sq (rec_outs N (fun k q => P k q + z * dP k q) sq fresh)) 0
     (- suml ks (fun k => dot (pdim k) (fun q => r_d (fst (fst (rec_calc (/ 2) N P sq s))) k q - r_d s k q) (dP k)))).
  { intros s0 Hs0 Hd0 dP. destruct (C61_recurrent_gradient P dP sq s0 HT Hs0 Hd0) as (s' & Ec & Hc). rewrite Ec. cbn [fst].
    eapply dlim_ext; [|exact Hc]. intro z. cbv beta. apply outs_any; auto. }
  destruct (C61_recurrent_gradient P P sq s HT Hs Hd) as (s1 & E1 & _). destruct (C61_recurrent_gradient P P sq fresh HT Nat.lt_0_1 Hf) as (s2 & E2 & _).
  exists s1, s2, (sequence_error N sq (rec_outs N P sq fresh)), (suml sq ponderation).
  split; [rewrite E1; rewrite outs_any by auto; reflexivity|]. split; [exact E2|]. intros k q Hk Hq.
  set (dP := fun k' q' => if (k' =? k)%nat && (q' =? q)%nat then 1 else 0).
  pose proof (uniqueness_limite _ _ _ _ (A s Hs Hd dP) (A fresh Nat.lt_0_1 Hf dP)) as U. rewrite E1, E2 in U. cbn [fst] in U.
  unfold dP in U. rewrite !(pick k q) in U by auto. cbn in U. unfold zvec in U. cbn in U. lra.
Qed.
End Gradient.
Print Assumptions C61_recurrent_gradient.
Print Assumptions C61_feedforward_gradient.
Print Assumptions C61_any_state.
Print Assumptions C61_partial_derivatives.

(** ** The epoch *)
Section Epoch.
Context {K : Type} {Ops : RingOps K} {Lw : RingLaws K}.
Local Open Scope r_scope.
Context {X : Type} (err pond : list K -> X -> K) (grad : list K -> X -> list K) (momentum alphadecay weightdecay : K).
Context (n : nat) (Hgrad : forall th s, length th = n -> length (grad th s) = n).
Notation train := (train err pond grad momentum alphadecay weightdecay).
Notation trun := (trun err pond grad momentum alphadecay weightdecay).
Notation tstep := (tstep err pond grad momentum alphadecay weightdecay).

Theorem C61_online_epoch owns l (t : @trainer K) : wf_t t -> length (t_params t) = n -> t_params t = t_values t -> l <> [] ->
  exists t' e p, train false owns l t = Ok (t', e, p) /\ wf_t t' /\ t_params t' = t_values t' /\
    online err pond grad momentum alphadecay weightdecay l (here t) (here t') e p /\
    t_shared t' = t_shared t /\ t_epoch t' = (t_epoch t + 1)%nat /\ length (t_params t') = length (t_params t).
Proof. apply train_online. exact Hgrad. Qed.

Theorem C61_batch_epoch owns l (t : @trainer K) : wf_t t -> length (t_params t) = n -> t_params t = t_values t -> l <> [] ->
  exists t', train true owns l t = Ok (t', suml l (err (t_params t)), suml l (pond (t_params t))) /\ wf_t t' /\ t_params t' = t_values t' /\
    batched grad momentum alphadecay l (here t) (here t') /\
    t_shared t' = (if owns then t_shared t else true) /\ t_epoch t' = (t_epoch t + 1)%nat /\ length (t_params t') = length (t_params t).
Proof.
  intros W Hn Hs Hl. destruct (train_batch err pond grad momentum alphadecay weightdecay n Hgrad owns l t W Hn Hl) as (t' & E & W' & S' & M & Sh & Ep & L).
  exists t'. split; [exact E|]. split; [exact W'|]. split; [exact S'|]. split; [|auto]. unfold batched. replace (pt_theta (here t)) with (t_params t) by (rewrite Hs; reflexivity). exact M.
Qed.

Lemma moves_unique g g' (x y z : @point K) : (forall i, (i < length (pt_theta x))%nat -> g i = g' i) -> moves momentum alphadecay g x y -> moves momentum alphadecay g' x z -> y = z.
Proof.
  intros Hg (A1 & A2 & A3 & A4) (B1 & B2 & B3 & B4). destruct y as [ty my ry], z as [tz mz rz]. cbn in *. subst ry rz.
  assert (my = mz). { apply list_ext; [congruence|]. intros i Hi. rewrite A3 in Hi. destruct (A4 i Hi) as [E _]. destruct (B4 i Hi) as [E' _]. rewrite E, E', Hg by auto. reflexivity. }
  subst mz. f_equal. apply list_ext; [congruence|]. intros i Hi. rewrite A2 in Hi. destruct (A4 i Hi) as [_ E]. destruct (B4 i Hi) as [_ E']. rewrite E, E'. reflexivity.
Qed.

(** the order shuffle picks does not matter in batch mode *)
Theorem C61_batch_order owns l l' (t : @trainer K) : wf_t t -> length (t_params t) = n -> l <> [] -> Permutation l l' ->
  exists t1 t2 e p, train true owns l t = Ok (t1, e, p) /\ train true owns l' t = Ok (t2, e, p) /\
    t_params t1 = t_params t2 /\ t_values t1 = t_values t2 /\ t_momvec t1 = t_momvec t2 /\ t_alpha t1 = t_alpha t2 /\ t_shared t1 = t_shared t2.
Proof.
  intros W Hn Hl Hp. assert (Hl' : l' <> []) by (intros ->; apply Permutation_sym, Permutation_nil in Hp; auto).
  destruct (train_batch err pond grad momentum alphadecay weightdecay n Hgrad owns l t W Hn Hl) as (t1 & E & W1 & S1 & M1 & Sh1 & Ep1 & L1).
  destruct (train_batch err pond grad momentum alphadecay weightdecay n Hgrad owns l' t W Hn Hl') as (t2 & E2 & W2 & S2 & M2 & Sh2 & Ep2 & L2).
  exists t1, t2, (suml l (err (t_params t))), (suml l (pond (t_params t))).
  assert (H : here t1 = here t2).
  { eapply moves_unique; [|exact M1|exact M2]. intros i Hi. cbv beta. apply (suml_perm (L := Lw)). exact Hp. }
  unfold here in H. injection H as H1 H2 H3. split; [exact E|]. split.
  - rewrite E2. rewrite (suml_perm (L := Lw) l l' (err _) Hp), (suml_perm (L := Lw) l l' (pond _) Hp). reflexivity.
  - repeat split; congruence.
Qed.

(** a trainer whose module nobody else writes to stays in step with it, epoch after epoch *)
Definition only_trains (o : @top K X) : Prop := match o with OTrain _ l => l <> [] | OWrite _ => False end.
Theorem C61_in_sync owns rate params derivs ops : length params = n -> length derivs = n -> Forall only_trains ops ->
  exists t, trun owns (new_trainer rate params derivs) ops = Ok t /\ wf_t t /\ t_params t = t_values t /\ length (t_params t) = n /\ t_epoch t = length ops.
Proof.
  intros Hp Hd HF.
  enough (G : forall t0, wf_t t0 -> t_params t0 = t_values t0 -> length (t_params t0) = n ->
    exists t, trun owns t0 ops = Ok t /\ wf_t t /\ t_params t = t_values t /\ length (t_params t) = n /\ t_epoch t = (t_epoch t0 + length ops)%nat).
  { apply G; cbn; auto. unfold wf_t. cbn. rewrite map_length. repeat split; congruence. }
  induction HF as [|o ops Ho HF IH]; intros t0 W S L.
  - exists t0. cbn. repeat split; auto; apply W.
  - cbn [Backprop_Model.trun]. destruct o as [b l|p]; [|contradiction]. cbn [Backprop_Model.tstep]. cbn in Ho. destruct b.
    + destruct (C61_batch_epoch owns l t0 W L S Ho) as (t1 & E & W1 & S1 & _ & _ & Ep & L1). rewrite E. cbn [rbind fst].
      destruct (IH t1 W1 S1 ltac:(congruence)) as (t & Et & Wt & St & Lt & Ept). exists t. rewrite Et, Ept, Ep. cbn. repeat split; auto; try apply Wt. lia.
    + destruct (C61_online_epoch owns l t0 W L S Ho) as (t1 & e & p & E & W1 & S1 & _ & _ & Ep & L1). rewrite E. cbn [rbind fst].
      destruct (IH t1 W1 S1 ltac:(congruence)) as (t & Et & Wt & St & Lt & Ept). exists t. rewrite Et, Ept, Ep. cbn. repeat split; auto; try apply Wt. lia.
Qed.

(** parameters written by somebody else: the next step takes the gradient there, but moves from where descent
    stood before, so the written parameters are lost; unless the arrays are shared *)
Theorem C61_outside_write owns p s r (t : @trainer K) : wf_t t -> length (t_params t) = n -> length p = n ->
  exists t0 t1 t2 e q, write_params p t = Ok t0 /\ t_params t0 = p /\
    train false owns (s :: r) t0 = Ok (t2, err p s + e, pond p s + q) /\
    moves momentum alphadecay (fun i => nth i (grad p s) 0 - weightdecay * nth i p 0)
      (mkpoint (if t_shared t then p else t_values t) (t_momvec t) (t_alpha t)) t1 /\
    online err pond grad momentum alphadecay weightdecay r t1 (here t2) e q.
Proof.
  intros W L Lp. pose proof W as (W1 & W2 & W3 & W4). unfold write_params. rewrite Lp, L, Nat.eqb_refl. cbn [negb].
  set (t0 := mktrainer p (t_derivs t) (if t_shared t then p else t_values t) (t_alpha t) (t_momvec t) (t_shared t) (t_epoch t)).
  assert (W0 : wf_t t0).
  { unfold wf_t, t0. cbn. destruct (t_shared t); repeat split; try congruence; try discriminate. }
  destruct (train_stale err pond grad momentum alphadecay weightdecay n Hgrad owns s r t0 W0 Lp) as (t1 & t2 & e & q & E & M & O & _).
  exists t0, t1, t2, e, q. split; [reflexivity|]. split; [reflexivity|]. split; [exact E|]. split; [exact M|exact O].
Qed.
End Epoch.
