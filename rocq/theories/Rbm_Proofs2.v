From Coq Require Import Reals List Arith String Lra Lia.
From Verif Require Import Base RingOps Net_Model Net_Gradient Layers_R Mixture_Proofs Rbm_Model Rbm_Spec Rbm_Proofs.
Import ListNotations.
Open Scope R_scope.

(** ** Index arithmetic *)
Lemma flat_div v hd h : (h < hd)%nat -> ((v * hd + h) / hd)%nat = v.
Proof. intro H. rewrite Nat.div_add_l by lia. rewrite Nat.div_small by exact H. lia. Qed.
Lemma flat_mod v hd h : (h < hd)%nat -> ((v * hd + h) mod hd)%nat = h.
Proof. intro H. rewrite Nat.add_comm, Nat.mod_add by lia. apply Nat.mod_small. exact H. Qed.

Lemma flat_same vd hd v h : (vd <= 1 \/ hd <= 1)%nat -> (v < vd)%nat -> (h < hd)%nat -> (v * hd + h = h * vd + v)%nat.
Proof.
  intros [H|H] Hv Hh.
  - assert (vd = 1)%nat by lia. assert (v = 0)%nat by lia. subst. lia.
  - assert (hd = 1)%nat by lia. assert (h = 0)%nat by lia. subst. lia.
Qed.

(** ** Sums of deltas *)
Definition recon (k : kind) (r inv : rbm) (row u : nat -> R) : nat -> R := activate inv (sampler k u (activate r row)).

Lemma row_w k r inv row u v h : d_w (calcUpdateByRow k r inv row u) v h = row v * activate r row h - recon k r inv row u v * activate r (recon k r inv row u) h.
Proof. destruct k; unfold calcUpdateByRow, updater, outer, recon; cbn [d_w]; field. Qed.
Lemma row_hb k r inv row u h : d_hb (calcUpdateByRow k r inv row u) h = activate r row h - activate r (recon k r inv row u) h.
Proof. destruct k; reflexivity. Qed.
Lemma row_vb k r inv row u v : d_vb (calcUpdateByRow k r inv row u) v = row v - recon k r inv row u v.
Proof. destruct k; reflexivity. Qed.

Lemma fold_dadd {A} (f : A -> delta) (l : list A) : forall acc,
  (forall v h, d_w (fold_left (fun a x => dadd a (f x)) l acc) v h = d_w acc v h + suml l (fun x => d_w (f x) v h)) /\
  (forall h, d_hb (fold_left (fun a x => dadd a (f x)) l acc) h = d_hb acc h + suml l (fun x => d_hb (f x) h)) /\
  (forall v, d_vb (fold_left (fun a x => dadd a (f x)) l acc) v = d_vb acc v + suml l (fun x => d_vb (f x) v)).
Proof.
  induction l as [|x l IH]; intro acc; cbn [fold_left suml].
  - change (@r0 R ROps) with 0. repeat split; intros; ring.
  - destruct (IH (dadd acc (f x))) as (A1 & A2 & A3). change (@radd R ROps) with Rplus.
    repeat split; intros; rewrite ?A1, ?A2, ?A3; cbn [dadd d_w d_hb d_vb]; ring.
Qed.

Section Rows.
Variables (k : kind) (r inv : rbm) (rows us : list (nat -> R)).
Let one (ru : (nat -> R) * (nat -> R)) := calcUpdateByRow k r inv (fst ru) (snd ru).
Lemma rows_w v h : d_w (calcUpdateByRows k r inv rows us) v h = suml (combine rows us) (fun ru => d_w (one ru) v h) / INR (List.length rows).
Proof.
  unfold calcUpdateByRows, ddiv. cbn [d_w]. destruct (fold_dadd one (combine rows us) dzero) as (A & _ & _). unfold one in A at 1.
  rewrite A. cbn [dzero d_w]. unfold one. f_equal. ring.
Qed.
Lemma rows_hb h : d_hb (calcUpdateByRows k r inv rows us) h = suml (combine rows us) (fun ru => d_hb (one ru) h) / INR (List.length rows).
Proof.
  unfold calcUpdateByRows, ddiv. cbn [d_hb]. destruct (fold_dadd one (combine rows us) dzero) as (_ & A & _). unfold one in A at 1.
  rewrite A. cbn [dzero d_hb]. unfold one. f_equal. ring.
Qed.
Lemma rows_vb v : d_vb (calcUpdateByRows k r inv rows us) v = suml (combine rows us) (fun ru => d_vb (one ru) v) / INR (List.length rows).
Proof.
  unfold calcUpdateByRows, ddiv. cbn [d_vb]. destruct (fold_dadd one (combine rows us) dzero) as (_ & _ & A). unfold one in A at 1.
  rewrite A. cbn [dzero d_vb]. unfold one. f_equal. ring.
Qed.
End Rows.

(** ** The machine whose hidden conditionals the network computes *)
Definition machineOf (r : rbm) (c : nat -> R) : machine :=
  {| nv := vdim r; nh := hdim r; W := fun j i => wts r (j * vdim r + i)%nat; hb := bias r; vb := c |}.

Lemma preH_machineOf r c x j : preH (machineOf r c) x j = preact r x j.
Proof. unfold preH, preact, machineOf. cbn [nv W hb]. ring. Qed.

Lemma activate_condH r c x j : (j < hdim r)%nat -> Rabs (preact r x j) <= 500 -> activate r x j = condH (machineOf r c) x j.
Proof.
  intros Hj Hm. rewrite condH_logistic by exact Hj. unfold activate. rewrite sigmoid_inner by exact Hm. rewrite preH_machineOf. reflexivity.
Qed.

(** ** One iteration and many *)
Lemma iteration_dims c k t rows us fresh st : let s' := fst (iteration c k t rows us fresh st) in
  vdim (t_rbm s') = vdim (t_rbm (fst st)) /\ hdim (t_rbm s') = hdim (t_rbm (fst st)) /\
  vdim (t_inv s') = hdim (t_rbm s') /\ hdim (t_inv s') = vdim (t_rbm s') /\ forall i, wts (t_inv s') i = wts (t_rbm s') i.
Proof. destruct st as [tr old]. cbn. repeat split. Qed.

Definition sync (tr : trainer) : Prop :=
  vdim (t_inv tr) = hdim (t_rbm tr) /\ hdim (t_inv tr) = vdim (t_rbm tr) /\ forall i, wts (t_inv tr) i = wts (t_rbm tr) i.

Lemma iterations_sync c k rows us fresh n tr : sync tr -> let s' := fst (iterations c k rows us fresh n tr) in
  sync s' /\ vdim (t_rbm s') = vdim (t_rbm tr) /\ hdim (t_rbm s') = hdim (t_rbm tr).
Proof.
  intro H. induction n as [|n IH]; cbn [iterations]; [cbn [fst]; auto|].
  cbv zeta in *. destruct IH as (_ & I1 & I2).
  destruct (iteration_dims c k n rows (us n) (fresh n) (iterations c k rows us fresh n tr)) as (A1 & A2 & A3 & A4 & A5).
  unfold sync. rewrite A1, A2 in *. auto.
Qed.

Lemma batches_sync c k bs : forall tr, sync tr ->
  sync (trainBatches c k bs tr) /\ vdim (t_rbm (trainBatches c k bs tr)) = vdim (t_rbm tr) /\ hdim (t_rbm (trainBatches c k bs tr)) = hdim (t_rbm tr).
Proof.
  unfold trainBatches. induction bs as [|b bs IH]; intros tr H; cbn [fold_left]; [auto|].
  destruct (iterations_sync c k (b_rows b) (b_draws b) (b_fresh b) (maxIter c) tr H) as (A & B & C).
  destruct (IH (trainBatch c k tr b) A) as (A' & B' & C'). unfold trainBatch in *. rewrite B', C'. auto.
Qed.

(** The momentum of iteration [t]. *)
Definition momentum (c : rbm_cfg) (t : nat) : R := if (t <? mmSwitchIter c)%nat then iniMm c else finMm c.

Lemma velocity_S mu g s : velocity mu g (S s) = velocity mu g s * mu (S s) + g (S s).
Proof.
  unfold velocity. cbn [sumn]. change (@radd R ROps) with Rplus.
  replace (S s - S s)%nat with 0%nat by lia. replace (S s - s)%nat with 1%nat by lia. replace (s - s)%nat with 0%nat by lia.
  cbn [prodr]. replace (S s + 0)%nat with (S s) by lia.
  rewrite (sumn_ext s (fun q => prodr (S q) (S s - q) mu * g q) (fun q => prodr (S q) (s - q) mu * g q * mu (S s))).
  2:{ intros q Hq. replace (S s - q)%nat with (S (s - q)) by lia. cbn [prodr]. replace (S q + (s - q))%nat with (S s) by lia. ring. }
  assert (E := sumn_mul_r (K := R) s (mu (S s)) (fun q => prodr (S q) (s - q) mu * g q)). change (@rmul R ROps) with Rmult in E. rewrite E. ring.
Qed.

Lemma velocity_0 mu g : velocity mu g 0 = g 0%nat.
Proof. unfold velocity. cbn [sumn Nat.sub prodr]. change (@radd R ROps) with Rplus. change (@r0 R ROps) with 0. ring. Qed.

Section Momentum.
Variables (c : rbm_cfg) (k : kind) (rows : list (nat -> R)) (us : nat -> list (nat -> R)) (fresh : nat -> nat -> R) (tr : trainer).
(** The state before iteration [q] and the raw update computed in it. *)
Definition stateAt (q : nat) : trainer := fst (iterations c k rows us fresh q tr).
Definition rawAt (q : nat) : delta := calcUpdateByRows k (t_rbm (stateAt q)) (t_inv (stateAt q)) rows (us q).
Let vel (n : nat) : delta := snd (iterations c k rows us fresh n tr).

Lemma stateAt_S n : stateAt (S n) = fst (iteration c k n rows (us n) (fresh n) (stateAt n, vel n)).
Proof. unfold stateAt, vel. cbn [iterations]. destruct (iterations c k rows us fresh n tr). reflexivity. Qed.
Lemma vel_S n : vel (S n) = snd (iteration c k n rows (us n) (fresh n) (stateAt n, vel n)).
Proof. unfold stateAt, vel. cbn [iterations]. destruct (iterations c k rows us fresh n tr). reflexivity. Qed.

Lemma vel_hb n h : d_hb (vel (S n)) h = velocity (momentum c) (fun q => rHidBias c * d_hb (rawAt q) h) n.
Proof.
  induction n as [|n IH].
  - rewrite vel_S, velocity_0. cbn. unfold rawAt, stateAt. cbn. ring.
  - rewrite vel_S, velocity_S. rewrite <- IH. reflexivity.
Qed.
Lemma vel_vb n v : d_vb (vel (S n)) v = velocity (momentum c) (fun q => rVisBias c * d_vb (rawAt q) v) n.
Proof.
  induction n as [|n IH].
  - rewrite vel_S, velocity_0. cbn. unfold rawAt, stateAt. cbn. ring.
  - rewrite vel_S, velocity_S. rewrite <- IH. reflexivity.
Qed.
Lemma dims n : vdim (t_rbm (stateAt n)) = vdim (t_rbm tr) /\ hdim (t_rbm (stateAt n)) = hdim (t_rbm tr).
Proof.
  induction n as [|n IH]; [split; reflexivity|]. rewrite stateAt_S.
  destruct (iteration_dims c k n rows (us n) (fresh n) (stateAt n, vel n)) as (A1 & A2 & _). cbn [fst] in A1, A2. rewrite A1, A2. exact IH.
Qed.
Lemma vel_w n v h : d_w (vel (S n)) v h =
  velocity (momentum c) (fun q => rWeights c * (d_w (rawAt q) v h - weightCost c * wts (t_rbm (stateAt q)) (v * hdim (t_rbm tr) + h)%nat)) n.
Proof.
  induction n as [|n IH].
  - rewrite vel_S, velocity_0. cbn. unfold rawAt, stateAt. cbn. ring.
  - rewrite vel_S, velocity_S. rewrite <- IH. cbn [iteration snd d_w]. destruct (dims (S n)) as (_ & ->). reflexivity.
Qed.

Lemma bias_sum n h : bias (t_rbm (stateAt n)) h = bias (t_rbm tr) h + sumn n (fun s => velocity (momentum c) (fun q => rHidBias c * d_hb (rawAt q) h) s).
Proof.
  induction n as [|n IH].
  - cbn [sumn]. change (@r0 R ROps) with 0. unfold stateAt. cbn. ring.
  - rewrite stateAt_S. cbn [sumn]. change (@radd R ROps) with Rplus. rewrite <- Rplus_assoc, <- IH, <- vel_hb, vel_S. reflexivity.
Qed.
Lemma inv_bias_sum n v : bias (t_inv (stateAt n)) v = bias (t_inv tr) v + sumn n (fun s => velocity (momentum c) (fun q => rVisBias c * d_vb (rawAt q) v) s).
Proof.
  induction n as [|n IH].
  - cbn [sumn]. change (@r0 R ROps) with 0. unfold stateAt. cbn. ring.
  - rewrite stateAt_S. cbn [sumn]. change (@radd R ROps) with Rplus. rewrite <- Rplus_assoc, <- IH, <- vel_vb, vel_S. reflexivity.
Qed.
Lemma wts_sum n v h : (h < hdim (t_rbm tr))%nat -> let i := (v * hdim (t_rbm tr) + h)%nat in
  wts (t_rbm (stateAt n)) i = wts (t_rbm tr) i +
    sumn n (fun s => velocity (momentum c) (fun q => rWeights c * (d_w (rawAt q) v h - weightCost c * wts (t_rbm (stateAt q)) i)) s).
Proof.
  intros Hh i. induction n as [|n IH].
  - cbn [sumn]. change (@r0 R ROps) with 0. unfold stateAt. cbn. ring.
  - rewrite stateAt_S. cbn [sumn]. change (@radd R ROps) with Rplus. rewrite <- Rplus_assoc, <- IH. unfold i. rewrite <- vel_w, vel_S.
    cbn [iteration fst snd t_rbm wts d_w]. destruct (dims n) as (_ & ->). rewrite flat_div, flat_mod by exact Hh. reflexivity.
Qed.
End Momentum.

(** ** Bounds *)
Definition unitv (x : nat -> R) : Prop := forall i, 0 <= x i <= 1.
Lemma activate_unit r x : unitv (activate r x).
Proof. intro i. assert (H := sigmoid_range (preact r x i)). unfold activate. lra. Qed.

Lemma suml_bound {A} (l : list A) (f : A -> R) (M : R) : (forall a, In a l -> Rabs (f a) <= M) -> Rabs (suml l f) <= INR (List.length l) * M.
Proof.
  induction l as [|a l IH]; intro H; cbn [suml].
  - change (@r0 R ROps) with 0. rewrite Rabs_R0. cbn. lra.
  - change (@radd R ROps) with Rplus. cbn [List.length]. rewrite S_INR. eapply Rle_trans; [apply Rabs_triang|].
    assert (Rabs (f a) <= M) by (apply H; left; reflexivity). assert (Rabs (suml l f) <= INR (List.length l) * M) by (apply IH; intros b Hb; apply H; right; exact Hb). lra.
Qed.

Lemma mean_bound {A} (l : list A) (f : A -> R) n : l <> nil -> List.length l = n -> (forall a, In a l -> Rabs (f a) <= 1) -> Rabs (suml l f / INR n) <= 1.
Proof.
  intros Hl <- H. assert (P : 0 < INR (List.length l)) by (destruct l; [congruence|apply lt_0_INR; cbn; lia]).
  unfold Rdiv. rewrite Rabs_mult, (Rabs_right (/ _)) by (apply Rle_ge; left; apply Rinv_0_lt_compat; exact P).
  apply (Rmult_le_reg_r (INR (List.length l))); [exact P|]. rewrite Rmult_assoc, Rinv_l by lra.
  assert (B := suml_bound l f 1 H). lra.
Qed.

Lemma raw_bounds k r inv rows us : rows <> nil -> List.length us = List.length rows -> Forall unitv rows ->
  (forall v h, Rabs (d_w (calcUpdateByRows k r inv rows us) v h) <= 1) /\
  (forall h, Rabs (d_hb (calcUpdateByRows k r inv rows us) h) <= 1) /\
  (forall v, Rabs (d_vb (calcUpdateByRows k r inv rows us) v) <= 1).
Proof.
  intros Hr Hu HF.
  assert (L : List.length (combine rows us) = List.length rows) by (rewrite combine_length, Hu; apply Nat.min_id).
  assert (N : combine rows us <> nil) by (intro E; rewrite E in L; destruct rows; cbn in L; congruence).
  assert (U : forall ru, In ru (combine rows us) -> unitv (fst ru)).
  { intros [a b] Hin. apply in_combine_l in Hin. rewrite Forall_forall in HF. apply HF. exact Hin. }
  repeat split; intros.
  - rewrite rows_w. apply mean_bound; auto. intros [a b] Hin. cbn [fst snd]. rewrite row_w.
    assert (A := U _ Hin v). cbn [fst] in A. assert (B := activate_unit r a h).
    assert (C := activate_unit inv (sampler k b (activate r a)) v). assert (D := activate_unit r (recon k r inv a b) h).
    unfold recon in *. set (p := a v) in *. set (q := activate r a h) in *. set (s := activate inv _ v) in *. set (t := activate r (activate inv (sampler k b (activate r a))) h) in *.
    assert (0 <= p * q <= 1) by nra. assert (0 <= s * t <= 1) by nra. apply Rabs_le. lra.
  - rewrite rows_hb. apply mean_bound; auto. intros [a b] Hin. cbn [fst snd]. rewrite row_hb.
    assert (B := activate_unit r a h). assert (D := activate_unit r (recon k r inv a b) h). apply Rabs_le. lra.
  - rewrite rows_vb. apply mean_bound; auto. intros [a b] Hin. cbn [fst snd]. rewrite row_vb.
    assert (A := U _ Hin v). cbn [fst] in A. assert (C := activate_unit inv (sampler k b (activate r a)) v). unfold recon. apply Rabs_le. lra.
Qed.

Lemma velocity_bound mu g M B : (forall t, 0 <= mu t <= M) -> M < 1 -> 0 <= B -> (forall q, Rabs (g q) <= B) -> forall s, Rabs (velocity mu g s) <= B / (1 - M).
Proof.
  intros Hmu HM HB Hg. assert (M0 : 0 <= M) by (assert (A := Hmu 0%nat); lra).
  assert (K : B / (1 - M) * M + B = B / (1 - M)) by (field; lra).
  assert (P : 0 <= B / (1 - M)) by (apply Rmult_le_pos; [lra|left; apply Rinv_0_lt_compat; lra]).
  induction s as [|s IH].
  - rewrite velocity_0. assert (A := Hg 0%nat). assert (0 <= B / (1 - M) * M) by (apply Rmult_le_pos; lra). lra.
  - rewrite velocity_S. eapply Rle_trans; [apply Rabs_triang|]. rewrite Rabs_mult. assert (A := Hg (S s)). assert (C := Hmu (S s)).
    rewrite (Rabs_right (mu (S s))) by lra. rewrite <- K. apply Rplus_le_compat; [|exact A].
    apply Rmult_le_compat; try lra. apply Rabs_pos.
Qed.

Lemma sumn_bound n (f : nat -> R) B : (forall i, Rabs (f i) <= B) -> Rabs (sumn n f) <= INR n * B.
Proof.
  intro H. induction n as [|n IH]; cbn [sumn].
  - change (@r0 R ROps) with 0. rewrite Rabs_R0. cbn. lra.
  - change (@radd R ROps) with Rplus. rewrite S_INR. eapply Rle_trans; [apply Rabs_triang|]. assert (A := H n). lra.
Qed.

(** ** Injectivity of the logistic *)
Lemma logistic_inj a b : 1 / (1 + exp (- a)) = 1 / (1 + exp (- b)) -> a = b.
Proof.
  intro H. assert (P := exp_pos (- a)). assert (Q := exp_pos (- b)).
  assert (E : exp (- a) = exp (- b)).
  { apply (f_equal Rinv) in H. unfold Rdiv in H. rewrite !Rmult_1_l, !Rinv_inv in H. lra. }
  apply exp_inv in E. lra.
Qed.
