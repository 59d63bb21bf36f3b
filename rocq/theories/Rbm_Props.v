(** C72: restricted Boltzmann machines and contrastive divergence. *)
From Coq Require Import Reals List Arith String Lra Lia.
From Verif Require Import Base RingOps Net_Model Net_Gradient Layers_R Mixture_Proofs Rbm_Model Rbm_Spec Rbm_Proofs Rbm_Proofs2.
Import ListNotations.
Open Scope R_scope.

(** The hidden activation for any real visible vector, including a
    reconstruction, is the conditional probability under the energy whose weight
    between hidden j and visible i is the parameter at j * visibleDim + i (inside
    the range where the sigmoid is not clipped). *)
Theorem C72_conditional : forall r c x j, (j < hdim r)%nat -> Rabs (preact r x j) <= 500 ->
  activate r x j = condH (machineOf r c) x j.
Proof. exact activate_condH. Qed.

(** The two samplers. *)
Theorem C72_sample : forall u p j,
  (sampler Bernoulli u p j = 1 <-> u j < p j) /\ (sampler Bernoulli u p j = 0 <-> p j <= u j) /\
  sampler Gauss u p j - p j = u j.
Proof.
  intros u p j. unfold sampler. destruct (Rlt_dec (u j) (p j)); repeat split; intros; lra.
Qed.

(** What the raw updates descend: the mean over the rows of the free energy of
    the row minus that of its reconstruction, the reconstruction held fixed. *)
Definition contrast (m : machine) (k : kind) (r inv : rbm) (rows us : list (nat -> R)) : R :=
  suml (combine rows us) (fun ru => freeEnergy m (activate inv (sampler k (snd ru) (activate r (fst ru)))) - freeEnergy m (fst ru))
  / INR (List.length rows).

Definition moderate (k : kind) (r inv : rbm) (rows us : list (nat -> R)) : Prop :=
  forall row u j, In (row, u) (combine rows us) -> (j < hdim r)%nat ->
    Rabs (preact r row j) <= 500 /\ Rabs (preact r (activate inv (sampler k u (activate r row))) j) <= 500.

Lemma dlim_mean {A} (l : list A) (f : A -> R -> R) (d : A -> R) n :
  (forall a, In a l -> dlim (f a) (d a)) -> dlim (fun s => suml l (fun a => f a s) / n) (suml l d / n).
Proof.
  intro H. eapply dlim_val. 2:{ apply (dlim_ext (fun s => suml l (fun a => f a s) * / n)); [reflexivity|].
    apply dlim_mul; [apply dlim_suml; exact H|apply dlim_const]. }
  unfold Rdiv. ring.
Qed.

Theorem C72_gradient : forall k r inv rows us c, moderate k r inv rows us ->
  let m := machineOf r c in let d := calcUpdateByRows k r inv rows us in
  (forall v h, (v < vdim r)%nat -> (h < hdim r)%nat -> dlim (fun s => contrast (moveW m h v s) k r inv rows us) (d_w d v h)) /\
  (forall h, (h < hdim r)%nat -> dlim (fun s => contrast (moveH m h s) k r inv rows us) (d_hb d h)) /\
  (forall v, (v < vdim r)%nat -> dlim (fun s => contrast (moveV m v s) k r inv rows us) (d_vb d v)).
Proof.
  intros k r inv rows us c Hm m d. unfold contrast, d. repeat split.
  - intros v h Hv Hh. rewrite rows_w.
    apply (dlim_mean (combine rows us) (fun ru s => freeEnergy (moveW m h v s) (activate inv (sampler k (snd ru) (activate r (fst ru)))) - freeEnergy (moveW m h v s) (fst ru))).
    intros [row u] Hin. cbn [fst snd]. destruct (Hm row u h Hin Hh) as (M1 & M2). rewrite row_w. unfold recon.
    eapply dlim_val. 2:{ apply dlim_sub; apply freeEnergy_dW; assumption. }
    unfold m. rewrite <- !activate_condH by assumption. ring.
  - intros h Hh. rewrite rows_hb.
    apply (dlim_mean (combine rows us) (fun ru s => freeEnergy (moveH m h s) (activate inv (sampler k (snd ru) (activate r (fst ru)))) - freeEnergy (moveH m h s) (fst ru))).
    intros [row u] Hin. cbn [fst snd]. destruct (Hm row u h Hin Hh) as (M1 & M2). rewrite row_hb. unfold recon.
    eapply dlim_val. 2:{ apply dlim_sub; apply freeEnergy_dH; assumption. }
    unfold m. rewrite <- !activate_condH by assumption. ring.
  - intros v Hv. rewrite rows_vb.
    apply (dlim_mean (combine rows us) (fun ru s => freeEnergy (moveV m v s) (activate inv (sampler k (snd ru) (activate r (fst ru)))) - freeEnergy (moveV m v s) (fst ru))).
    intros [row u] Hin. cbn [fst snd]. rewrite row_vb. unfold recon.
    eapply dlim_val. 2:{ apply dlim_sub; apply freeEnergy_dV; assumption. } ring.
Qed.

(** After any training session the inverse machine has the parameters of the
    machine, and the dimensions have not changed. *)
Theorem C72_in_step : forall c k bs fresh r, let tr := trainBatches c k bs (newTrainer fresh r) in
  vdim (t_rbm tr) = vdim r /\ hdim (t_rbm tr) = hdim r /\ vdim (t_inv tr) = hdim r /\ hdim (t_inv tr) = vdim r /\
  forall i, wts (t_inv tr) i = wts (t_rbm tr) i.
Proof.
  intros c k bs fresh r. destruct (batches_sync c k bs (newTrainer fresh r)) as ((A & B & C) & D & E).
  - unfold sync. cbn. auto.
  - cbn zeta. rewrite A, B, D, E. cbn. auto.
Qed.

(** With a single visible or a single hidden unit, the machine and its inverse
    are, throughout every session, the two conditionals of one Boltzmann machine
    (whose visible biases are the biases of the inverse). *)
Theorem C72_joint : forall c k bs fresh r, (vdim r <= 1 \/ hdim r <= 1)%nat ->
  let tr := trainBatches c k bs (newTrainer fresh r) in let m := machineOf (t_rbm tr) (bias (t_inv tr)) in
  (forall x j, (j < hdim r)%nat -> Rabs (preact (t_rbm tr) x j) <= 500 -> activate (t_rbm tr) x j = condH m x j) /\
  (forall y i, (i < vdim r)%nat -> Rabs (preact (t_inv tr) y i) <= 500 -> activate (t_inv tr) y i = condV m y i).
Proof.
  intros c k bs fresh r Hd. assert (S := C72_in_step c k bs fresh r). cbn zeta in *. destruct S as (S1 & S2 & S3 & S4 & S5).
  set (tr := trainBatches c k bs (newTrainer fresh r)) in *. split.
  - intros x j Hj Hm. apply activate_condH; [rewrite S2; exact Hj|exact Hm].
  - intros y i Hi Hm. rewrite condV_logistic by (cbn; rewrite S1; exact Hi). unfold activate. rewrite sigmoid_inner by exact Hm.
    do 4 f_equal. unfold preact, preV, machineOf. cbn [nh W vb]. rewrite S2, S3. f_equal; [|ring].
    apply sumn_ext. intros j Hj. rewrite S5, S1. f_equal. f_equal. apply flat_same; auto.
Qed.

(** With two visible and two hidden units or more there are parameters for which
    no Boltzmann machine has the two networks as its conditionals: [invert]
    copies the flat vector without transposing it. *)
Definition one_weight (vd hd : nat) : rbm := {| vdim := vd; hdim := hd; wts := fun i => if (i =? 1)%nat then 1 else 0; bias := fun _ => 0 |}.
Definition basis (k : nat) : nat -> bool := fun i => (i =? k)%nat.
Definition none : nat -> bool := fun _ => false.

Lemma sum_basis n k (f : nat -> R) : (k < n)%nat -> sumn n (fun i => f i * units (basis k) i) = f k.
Proof.
  intro Hk. rewrite (sumn_single n k); [|exact Hk|].
  - unfold units, basis. rewrite Nat.eqb_refl. cbn. ring.
  - intros i _ Hne. unfold units, basis. apply Nat.eqb_neq in Hne. rewrite Hne. cbn. ring.
Qed.
Lemma sum_none n (f : nat -> R) : sumn n (fun i => f i * units none i) = 0.
Proof. change 0 with (@r0 R ROps). apply sumn_zero'. intros i _. unfold units, none. cbn. ring. Qed.

Theorem C72_joint_refuted : forall vd hd fresh, (2 <= vd)%nat -> (2 <= hd)%nat -> Rabs (fresh 1%nat) <= 400 ->
  let tr := newTrainer fresh (one_weight vd hd) in
  ~ exists m, nv m = vd /\ nh m = hd /\
    (forall v j, (j < hd)%nat -> activate (t_rbm tr) (units v) j = condH m (units v) j) /\
    (forall h i, (i < vd)%nat -> activate (t_inv tr) (units h) i = condV m (units h) i).
Proof.
  intros vd hd fresh Hv Hh Hf tr (m & Ev & Eh & A & B).
  assert (A0 := A none 0%nat ltac:(lia)). assert (A1 := A (basis 1) 0%nat ltac:(lia)).
  assert (B0 := B none 1%nat ltac:(lia)). assert (B1 := B (basis 0) 1%nat ltac:(lia)).
  rewrite condH_logistic in A0, A1 by lia. rewrite condV_logistic in B0, B1 by lia.
  unfold preH in A0, A1. unfold preV in B0, B1. rewrite Ev in A0, A1. rewrite Eh in B0, B1.
  rewrite sum_none in A0, B0. rewrite sum_basis in A1 by lia. rewrite sum_basis in B1 by lia.
  unfold activate, preact in A0, A1, B0, B1. cbn [tr newTrainer invert one_weight t_rbm t_inv vdim hdim wts bias] in A0, A1, B0, B1.
  rewrite (sum_none vd (fun i => if ((0 * vd + i) =? 1)%nat then 1 else 0)) in A0.
  rewrite (sum_basis vd 1 (fun i => if ((0 * vd + i) =? 1)%nat then 1 else 0)) in A1 by lia.
  rewrite (sum_none hd (fun i => if ((1 * hd + i) =? 1)%nat then 1 else 0)) in B0.
  rewrite (sum_basis hd 0 (fun i => if ((1 * hd + i) =? 1)%nat then 1 else 0)) in B1 by lia.
  replace ((1 * hd + 0) =? 1)%nat with false in B1 by (symmetry; apply Nat.eqb_neq; lia).
  cbn [Nat.mul Nat.add Nat.eqb] in A1.
  rewrite sigmoid_inner in A0 by (rewrite Rabs_right; lra). rewrite sigmoid_inner in A1 by (rewrite Rabs_right; lra).
  rewrite sigmoid_inner in B0 by (rewrite Rplus_0_l, Rmult_1_r; lra). rewrite sigmoid_inner in B1 by (rewrite Rplus_0_l, Rmult_1_r; lra).
  apply logistic_inj in A0, A1, B0, B1. lra.
Qed.

(** The first iteration on a batch.  With a single visible or hidden unit every
    weight, and always every bias, moves by its learning rate times the derivative
    of [contrast] with respect to it, less the weight decay. *)
Theorem C72_first_step : forall c k rows us fresh tr cb, (vdim (t_rbm tr) <= 1 \/ hdim (t_rbm tr) <= 1)%nat ->
  let r := t_rbm tr in moderate k r (t_inv tr) rows (us 0%nat) ->
  let tr' := fst (iterations c k rows us fresh 1 tr) in let m := machineOf r cb in
  (forall v h, (v < vdim r)%nat -> (h < hdim r)%nat -> exists D,
     dlim (fun s => contrast (moveW m h v s) k r (t_inv tr) rows (us 0%nat)) D /\
     W (machineOf (t_rbm tr') cb) h v = W m h v + rWeights c * (D - weightCost c * W m h v)) /\
  (forall h, (h < hdim r)%nat -> exists D,
     dlim (fun s => contrast (moveH m h s) k r (t_inv tr) rows (us 0%nat)) D /\
     bias (t_rbm tr') h = bias r h + rHidBias c * D) /\
  (forall v, (v < vdim r)%nat -> exists D,
     dlim (fun s => contrast (moveV m v s) k r (t_inv tr) rows (us 0%nat)) D /\
     bias (t_inv tr') v = bias (t_inv tr) v + rVisBias c * D).
Proof.
  intros c k rows us fresh tr cb Hd r Hm tr' m.
  destruct (C72_gradient k r (t_inv tr) rows (us 0%nat) cb Hm) as (G1 & G2 & G3). repeat split.
  - intros v h Hv Hh. exists (d_w (calcUpdateByRows k r (t_inv tr) rows (us 0%nat)) v h). split; [apply G1; auto|].
    assert (Q := wts_sum c k rows us fresh tr 1 v h Hh). cbn zeta in Q. cbn [sumn] in Q. rewrite velocity_0 in Q.
    unfold m. cbn [machineOf W]. fold r in Q.
    assert (F : (h * vdim r + v = v * hdim r + h)%nat) by (symmetry; apply flat_same; auto).
    replace (vdim (t_rbm tr')) with (vdim r) by (symmetry; apply (dims c k rows us fresh tr 1)).
    rewrite F. change (wts (t_rbm tr')) with (wts (t_rbm (stateAt c k rows us fresh tr 1))). rewrite Q.
    change (@radd R ROps) with Rplus. change (@r0 R ROps) with 0. rewrite Rplus_0_l. reflexivity.
  - intros h Hh. exists (d_hb (calcUpdateByRows k r (t_inv tr) rows (us 0%nat)) h). split; [apply G2; auto|].
    assert (Q := bias_sum c k rows us fresh tr 1 h). cbn [sumn] in Q. rewrite velocity_0 in Q.
    change (bias (t_rbm tr')) with (bias (t_rbm (stateAt c k rows us fresh tr 1))). rewrite Q.
    change (@radd R ROps) with Rplus. change (@r0 R ROps) with 0. rewrite Rplus_0_l. reflexivity.
  - intros v Hv. exists (d_vb (calcUpdateByRows k r (t_inv tr) rows (us 0%nat)) v). split; [apply G3; auto|].
    assert (Q := inv_bias_sum c k rows us fresh tr 1 v). cbn [sumn] in Q. rewrite velocity_0 in Q.
    change (bias (t_inv tr')) with (bias (t_inv (stateAt c k rows us fresh tr 1))). rewrite Q.
    change (@radd R ROps) with Rplus. change (@r0 R ROps) with 0. rewrite Rplus_0_l. reflexivity.
Qed.

(** With two of each or more, the update of one weight is added to another: a
    weight whose derivative is -1/4 moves up by a quarter of the learning rate. *)
Definition blank (vd hd : nat) : rbm := {| vdim := vd; hdim := hd; wts := fun _ => 0; bias := fun _ => 0 |}.
Lemma preact_blank vd hd x j : preact (blank vd hd) x j = 0.
Proof.
  unfold preact. cbn [blank vdim wts bias]. rewrite sumn_zero'; [change (@r0 R ROps) with 0; ring|].
  intros i _. change (@r0 R ROps) with 0. ring.
Qed.
Lemma sigmoid_0 : sigmoid 0 = 1 / 2.
Proof. rewrite sigmoid_inner by (rewrite Rabs_R0; lra). rewrite Ropp_0, exp_0. lra. Qed.
Lemma activate_blank vd hd x j : activate (blank vd hd) x j = 1 / 2.
Proof. unfold activate. rewrite preact_blank. apply sigmoid_0. Qed.

Theorem C72_wrong_weight_refuted : forall c k u fresh vd hd, (2 <= vd)%nat -> (2 <= hd)%nat ->
  let tr := newTrainer (fun _ => 0) (blank vd hd) in let row := units (basis 0) in
  let tr' := fst (iterations c k [row] (fun _ => [u]) fresh 1 tr) in let m := machineOf (t_rbm tr) (fun _ => 0) in
  moderate k (t_rbm tr) (t_inv tr) [row] [u] /\
  dlim (fun s => contrast (moveW m 0 1 s) k (t_rbm tr) (t_inv tr) [row] [u]) (- (1 / 4)) /\
  W (machineOf (t_rbm tr') (fun _ => 0)) 0 1 = rWeights c * (1 / 4).
Proof.
  intros c k u fresh vd hd Hv Hh tr row tr' m.
  assert (M : moderate k (t_rbm tr) (t_inv tr) [row] [u]).
  { intros a b j Hin Hj. cbn [tr newTrainer t_rbm]. rewrite !preact_blank, Rabs_R0. lra. }
  assert (I : forall x j, activate (invert (fun _ => 0) (blank vd hd)) x j = 1 / 2) by (intros; apply (activate_blank hd vd)).
  split; [exact M|]. split.
  - destruct (C72_gradient k (t_rbm tr) (t_inv tr) [row] [u] (fun _ => 0) M) as (G & _).
    eapply dlim_val. 2:{ apply (G 1%nat 0%nat); cbn; lia. }
    rewrite rows_w. cbn [combine suml fst snd List.length INR]. rewrite row_w. unfold recon.
    cbn [tr newTrainer t_rbm t_inv]. rewrite !activate_blank, I. change (@radd R ROps) with Rplus. change (@r0 R ROps) with 0.
    unfold row, units, basis. cbn. lra.
  - assert (Q := wts_sum c k [row] (fun _ => [u]) fresh tr 1 0 1). cbn zeta in Q. cbn [sumn] in Q. rewrite velocity_0 in Q.
    cbn [machineOf W]. change (vdim (t_rbm tr')) with vd. replace (0 * vd + 1)%nat with (0 * hdim (t_rbm tr) + 1)%nat by lia.
    change (wts (t_rbm tr')) with (wts (t_rbm (stateAt c k [row] (fun _ => [u]) fresh tr 1))). rewrite Q by (cbn; lia).
    unfold rawAt, stateAt. cbn [iterations fst]. rewrite rows_w. cbn [combine suml fst snd List.length INR]. rewrite row_w. unfold recon.
    cbn [tr newTrainer t_rbm t_inv]. rewrite !activate_blank, I. change (@radd R ROps) with Rplus. change (@r0 R ROps) with 0.
    unfold row, units, basis. cbn. field.
Qed.

(** Momentum, in closed form: after n iterations on a batch each parameter has
    moved by the sum of n velocities, each the momentum-weighted sum of the raw
    updates so far on this batch; nothing is carried over from the batch before. *)
Theorem C72_momentum : forall c k rows us fresh tr n,
  let at_ q := stateAt c k rows us fresh tr q in let raw q := rawAt c k rows us fresh tr q in
  let mu t := if (t <? mmSwitchIter c)%nat then iniMm c else finMm c in let hd := hdim (t_rbm tr) in
  (forall q, at_ q = fst (iterations c k rows us fresh q tr)) /\
  (forall q, raw q = calcUpdateByRows k (t_rbm (at_ q)) (t_inv (at_ q)) rows (us q)) /\
  (forall h, bias (t_rbm (at_ n)) h = bias (t_rbm tr) h + sumn n (velocity mu (fun q => rHidBias c * d_hb (raw q) h))) /\
  (forall v, bias (t_inv (at_ n)) v = bias (t_inv tr) v + sumn n (velocity mu (fun q => rVisBias c * d_vb (raw q) v))) /\
  (forall v h, (h < hd)%nat -> wts (t_rbm (at_ n)) (v * hd + h)%nat = wts (t_rbm tr) (v * hd + h)%nat +
     sumn n (velocity mu (fun q => rWeights c * (d_w (raw q) v h - weightCost c * wts (t_rbm (at_ q)) (v * hd + h)%nat)))).
Proof.
  intros. repeat split.
  - intro h. apply (bias_sum c k rows us fresh tr n).
  - intro v. apply (inv_bias_sum c k rows us fresh tr n).
  - intros v h Hh. apply (wts_sum c k rows us fresh tr n v h Hh).
Qed.

(** On rows with entries between 0 and 1, the biases drift by at most
    rate / (1 - largest momentum) per iteration, over any session. *)
Theorem C72_bounded : forall c k M bs tr,
  0 <= iniMm c <= M -> 0 <= finMm c <= M -> M < 1 -> 0 <= rHidBias c -> 0 <= rVisBias c ->
  Forall (fun b => b_rows b <> nil /\ Forall unitv (b_rows b) /\ forall t, List.length (b_draws b t) = List.length (b_rows b)) bs ->
  let tr' := trainBatches c k bs tr in let steps := INR (List.length bs * maxIter c) in
  (forall h, Rabs (bias (t_rbm tr') h - bias (t_rbm tr) h) <= steps * (rHidBias c / (1 - M))) /\
  (forall v, Rabs (bias (t_inv tr') v - bias (t_inv tr) v) <= steps * (rVisBias c / (1 - M))).
Proof.
  intros c k M bs tr Hi Hf HM Hh Hv HF. cbn zeta. revert tr. unfold trainBatches.
  induction bs as [|b bs IH]; intro tr; cbn [fold_left].
  - cbn [List.length Nat.mul INR]. split; intro; unfold Rminus; rewrite Rplus_opp_r, Rabs_R0; lra.
  - apply Forall_cons_iff in HF. destruct HF as ((N & U & L) & HF). destruct (IH HF (trainBatch c k tr b)) as (I1 & I2).
    assert (MU : forall t, 0 <= momentum c t <= M) by (intro t; unfold momentum; destruct (t <? _)%nat; assumption).
    assert (RB : forall q, (forall h, Rabs (d_hb (rawAt c k (b_rows b) (b_draws b) (b_fresh b) tr q) h) <= 1) /\ (forall v, Rabs (d_vb (rawAt c k (b_rows b) (b_draws b) (b_fresh b) tr q) v) <= 1)).
    { intro q. unfold rawAt. destruct (raw_bounds k (t_rbm (stateAt c k (b_rows b) (b_draws b) (b_fresh b) tr q)) (t_inv (stateAt c k (b_rows b) (b_draws b) (b_fresh b) tr q)) (b_rows b) (b_draws b q) N (L q) U) as (_ & A & B). split; assumption. }
    cbn [List.length Nat.mul]. rewrite plus_INR. split; [intro h|intro v].
    + assert (Q := bias_sum c k (b_rows b) (b_draws b) (b_fresh b) tr (maxIter c) h). change (stateAt c k (b_rows b) (b_draws b) (b_fresh b) tr (maxIter c)) with (trainBatch c k tr b) in Q.
      assert (B := sumn_bound (maxIter c) (velocity (momentum c) (fun q => rHidBias c * d_hb (rawAt c k (b_rows b) (b_draws b) (b_fresh b) tr q) h)) (rHidBias c / (1 - M))).
      assert (B' := B ltac:(apply velocity_bound; auto; intro q; rewrite Rabs_mult, (Rabs_right (rHidBias c)) by lra; assert (P := proj1 (RB q) h); rewrite <- (Rmult_1_r (rHidBias c)) at 2; apply Rmult_le_compat_l; assumption)).
      replace (bias (t_rbm (fold_left (trainBatch c k) bs (trainBatch c k tr b))) h - bias (t_rbm tr) h)
        with ((bias (t_rbm (fold_left (trainBatch c k) bs (trainBatch c k tr b))) h - bias (t_rbm (trainBatch c k tr b)) h) + (bias (t_rbm (trainBatch c k tr b)) h - bias (t_rbm tr) h)) by ring.
      eapply Rle_trans; [apply Rabs_triang|]. rewrite Rmult_plus_distr_r, Rplus_comm. apply Rplus_le_compat; [|apply I1].
      rewrite Q. match goal with |- Rabs (?a + ?b - ?a) <= _ => replace (a + b - a) with b by ring end. exact B'.
    + assert (Q := inv_bias_sum c k (b_rows b) (b_draws b) (b_fresh b) tr (maxIter c) v). change (stateAt c k (b_rows b) (b_draws b) (b_fresh b) tr (maxIter c)) with (trainBatch c k tr b) in Q.
      assert (B := sumn_bound (maxIter c) (velocity (momentum c) (fun q => rVisBias c * d_vb (rawAt c k (b_rows b) (b_draws b) (b_fresh b) tr q) v)) (rVisBias c / (1 - M))).
      assert (B' := B ltac:(apply velocity_bound; auto; intro q; rewrite Rabs_mult, (Rabs_right (rVisBias c)) by lra; assert (P := proj2 (RB q) v); rewrite <- (Rmult_1_r (rVisBias c)) at 2; apply Rmult_le_compat_l; assumption)).
      replace (bias (t_inv (fold_left (trainBatch c k) bs (trainBatch c k tr b))) v - bias (t_inv tr) v)
        with ((bias (t_inv (fold_left (trainBatch c k) bs (trainBatch c k tr b))) v - bias (t_inv (trainBatch c k tr b)) v) + (bias (t_inv (trainBatch c k tr b)) v - bias (t_inv tr) v)) by ring.
      eapply Rle_trans; [apply Rabs_triang|]. rewrite Rmult_plus_distr_r, Rplus_comm. apply Rplus_le_compat; [|apply I2].
      rewrite Q. match goal with |- Rabs (?a + ?b - ?a) <= _ => replace (a + b - a) with b by ring end. exact B'.
Qed.

(** With the default configuration: nine per batch, whatever its size. *)
Theorem C72_default : forall k b tr, b_rows b <> nil -> Forall unitv (b_rows b) -> (forall t, List.length (b_draws b t) = List.length (b_rows b)) ->
  let tr' := trainBatches defaultCfg k [b] tr in
  (forall h, Rabs (bias (t_rbm tr') h - bias (t_rbm tr) h) <= 9) /\
  (forall v, Rabs (bias (t_inv tr') v - bias (t_inv tr) v) <= 9).
Proof.
  intros k b tr N U L. destruct (C72_bounded defaultCfg k (9 / 10) [b] tr) as (A & B); try (cbn [defaultCfg iniMm finMm rHidBias rVisBias]; lra); [constructor; [auto|constructor]|].
  assert (E : INR (List.length [b] * maxIter defaultCfg) * (1 / 10 / (1 - 9 / 10)) = 9) by (cbn; lra).
  cbn zeta. split; intro i; [eapply Rle_trans; [apply A|]|eapply Rle_trans; [apply B|]]; cbn [defaultCfg rHidBias rVisBias]; apply Req_le; exact E.
Qed.

(** A session takes the batches one after the other, each from where the last one
    ended, with maxIter iterations and velocities that start at zero. *)
Theorem C72_session : forall c k tr, trainBatches c k [] tr = tr /\
  forall bs b, trainBatches c k (bs ++ [b]) tr = stateAt c k (b_rows b) (b_draws b) (b_fresh b) (trainBatches c k bs tr) (maxIter c).
Proof. intros c k tr. split; [reflexivity|]. intros bs b. unfold trainBatches. rewrite fold_left_app. reflexivity. Qed.

(** The published defaults: nine iterations, momentum 1/2 in the first five and
    9/10 after, all rates 1/10, decay 2/10000. *)
Theorem C72_settings : maxIter defaultCfg = 9%nat /\
  (forall t, momentum defaultCfg t = if (t <? 5)%nat then 1 / 2 else 9 / 10) /\
  rWeights defaultCfg = 1 / 10 /\ rHidBias defaultCfg = 1 / 10 /\ rVisBias defaultCfg = 1 / 10 /\ weightCost defaultCfg = 2 / 10000.
Proof. repeat split. intro t. unfold momentum. cbn [defaultCfg mmSwitchIter iniMm finMm]. destruct (t <? 5)%nat; lra. Qed.

(** BernoulliLayer fires exactly when the Bernoulli sampler with the same draw
    does not: a unit of activation 1 never fires, one of activation 0 always. *)
Theorem C72_bernoulli_layer_refuted : forall p u j,
  bernoulliLayer p u j = 1 - sampler Bernoulli u p j /\
  (p j = 1 -> u j < 1 -> bernoulliLayer p u j = 0) /\ (p j = 0 -> 0 <= u j -> bernoulliLayer p u j = 1).
Proof.
  intros p u j. unfold bernoulliLayer, sampler. destruct (Rle_dec (p j) (u j)); destruct (Rlt_dec (u j) (p j)); repeat split; intros; lra.
Qed.

(** DeepBeliefTrainer.train raises for every network. *)
Theorem C72_deep_belief_refuted : forall names, exists e, deepTrain names = inl e /\
  (e = StopIteration <-> (List.length names <= 1)%nat).
Proof.
  intro names. unfold deepTrain. destruct names as [|a [|b rest]]; cbn [iterRbms List.length].
  - exists StopIteration. repeat split; auto.
  - exists StopIteration. repeat split; auto.
  - unfold fromModules. destruct (String.eqb a "visible"); [|destruct (String.eqb b "visible")];
      eexists; (split; [reflexivity|split; [discriminate|lia]]).
Qed.

(** ** Concrete cases *)
Example C72_conditional_ex : activate (one_weight 2 2) (units (basis 1)) 0 = 1 / (1 + exp (-(1))) /\
  activate (one_weight 2 2) (units (basis 1)) 0 = condH (machineOf (one_weight 2 2) (fun _ => 3)) (units (basis 1)) 0.
Proof.
  assert (E : preact (one_weight 2 2) (units (basis 1)) 0 = 1) by (unfold preact, units, basis; cbn; lra). split.
  - unfold activate. rewrite E. apply sigmoid_inner. rewrite Rabs_right; lra.
  - apply C72_conditional; [cbn; lia|]. rewrite E, Rabs_right; lra.
Qed.

Example C72_moderate_ex : moderate Gauss (blank 3 1) (invert (fun _ => 0) (blank 3 1)) [units (basis 0)] [fun _ => 2] /\
  (hdim (blank 3 1) <= 1)%nat.
Proof. split; [|cbn; lia]. intros a b j _ _. rewrite !preact_blank, Rabs_R0. lra. Qed.

Example C72_bounded_ex : exists b, b_rows b <> nil /\ Forall unitv (b_rows b) /\ (forall t, List.length (b_draws b t) = List.length (b_rows b)) /\
  d_hb (calcUpdateByRows Bernoulli (one_weight 2 2) (invert (fun _ => 0) (one_weight 2 2)) (b_rows b) (b_draws b 0%nat)) 0%nat <> 0.
Proof.
  exists {| b_rows := [units (basis 1)]; b_draws := fun _ => [fun _ => 2]; b_fresh := fun _ _ => 0 |}. cbn [b_rows b_draws].
  split; [discriminate|]. split; [constructor; [intro i; unfold units; destruct (basis 1 i); cbn; lra|constructor]|]. split; [reflexivity|].
  rewrite rows_hb. cbn [combine suml fst snd List.length INR]. rewrite row_hb. unfold recon.
  set (s := sampler Bernoulli (fun _ => 2) (activate (one_weight 2 2) (units (basis 1)))).
  assert (Z : forall j, s j = 0).
  { intro j. unfold s, sampler. assert (A := sigmoid_range (preact (one_weight 2 2) (units (basis 1)) j)). unfold activate.
    destruct (Rlt_dec 2 (sigmoid (preact (one_weight 2 2) (units (basis 1)) j))); lra. }
  assert (RC : forall i, activate (invert (fun _ => 0) (one_weight 2 2)) s i = 1 / 2).
  { intro i. unfold activate. rewrite <- sigmoid_0. f_equal. unfold preact. cbn [invert one_weight vdim hdim wts bias]. cbn [sumn].
    rewrite !Z. change (@radd R ROps) with Rplus. change (@r0 R ROps) with 0. ring. }
  unfold activate at 1 2.
  assert (P1 : preact (one_weight 2 2) (units (basis 1)) 0 = 1) by (unfold preact, units, basis; cbn; lra).
  assert (P2 : preact (one_weight 2 2) (activate (invert (fun _ => 0) (one_weight 2 2)) s) 0 = 1 / 2).
  { unfold preact. cbn [one_weight vdim hdim wts bias sumn]. rewrite !RC. cbn. lra. }
  rewrite P1, P2. rewrite !sigmoid_inner by (rewrite Rabs_right; lra).
  assert (S1 : exp (- (1)) < exp (- (1 / 2))) by (apply exp_increasing; lra). assert (S2 := exp_pos (- (1))).
  change (@radd R ROps) with Rplus. change (@r0 R ROps) with 0.
  assert (1 / (1 + exp (- (1 / 2))) < 1 / (1 + exp (- (1)))) by (apply Rmult_lt_compat_l; [lra|]; apply Rinv_lt_contravar; [apply Rmult_lt_0_compat; lra|lra]).
  lra.
Qed.

Example C72_deep_belief_ex : deepTrain ["visible"; "hidden"; "top"]%string = inl AttributeErr /\ deepTrain ["in"; "hidden"]%string = inl KeyErr.
Proof. split; reflexivity. Qed.

Print Assumptions C72_conditional.
Print Assumptions C72_sample.
Print Assumptions C72_gradient.
Print Assumptions C72_in_step.
Print Assumptions C72_joint.
Print Assumptions C72_joint_refuted.
Print Assumptions C72_first_step.
Print Assumptions C72_wrong_weight_refuted.
Print Assumptions C72_momentum.
Print Assumptions C72_bounded.
Print Assumptions C72_default.
Print Assumptions C72_session.
Print Assumptions C72_settings.
Print Assumptions C72_bernoulli_layer_refuted.
Print Assumptions C72_deep_belief_refuted.
