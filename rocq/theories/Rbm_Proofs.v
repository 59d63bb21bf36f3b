From Coq Require Import Reals List Arith String Lra Lia.
From Verif Require Import Base RingOps Net_Model Net_Gradient Layers_R Mixture_Proofs Rbm_Model Rbm_Spec.
Import ListNotations.
Open Scope R_scope.

Lemma bsum_ext n f g : (forall h, f h = g h) -> bsum n f = bsum n g.
Proof. revert f g. induction n as [|n IH]; intros f g H; cbn [bsum]; [apply H|]. f_equal; apply IH; intro h; apply H. Qed.

Lemma bsum_zero n : bsum n (fun _ => 0) = 0.
Proof. induction n as [|n IH]; cbn [bsum]; [reflexivity|]. rewrite IH. lra. Qed.

Lemma bsum_pos n f : (forall h, 0 < f h) -> 0 < bsum n f.
Proof. revert f. induction n as [|n IH]; intros f H; cbn [bsum]; [apply H|]. apply Rplus_lt_0_compat; apply IH; intro h; apply H. Qed.

Lemma bsum_scale n k f : bsum n (fun h => k * f h) = k * bsum n f.
Proof. revert f. induction n as [|n IH]; intros f; cbn [bsum]; [reflexivity|]. rewrite !IH. ring. Qed.

Lemma setb_same h n b : setb h n b n = b.
Proof. unfold setb. rewrite Nat.eqb_refl. reflexivity. Qed.
Lemma setb_other h n b i : i <> n -> setb h n b i = h i.
Proof. intro H. unfold setb. apply Nat.eqb_neq in H. rewrite H. reflexivity. Qed.

Definition lin (n : nat) (a : nat -> R) (h : nat -> bool) : R := sumn n (fun j => a j * units h j).

Lemma lin_setb n a h b : lin (S n) a (setb h n b) = lin n a h + a n * b2r b.
Proof.
  unfold lin. cbn [sumn]. unfold units at 2. rewrite setb_same.
  change (@radd R ROps) with Rplus. f_equal. apply sumn_ext. intros i Hi. unfold units. rewrite setb_other by lia. reflexivity.
Qed.

Lemma bsum_split n c a : bsum (S n) (fun h => exp (c + lin (S n) a h)) = (1 + exp (a n)) * bsum n (fun h => exp (c + lin n a h)).
Proof.
  cbn [bsum]. rewrite (bsum_ext n _ (fun h => exp (c + lin n a h))).
  2:{ intro h. rewrite lin_setb. cbn [b2r]. f_equal. lra. }
  rewrite (bsum_ext n (fun h => exp (c + lin (S n) a (setb h n true))) (fun h => exp (a n) * exp (c + lin n a h))).
  2:{ intro h. rewrite lin_setb. cbn [b2r]. rewrite <- exp_plus. f_equal. lra. }
  rewrite bsum_scale. ring.
Qed.

Lemma bsum_one n : forall c a k, (k < n)%nat ->
  (1 + exp (a k)) * bsum n (fun h => if h k then exp (c + lin n a h) else 0) = exp (a k) * bsum n (fun h => exp (c + lin n a h)).
Proof.
  induction n as [|n IH]; intros c a k Hk; [lia|].
  rewrite bsum_split. cbn [bsum]. destruct (Nat.eq_dec k n) as [->|Hne].
  - rewrite (bsum_ext n _ (fun _ => 0)).
    2:{ intro h. rewrite setb_same. reflexivity. }
    rewrite bsum_zero.
    rewrite (bsum_ext n _ (fun h => exp (a n) * exp (c + lin n a h))).
    2:{ intro h. rewrite setb_same, lin_setb, <- exp_plus. cbn [b2r]. f_equal. lra. }
    rewrite bsum_scale. ring.
  - rewrite (bsum_ext n _ (fun h => if h k then exp (c + lin n a h) else 0)).
    2:{ intro h. rewrite setb_other, lin_setb by auto. cbn [b2r]. destruct (h k); [f_equal; lra|reflexivity]. }
    rewrite (bsum_ext n (fun h => if setb h n true k then _ else 0) (fun h => exp (a n) * (if h k then exp (c + lin n a h) else 0))).
    2:{ intro h. rewrite setb_other, lin_setb by auto. cbn [b2r]. destruct (h k); [rewrite <- exp_plus; f_equal; lra|ring]. }
    rewrite bsum_scale. assert (E := IH c a k ltac:(lia)). set (X := bsum n (fun h => if h k then exp (c + lin n a h) else 0)) in *. set (Y := bsum n (fun h => exp (c + lin n a h))) in *.
    replace ((1 + exp (a k)) * (X + exp (a n) * X)) with ((1 + exp (a n)) * ((1 + exp (a k)) * X)) by ring. rewrite E. ring.
Qed.

Lemma bsum_cond n c a k : (k < n)%nat ->
  bsum n (fun h => if h k then exp (c + lin n a h) else 0) / bsum n (fun h => exp (c + lin n a h)) = 1 / (1 + exp (- a k)).
Proof.
  intro Hk. assert (E := bsum_one n c a k Hk).
  assert (P : 0 < bsum n (fun h => exp (c + lin n a h))) by (apply bsum_pos; intro; apply exp_pos).
  assert (Q := exp_pos (a k)). rewrite exp_Ropp.
  set (X := bsum n (fun h => if h k then exp (c + lin n a h) else 0)) in *. set (Y := bsum n (fun h => exp (c + lin n a h))) in *. set (e := exp (a k)) in *.
  assert (X = e * Y / (1 + e)) as -> by (rewrite <- E; field; lra).
  field. split; [|split]; lra.
Qed.

Lemma bsum_ln n : forall c a, ln (bsum n (fun h => exp (c + lin n a h))) = c + sumn n (fun j => ln (1 + exp (a j))).
Proof.
  induction n as [|n IH]; intros c a.
  - cbn [bsum sumn]. unfold lin. cbn [sumn]. rewrite ln_exp. reflexivity.
  - rewrite bsum_split, ln_mult, IH.
    + cbn [sumn]. change (@radd R ROps) with Rplus. ring.
    + assert (H := exp_pos (a n)). lra.
    + apply bsum_pos. intro. apply exp_pos.
Qed.

(** ** The machine's conditionals are logistic *)
Definition preH (m : machine) (x : nat -> R) (j : nat) : R := sumn (nv m) (fun i => W m j i * x i) + hb m j.
Definition preV (m : machine) (y : nat -> R) (i : nat) : R := sumn (nh m) (fun j => W m j i * y j) + vb m i.

Lemma energyH m x h : - energy m x (units h) = sumn (nv m) (fun i => vb m i * x i) + lin (nh m) (preH m x) h.
Proof.
  unfold energy, lin. rewrite (sumn_ext (nh m) (fun j => preH m x j * units h j) (fun j => sumn (nv m) (fun i => W m j i * x i * units h j) + hb m j * units h j)).
  2:{ intros j _. unfold preH. assert (E := sumn_mul_r (K := R) (nv m) (units h j) (fun i => W m j i * x i)). cbn [rmul ROps] in E. change (@rmul R ROps) with Rmult in E. rewrite E. ring. }
  assert (E := sumn_add (K := R) (nh m) (fun j => sumn (nv m) (fun i => W m j i * x i * units h j)) (fun j => hb m j * units h j)).
  change (@radd R ROps) with Rplus in E. rewrite E. ring.
Qed.

Lemma energyV m v y : - energy m (units v) y = sumn (nh m) (fun j => hb m j * y j) + lin (nv m) (preV m y) v.
Proof.
  unfold energy, lin. rewrite (sumn_ext (nv m) (fun i => preV m y i * units v i) (fun i => sumn (nh m) (fun j => W m j i * units v i * y j) + vb m i * units v i)).
  2:{ intros i _. unfold preV. rewrite (sumn_ext (nh m) (fun j => W m j i * units v i * y j) (fun j => W m j i * y j * units v i)) by (intros; ring).
      assert (E := sumn_mul_r (K := R) (nh m) (units v i) (fun j => W m j i * y j)). change (@rmul R ROps) with Rmult in E. rewrite E. ring. }
  assert (E := sumn_add (K := R) (nv m) (fun i => sumn (nh m) (fun j => W m j i * units v i * y j)) (fun i => vb m i * units v i)).
  change (@radd R ROps) with Rplus in E. rewrite E.
  rewrite (sumn_swap (K := R) (nh m) (nv m) (fun j i => W m j i * units v i * y j)). ring.
Qed.

Lemma condH_logistic m x j : (j < nh m)%nat -> condH m x j = 1 / (1 + exp (- preH m x j)).
Proof.
  intro Hj. unfold condH, weight.
  rewrite (bsum_ext (nh m) (fun h => if h j then _ else 0) (fun h => if h j then exp (sumn (nv m) (fun i => vb m i * x i) + lin (nh m) (preH m x) h) else 0))
    by (intro h; rewrite energyH; reflexivity).
  rewrite (bsum_ext (nh m) (fun h => exp (- energy m x (units h))) (fun h => exp (sumn (nv m) (fun i => vb m i * x i) + lin (nh m) (preH m x) h)))
    by (intro h; rewrite energyH; reflexivity).
  apply bsum_cond. exact Hj.
Qed.

Lemma condV_logistic m y i : (i < nv m)%nat -> condV m y i = 1 / (1 + exp (- preV m y i)).
Proof.
  intro Hi. unfold condV, weight.
  rewrite (bsum_ext (nv m) (fun h => if h i then _ else 0) (fun h => if h i then exp (sumn (nh m) (fun j => hb m j * y j) + lin (nv m) (preV m y) h) else 0))
    by (intro h; rewrite energyV; reflexivity).
  rewrite (bsum_ext (nv m) (fun h => exp (- energy m (units h) y)) (fun h => exp (sumn (nh m) (fun j => hb m j * y j) + lin (nv m) (preV m y) h)))
    by (intro h; rewrite energyV; reflexivity).
  apply bsum_cond. exact Hi.
Qed.

Lemma freeEnergy_closed m x : freeEnergy m x = - (sumn (nv m) (fun i => vb m i * x i) + sumn (nh m) (fun j => ln (1 + exp (preH m x j)))).
Proof.
  unfold freeEnergy, weight. rewrite (bsum_ext (nh m) _ (fun h => exp (sumn (nv m) (fun i => vb m i * x i) + lin (nh m) (preH m x) h)))
    by (intro h; rewrite energyH; reflexivity).
  rewrite bsum_ln. reflexivity.
Qed.

(** ** Derivatives of the free energy *)
Lemma dlim_softplus f a : dlim f a -> dlim (fun s => ln (1 + exp (f s))) (1 / (1 + exp (- f 0)) * a).
Proof.
  intro H. assert (P := exp_pos (f 0)).
  eapply dlim_val. 2:{ apply dlim_ln; [|apply dlim_add; [apply dlim_const|apply dlim_exp; exact H]]. lra. }
  rewrite exp_Ropp. field. lra.
Qed.

Lemma upd_lin f k x n : (k < n)%nat -> forall s, sumn n (fun i => upd f k s i * x i) = sumn n (fun i => f i * x i) + s * x k.
Proof.
  intros Hk s. rewrite (sumn_ext n _ (fun i => f i * x i + (if (i =? k)%nat then s * x i else 0))).
  2:{ intros i _. unfold upd. destruct (i =? k)%nat; ring. }
  assert (E := sumn_add (K := R) n (fun i => f i * x i) (fun i => if (i =? k)%nat then s * x i else 0)). change (@radd R ROps) with Rplus in E. rewrite E.
  f_equal. rewrite (sumn_single n k); [rewrite Nat.eqb_refl; reflexivity|exact Hk|].
  intros i Hi Hne. apply Nat.eqb_neq in Hne. rewrite Hne. reflexivity.
Qed.

Lemma sum_one (n k : nat) (d : R) : (k < n)%nat -> sumn n (fun j => if (j =? k)%nat then d else 0) = d.
Proof.
  intro Hk. rewrite (sumn_single n k); [rewrite Nat.eqb_refl; reflexivity|exact Hk|].
  intros i Hi Hne. apply Nat.eqb_neq in Hne. rewrite Hne. reflexivity.
Qed.

Lemma preH_moveW m j i x a s : (i < nv m)%nat -> preH (moveW m j i s) x a = preH m x a + (if (a =? j)%nat then s * x i else 0).
Proof.
  intro Hi. unfold preH. cbn [nv nh W hb vb moveW]. unfold upd2. destruct (a =? j)%nat; [|ring]. rewrite upd_lin by exact Hi. ring.
Qed.

Lemma freeEnergy_dW m x j i : (j < nh m)%nat -> (i < nv m)%nat ->
  dlim (fun s => freeEnergy (moveW m j i s) x) (- (condH m x j * x i)).
Proof.
  intros Hj Hi. rewrite condH_logistic by exact Hj.
  apply (dlim_ext (fun s => - (sumn (nv m) (fun i => vb m i * x i) + sumn (nh m) (fun a => ln (1 + exp (preH m x a + (if (a =? j)%nat then s * x i else 0))))))).
  { intro s. rewrite freeEnergy_closed. cbn [nv nh vb moveW]. do 2 f_equal. apply sumn_ext. intros a _. rewrite preH_moveW by exact Hi. reflexivity. }
  apply dlim_opp. eapply dlim_val. 2:{ apply dlim_add; [apply dlim_const|].
    apply (dlim_sumn (nh m) (fun a s => ln (1 + exp (preH m x a + (if (a =? j)%nat then s * x i else 0)))) (fun a => if (a =? j)%nat then 1 / (1 + exp (- preH m x j)) * x i else 0)).
    intros a _. destruct (a =? j)%nat eqn:Ea.
    - apply Nat.eqb_eq in Ea. subst a. eapply dlim_val. 2: apply (dlim_softplus (fun s => preH m x j + s * x i) (x i)); apply dlim_line.
      rewrite Rmult_0_l, Rplus_0_r. reflexivity.
    - apply dlim_const. }
  rewrite (sum_one (nh m) j) by exact Hj. ring.
Qed.

Lemma freeEnergy_dH m x j : (j < nh m)%nat -> dlim (fun s => freeEnergy (moveH m j s) x) (- condH m x j).
Proof.
  intros Hj. rewrite condH_logistic by exact Hj.
  apply (dlim_ext (fun s => - (sumn (nv m) (fun i => vb m i * x i) + sumn (nh m) (fun a => ln (1 + exp (preH m x a + (if (a =? j)%nat then s * 1 else 0))))))).
  { intro s. rewrite freeEnergy_closed. cbn [nv nh vb moveH]. do 2 f_equal. apply sumn_ext. intros a _. unfold preH. cbn [nv nh W hb vb moveH]. unfold upd. do 3 f_equal. destruct (a =? j)%nat; ring. }
  apply dlim_opp. eapply dlim_val. 2:{ apply dlim_add; [apply dlim_const|].
    apply (dlim_sumn (nh m) (fun a s => ln (1 + exp (preH m x a + (if (a =? j)%nat then s * 1 else 0)))) (fun a => if (a =? j)%nat then 1 / (1 + exp (- preH m x j)) else 0)).
    intros a _. destruct (a =? j)%nat eqn:Ea.
    - apply Nat.eqb_eq in Ea. subst a. eapply dlim_val. 2: apply (dlim_softplus (fun s => preH m x j + s * 1) 1); apply dlim_line.
      rewrite Rmult_0_l, Rplus_0_r. ring.
    - apply dlim_const. }
  rewrite (sum_one (nh m) j) by exact Hj. ring.
Qed.

Lemma freeEnergy_dV m x i : (i < nv m)%nat -> dlim (fun s => freeEnergy (moveV m i s) x) (- x i).
Proof.
  intros Hi.
  apply (dlim_ext (fun s => - ((sumn (nv m) (fun i => vb m i * x i) + s * x i) + sumn (nh m) (fun a => ln (1 + exp (preH m x a)))))).
  { intro s. rewrite freeEnergy_closed. cbn [nv nh vb moveV]. do 2 f_equal. symmetry. apply upd_lin. exact Hi. }
  apply dlim_opp. eapply dlim_val. 2:{ apply dlim_add; [apply dlim_line|apply dlim_const]. } ring.
Qed.
