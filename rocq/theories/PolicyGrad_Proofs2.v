(** Lemmas for C67: the controller, baselines, least squares. *)
From Coq Require Import Reals Lra.
From Verif Require Import Base Functions_Model Functions_Proofs FiniteDiff_Proofs PolicyGrad_Model PolicyGrad_Spec PolicyGrad_Proofs.
Local Open Scope R_scope.

Lemma rzip_cons f x a y b : rzip f (x :: a) (y :: b) = f x y :: rzip f a b.
Proof. reflexivity. Qed.
Lemma rdot_seq n a b : length a = n -> length b = n -> rdot a b = rsum (map (fun j => nth j a 0 * nth j b 0) (seq 0 n)).
Proof.
  intros <-. revert b. induction a as [|x a IH]; intros [|y b] H; try discriminate; [reflexivity |]. unfold rdot in *. cbn [length seq map]. rewrite rzip_cons, !rsum_cons. f_equal.
  rewrite <- seq_shift, map_map. apply IH. now injection H.
Qed.
(** unit vectors *)
Definition unit (n j : nat) : rvec := map (fun i => if (i =? j)%nat then 1 else 0) (seq 0 n).
Lemma unit_len n j : length (unit n j) = n.
Proof. unfold unit. now rewrite map_length, seq_length. Qed.
Lemma nth_seq_map (f : nat -> R) n i : (i < n)%nat -> nth i (map f (seq 0 n)) 0 = f i.
Proof. intros H. rewrite (nth_indep _ 0 (f 0%nat)) by (rewrite map_length, seq_length; auto). rewrite map_nth, seq_nth by auto. reflexivity. Qed.
Lemma rdot_unit n j v : (j < n)%nat -> length v = n -> rdot (unit n j) v = nth j v 0.
Proof.
  intros Hj Hv. rewrite (rdot_seq n) by (auto; apply unit_len). rewrite <- (rsum_pick n j (nth j v 0) Hj). f_equal. apply map_ext_in. intros i Hi. apply in_seq in Hi. unfold unit. rewrite nth_seq_map by lia.
  destruct (Nat.eqb_spec i j) as [-> | _]; ring.
Qed.

Section Controller.
Context (F : rvec -> rvec -> rvec) (VJP : rvec -> rvec -> rvec -> rvec) (n : nat) (th o : rvec) (OK : backward_ok F VJP n th o).
Lemma upd_len_th k t : length (upd k t th) = length th.
Proof. apply upd_length. Qed.
Lemma action_len : length (F th o) = n.
Proof. apply (proj1 OK). auto. Qed.
Definition jac (k j : nat) : R := nth k (VJP th o (unit n j)) 0.
Lemma action_deriv k j : (k < length th)%nat -> (j < n)%nat -> derivable_pt_lim (fun t => nth j (F (upd k t th) o) 0) (nth k th 0) (jac k j).
Proof.
  intros Hk Hj. destruct OK as [L D]. destruct (D (unit n j) (unit_len n j)) as [_ P]. specialize (P k Hk). unfold partial in P.
  apply (dlim_near _ (fun t => nth j (F (upd k t th) o) 0) _ _ 1 ltac:(lra)) in P; [exact P |]. intros t _. apply rdot_unit; auto. apply L. apply upd_length.
Qed.
Lemma vjp_jac k e : (k < length th)%nat -> length e = n -> nth k (VJP th o e) 0 = rsum (map (fun j => nth j e 0 * jac k j) (seq 0 n)).
Proof.
  intros Hk He. destruct OK as [L D]. destruct (D e He) as [_ P]. specialize (P k Hk). unfold partial in P. eapply uniqueness_limite; [exact P |].
  apply (dlim_near (fun t => rsum (map (fun j => nth j e 0 * nth j (F (upd k t th) o) 0) (seq 0 n))) _ _ _ 1); [lra | |].
  - intros t _. symmetry. apply rdot_seq; auto. apply L, upd_length.
  - apply (dsum (seq 0 n) (fun j t => nth j e 0 * nth j (F (upd k t th) o) 0) (fun j => nth j e 0 * jac k j)). intros j Hj. apply in_seq in Hj. apply (derivable_pt_lim_scal (fun t => nth j (F (upd k t th) o) 0)). apply action_deriv; auto. lia.
Qed.
Lemma vjp_len e : length e = n -> length (VJP th o e) = length th.
Proof. intros He. destruct OK as [_ D]. apply D. auto. Qed.
(** the score, backed through the controller *)
Lemma controller_score s y k : (k < length th)%nat -> length s = n -> length y = n -> Forall (fun x => x <> 0) s ->
  partial (fun th => loglik s (F th o) y) th k (nth k (VJP th o (rdiv (rsub y (F th o)) (vsq s))) 0).
Proof.
  intros Hk Hs Hy NZ. pose proof action_len as LA. assert (LE : length (rdiv (rsub y (F th o)) (vsq s)) = n) by (apply rzip_length; [apply rzip_length; auto | unfold vsq; rewrite map_length; auto]).
  rewrite vjp_jac by auto. unfold partial, loglik. rewrite Hy.
  apply (dsum (seq 0 n) (fun j t => normal_loglik (nth j s 0) (nth j (F (upd k t th) o) 0) (nth j y 0)) (fun j => nth j (rdiv (rsub y (F th o)) (vsq s)) 0 * jac k j)). intros j Hj. apply in_seq in Hj.
  assert (E : nth j (rdiv (rsub y (F th o)) (vsq s)) 0 = (nth j y 0 - nth j (F th o) 0) / (nth j s 0 * nth j s 0)).
  { unfold rdiv, rsub, vsq. rewrite (nth_rzip _ _ _ _ 0 0) by (rewrite ?map_length, ?(rzip_length _ _ _ n); auto; lia). rewrite (nth_rzip _ _ _ _ 0 0) by lia. rewrite nth_map0 by lia. reflexivity. }
  rewrite E. apply (derivable_pt_lim_comp (fun t => nth j (F (upd k t th) o) 0) (fun u => normal_loglik (nth j s 0) u (nth j y 0))); [apply action_deriv; auto; lia |].
  assert (U : upd k (nth k th 0) th = th). { clear -Hk. revert k Hk. induction th as [|h t IH]; intros [|k] Hk; cbn in *; try lia; auto. f_equal. apply IH. lia. }
  rewrite U. apply loglik_mean_deriv. rewrite Forall_forall in NZ. apply NZ, nth_In. lia.
Qed.
Lemma vjp_scale k c e : (k < length th)%nat -> length e = n -> nth k (VJP th o (map (fun x => c * x) e)) 0 = c * nth k (VJP th o e) 0.
Proof.
  intros Hk He. rewrite !vjp_jac by (rewrite ?map_length; auto). rewrite <- rsum_scale. f_equal. apply map_ext_in. intros j Hj. apply in_seq in Hj. rewrite nth_map0 by lia. ring.
Qed.
End Controller.

(** ** baselines *)
Section Baseline.
Context (g rt : rvec) (L : length g = length rt).
Lemma sum_zip2 (f : R -> R -> R) : rsum (rzip f g rt) = rsum (map (fun j => f (nth j g 0) (nth j rt 0)) (seq 0 (length rt))).
Proof.
  revert L. generalize rt. clear rt. induction g as [|x g' IH]; intros [|y rt] H; try discriminate; [reflexivity |]. cbn [length seq map]. rewrite rzip_cons, !rsum_cons. f_equal. rewrite <- seq_shift, map_map. apply IH. now injection H.
Qed.
End Baseline.
Lemma rsum_vsq g : rsum (vsq g) = rdot g g.
Proof. unfold rdot, vsq. induction g as [|x g IH]; [reflexivity |]. cbn [map]. rewrite rzip_cons, !rsum_cons, IH. reflexivity. Qed.
Lemma rzip_map_r f h (a b : rvec) : rzip f a (map h b) = rzip (fun x y => f x (h y)) a b.
Proof. revert b. induction a as [|x a IH]; intros [|y b]; cbn; auto. f_equal. apply IH. Qed.
Lemma rzip_map_l f h (a b : rvec) : rzip f (map h a) b = rzip (fun x y => f (h x) y) a b.
Proof. revert b. induction a as [|x a IH]; intros [|y b]; cbn; auto. f_equal. apply IH. Qed.
Lemma rzip_ext (f h : R -> R -> R) (a b : rvec) : (forall x y, f x y = h x y) -> rzip f a b = rzip h a b.
Proof. intros E. revert b. induction a as [|x a IH]; intros [|y b]; cbn; auto. f_equal; auto. Qed.
Lemma rsum_zip_lin (f h : R -> R -> R) c (a b : rvec) : rsum (rzip (fun x y => f x y + c * h x y) a b) = rsum (rzip f a b) + c * rsum (rzip h a b).
Proof. revert b. induction a as [|x a IH]; intros [|y b]; cbn [rzip]; try (cbn; ring). rewrite !rsum_cons, IH. ring. Qed.
Definition Sgg (g : rvec) := rsum (vsq g).
Definition Sggr (g rt : rvec) := rsum (rzip (fun x r => x * x * r) g rt).
Definition Sgr (g rt : rvec) := rsum (rzip Rmult g rt).
Lemma sum_zip_fst (f : R -> R) (a b : rvec) : length a = length b -> rsum (rzip (fun x _ => f x) a b) = rsum (map f a).
Proof. revert b. induction a as [|x a IH]; intros [|y b] H; try discriminate; [reflexivity |]. rewrite rzip_cons. cbn [map]. rewrite !rsum_cons, IH by (now injection H). reflexivity. Qed.
Lemma spread_form (g rt : rvec) b : length g = length rt -> spread g rt b = rsum (rzip (fun x r => x * x * r * r) g rt) - 2 * b * Sggr g rt + b * b * Sgg g.
Proof.
  intros L. unfold spread, Sggr, Sgg, vsq. rewrite <- (sum_zip_fst (fun x => x * x) g rt L).
  rewrite (rzip_ext _ (fun x r => (x * x * r * r + (- (2 * b)) * (x * x * r)) + b * b * (x * x))) by (intros; ring).
  rewrite (rsum_zip_lin (fun x r => x * x * r * r + - (2 * b) * (x * x * r)) (fun x _ => x * x)). rewrite (rsum_zip_lin (fun x r => x * x * r * r) (fun x r => x * x * r)). ring.
Qed.
Lemma estimate_form (g rt : rvec) b : length g = length rt -> estimate g rt b = (Sgr g rt - b * rsum g) / INR (length rt).
Proof.
  intros L. unfold estimate, Sgr. f_equal. rewrite (rzip_ext _ (fun x r => x * r + (- b) * x)) by (intros; ring). rewrite (rsum_zip_lin Rmult (fun x _ => x)). rewrite sum_zip_fst, map_id by auto. ring.
Qed.
Lemma Sgg_pos g : 0 <= Sgg g.
Proof. unfold Sgg. rewrite rsum_vsq. apply rdot_pos. Qed.
Lemma mean_vsq (g rt : rvec) : length g = length rt -> (0 < length rt)%nat -> mean (vsq g) = Sgg g / INR (length rt).
Proof. intros L _. unfold mean, Sgg, vsq. rewrite map_length, L. reflexivity. Qed.
Lemma reinforce1_form (g rt : rvec) : length g = length rt -> (0 < length rt)%nat ->
  (Sgg g = 0 -> reinforce1 g rt = None) /\ (Sgg g <> 0 -> reinforce1 g rt = Some (- estimate g rt (Sggr g rt / Sgg g))).
Proof.
  intros L Hn. assert (HN : 0 < INR (length rt)) by (apply lt_0_INR; auto). unfold reinforce1. rewrite (mean_vsq g rt) by auto. split; intros Z.
  - rewrite Z. destruct (Req_EM_T (0 / INR (length rt)) 0) as [_ | N]; [reflexivity | exfalso; apply N; field; lra].
  - destruct (Req_EM_T (Sgg g / INR (length rt)) 0) as [E | N].
    + exfalso. apply Z. apply (Rmult_eq_reg_r (/ INR (length rt))); [unfold Rdiv in E; rewrite E; ring | apply Rinv_neq_0_compat; lra].
    + f_equal. f_equal. unfold mean at 1, rmul, estimate. rewrite rzip_map_r. rewrite (rzip_length _ g rt (length rt)) by auto. 
      assert (B : mean (rzip Rmult (vsq g) rt) / (Sgg g / INR (length rt)) = Sggr g rt / Sgg g).
      { unfold mean, vsq. rewrite rzip_map_l. rewrite (rzip_length _ g rt (length rt)) by auto. fold (Sggr g rt). field. lra. }
      rewrite B. reflexivity.
Qed.

(** ** least squares *)
Lemma rsub_len a b n : length a = n -> length b = n -> length (rsub a b) = n.
Proof. apply rzip_length. Qed.
Lemma rdot_sub_l a b c n : length a = n -> length b = n -> length c = n -> rdot (rsub a b) c = rdot a c - rdot b c.
Proof.
  intros <-. revert b c. induction a as [|x a IH]; intros [|y b] [|z c] Hb Hc; try discriminate; [unfold rdot; cbn; ring |]. unfold rdot, rsub in *. rewrite !rzip_cons, !rsum_cons, IH by (first [now injection Hb | now injection Hc]). ring.
Qed.
Lemma rdot_comm (a b : rvec) : rdot a b = rdot b a.
Proof. unfold rdot. f_equal. revert b. induction a as [|x a IH]; intros [|y b]; cbn; auto. f_equal; [ring | apply IH]. Qed.
Lemma rdot_sub_r a b c n : length a = n -> length b = n -> length c = n -> rdot c (rsub a b) = rdot c a - rdot c b.
Proof. intros. rewrite (rdot_comm c), (rdot_sub_l a b c n), (rdot_comm a), (rdot_comm b) by auto. reflexivity. Qed.
Lemma mat_vec_length M v : length (mat_vec M v) = length M.
Proof. apply map_length. Qed.
Lemma rdot_add_r a b c n : length a = n -> length b = n -> length c = n -> rdot c (radd a b) = rdot c a + rdot c b.
Proof.
  intros <-. revert b c. induction a as [|x a IH]; intros [|y b] [|z c] Hb Hc; try discriminate; [unfold rdot; cbn; ring |]. unfold rdot, radd in *. rewrite !rzip_cons, !rsum_cons, IH by (first [now injection Hb | now injection Hc]). ring.
Qed.
Lemma mat_vec_sub k M a b : cols k M -> length a = k -> length b = k -> mat_vec M (rsub a b) = rsub (mat_vec M a) (mat_vec M b).
Proof. intros C Ha Hb. unfold mat_vec, rsub at 2. induction C as [|r M Hr C IH]; [reflexivity |]. cbn [map rzip]. rewrite IH. f_equal. apply (rdot_sub_r _ _ _ k); auto. Qed.
Lemma split_sub (a b u : rvec) : length a = length b -> length u = length b -> rsub b u = radd (rsub a u) (rsub b a).
Proof.
  revert b u. unfold rsub, radd. induction a as [|p a IH]; intros [|r b] [|q u] H K; try discriminate; [reflexivity |]. cbn [rzip]. f_equal; [ring | apply IH; [now injection H | now injection K]].
Qed.
Lemma least_squares k P M u y : pseudo_inverse k P M -> cols k M -> length u = length M -> length y = k ->
  sq_dist (mat_vec M (mat_vec P u)) u <= sq_dist (mat_vec M y) u.
Proof.
  intros (LP & P1 & P2) C Hu Hy. set (x := mat_vec P u). assert (Lx : length x = k) by (unfold x; rewrite mat_vec_length; auto). set (w := rsub y x). assert (Lw : length w = k) by (apply rsub_len; auto).
  assert (O : rdot (rsub (mat_vec M x) u) (mat_vec M w) = 0).
  { rewrite (rdot_sub_l _ _ _ (length M)) by (rewrite ?mat_vec_length; auto). unfold x at 1. rewrite P2 by (rewrite ?mat_vec_length; auto). rewrite P1 by auto. ring. }
  unfold sq_dist. assert (E : rsub (mat_vec M y) u = radd (rsub (mat_vec M x) u) (mat_vec M w)).
  { unfold w. rewrite (mat_vec_sub k) by auto. apply split_sub; rewrite !mat_vec_length; auto. }
  assert (LR : length (rsub (mat_vec M x) u) = length M) by (apply rsub_len; rewrite ?mat_vec_length; auto).
  rewrite E. set (r := rsub (mat_vec M x) u) in *. set (z := mat_vec M w) in *. assert (Lz : length z = length M) by (apply mat_vec_length).
  assert (LS : length (radd r z) = length M) by (apply rzip_length; auto). rewrite (rdot_add_r r z (radd r z) (length M)) by auto. rewrite (rdot_comm (radd r z) r), (rdot_comm (radd r z) z).
  rewrite (rdot_add_r r z r (length M)), (rdot_add_r r z z (length M)) by auto. rewrite (rdot_comm z r), O. pose proof (rdot_pos z). lra.
Qed.
