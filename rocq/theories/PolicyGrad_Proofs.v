(** Lemmas for C67: densities. *)
From Coq Require Import Reals Lra.
From Verif Require Import Base Functions_Model Functions_Proofs FiniteDiff_Proofs PolicyGrad_Model PolicyGrad_Spec.
Local Open Scope R_scope.

Lemma expln_pos x : 0 < expln x.
Proof. unfold expln. destruct (Rlt_dec x 0); [apply exp_pos |]. assert (0 <= ln (x + 1)); [| lra]. destruct (Req_dec x 0) as [-> | N]; [rewrite Rplus_0_l, ln_1; lra |]. rewrite <- ln_1. left. apply ln_increasing; lra. Qed.
Lemma dlim_eq (f : R -> R) x a b : derivable_pt_lim f x a -> a = b -> derivable_pt_lim f x b.
Proof. intros H <-. exact H. Qed.
Lemma dlim_near (f g : R -> R) x l (d : R) : 0 < d -> (forall y, Rabs (y - x) < d -> f y = g y) -> derivable_pt_lim f x l -> derivable_pt_lim g x l.
Proof.
  intros Hd E H e He. destruct (H e He) as [[d1 P1] K]. assert (P : 0 < Rmin d1 d) by (apply Rmin_pos; auto). exists (mkposreal _ P). intros h Nh Hh. cbn in Hh.
  rewrite <- (E (x + h)), <- (E x).
  - apply K; auto. cbn. eapply Rlt_le_trans; [exact Hh | apply Rmin_l].
  - replace (x - x) with 0 by ring. rewrite Rabs_R0. auto.
  - replace (x + h - x) with h by ring. eapply Rlt_le_trans; [exact Hh | apply Rmin_r].
Qed.
Lemma ln1_deriv x : 0 <= x -> derivable_pt_lim (fun y => ln (y + 1) + 1) x (1 / (x + 1)).
Proof.
  intros Hx. eapply dlim_eq.
  - apply (derivable_pt_lim_plus (fun y => ln (y + 1)) (fun _ => 1)); [| apply derivable_pt_lim_const].
    apply (derivable_pt_lim_comp (fun y => y + 1) ln); [apply (derivable_pt_lim_plus id (fun _ => 1)); [apply derivable_pt_lim_id | apply derivable_pt_lim_const] | apply derivable_pt_lim_ln; lra].
  - field. lra.
Qed.
Lemma expln_deriv x : derivable_pt_lim expln x (explnPrime x).
Proof.
  destruct (total_order_T x 0) as [[N | Z] | P].
  - unfold explnPrime. destruct (Rlt_dec x 0); [| lra]. apply (dlim_near exp expln x _ (- x)); [lra | | apply derivable_pt_lim_exp]. intros y Hy. unfold expln. destruct (Rlt_dec y 0); [auto |]. apply Rabs_def2 in Hy. lra.
  - subst x. unfold explnPrime. destruct (Rlt_dec 0 0); [lra |]. replace (1 / (0 + 1)) with 1 by field.
    intros e He. assert (D1 : derivable_pt_lim exp 0 1) by (pose proof (derivable_pt_lim_exp 0) as D; rewrite exp_0 in D; exact D).
    assert (D2 : derivable_pt_lim (fun y => ln (y + 1) + 1) 0 1) by (eapply dlim_eq; [apply ln1_deriv; lra | field]).
    destruct (D1 e He) as [[d1 P1] K1]. destruct (D2 e He) as [[d2 P2] K2]. assert (P : 0 < Rmin d1 d2) by (apply Rmin_pos; auto). exists (mkposreal _ P). intros h Nh Hh. cbn in Hh.
    assert (E0 : expln 0 = 1) by (unfold expln; destruct (Rlt_dec 0 0); [lra |]; rewrite Rplus_0_l, ln_1; ring). rewrite E0. rewrite Rplus_0_l. unfold expln. destruct (Rlt_dec h 0).
    + specialize (K1 h Nh). rewrite Rplus_0_l, exp_0 in K1. apply K1. cbn. eapply Rlt_le_trans; [exact Hh | apply Rmin_l].
    + specialize (K2 h Nh). rewrite !Rplus_0_l, ln_1, Rplus_0_l in K2. apply K2. cbn. eapply Rlt_le_trans; [exact Hh | apply Rmin_r].
  - unfold explnPrime. destruct (Rlt_dec x 0); [lra |]. apply (dlim_near (fun y => ln (y + 1) + 1) expln x _ x); [lra | | apply ln1_deriv; lra]. intros y Hy. unfold expln. destruct (Rlt_dec y 0); [| auto]. apply Rabs_def2 in Hy. lra.
Qed.
Lemma expln_increasing x y : x < y -> expln x < expln y.
Proof.
  intros H. unfold expln. destruct (Rlt_dec x 0), (Rlt_dec y 0).
  - apply exp_increasing; auto.
  - assert (exp x < 1) by (rewrite <- exp_0; apply exp_increasing; auto). assert (0 <= ln (y + 1)); [| lra]. destruct (Req_dec y 0) as [-> | N]; [rewrite Rplus_0_l, ln_1; lra |]. rewrite <- ln_1. left. apply ln_increasing; lra.
  - lra.
  - apply Rplus_lt_compat_r, ln_increasing; lra.
Qed.

Lemma loglik_mean_deriv s m y : s <> 0 -> derivable_pt_lim (fun t => normal_loglik s t y) m ((y - m) / (s * s)).
Proof.
  intros Hs. unfold normal_loglik. eapply dlim_eq.
  - apply (derivable_pt_lim_minus (fun _ => - ln (sqrt (2 * PI) * s)) (fun t => (y - t) ^ 2 / (2 * s ^ 2))); [apply derivable_pt_lim_const |].
    apply (derivable_pt_lim_mult (fun t => (y - t) ^ 2) (fun _ => / (2 * s ^ 2))); [| apply derivable_pt_lim_const].
    apply (derivable_pt_lim_comp (fun t => y - t) (fun u => u ^ 2)); [apply (derivable_pt_lim_minus (fun _ => y) id); [apply derivable_pt_lim_const | apply derivable_pt_lim_id] | apply derivable_pt_lim_pow].
  - cbn [pred INR pow]. field. auto.
Qed.
Lemma loglik_dev_deriv s m y : 0 < s -> derivable_pt_lim (fun s => normal_loglik s m y) s (((y - m) * (y - m) - s * s) / (s * s * s)).
Proof.
  intros Hs. assert (P2 : 0 < sqrt (2 * PI)) by (apply sqrt_lt_R0; pose proof PI_RGT_0; lra). unfold normal_loglik. eapply dlim_eq.
  - apply (derivable_pt_lim_minus (fun s => - ln (sqrt (2 * PI) * s)) (fun s => (y - m) ^ 2 / (2 * s ^ 2))).
    + apply (derivable_pt_lim_opp (fun s => ln (sqrt (2 * PI) * s))). apply (derivable_pt_lim_comp (fun s => sqrt (2 * PI) * s) ln).
      * apply (derivable_pt_lim_scal id). apply derivable_pt_lim_id.
      * apply derivable_pt_lim_ln. apply Rmult_lt_0_compat; auto.
    + apply (derivable_pt_lim_scal (fun s => / (2 * s ^ 2))). apply (derivable_pt_lim_comp (fun s => 2 * s ^ 2) Rinv).
      * apply (derivable_pt_lim_scal (fun s => s ^ 2)). apply derivable_pt_lim_pow.
      * apply (dlim_near (fun x => 1 / x) Rinv _ (- 1 / ((2 * s ^ 2) * (2 * s ^ 2))) 1); [lra | intros; unfold Rdiv; ring |].
        eapply dlim_eq; [apply (derivable_pt_lim_div (fun _ => 1) id); [apply derivable_pt_lim_const | apply derivable_pt_lim_id |] |].
        -- unfold id. assert (0 < s ^ 2) by (apply pow_lt; auto). lra.
        -- unfold id, Rsqr. assert (0 < s ^ 2) by (apply pow_lt; auto). field. lra.
  - cbn [pred INR pow]. field. lra.
Qed.
Lemma dsum {A} (l : list A) (f : A -> R -> R) (d : A -> R) x : (forall a, In a l -> derivable_pt_lim (f a) x (d a)) ->
  derivable_pt_lim (fun t => rsum (map (fun a => f a t) l)) x (rsum (map d l)).
Proof.
  induction l as [|a l IH]; intros H; cbn [map]; [apply (derivable_pt_lim_const 0) |]. 
  apply (derivable_pt_lim_plus (fun t => f a t) (fun t => rsum (map (fun a => f a t) l))); [apply H; left; auto | apply IH; intros; apply H; right; auto].
Qed.
Lemma rsum_pick n i c : (i < n)%nat -> rsum (map (fun j => if (j =? i)%nat then c else 0) (seq 0 n)) = c.
Proof.
  intros Hi. replace (seq 0 n) with (seq 0 i ++ i :: seq (S i) (n - S i)) by (change (i :: seq (S i) (n - S i)) with (seq (0 + i) (S (n - S i))); rewrite <- seq_app; f_equal; lia).
  rewrite map_app. cbn [map]. rewrite Nat.eqb_refl. assert (Z : forall l, (forall j, In j l -> j <> i) -> rsum (map (fun j => if (j =? i)%nat then c else 0) l) = 0).
  { induction l as [|j l IH]; intros H; cbn [map]; [reflexivity |]. rewrite rsum_cons, IH by (intros; apply H; right; auto). destruct (Nat.eqb_spec j i) as [E | E]; [destruct (H j (or_introl eq_refl) E) | ring]. }
  assert (AP : forall a b, rsum (a ++ b) = rsum a + rsum b) by (induction a as [|x a IH]; intros; cbn [app]; [cbn; ring | rewrite !rsum_cons, IH; ring]).
  rewrite AP, rsum_cons, !Z; [ring | |]; intros j Hj; apply in_seq in Hj; lia.
Qed.
Lemma nth_upd_same {A} (d : A) i x l : (i < length l)%nat -> nth i (upd i x l) d = x.
Proof. revert i; induction l as [|h l IH]; intros [|i] H; cbn in *; try lia; auto. apply IH. lia. Qed.
Lemma nth_upd_other {A} (d : A) i j x l : j <> i -> nth j (upd i x l) d = nth j l d.
Proof. revert i j; induction l as [|h l IH]; intros [|i] [|j] H; cbn; auto; try congruence. Qed.

(** the score in the mean, and in the parameter behind the deviation *)
Lemma loglik_mean_partial s m y i : (i < length y)%nat -> length m = length y -> nth i s 0 <> 0 ->
  partial (fun m => loglik s m y) m i ((nth i y 0 - nth i m 0) / (nth i s 0 * nth i s 0)).
Proof.
  intros Hi Hm Hs. unfold partial, loglik. eapply dlim_eq; [apply (dsum (seq 0 (length y)) (fun j t => normal_loglik (nth j s 0) (nth j (upd i t m) 0) (nth j y 0)) (fun j => if (j =? i)%nat then (nth i y 0 - nth i m 0) / (nth i s 0 * nth i s 0) else 0)) | apply rsum_pick; auto].
  intros j _. destruct (Nat.eqb_spec j i) as [-> | N].
  - apply (dlim_near (fun t => normal_loglik (nth i s 0) t (nth i y 0)) _ _ _ 1); [lra | | apply loglik_mean_deriv; auto]. intros t _. rewrite nth_upd_same by lia. reflexivity.
  - apply (dlim_near (fun t => normal_loglik (nth j s 0) (nth j m 0) (nth j y 0)) _ _ _ 1); [lra | | apply derivable_pt_lim_const]. intros t _. rewrite nth_upd_other by auto. reflexivity.
Qed.
Lemma loglik_sigma_partial p m y i : (i < length y)%nat -> length p = length y -> let s := expln (nth i p 0) in
  partial (fun p => loglik (map expln p) m y) p i (((nth i y 0 - nth i m 0) * (nth i y 0 - nth i m 0) - s * s) / (s * s * s) * explnPrime (nth i p 0)).
Proof.
  intros Hi Hp s. unfold partial, loglik. eapply dlim_eq; [apply (dsum (seq 0 (length y)) (fun j t => normal_loglik (nth j (map expln (upd i t p)) 0) (nth j m 0) (nth j y 0)) (fun j => if (j =? i)%nat then ((nth i y 0 - nth i m 0) * (nth i y 0 - nth i m 0) - s * s) / (s * s * s) * explnPrime (nth i p 0) else 0)) | apply rsum_pick; auto].
  intros j Hj. apply in_seq in Hj. destruct (Nat.eqb_spec j i) as [-> | N].
  - apply (dlim_near (fun t => normal_loglik (expln t) (nth i m 0) (nth i y 0)) _ _ _ 1); [lra | |].
    + intros t _. rewrite nth_map0 by (rewrite upd_length; lia). rewrite nth_upd_same by lia. reflexivity.
    + apply (derivable_pt_lim_comp expln (fun s => normal_loglik s (nth i m 0) (nth i y 0))); [apply expln_deriv | apply loglik_dev_deriv, expln_pos].
  - apply (dlim_near (fun t => normal_loglik (nth j (map expln p) 0) (nth j m 0) (nth j y 0)) _ _ _ 1); [lra | | apply derivable_pt_lim_const]. intros t _. rewrite !nth_map0 by (rewrite ?upd_length; lia). rewrite nth_upd_other by auto. reflexivity.
Qed.
Lemma sigma_term_len p y m n : length p = n -> length y = n -> length m = n -> length (sigma_term p y m) = n.
Proof. intros. unfold sigma_term, rmul, rdiv, rsub, vsq. repeat (apply rzip_length || (rewrite map_length)); auto. Qed.
Lemma nth_sigma_term p y m n i : length p = n -> length y = n -> length m = n -> (i < n)%nat -> let s := expln (nth i p 0) in let d := nth i y 0 - nth i m 0 in
  nth i (sigma_term p y m) 0 = (d * d - s * s) / s * explnPrime (nth i p 0).
Proof.
  intros Hp Hy Hm Hi s d. unfold sigma_term, rmul, rdiv, rsub, vsq. 
  assert (L1 : length (rzip Rminus y m) = n) by (apply rzip_length; auto).
  rewrite (nth_rzip _ _ _ _ 0 0); [| rewrite (rzip_length _ _ _ n); auto; try (apply rzip_length); rewrite ?map_length; auto | rewrite map_length; lia].
  rewrite (nth_rzip _ _ _ _ 0 0); [| rewrite (rzip_length _ _ _ n); rewrite ?map_length; auto | rewrite map_length; lia].
  rewrite (nth_rzip _ _ _ _ 0 0) by (rewrite !map_length; lia). rewrite !nth_map0 by (rewrite ?map_length; lia). rewrite (nth_rzip _ _ _ _ 0 0) by lia. reflexivity.
Qed.
