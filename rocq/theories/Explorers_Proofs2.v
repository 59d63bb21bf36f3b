(** Proofs for C77: the probabilities of drawGibbs. *)
From Coq Require Import Reals Lra Lia.
From Verif Require Import Base Functions_Model Functions_Proofs LinearFA_Model LinearFA_Proofs LinearFA_Proofs3 Players_Model Players_Spec Players_Proofs3.
Local Open Scope R_scope.

Lemma exp_le a b : a <= b -> exp a <= exp b.
Proof. intros [H | ->]; [left; apply exp_increasing; exact H | right; reflexivity]. Qed.
Lemma rsum_bounds (f : R -> R) lo hi l : (forall v, In v l -> lo <= f v <= hi) -> INR (length l) * lo <= rsum (map f l) <= INR (length l) * hi.
Proof.
  induction l as [|x l IH]; intros H; [cbn; lra |]. cbn [map length]. rewrite rsum_cons, S_INR. pose proof (H x (or_introl eq_refl)). specialize (IH (fun v Hv => H v (or_intror Hv))). lra.
Qed.
Section Gibbs.
Variables (vals : vec) (T : R).
Hypothesis NE : vals <> [].
Hypothesis T0 : 0 < T.
Let m := vmax (map (fun v => v / T) vals).
Let y v := v / T + (20 - m).
Let ex v := exp (if Rlt_dec (y v) (-20) then -20 else y v).
Let S := rsum (map ex vals).
Lemma g_eq : gibbsProbs vals T = map (fun v => ex v / S) vals.
Proof. unfold gibbsProbs. rewrite !map_map. reflexivity. Qed.
Lemma g_length : length (gibbsProbs vals T) = length vals.
Proof. rewrite g_eq, map_length. reflexivity. Qed.
Lemma g_max : exists v, In v vals /\ v / T = m /\ forall w, In w vals -> w <= v.
Proof.
  assert (NE' : map (fun v => v / T) vals <> []) by (destruct vals; [contradiction | discriminate]).
  destruct (vmax_spec _ NE') as [I M]. apply in_map_iff in I as (v & E & Hv). exists v. split; [exact Hv |]. split; [exact E |].
  intros w Hw. assert (L : w / T <= v / T) by (rewrite E; apply M; apply (in_map (fun v => v / T)), Hw). apply Rmult_le_reg_r with (/ T); [apply Rinv_0_lt_compat; exact T0 | exact L].
Qed.
Lemma y_le v : In v vals -> y v <= 20.
Proof.
  intros H. destruct g_max as (w & Hw & E & M). unfold y. rewrite <- E. assert (v / T <= w / T) by (apply Rmult_le_compat_r; [left; apply Rinv_0_lt_compat; exact T0 | apply M, H]). lra.
Qed.
Lemma ex_bounds v : In v vals -> exp (-20) <= ex v <= exp 20.
Proof. intros H. pose proof (y_le v H). unfold ex. destruct (Rlt_dec (y v) (-20)); split; apply exp_le; lra. Qed.
Lemma ex_top v : In v vals -> (forall w, In w vals -> w <= v) -> ex v = exp 20.
Proof.
  intros H M. destruct g_max as (w & Hw & E & Mw). assert (v = w) by (apply Rle_antisym; [apply Mw, H | apply M, Hw]). subst w. unfold ex, y. rewrite E. destruct (Rlt_dec _ _); [lra |]. f_equal. lra.
Qed.
Lemma n_pos : 0 < INR (length vals).
Proof. apply lt_0_INR. destruct vals; [contradiction | cbn; lia]. Qed.
Lemma S_bounds : exp 20 <= S <= INR (length vals) * exp 20.
Proof.
  split; [| apply (rsum_bounds ex (exp (-20)) (exp 20) vals ex_bounds)].
  destruct g_max as (v & Hv & _ & M). pose proof (ex_top v Hv M) as E. unfold S. rewrite <- E. clear E M.
  assert (P : forall w, 0 <= ex w) by (intros w; left; apply exp_pos). revert Hv P. generalize ex. clear. intros f Hv P. induction vals as [|x l IH]; [destruct Hv |]. cbn [map]. rewrite rsum_cons. assert (0 <= rsum (map f l)) by (apply rsum_pos, Forall_forall; intros z Hz; apply in_map_iff in Hz as (w & <- & _); apply P).
  destruct Hv as [-> | Hv]; [lra |]. specialize (IH Hv). pose proof (P x). lra.
Qed.
Lemma S_pos : 0 < S.
Proof. pose proof S_bounds. pose proof (exp_pos 20). lra. Qed.
Lemma g_sum : rsum (gibbsProbs vals T) = 1.
Proof.
  pose proof S_pos. rewrite g_eq. replace (map (fun v => ex v / S) vals) with (map (fun x => x / S) (map ex vals)) by apply map_map.
  rewrite rsum_map_div. unfold S in *. field. lra.
Qed.
Lemma g_nth k : (k < length vals)%nat -> nth k (gibbsProbs vals T) 0 = ex (nth k vals 0) / S.
Proof.
  intros H. rewrite g_eq. rewrite nth_indep with (d' := (fun v => ex v / S) 0) by (rewrite map_length; exact H). exact (map_nth (fun v => ex v / S) vals 0 k).
Qed.
Lemma g_least k : (k < length vals)%nat -> exp (-40) / INR (length vals) <= nth k (gibbsProbs vals T) 0.
Proof.
  intros H. rewrite g_nth by exact H. pose proof n_pos as N. pose proof S_pos as P. destruct S_bounds as [_ B]. destruct (ex_bounds (nth k vals 0) (nth_In _ _ H)) as [L _].
  replace (exp (-40)) with (exp (-20) * / exp 20) by (rewrite <- exp_Ropp, <- exp_plus; f_equal; lra). pose proof (exp_pos 20) as E. pose proof (exp_pos (-20)) as E'.
  apply Rmult_le_reg_r with S; [exact P |]. unfold Rdiv at 2. rewrite Rmult_assoc, Rinv_l, Rmult_1_r by lra.
  apply Rle_trans with (exp (-20) * / exp 20 / INR (length vals) * (INR (length vals) * exp 20)).
  - apply Rmult_le_compat_l; [| exact B]. apply Rlt_le. apply Rdiv_lt_0_compat; [| exact N]. apply Rmult_lt_0_compat; [exact E' | apply Rinv_0_lt_compat, E].
  - replace (exp (-20) * / exp 20 / INR (length vals) * (INR (length vals) * exp 20)) with (exp (-20)) by (field; lra). exact L.
Qed.
(** values close together compared with T: nearly equal chances *)
Lemma g_even d k : (k < length vals)%nat -> (forall v w, In v vals -> In w vals -> v - w <= d * T) ->
  exp (- d) / INR (length vals) <= nth k (gibbsProbs vals T) 0 <= exp d / INR (length vals).
Proof.
  intros H D. rewrite g_nth by exact H. pose proof n_pos as N. pose proof S_pos as P. destruct S_bounds as [_ B].
  assert (EB : forall v, In v vals -> exp (20 - d) <= ex v <= exp 20).
  { intros v Hv. split; [| apply ex_bounds, Hv]. destruct g_max as (w & Hw & E & _). pose proof (D w v Hw Hv) as Dv.
    assert (20 - d <= y v). { unfold y. rewrite <- E. assert ((w - v) / T <= d) by (apply Rmult_le_reg_r with T; [exact T0 |]; unfold Rdiv; rewrite Rmult_assoc, Rinv_l, Rmult_1_r by lra; exact Dv). unfold Rdiv in *. lra. }
    unfold ex. destruct (Rlt_dec (y v) (-20)); apply exp_le; lra. }
  destruct (rsum_bounds ex _ _ vals EB) as [SL SU]. fold S in SL, SU. destruct (EB _ (nth_In vals 0 H)) as [KL KU].
  pose proof (exp_pos 20) as E20. pose proof (exp_pos d) as Ed. assert (Em : exp (20 - d) = exp 20 * / exp d) by (unfold Rminus; rewrite exp_plus, exp_Ropp; reflexivity). rewrite Em in *. rewrite exp_Ropp.
  split; (apply Rmult_le_reg_r with S; [exact P |]).
  - replace (ex (nth k vals 0) / S * S) with (ex (nth k vals 0)) by (field; lra). apply Rle_trans with (/ exp d / INR (length vals) * (INR (length vals) * exp 20)).
    + apply Rmult_le_compat_l; [| exact SU]. left. apply Rdiv_lt_0_compat; [apply Rinv_0_lt_compat; exact Ed | exact N].
    + replace (/ exp d / INR (length vals) * (INR (length vals) * exp 20)) with (exp 20 * / exp d) by (field; lra). exact KL.
  - replace (ex (nth k vals 0) / S * S) with (ex (nth k vals 0)) by (field; lra). apply Rle_trans with (exp d / INR (length vals) * (INR (length vals) * (exp 20 * / exp d))).
    + replace (exp d / INR (length vals) * (INR (length vals) * (exp 20 * / exp d))) with (exp 20) by (field; lra). exact KU.
    + apply Rmult_le_compat_l; [| exact SL]. left. apply Rdiv_lt_0_compat; [exact Ed | exact N].
Qed.
(** within 40 temperatures of the greatest: the Gibbs ratio *)
Lemma g_ratio k j : (k < length vals)%nat -> (j < length vals)%nat -> (forall w, In w vals -> w - 40 * T <= nth k vals 0 /\ w - 40 * T <= nth j vals 0) ->
  nth k (gibbsProbs vals T) 0 = nth j (gibbsProbs vals T) 0 * exp ((nth k vals 0 - nth j vals 0) / T).
Proof.
  intros Hk Hj D. rewrite !g_nth by assumption. pose proof S_pos as P. destruct g_max as (w & Hw & E & _). destruct (D w Hw) as [D1 D2].
  assert (X : forall v, w - 40 * T <= v -> ex v = exp (y v)).
  { intros v Hv. unfold ex. destruct (Rlt_dec (y v) (-20)) as [L|]; [| reflexivity]. exfalso. unfold y in L. rewrite <- E in L.
    assert ((w - v) / T <= 40) by (apply Rmult_le_reg_r with T; [exact T0 |]; unfold Rdiv; rewrite Rmult_assoc, Rinv_l, Rmult_1_r by lra; lra). unfold Rdiv in *. lra. }
  rewrite (X _ D1), (X _ D2). replace (y (nth k vals 0)) with (y (nth j vals 0) + (nth k vals 0 - nth j vals 0) / T) by (unfold y, Rdiv; ring). rewrite exp_plus. field. lra.
Qed.
(** more than 40 temperatures below the greatest: exp(-40) times its probability *)
Lemma g_far k j : (k < length vals)%nat -> (j < length vals)%nat -> (forall w, In w vals -> w <= nth j vals 0) -> nth k vals 0 <= nth j vals 0 - 40 * T ->
  nth k (gibbsProbs vals T) 0 = exp (-40) * nth j (gibbsProbs vals T) 0.
Proof.
  intros Hk Hj M D. rewrite !g_nth by assumption. pose proof S_pos as P. rewrite (ex_top _ (nth_In _ _ Hj) M). destruct g_max as (w & Hw & E & Mw).
  assert (W : nth j vals 0 = w) by (apply Rle_antisym; [apply Mw, nth_In, Hj | apply M, Hw]).
  assert (Y : y (nth k vals 0) <= -20).
  { unfold y. rewrite <- E. assert (40 <= (w - nth k vals 0) / T) by (apply Rmult_le_reg_r with T; [exact T0 |]; unfold Rdiv; rewrite Rmult_assoc, Rinv_l, Rmult_1_r by lra; lra). unfold Rdiv in *. lra. }
  assert (X : ex (nth k vals 0) = exp (-20)) by (unfold ex; destruct (Rlt_dec _ _); f_equal; lra). rewrite X. replace (-20) with (-40 + 20) by lra. rewrite exp_plus. field. lra.
Qed.
Lemma g_draw r i : 0 <= r < 1 -> exists k, drawGibbs vals T r i = Ok k /\ picks (gibbsProbs vals T) r k.
Proof.
  intros H. destruct (draw_picks (gibbsProbs vals T) r i g_sum H) as (k & E & K). exists k. split; [| exact K]. unfold drawGibbs. destruct vals; [contradiction |]. destruct (Req_EM_T T 0); [lra | exact E].
Qed.
End Gibbs.
