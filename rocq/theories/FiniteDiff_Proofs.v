(** Proofs about the finite-difference searches. *)
From Coq Require Import Reals Lra.
From Verif Require Import Base Functions_Model FiniteDiff_Model FiniteDiff_Spec.
Local Open Scope R_scope.

Lemma rzip_length f (a b : vec) n : length a = n -> length b = n -> length (rzip f a b) = n.
Proof. revert b n. induction a as [|x a IH]; intros [|y b] n; cbn; intros; subst; try lia. f_equal. apply IH; lia. Qed.
Lemma nth_rzip f (a b : vec) k d e z : (k < length a)%nat -> (k < length b)%nat -> nth k (rzip f a b) z = f (nth k a d) (nth k b e).
Proof.
  revert b k. induction a as [|x a IH]; intros [|y b] [|k]; cbn; intros; try lia; auto. apply IH; lia.
Qed.
Lemma nth_map0 (f : R -> R) (a : vec) k z : (k < length a)%nat -> nth k (map f a) z = f (nth k a 0).
Proof. revert k. induction a as [|x a IH]; intros [|k]; cbn; intros; try lia; auto. apply IH; lia. Qed.
Lemma along_length x k d n : length x = n -> length d = n -> length (along x k d) = n.
Proof. intros. unfold along. rewrite map_length, combine_length. lia. Qed.
Lemma nth_along x k d i : (i < length x)%nat -> (i < length d)%nat -> nth i (along x k d) 0 = nth i x 0 + k * nth i d 0.
Proof.
  revert d i. induction x as [|a x IH]; intros [|b d] [|i]; cbn; intros; try lia; auto. apply IH; lia.
Qed.
Lemma vec_eq (a b : vec) n : length a = n -> length b = n -> (forall k, (k < n)%nat -> nth k a 0 = nth k b 0) -> a = b.
Proof. intros Ha Hb H. apply nth_ext with (d := 0) (d' := 0); [lia|]. intros k Hk. apply H. lia. Qed.

(** ** the best evaluation *)
Lemma upd_best_dir (mi : bool) best r : (if mi then upd_best mi best r <= r else r <= upd_best mi best r).
Proof. destruct best as [b|]; destruct mi; cbn; try lra; destruct (Rle_dec _ _); lra. Qed.
Lemma upd_best_mono (mi : bool) b r : (if mi then upd_best mi (Some b) r <= b else b <= upd_best mi (Some b) r).
Proof. destruct mi; cbn; destruct (Rle_dec _ _); lra. Qed.
Lemma best_two (mi : bool) b r1 r2 : let best := upd_best mi (Some (upd_best mi b r1)) r2 in
  if mi then best <= r1 /\ best <= r2 else r1 <= best /\ r2 <= best.
Proof.
  cbv zeta. pose proof (upd_best_dir mi b r1). pose proof (upd_best_dir mi (Some (upd_best mi b r1)) r2).
  pose proof (upd_best_mono mi (upd_best mi b r1) r2). destruct mi; lra.
Qed.

(** ** the normalised difference *)
Lemma fakt_ok (mi : bool) best r1 r2 : (if mi then best <= r1 /\ best <= r2 else r1 <= best /\ r2 <= best) ->
  exists x, fakt_of best r1 r2 = Ok x /\ Rabs x <= 1 /\ (better_than mi r1 r2 -> 0 < x) /\ (better_than mi r2 r1 -> x < 0) /\ (r1 = r2 -> x = 0).
Proof.
  intro H. unfold fakt_of. destruct (Req_EM_T r1 r2) as [E|E].
  - exists 0. subst. split; auto. rewrite Rabs_R0. split; [lra|]. unfold better_than. destruct mi; repeat split; lra.
  - destruct (Req_EM_T (2 * best - r1 - r2) 0) as [Z|Z]; [exfalso; destruct mi; lra|].
    exists ((r1 - r2) / (2 * best - r1 - r2)). split; auto. set (q := 2 * best - r1 - r2) in *.
    assert (Hq : (r1 - r2) / q * q = r1 - r2) by (field; auto). set (x := (r1 - r2) / q) in *.
    assert (Hb : Rabs x <= 1).
    { destruct mi; apply Rabs_le; split; apply Rnot_lt_le; intro; unfold q in *; nra. }
    split; auto. unfold better_than. destruct mi; unfold q in *; repeat split; intro; try (exfalso; lra); nra.
Qed.

(** ** gradient descent without momentum *)
Lemma gd_step decay al vals mv g n : length vals = n -> length mv = n -> length g = n ->
  exists s', gd_call 0 decay (mkgd vals mv al) g = Ok s' /\ gd_values s' = along vals al g /\ gd_alpha s' = al * decay /\ length (gd_mv s') = n.
Proof.
  intros Hv Hm Hg. unfold gd_call. cbn [gd_values gd_mv gd_alpha]. rewrite Hv, Hg, Nat.eqb_refl. cbn [negb]. eexists. split; [reflexivity|]. cbn.
  assert (Hl : length (rzip Rplus (map (fun m : R => m * 0) mv) (map (fun x : R => al * x) g)) = n) by (apply rzip_length; rewrite map_length; auto).
  split; [|auto]. apply vec_eq with (n := n).
  - apply rzip_length; auto. - apply along_length; auto.
  - intros k Hk. rewrite nth_along by lia. rewrite nth_rzip with (d := 0) (e := 0) by lia.
    rewrite nth_rzip with (d := 0) (e := 0) by (rewrite map_length; lia). rewrite !nth_map0 by lia. ring.
Qed.

(** ** the effect of an affine change of the fitness *)
Section Affine.
Context (mi mi' : bool) (a b : R).
Hypothesis Hdir : (0 < a /\ mi' = mi) \/ (a < 0 /\ mi' = negb mi).
Lemma upd_best_affine best r : upd_best mi' (option_map (fun x => a * x + b) best) (a * r + b) = a * upd_best mi best r + b.
Proof.
  destruct best as [c|]; cbn; auto.
  destruct Hdir as [[H ->]|[H ->]]; destruct mi; cbn; repeat (destruct (Rle_dec _ _)); auto; exfalso; nra.
Qed.
Lemma fakt_affine best r1 r2 : fakt_of (a * best + b) (a * r1 + b) (a * r2 + b) = fakt_of best r1 r2.
Proof.
  assert (Ha : a <> 0) by (destruct Hdir as [[? _]|[? _]]; lra).
  unfold fakt_of. destruct (Req_EM_T (a * r1 + b) (a * r2 + b)) as [E|E], (Req_EM_T r1 r2) as [E'|E']; auto.
  { exfalso. apply E'. apply Rmult_eq_reg_l with a; [lra|exact Ha]. }
  { exfalso. apply E. rewrite E'. reflexivity. }
  replace (2 * (a * best + b) - (a * r1 + b) - (a * r2 + b)) with (a * (2 * best - r1 - r2)) by ring.
  destruct (Req_EM_T (a * (2 * best - r1 - r2)) 0) as [Z|Z], (Req_EM_T (2 * best - r1 - r2) 0) as [Z'|Z']; auto.
  - exfalso. apply Rmult_integral in Z. tauto.
  - exfalso. apply Z. rewrite Z'. ring.
  - f_equal. field. auto.
Qed.
End Affine.
