(** Sums, squares and products of lists of reals. *)
From Coq Require Import Reals Lra Psatz.
From Verif Require Import Base Functions_Model Functions_Spec.
Local Open Scope R_scope.

Lemma sq_pos a : 0 <= a ^ 2.
Proof. rewrite <- Rsqr_pow2. apply Rle_0_sqr. Qed.
Lemma sq_zero a : a ^ 2 = 0 -> a = 0.
Proof. rewrite <- Rsqr_pow2. apply Rsqr_0_uniq. Qed.
Lemma two_zero a b : 0 <= a -> 0 <= b -> a + b = 0 -> a = 0 /\ b = 0.
Proof. intros. split; lra. Qed.

Lemma rsum_cons a l : rsum (a :: l) = a + rsum l.
Proof. reflexivity. Qed.
Lemma rsum_pos l : Forall (fun a => 0 <= a) l -> 0 <= rsum l.
Proof. induction 1; rewrite ?rsum_cons; [cbn; lra|lra]. Qed.
Lemma rsum_zero l : Forall (fun a => 0 <= a) l -> rsum l = 0 -> Forall (fun a => a = 0) l.
Proof.
  induction 1 as [|a l Ha Hl IH]; intro H; [constructor|]. rewrite rsum_cons in H. pose proof (rsum_pos l Hl) as Hp.
  constructor; [lra|apply IH; lra].
Qed.
Lemma rsum_zeros l : Forall (fun a => a = 0) l -> rsum l = 0.
Proof. induction 1 as [|a l Ha Hl IH]; [reflexivity|]. rewrite rsum_cons. lra. Qed.
Lemma all_zero l : Forall (fun a => a = 0) l -> l = repeat 0 (length l).
Proof. induction 1 as [|a l Ha Hl IH]; cbn; congruence. Qed.

Lemma rdot_sq x : rdot x x = rsum (map (fun a => a ^ 2) x).
Proof. unfold rdot. induction x as [|a x IH]; cbn; [reflexivity|]. unfold rsum in *. cbn in *. rewrite IH. ring. Qed.
Lemma squares_pos x : Forall (fun a => 0 <= a) (map (fun a => a ^ 2) x).
Proof. induction x; constructor; auto. apply sq_pos. Qed.
Lemma rdot_pos x : 0 <= rdot x x.
Proof. rewrite rdot_sq. apply rsum_pos, squares_pos. Qed.
Lemma rdot_zero x : rdot x x = 0 -> x = repeat 0 (length x).
Proof.
  rewrite rdot_sq. intro H. apply (rsum_zero _ (squares_pos x)) in H. apply all_zero. apply Forall_map in H.
  eapply Forall_impl; [|exact H]. cbv beta. apply sq_zero.
Qed.
Lemma rdot_zeros n : rdot (repeat 0 n) (repeat 0 n) = 0.
Proof. unfold rdot. induction n as [|n IH]; cbn; [reflexivity|]. unfold rsum in *. cbn. lra. Qed.
Lemma tl_zeros n : tl (repeat 0 n) = repeat 0 (n - 1).
Proof. destruct n as [|n]; cbn; auto. rewrite Nat.sub_0_r. reflexivity. Qed.
Lemma hd_zeros n : hd 0 (repeat 0 n) = 0.
Proof. destruct n; reflexivity. Qed.
Lemma repeat_of x n : length x = n -> hd 0 x = 0 -> tl x = repeat 0 (length (tl x)) -> x = repeat 0 n.
Proof. intros H H1 H2. destruct x as [|a x]; cbn in *; subst; [reflexivity|]. cbn. f_equal. rewrite H2 at 1. reflexivity. Qed.

(** entries by index *)
Lemma rdot_weights (w x : list R) : Forall (fun a => 0 < a) w -> length w = length x -> 0 <= rdot (rzip Rmult w x) x /\ (rdot (rzip Rmult w x) x = 0 -> x = repeat 0 (length x)).
Proof.
  revert x. induction w as [|a w IH]; intros [|b x] Hw Hl; cbn in Hl; try discriminate; [cbn; split; [unfold rdot; cbn; lra|auto]|].
  inversion Hw as [|? ? Ha Hw']; subst. destruct (IH x Hw' ltac:(lia)) as [A B]. cbn [rzip length repeat].
  assert (E : rdot (a * b :: rzip Rmult w x) (b :: x) = a * b ^ 2 + rdot (rzip Rmult w x) x) by (unfold rdot, rsum; cbn; ring). rewrite E.
  pose proof (sq_pos b) as Hb. assert (0 <= a * b ^ 2) by (apply Rmult_le_pos; lra). split; [lra|].
  intro H0. destruct (two_zero _ _ H A H0) as [E1 E2]. apply Rmult_integral in E1. destruct E1 as [E1|E1]; [lra|]. rewrite (sq_zero _ E1). f_equal. auto.
Qed.

Lemma imap_as (f : nat -> R -> R) x : imap f x = map (fun i => f i (nth i x 0)) (seq 0 (length x)).
Proof.
  unfold imap. enough (G : forall x k, map (fun p => f (fst p) (snd p)) (combine (seq k (length x)) x) = map (fun i => f i (nth (i - k) x 0)) (seq k (length x))).
  { rewrite G. apply map_ext_in. intros i _. rewrite Nat.sub_0_r. reflexivity. }
  clear x. induction x as [|a x IH]; intro k; cbn; [reflexivity|]. rewrite Nat.sub_diag. f_equal. rewrite IH. apply map_ext_in. intros i Hi. apply in_seq in Hi.
  replace (i - k)%nat with (S (i - S k)) by lia. reflexivity.
Qed.
Lemma imap_len f x : length (imap f x) = length x.
Proof. rewrite imap_as, map_length, seq_length. reflexivity. Qed.
Lemma imap_pos f x : (forall i a, 0 <= f i a) -> Forall (fun a => 0 <= a) (imap f x).
Proof. intro H. rewrite imap_as. apply Forall_forall. intros y Hy. apply in_map_iff in Hy. destruct Hy as (i & <- & _). apply H. Qed.
Lemma imap_zero f x : (forall i, f i 0 = 0) -> Forall (fun a => a = 0) x -> Forall (fun a => a = 0) (imap f x).
Proof.
  intros H Hx. rewrite imap_as. apply Forall_forall. intros y Hy. apply in_map_iff in Hy. destruct Hy as (i & <- & Hi). apply in_seq in Hi.
  rewrite (Forall_forall) in Hx. rewrite (Hx (nth i x 0)) by (apply nth_In; lia). apply H.
Qed.
Lemma imap_zero_inv f x : (forall i a, f i a = 0 -> a = 0) -> Forall (fun a => a = 0) (imap f x) -> x = repeat 0 (length x).
Proof.
  intros H Hx. apply all_zero. rewrite imap_as in Hx. rewrite Forall_forall in *. intros a Ha. apply In_nth with (d := 0) in Ha. destruct Ha as (i & Hi & <-).
  apply (H i). apply Hx. apply in_map_iff. exists i. split; [reflexivity|apply in_seq; lia].
Qed.
Lemma Forall_repeat {A} (P : A -> Prop) a n : P a -> Forall P (repeat a n).
Proof. intro H. induction n; constructor; auto. Qed.

Lemma rpow_pos b e : 0 <= rpow b e.
Proof. unfold rpow. destruct (Rlt_dec 0 b); [unfold Rpower; pose proof (exp_pos (e * ln b)); lra|lra]. Qed.
Lemma rpow_zero b e : 0 <= b -> rpow b e = 0 -> b = 0.
Proof. unfold rpow. destruct (Rlt_dec 0 b); [unfold Rpower; pose proof (exp_pos (e * ln b)); lra|lra]. Qed.
Lemma rpow_0 e : rpow 0 e = 0.
Proof. unfold rpow. destruct (Rlt_dec 0 0); lra. Qed.

Lemma rsum_map_plus {A} (f g : A -> R) l : rsum (map (fun a => f a + g a) l) = rsum (map f l) + rsum (map g l).
Proof. unfold rsum. induction l as [|a l IH]; cbn; [lra|]. rewrite IH. ring. Qed.
Lemma rsum_const (c : R) {A} (l : list A) : rsum (map (fun _ => c) l) = c * INR (length l).
Proof. unfold rsum. induction l as [|a l IH]; [cbn; lra|]. cbn [map fold_right length]. rewrite IH, S_INR. ring. Qed.
Lemma rsum_scale (c : R) {A} (f : A -> R) l : rsum (map (fun a => c * f a) l) = c * rsum (map f l).
Proof. unfold rsum. induction l as [|a l IH]; cbn; [lra|]. rewrite IH. ring. Qed.
Lemma rsum_le {A} (f g : A -> R) l : (forall a, In a l -> f a <= g a) -> rsum (map f l) <= rsum (map g l).
Proof. unfold rsum. induction l as [|a l IH]; intro H; cbn; [lra|]. specialize (H a (or_introl eq_refl)) as Ha. specialize (IH ltac:(intros; apply H; right; auto)). lra. Qed.

Lemma cos_le a : cos a <= 1.
Proof. apply COS_bound. Qed.
Lemma cos_ge a : -1 <= cos a.
Proof. apply COS_bound. Qed.
