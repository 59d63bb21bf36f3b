(** C62: which benchmark functions have their single minimum, zero, at xopt. *)
From Coq Require Import Reals Lra Psatz.
From Verif Require Import Base Functions_Model Functions_Spec Functions_Proofs.
Local Open Scope R_scope.
Notation zeros n := (repeat 0 n).
Notation ones n := (repeat 1 n).

Lemma single f n p : length p = n -> f p = 0 -> (forall x, length x = n -> 0 <= f x) -> (forall x, length x = n -> f x = 0 -> x = p) -> single_zero n f p.
Proof. intros A B C D. split; [split; [|split]|]; auto. Qed.

(** ** unimodal.py *)
Theorem C62_sphere n : single_zero n sphere (zeros n).
Proof.
  apply single; [apply repeat_length|apply rdot_zeros|intros; apply rdot_pos|]. intros x <- H. apply rdot_zero. exact H.
Qed.
Lemma head_tail n (f : list R -> R) (g h : R -> R) : (1 <= n)%nat ->
  (forall x, f x = g (hd 0 x) + h (rdot (tl x) (tl x))) -> (forall a, 0 <= g a) -> (forall a, g a = 0 -> a = 0) -> g 0 = 0 ->
  (forall a, 0 <= a -> 0 <= h a) -> (forall a, 0 <= a -> h a = 0 -> a = 0) -> h 0 = 0 -> single_zero n f (zeros n).
Proof.
  intros Hn E G1 G2 G0 H1 H2 H0. apply single; [apply repeat_length| | |].
  - rewrite E, hd_zeros, tl_zeros, rdot_zeros. lra.
  - intros x _. rewrite E. pose proof (G1 (hd 0 x)). pose proof (H1 _ (rdot_pos (tl x))). lra.
  - intros x Hl. rewrite E. intro H. pose proof (rdot_pos (tl x)) as Hp. destruct (two_zero _ _ (G1 (hd 0 x)) (H1 _ Hp) H) as [A B].
    apply repeat_of; auto. apply rdot_zero. auto.
Qed.
Theorem C62_cigar n : (1 <= n)%nat -> single_zero n cigar (zeros n).
Proof.
  intro Hn. apply (head_tail n cigar (fun a => a ^ 2) (fun b => 1000000 * b)); auto; try (intros; lra); try apply sq_pos; apply sq_zero.
Qed.
Theorem C62_tablet n : (1 <= n)%nat -> single_zero n tablet (zeros n).
Proof.
  intro Hn. apply (head_tail n tablet (fun a => 1000000 * a ^ 2) (fun b => b)); auto; try (intros; lra).
  - intro a. pose proof (sq_pos a). lra.
  - intros a H. apply sq_zero. lra.
Qed.
Theorem C62_sharpbis n : (1 <= n)%nat -> single_zero n sharpbis (zeros n).
Proof.
  intro Hn. apply (head_tail n sharpbis (fun a => a ^ 2) (fun b => 100 * sqrt b)); auto; try apply sq_pos; try apply sq_zero.
  - cbn. lra.
  - intros a Ha. pose proof (sqrt_pos a). lra.
  - intros a Ha H. apply sqrt_eq_0; auto. lra.
  - rewrite sqrt_0. lra.
Qed.
Lemma rdot_wzeros n : forall w, rdot (rzip Rmult w (zeros n)) (zeros n) = 0.
Proof.
  induction n as [|n IH]; intros [|b w]; try reflexivity. change (rdot (b * 0 :: rzip Rmult w (zeros n)) (0 :: zeros n) = 0).
  unfold rdot. cbn [rzip]. rewrite rsum_cons. specialize (IH w). unfold rdot in IH. rewrite IH. ring.
Qed.
Theorem C62_elli a n : single_zero n (elli a n) (zeros n).
Proof.
  assert (Hw : Forall (fun x => 0 < x) (elli_as a n)).
  { unfold elli_as. apply Forall_map, Forall_forall. intros i _. apply exp_pos. }
  assert (Hl : length (elli_as a n) = n) by (unfold elli_as; rewrite map_length, seq_length; reflexivity).
  apply single; [apply repeat_length| | |].
  - apply rdot_wzeros.
  - intros x Hx. apply rdot_weights; auto. congruence.
  - intros x Hx H. subst n. apply (rdot_weights (elli_as a (length x)) x); auto.
Qed.
Theorem C62_diffpow a n : single_zero n (diffpow a) (zeros n).
Proof.
  apply single; [apply repeat_length| | |].
  - apply rsum_zeros. apply imap_zero; [|apply Forall_repeat; auto]. intro i. rewrite Rabs_R0. apply rpow_0.
  - intros x _. apply rsum_pos. apply imap_pos. intros. apply rpow_pos.
  - intros x <- H. apply rsum_zero in H; [|apply imap_pos; intros; apply rpow_pos]. apply imap_zero_inv in H; auto.
    intros i b Hb. apply rpow_zero in Hb; [|apply Rabs_pos]. destruct (Req_dec b 0) as [|Hne]; auto. apply Rabs_no_R0 in Hne. contradiction.
Qed.

(** sums over neighbours *)
Definition adj (F : R -> R -> R) (x : list R) : list R := rzip F (removelast x) (tl x).
Lemma adj_cons F a b r : adj F (a :: b :: r) = F a b :: adj F (b :: r).
Proof. reflexivity. Qed.
Lemma adj_pos F x : (forall a b, 0 <= F a b) -> Forall (fun a => 0 <= a) (adj F x).
Proof.
  intro H. destruct x as [|a x]; [constructor|]. revert a. induction x as [|b x IH]; intro a; [constructor|]. rewrite adj_cons. constructor; auto.
Qed.
Lemma adj_const F p n : Forall (fun a => a = F p p) (adj F (repeat p n)).
Proof.
  destruct n as [|n]; [constructor|]. induction n as [|n IH]; [constructor|]. change (repeat p (S (S n))) with (p :: p :: repeat p n). rewrite adj_cons. constructor; auto.
Qed.
Lemma adj_point F p x : (2 <= length x)%nat -> (forall a b, F a b = 0 -> a = p /\ (a = p -> b = p)) -> Forall (fun a => a = 0) (adj F x) -> x = repeat p (length x).
Proof.
  intros Hl HF. destruct x as [|a [|b r]]; cbn in Hl; try lia. clear Hl. revert a b. induction r as [|c r IH]; intros a b H; rewrite adj_cons in H; inversion H as [|? ? H0 H1]; subst.
  - destruct (HF _ _ H0) as [A B]. cbn. rewrite (B A), A. reflexivity.
  - specialize (IH b c H1). destruct (HF _ _ H0) as [A B]. change (repeat p (length (a :: b :: c :: r))) with (p :: repeat p (length (b :: c :: r))). rewrite <- IH, A. reflexivity.
Qed.
Definition rosen (a b : R) : R := 100 * (a ^ 2 - b) ^ 2 + (a - 1) ^ 2.
Lemma rosen_pos a b : 0 <= rosen a b.
Proof. unfold rosen. pose proof (sq_pos (a ^ 2 - b)). pose proof (sq_pos (a - 1)). lra. Qed.
Lemma rosen_zero a b : rosen a b = 0 -> a = 1 /\ (a = 1 -> b = 1).
Proof.
  unfold rosen. intro H. pose proof (sq_pos (a ^ 2 - b)). pose proof (sq_pos (a - 1)). destruct (two_zero (100 * (a ^ 2 - b) ^ 2) ((a - 1) ^ 2)) as [A B]; try lra.
  apply sq_zero in B. assert (a = 1) by lra. split; auto. intros _. assert ((a ^ 2 - b) ^ 2 = 0) as C by lra. apply sq_zero in C. subst a. lra.
Qed.
Lemma rosen_one : rosen 1 1 = 0.
Proof. unfold rosen. ring. Qed.
(** xopt is ones(xdim) *)
Theorem C62_rosenbrock n : (2 <= n)%nat -> single_zero n rosenbrock (ones n).
Proof.
  intro Hn. apply single; [apply repeat_length| | |].
  - apply rsum_zeros. eapply Forall_impl; [|apply (adj_const rosen 1 n)]. cbv beta. intros a ->. apply rosen_one.
  - intros x _. apply rsum_pos. apply (adj_pos rosen). apply rosen_pos.
  - intros x <- H. apply rsum_zero in H; [|apply (adj_pos rosen); apply rosen_pos]. apply (adj_point rosen 1 x Hn rosen_zero H).
Qed.
(** in one dimension it is zero everywhere *)
Theorem C62_rosenbrock_one_refuted : forall a, rosenbrock [a] = 0.
Proof. reflexivity. Qed.

Lemma norm_pos x : 0 <= norm x.
Proof. apply sqrt_pos. Qed.
Lemma norm_zero x : norm x = 0 -> x = zeros (length x).
Proof. intro H. apply rdot_zero. apply sqrt_eq_0; auto. apply rdot_pos. Qed.
Lemma norm_zeros n : norm (zeros n) = 0.
Proof. unfold norm. rewrite rdot_zeros. apply sqrt_0. Qed.
Lemma firstn_repeat' {A} (a : A) m n : firstn m (repeat a n) = repeat a (Nat.min m n).
Proof. revert n. induction m as [|m IH]; intros [|n]; cbn; auto. rewrite IH. reflexivity. Qed.
Lemma skipn_repeat' {A} (a : A) m n : skipn m (repeat a n) = repeat a (n - m).
Proof. revert n. induction m as [|m IH]; intros [|n]; cbn; auto. Qed.
Theorem C62_glasmachers c n : 0 < c -> single_zero n (glasmachers c) (zeros n).
Proof.
  intro Hc. apply single; [apply repeat_length| | |].
  - unfold glasmachers. rewrite firstn_repeat', skipn_repeat', !norm_zeros. replace (2 * (c * 0) * 0 + 0 ^ 2) with 0 by ring. rewrite sqrt_0. ring.
  - intros x _. unfold glasmachers. pose proof (norm_pos (firstn (length x / 2) x)) as A. pose proof (norm_pos (skipn (length x / 2) x)) as B.
    assert (0 <= c * norm (firstn (length x / 2) x)) by (apply Rmult_le_pos; lra).
    pose proof (sqrt_pos (2 * (c * norm (firstn (length x / 2) x)) * norm (skipn (length x / 2) x) + norm (skipn (length x / 2) x) ^ 2)). lra.
  - intros x <-. unfold glasmachers. set (m := (length x / 2)%nat). pose proof (norm_pos (firstn m x)) as A. pose proof (norm_pos (skipn m x)) as B.
    assert (P : 0 <= c * norm (firstn m x)) by (apply Rmult_le_pos; lra).
    pose proof (sqrt_pos (2 * (c * norm (firstn m x)) * norm (skipn m x) + norm (skipn m x) ^ 2)) as S. intro H.
    assert (c * norm (firstn m x) = 0) as E1 by lra. assert (norm (skipn m x) = 0) as E2 by lra.
    apply Rmult_integral in E1. destruct E1 as [E1|E1]; [lra|]. apply norm_zero in E1. apply norm_zero in E2.
    rewrite <- (firstn_skipn m x) at 1. rewrite E1, E2, <- repeat_app. f_equal. rewrite <- app_length, firstn_skipn. reflexivity.
Qed.

Lemma fold_plus {A} (f : A -> R) l : forall r, fold_left (fun s i => s + f i) l r = r + rsum (map f l).
Proof. induction l as [|a l IH]; intro r; cbn [fold_left map]; [cbn; lra|]. rewrite IH, rsum_cons. lra. Qed.
(** the slices x[:i] never reach the last entry, which the function therefore ignores *)
Theorem C62_schwefel_refuted n : zero_at (S n) schwefel (zeros (S n)) /\
  (forall x t t', schwefel (x ++ [t]) = schwefel (x ++ [t'])) /\
  forall t, schwefel (zeros n ++ [t]) = 0 /\ length (zeros n ++ [t]) = S n.
Proof.
  assert (I : forall x t t', schwefel (x ++ [t]) = schwefel (x ++ [t'])).
  { intros x t t'. unfold schwefel. rewrite !fold_plus. rewrite !app_length. cbn [length]. f_equal. f_equal. apply map_ext_in. intros i Hi. apply in_seq in Hi.
    rewrite !firstn_app. replace (i - length x)%nat with 0%nat by lia. reflexivity. }
  assert (Z : schwefel (zeros (S n)) = 0).
  { unfold schwefel. rewrite fold_plus. rewrite rsum_zeros; [lra|]. apply Forall_map, Forall_forall. intros i _. rewrite firstn_repeat'.
    rewrite rsum_zeros by (apply Forall_repeat; auto). cbn. ring. }
  split; [split; [apply repeat_length|split; [exact Z|]]|split; [exact I|]].
  - intros x _. unfold schwefel. rewrite fold_plus. pose proof (rsum_pos (map (fun i => rsum (firstn i x) ^ 2) (seq 0 (length x)))) as H. rewrite Rplus_0_l. apply H.
    apply Forall_map, Forall_forall. intros. apply sq_pos.
  - intro t. split; [|rewrite app_length, repeat_length; cbn; lia]. rewrite (I (zeros n) t 0). replace (zeros n ++ [0]) with (zeros (S n)); [exact Z|]. cbn [repeat]. rewrite repeat_cons. reflexivity.
Qed.

(** ** multimodal.py *)
Lemma rast_pos b t : 0 <= (b * t) ^ 2 - 10 * cos (2 * PI * b * t) + 10.
Proof. pose proof (sq_pos (b * t)). pose proof (cos_le (2 * PI * b * t)). lra. Qed.
Theorem C62_rastrigin a n : single_zero n (rastrigin a) (zeros n).
Proof.
  set (g := fun (N : R) (i : nat) (t : R) => (Rpower a ((INR i - 1) / (N - 1)) * t) ^ 2 - 10 * cos (2 * PI * Rpower a ((INR i - 1) / (N - 1)) * t) + 10).
  assert (E : forall x, rastrigin a x = rsum (imap (g (INR (length x))) x)).
  { intro x. unfold rastrigin. rewrite !imap_as. unfold g. rewrite rsum_map_plus, rsum_const, seq_length. reflexivity. }
  assert (P : forall N i t, 0 <= g N i t) by (intros; apply rast_pos).
  apply single; [apply repeat_length| | |].
  - rewrite E. apply rsum_zeros. apply imap_zero; [|apply Forall_repeat; auto]. intro i. unfold g. rewrite !Rmult_0_r, cos_0. ring.
  - intros x _. rewrite E. apply rsum_pos, imap_pos, P.
  - intros x <-. rewrite E. intro H. apply rsum_zero in H; [|apply imap_pos, P]. apply imap_zero_inv in H; auto. intros i t. unfold g.
    set (b := Rpower a ((INR i - 1) / (INR (length x) - 1))). intro Hz. pose proof (sq_pos (b * t)). pose proof (cos_le (2 * PI * b * t)).
    assert ((b * t) ^ 2 = 0) as S by lra. apply sq_zero in S. apply Rmult_integral in S. destruct S as [S|S]; auto. unfold b in S. pose proof (exp_pos ((INR i - 1) / (INR (length x) - 1) * ln a)) as X. unfold Rpower in S. lra.
Qed.

Theorem C62_ackley n : (1 <= n)%nat -> single_zero n ackley (zeros n).
Proof.
  intro Hn. assert (HN : 0 < INR n) by (apply lt_0_INR; lia). assert (Hi : 0 < 1 / INR n) by (unfold Rdiv; rewrite Rmult_1_l; apply Rinv_0_lt_compat; auto).
  assert (C : forall x, length x = n -> exp (1 / INR n * rsum (map (fun a => cos (2 * PI * a)) x)) <= exp 1).
  { intros x Hl. assert (H : 1 / INR n * rsum (map (fun a => cos (2 * PI * a)) x) <= 1).
    { assert (rsum (map (fun a => cos (2 * PI * a)) x) <= rsum (map (fun _ => 1) x)) as G by (apply rsum_le; intros; apply cos_le). rewrite rsum_const, Hl in G.
      apply (Rmult_le_compat_l (1 / INR n)) in G; [|lra]. eapply Rle_trans; [exact G|]. right. field. lra. }
    destruct H as [H|H]; [left; apply exp_increasing; exact H|rewrite H; lra]. }
  assert (U : forall x, length x = n -> - 0.2 * sqrt (1 / INR n * rsum (map (fun a => a ^ 2) x)) <= 0).
  { intros x _. pose proof (sqrt_pos (1 / INR n * rsum (map (fun a => a ^ 2) x))). lra. }
  assert (V : forall t, t <= 0 -> exp t <= 1 /\ (exp t = 1 -> t = 0)).
  { intros t [Ht| ->]; [|rewrite exp_0; split; [lra|auto]]. apply exp_increasing in Ht. rewrite exp_0 in Ht. split; [lra|intros; lra]. }
  apply single; [apply repeat_length| | |].
  - unfold ackley. rewrite repeat_length. rewrite rsum_zeros; [|apply Forall_map, Forall_repeat; cbn; ring].
    rewrite Rmult_0_r, sqrt_0, Rmult_0_r, exp_0.
    assert (rsum (map (fun a => cos (2 * PI * a)) (zeros n)) = INR n) as ->.
    { clear. induction n as [|n IH]; [reflexivity|]. change (zeros (S n)) with (0 :: zeros n). cbn [map]. rewrite rsum_cons, IH, S_INR. rewrite Rmult_0_r, cos_0. ring. }
    replace (1 / INR n * INR n) with 1 by (field; lra). ring.
  - intros x Hl. unfold ackley. rewrite Hl. specialize (C x Hl). destruct (V _ (U x Hl)) as [V1 _]. lra.
  - intros x Hl. unfold ackley. rewrite Hl. intro H. specialize (C x Hl). destruct (V _ (U x Hl)) as [V1 V2]. assert (E : - 0.2 * sqrt (1 / INR n * rsum (map (fun a => a ^ 2) x)) = 0) by (apply V2; lra).
    assert (sqrt (1 / INR n * rsum (map (fun a => a ^ 2) x)) = 0) as E2 by lra. pose proof (rsum_pos _ (squares_pos x)) as P.
    apply sqrt_eq_0 in E2; [|apply Rmult_le_pos; lra]. apply Rmult_integral in E2. destruct E2 as [E2|E2]; [lra|]. rewrite <- Hl. apply rdot_zero. rewrite rdot_sq. exact E2.
Qed.

Lemma fold_mult l : forall r, fold_left Rmult l r = r * fold_left Rmult l 1.
Proof. induction l as [|a l IH]; intro r; cbn; [ring|]. rewrite (IH (r * a)), (IH (1 * a)). ring. Qed.
Lemma prod_le l : Forall (fun a => -1 <= a <= 1) l -> -1 <= fold_left Rmult l 1 <= 1.
Proof.
  induction 1 as [|a l Ha Hl IH]; cbn; [lra|]. rewrite fold_mult. rewrite Rmult_1_l. nra.
Qed.
Lemma prod_ones l : Forall (fun a => a = 1) l -> fold_left Rmult l 1 = 1.
Proof. induction 1 as [|a l Ha Hl IH]; cbn; [reflexivity|]. subst a. rewrite Rmult_1_l. exact IH. Qed.
Theorem C62_griewank n : single_zero n griewank (zeros n).
Proof.
  assert (B : forall x, fold_left Rmult (imap (fun i xi => cos (xi / sqrt (INR (i + 1)))) x) 1 <= 1).
  { intro x. apply prod_le. rewrite imap_as. apply Forall_map, Forall_forall. intros. split; [apply cos_ge|apply cos_le]. }
  apply single; [apply repeat_length| | |].
  - unfold griewank. rewrite rsum_zeros by (apply Forall_map, Forall_repeat; cbn; ring). rewrite prod_ones; [field|].
    rewrite imap_as. apply Forall_map, Forall_forall. intros i Hi. apply in_seq in Hi. rewrite nth_repeat. unfold Rdiv. rewrite Rmult_0_l. apply cos_0.
  - intros x _. unfold griewank. pose proof (rsum_pos _ (squares_pos x)). specialize (B x). lra.
  - intros x <- H. unfold griewank in H. pose proof (rsum_pos _ (squares_pos x)). specialize (B x). apply rdot_zero. rewrite rdot_sq. lra.
Qed.

Definition schaf (a b : R) : R := sqrt (sqrt (a ^ 2 + b ^ 2)) * (1 + sin (50 * rpow (sqrt (a ^ 2 + b ^ 2)) 0.2) ^ 2).
Lemma map_adj h F x : map h (adj F x) = adj (fun a b => h (F a b)) x.
Proof. unfold adj. generalize (removelast x) (tl x). induction l as [|a l IH]; intros [|b m]; cbn; auto. rewrite IH. reflexivity. Qed.
Lemma schaf_pos a b : 0 <= schaf a b.
Proof. unfold schaf. apply Rmult_le_pos; [apply sqrt_pos|]. pose proof (sq_pos (sin (50 * rpow (sqrt (a ^ 2 + b ^ 2)) 0.2))). lra. Qed.
Lemma schaf_zero a b : schaf a b = 0 -> a = 0 /\ (a = 0 -> b = 0).
Proof.
  unfold schaf. intro H. apply Rmult_integral in H. pose proof (sq_pos (sin (50 * rpow (sqrt (a ^ 2 + b ^ 2)) 0.2))). pose proof (sq_pos a). pose proof (sq_pos b).
  destruct H as [H|H]; [|lra]. apply sqrt_eq_0 in H; [|apply sqrt_pos]. apply sqrt_eq_0 in H; [|lra]. destruct (two_zero _ _ H1 H2 H) as [A B]. split; [apply sq_zero|intros _; apply sq_zero]; auto.
Qed.
Theorem C62_schaffers n : (2 <= n)%nat -> single_zero n schaffers (zeros n).
Proof.
  intro Hn. assert (E : forall x, schaffers x = rsum (adj schaf x) ^ 2).
  { intro x. unfold schaffers. fold (adj (fun a b => sqrt (a ^ 2 + b ^ 2)) x). rewrite map_adj. reflexivity. }
  apply single; [apply repeat_length| | |].
  - rewrite E. rewrite rsum_zeros; [ring|]. eapply Forall_impl; [|apply (adj_const schaf 0 n)]. cbv beta. intros a ->. unfold schaf.
    replace (0 ^ 2 + 0 ^ 2) with 0 by ring. rewrite !sqrt_0. ring.
  - intros x _. rewrite E. apply sq_pos.
  - intros x <-. rewrite E. intro H. apply sq_zero in H. apply rsum_zero in H; [|apply adj_pos, schaf_pos]. apply (adj_point schaf 0 x Hn schaf_zero H).
Qed.

(** GriewankRosenbrock: the zero is at ones(xdim), but xopt is left at the origin *)
Definition grosen (a b : R) : R := rosen a b / 4000 - cos (rosen a b) + 1.
Lemma grosen_pos a b : 0 <= grosen a b.
Proof. unfold grosen. pose proof (rosen_pos a b). pose proof (cos_le (rosen a b)). lra. Qed.
Lemma adj_len F x : length (adj F x) = (length x - 1)%nat.
Proof. destruct x as [|a x]; [reflexivity|]. revert a. induction x as [|b x IH]; intro a; [reflexivity|]. rewrite adj_cons. cbn [length]. rewrite IH. cbn. lia. Qed.
Theorem C62_griewankrosenbrock_refuted n : (2 <= n)%nat -> single_zero n griewankrosenbrock (ones n) /\ 0 < griewankrosenbrock (zeros n).
Proof.
  intro Hn. assert (Hd : 0 < INR n - 1). { assert (INR 2 <= INR n) as H by (apply le_INR; auto). cbn in H. lra. }
  assert (Hi : 0 < 1 / (INR n - 1)) by (unfold Rdiv; rewrite Rmult_1_l; apply Rinv_0_lt_compat; auto).
  assert (E : forall x, length x = n -> griewankrosenbrock x = 1 / (INR n - 1) * rsum (adj grosen x)).
  { intros x Hl. unfold griewankrosenbrock. change (rzip _ (removelast x) (tl x)) with (adj rosen x). rewrite Hl.
    assert (A : rsum (adj grosen x) = rsum (map (fun a => a / 4000 - cos a) (adj rosen x)) + (INR n - 1)).
    { unfold grosen. rewrite <- (map_adj (fun a => a / 4000 - cos a + 1) rosen). rewrite (rsum_map_plus (fun a => a / 4000 - cos a) (fun _ => 1)), rsum_const, adj_len, Hl.
      rewrite minus_INR by lia. cbn. ring. }
    rewrite A. field. lra. }
  assert (G0 : forall a b, grosen a b = 0 -> a = 1 /\ (a = 1 -> b = 1)).
  { intros a b H. apply rosen_zero. unfold grosen in H. pose proof (rosen_pos a b). pose proof (cos_le (rosen a b)). lra. }
  split.
  - apply single; [apply repeat_length| | |].
    + rewrite E by apply repeat_length. rewrite rsum_zeros; [ring|]. eapply Forall_impl; [|apply (adj_const grosen 1 n)]. cbv beta. intros a ->. unfold grosen. rewrite rosen_one, cos_0. field.
    + intros x Hl. rewrite E by auto. apply Rmult_le_pos; [lra|]. apply rsum_pos, adj_pos, grosen_pos.
    + intros x Hl. rewrite E by auto. intro H. apply Rmult_integral in H. destruct H as [H|H]; [lra|]. apply rsum_zero in H; [|apply adj_pos, grosen_pos].
      subst n. apply (adj_point grosen 1 x Hn G0 H).
  - rewrite E by apply repeat_length. apply Rmult_lt_0_compat; auto. destruct n as [|[|n]]; try lia. change (zeros (S (S n))) with (0 :: 0 :: zeros n). rewrite adj_cons, rsum_cons.
    pose proof (rsum_pos _ (adj_pos grosen (0 :: zeros n) grosen_pos)). assert (0 < grosen 0 0); [|lra].
    unfold grosen, rosen. replace (100 * (0 ^ 2 - 0) ^ 2 + (0 - 1) ^ 2) with 1 by ring. pose proof (cos_le 1). lra.
Qed.

(** the funnel: its zero is at (2.5, .., 2.5), xopt is the origin *)
Lemma shift_zero c x : rdot (map (fun a => a - c) x) (map (fun a => a - c) x) = 0 -> x = repeat c (length x).
Proof.
  intro H. apply rdot_zero in H. rewrite map_length in H. revert H. induction x as [|a x IH]; cbn; intro H; [reflexivity|]. injection H as H1 H2. f_equal; [lra|auto].
Qed.
Lemma rdot_repeat a n : rdot (repeat a n) (repeat a n) = a * a * INR n.
Proof. induction n as [|n IH]; [unfold rdot; cbn; ring|]. rewrite S_INR. change (repeat a (S n)) with (a :: repeat a n). unfold rdot in *. cbn [rzip]. rewrite rsum_cons, IH. ring. Qed.
Lemma map_repeat' {A B} (f : A -> B) a n : map f (repeat a n) = repeat (f a) n.
Proof. induction n; cbn; congruence. Qed.
Theorem C62_funnel_refuted depth size n : (1 <= n)%nat -> 0 < depth -> 0 <= size ->
  single_zero n (funnel depth size) (repeat 2.5 n) /\ 0 < funnel depth size (zeros n).
Proof.
  intros Hn Hd Hs. assert (HN : 0 < INR n) by (apply lt_0_INR; lia).
  assert (Q : forall x, length x = n -> 0 < depth * INR (length x) + size * rdot (map (fun a => a + 2.5) x) (map (fun a => a + 2.5) x)).
  { intros x Hl. rewrite Hl. pose proof (rdot_pos (map (fun a => a + 2.5) x)). assert (0 <= size * rdot (map (fun a => a + 2.5) x) (map (fun a => a + 2.5) x)) by (apply Rmult_le_pos; auto).
    assert (0 < depth * INR n) by (apply Rmult_lt_0_compat; auto). lra. }
  split.
  - apply single; [apply repeat_length| | |].
    + unfold funnel. rewrite Rmin_left.
      * rewrite map_repeat'. replace (2.5 - 2.5) with 0 by lra. apply rdot_zeros.
      * specialize (Q (repeat 2.5 n) (repeat_length _ _)). rewrite map_repeat' at 1. rewrite map_repeat' at 1. replace (2.5 - 2.5) with 0 by lra. rewrite rdot_zeros. lra.
    + intros x Hl. unfold funnel. specialize (Q x Hl). apply Rmin_glb; [apply rdot_pos|lra].
    + intros x Hl. unfold funnel. specialize (Q x Hl). unfold Rmin. destruct (Rle_dec _ _); intro H; [|lra]. rewrite <- Hl. apply shift_zero. exact H.
  - unfold funnel. specialize (Q (zeros n) (repeat_length _ _)). apply Rmin_glb_lt; [|exact Q]. rewrite map_repeat', rdot_repeat. nra.
Qed.

(** Weierstrass: zero at the origin, but also at every point with whole coordinates *)
Lemma cos_odd k m : cos (2 * PI * 3 ^ k * (INR m + 0.5)) = -1.
Proof.
  assert (G : exists j, 3 ^ k = 2 * INR j + 1).
  { induction k as [|k [j IH]]; [exists 0%nat; cbn; ring|]. exists (3 * j + 1)%nat. cbn [pow]. rewrite IH, plus_INR, mult_INR. cbn. ring. }
  destruct G as [j G]. rewrite G. replace (2 * PI * (2 * INR j + 1) * (INR m + 0.5)) with (PI + 2 * INR (2 * (j * m) + m + j) * PI).
  - rewrite cos_period. apply cos_PI.
  - rewrite !plus_INR, !mult_INR. cbn. lra.
Qed.
Theorem C62_weierstrass_refuted kmax n : zero_at n (weierstrass kmax) (zeros n) /\ forall ms, length ms = n -> weierstrass kmax (map INR ms) = 0.
Proof.
  assert (E : forall x, weierstrass kmax x = rsum (map (fun k => rsum (map (fun xi => (1 / 2) ^ k * (cos (2 * PI * 3 ^ k * (xi + 0.5)) + 1)) x)) (seq 0 kmax))).
  { intro x. unfold weierstrass. rewrite <- (Rplus_0_l (rsum _)), <- fold_plus. enough (G : forall l r, fold_left (fun res k => res + rsum (map (fun xi => (1 / 2) ^ k * cos (2 * PI * 3 ^ k * (xi + 0.5))) x) - INR (length x) * (1 / 2) ^ k * cos (2 * PI * 3 ^ k * 0.5)) l r
        = fold_left (fun s k => s + rsum (map (fun xi => (1 / 2) ^ k * (cos (2 * PI * 3 ^ k * (xi + 0.5)) + 1)) x)) l r) by apply G.
    induction l as [|k l IH]; intro r; cbn [fold_left]; [reflexivity|].
    rewrite IH. f_equal. pose proof (cos_odd k 0) as C. cbn [INR] in C. replace (2 * PI * 3 ^ k * 0.5) with (2 * PI * 3 ^ k * (0 + 0.5)) by ring. rewrite C.
    rewrite (map_ext (fun xi => (1 / 2) ^ k * (cos (2 * PI * 3 ^ k * (xi + 0.5)) + 1)) (fun xi => (1 / 2) ^ k * cos (2 * PI * 3 ^ k * (xi + 0.5)) + (1 / 2) ^ k)) by (intros; ring).
    rewrite (rsum_map_plus (fun xi => (1 / 2) ^ k * cos (2 * PI * 3 ^ k * (xi + 0.5))) (fun _ => (1 / 2) ^ k)), rsum_const. ring. }
  assert (Z : forall ms, weierstrass kmax (map INR ms) = 0).
  { intro ms. rewrite E. apply rsum_zeros. apply Forall_map, Forall_forall. intros k _. apply rsum_zeros. apply Forall_map, Forall_map, Forall_forall. intros m _. rewrite cos_odd. ring. }
  split; [split; [apply repeat_length|split]|intros; apply Z].
  - change (zeros n) with (repeat (INR 0) n). rewrite <- (map_repeat' INR 0%nat n). apply Z.
  - intros x _. rewrite E. apply rsum_pos. apply Forall_map, Forall_forall. intros k _. apply rsum_pos. apply Forall_map, Forall_forall. intros t _.
    pose proof (cos_ge (2 * PI * 3 ^ k * (t + 0.5))). apply Rmult_le_pos; [apply pow_le; lra|lra].
Qed.

(** The targets of the multimodal functions (desiredValue = -1e-3, and they are to be minimized) are never reached. *)
Theorem C62_multimodal_target_refuted n x : (2 <= n)%nat -> length x = n -> forall a kmax,
  -0.001 < rastrigin a x /\ -0.001 < ackley x /\ -0.001 < griewank x /\ -0.001 < schaffers x /\ -0.001 < griewankrosenbrock x /\ -0.001 < weierstrass kmax x.
Proof.
  intros Hn Hl a kmax. destruct (C62_rastrigin a n) as [(_ & _ & A) _]. destruct (C62_ackley n ltac:(lia)) as [(_ & _ & B) _]. destruct (C62_griewank n) as [(_ & _ & C) _].
  destruct (C62_schaffers n Hn) as [(_ & _ & D) _]. destruct (C62_griewankrosenbrock_refuted n Hn) as [[(_ & _ & E) _] _]. destruct (C62_weierstrass_refuted kmax n) as [(_ & _ & F) _].
  specialize (A x Hl). specialize (B x Hl). specialize (C x Hl). specialize (D x Hl). specialize (E x Hl). specialize (F x Hl). repeat split; lra.
Qed.

(** ** Functions that write into the array they are given *)
(** BoundedLinear: the zeros are the points beyond the best corner, xopt is the origin *)
Definition signs_ok (s : list R) : Prop := Forall (fun a => a = 1 \/ a = -1) s.
Lemma bl_value w : forall s x, Forall (fun a => 0 < a) w -> signs_ok s -> length w = length x -> length s = length x ->
  0 <= fst (boundedlinear w s x) /\ (fst (boundedlinear w s x) = 0 <-> Forall (fun p => 5 <= snd p * fst p) (combine s x)).
Proof.
  induction w as [|b w IH]; intros [|t s] [|y x] Hw Hs H1 H2; cbn in H1, H2; try discriminate.
  - unfold boundedlinear, rdot. cbn. split; [lra|]. split; [constructor|intros _; lra].
  - inversion Hw as [|? ? Hb Hw']; subst. inversion Hs as [|? ? Ht Hs']; subst. destruct (IH s x Hw' Hs' ltac:(lia) ltac:(lia)) as [A B].
    assert (E : fst (boundedlinear (b :: w) (t :: s) (y :: x)) = b * (5 - t * (if Rlt_dec 5 (y * t) then t * 5 else y)) + fst (boundedlinear w s x)).
    { unfold boundedlinear, rdot. cbn [rzip fst]. rewrite !rsum_cons. ring. }
    assert (C : 0 <= 5 - t * (if Rlt_dec 5 (y * t) then t * 5 else y) /\ (5 - t * (if Rlt_dec 5 (y * t) then t * 5 else y) = 0 <-> 5 <= y * t)).
    { destruct (Rlt_dec 5 (y * t)) as [Hl|Hl]; [destruct Ht as [-> | ->]; split; try lra|split; [lra|split; intro; lra]]. }
    destruct C as [C1 C2]. assert (D : 0 <= b * (5 - t * (if Rlt_dec 5 (y * t) then t * 5 else y))) by (apply Rmult_le_pos; lra). rewrite E. cbn [combine]. split; [lra|]. split.
    + intro H. destruct (two_zero _ _ D A H) as [H3 H4]. apply Rmult_integral in H3. constructor; [cbn; apply C2; destruct H3; lra|apply B; auto].
    + intro H. inversion H as [|? ? H3 H4]; subst. cbn in H3. apply C2 in H3. rewrite H3. apply B in H4. rewrite H4. ring.
Qed.
Theorem C62_boundedlinear_refuted w s n : (1 <= n)%nat -> Forall (fun a => 0 < a) w -> signs_ok s -> length w = n -> length s = n ->
  (forall x, length x = n -> 0 <= fst (boundedlinear w s x) /\ (fst (boundedlinear w s x) = 0 <-> Forall (fun p => 5 <= snd p * fst p) (combine s x))) /\
  0 < fst (boundedlinear w s (zeros n)).
Proof.
  intros Hn Hw Hs L1 L2. split.
  - intros x Hl. apply bl_value; auto; congruence.
  - destruct (bl_value w s (zeros n) Hw Hs) as [A B]; rewrite ?repeat_length; auto. destruct A as [A|A]; [exact A|]. exfalso. symmetry in A. apply B in A.
    destruct n as [|n]; [lia|]. destruct s as [|t s]; [discriminate|]. inversion A as [|? ? X _]; subst. cbn in X. lra.
Qed.
(** the caller's array is clipped *)
Example C62_boundedlinear_writes : snd (boundedlinear [1; 10] [1; -1] [7; 2]) = [5; 2].
Proof. unfold boundedlinear. cbn [rzip snd]. destruct (Rlt_dec 5 (7 * 1)); [|lra]. destruct (Rlt_dec 5 (2 * -1)); [lra|]. f_equal. lra. Qed.

(** BucheRastrigin has its single zero at xopt; but it rescales the array it is given, and so a
    second evaluation of the same array gives another value *)
Definition buche_factor (n i : nat) (t : R) : R :=
  let e := INR i / (INR n - 1) / 2 in Rpower 10 (if Rle_dec t 0 then e + 1 else if (i mod 2 =? 0)%nat then e + 1 else e).
Theorem C62_bucherastrigin n : single_zero n (fun x => fst (bucherastrigin x)) (zeros n).
Proof.
  assert (E : forall x, fst (bucherastrigin x) = rsum (imap (fun i t => (t * buche_factor (length x) i t) ^ 2 + 10 * (1 - cos (2 * PI * (t * buche_factor (length x) i t)))) x)).
  { intro x. unfold bucherastrigin. cbn [fst]. unfold buche_z. rewrite imap_as. set (h := fun i : nat => _ : R). rewrite rdot_sq, !map_map. rewrite imap_as.
    rewrite (rsum_map_plus (fun i => (nth i x 0 * buche_factor (length x) i (nth i x 0)) ^ 2)).
    rewrite (map_ext (fun i => 10 * (1 - cos (2 * PI * (nth i x 0 * buche_factor (length x) i (nth i x 0))))) (fun i => 10 + -10 * cos (2 * PI * (nth i x 0 * buche_factor (length x) i (nth i x 0))))) by (intros; ring).
    rewrite (rsum_map_plus (fun _ => 10)), rsum_const, rsum_scale, seq_length. change (fun x0 => h x0 ^ 2) with (fun i => (nth i x 0 * buche_factor (length x) i (nth i x 0)) ^ 2).
    change (fun x0 => cos (2 * PI * h x0)) with (fun i => cos (2 * PI * (nth i x 0 * buche_factor (length x) i (nth i x 0)))). ring. }
  assert (P : forall N i t, 0 <= (t * buche_factor N i t) ^ 2 + 10 * (1 - cos (2 * PI * (t * buche_factor N i t)))).
  { intros. pose proof (sq_pos (t * buche_factor N i t)). pose proof (cos_le (2 * PI * (t * buche_factor N i t))). lra. }
  apply single; [apply repeat_length| | |].
  - rewrite E. apply rsum_zeros, imap_zero; [|apply Forall_repeat; auto]. intro i. rewrite Rmult_0_l, Rmult_0_r, cos_0. ring.
  - intros x _. rewrite E. apply rsum_pos, imap_pos. intros. apply P.
  - intros x <-. rewrite E. intro H. apply rsum_zero in H; [|apply imap_pos; intros; apply P]. apply imap_zero_inv in H; auto. intros i t Ht.
    pose proof (sq_pos (t * buche_factor (length x) i t)). pose proof (cos_le (2 * PI * (t * buche_factor (length x) i t))).
    assert ((t * buche_factor (length x) i t) ^ 2 = 0) as S by lra. apply sq_zero in S. apply Rmult_integral in S. destruct S as [S|S]; auto.
    unfold buche_factor, Rpower in S. pose proof (exp_pos ((if Rle_dec t 0 then INR i / (INR (length x) - 1) / 2 + 1 else if (i mod 2 =? 0)%nat then INR i / (INR (length x) - 1) / 2 + 1 else INR i / (INR (length x) - 1) / 2) * ln 10)). lra.
Qed.
Lemma buche_first t : 0 < t -> snd (bucherastrigin [t; 0]) = [t * 10; 0] .
Proof.
  intro Ht. unfold bucherastrigin, buche_z. cbn [snd]. unfold imap. cbn [length seq combine map fst snd]. f_equal.
  - destruct (Rle_dec t 0); [lra|]. cbn [Nat.modulo Nat.divmod fst Nat.eqb snd]. cbn. replace (0 / (1 + 1 - 1) / 2 + 1) with 1 by field. rewrite Rpower_1 by lra. reflexivity.
  - f_equal. ring.
Qed.
Lemma buche_value (m : nat) : (0 < m)%nat -> fst (bucherastrigin [INR m; 0]) = (INR m * 10) ^ 2.
Proof.
  intro Hm. assert (H : 0 < INR m) by (apply lt_0_INR; auto). pose proof (buche_first (INR m) H) as E. unfold bucherastrigin in *. cbn [fst snd] in *. rewrite E. unfold rdot, rsum. cbn [length rzip map fold_right INR].
  replace (2 * PI * (INR m * 10)) with (0 + 2 * INR (m * 10) * PI) by (rewrite mult_INR; cbn [INR]; ring). rewrite cos_period, !Rmult_0_r, !cos_0. ring.
Qed.
Theorem C62_bucherastrigin_writes_refuted : exists x, fst (bucherastrigin x) = 100 /\ fst (bucherastrigin (snd (bucherastrigin x))) = 10000.
Proof.
  exists [INR 1; 0]. rewrite (buche_value 1) by lia. rewrite buche_first by (cbn; lra). replace (INR 1 * 10) with (INR 10) by (cbn; ring). rewrite (buche_value 10) by lia. cbn. split; ring.
Qed.

(** ** unbounded.py: there is no least value *)
Theorem C62_unbounded n B : (1 <= n)%nat -> exists x, length x = n /\ parabR x < B /\ sharpR x < B /\ exists y, length y = n /\ linear y < B.
Proof.
  intro Hn. exists ((1 - B) :: zeros (n - 1)). split; [cbn; rewrite repeat_length; lia|].
  assert (Z : rsum (map (fun a => a ^ 2) (zeros (n - 1))) = 0) by (apply rsum_zeros, Forall_map, Forall_repeat; ring).
  unfold parabR, sharpR. cbn [hd tl]. rewrite Z, sqrt_0. split; [lra|]. split; [lra|]. exists ((B - 1) :: zeros (n - 1)). split; [cbn; rewrite repeat_length; lia|].
  unfold linear. rewrite rsum_cons, rsum_zeros by (apply Forall_repeat; auto). lra.
Qed.

(** ** Transformations *)
(** the environment says where its function has its single zero *)
Definition truthful (w : arrays) (e : fenv) : Prop := (fe_xopt e < length w)%nat /\ single_zero (fe_dim e) (fe_f e) (nth (fe_xopt e) w []).

Lemma vadd_sub a b : length a = length b -> vsub (vadd a b) b = a.
Proof. revert b. induction a as [|x a IH]; intros [|y b] H; cbn in *; try discriminate; auto. f_equal; [ring|apply IH; lia]. Qed.
Lemma vsub_add a b : length a = length b -> vadd (vsub a b) b = a.
Proof. revert b. induction a as [|x a IH]; intros [|y b] H; cbn in *; try discriminate; auto. f_equal; [ring|apply IH; lia]. Qed.
Lemma rzip_len f a : forall b, length a = length b -> length (rzip f a b) = length a.
Proof. induction a as [|x a IH]; intros [|y b] H; cbn in *; try discriminate; auto. Qed.
Lemma upd_at {A} i (x d : A) l : (i < length l)%nat -> nth i (upd i x l) d = x.
Proof. revert i. induction l as [|a l IH]; intros [|i] H; cbn in *; try lia; auto. apply IH. lia. Qed.
Lemma upd_len {A} i (x : A) l : length (upd i x l) = length l.
Proof. revert i. induction l as [|a l IH]; intros [|i]; cbn; auto. Qed.
Lemma vadd_same a b : length a = length b -> vadd a b = a -> b = zeros (length b).
Proof. revert b. induction a as [|x a IH]; intros [|y b] H E; cbn in *; try discriminate; auto. injection E as E1 E2. f_equal; [lra|apply IH; auto]. Qed.

Theorem C62_translate off w e : truthful w e -> length off = fe_dim e ->
  let r := translate off w e in truthful (fst r) (snd r) /\ nth (fe_xopt (snd r)) (fst r) [] = vadd (nth (fe_xopt e) w []) off.
Proof.
  intros [Hi [(L & Z & P) U]] Ho. unfold translate. cbn [fst snd fe_xopt fe_dim fe_f]. rewrite upd_at by auto. split; [|reflexivity]. split; [cbn; rewrite upd_len; auto|].
  cbn [fe_xopt fe_dim fe_f]. rewrite upd_at by auto. apply single.
  - unfold vadd. rewrite rzip_len; congruence.
  - rewrite vadd_sub by congruence. exact Z.
  - intros x Hx. apply P. unfold vsub. rewrite rzip_len; congruence.
  - intros x Hx H. apply U in H; [|unfold vsub; rewrite rzip_len; congruence]. rewrite <- H. symmetry. apply vsub_add. congruence.
Qed.
(** but the base function's own xopt is moved with it *)
Theorem C62_translate_base_refuted off w e : truthful w e -> length off = fe_dim e -> off <> zeros (fe_dim e) -> ~ truthful (fst (translate off w e)) e.
Proof.
  intros [Hi [(L & Z & P) U]] Ho Hne [_ [(L' & Z' & _) _]]. unfold translate in *. cbn [fst] in *. rewrite upd_at in * by auto.
  apply U in Z'; [|exact L']. apply vadd_same in Z'; congruence.
Qed.
(** a rotation sets xopt to inv(M) xopt, although the zero is where x M = xopt: right only if both agree *)
Theorem C62_rotate_iff M Minv w e : truthful w e -> length M = fe_dim e -> length Minv = fe_dim e ->
  (forall x, length x = fe_dim e -> vecmat (vecmat x M) Minv = x) -> (forall x, length x = fe_dim e -> vecmat (vecmat x Minv) M = x) ->
  let r := rotate M Minv w e in truthful (fst r) (snd r) <-> matvec Minv (nth (fe_xopt e) w []) = vecmat (nth (fe_xopt e) w []) Minv.
Proof.
  intros [Hi [(L & Z & P) U]] LM LI H1 H2. unfold rotate. cbn [fst snd]. set (p := nth (fe_xopt e) w []) in *.
  assert (LV : forall x N, length N = fe_dim e -> length (vecmat x N) = fe_dim e) by (intros x N HN; unfold vecmat; rewrite map_length, seq_length; auto).
  assert (EN : nth (length w) (w ++ [matvec Minv p]) [] = matvec Minv p) by (rewrite app_nth2, Nat.sub_diag by lia; reflexivity).
  split.
  - intros [_ [(L' & Z' & _) _]]. cbn [fe_f fe_xopt fe_dim] in *. rewrite EN in *. apply U in Z'; [|apply LV; auto]. transitivity (vecmat (vecmat (matvec Minv p) M) Minv); [symmetry; apply H1; exact L'|rewrite Z'; reflexivity].
  - intro E. split; [cbn; rewrite app_length; cbn; lia|]. cbn [fe_f fe_xopt fe_dim]. rewrite EN, E. apply single.
    + apply LV. auto.
    + rewrite H2 by auto. exact Z.
    + intros x Hx. apply P, LV. auto.
    + intros x Hx H. apply U in H; [|apply LV; auto]. rewrite <- (H1 x Hx), H. reflexivity.
Qed.
(** the origin is safe *)
Lemma rdot_zeros_r n : forall a, rdot a (zeros n) = 0.
Proof. induction n as [|n IH]; intros [|x a]; try reflexivity. change (zeros (S n)) with (0 :: zeros n). unfold rdot in *. cbn [rzip]. rewrite rsum_cons, IH. ring. Qed.
Lemma rdot_zeros_l n : forall a, rdot (zeros n) a = 0.
Proof. induction n as [|n IH]; intros [|x a]; try reflexivity. change (zeros (S n)) with (0 :: zeros n). unfold rdot in *. cbn [rzip]. rewrite rsum_cons, IH. ring. Qed.
Theorem C62_rotate_origin M Minv w e : truthful w e -> length M = fe_dim e -> length Minv = fe_dim e ->
  (forall x, length x = fe_dim e -> vecmat (vecmat x M) Minv = x) -> (forall x, length x = fe_dim e -> vecmat (vecmat x Minv) M = x) ->
  nth (fe_xopt e) w [] = zeros (fe_dim e) -> let r := rotate M Minv w e in truthful (fst r) (snd r).
Proof.
  intros T LM LI H1 H2 E. apply (C62_rotate_iff M Minv w e T LM LI H1 H2). rewrite E. unfold matvec, vecmat.
  rewrite (map_ext (fun row => rdot row (zeros (fe_dim e))) (fun _ => 0)) by (intro; apply rdot_zeros_r).
  rewrite (map_ext (fun j => rdot (zeros (fe_dim e)) _) (fun _ => 0)) by (intro; apply rdot_zeros_l).
  rewrite LI. rewrite <- LI at 1. clear. generalize 0%nat. induction Minv; intro; cbn; auto. f_equal. auto.
Qed.
(** a quarter turn of the Rosenbrock function *)
Definition quarter : list (list R) := [[0; -1]; [1; 0]].
Definition unquarter : list (list R) := [[0; 1]; [-1; 0]].
Definition rosenv : fenv := mkfenv rosenbrock 0 2 1 true false.
Theorem C62_rotate_refuted : truthful [ones 2] rosenv /\ ~ truthful (fst (rotate quarter unquarter [ones 2] rosenv)) (snd (rotate quarter unquarter [ones 2] rosenv)).
Proof.
  split; [split; [cbn; lia|apply (C62_rosenbrock 2); lia]|]. intro H. apply C62_rotate_iff in H; cbn in H.
  - injection H as H _. unfold rdot in H. cbn in H. lra.
  - split; [cbn; lia|apply (C62_rosenbrock 2); lia].
  - reflexivity.
  - reflexivity.
  - intros [|a [|b [|c x]]] Hx; cbn in Hx; try discriminate. unfold vecmat, rdot. cbn. repeat f_equal; ring.
  - intros [|a [|b [|c x]]] Hx; cbn in Hx; try discriminate. unfold vecmat, rdot. cbn. repeat f_equal; ring.
Qed.

(** the penalty is the one in the comment: the squared distances to the box *)
Lemma fold_max l : forall a, a <= fold_left Rmax l a /\ forall b, In b l -> b <= fold_left Rmax l a.
Proof.
  induction l as [|c l IH]; intro a; cbn; [split; [lra|contradiction]|]. destruct (IH (Rmax a c)) as [A B]. pose proof (Rmax_l a c). pose proof (Rmax_r a c).
  split; [lra|]. intros b [<-|Hb]; [lra|auto].
Qed.
Lemma rlmax_ge l a : In a l -> a <= rlmax l.
Proof. destruct l as [|b l]; [contradiction|]. cbn. destruct (fold_max l b) as [A B]. intros [<-|H]; auto. Qed.
Theorem C62_penalize d x : 0 <= d -> penalize d x = rsum (map (fun a => Rmax 0 (Rabs a - d) ^ 2) x).
Proof.
  intro Hd. unfold penalize. rewrite rdot_sq, !map_map. f_equal. apply map_ext_in. intros a Ha. f_equal.
  pose proof (rlmax_ge (map Rabs x) (Rabs a) (in_map _ _ _ Ha)). pose proof (Rabs_pos a). rewrite Rmin_left; [apply Rmax_comm|]. unfold Rmax. destruct (Rle_dec _ _); lra.
Qed.
Theorem C62_soft d c w e : truthful w e -> fe_tomin e = true -> 0 <= d -> 0 <= c ->
  Forall (fun a => Rabs a <= d) (nth (fe_xopt e) w []) -> let r := soft d c w e in truthful (fst r) (snd r).
Proof.
  intros [Hi [(L & Z & P) U]] Ht Hd Hc Hin. unfold soft. cbn [fst snd]. split; [exact Hi|]. cbn [fe_f fe_xopt fe_dim]. rewrite Ht.
  destruct (fe_pen e); [apply single; auto|].
  assert (Q : forall x, 0 <= penalize d x * c).
  { intro x. rewrite C62_penalize by auto. apply Rmult_le_pos; auto. apply rsum_pos. apply Forall_map, Forall_forall. intros. apply sq_pos. }
  apply single; auto.
  - rewrite Z, C62_penalize by auto. rewrite rsum_zeros; [ring|]. apply Forall_map. eapply Forall_impl; [|exact Hin]. cbv beta. intros a Ha.
    rewrite Rmax_left by lra. ring.
  - intros x Hx. specialize (P x Hx). specialize (Q x). lra.
  - intros x Hx H. apply U; auto. specialize (P x Hx). specialize (Q x). lra.
Qed.

(** oscillatify loses the sign, and does not keep zero *)
Theorem C62_oscillatify_refuted eps : 0 < eps -> (forall x, 0 < oscillatify eps x) /\ oscillatify eps 0 = eps.
Proof.
  intro He. split; [intro; apply exp_pos|]. unfold oscillatify. destruct (Rlt_dec 0 0); [lra|]. rewrite !Rplus_0_r, Rabs_R0, Rplus_0_l. apply exp_ln. auto.
Qed.

(** ** Cases *)
Example C62_example : sphere [3; 4] = 25 /\ rosenbrock [1; 1; 2] = 100 /\ schwefel [1; 2; 5] = 10 /\ cigar [2; 1] = 1000004 /\ single_zero 3 rosenbrock [1; 1; 1] /\
  (exists x : list R, length x = 3%nat /\ sphere x = 0) /\ truthful [zeros 2] (mkfenv sphere 0 2 1 true false).
Proof.
  split; [unfold sphere, rdot, rsum; cbn; ring|]. split; [unfold rosenbrock, rsum; cbn; ring|]. split; [unfold schwefel, rdot, rsum; cbn; ring|].
  split; [unfold cigar, rdot, rsum; cbn; ring|]. split; [apply (C62_rosenbrock 3); lia|]. split; [exists (zeros 3); split; [reflexivity|apply rdot_zeros_l]|].
  split; [cbn; lia|apply (C62_sphere 2)].
Qed.

Print Assumptions C62_sphere.
Print Assumptions C62_cigar.
Print Assumptions C62_tablet.
Print Assumptions C62_sharpbis.
Print Assumptions C62_elli.
Print Assumptions C62_diffpow.
Print Assumptions C62_rosenbrock.
Print Assumptions C62_rosenbrock_one_refuted.
Print Assumptions C62_glasmachers.
Print Assumptions C62_schwefel_refuted.
Print Assumptions C62_rastrigin.
Print Assumptions C62_ackley.
Print Assumptions C62_griewank.
Print Assumptions C62_schaffers.
Print Assumptions C62_griewankrosenbrock_refuted.
Print Assumptions C62_funnel_refuted.
Print Assumptions C62_weierstrass_refuted.
Print Assumptions C62_multimodal_target_refuted.
Print Assumptions C62_boundedlinear_refuted.
Print Assumptions C62_bucherastrigin.
Print Assumptions C62_bucherastrigin_writes_refuted.
Print Assumptions C62_unbounded.
Print Assumptions C62_translate.
Print Assumptions C62_translate_base_refuted.
Print Assumptions C62_rotate_iff.
Print Assumptions C62_rotate_origin.
Print Assumptions C62_rotate_refuted.
Print Assumptions C62_penalize.
Print Assumptions C62_soft.
Print Assumptions C62_oscillatify_refuted.
