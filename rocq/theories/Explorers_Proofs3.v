(** Proofs for C77: neuro-fitted Q-learning. *)
From Coq Require Import Reals Lra Lia.
From Verif Require Import Base Functions_Model Functions_Proofs LinearFA_Model LinearFA_Proofs Players_Model Explorers_Model Explorers_Spec Explorers_Proofs.
Local Open Scope R_scope.

(** ** the greatest value *)
Lemma foldmax_spec x l : (fold_right Rmax x l = x \/ In (fold_right Rmax x l) l) /\ x <= fold_right Rmax x l /\ forall y, In y l -> y <= fold_right Rmax x l.
Proof.
  induction l as [|z l (A & B & C)]; cbn [fold_right]; [split; [left; reflexivity |]; split; [lra | intros y []] |].
  split; [| split].
  - destruct (Rle_dec z (fold_right Rmax x l)) as [H|H]; [rewrite Rmax_right by exact H; destruct A as [A|A]; [left; exact A | right; right; exact A] | rewrite Rmax_left by lra; right; left; reflexivity].
  - apply Rle_trans with (fold_right Rmax x l); [exact B | apply Rmax_r].
  - intros y [-> | Hy]; [apply Rmax_l | apply Rle_trans with (fold_right Rmax x l); [apply C, Hy | apply Rmax_r]].
Qed.
Lemma maxover_spec f n : (0 < n)%nat -> (exists a, (a < n)%nat /\ maxover f n = f a) /\ forall a, (a < n)%nat -> f a <= maxover f n.
Proof.
  intros P. unfold maxover. destruct (foldmax_spec (f 0%nat) (map f (seq 1 (n - 1)))) as (A & B & C). split.
  - destruct A as [A|A]; [exists 0%nat; auto |]. apply in_map_iff in A as (a & E & Ha). apply in_seq in Ha. exists a. split; [lia | symmetry; exact E].
  - intros a Ha. destruct a as [|a]; [exact B |]. apply C, in_map, in_seq. lia.
Qed.
Lemma vmax_maxover f n : (0 < n)%nat -> vmax (map f (seq 0 n)) = maxover f n.
Proof.
  intros P. assert (NE : map f (seq 0 n) <> []) by (destruct n; [lia | discriminate]). destruct (vmax_spec _ NE) as [I M]. destruct (maxover_spec f n P) as [(a & Ha & E) M'].
  apply Rle_antisym.
  - apply in_map_iff in I as (b & <- & Hb). apply in_seq in Hb. apply M'. lia.
  - rewrite E. apply M, in_map, in_seq. lia.
Qed.
Lemma maxover_dist f g n d : (0 < n)%nat -> (forall a, (a < n)%nat -> Rabs (f a - g a) <= d) -> Rabs (maxover f n - maxover g n) <= d.
Proof.
  intros P H. destruct (maxover_spec f n P) as [(a & Ha & Ea) Mf], (maxover_spec g n P) as [(b & Hb & Eb) Mg].
  pose proof (H a Ha) as H1. pose proof (H b Hb) as H2. pose proof (Mf b Hb). pose proof (Mg a Ha). rewrite Ea, Eb in *.
  apply Rabs_le. pose proof (Rle_abs (f a - g a)). pose proof (Rle_abs (- (f b - g b))) as X. rewrite Rabs_Ropp in X. lra.
Qed.

Lemma pairs_length {A} (q : list A) : length (pairs q) = (length q - 1)%nat.
Proof. unfold pairs. rewrite combine_length. destruct q; cbn [tl length]; lia. Qed.
Lemma split_sizes k : ((0 <? k * 3 / 4) && (0 <? k - k * 3 / 4))%nat%bool = true <-> (2 <= k)%nat.
Proof.
  rewrite Bool.andb_true_iff, !Nat.ltb_lt. pose proof (Nat.div_mod (k * 3) 4 ltac:(lia)). pose proof (Nat.mod_upper_bound (k * 3) 4 ltac:(lia)). lia.
Qed.

Section NFQ.
Context {St : Type} (rowOf : St -> nat) (inputOf : St -> vec) (net : vec -> vec -> R) (gamma : R) (n : nat).
Hypothesis n_pos : (0 < n)%nat.
Notation experience := (@experience St).
Notation samples := (nfqSamples rowOf inputOf net gamma n).
Notation halfway := (halfway inputOf net gamma n).
Lemma sample_ok p s a r (x : experience) : (a < n)%nat -> nfqSample rowOf inputOf net gamma n p (s, a, r) (fst (fst x)) = Ok (halfway p ((s, a, r), x)).
Proof.
  intros H. destruct x as [[s' a'] r']. unfold nfqSample. rewrite netValue_ok, hot_eq by exact H. cbn [rbind fst]. rewrite netValues. cbn [rbind].
  assert (V : vmax (map (netWorth inputOf net n p s') (seq 0 n)) = maxover (netWorth inputOf net n p s') n) by (apply vmax_maxover; exact n_pos).
  destruct (map (netWorth inputOf net n p s') (seq 0 n)) as [|z zs] eqn:E.
  - exfalso. apply (f_equal (@length R)) in E. rewrite map_length, seq_length in E. cbn in E. lia.
  - rewrite V. unfold Explorers_Spec.halfway. f_equal. f_equal. field.
Qed.
Lemma sample_bad p s a r s' : (n <= a)%nat -> nfqSample rowOf inputOf net gamma n p (s, a, r) s' = Err IndexError.
Proof. intros H. unfold nfqSample, netValue. rewrite hot_bad by exact H. reflexivity. Qed.
Definition valid (t : experience * experience) : Prop := (snd (fst (fst t)) < n)%nat.
Lemma valid_dec t : {valid t} + {~ valid t}.
Proof. unfold valid. apply lt_dec. Qed.
Lemma seq_ok p : forall q l, Forall valid (pairs (l :: q)) -> nfqSeq rowOf inputOf net gamma n p (Some l) q = Ok (map (halfway p) (pairs (l :: q))).
Proof.
  induction q as [|[[s a] r] q IH]; intros [[s0 a0] r0] F; [reflexivity |]. unfold pairs in *. cbn [tl combine] in F. apply Forall_cons_iff in F as [V F].
  cbn [nfqSeq]. change s with (fst (fst (s, a, r))) at 1. rewrite sample_ok by exact V. cbn [rbind]. rewrite IH by exact F. reflexivity.
Qed.
Lemma seq_bad p : forall q l, ~ Forall valid (pairs (l :: q)) -> nfqSeq rowOf inputOf net gamma n p (Some l) q = Err IndexError.
Proof.
  induction q as [|[[s a] r] q IH]; intros [[s0 a0] r0] F; [exfalso; apply F; constructor |]. unfold pairs in *. cbn [tl combine] in F. cbn [nfqSeq].
  destruct (valid_dec ((s0, a0, r0), (s, a, r))) as [V | V].
  - change s with (fst (fst (s, a, r))) at 1. rewrite sample_ok by exact V. cbn [rbind]. rewrite IH; [reflexivity |]. intros G. apply F. constructor; assumption.
  - rewrite sample_bad; [reflexivity |]. unfold valid in V. cbn in V. lia.
Qed.
Lemma seq0_ok p q : Forall valid (pairs q) -> nfqSeq rowOf inputOf net gamma n p None q = Ok (map (halfway p) (pairs q)).
Proof. destruct q as [|[[s a] r] q]; intros F; [reflexivity |]. cbn [nfqSeq]. apply seq_ok, F. Qed.
Lemma seq0_bad p q : ~ Forall valid (pairs q) -> nfqSeq rowOf inputOf net gamma n p None q = Err IndexError.
Proof. destruct q as [|[[s a] r] q]; intros F; [exfalso; apply F; constructor |]. cbn [nfqSeq]. apply seq_bad, F. Qed.
Lemma samples_ok p seqs : Forall valid (transitions seqs) -> samples p seqs = Ok (map (halfway p) (transitions seqs)).
Proof.
  induction seqs as [|q seqs IH]; intros F; [reflexivity |]. unfold transitions in *. cbn [flat_map] in F. apply Forall_app in F as [F1 F2]. cbn [nfqSamples].
  rewrite seq0_ok by exact F1. cbn [rbind]. rewrite IH by exact F2. cbn [rbind flat_map]. rewrite map_app. reflexivity.
Qed.
Lemma samples_bad p seqs : ~ Forall valid (transitions seqs) -> samples p seqs = Err IndexError.
Proof.
  induction seqs as [|q seqs IH]; intros F; [exfalso; apply F; constructor |]. unfold transitions in *. cbn [flat_map] in F. cbn [nfqSamples].
  destruct (Forall_dec valid valid_dec (pairs q)) as [V | V]; [| rewrite seq0_bad by exact V; reflexivity]. rewrite seq0_ok by exact V. cbn [rbind].
  rewrite IH; [reflexivity |]. intros G. apply F, Forall_app. split; assumption.
Qed.
Lemma samples_iff p seqs ss : samples p seqs = Ok ss <-> Forall valid (transitions seqs) /\ ss = map (halfway p) (transitions seqs).
Proof.
  split.
  - intros H. destruct (Forall_dec valid valid_dec (transitions seqs)) as [V | V]; [| rewrite samples_bad in H by exact V; discriminate].
    rewrite samples_ok in H by exact V. injection H as <-. auto.
  - intros [V ->]. apply samples_ok, V.
Qed.

(** ** what the end of an episode contributes *)
Lemma pairs_end {A} (l : list A) x y : map fst (pairs (l ++ [x])) = map fst (pairs (l ++ [y])).
Proof.
  unfold pairs. induction l as [|z l IH]; [reflexivity |]. destruct l as [|w l]; [reflexivity |]. cbn [app tl combine map fst] in *. f_equal. exact IH.
Qed.
Lemma halfway_end p l s a r a' r' : map (halfway p) (pairs (l ++ [(s, a, r)])) = map (halfway p) (pairs (l ++ [(s, a', r')])).
Proof.
  unfold pairs. induction l as [|z l IH]; [reflexivity |]. destruct l as [|w l]; [destruct z as [[s0 a0] r0]; reflexivity |]. cbn [app tl combine map] in *. f_equal. exact IH.
Qed.
Lemma valid_end l x y : Forall valid (pairs (l ++ [x])) -> Forall valid (pairs (l ++ [y])).
Proof.
  intros H. assert (G : Forall (fun e : experience => (snd (fst e) < n)%nat) (map fst (pairs (l ++ [y])))).
  { rewrite (pairs_end l y x). apply Forall_map. exact H. } apply Forall_map in G. exact G.
Qed.
Lemma samples_end p qs qs' : Forall2 same_but_end qs qs' -> samples p qs = samples p qs'.
Proof.
  induction 1 as [|q q' qs qs' H _ IH]; [reflexivity |]. cbn [nfqSamples]. assert (E : nfqSeq rowOf inputOf net gamma n p None q = nfqSeq rowOf inputOf net gamma n p None q').
  { destruct H as [-> | (l & s & a & r & a' & r' & -> & ->)]; [reflexivity |].
    destruct (Forall_dec valid valid_dec (pairs (l ++ [(s, a, r)]))) as [V | V].
    - rewrite !seq0_ok by (try exact V; eapply valid_end; exact V). f_equal. apply halfway_end.
    - rewrite !seq0_bad; [reflexivity | intros G; apply V; eapply valid_end; exact G | exact V]. }
  rewrite E, IH. reflexivity.
Qed.
(** ** convergence *)
Section Limit.
Variable seqs : list (list experience).
Hypothesis gamma01 : 0 <= gamma < 1.
Hypothesis COV : covered n seqs.
Let rho := (1 + gamma) / 2.
Definition upd_of (v : St -> nat -> R) (t : experience * experience) : R :=
  let '(s, a, r, (s', _, _)) := t in (v s a + (r + gamma * maxover (v s') n)) / 2.
Definition at_of (v : St -> nat -> R) (t : experience * experience) : R := let '(s, a, _, _) := t in v s a.
Lemma contract v w d : (forall t, In t (transitions seqs) -> Rabs (at_of v t - at_of w t) <= d) ->
  forall t, In t (transitions seqs) -> Rabs (upd_of v t - upd_of w t) <= rho * d.
Proof.
  intros H [[[s a] r] [[s' a'] r']] I. cbn [upd_of]. pose proof (H _ I) as H1. cbn [at_of] in H1.
  assert (H2 : Rabs (maxover (v s') n - maxover (w s') n) <= d).
  { apply maxover_dist; [exact n_pos |]. intros b Hb. destruct (COV _ _ _ _ _ I Hb) as (r1 & y & Iy). exact (H _ Iy). }
  replace ((v s a + (r + gamma * maxover (v s') n)) / 2 - (w s a + (r + gamma * maxover (w s') n)) / 2)
    with ((v s a - w s a) / 2 + gamma / 2 * (maxover (v s') n - maxover (w s') n)) by field.
  apply Rabs_le. unfold rho. assert (B1 := Rle_abs (v s a - w s a)). assert (B2 := Rle_abs (- (v s a - w s a))). rewrite Rabs_Ropp in B2.
  assert (B3 := Rle_abs (maxover (v s') n - maxover (w s') n)). assert (B4 := Rle_abs (- (maxover (v s') n - maxover (w s') n))). rewrite Rabs_Ropp in B4.
  set (x := v s a - w s a) in *. set (z := maxover (v s') n - maxover (w s') n) in *. nra.
Qed.
Lemma rho01 : 0 <= rho < 1.
Proof. unfold rho. lra. Qed.
Lemma finite_bound (f : experience * experience -> R) l : exists C, 0 <= C /\ forall t, In t l -> f t <= C.
Proof.
  induction l as [|x l (C & C0 & H)]; [exists 0; split; [lra | intros t []] |]. exists (Rmax C (f x)). split; [apply Rle_trans with C; [exact C0 | apply Rmax_l] |].
  intros t [-> | Ht]; [apply Rmax_r | apply Rle_trans with C; [apply H, Ht | apply Rmax_l]].
Qed.
Lemma small x C : (forall k, x <= C * rho ^ k) -> x <= 0.
Proof.
  intros H. destruct (Rle_dec x 0) as [L|L]; [exact L |]. exfalso. assert (X : 0 < x) by lra. pose proof (H 0%nat) as H0. cbn in H0. assert (C0 : 0 < C) by lra.
  destruct (pow_lt_1_zero rho ltac:(rewrite Rabs_pos_eq; apply rho01) (x / C) ltac:(apply Rdiv_lt_0_compat; assumption)) as (N & HN). specialize (HN N (le_n N)).
  rewrite Rabs_pos_eq in HN by (apply pow_le, rho01). specialize (H N). assert (C * rho ^ N < C * (x / C)) by (apply Rmult_lt_compat_l; assumption). replace (C * (x / C)) with x in * by (field; lra). lra.
Qed.
(** solutions of the equation are equal on the transitions *)
Lemma fixed_unique v w : (forall t, In t (transitions seqs) -> at_of v t = upd_of v t) -> (forall t, In t (transitions seqs) -> at_of w t = upd_of w t) ->
  forall t, In t (transitions seqs) -> at_of v t = at_of w t.
Proof.
  intros V W. destruct (finite_bound (fun t => Rabs (at_of v t - at_of w t)) (transitions seqs)) as (C & C0 & HC).
  assert (K : forall k t, In t (transitions seqs) -> Rabs (at_of v t - at_of w t) <= C * rho ^ k).
  { induction k as [|k IH]; intros t I; [cbn; rewrite Rmult_1_r; apply HC, I |]. rewrite (V t I), (W t I). replace (C * rho ^ S k) with (rho * (C * rho ^ k)) by (cbn; ring). apply contract; [exact IH | exact I]. }
  intros t I. assert (Z : Rabs (at_of v t - at_of w t) <= 0) by (apply small with C; intros k; apply K, I). pose proof (Rabs_pos (at_of v t - at_of w t)) as P.
  assert (E : Rabs (at_of v t - at_of w t) = 0) by lra. apply Rminus_diag_uniq. destruct (Req_dec (at_of v t - at_of w t) 0) as [Q|Q]; [exact Q |]. apply Rabs_no_R0 in Q. contradiction.
Qed.
Lemma bellman_fixed v : bellman gamma n seqs v <-> forall t, In t (transitions seqs) -> at_of v t = upd_of v t.
Proof.
  split.
  - intros B [[[s a] r] [[s' a'] r']] I. cbn [at_of upd_of]. rewrite <- (B _ _ _ _ _ _ I). field.
  - intros F s a r s' a' r' I. specialize (F _ I). cbn [at_of upd_of] in F. lra.
Qed.
(** a sequence of values, each the update of the one before *)
Section Run.
Variable v : nat -> St -> nat -> R.
Hypothesis STEP : forall k t, In t (transitions seqs) -> at_of (v (S k)) t = upd_of (v k) t.
Lemma steps : exists C, 0 <= C /\ forall k t, In t (transitions seqs) -> Rabs (at_of (v (S k)) t - at_of (v k) t) <= C * rho ^ k.
Proof.
  destruct (finite_bound (fun t => Rabs (at_of (v 1%nat) t - at_of (v 0%nat) t)) (transitions seqs)) as (C & C0 & HC). exists C. split; [exact C0 |].
  induction k as [|k IH]; intros t I; [cbn; rewrite Rmult_1_r; apply HC, I |]. rewrite (STEP (S k) t I), (STEP k t I). replace (C * rho ^ S k) with (rho * (C * rho ^ k)) by (cbn; ring).
  apply contract; [exact IH | exact I].
Qed.
Lemma tails : exists C, 0 <= C /\ forall j k t, In t (transitions seqs) -> Rabs (at_of (v (k + j)%nat) t - at_of (v k) t) <= C * rho ^ k.
Proof.
  destruct steps as (C & C0 & HC). pose proof rho01 as R01. assert (I0 : 0 < / (1 - rho)) by (apply Rinv_0_lt_compat; lra).
  exists (C * / (1 - rho)). split; [apply Rmult_le_pos; lra |]. intros j k t I.
  assert (G : Rabs (at_of (v (k + j)%nat) t - at_of (v k) t) <= C * rho ^ k * ((1 - rho ^ j) * / (1 - rho))).
  { induction j as [|j IH].
    - rewrite Nat.add_0_r, Rminus_diag_eq, Rabs_R0 by reflexivity. cbn. lra.
    - rewrite Nat.add_succ_r. replace (at_of (v (S (k + j))) t - at_of (v k) t) with ((at_of (v (S (k + j))) t - at_of (v (k + j)%nat) t) + (at_of (v (k + j)%nat) t - at_of (v k) t)) by ring.
      eapply Rle_trans; [apply Rabs_triang |]. pose proof (HC (k + j)%nat t I) as H1. rewrite pow_add in H1.
      replace (C * rho ^ k * ((1 - rho ^ S j) * / (1 - rho))) with (C * (rho ^ k * rho ^ j) + C * rho ^ k * ((1 - rho ^ j) * / (1 - rho))) by (cbn; field; lra). lra. }
  eapply Rle_trans; [exact G |]. replace (C * / (1 - rho) * rho ^ k) with (C * rho ^ k * (1 * / (1 - rho))) by ring.
  apply Rmult_le_compat_l; [apply Rmult_le_pos; [exact C0 | apply pow_le, R01] |]. apply Rmult_le_compat_r; [lra |]. pose proof (pow_le rho j (proj1 R01)). lra.
Qed.
Lemma limits : exists C, 0 <= C /\ forall t, In t (transitions seqs) -> exists l, forall k, Rabs (at_of (v k) t - l) <= C * rho ^ k.
Proof.
  destruct tails as (C & C0 & HC). exists C. split; [exact C0 |]. intros t I. pose proof rho01 as R01.
  destruct (R_complete (fun k => at_of (v k) t)) as (l & Hl).
  - intros eps He. destruct (Req_dec C 0) as [Z|Z].
    + exists 0%nat. intros i j _ _. unfold R_dist. assert (E : forall k, at_of (v k) t = at_of (v 0%nat) t).
      { intros k. pose proof (HC k 0%nat t I) as H. rewrite Z, Rmult_0_l in H. cbn [Nat.add] in H. pose proof (Rabs_pos (at_of (v k) t - at_of (v 0%nat) t)).
        apply Rminus_diag_uniq. destruct (Req_dec (at_of (v k) t - at_of (v 0%nat) t) 0) as [Q|Q]; [exact Q |]. apply Rabs_no_R0 in Q. lra. }
      rewrite (E i), (E j), Rminus_diag_eq, Rabs_R0 by reflexivity. lra.
    + assert (CP : 0 < C) by lra. destruct (pow_lt_1_zero rho ltac:(rewrite Rabs_pos_eq; apply R01) (eps / (2 * C)) ltac:(apply Rdiv_lt_0_compat; lra)) as (N & HN).
      specialize (HN N (le_n N)). rewrite Rabs_pos_eq in HN by (apply pow_le, R01). assert (B : C * rho ^ N < eps / 2).
      { replace (eps / 2) with (C * (eps / (2 * C))) by (field; lra). apply Rmult_lt_compat_l; assumption. }
      exists N. intros i j Hi Hj. unfold R_dist. replace i with (N + (i - N))%nat by lia. replace j with (N + (j - N))%nat by lia.
      pose proof (HC (i - N)%nat N t I) as H1. pose proof (HC (j - N)%nat N t I) as H2. rewrite Rabs_minus_sym in H2.
      replace (at_of (v (N + (i - N))%nat) t - at_of (v (N + (j - N))%nat) t) with ((at_of (v (N + (i - N))%nat) t - at_of (v N) t) + (at_of (v N) t - at_of (v (N + (j - N))%nat) t)) by ring.
      eapply Rle_lt_trans; [apply Rabs_triang |]. lra.
  - exists l. intros k. apply le_epsilon. intros eps He. destruct (Hl eps He) as (N & HN). specialize (HN (k + N)%nat ltac:(lia)). unfold R_dist in HN.
    pose proof (HC N k t I) as H. rewrite Rabs_minus_sym in H. replace (at_of (v k) t - l) with ((at_of (v k) t - at_of (v (k + N)%nat) t) + (at_of (v (k + N)%nat) t - l)) by ring.
    eapply Rle_trans; [apply Rabs_triang |]. lra.
Qed.
End Run.
End Limit.
End NFQ.
