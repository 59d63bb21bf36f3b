(** The kernel is positive semidefinite; predictions of Gaussian processes. *)
From Coq Require Import Reals Lra.
From Verif Require Import Base Gauss_Model Gauss_Spec Gauss_Proofs.
Local Open Scope R_scope.

(** ** Powers of scalar products, and their series *)
Lemma square_sum n c : rsig n (fun i => rsig n (fun j => c i * c j)) = rsig n c * rsig n c.
Proof. rewrite (rsig_ext n _ (fun i => c i * rsig n c)) by (intros; now rewrite rsig_scale). now rewrite rsig_scale_r. Qed.
Lemma pow_psd n dim (y : nat -> nat -> R) : forall k c, 0 <= rsig n (fun i => rsig n (fun j => c i * c j * (rsig dim (fun a => y i a * y j a)) ^ k)).
Proof.
  induction k as [|k IH]; intro c.
  - rewrite (rsig_ext n _ (fun i => rsig n (fun j => c i * c j))) by (intros; apply rsig_ext; intros; cbn [pow]; lra). rewrite square_sum. apply Rle_0_sqr.
  - rewrite (rsig_ext n _ (fun i => rsig dim (fun a => rsig n (fun j => (c i * y i a) * (c j * y j a) * (rsig dim (fun a => y i a * y j a)) ^ k)))).
    + rewrite rsig_swap. apply rsig_pos. intros a Ha. apply (IH (fun i => c i * y i a)).
    + intros i Hi. rewrite rsig_swap. apply rsig_ext. intros j Hj. cbn [pow].
      rewrite (rsig_ext dim (fun a => c i * y i a * (c j * y j a) * rsig dim (fun a0 => y i a0 * y j a0) ^ k) (fun a => y i a * y j a * (c i * c j * rsig dim (fun a0 => y i a0 * y j a0) ^ k))) by (intros; ring). rewrite rsig_scale_r. ring.
Qed.
Lemma cv_const c : Un_cv (fun _ => c) c.
Proof. intros e He. exists 0%nat. intros m _. unfold R_dist. rewrite Rminus_diag_eq, Rabs_R0 by reflexivity. exact He. Qed.
Lemma cv_rsig n (u : nat -> nat -> R) l : (forall i, (i < n)%nat -> Un_cv (u i) (l i)) -> Un_cv (fun N => rsig n (fun i => u i N)) (rsig n l).
Proof.
  induction n as [|n IH]; intro H; cbn [rsig]; [apply cv_const|]. apply (CV_plus (fun N => rsig n (fun i => u i N)) (u n)); auto.
Qed.
Lemma exp_psd n dim (y : nat -> nat -> R) c : 0 <= rsig n (fun i => rsig n (fun j => c i * c j * exp (rsig dim (fun a => y i a * y j a)))).
Proof.
  set (t := fun i j => rsig dim (fun a => y i a * y j a)). set (u := fun i j N => c i * c j * sum_f_R0 (fun k => / INR (fact k) * t i j ^ k) N).
  assert (CV : Un_cv (fun N => rsig n (fun i => rsig n (fun j => u i j N))) (rsig n (fun i => rsig n (fun j => c i * c j * exp (t i j))))).
  { apply (cv_rsig n (fun i N => rsig n (fun j => u i j N)) (fun i => rsig n (fun j => c i * c j * exp (t i j)))). intros i Hi.
    apply (cv_rsig n (u i) (fun j => c i * c j * exp (t i j))). intros j Hj. unfold u. apply (CV_mult (fun _ => c i * c j)); [apply cv_const|].
    unfold exp. destruct (exist_exp (t i j)) as (x & Hx). exact Hx. }
  apply (@Rle_cv_lim (fun _ => 0) (fun N => rsig n (fun i => rsig n (fun j => u i j N)))); [| apply cv_const | exact CV].
  intro N. assert (E : rsig n (fun i => rsig n (fun j => u i j N)) = sum_f_R0 (fun k => / INR (fact k) * rsig n (fun i => rsig n (fun j => c i * c j * t i j ^ k))) N).
  { induction N as [|N IH].
    - cbn [sum_f_R0]. rewrite <- rsig_scale. apply rsig_ext. intros i Hi. rewrite <- rsig_scale. apply rsig_ext. intros j Hj. unfold u. cbn [sum_f_R0]. lra.
    - change (sum_f_R0 (fun k => / INR (fact k) * rsig n (fun i => rsig n (fun j => c i * c j * t i j ^ k))) (S N)) with
        (sum_f_R0 (fun k => / INR (fact k) * rsig n (fun i => rsig n (fun j => c i * c j * t i j ^ k))) N + / INR (fact (S N)) * rsig n (fun i => rsig n (fun j => c i * c j * t i j ^ S N))).
      rewrite <- IH. rewrite <- rsig_scale, <- rsig_plus. apply rsig_ext. intros i Hi. rewrite <- rsig_scale, <- rsig_plus. apply rsig_ext. intros j Hj. unfold u.
      change (sum_f_R0 (fun k => / INR (fact k) * t i j ^ k) (S N)) with (sum_f_R0 (fun k => / INR (fact k) * t i j ^ k) N + / INR (fact (S N)) * t i j ^ S N). lra. }
  rewrite E. apply cond_pos_sum. intro k. apply Rmult_le_pos; [left; apply Rinv_0_lt_compat, INR_fact_lt_0 | apply pow_psd].
Qed.

(** ** The kernel *)
Lemma dist_sq a b : dist a b ^ 2 = rsig (length a) (fun k => (at_r a k - at_r b k) ^ 2).
Proof. unfold dist. apply pow2_sqrt. apply rsig_pos. intros. apply pow2_ge_0. Qed.
Lemma dist_sym a b : length a = length b -> dist a b = dist b a.
Proof. intro L. unfold dist. rewrite L. f_equal. apply rsig_ext. intros. ring. Qed.
Lemma dist_self a : dist a a = 0.
Proof. unfold dist. rewrite rsig_0; [apply sqrt_0|]. intros. ring. Qed.
Lemma dist_pos a b : 0 <= dist a b.
Proof. apply sqrt_pos. Qed.
Lemma kernel_sym h a b : length a = length b -> kernel h a b = kernel h b a.
Proof. intro L. unfold kernel. now rewrite dist_sym. Qed.
Lemma kernel_self h a : kernel h a a = snd h ^ 2.
Proof. unfold kernel. rewrite dist_self. replace (- 1 / (2 * fst h ^ 2) * 0 ^ 2) with 0 by ring. rewrite exp_0. ring. Qed.
Lemma kernel_factor h dim a b : fst h <> 0 -> length a = dim -> length b = dim -> kernel h a b =
  (snd h * exp (- rsig dim (fun k => at_r a k ^ 2) / (2 * fst h ^ 2))) * (snd h * exp (- rsig dim (fun k => at_r b k ^ 2) / (2 * fst h ^ 2))) * exp (rsig dim (fun k => (at_r a k / fst h) * (at_r b k / fst h))).
Proof.
  intros Hl La Lb. unfold kernel. rewrite dist_sq, La. set (A := rsig dim (fun k => at_r a k ^ 2)). set (B := rsig dim (fun k => at_r b k ^ 2)). set (C := rsig dim (fun k => at_r a k * at_r b k)).
  assert (E : rsig dim (fun k => (at_r a k - at_r b k) ^ 2) = A + B - 2 * C) by (unfold A, B, C; rewrite <- rsig_plus, <- rsig_scale, <- rsig_minus; apply rsig_ext; intros; ring).
  assert (E2 : rsig dim (fun k => (at_r a k / fst h) * (at_r b k / fst h)) = C / fst h ^ 2).
  { unfold C, Rdiv. rewrite <- rsig_scale_r. apply rsig_ext. intros. field. exact Hl. }
  rewrite E, E2. replace (- 1 / (2 * fst h ^ 2) * (A + B - 2 * C)) with (- A / (2 * fst h ^ 2) + (- B / (2 * fst h ^ 2) + C / fst h ^ 2)) by (field; exact Hl).
  rewrite !exp_plus. ring.
Qed.
Lemma at_p_length dim pts i : Forall (fun x => length x = dim) pts -> (i < length pts)%nat -> length (at_p pts i) = dim.
Proof. intros F H. rewrite Forall_forall in F. apply F. apply nth_In. exact H. Qed.
Lemma kernel_semidefinite h dim pts : fst h <> 0 -> Forall (fun x => length x = dim) pts -> semidefinite (length pts) (fun i j => kernel h (at_p pts i) (at_p pts j)).
Proof.
  intros Hl F x. unfold quad. set (e := fun i => snd h * exp (- rsig dim (fun k => at_r (at_p pts i) k ^ 2) / (2 * fst h ^ 2))).
  rewrite (rsig_ext (length pts) _ (fun i => rsig (length pts) (fun j => (x i * e i) * (x j * e j) * exp (rsig dim (fun k => (at_r (at_p pts i) k / fst h) * (at_r (at_p pts j) k / fst h)))))).
  - apply (exp_psd (length pts) dim (fun i a => at_r (at_p pts i) a / fst h) (fun i => x i * e i)).
  - intros i Hi. apply rsig_ext. intros j Hj. rewrite (kernel_factor h dim) by (auto using at_p_length). fold (e i) (e j). ring.
Qed.

(** ** Noise *)
Lemma quad_noise n A d x : quad n (fun i j => A i j + d i * delta i j) x = quad n A x + rsig n (fun i => d i * x i ^ 2).
Proof.
  unfold quad. rewrite <- rsig_plus. apply rsig_ext. intros i Hi. rewrite (rsig_ext n _ (fun j => x i * A i j * x j + delta i j * (d i * x i * x j))) by (intros; ring).
  rewrite rsig_plus. rewrite rsig_delta by exact Hi. ring.
Qed.
Lemma quad_ext n A B x : (forall i j, (i < n)%nat -> (j < n)%nat -> A i j = B i j) -> quad n A x = quad n B x.
Proof. intro H. apply rsig_ext. intros i Hi. apply rsig_ext. intros j Hj. now rewrite H. Qed.
Lemma noise_definite n A d : semidefinite n A -> (forall i, (i < n)%nat -> 0 < d i) -> definite n (fun i j => A i j + d i * delta i j).
Proof.
  intros SA Hd x (i & Hi & Nx). rewrite quad_noise. specialize (SA x). assert (0 < d i * x i ^ 2). { apply Rmult_lt_0_compat; [auto|]. assert (x i ^ 2 = x i * x i) as -> by ring. destruct (Rdichotomy _ _ Nx); nra. }
  pose proof (rsig_member n (fun i => d i * x i ^ 2) i Hi) as M. cbn beta in M. specialize (M ltac:(intros j Hj; apply Rmult_le_pos; [left; auto | apply pow2_ge_0])). lra.
Qed.
(** the matrix of the equations: the kernel and some noise on the diagonal *)
Definition isNoisy (s : gp) (K : nat -> nat -> R) (d : nat -> R) : Prop :=
  (forall i, (i < length (g_trainx s))%nat -> at_r (g_noise s) i <= d i) /\
  forall i j, (i < length (g_trainx s))%nat -> (j < length (g_trainx s))%nat -> K i j = kernel (g_hyper s) (at_p (g_trainx s) i) (at_p (g_trainx s) j) + d i * delta i j.
Lemma noisy_is s : isNoisy s (noisy s) (at_r (g_noise s)).
Proof. split; [intros; lra|]. intros i j Hi Hj. unfold noisy, delta. destruct (Nat.eqb_spec i j) as [->|]; lra. Qed.
Lemma auto_pos xs ys i : 0 <= autoNoise xs ys i.
Proof.
  apply rsig_pos. intros j Hj. destruct (Rlt_dec _ _); [lra|]. apply Rmult_le_pos; [apply Rabs_pos | left; apply Rinv_0_lt_compat, exp_pos].
Qed.
Lemma auto_is s : isNoisy s (fun i j => noisy s i j + if (i =? j)%nat then autoNoise (g_trainx s) (g_trainy s) i else 0) (fun i => at_r (g_noise s) i + autoNoise (g_trainx s) (g_trainy s) i).
Proof.
  split; [intros i Hi; pose proof (auto_pos (g_trainx s) (g_trainy s) i); lra|]. intros i j Hi Hj. rewrite (proj2 (noisy_is s) i j Hi Hj). unfold delta. destruct (i =? j)%nat; lra.
Qed.
Section System.
Context (s : gp) (K : nat -> nat -> R) (d : nat -> R).
Context (C : consistent s) (Hl : fst (g_hyper s) <> 0) (N : isNoisy s K d).
Notation n := (length (g_trainx s)).
Lemma d_pos i : (i < n)%nat -> 0 < d i.
Proof.
  intro Hi. apply Rlt_le_trans with (at_r (g_noise s) i); [|apply N, Hi]. destruct C as (_ & L & _ & F & _). rewrite Forall_forall in F. apply F. apply nth_In. lia.
Qed.
Lemma K_definite : definite n K.
Proof.
  intros x Hx. rewrite (quad_ext n K (fun i j => kernel (g_hyper s) (at_p (g_trainx s) i) (at_p (g_trainx s) j) + d i * delta i j)) by apply N.
  apply noise_definite; [|apply d_pos|exact Hx]. apply (kernel_semidefinite _ (g_indim s)); [exact Hl | apply C].
Qed.
Lemma K_regular : regular n K.
Proof. apply definite_regular, K_definite. Qed.
Lemma K_symmetric : symmetric n K.
Proof.
  intros i j Hi Hj. rewrite (proj2 N i j Hi Hj), (proj2 N j i Hj Hi), (delta_sym j i). f_equal; [apply kernel_sym; destruct C as (_ & _ & F & _); rewrite !(at_p_length (g_indim s)); auto|].
  unfold delta. destruct (Nat.eqb_spec i j) as [->|]; lra.
Qed.
Context (solve : nat -> (nat -> nat -> R) -> (nat -> R) -> nat -> R) (inv : nat -> (nat -> nat -> R) -> nat -> nat -> R).
Lemma pred_length : length (g_pred (predict solve inv s K)) = length (g_testx s).
Proof. unfold predict. cbn [g_pred]. rewrite map_length, seq_length. reflexivity. Qed.
Lemma pred_at t : (t < length (g_testx s))%nat -> at_r (g_pred (predict solve inv s K)) t =
  g_mean s + rsig n (fun i => kernel (g_hyper s) (at_p (g_trainx s) i) (at_p (g_testx s) t) * solve n K (fun i => at_r (g_trainy s) i - g_mean s) i).
Proof.
  intro Ht. unfold predict, at_r at 1. cbn [g_pred].
  match goal with |- nth t (map ?f ?l) 0 = _ => rewrite (nth_indep (map f l) 0 (f 0%nat)) by (rewrite map_length, seq_length; exact Ht); rewrite (map_nth f l 0%nat t) end.
  rewrite seq_nth by exact Ht. reflexivity.
Qed.
Lemma residual (a : nat -> R) t i : (i < n)%nat -> at_p (g_testx s) t = at_p (g_trainx s) i -> (forall j, (j < n)%nat -> rsig n (fun k => K j k * a k) = at_r (g_trainy s) j - g_mean s) ->
  g_mean s + rsig n (fun j => kernel (g_hyper s) (at_p (g_trainx s) j) (at_p (g_testx s) t) * a j) = at_r (g_trainy s) i - d i * a i.
Proof.
  intros Hi E Ha. specialize (Ha i Hi). rewrite (rsig_ext n _ (fun k => kernel (g_hyper s) (at_p (g_trainx s) i) (at_p (g_trainx s) k) * a k + delta i k * (d i * a k))) in Ha by (intros k Hk; rewrite (proj2 N i k Hi Hk); ring).
  rewrite rsig_plus, (rsig_delta n i (fun k => d i * a k)) in Ha by exact Hi. rewrite E.
  rewrite (rsig_ext n (fun j => kernel _ (at_p (g_trainx s) j) _ * a j) (fun k => kernel (g_hyper s) (at_p (g_trainx s) i) (at_p (g_trainx s) k) * a k)); [lra|].
  intros k Hk. rewrite kernel_sym; [reflexivity|]. destruct C as (_ & _ & F & _). rewrite !(at_p_length (g_indim s)); auto.
Qed.
Context (HI : inverts_all n inv) (Ht : Forall (fun x => length x = g_indim s) (g_testx s)).
Notation m := (length (g_testx s)).
Notation B := (inv n K).
Notation kt := (fun i t => kernel (g_hyper s) (at_p (g_trainx s) i) (at_p (g_testx s) t)).
Notation cov := (el (g_cov (predict solve inv s K))).
Lemma B_inv : inverse_of n K B.
Proof. apply HI, K_regular. Qed.
Lemma B_sym : symmetric n B.
Proof. apply (inverse_sym n K); [apply K_symmetric | apply B_inv]. Qed.
Lemma cov_at t t' : cov t t' = kernel (g_hyper s) (at_p (g_testx s) t) (at_p (g_testx s) t') - rsig n (fun i => kt i t * rsig n (fun j => B i j * kt j t')).
Proof. reflexivity. Qed.
Lemma cov_sym : symmetric m cov.
Proof.
  intros t t' H1 H2. rewrite !cov_at. f_equal; [apply kernel_sym; rewrite !(at_p_length (g_indim s)); auto|].
  rewrite (rsig_ext n _ (fun i => rsig n (fun j => kt i t * B i j * kt j t'))) by (intros; rewrite <- rsig_scale; apply rsig_ext; intros; ring). rewrite rsig_swap. apply rsig_ext. intros i Hi.
  rewrite <- rsig_scale. apply rsig_ext. intros j Hj. rewrite (B_sym i j Hi Hj). ring.
Qed.
(** what an inverse gives: with z = B r, K z = r *)
Lemma K_B r i : (i < n)%nat -> rsig n (fun j => K i j * rsig n (fun l => B j l * r l)) = r i.
Proof.
  intro Hi. rewrite (rsig_ext n _ (fun j => rsig n (fun l => K i j * B j l * r l))) by (intros; rewrite <- rsig_scale; apply rsig_ext; intros; ring). rewrite rsig_swap.
  rewrite (rsig_ext n _ (fun l => delta i l * r l)); [apply rsig_delta; exact Hi|]. intros l Hl'. rewrite rsig_scale_r. f_equal. apply (B_inv i l Hi Hl').
Qed.
Lemma quad_B r : rsig n (fun i => r i * rsig n (fun j => B i j * r j)) = quad n K (fun i => rsig n (fun j => B i j * r j)).
Proof. rewrite quad_app. apply rsig_ext. intros i Hi. unfold app. rewrite K_B by exact Hi. ring. Qed.
Lemma K_semi x : 0 <= quad n K x.
Proof.
  destruct (zero_or_notR n x) as [Z|E]; [|left; apply K_definite, E]. rewrite quad_app, rsig_0; [lra|]. intros i Hi. rewrite (Z i Hi). ring.
Qed.
Lemma cov_diag t : (t < m)%nat -> cov t t <= snd (g_hyper s) ^ 2.
Proof. intro H. rewrite cov_at, kernel_self. pose proof (quad_B (fun i => kt i t)) as Q. cbn beta in Q. rewrite Q. pose proof (K_semi (fun i => rsig n (fun j => B i j * kt j t))). lra. Qed.
Lemma rsig_app a b f : rsig (a + b) f = rsig a f + rsig b (fun i => f (a + i)%nat).
Proof. induction b as [|b IH]; [rewrite Nat.add_0_r; cbn [rsig]; lra|]. rewrite Nat.add_succ_r. cbn [rsig]. rewrite IH. lra. Qed.
Lemma cov_semidefinite : semidefinite m cov.
Proof.
  intro x. set (r := fun i => rsig m (fun t => kt i t * x t)). set (z := fun i => rsig n (fun j => B i j * r j)). set (rz := rsig n (fun i => r i * z i)).
  set (tt := fun t t' => kernel (g_hyper s) (at_p (g_testx s) t) (at_p (g_testx s) t')).
  assert (Qc : quad m cov x = quad m tt x - rz).
  { unfold quad. assert (E : rz = rsig m (fun t => rsig m (fun t' => x t * rsig n (fun i => kt i t * rsig n (fun j => B i j * kt j t')) * x t'))).
    { unfold rz. rewrite (rsig_ext n _ (fun i => rsig m (fun t => kt i t * x t * z i))) by (intros i Hi; unfold r; now rewrite rsig_scale_r). rewrite rsig_swap. apply rsig_ext. intros t H.
      rewrite (rsig_ext m _ (fun t' => rsig n (fun i => x t * kt i t * (rsig n (fun j => B i j * kt j t') * x t')))).
      - rewrite rsig_swap. apply rsig_ext. intros i Hi. rewrite rsig_scale. assert (Z : z i = rsig m (fun t' => rsig n (fun j => B i j * kt j t') * x t')); [|rewrite Z; ring].
        unfold z, r. rewrite (rsig_ext n _ (fun j => rsig m (fun t' => B i j * kt j t' * x t'))) by (intros; rewrite <- rsig_scale; apply rsig_ext; intros; ring).
        rewrite rsig_swap. apply rsig_ext. intros t' H'. now rewrite rsig_scale_r.
      - intros t' H'. rewrite <- rsig_scale, <- rsig_scale_r. apply rsig_ext. intros. ring. }
    rewrite E, <- rsig_minus. apply rsig_ext. intros t H. rewrite <- rsig_minus. apply rsig_ext. intros t' H'. rewrite cov_at. unfold tt. ring. }
  assert (Rz : rz = quad n K z) by apply quad_B.
  (* all points together *)
  set (pts := g_trainx s ++ g_testx s). assert (Fp : Forall (fun x => length x = g_indim s) pts) by (apply Forall_app; split; [apply C | exact Ht]).
  pose proof (kernel_semidefinite (g_hyper s) (g_indim s) pts Hl Fp (fun i => if (i <? n)%nat then - z i else x (i - n)%nat)) as P.
  unfold pts in P. rewrite app_length in P. fold pts in P. unfold quad in P at 1. rewrite rsig_app in P.
  assert (Lo : forall i, (i < n)%nat -> at_p pts i = at_p (g_trainx s) i) by (intros; unfold at_p, pts; apply app_nth1; assumption).
  assert (Hi : forall t, at_p pts (n + t) = at_p (g_testx s) t) by (intros; unfold at_p, pts; rewrite app_nth2 by lia; f_equal; lia).
  assert (Lz : forall i, (i < n)%nat -> (if (i <? n)%nat then - z i else x (i - n)%nat) = - z i) by (intros i H; now rewrite (proj2 (Nat.ltb_lt _ _) H)).
  assert (Hz : forall t, (if (n + t <? n)%nat then - z (n + t)%nat else x (n + t - n)%nat) = x t) by (intro t; rewrite (proj2 (Nat.ltb_ge _ _)) by lia; f_equal; lia).
  set (ker := fun i j => kernel (g_hyper s) (at_p (g_trainx s) i) (at_p (g_trainx s) j)) in *.
  rewrite (rsig_ext n _ (fun i => rsig n (fun j => z i * ker i j * z j) - z i * r i)) in P.
  2:{ intros i H. rewrite rsig_app. rewrite (rsig_ext n _ (fun j => z i * ker i j * z j)) by (intros j Hj; rewrite !Lz, !Lo by assumption; unfold ker; ring).
      rewrite (rsig_ext m _ (fun t => - z i * (kt i t * x t))) by (intros t H'; rewrite Hz, Lz, Lo, Hi by assumption; ring). rewrite rsig_scale. unfold r. ring. }
  rewrite (rsig_ext m _ (fun t => rsig m (fun t' => x t * tt t t' * x t') - rsig n (fun j => kt j t * x t * z j))) in P.
  2:{ intros t H. rewrite rsig_app. rewrite (rsig_ext m _ (fun t' => x t * tt t t' * x t')) by (intros t' H'; rewrite !Hz, !Hi; reflexivity).
      rewrite (rsig_ext n _ (fun j => -1 * (kt j t * x t * z j))); [rewrite rsig_scale; ring|]. intros j Hj. rewrite Hz, Lz, Hi, Lo by assumption. rewrite kernel_sym; [ring|].
      destruct C as (_ & _ & F & _). rewrite !(at_p_length (g_indim s)); auto. }
  rewrite !rsig_minus in P. fold (quad n ker z) (quad m tt x) in P. rewrite (rsig_swap m n) in P.
  rewrite (rsig_ext n (fun j => rsig m (fun t => kt j t * x t * z j)) (fun j => r j * z j)) in P by (intros; unfold r; now rewrite rsig_scale_r).
  rewrite (rsig_ext n (fun i => z i * r i) (fun i => r i * z i)) in P by (intros; ring). fold rz in P.
  assert (Kz : quad n ker z <= rz). { rewrite Rz. rewrite (quad_ext n K (fun i j => ker i j + d i * delta i j)) by apply N. rewrite quad_noise.
    pose proof (rsig_pos n (fun i => d i * z i ^ 2)) as Np. cbn beta in Np. specialize (Np ltac:(intros i H; apply Rmult_le_pos; [left; apply d_pos, H | apply pow2_ge_0])). lra. }
  rewrite Qc. lra.
Qed.
Lemma semi_diag k A t : semidefinite k A -> (t < k)%nat -> 0 <= A t t.
Proof.
  intros SA H. specialize (SA (fun i => delta t i)). unfold quad in SA. rewrite (rsig_ext k _ (fun i => delta t i * A i t)) in SA; [rewrite rsig_delta in SA by exact H; exact SA|].
  intros i Hi. rewrite (rsig_ext k _ (fun j => delta t j * (delta t i * A i j))) by (intros; ring). rewrite rsig_delta by exact H. reflexivity.
Qed.
End System.
