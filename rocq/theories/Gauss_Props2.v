(** Theorems of C83 about Gaussian processes. *)
From Coq Require Import Reals Lra.
From Verif Require Import Base Gauss_Model Gauss_Spec Gauss_Proofs Gauss_Proofs2.
Local Open Scope R_scope.

(** the covariance function is the radial basis function, and a covariance function *)
Theorem C83_gp_kernel h dim : fst h <> 0 ->
  (forall a b, length a = dim -> length b = dim -> kernel h a b = rbf h a b /\ kernel h a b = kernel h b a /\ 0 <= kernel h a b <= snd h ^ 2) /\
  (forall a, kernel h a a = snd h ^ 2) /\
  forall pts, Forall (fun x => length x = dim) pts -> nr (buildCov h pts pts) = length pts /\ nc (buildCov h pts pts) = length pts /\
    symmetric (length pts) (el (buildCov h pts pts)) /\ semidefinite (length pts) (el (buildCov h pts pts)).
Proof.
  intro Hl. split; [|split].
  - intros a b La Lb. split; [|split].
    + unfold kernel, rbf. rewrite dist_sq. f_equal. f_equal. field. exact Hl.
    + apply kernel_sym. congruence.
    + unfold kernel. assert (0 <= snd h ^ 2) by apply pow2_ge_0. assert (E : exp (-1 / (2 * fst h ^ 2) * dist a b ^ 2) <= 1).
      { rewrite <- exp_0. assert (P : 0 < fst h ^ 2) by (assert (fst h ^ 2 = fst h * fst h) as -> by ring; destruct (Rdichotomy _ _ Hl); nra).
        assert (I : 0 < / (2 * fst h ^ 2)) by (apply Rinv_0_lt_compat; lra). assert (D : 0 <= dist a b ^ 2) by apply pow2_ge_0.
        assert (-1 / (2 * fst h ^ 2) * dist a b ^ 2 <= 0) as [L|L] by (unfold Rdiv; nra); [left; now apply exp_increasing | right; now rewrite L]. }
      pose proof (exp_pos (-1 / (2 * fst h ^ 2) * dist a b ^ 2)). nra.
  - apply kernel_self.
  - intros pts F. split; [reflexivity|]. split; [reflexivity|]. split; [|apply (kernel_semidefinite h dim pts Hl F)].
    intros i j Hi Hj. cbn [buildCov el]. apply kernel_sym. rewrite !(at_p_length dim) by assumption. reflexivity.
Qed.
Print Assumptions C83_gp_kernel.

Section Main.
Context (solve : nat -> (nat -> nat -> R) -> (nat -> R) -> nat -> R) (inv : nat -> (nat -> nat -> R) -> nat -> nat -> R).

(** what _calculate computes, with or without automatic noise *)
Lemma calculate_shape s : consistent s -> (0 < length (g_trainx s))%nat -> (g_auto s = true -> (1 < length (g_trainx s))%nat /\ g_indim s = 1%nat) ->
  exists K d, calculate solve inv s = Ok (predict solve inv s K) /\ isNoisy s K d /\ (g_auto s = false -> d = at_r (g_noise s)) /\
    (g_auto s = true -> d = fun i => at_r (g_noise s) i + autoNoise (g_trainx s) (g_trainy s) i).
Proof.
  intros C Hn Ha. unfold calculate. destruct (Nat.eqb_spec (length (g_trainx s)) 0) as [|_]; [lia|]. destruct (g_auto s).
  - destruct (Ha eq_refl) as (H1 & H2). destruct (Nat.eqb_spec (length (g_trainx s)) 1) as [|_]; [lia|]. rewrite (proj2 (Nat.eqb_eq _ _) H2). cbn [negb].
    eexists _, _. split; [reflexivity|]. split; [apply auto_is|]. split; [discriminate | reflexivity].
  - eexists _, _. split; [reflexivity|]. split; [apply noisy_is|]. split; [reflexivity | discriminate].
Qed.
End Main.

(** the predicted mean is the only solution of the Gaussian process equations; at the samples it differs from the targets by the noise times the weights *)
Theorem C83_gp_mean solve inv s : consistent s -> (0 < length (g_trainx s))%nat -> fst (g_hyper s) <> 0 -> (g_auto s = true -> (1 < length (g_trainx s))%nat /\ g_indim s = 1%nat) ->
  solves_all (length (g_trainx s)) solve -> Forall (fun x => length x = g_indim s) (g_testx s) ->
  let n := length (g_trainx s) in
  exists s' d, calculate solve inv s = Ok s' /\ g_calculated s' = true /\ length (g_pred s') = length (g_testx s) /\
    (forall i, (i < n)%nat -> at_r (g_noise s) i <= d i) /\ (g_auto s = false -> forall i, d i = at_r (g_noise s) i) /\
    forall a, (forall i, (i < n)%nat -> rsig n (fun j => rbf (g_hyper s) (at_p (g_trainx s) i) (at_p (g_trainx s) j) * a j) + d i * a i = at_r (g_trainy s) i - g_mean s) ->
      (forall t, (t < length (g_testx s))%nat -> at_r (g_pred s') t = g_mean s + rsig n (fun i => rbf (g_hyper s) (at_p (g_trainx s) i) (at_p (g_testx s) t) * a i)) /\
      (forall t i, (t < length (g_testx s))%nat -> (i < n)%nat -> at_p (g_testx s) t = at_p (g_trainx s) i -> at_r (g_pred s') t = at_r (g_trainy s) i - d i * a i).
Proof.
  intros C Hn Hl Ha HS Ft n. destruct (calculate_shape solve inv s C Hn Ha) as (K & d & E & N & D0 & _). exists (predict solve inv s K), d. split; [exact E|]. split; [reflexivity|].
  split; [apply pred_length|]. split; [apply N|]. split; [intros H i; now rewrite (D0 H)|]. intros a Ea.
  assert (R : forall i t, (i < n)%nat -> (t < length (g_testx s))%nat -> kernel (g_hyper s) (at_p (g_trainx s) i) (at_p (g_testx s) t) = rbf (g_hyper s) (at_p (g_trainx s) i) (at_p (g_testx s) t)).
  { intros i t Hi Ht. destruct C as (_ & _ & F & _). apply (C83_gp_kernel (g_hyper s) (g_indim s) Hl); now apply at_p_length. }
  assert (R2 : forall i j, (i < n)%nat -> (j < n)%nat -> kernel (g_hyper s) (at_p (g_trainx s) i) (at_p (g_trainx s) j) = rbf (g_hyper s) (at_p (g_trainx s) i) (at_p (g_trainx s) j)).
  { intros i j Hi Hj. destruct C as (_ & _ & F & _). apply (C83_gp_kernel (g_hyper s) (g_indim s) Hl); now apply at_p_length. }
  assert (Ka : forall i, (i < n)%nat -> rsig n (fun j => K i j * a j) = at_r (g_trainy s) i - g_mean s).
  { intros i Hi. rewrite <- (Ea i Hi). rewrite (rsig_ext n _ (fun j => rbf (g_hyper s) (at_p (g_trainx s) i) (at_p (g_trainx s) j) * a j + delta i j * (d i * a j))) by (intros j Hj; rewrite (proj2 N i j Hi Hj), R2 by assumption; ring).
    rewrite rsig_plus, (rsig_delta n i (fun j => d i * a j)) by exact Hi. reflexivity. }
  pose proof (K_regular s K d C Hl N) as Rg.
  assert (U : forall i, (i < n)%nat -> solve n K (fun i => at_r (g_trainy s) i - g_mean s) i = a i).
  { apply (regular_unique n K _ _ Rg). intros i Hi. rewrite (HS K _ Rg i Hi), (Ka i Hi). reflexivity. }
  assert (P : forall t, (t < length (g_testx s))%nat -> at_r (g_pred (predict solve inv s K)) t = g_mean s + rsig n (fun i => rbf (g_hyper s) (at_p (g_trainx s) i) (at_p (g_testx s) t) * a i)).
  { intros t Ht. rewrite pred_at by exact Ht. f_equal. apply rsig_ext. intros i Hi. rewrite R, U by assumption. reflexivity. }
  split; [exact P|]. intros t i Ht Hi Et. rewrite (P t Ht). rewrite <- (residual s K d C N a t i Hi Et Ka). f_equal. apply rsig_ext. intros j Hj. now rewrite R.
Qed.
Print Assumptions C83_gp_mean.

(** ... and there is such a solution *)
Theorem C83_gp_solvable s (d : nat -> R) : consistent s -> fst (g_hyper s) <> 0 -> (forall i, (i < length (g_trainx s))%nat -> at_r (g_noise s) i <= d i) ->
  let n := length (g_trainx s) in
  exists a, (forall i, (i < n)%nat -> rsig n (fun j => rbf (g_hyper s) (at_p (g_trainx s) i) (at_p (g_trainx s) j) * a j) + d i * a i = at_r (g_trainy s) i - g_mean s) /\
    forall b, (forall i, (i < n)%nat -> rsig n (fun j => rbf (g_hyper s) (at_p (g_trainx s) i) (at_p (g_trainx s) j) * b j) + d i * b i = at_r (g_trainy s) i - g_mean s) -> forall i, (i < n)%nat -> b i = a i.
Proof.
  intros C Hl Hd n. set (K := fun i j => kernel (g_hyper s) (at_p (g_trainx s) i) (at_p (g_trainx s) j) + d i * delta i j).
  assert (N : isNoisy s K d) by (split; [exact Hd | reflexivity]). pose proof (K_regular s K d C Hl N) as Rg.
  assert (T : forall b i, (i < n)%nat -> rsig n (fun j => K i j * b j) = rsig n (fun j => rbf (g_hyper s) (at_p (g_trainx s) i) (at_p (g_trainx s) j) * b j) + d i * b i).
  { intros b i Hi. rewrite (rsig_ext n _ (fun j => rbf (g_hyper s) (at_p (g_trainx s) i) (at_p (g_trainx s) j) * b j + delta i j * (d i * b j))).
    - rewrite rsig_plus, (rsig_delta n i (fun j => d i * b j)) by exact Hi. reflexivity.
    - intros j Hj. unfold K. destruct C as (_ & _ & F & _). rewrite (proj1 (proj1 (C83_gp_kernel (g_hyper s) (g_indim s) Hl) _ _ (at_p_length _ _ i F Hi) (at_p_length _ _ j F Hj))). ring. }
  destruct (regular_solvable n K (fun i => at_r (g_trainy s) i - g_mean s) Rg) as (a & Ea). exists a. split; [intros i Hi; now rewrite <- T, Ea|].
  intros b Eb. apply (regular_unique n K b a Rg). intros i Hi. now rewrite Ea, T, Eb.
Qed.
Print Assumptions C83_gp_solvable.

(** if all targets are the mean, so are all predictions *)
Theorem C83_gp_constant solve inv s : consistent s -> (0 < length (g_trainx s))%nat -> fst (g_hyper s) <> 0 -> (g_auto s = true -> (1 < length (g_trainx s))%nat /\ g_indim s = 1%nat) ->
  solves_all (length (g_trainx s)) solve -> Forall (fun x => length x = g_indim s) (g_testx s) -> Forall (fun y => y = g_mean s) (g_trainy s) ->
  exists s', calculate solve inv s = Ok s' /\ g_pred s' = repeat (g_mean s) (length (g_testx s)).
Proof.
  intros C Hn Hl Ha HS Ft Fy. destruct (C83_gp_mean solve inv s C Hn Hl Ha HS Ft) as (s' & d & E & _ & L & _ & _ & M). exists s'. split; [exact E|]. destruct (M (fun _ => 0)) as (P & _).
  { intros i Hi. rewrite rsig_0 by (intros; ring). rewrite Forall_forall in Fy. rewrite (Fy (at_r (g_trainy s) i)); [ring|]. apply nth_In. destruct C as (-> & _). exact Hi. }
  apply (nth_ext _ _ 0 0); [now rewrite repeat_length|]. intros t Ht. change (nth t (g_pred s') 0) with (at_r (g_pred s') t). rewrite L in Ht. rewrite (P t Ht). rewrite rsig_0 by (intros; ring).
  rewrite (nth_indep _ 0 (g_mean s)) by (rewrite repeat_length; exact Ht). rewrite nth_repeat. ring.
Qed.
Print Assumptions C83_gp_constant.

(** the predicted covariance is a covariance, and never above the variance of the prior: multivariate_normal gets what it needs *)
Theorem C83_gp_cov solve inv s : consistent s -> (0 < length (g_trainx s))%nat -> fst (g_hyper s) <> 0 -> (g_auto s = true -> (1 < length (g_trainx s))%nat /\ g_indim s = 1%nat) ->
  inverts_all (length (g_trainx s)) inv -> Forall (fun x => length x = g_indim s) (g_testx s) ->
  let m := length (g_testx s) in
  exists s', calculate solve inv s = Ok s' /\ nr (g_cov s') = m /\ nc (g_cov s') = m /\ symmetric m (el (g_cov s')) /\ semidefinite m (el (g_cov s')) /\
    forall t, (t < m)%nat -> 0 <= el (g_cov s') t t <= snd (g_hyper s) ^ 2.
Proof.
  intros C Hn Hl Ha HI Ft m. destruct (calculate_shape solve inv s C Hn Ha) as (K & d & E & N & _). exists (predict solve inv s K). split; [exact E|]. split; [reflexivity|]. split; [reflexivity|].
  pose proof (cov_semidefinite s K d C Hl N solve inv HI Ft) as SD.
  split; [apply (cov_sym s K d C Hl N solve inv HI Ft)|]. split; [exact SD|]. intros t Ht. split; [apply (semi_diag m _ t SD Ht) | apply (cov_diag s K d C Hl N solve inv HI t Ht)].
Qed.
Print Assumptions C83_gp_cov.

(** one sample: what the model computes *)
Definition solve1 (n : nat) (K : nat -> nat -> R) (b : nat -> R) (i : nat) : R := b i / K i i.
Definition inv1 (n : nat) (K : nat -> nat -> R) (i j : nat) : R := / K i j.
Lemma regular1 K : regular 1 K -> K 0%nat 0%nat <> 0.
Proof. intros Rg E. specialize (Rg (fun _ => 1)). cbn [rsig] in Rg. assert (1 = 0); [|lra]. apply (Rg ltac:(intros i Hi; assert (i = 0%nat) as -> by lia; rewrite E; ring) 0%nat). lia. Qed.
Lemma solves1 : solves_all 1 solve1 /\ inverts_all 1 inv1.
Proof.
  split.
  - intros K b Rg i Hi. assert (i = 0%nat) as -> by lia. unfold solve1. cbn [rsig]. field. now apply regular1.
  - intros K Rg i j Hi Hj. assert (i = 0%nat) as -> by lia. assert (j = 0%nat) as -> by lia. unfold inv1, delta. cbn [rsig Nat.eqb]. split; field; now apply regular1.
Qed.
Definition one (y : R) : gp := match addSample (newGP 1 [[0]; [1]]) [0] y with Ok s => s | Err _ => newGP 1 [] end.
Example C83_gp_example y : consistent (one y) /\ fst (g_hyper (one y)) <> 0 /\ g_auto (one y) = false /\ Forall (fun x => length x = g_indim (one y)) (g_testx (one y)) /\
  exists s', calculate solve1 inv1 (one y) = Ok s' /\ at_r (g_pred s') 0 = 4000 / 4001 * y /\ el (g_cov s') 0 0 = 4 / 4001.
Proof.
  unfold one, addSample, newGP. cbn [g_indim length Nat.eqb]. cbn [g_trainx g_trainy g_noise g_testx g_calculated g_mean g_auto g_hyper g_pred g_cov List.app].
  split. { unfold consistent. cbn [g_trainx g_trainy g_noise g_indim g_pred g_testx length zeros repeat]. repeat split; repeat constructor. lra. }
  split; [cbn [g_hyper fst]; lra|]. split; [reflexivity|]. split; [cbn [g_testx g_indim]; repeat constructor|]. eexists. split; [reflexivity|].
  unfold predict, at_r, at_p. cbn [g_pred g_cov g_hyper g_testx g_trainx g_trainy g_mean g_noise length seq map nth el rsig].
  unfold solve1, inv1, noisy, at_p, at_r. cbn [g_hyper g_trainx g_noise nth Nat.eqb]. rewrite kernel_self. cbn [snd]. split; field.
Qed.

(** whatever was done before, there is a target and a noise for every input, and they are the samples that were added since the process was last reset or trained anew *)
Lemma combine_app {A B} (a c : list A) (b d : list B) : length a = length b -> combine (a ++ c) (b ++ d) = combine a b ++ combine c d.
Proof. revert b. induction a as [|x a IH]; intros [|y b] L; cbn in *; try lia; [reflexivity|]. f_equal. apply IH. lia. Qed.
Lemma Forall_const (c : R) n : 0 < c -> Forall (fun z => 0 < z) (repeat c n).
Proof. intro H. apply Forall_forall. intros x Hx. apply repeat_spec in Hx. subst. exact H. Qed.
Lemma calculate_same solve inv s s' : calculate solve inv s = Ok s' -> g_indim s' = g_indim s /\ g_trainx s' = g_trainx s /\ g_trainy s' = g_trainy s /\ g_noise s' = g_noise s /\ g_testx s' = g_testx s /\
  g_mean s' = g_mean s /\ g_auto s' = g_auto s /\ g_hyper s' = g_hyper s /\ (s' = s \/ length (g_pred s') = length (g_testx s)).
Proof.
  assert (P : forall K, length (g_pred (predict solve inv s K)) = length (g_testx s)) by (intro K; apply pred_length).
  unfold calculate. destruct (_ =? 0)%nat; [intro H; injection H as <-; tauto|]. destruct (g_auto s) eqn:Ea.
  - destruct (_ =? 1)%nat; [discriminate|]. destruct (negb _); [discriminate|]. intro H. injection H as <-. rewrite P. cbn. rewrite Ea. tauto.
  - intro H. injection H as <-. rewrite P. cbn. rewrite Ea. tauto.
Qed.
Lemma step_consistent solve inv s o s' : consistent s -> good_op (g_indim s) o -> step solve inv s o = Ok s' ->
  consistent s' /\ g_indim s' = g_indim s /\ g_testx s' = g_testx s /\ combine (g_trainx s') (g_trainy s') = samples (combine (g_trainx s) (g_trainy s)) [o].
Proof.
  intros (L1 & L2 & F & Z & Lp) G. destruct o as [xs ys|xs ys|x y| |v|v|v|]; cbn [step good_op] in *.
  - destruct G as (Gl & Gf). unfold trainOnDataset. rewrite Nat.eqb_refl. cbn [andb Nat.eqb]. intro H. injection H as <-. unfold consistent. cbn [g_trainx g_trainy g_noise g_indim g_pred g_testx samples].
    rewrite repeat_length. repeat split; try assumption. apply Forall_const. lra.
  - destruct G as (Gl & Gf). unfold addDataset. rewrite Nat.eqb_refl. cbn [andb Nat.eqb]. intro H. injection H as <-. unfold consistent. cbn [g_trainx g_trainy g_noise g_indim g_pred g_testx samples].
    rewrite repeat_length, !app_length, combine_app by congruence. repeat split; try assumption; try lia; [apply Forall_app; now split | apply Forall_const; lra].
  - unfold addSample. destruct (Nat.eqb_spec (length x) (g_indim s)) as [E|]; [|discriminate]. intro H. injection H as <-. unfold consistent. cbn [g_trainx g_trainy g_noise g_indim g_pred g_testx samples].
    rewrite !app_length, combine_app by congruence. cbn [length combine]. repeat split; try assumption; try lia; (apply Forall_app; split; [assumption|]; repeat constructor; [exact E || lra]).
  - intro H. injection H as <-. unfold consistent, reset. cbn. unfold zeros. rewrite repeat_length. repeat split; constructor.
  - intro H. injection H as <-. unfold consistent. cbn. tauto.
  - intro H. injection H as <-. unfold consistent. cbn. tauto.
  - intro H. injection H as <-. unfold consistent. cbn. tauto.
  - unfold draw. destruct (g_calculated s).
    + cbn [rbind fst]. intro H. injection H as <-. unfold consistent. cbn [samples]. tauto.
    + destruct (calculate solve inv s) as [s1|] eqn:E; [|discriminate]. cbn [rbind fst]. intro H. injection H as <-. destruct (calculate_same solve inv s s1 E) as (E1 & E2 & E3 & E4 & E5 & _ & _ & _ & E6). unfold consistent. rewrite E1, E2, E3, E4, E5. cbn [samples].
      repeat split; try assumption. destruct E6 as [->|E6]; assumption.
Qed.
Lemma samples_app a : forall b acc, samples acc (a ++ b) = samples (samples acc a) b.
Proof. induction a as [|o a IH]; intros b acc; [reflexivity|]. destruct o; cbn [List.app samples]; apply IH. Qed.
Theorem C83_gp_history solve inv ops indim grid s : Forall (good_op indim) ops -> run solve inv ops (newGP indim grid) = Ok s ->
  consistent s /\ g_indim s = indim /\ g_testx s = grid /\ combine (g_trainx s) (g_trainy s) = samples [] ops.
Proof.
  intros G H. assert (Gen : forall ops s0, consistent s0 -> Forall (good_op (g_indim s0)) ops -> run solve inv ops s0 = Ok s ->
    consistent s /\ g_indim s = g_indim s0 /\ g_testx s = g_testx s0 /\ combine (g_trainx s) (g_trainy s) = samples (combine (g_trainx s0) (g_trainy s0)) ops).
  { clear. induction ops as [|o ops IH]; intros s0 C G H.
    - cbn in H. injection H as <-. tauto.
    - inversion G as [|? ? G1 G2]; subst. unfold run in H. cbn [foldR] in H. destruct (step solve inv s0 o) as [s1|] eqn:E; [|discriminate]. cbn [rbind] in H.
      destruct (step_consistent solve inv s0 o s1 C G1 E) as (C1 & I1 & T1 & S1). rewrite <- I1 in G2. destruct (IH s1 C1 G2 H) as (A1 & A2 & A3 & A4). rewrite S1 in A4.
      change (o :: ops) with ([o] ++ ops). rewrite samples_app, A4, A2, A3, I1, T1. tauto. }
  apply (Gen ops (newGP indim grid)); [| exact G | exact H]. unfold consistent, newGP. cbn. unfold zeros. rewrite repeat_length. repeat split; constructor.
Qed.
Print Assumptions C83_gp_history.
Example C83_gp_history_example : samples [] [AddOne [1] 2; Draw; AddSet [[3]] [4]; SetMean 5; AddOne [6] 7] = [([1], 2); ([3], 4); ([6], 7)].
Proof. reflexivity. Qed.

(** what is drawn from belongs to the present samples, as long as no setting is changed after the last calculation *)
Theorem C83_gp_fresh solve inv ops s s' : fresh solve inv s -> Forall (fun o => ~ is_set o) ops -> run solve inv ops s = Ok s' -> fresh solve inv s'.
Proof.
  revert s. induction ops as [|o ops IH]; intros s Fr N H; [cbn in H; injection H as <-; exact Fr|]. inversion N as [|? ? N1 N2]; subst. unfold run in H. cbn [foldR] in H.
  destruct (step solve inv s o) as [s1|] eqn:E; [|discriminate]. cbn [rbind] in H. apply (IH s1); [|exact N2|exact H]. clear IH H N N2.
  destruct o as [xs ys|xs ys|x y| |v|v|v|]; cbn [step is_set] in *; try (exfalso; apply N1; exact I).
  - unfold trainOnDataset in E. destruct (_ && _); [|discriminate]. injection E as <-. intro X. discriminate X.
  - unfold addDataset in E. destruct (_ && _); [|discriminate]. injection E as <-. intro X. discriminate X.
  - unfold addSample in E. destruct (_ =? _)%nat; [|discriminate]. injection E as <-. intro X. discriminate X.
  - injection E as <-. intros _ X. exfalso. apply X. reflexivity.
  - unfold draw in E. destruct (g_calculated s) eqn:Ec.
    + cbn [rbind fst] in E. injection E as <-. exact Fr.
    + destruct (calculate solve inv s) as [s2|] eqn:E2; [|discriminate]. cbn [rbind fst] in E. injection E as <-. intros _ Nz. unfold calculate in E2 |- *. destruct (length (g_trainx s) =? 0)%nat eqn:E0.
      * injection E2 as <-. apply Nat.eqb_eq in E0. exfalso. apply Nz. now apply length_zero_iff_nil.
      * destruct (g_auto s) eqn:Ea.
        -- destruct (length (g_trainx s) =? 1)%nat eqn:E1; [discriminate|]. destruct (negb _) eqn:E3; [discriminate|]. injection E2 as <-. eexists. cbn [predict g_trainx g_auto g_indim]. rewrite E0, E1, E3, Ea. split; [reflexivity|]. split; reflexivity.
        -- injection E2 as <-. eexists. cbn [predict g_trainx g_auto g_indim]. rewrite E0, Ea. split; [reflexivity|]. split; reflexivity.
Qed.
Print Assumptions C83_gp_fresh.
Theorem C83_gp_new_fresh solve inv indim grid : fresh solve inv (newGP indim grid).
Proof. intros _ X. exfalso. apply X. reflexivity. Qed.
Print Assumptions C83_gp_new_fresh.

(** a setting that is changed later is ignored until a sample arrives *)
Theorem C83_gp_stale_refuted : exists s1 s2, run solve1 inv1 [AddOne [0] 2; Draw; SetMean 2; Draw] (newGP 1 [[0]]) = Ok s1 /\ run solve1 inv1 [AddOne [0] 2; SetMean 2; Draw] (newGP 1 [[0]]) = Ok s2 /\
  g_mean s1 = g_mean s2 /\ g_trainx s1 = g_trainx s2 /\ g_trainy s1 = g_trainy s2 /\ g_pred s2 = [2] /\ g_pred s1 = [8000 / 4001].
Proof.
  eexists _, _. split; [reflexivity|]. split; [reflexivity|]. split; [reflexivity|]. split; [reflexivity|]. split; [reflexivity|].
  assert (K4 : kernel (1 / 2, 2) [0] [0] = 4) by (rewrite kernel_self; cbn [snd]; ring).
  split.
  - match goal with |- ?l = _ => change l with [2 + (0 + kernel (1 / 2, 2) [0] [0] * ((2 - 2) / (kernel (1 / 2, 2) [0] [0] + 1 / 1000 * 1)))] end. rewrite K4. f_equal. field.
  - match goal with |- ?l = _ => change l with [0 + (0 + kernel (1 / 2, 2) [0] [0] * ((2 - 0) / (kernel (1 / 2, 2) [0] [0] + 1 / 1000 * 1)))] end. rewrite K4. f_equal. field.
Qed.
Print Assumptions C83_gp_stale_refuted.

(** without samples neither the mean nor the kernel is used: the mean that is drawn is 0, the covariance 1 on the diagonal *)
Theorem C83_gp_prior_refuted solve inv indim grid ops s : Forall is_set ops -> run solve inv ops (newGP indim grid) = Ok s ->
  draw solve inv s = Ok (s, (repeat 0 (length grid), eye (length grid))).
Proof.
  intros F H. assert (Gen : forall ops s0, Forall is_set ops -> run solve inv ops s0 = Ok s -> g_calculated s = g_calculated s0 /\ g_pred s = g_pred s0 /\ g_cov s = g_cov s0).
  { clear. induction ops as [|o ops IH]; intros s0 F H; [cbn in H; injection H as <-; tauto|]. inversion F as [|? ? F1 F2]; subst. unfold run in H. cbn [foldR] in H.
    destruct o; cbn [is_set] in F1; try contradiction; cbn [step rbind] in H; apply (IH _ F2 H). }
  destruct (Gen ops _ F H) as (E1 & E2 & E3). unfold draw. rewrite E1. cbn [newGP g_calculated rbind]. rewrite E2, E3. reflexivity.
Qed.
Print Assumptions C83_gp_prior_refuted.
Example C83_gp_prior_example : Forall is_set [SetMean 3; SetHyper (1, 5)] /\ kernel (1, 5) [0] [0] = 25.
Proof. split; [repeat constructor | rewrite kernel_self; cbn [snd]; ring]. Qed.

(** asking an untrained process for the values at given points returns as many values as the old grid has points *)
Theorem C83_gp_untrained_refuted solve inv indim grid xs : exists s, testOnArray solve inv (newGP indim grid) xs = Ok (s, repeat 0 (length grid)).
Proof. eexists. reflexivity. Qed.
Print Assumptions C83_gp_untrained_refuted.
(** with samples there is one value for every point *)
Theorem C83_gp_test solve inv s xs : consistent s -> (0 < length (g_trainx s))%nat -> (g_auto s = true -> (1 < length (g_trainx s))%nat /\ g_indim s = 1%nat) ->
  exists s' vs, testOnArray solve inv s xs = Ok (s', vs) /\ length vs = length xs /\ g_testx s' = xs /\ vs = g_pred s'.
Proof.
  intros C Hn Ha. unfold testOnArray. set (s0 := GP _ _ _ _ xs _ _ _ _ _ _). unfold calculate. change (g_trainx s0) with (g_trainx s). change (g_auto s0) with (g_auto s). change (g_indim s0) with (g_indim s).
  destruct (Nat.eqb_spec (length (g_trainx s)) 0) as [|_]; [lia|]. destruct (g_auto s).
  - destruct (Ha eq_refl) as (H1 & H2). destruct (Nat.eqb_spec (length (g_trainx s)) 1) as [|_]; [lia|]. rewrite (proj2 (Nat.eqb_eq _ _) H2). cbn [negb rbind].
    eexists _, _. split; [reflexivity|]. split; [rewrite pred_length; reflexivity|]. split; reflexivity.
  - cbn [rbind]. eexists _, _. split; [reflexivity|]. split; [rewrite pred_length; reflexivity|]. split; reflexivity.
Qed.
Print Assumptions C83_gp_test.

(** the "average neighbouring distance" is the distance from the first to the last sample over their number less one *)
Theorem C83_gp_avgdist xs : (1 < length xs)%nat -> avgdist xs = (at_r (at_p xs (length xs - 1)) 0 - at_r (at_p xs 0) 0) / INR (length xs - 1).
Proof.
  intro H. unfold avgdist. f_equal. generalize (length xs - 1)%nat as n. induction n as [|n IH]; cbn [rsig]; [ring|]. rewrite IH. ring.
Qed.
Print Assumptions C83_gp_avgdist.
(** so the noise depends on the order of the samples, and none is added if the last sample is left of the first *)
Theorem C83_gp_autonoise_refuted xs ys i : (1 < length xs)%nat -> at_r (at_p xs (length xs - 1)) 0 < at_r (at_p xs 0) 0 -> autoNoise xs ys i = 0.
Proof.
  intros H L. assert (A : avgdist xs < 0). { rewrite C83_gp_avgdist by exact H. assert (0 < INR (length xs - 1)) by (apply lt_0_INR; lia). assert (0 < / INR (length xs - 1)) by now apply Rinv_0_lt_compat. unfold Rdiv. nra. }
  unfold autoNoise. apply rsig_0. intros j Hj. destruct (Rlt_dec _ _) as [_|N]; [reflexivity|]. pose proof (dist_pos (at_p xs i) (at_p xs j)). lra.
Qed.
Print Assumptions C83_gp_autonoise_refuted.
Example C83_gp_autonoise_example : autoNoise [[1]; [0]] [0; 1] 0 = 0 /\ 0 < autoNoise [[0]; [1]] [1; 0] 0.
Proof.
  split; [apply C83_gp_autonoise_refuted; cbn; [lia | lra]|]. unfold autoNoise. cbn [length rsig]. assert (D : dist (at_p [[0]; [1]] 0) (at_p [[0]; [1]] 1) = 1).
  { unfold dist, at_p, at_r. cbn [nth length rsig]. replace (0 + (0 - 1) ^ 2) with 1 by ring. apply sqrt_1. }
  assert (A : avgdist [[0]; [1]] = 1) by (unfold avgdist, at_r, at_p; cbn [length Nat.sub rsig nth INR]; field). rewrite D, A. unfold at_r. cbn [nth]. rewrite dist_self.
  destruct (Rlt_dec 1 0); [lra|]. destruct (Rlt_dec 1 1); [lra|]. replace (1 - 1) with 0 by ring. rewrite Rabs_R0. replace (1 - 0) with 1 by ring. rewrite Rabs_R1. pose proof (exp_pos 1) as E.
  assert (0 < / exp 1) by now apply Rinv_0_lt_compat. unfold Rdiv. lra.
Qed.
(** automatic noise with one sample, or with inputs of several columns, raises *)
Theorem C83_gp_auto_raises solve inv s : g_auto s = true ->
  (length (g_trainx s) = 1%nat -> calculate solve inv s = Err ZeroDivisionError) /\ ((1 < length (g_trainx s))%nat -> g_indim s <> 1%nat -> calculate solve inv s = Err ValueError).
Proof.
  intro A. unfold calculate. rewrite A. split.
  - intros ->. reflexivity.
  - intros H N. destruct (Nat.eqb_spec (length (g_trainx s)) 0); [lia|]. destruct (Nat.eqb_spec (length (g_trainx s)) 1); [lia|]. destruct (Nat.eqb_spec (g_indim s) 1); [contradiction|]. reflexivity.
Qed.
Print Assumptions C83_gp_auto_raises.
