(** C68, part 4: CMA-ES. *)
From Coq Require Import Reals Lra Psatz.
From Verif Require Import Base StableSort Functions_Model Distrib_Model Distrib_Spec Distrib_Proofs Distrib_Proofs2 Distrib_Proofs3.
Local Open Scope R_scope.

(** ** recombination weights and strategy parameters *)
Lemma raw_pos m i : (i < m)%nat -> 0 < cma_raw m i.
Proof.
  intro H. unfold cma_raw. assert (0 < INR (S i)) by (apply lt_0_INR; lia). assert (INR (S i) < INR m + 1) by (rewrite <- S_INR; apply lt_INR; lia).
  pose proof (ln_increasing _ _ H0 H1). lra.
Qed.
Lemma raw_decreasing m i j : (i < j)%nat -> cma_raw m j < cma_raw m i.
Proof.
  intro H. unfold cma_raw. assert (0 < INR (S i)) by (apply lt_0_INR; lia). assert (INR (S i) < INR (S j)) by (apply lt_INR; lia).
  pose proof (ln_increasing _ _ H0 H1). lra.
Qed.
Lemma raw_sum m : (0 < m)%nat -> 0 < sumn m (cma_raw m).
Proof. intro H. apply (sumn_pos m _ 0); auto; [intros i Hi; left|]; apply raw_pos; auto. Qed.
Lemma weight_val m i : (i < m)%nat -> get (cma_weights m) i = cma_raw m i / sumn m (cma_raw m).
Proof. intro H. unfold cma_weights. apply get_tab. auto. Qed.
Lemma weight_pos m i : (i < m)%nat -> 0 < get (cma_weights m) i.
Proof. intro H. rewrite weight_val by auto. apply Rdiv_lt_0_compat; [apply raw_pos; auto|apply raw_sum; lia]. Qed.
Lemma weight_sum m : (0 < m)%nat -> sumn m (get (cma_weights m)) = 1.
Proof.
  intro H. rewrite (sumn_ext m _ (fun i => cma_raw m i * / sumn m (cma_raw m))) by (intros; apply weight_val; auto). rewrite sumn_scal_r. pose proof (raw_sum m H). field. lra.
Qed.
Lemma weight_decreasing m i j : (i < j)%nat -> (j < m)%nat -> get (cma_weights m) j < get (cma_weights m) i.
Proof.
  intros H Hj. rewrite !weight_val by lia. unfold Rdiv. apply Rmult_lt_compat_r; [apply Rinv_0_lt_compat, raw_sum; lia|apply raw_decreasing; auto].
Qed.
Lemma sumn_ge_one n f k : (forall i, (i < n)%nat -> 0 <= f i) -> (k < n)%nat -> f k <= sumn n f.
Proof.
  induction n as [|n IH]; intros H Hk; [lia|]. cbn [sumn]. assert (0 <= f n) by auto. assert (0 <= sumn n f) by (apply sumn_nonneg; auto).
  destruct (Nat.eq_dec k n) as [->|]; [lra|]. assert (f k <= sumn n f) by (apply IH; auto; lia). lra.
Qed.
Lemma cauchy n f : (sumn n f) ^ 2 <= INR n * sumn n (fun i => f i ^ 2).
Proof.
  induction n as [|n IH]; [cbn; lra|]. rewrite S_INR. cbn [sumn]. set (a := sumn n f) in *. set (q := sumn n (fun i => f i ^ 2)) in *. set (x := f n) in *.
  assert (Hn : 0 <= INR n) by apply pos_INR. assert (Hq : 0 <= q) by (apply sumn_nonneg; intros; nra).
  destruct (Req_dec (INR n) 0) as [E|E].
  - rewrite E in *. assert (a = 0) by nra. rewrite H. nra.
  - assert (0 < INR n) by lra. assert (a ^ 2 / INR n <= q) by (apply (Rmult_le_reg_l (INR n)); auto; field_simplify; lra).
    assert (2 * a * x <= a ^ 2 / INR n + INR n * x ^ 2); [|nra].
    assert (0 <= (a / INR n - x) ^ 2 * INR n) by (apply Rmult_le_pos; [apply pow2_ge_0|lra]).
    assert (Ee : (a / INR n - x) ^ 2 * INR n = a ^ 2 / INR n - 2 * a * x + INR n * x ^ 2) by (field; lra). lra.
Qed.
Lemma mueff_bounds m : (0 < m)%nat -> 1 <= cma_mueff m <= INR m /\ ((2 <= m)%nat -> 1 < cma_mueff m).
Proof.
  intro H. unfold cma_mueff. set (w := get (cma_weights m)). pose proof (weight_sum m H) as Hs. fold w in Hs. set (q := sumn m (fun i => w i ^ 2)).
  assert (Hp : forall i, (i < m)%nat -> 0 < w i) by (intros; apply weight_pos; auto).
  assert (H1 : forall i, (i < m)%nat -> w i <= 1) by (intros i Hi; rewrite <- Hs; apply sumn_ge_one; auto; intros; left; auto).
  assert (Hq : 0 < q) by (apply (sumn_pos m _ 0); auto; [intros; nra|specialize (Hp O H); nra]).
  assert (Hq1 : q <= 1).
  { rewrite <- Hs. apply sumn_le. intros i Hi. specialize (Hp i Hi). specialize (H1 i Hi). nra. }
  rewrite Hs. rewrite pow1. split; [split|].
  - apply (Rmult_le_reg_l q); auto. field_simplify; lra.
  - pose proof (cauchy m w) as Hc. fold q in Hc. rewrite Hs, pow1 in Hc. apply (Rmult_le_reg_l q); auto. field_simplify; lra.
  - intro H2. assert (q < 1).
    { rewrite <- Hs. assert (0 < sumn m (fun i => w i - w i ^ 2)).
      { apply (sumn_pos m _ 0); auto; [intros i Hi; specialize (Hp i Hi); specialize (H1 i Hi); nra|].
        assert (w 0%nat < 1); [|specialize (Hp 0%nat H); nra]. rewrite <- Hs.
        assert (w 0%nat + w 1%nat <= sumn m w); [|specialize (Hp 1%nat ltac:(lia)); lra].
        clear - H2 Hp. clearbody w. induction m as [|m IH]; [lia|]. cbn [sumn]. destruct (Nat.eq_dec m 1) as [->|]; [cbn [sumn]; lra|].
        assert (w 0%nat + w 1%nat <= sumn m w) by (apply IH; [intros; apply Hp; lia|lia]). specialize (Hp m ltac:(lia)). lra. }
      rewrite sumn_minus in H0. fold q in H0. lra. }
    apply (Rmult_lt_reg_l q); auto. field_simplify; lra.
Qed.
Lemma cumCov_bounds n : (0 < n)%nat -> 0 < cma_cumCov n < 1.
Proof.
  intro H. unfold cma_cumCov. assert (0 < INR n) by (apply lt_0_INR; auto). split; [apply Rdiv_lt_0_compat; lra|]. apply (Rmult_lt_reg_l (INR n + 4)); [lra|]. field_simplify; lra.
Qed.
Lemma cumStep_bounds n e : 1 <= e -> 0 < cma_cumStep n e < 1.
Proof.
  intro H. unfold cma_cumStep. assert (0 <= INR n) by apply pos_INR. split; [apply Rdiv_lt_0_compat; lra|]. apply (Rmult_lt_reg_l (INR n + e + 3)); [lra|]. field_simplify; lra.
Qed.
Lemma covRate_bounds n e : (0 < n)%nat -> 1 <= e -> 0 < cma_covRate n e < 1.
Proof.
  intros H0 H. unfold cma_covRate. assert (Hn : 1 <= INR n) by (change 1 with (INR 1); apply le_INR; lia).
  set (a := 1 / e). set (b := 2 / (INR n + 1.4) ^ 2). set (d := (2 * e - 1) / ((INR n + 2) ^ 2 + 2 * e)).
  assert (Ha : 0 < a <= 1). { unfold a. split; [apply Rdiv_lt_0_compat; lra|]. apply (Rmult_le_reg_l e); [lra|]. field_simplify; lra. }
  assert (Hb : 0 < b < 1). { unfold b. assert (2 < (INR n + 1.4) ^ 2) by nra. split; [apply Rdiv_lt_0_compat; lra|]. apply (Rmult_lt_reg_l ((INR n + 1.4) ^ 2)); [lra|].
    unfold Rdiv. rewrite Rmult_comm, Rmult_assoc, Rinv_l by lra. lra. }
  assert (Hd : 0 < d < 1). { unfold d. set (q := (INR n + 2) ^ 2 + 2 * e). assert (2 * e - 1 < q) by (unfold q; nra). split; [apply Rdiv_lt_0_compat; lra|].
    apply (Rmult_lt_reg_l q); [lra|]. unfold Rdiv. rewrite Rmult_comm, Rmult_assoc, Rinv_l by lra. lra. }
  assert (E : a * 2 / (INR n + 1.4) ^ 2 = a * b) by (unfold b, Rdiv; ring). rewrite E. clearbody a b d. clear E.
  split; [|assert (a * b < a) by (rewrite <- (Rmult_1_r a) at 2; apply Rmult_lt_compat_l; lra);
    assert ((1 - a) * d <= 1 - a) by (rewrite <- (Rmult_1_r (1 - a)) at 2; apply Rmult_le_compat_l; lra); lra].
  assert (0 < a * b) by (apply Rmult_lt_0_compat; lra). assert (0 <= (1 - a) * d) by (apply Rmult_le_pos; lra). lra.
Qed.
Lemma dampings_ge n e : 1 <= e -> 1 < cma_dampings n e.
Proof. intro H. unfold cma_dampings. pose proof (Rmax_l 0 (sqrt ((e - 1) / (INR n + 1)) - 1)). pose proof (cumStep_bounds n e H). lra. Qed.
Lemma chiN_pos n : (0 < n)%nat -> 0 < cma_chiN n.
Proof.
  intro H. unfold cma_chiN. assert (Hn : 1 <= INR n) by (change 1 with (INR 1); apply le_INR; lia). apply Rmult_lt_0_compat; [apply sqrt_lt_R0; lra|].
  assert (1 / (4 * INR n) <= 1 / 4). { unfold Rdiv. rewrite !Rmult_1_l. apply Rinv_le_contravar; lra. }
  assert (0 < 1 / (21 * INR n ^ 2)) by (apply Rdiv_lt_0_compat; nra). lra.
Qed.
Lemma default_batch_ge n : (4 <= default_batch n)%nat.
Proof. unfold default_batch. lia. Qed.

(** ** well formed parameters: what cma_params always delivers *)
Record par_ok (p : cma_par) : Prop := {
  pk_dim : (0 < cp_dim p)%nat; pk_mu : (0 < cp_mu p)%nat; pk_sel : (cp_mu p <= cp_batch p)%nat;
  pk_w : forall i, (i < cp_mu p)%nat -> 0 < get (cp_weights p) i; pk_sum : sumn (cp_mu p) (get (cp_weights p)) = 1;
  pk_e : 1 <= cp_mueff p; pk_cc : 0 < cp_cumCov p < 1; pk_cs : 0 < cp_cumStep p < 1; pk_cr : 0 < cp_covRate p < 1;
  pk_damp : 0 < cp_dampings p; pk_chi : 0 < cp_chiN p }.
Lemma params_ok n op sp : (0 < n)%nat -> par_ok (cma_params n op sp).
Proof.
  intro H. pose proof (default_batch_ge n) as Hb. assert (Hm : (0 < default_batch n / 2)%nat) by (apply Nat.div_str_pos; lia).
  destruct (mueff_bounds _ Hm) as [[He _] _].
  constructor; cbn [cma_params cp_dim cp_mu cp_batch cp_weights cp_mueff cp_cumCov cp_cumStep cp_covRate cp_dampings cp_chiN]; auto.
  - apply Nat.div_le_upper_bound; lia.
  - intros; apply weight_pos; auto.
  - apply weight_sum; auto.
  - apply cumCov_bounds; auto.
  - apply cumStep_bounds; auto.
  - apply covRate_bounds; auto.
  - pose proof (dampings_ge n _ He). lra.
  - apply chiN_pos; auto.
Qed.

(** ** quadratic forms *)
Lemma quad_ext n a b x : meq n a b -> quad n a x = quad n b x.
Proof. intro H. unfold quad. change (total n) with (sumn n). apply sumn_ext. intros i Hi. apply sumn_ext. intros j Hj. rewrite H by auto. auto. Qed.
Lemma quad_plus n a b x : quad n (fun i j => a i j + b i j) x = quad n a x + quad n b x.
Proof.
  unfold quad. change (total n) with (sumn n). rewrite <- sumn_plus. apply sumn_ext. intros i Hi. rewrite <- sumn_plus. apply sumn_ext. intros. ring.
Qed.
Lemma quad_scal n c a x : quad n (fun i j => c * a i j) x = c * quad n a x.
Proof.
  unfold quad. change (total n) with (sumn n). rewrite <- sumn_scal. apply sumn_ext. intros i Hi. rewrite <- sumn_scal. apply sumn_ext. intros. ring.
Qed.
Lemma quad_outer n v x : quad n (fun i j => v i * v j) x = (sumn n (fun i => x i * v i)) ^ 2.
Proof.
  unfold quad. change (total n) with (sumn n).
  rewrite (sumn_ext n _ (fun i => x i * v i * sumn n (fun j => x j * v j))); [rewrite sumn_scal_r; ring|].
  intros i Hi. rewrite <- sumn_scal. apply sumn_ext. intros. ring.
Qed.
Lemma quad_trans n a x : quad n (fun i j => a j i) x = quad n a x.
Proof. unfold quad. change (total n) with (sumn n). rewrite sumn_swap. apply sumn_ext. intros i Hi. apply sumn_ext. intros. ring. Qed.
Lemma quad_half n a x : quad n (fun i j => (a i j + a j i) / 2) x = quad n a x.
Proof.
  rewrite (quad_ext n _ (fun i j => / 2 * (a i j + a j i))) by (intros i j _ _; field). rewrite quad_scal, quad_plus, quad_trans. field.
Qed.
Lemma quad_rankmu n m w y x : quad n (fun i j => sumn m (fun l => y i l * w l * y j l)) x = sumn m (fun l => w l * (sumn n (fun i => x i * y i l)) ^ 2).
Proof.
  induction m as [|m IH].
  - cbn [sumn]. unfold quad. change (total n) with (sumn n). apply sumn_zero. intros i Hi. apply sumn_zero. intros. ring.
  - cbn [sumn]. rewrite quad_plus, IH. f_equal. rewrite (quad_ext n _ (fun i j => w m * (y i m * y j m))) by (intros i j _ _; ring).
    rewrite quad_scal, (quad_outer n (fun i => y i m)). reflexivity.
Qed.
Lemma posdef_eye n : posdef n (entry (eye n)).
Proof.
  intros x (k & Hk & Hx). rewrite (quad_ext n _ delta) by (intros i j Hi Hj; exact (mget_mtab n n delta i j Hi Hj)).
  unfold quad. change (total n) with (sumn n). rewrite (sumn_ext n _ (fun i => x i * x i)).
  - apply (sumn_pos n _ k); auto; [intros; nra|]. nra.
  - intros i Hi. rewrite (sumn_ext n _ (fun j => delta i j * (x i * x j))) by (intros; ring). apply (sumn_delta n i (fun j => x i * x j)). auto.
Qed.

(** ** the sort *)
Lemma sorti_spec v : sorti v = (map (get v) (index_order v), index_order v).
Proof. unfold sorti. rewrite sorted_pairs_index, !map_map. cbn [fst snd]. rewrite map_id. reflexivity. Qed.
Lemma mget_columns n a idx i k : (i < n)%nat -> (k < length idx)%nat -> mget (columns n a idx) i k = mget a i (nth k idx O).
Proof.
  intros Hi Hk. unfold columns, mget at 1. rewrite (nth_indep _ [] (map (mget a O) idx)) by (rewrite map_length, seq_length; auto).
  rewrite (map_nth (fun i => map (mget a i) idx)), seq_nth by auto. cbn [plus]. unfold get.
  rewrite (nth_indep _ 0 (mget a i O)) by (rewrite map_length; auto). apply map_nth.
Qed.
Lemma mget_sel n a idx m i k : (i < n)%nat -> (k < m)%nat -> (m <= length idx)%nat -> mget (columns n (columns n a idx) (seq 0 m)) i k = mget a i (nth k idx O).
Proof. intros Hi Hk Hm. rewrite mget_columns by (rewrite ?seq_length; auto). rewrite seq_nth by auto. apply mget_columns; auto. cbn. lia. Qed.

(** ** the update, by its parts *)
Section Update.
Context (p : cma_par) (s : cma) (arz0 arx0 : mat) (idx : list nat).
Context (Hp : par_ok p) (Hidx : (cp_mu p <= length idx)%nat).
Local Notation n := (cp_dim p).
Local Notation mu := (cp_mu p).
Definition u_zmean : vec := mvec n mu (columns n (columns n arz0 idx) (seq 0 mu)) (cp_weights p).
Definition u_center : vec := mvec n mu (columns n (columns n arx0 idx) (seq 0 mu)) (cp_weights p).
Definition u_stepPath : vec := tab n (fun i => (1 - cp_cumStep p) * get (cm_stepPath s) i
      + sqrt (cp_cumStep p * (2 - cp_cumStep p) * cp_mueff p) * get (mvec n n (cm_B s) u_zmean) i).
Definition u_hsig : R :=
  if Rlt_dec (norm2 n u_stepPath / sqrt (1 - Rpower (1 - cp_cumStep p) (2 * INR (cm_n s + cp_batch p) / INR (cp_batch p))) / cp_chiN p) (1.4 + 2 / (INR n + 1)) then 1 else 0.
Definition u_covPath : vec := tab n (fun i => (1 - cp_cumCov p) * get (cm_covPath s) i
      + u_hsig * sqrt (cp_cumCov p * (2 - cp_cumCov p) * cp_mueff p) * get (mvec n n (cma_bd p s) u_zmean) i).
Definition u_mut : mat := mtab n mu (fun i k => mget (columns n (columns n arx0 idx) (seq 0 mu)) i k - get (cm_center s) i).
Definition u_rankmu : mat := mmul n mu n (mmul n mu mu u_mut (mtab mu mu (fun i j => if Nat.eqb i j then get (cp_weights p) i else 0))) (mtrans n mu u_mut).
Definition u_C1 : mat := mtab n n (fun i j => (1 - cp_covRate p) * mget (cm_C s) i j
      + cp_covRate p * (1 / cp_mueff p) * (get u_covPath i * get u_covPath j + (1 - u_hsig) * cp_cumCov p * (2 - cp_cumCov p) * mget (cm_C s) i j)
      + cp_covRate p * (1 - 1 / cp_mueff p) * mget u_rankmu i j).
Definition u_C2 : mat := mtab n n (fun i j => (mget u_C1 i j + mget u_C1 j i) / 2).
Definition u_step : R := cm_step s * exp ((cp_cumStep p / cp_dampings p) * (norm2 n u_stepPath / cp_chiN p - 1)).
Lemma update_eq eig arf : cma_update eig p s arz0 arx0 arf idx =
  {| cm_center := u_center; cm_step := u_step; cm_covPath := u_covPath; cm_stepPath := u_stepPath; cm_B := snd (eig u_C2);
     cm_D := mtab n n (fun i j => if Nat.eqb i j then sqrt (get (fst (eig u_C2)) i) else 0); cm_C := u_C2; cm_n := (cm_n s + cp_batch p)%nat;
     cm_stop := cm_stop s || (cma_converged p (get arf 0) (get arf (length arf - 1)) || (if Rlt_dec (10 ^ 5) (vminl (fst (eig u_C2))) then true else false)) |}.
Proof.
  unfold cma_update. fold u_zmean u_center u_stepPath u_hsig u_covPath u_mut. fold u_rankmu. fold u_C1. fold u_C2. fold u_step. destruct (eig u_C2) as [Ev B]. reflexivity.
Qed.
Lemma hsig_01 : u_hsig = 0 \/ u_hsig = 1.
Proof. unfold u_hsig. destruct (Rlt_dec _ _); auto. Qed.
Lemma mut_val i k : (i < n)%nat -> (k < mu)%nat -> mget u_mut i k = mget arx0 i (nth k idx O) - get (cm_center s) i.
Proof. intros Hi Hk. unfold u_mut. rewrite mget_mtab by auto. rewrite mget_sel by auto. reflexivity. Qed.
Lemma rankmu_val i j : (i < n)%nat -> (j < n)%nat -> mget u_rankmu i j = sumn mu (fun l => mget u_mut i l * get (cp_weights p) l * mget u_mut j l).
Proof.
  intros Hi Hj. unfold u_rankmu, mmul at 1. rewrite mget_mtab by auto. apply sumn_ext. intros l Hl. unfold mtrans. rewrite mget_mtab by auto. f_equal.
  unfold mmul. rewrite mget_mtab by auto. rewrite (sumn_ext mu _ (fun k => mget u_mut i k * get (cp_weights p) k * delta k l)).
  - apply (sumn_delta_r mu l (fun k => mget u_mut i k * get (cp_weights p) k)). auto.
  - intros k Hk. rewrite mget_mtab by auto. unfold delta. destruct (Nat.eqb k l); ring.
Qed.
Lemma C2_sym : symmetric n (entry u_C2).
Proof. intros i j Hi Hj. change (mget u_C2 i j = mget u_C2 j i). unfold u_C2. rewrite !mget_mtab by auto. lra. Qed.
Lemma C2_quad x : symmetric n (entry (cm_C s)) -> quad n (entry u_C2) x =
  (1 - cp_covRate p + cp_covRate p / cp_mueff p * (1 - u_hsig) * cp_cumCov p * (2 - cp_cumCov p)) * quad n (entry (cm_C s)) x
  + cp_covRate p / cp_mueff p * (sumn n (fun i => x i * get u_covPath i)) ^ 2
  + cp_covRate p * (1 - 1 / cp_mueff p) * sumn mu (fun l => get (cp_weights p) l * (sumn n (fun i => x i * mget u_mut i l)) ^ 2).
Proof.
  intro Hs. pose proof (pk_e p Hp) as He.
  rewrite (quad_ext n _ (fun i j => (mget u_C1 i j + mget u_C1 j i) / 2)) by (intros i j Hi Hj; exact (mget_mtab n n _ i j Hi Hj)). rewrite (quad_half n (mget u_C1)).
  rewrite (quad_ext n _ (fun i j => ((1 - cp_covRate p + cp_covRate p / cp_mueff p * (1 - u_hsig) * cp_cumCov p * (2 - cp_cumCov p)) * entry (cm_C s) i j
      + cp_covRate p / cp_mueff p * (get u_covPath i * get u_covPath j))
      + cp_covRate p * (1 - 1 / cp_mueff p) * sumn mu (fun l => mget u_mut i l * get (cp_weights p) l * mget u_mut j l))).
  - rewrite quad_plus, quad_plus, !quad_scal, (quad_outer n (get u_covPath)), (quad_rankmu n mu (get (cp_weights p)) (mget u_mut)). reflexivity.
  - intros i j Hi Hj. unfold u_C1. rewrite mget_mtab by auto. rewrite rankmu_val by auto. change (entry (cm_C s) i j) with (mget (cm_C s) i j). field. lra.
Qed.
Lemma C2_posdef : symmetric n (entry (cm_C s)) -> posdef n (entry (cm_C s)) -> posdef n (entry u_C2).
Proof.
  intros Hs Hd x Hx. rewrite C2_quad by auto. specialize (Hd x Hx). destruct Hp as [_ _ _ Hw _ He Hcc _ Hcr _ _].
  assert (Hi : 0 < cp_covRate p / cp_mueff p) by (apply Rdiv_lt_0_compat; lra).
  assert (Hh : 0 <= cp_covRate p / cp_mueff p * (1 - u_hsig) * cp_cumCov p * (2 - cp_cumCov p)).
  { apply Rmult_le_pos; [|lra]. apply Rmult_le_pos; [|lra]. apply Rmult_le_pos; [lra|]. destruct hsig_01 as [->| ->]; lra. }
  assert (He1 : 0 <= 1 - 1 / cp_mueff p).
  { assert (1 / cp_mueff p <= 1); [|lra]. apply (Rmult_le_reg_l (cp_mueff p)); [lra|]. unfold Rdiv. rewrite Rmult_1_l, Rinv_r by lra. lra. }
  assert (H1 : 0 < (1 - cp_covRate p + cp_covRate p / cp_mueff p * (1 - u_hsig) * cp_cumCov p * (2 - cp_cumCov p)) * quad n (entry (cm_C s)) x)
    by (apply Rmult_lt_0_compat; [lra|auto]).
  assert (H2 : 0 <= cp_covRate p / cp_mueff p * (sumn n (fun i => x i * get u_covPath i)) ^ 2) by (apply Rmult_le_pos; [lra|apply pow2_ge_0]).
  assert (H3 : 0 <= cp_covRate p * (1 - 1 / cp_mueff p) * sumn mu (fun l => get (cp_weights p) l * (sumn n (fun i => x i * mget u_mut i l)) ^ 2)).
  { apply Rmult_le_pos; [apply Rmult_le_pos; lra|]. apply sumn_nonneg. intros l Hl. apply Rmult_le_pos; [left; auto|apply pow2_ge_0]. }
  lra.
Qed.
Lemma center_val i : (i < n)%nat -> get u_center i = sumn mu (fun k => get (cp_weights p) k * mget arx0 i (nth k idx O)).
Proof. intro Hi. unfold u_center, mvec. rewrite get_tab by auto. apply sumn_ext. intros k Hk. rewrite mget_sel by auto. ring. Qed.
End Update.

Lemma sumn_nonzero n f : sumn n f <> 0 -> exists i, (i < n)%nat /\ f i <> 0.
Proof.
  induction n as [|n IH]; cbn [sumn]; intro H; [lra|]. destruct (Req_dec (f n) 0) as [E|E]; [|exists n; auto].
  destruct IH as (i & Hi & Hf); [lra|]. exists i. auto.
Qed.
(** ** the factor of the covariance *)
Lemma eig_factor n C Ev B : symmetric n (entry C) -> posdef n (entry C) -> eig_contract n (entry C) (get Ev) (entry B) -> orthogonal_rows n (entry B) ->
  let D := mtab n n (fun i j => if Nat.eqb i j then sqrt (get Ev i) else 0) in
  let bd := mmul n n n B D in
  (forall k, (k < n)%nat -> 0 < get Ev k) /\ meq n (mprod n (entry bd) (fun k j => entry bd j k)) (entry C).
Proof.
  intros Hsym Hpos [Heig Hunit] Horth D bd.
  assert (HE : forall k, (k < n)%nat -> 0 < get Ev k).
  { intros k Hk. assert (Eq : quad n (entry C) (fun i => entry B i k) = get Ev k).
    { unfold quad. change (total n) with (sumn n) in *. rewrite (sumn_ext n _ (fun i => get Ev k * (entry B i k ^ 2))).
      - rewrite sumn_scal. rewrite Hunit by auto. ring.
      - intros i Hi. rewrite (sumn_ext n _ (fun j => entry B i k * (entry C i j * entry B j k))) by (intros; ring). rewrite sumn_scal, Heig by auto. ring. }
    rewrite <- Eq. apply Hpos. specialize (Hunit k Hk). change (total n) with (sumn n) in Hunit.
    destruct (sumn_nonzero n (fun j => entry B j k ^ 2)) as (i & Hi & Hne); [lra|]. exists i. split; auto. intro E0. apply Hne. rewrite E0. ring. }
  split; auto. intros i j Hi Hj.
  assert (Hbd : forall a b, (a < n)%nat -> (b < n)%nat -> entry bd a b = entry B a b * sqrt (get Ev b)).
  { intros a b Ha Hb. change (mget bd a b = mget B a b * sqrt (get Ev b)). unfold bd, mmul. rewrite mget_mtab by auto.
    rewrite (sumn_ext n _ (fun l => (mget B a l * sqrt (get Ev l)) * delta l b)).
    - apply (sumn_delta_r n b (fun l => mget B a l * sqrt (get Ev l))). auto.
    - intros l Hl. unfold D. rewrite mget_mtab by auto. unfold delta. destruct (Nat.eqb l b); ring. }
  unfold mprod. change (total n) with (sumn n) in *.
  rewrite (sumn_ext n _ (fun k => sumn n (fun l => entry C i l * entry B l k) * entry B j k)).
  2:{ intros k Hk. rewrite !Hbd by auto. rewrite Heig by auto. pose proof (HE k Hk) as He. transitivity (entry B i k * (sqrt (get Ev k) * sqrt (get Ev k)) * entry B j k); [ring|].
      rewrite sqrt_sqrt by lra. ring. }
  rewrite (sumn_ext n _ (fun k => sumn n (fun l => entry C i l * (entry B l k * entry B j k)))).
  2:{ intros k Hk. rewrite <- sumn_scal_r. apply sumn_ext. intros. ring. }
  rewrite sumn_swap. rewrite (sumn_ext n _ (fun l => entry C i l * delta l j)).
  2:{ intros l Hl. rewrite sumn_scal. f_equal. exact (Horth l j Hl Hj). }
  apply (sumn_delta_r n j (entry C i)). auto.
Qed.
