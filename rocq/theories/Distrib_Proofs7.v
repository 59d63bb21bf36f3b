(** C68, part 7: small facts for the statements and their examples. *)
From Coq Require Import Reals R_Ifp Lra Psatz Permutation.
From Verif Require Import Base StableSort Functions_Model Distrib_Model Distrib_Spec Distrib_Proofs Distrib_Proofs2 Distrib_Proofs3 Distrib_Proofs4 Distrib_Proofs5 Distrib_Proofs6.
Local Open Scope R_scope.

Lemma rank2 e : e O < e 1%nat -> rank 2 e 0 = 0%nat /\ rank 2 e 1 = 1%nat.
Proof.
  intro H. unfold rank, before. cbn [seq filter].
  repeat match goal with |- context [Rlt_dec ?a ?b] => destruct (Rlt_dec a b); try lra end; cbn [filter length Nat.ltb Nat.leb]; auto.
Qed.
Lemma rank2_eq e : e O = e 1%nat -> rank 2 e 0 = 0%nat /\ rank 2 e 1 = 1%nat.
Proof.
  intro H. unfold rank, before. cbn [seq filter].
  repeat match goal with |- context [Rlt_dec ?a ?b] => destruct (Rlt_dec a b); try lra end; cbn [filter length Nat.ltb Nat.leb]; auto.
Qed.
Lemma ln2_pos : 0 < ln 2.
Proof. rewrite <- ln_1. apply ln_increasing; lra. Qed.
Lemma raw20 : hansen_raw 2 0 = 0.
Proof. apply hansen_raw_zero. lia. Qed.
Lemma raw21 : hansen_raw 2 1 = ln 2.
Proof.
  unfold hansen_raw. cbn [INR]. replace ((1 + 1) / 2 + 1) with 2 by lra. replace (1 + 1 - 1) with 1 by lra. rewrite ln_1, Rminus_0_r. apply Rmax_right. pose proof ln2_pos. lra.
Qed.
Lemma total2 : total 2 (hansen_raw 2) = ln 2.
Proof. cbn [total]. rewrite raw20, raw21. lra. Qed.
Lemma utility2 e : e O <= e 1%nat -> utility 2 false e 0 = 0 /\ utility 2 false e 1 = 1.
Proof.
  intro H. assert (E : rank 2 e 0 = 0%nat /\ rank 2 e 1 = 1%nat) by (destruct H; [apply rank2; auto|apply rank2_eq; auto]). destruct E as [E0 E1].
  unfold utility. rewrite E0, E1, total2, raw20, raw21. pose proof ln2_pos. split; field; lra.
Qed.

(** ** stored evaluations *)
Record logged (f : evaluator) (st : store) : Prop := { lg_n : st_n st = length (st_x st); lg_e : st_e st = map (fun k => f k (nth k (st_x st) [])) (seq 0 (length (st_x st))) }.
Lemma logged_produce c f s2b draws st : length draws = nc_batch c -> nc_clear c = false -> logged f st -> logged f (fst (produceSamples c f s2b draws st)).
Proof.
  intros Hd Hc [L1 L2]. assert (E : length (st_x st) = length (st_e st)) by (rewrite L2, map_length, seq_length; auto).
  pose proof (produce_spec c f s2b draws st Hd E) as H. destruct (produceSamples c f s2b draws st) as [st' ps]. cbn [fst]. destruct H as (_ & _ & H1 & _ & H3 & H4).
  rewrite Hc in H3, H4. cbn [clear_store] in H3, H4. constructor.
  - rewrite H1, H3, app_length, map_length, L1, Hd. auto.
  - rewrite H3, H4, app_length, map_length, Hd, seq_app, map_app. f_equal.
    + rewrite L2. apply map_ext_in. intros k Hk. apply in_seq in Hk. rewrite app_nth1 by lia. auto.
    + cbn [Nat.add]. rewrite (seq_off (length (st_x st))), map_map. apply map_ext. intro k. rewrite L1, nth_app_off. auto.
Qed.
Lemma logged_run c f batches : nc_clear c = false -> forall s, Forall (batch_ok (nc_dim c) (nc_batch c)) batches -> logged f (sn_store s) -> logged f (sn_store (snes_run c f batches s)).
Proof.
  intro Hc. unfold snes_run. induction batches as [|z zs IH]; intros s Hb Hs; cbn [fold_left]; auto. apply Forall_cons_iff in Hb. destruct Hb as [[Hz _] Hb]. apply IH; auto.
  unfold snes_step. pose proof (logged_produce c f (snes_sample2base c s) z (sn_store s) Hz Hc Hs) as L. destruct (produceSamples c f (snes_sample2base c s) z (sn_store s)) as [st ps]. exact L.
Qed.

(** ** CMA-ES: the factor *)
Definition eig_ok (n : nat) (eig : mat -> vec * mat) : Prop :=
  forall C, symmetric n (entry C) -> posdef n (entry C) -> eig_contract n (entry C) (at_ (fst (eig C))) (entry (snd (eig C))) /\ orthogonal_rows n (entry (snd (eig C))).
Definition factored (p : cma_par) (s : cma) : Prop :=
  let bd := entry (cma_bd p s) in meq (cp_dim p) (mprod (cp_dim p) bd (fun k j => bd j k)) (entry (cm_C s)).
Lemma factored_init p x0 st : factored p (cma_init p x0 st).
Proof.
  intros i j Hi Hj. change (entry (cm_C (cma_init p x0 st)) i j) with (mget (cm_C (cma_init p x0 st)) i j). rewrite init_C by auto.
  unfold mprod. change (sumn (cp_dim p) (fun k => mget (mmul (cp_dim p) (cp_dim p) (cp_dim p) (eye (cp_dim p)) (eye (cp_dim p))) i k * mget (mmul (cp_dim p) (cp_dim p) (cp_dim p) (eye (cp_dim p)) (eye (cp_dim p))) j k) = delta i j).
  rewrite (sumn_ext _ _ (fun k => delta i k * delta k j)) by (intros k Hk; rewrite !eye2 by auto; rewrite (delta_sym j k); auto).
  change (mprod (cp_dim p) ident ident i j = delta i j). rewrite mprod_ident_l; auto.
Qed.
Lemma factored_step eig p f z s : par_ok p -> cma_ok p s -> eig_ok (cp_dim p) eig -> factored p (cma_step eig p f z s).
Proof.
  intros Hp Hs He. pose proof (step_ok eig p f z s Hp Hs) as [_ _ H1 H2]. rewrite cma_step_eq, update_eq in *. cbn [cm_C] in H1, H2. unfold factored, cma_bd. cbn [cm_B cm_D cm_C].
  set (C := u_C2 p s z (cma_points p s z) (cma_idx p f z s)) in *. destruct (He C H1 H2) as [E1 E2]. apply (eig_factor (cp_dim p) C (fst (eig C)) (snd (eig C)) H1 H2 E1 E2).
Qed.
Lemma factored_run eig p f zs : par_ok p -> eig_ok (cp_dim p) eig -> forall s, cma_ok p s -> factored p s -> factored p (cma_run eig p f zs s).
Proof. intros Hp He. unfold cma_run. induction zs as [|z zs IH]; intros s Hs Hf; cbn [fold_left]; auto. apply IH; [apply step_ok; auto|apply factored_step; auto]. Qed.
Definition eig1 (C : mat) : vec * mat := ([entry C 0 0], [[1]]).
Lemma eig1_ok : eig_ok 1 eig1.
Proof.
  intros C _ _. split; [split|].
  - intros i k Hi Hk. replace i with O by lia. replace k with O by lia. cbn [total]. unfold eig1. cbn [fst snd]. generalize (entry C 0 0). intro x. unfold entry, at_. cbn [nth]. ring.
  - intros k Hk. replace k with O by lia. cbn [total eig1 snd]. unfold entry. cbn [nth]. ring.
  - intros i j Hi Hj. replace i with O by lia. replace j with O by lia. cbn [total eig1 snd]. unfold entry, ident. cbn [nth Nat.eqb]. ring.
Qed.
Lemma default_batch_1 : default_batch 1 = 4%nat.
Proof.
  unfold default_batch. cbn [INR]. rewrite ln_1, Rmult_0_r. replace (Int_part 0) with 0%Z; [reflexivity|]. unfold Int_part. rewrite <- (tech_up 0 1); [reflexivity| |]; lra.
Qed.
Lemma scale_init p x0 st q : cma_scale p q (cma_init p x0 st) = cma_init p (aff (cp_dim p) (fun _ => q) (fun _ => 0) x0) (q * st).
Proof. reflexivity. Qed.

(** ** xNES in one dimension *)
Definition expm1 (M : mat) : mat := [[exp (entry M 0 0)]].
Lemma expm1_ok : expm_ok 1 expm1.
Proof.
  intros M i j Hi Hj. replace i with O by lia. replace j with O by lia. unfold mprod. cbn [total]. unfold ident. cbn [Nat.eqb].
  change (entry (expm1 M) 0 0) with (exp (entry M 0 0)). change (entry (expm1 (matrix 1 (fun i j => - entry M i j))) 0 0) with (exp (entry (matrix 1 (fun i j => - entry M i j)) 0 0)).
  rewrite entry_matrix by lia. rewrite Rplus_0_l, <- exp_plus, Rplus_opp_l. apply exp_0.
Qed.
Lemma ld1_ok : logdet_ok 1 expm1 (fun A => ln (Rabs (entry A 0 0))).
Proof.
  split.
  - rewrite entry_matrix by lia. unfold ident. cbn [Nat.eqb]. rewrite Rabs_R1. apply ln_1.
  - intros A B M H. specialize (H O O ltac:(lia) ltac:(lia)). unfold mprod in H. cbn [total] in H. unfold ident in H. cbn [Nat.eqb] in H.
    assert (Ha : entry A 0 0 <> 0) by (intro E; rewrite E in H; lra).
    rewrite entry_matrix by lia. unfold mprod, trace. cbn [total]. rewrite !Rplus_0_l. change (entry (expm1 M) 0 0) with (exp (entry M 0 0)). rewrite Rabs_mult.
    rewrite (Rabs_right (exp _)) by (left; apply exp_pos). rewrite ln_mult by (try apply Rabs_pos_lt; auto; apply exp_pos). rewrite ln_exp. auto.
Qed.
