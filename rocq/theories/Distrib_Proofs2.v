(** C68, part 2: utilities, storage, SNES. *)
From Coq Require Import Reals Lra.
From Verif Require Import Base StableSort Functions_Model Distrib_Model Distrib_Spec Distrib_Proofs.
Local Open Scope R_scope.

Lemma sumn_first n f : sumn (S n) f = f O + sumn n (fun i => f (S i)).
Proof. induction n as [|n IH]; [cbn; ring|]. cbn [sumn] in *. rewrite IH. ring. Qed.
Lemma vtotal_cons a l : vtotal (a :: l) = a + vtotal l.
Proof. unfold vtotal. cbn [length]. rewrite sumn_first. reflexivity. Qed.
Lemma vtotal_perm a b : Permutation a b -> vtotal a = vtotal b.
Proof. induction 1; rewrite ?vtotal_cons; lra. Qed.
Lemma vtotal_tab n f : vtotal (tab n f) = sumn n f.
Proof. unfold vtotal. rewrite tab_length. apply sumn_ext. intros. apply get_tab. auto. Qed.

(** ** Hansen's ranking *)
Lemma hansen_tab l : hansen l = tab (length l) (fun i => hansen_raw (length l) (rank (length l) (get l) i)).
Proof. unfold hansen. rewrite ranked_rank, map_map. reflexivity. Qed.
Lemma hansen_total l : vtotal (hansen l) = total (length l) (hansen_raw (length l)).
Proof.
  rewrite (vtotal_perm _ (tab (length l) (hansen_raw (length l)))); [apply vtotal_tab|].
  unfold hansen, tab. apply (Permutation_map (hansen_raw (length l))). apply ranked_perm.
Qed.
Lemma hansen_raw_nonneg n r : 0 <= hansen_raw n r.
Proof. apply Rmax_l. Qed.
Lemma hansen_raw_best n : (0 < n)%nat -> 0 < hansen_raw n (n - 1).
Proof.
  intro H. unfold hansen_raw. rewrite minus_INR by lia. replace (INR n - (INR n - INR 1)) with 1 by (cbn [INR]; ring). rewrite ln_1.
  assert (0 < INR n) by (apply lt_0_INR; auto). assert (0 < ln (INR n / 2 + 1)) by (rewrite <- ln_1; apply ln_increasing; lra).
  eapply Rlt_le_trans; [|apply Rmax_r]. lra.
Qed.
Lemma hansen_sum_pos n : (0 < n)%nat -> 0 < total n (hansen_raw n).
Proof. intro H. rewrite total_sumn. apply (sumn_pos n _ (n - 1)); [intros; apply hansen_raw_nonneg|lia|apply hansen_raw_best; auto]. Qed.
Lemma hansen_raw_mono n r q : (r <= q)%nat -> (q < n)%nat -> hansen_raw n r <= hansen_raw n q.
Proof.
  intros H1 H2. unfold hansen_raw. apply Rle_max_compat_l. assert (INR r <= INR q) by (apply le_INR; auto). assert (INR q < INR n) by (apply lt_INR; auto).
  assert (ln (INR n - INR q) <= ln (INR n - INR r)); [|lra]. destruct H as [H|H]; [left; apply ln_increasing; lra|rewrite H; lra].
Qed.
Lemma hansen_raw_zero n r : (2 * (r + 1) <= n)%nat -> hansen_raw n r = 0.
Proof.
  intro H. unfold hansen_raw. apply Rmax_left. assert (INR 2 * (INR r + 1) <= INR n) as Hr.
  { rewrite <- S_INR, <- mult_INR. apply le_INR. lia. }
  cbn [INR] in Hr. assert (0 <= INR r) by apply pos_INR.
  assert (ln (INR n / 2 + 1) <= ln (INR n - INR r)); [|lra]. destruct (Req_dec (INR n / 2 + 1) (INR n - INR r)) as [->|]; [lra|]. left. apply ln_increasing; lra.
Qed.
Lemma sumn_ranks n e (h : nat -> R) : sumn n (fun i => h (rank n e i)) = sumn n h.
Proof.
  set (l := tab n e). assert (Hl : length l = n) by apply tab_length.
  rewrite <- !vtotal_tab. apply vtotal_perm. unfold tab. rewrite <- (map_map (rank n e) h). apply Permutation_map.
  assert (E : map (rank n e) (seq 0 n) = rankedFitness l).
  { rewrite ranked_rank, Hl. apply map_ext_in. intros i Hi. apply in_seq in Hi. apply rank_same; [lia|]. intros a b Ha Hb. unfold l. rewrite !get_tab by auto. tauto. }
  rewrite E. rewrite <- Hl. apply ranked_perm.
Qed.
Lemma utility_sum n b e : (0 < n)%nat -> total n (utility n b e) = if b then 0 else 1.
Proof.
  intro H. rewrite total_sumn. unfold utility. rewrite sumn_minus, sumn_const. unfold Rdiv. rewrite sumn_scal_r, (sumn_ranks n e (hansen_raw n)).
  pose proof (hansen_sum_pos n H) as Hp. change (total n (hansen_raw n)) with (sumn n (hansen_raw n)) in *. assert (INR n <> 0) by (apply not_0_INR; lia).
  rewrite Rinv_r by lra. destruct b; field; auto.
Qed.
Lemma utility_nonneg n e i : (0 < n)%nat -> 0 <= utility n false e i.
Proof.
  intro H. unfold utility. rewrite Rminus_0_r. pose proof (hansen_sum_pos n H). pose proof (hansen_raw_nonneg n (rank n e i)). apply Rmult_le_pos; auto.
  left. apply Rinv_0_lt_compat. auto.
Qed.
Lemma utility_mono n b e i j : (i < n)%nat -> (j < n)%nat -> e i < e j -> utility n b e i <= utility n b e j.
Proof.
  intros Hi Hj H. unfold utility. assert (Hr := rank_order n e i j Hi Hj H). pose proof (hansen_sum_pos n ltac:(lia)) as Hp.
  assert (hansen_raw n (rank n e i) <= hansen_raw n (rank n e j)) by (apply hansen_raw_mono; [lia|apply rank_lt; auto]).
  apply Rplus_le_compat_r. unfold Rdiv. apply Rmult_le_compat_r; auto. left. apply Rinv_0_lt_compat. auto.
Qed.
Lemma utilities_spec c l k : length l = nc_batch c -> (k < nc_batch c)%nat -> get (utilities c l) k = utility (nc_batch c) (nc_baseline c) (get l) k.
Proof.
  intros Hl Hk. unfold utilities, utility.
  assert (L : length (hansen l) = nc_batch c) by (rewrite hansen_tab, tab_length; auto).
  assert (E : get (map (fun x => x / vtotal (hansen l)) (hansen l)) k = hansen_raw (nc_batch c) (rank (nc_batch c) (get l) k) / total (nc_batch c) (hansen_raw (nc_batch c))).
  { rewrite get_map by lia. rewrite hansen_total, hansen_tab, Hl, get_tab by auto. reflexivity. }
  destruct (nc_baseline c); [|rewrite E; ring]. rewrite get_map by (rewrite map_length; lia). rewrite E. reflexivity.
Qed.
Lemma utility_ext n b e d i : (i < n)%nat -> (forall a a', (a < n)%nat -> (a' < n)%nat -> (e a < e a' <-> d a < d a')) -> utility n b e i = utility n b d i.
Proof. intros Hi H. unfold utility. rewrite (rank_same n e d i Hi H). reflexivity. Qed.

(** ** the store *)
Lemma eval_fold op f xs : forall st, let st' := fold_left (oneEvaluation op f) xs st in
  st_x st' = st_x st ++ xs /\ st_n st' = (st_n st + length xs)%nat /\
  st_e st' = st_e st ++ map (fun k => f (st_n st + k)%nat (nth k xs [])) (seq 0 (length xs)).
Proof.
  induction xs as [|x xs IH]; intro st; cbn [fold_left length seq map].
  - rewrite !app_nil_r. split; [auto|split; [lia|auto]].
  - destruct (IH (oneEvaluation op f st x)) as (E1 & E2 & E3). split; [|split].
    + rewrite E1. cbn [oneEvaluation st_x]. rewrite <- app_assoc. reflexivity.
    + rewrite E2. cbn [oneEvaluation st_n]. lia.
    + rewrite E3. cbn [oneEvaluation st_e st_n]. rewrite <- app_assoc. f_equal. cbn [app nth]. rewrite Nat.add_0_r. f_equal.
      * unfold internal. destruct op; ring.
      * rewrite <- seq_shift, map_map. apply map_ext. intro k. cbn [nth]. f_equal. lia.
Qed.
Lemma clear_n b st : st_n (clear_store b st) = st_n st.
Proof. destruct b; reflexivity. Qed.
Lemma nth_app_off {A} (a b : list A) d i : nth (length a + i) (a ++ b) d = nth i b d.
Proof. rewrite app_nth2 by lia. f_equal. lia. Qed.
Lemma map_nth_seq {A} (l : list A) d : map (fun i => nth i l d) (seq 0 (length l)) = l.
Proof.
  apply (nth_ext _ _ d d); rewrite map_length, seq_length; auto. intros i Hi. rewrite (nth_indep _ d (nth O l d)) by (rewrite map_length, seq_length; auto).
  rewrite (map_nth (fun i => nth i l d)), seq_nth by auto. reflexivity.
Qed.
Lemma seq_off a n : seq a n = map (fun i => (a + i)%nat) (seq 0 n).
Proof. revert a. induction n as [|n IH]; intro a; cbn [seq map]; auto. f_equal; [lia|]. rewrite (IH (S a)), (IH 1%nat), map_map. apply map_ext. intro. lia. Qed.
Lemma produce_spec c f s2b draws st : length draws = nc_batch c -> length (st_x st) = length (st_e st) ->
  let '(st', ps) := produceSamples c f s2b draws st in
  population st' ps = map s2b draws /\
  currentEvaluations (nc_opposed c) st' ps = map (fun k => internal (nc_opposed c) f (st_n st + k)%nat (nth k (map s2b draws) [])) (seq 0 (nc_batch c)) /\
  st_n st' = (st_n st + nc_batch c)%nat /\ length (st_x st') = length (st_e st') /\
  st_x st' = st_x (clear_store (nc_clear c) st) ++ map s2b draws /\
  st_e st' = st_e (clear_store (nc_clear c) st) ++ map (fun k => f (st_n st + k)%nat (nth k (map s2b draws) [])) (seq 0 (nc_batch c)).
Proof.
  intros Hd Hst. unfold produceSamples. set (st0 := clear_store (nc_clear c) st).
  assert (Hst0 : length (st_x st0) = length (st_e st0)) by (unfold st0, clear_store; destruct (nc_clear c); auto).
  destruct (eval_fold (nc_opposed c) f (map s2b draws) st0) as (E1 & E2 & E3). set (st' := fold_left (oneEvaluation (nc_opposed c) f) (map s2b draws) st0) in *.
  cbv beta iota zeta. rewrite map_length, Hd in E2, E3. assert (En : st_n st0 = st_n st) by (apply clear_n). rewrite En in E2, E3.
  assert (L : (length (st_x st') - nc_batch c = length (st_x st0))%nat) by (rewrite E1, app_length, map_length, Hd; lia). rewrite L.
  split; [|split; [|split; [auto|split; [|split; auto]]]].
  - unfold population. rewrite E1, seq_off, map_map. rewrite <- Hd, <- (map_length s2b draws).
    transitivity (map (fun i => nth i (map s2b draws) []) (seq 0 (length (map s2b draws)))); [|apply map_nth_seq].
    apply map_ext. intro i. apply nth_app_off.
  - unfold currentEvaluations. rewrite Hst0, E3.
    assert (G : map (fun i => nth i (st_e st0 ++ map (fun k => f (st_n st + k)%nat (nth k (map s2b draws) [])) (seq 0 (nc_batch c))) 0) (seq (length (st_e st0)) (nc_batch c))
      = map (fun k => f (st_n st + k)%nat (nth k (map s2b draws) [])) (seq 0 (nc_batch c))).
    { rewrite (seq_off (length (st_e st0))), map_map. apply map_ext_in. intros k Hk. apply in_seq in Hk. rewrite nth_app_off. set (g := fun k => f (st_n st + k)%nat (nth k (map s2b draws) [])).
      rewrite (nth_indep _ 0 (g O)) by (rewrite map_length, seq_length; lia). rewrite (map_nth g), seq_nth by lia. reflexivity. }
    rewrite G. unfold internal. destruct (nc_opposed c); auto. rewrite map_map. reflexivity.
  - rewrite E1, E3, !app_length, !map_length, seq_length, Hd. lia.
Qed.

(** ** SNES *)
Record snes_ok (c : nes_cfg) (s : snes) : Prop := {
  so_center : length (sn_center s) = nc_dim c; so_sigmas : length (sn_sigmas s) = nc_dim c;
  so_pos : forall i, (i < nc_dim c)%nat -> 0 < get (sn_sigmas s) i;
  so_store : length (st_x (sn_store s)) = length (st_e (sn_store s)) }.
Lemma snes_roundtrip c s z : snes_ok c s -> length z = nc_dim c -> snes_base2sample c s (snes_sample2base c s z) = z.
Proof.
  intros H Hz. unfold snes_base2sample. transitivity (tab (nc_dim c) (get z)); [|apply tab_get; auto]. apply tab_ext. intros i Hi. unfold snes_sample2base. rewrite get_tab by auto.
  pose proof (so_pos c s H i Hi). field. lra.
Qed.
Lemma snes_points c s z : snes_sample2base c s z = sep_points (nc_dim c) (sn_center s) (sn_sigmas s) z.
Proof. unfold snes_sample2base, sep_points, tab. apply map_ext. intro i. unfold get, at_. ring. Qed.
Lemma mget_nth l k i : mget l k i = at_ (nth k l []) i.
Proof. reflexivity. Qed.
Definition snes_view (s : snes) : list R * list R * nat := (sn_center s, sn_sigmas s, st_n (sn_store s)).
Lemma snes_step_spec c f draws s : snes_ok c s -> batch_ok (nc_dim c) (nc_batch c) draws ->
  snes_ok c (snes_step c f draws s) /\
  snes_view (snes_step c f draws s) =
    sep_gen (nc_dim c) (nc_batch c) (nc_centerRate c) (nc_covRate c) (nc_baseline c) (internal (nc_opposed c) f) (snes_view s) draws.
Proof.
  intros Hs [Hd Hz]. unfold snes_step. pose proof (produce_spec c f (snes_sample2base c s) draws (sn_store s) Hd (so_store c s Hs)) as P.
  destruct (produceSamples c f (snes_sample2base c s) draws (sn_store s)) as [st ps]. destruct P as (P1 & P2 & P3 & P4 & _).
  rewrite P1, P2, map_map. set (n := nc_batch c) in *. set (d := nc_dim c) in *.
  assert (Es : map (fun x => snes_base2sample c s (snes_sample2base c s x)) draws = draws).
  { transitivity (map (fun z => z) draws); [|apply map_id]. apply map_ext_in. intros z Hin. rewrite Forall_forall in Hz. apply snes_roundtrip; auto. }
  rewrite Es. clear Es. set (ev := map (fun k => internal (nc_opposed c) f (st_n (sn_store s) + k)%nat (nth k (map (snes_sample2base c s) draws) [])) (seq 0 n)).
  set (g := internal (nc_opposed c) f). set (e := fun k => g (st_n (sn_store s) + k)%nat (sep_points d (sn_center s) (sn_sigmas s) (nth k draws []))).
  assert (Le : length ev = n) by (unfold ev; rewrite map_length, seq_length; auto).
  assert (Ee : forall k, (k < n)%nat -> get ev k = e k).
  { intros k Hk. unfold ev. change (get (tab n (fun k => internal (nc_opposed c) f (st_n (sn_store s) + k)%nat (nth k (map (snes_sample2base c s) draws) []))) k = e k).
    rewrite get_tab by auto. unfold e, g. f_equal. rewrite (nth_indep _ [] (snes_sample2base c s [])) by (rewrite map_length; lia). rewrite map_nth. apply snes_points. }
  assert (Eu : forall k, (k < n)%nat -> get (utilities c ev) k = utility n (nc_baseline c) e k).
  { intros k Hk. rewrite utilities_spec by auto. apply utility_ext; auto. intros a b Ha Hb. rewrite !Ee by auto. tauto. }
  split.
  - constructor; cbn [sn_center sn_sigmas sn_store]; try apply tab_length; auto. intros i Hi. rewrite get_tab by auto.
    apply Rmult_lt_0_compat; [apply (so_pos c s Hs); auto|apply exp_pos].
  - unfold snes_view. cbn [sn_center sn_sigmas sn_store]. unfold sep_gen. fold g. rewrite P3. fold n. fold d. fold e.
    f_equal. f_equal.
    + apply tab_ext. intros i Hi. rewrite get_tab by auto. unfold sep_center. change (total n) with (sumn n).
      assert (E : sumn n (fun k => get (utilities c ev) k * mget draws k i) = sumn n (fun k => utility n (nc_baseline c) e k * at_ (nth k draws []) i))
        by (apply sumn_ext; intros k Hk; rewrite Eu by auto; reflexivity).
      rewrite E. reflexivity.
    + apply tab_ext. intros i Hi. rewrite get_tab by auto. unfold sep_scale. change (total n) with (sumn n).
      assert (E : sumn n (fun k => get (utilities c ev) k * (mget draws k i ^ 2 - 1)) = sumn n (fun k => utility n (nc_baseline c) e k * (at_ (nth k draws []) i ^ 2 - 1)))
        by (apply sumn_ext; intros k Hk; rewrite Eu by auto; reflexivity).
      rewrite E. change (at_ (sn_sigmas s) i) with (get (sn_sigmas s) i). f_equal. f_equal. lra.
Qed.
Lemma snes_run_spec c f batches : forall s, snes_ok c s -> Forall (batch_ok (nc_dim c) (nc_batch c)) batches ->
  snes_ok c (snes_run c f batches s) /\
  snes_view (snes_run c f batches s) =
    sep_run (nc_dim c) (nc_batch c) (nc_centerRate c) (nc_covRate c) (nc_baseline c) (internal (nc_opposed c) f) batches (snes_view s).
Proof.
  induction batches as [|b bs IH]; intros s Hs Hb; cbn [snes_run fold_left]; [auto|]. apply Forall_cons_iff in Hb. destruct Hb as [Hb Hbs].
  destruct (snes_step_spec c f b s Hs Hb) as [H1 H2]. destruct (IH _ H1 Hbs) as [H3 H4]. split; [exact H3|].
  unfold sep_run. cbn [fold_left]. rewrite <- H2. exact H4.
Qed.
Lemma snes_init_ok c x0 : length x0 = nc_dim c -> 0 < nc_initVariance c -> snes_ok c (snes_init c x0).
Proof. intros H1 H2. constructor; cbn [snes_init sn_center sn_sigmas sn_store]; auto; [apply tab_length|]. intros i Hi. rewrite get_tab by auto. lra. Qed.
