(** C68: the optimizers that adapt a search distribution. *)
From Coq Require Import Reals R_Ifp Lra Psatz Permutation.
From Verif Require Import Base StableSort Functions_Model Distrib_Model Distrib_Spec Distrib_Proofs Distrib_Proofs2 Distrib_Proofs3 Distrib_Proofs4 Distrib_Proofs5 Distrib_Proofs6 Distrib_Proofs7.
Local Open Scope R_scope.

(** ** utilities *)
(** the utilities of SNES and xNES depend on ranks only, sum to 1 (or 0), do not decrease with fitness, and are least for the worse half *)
Theorem C68_utilities c evals : length evals = nc_batch c -> (0 < nc_batch c)%nat ->
  let n := nc_batch c in let u := at_ (utilities c evals) in let least := if nc_baseline c then - (1 / INR n) else 0 in
  (forall k, (k < n)%nat -> u k = utility n (nc_baseline c) (at_ evals) k) /\
  total n u = (if nc_baseline c then 0 else 1) /\
  (forall k, (k < n)%nat -> least <= u k) /\
  (forall k, (k < n)%nat -> (2 * (rank n (at_ evals) k + 1) <= n)%nat -> u k = least) /\
  (forall k l, (k < n)%nat -> (l < n)%nat -> at_ evals k < at_ evals l -> u k <= u l).
Proof.
  intros Hl Hn. cbv zeta. set (n := nc_batch c) in *.
  assert (U : forall k, (k < n)%nat -> at_ (utilities c evals) k = utility n (nc_baseline c) (at_ evals) k) by (intros k Hk; apply (utilities_spec c evals k Hl Hk)).
  split; [exact U|]. split; [|split; [|split]].
  - change (sumn n (at_ (utilities c evals)) = if nc_baseline c then 0 else 1). rewrite (sumn_ext _ _ _ U). apply utility_sum. auto.
  - intros k Hk. rewrite U by auto. pose proof (utility_nonneg n (at_ evals) k Hn) as H. unfold utility in *. destruct (nc_baseline c); lra.
  - intros k Hk Hr. rewrite U by auto. unfold utility. rewrite hansen_raw_zero by auto. unfold Rdiv at 1. rewrite Rmult_0_l. destruct (nc_baseline c); lra.
  - intros k l Hk Hll H. rewrite !U by auto. apply utility_mono; auto.
Qed.
Definition cfg1 (opposed : bool) : nes_cfg := {| nc_dim := 1; nc_centerRate := 1; nc_covRate := 1; nc_scaleRate := 1; nc_batch := 2; nc_baseline := false;
  nc_clear := false; nc_opposed := opposed; nc_initVariance := 4; nc_cutoff := 1 |}.
Example C68_utilities_ex : at_ (utilities (cfg1 false) [1; 5]) 0 = 0 /\ at_ (utilities (cfg1 false) [1; 5]) 1 = 1.
Proof.
  pose proof (C68_utilities (cfg1 false) [1; 5] eq_refl ltac:(cbn; lia)) as (U & _). cbn [cfg1 nc_batch nc_baseline] in U. rewrite !U by lia. apply utility2. cbn [at_ nth]. lra.
Qed.
Print Assumptions C68_utilities.

(** ** SNES *)
(** a session is the separable natural evolution strategy on the draws: the round trip through the stored points and the pointers loses nothing;
    the scales stay positive *)
Theorem C68_snes_session c f x0 batches : length x0 = nc_dim c -> 0 < nc_initVariance c -> Forall (batch_ok (nc_dim c) (nc_batch c)) batches ->
  let s := snes_run c f batches (snes_init c x0) in
  (sn_center s, sn_sigmas s, st_n (sn_store s)) =
    sep_run (nc_dim c) (nc_batch c) (nc_centerRate c) (nc_covRate c) (nc_baseline c) (internal (nc_opposed c) f) batches
      (x0, map (fun _ => nc_initVariance c) (seq 0 (nc_dim c)), O) /\
  (forall i, (i < nc_dim c)%nat -> 0 < at_ (sn_sigmas s) i).
Proof.
  intros Hx Hv Hb. destruct (snes_run_spec c f batches (snes_init c x0) (snes_init_ok c x0 Hx Hv) Hb) as [H1 H2]. split; [|apply (so_pos _ _ H1)].
  change (snes_view (snes_run c f batches (snes_init c x0)) = sep_run (nc_dim c) (nc_batch c) (nc_centerRate c) (nc_covRate c) (nc_baseline c) (internal (nc_opposed c) f) batches
      (x0, map (fun _ => nc_initVariance c) (seq 0 (nc_dim c)), O)).
  rewrite H2. f_equal. unfold snes_view, snes_init. cbn [sn_center sn_sigmas sn_store empty_store st_n]. f_equal. f_equal. apply tab_ext. intros. ring.
Qed.
Lemma one_batch a b : Forall (batch_ok 1 2) [[[a]; [b]]].
Proof. repeat constructor. Qed.
Example C68_snes_session_ex : let s := snes_run (cfg1 false) (fun _ x => at_ x 0) [[[-1]; [2]]] (snes_init (cfg1 false) [0]) in
  sn_center s = [8] /\ sn_sigmas s = [4 * exp (3 / 2)].
Proof.
  cbv zeta. destruct (C68_snes_session (cfg1 false) (fun _ x => at_ x 0) [0] [[[-1]; [2]]] eq_refl ltac:(cbn; lra) (one_batch _ _)) as [H _].
  cbv zeta in H. remember (snes_run _ _ _ _) as s. clear Heqs. injection H as H1 H2 _. rewrite H1, H2. clear H1 H2.
  cbn [cfg1 nc_dim nc_batch nc_centerRate nc_covRate nc_baseline nc_initVariance seq map]. unfold sep_center, sep_scale. cbn [total nth Nat.add]. cbn [at_ nth].
  match goal with |- context [utility 2 false ?e 0] => destruct (utility2 e) as [U0 U1] end.
  { unfold internal, sep_points. cbn [cfg1 nc_opposed seq map]. unfold at_. cbn [nth]. lra. }
  rewrite !U0, !U1. unfold at_. cbn [nth]. split; f_equal; [ring|]. f_equal. f_equal. field.
Qed.
Print Assumptions C68_snes_session.

(** only the order of the fitness values matters *)
Theorem C68_snes_order c f g x0 batches : length x0 = nc_dim c -> 0 < nc_initVariance c -> Forall (batch_ok (nc_dim c) (nc_batch c)) batches -> same_order f g ->
  sn_center (snes_run c f batches (snes_init c x0)) = sn_center (snes_run c g batches (snes_init c x0)) /\
  sn_sigmas (snes_run c f batches (snes_init c x0)) = sn_sigmas (snes_run c g batches (snes_init c x0)).
Proof.
  intros Hx Hv Hb Ho. destruct (C68_snes_session c f x0 batches Hx Hv Hb) as [H1 _]. destruct (C68_snes_session c g x0 batches Hx Hv Hb) as [H2 _]. cbv zeta in *.
  rewrite (sep_run_order _ _ _ _ _ _ _ _ (internal_order (nc_opposed c) f g Ho)), <- H2 in H1. split; congruence.
Qed.
Example C68_snes_order_ex : same_order (fun _ x => at_ x 0) (fun _ x => exp (at_ x 0)).
Proof. intros i x j y. split; [apply exp_increasing|apply exp_lt_inv]. Qed.
Print Assumptions C68_snes_order.

(** minimising f is maximising -f *)
Definition opposed_cfg (c : nes_cfg) (b : bool) : nes_cfg := {| nc_dim := nc_dim c; nc_centerRate := nc_centerRate c; nc_covRate := nc_covRate c; nc_scaleRate := nc_scaleRate c;
  nc_batch := nc_batch c; nc_baseline := nc_baseline c; nc_clear := nc_clear c; nc_opposed := b; nc_initVariance := nc_initVariance c; nc_cutoff := nc_cutoff c |}.
Theorem C68_snes_opposed c f x0 batches : length x0 = nc_dim c -> 0 < nc_initVariance c -> Forall (batch_ok (nc_dim c) (nc_batch c)) batches ->
  let s := snes_run (opposed_cfg c true) f batches (snes_init c x0) in let t := snes_run (opposed_cfg c false) (fun k x => - f k x) batches (snes_init c x0) in
  sn_center s = sn_center t /\ sn_sigmas s = sn_sigmas t.
Proof.
  intros Hx Hv Hb. destruct (C68_snes_session (opposed_cfg c true) f x0 batches Hx Hv Hb) as [H1 _].
  destruct (C68_snes_session (opposed_cfg c false) (fun k x => - f k x) x0 batches Hx Hv Hb) as [H2 _]. cbv zeta in *.
  change (snes_init (opposed_cfg c true) x0) with (snes_init c x0) in H1. change (snes_init (opposed_cfg c false) x0) with (snes_init c x0) in H2.
  cbn [opposed_cfg nc_dim nc_batch nc_centerRate nc_covRate nc_baseline nc_opposed nc_initVariance] in H1, H2.
  change (internal true f) with (internal false (fun k x => - f k x)) in H1. rewrite <- H2 in H1. split; congruence.
Qed.
Example C68_snes_opposed_ex : internal true (fun _ x => at_ x 0) O [3] = -3 /\ internal false (fun _ x => - at_ x 0) O [3] = -3.
Proof. unfold internal, at_. cbn [nth]. split; lra. Qed.
Print Assumptions C68_snes_opposed.

(** throwing stored evaluations away at each generation changes nothing *)
Definition clear_cfg (c : nes_cfg) (b : bool) : nes_cfg := {| nc_dim := nc_dim c; nc_centerRate := nc_centerRate c; nc_covRate := nc_covRate c; nc_scaleRate := nc_scaleRate c;
  nc_batch := nc_batch c; nc_baseline := nc_baseline c; nc_clear := b; nc_opposed := nc_opposed c; nc_initVariance := nc_initVariance c; nc_cutoff := nc_cutoff c |}.
Theorem C68_snes_clear c f x0 batches : length x0 = nc_dim c -> 0 < nc_initVariance c -> Forall (batch_ok (nc_dim c) (nc_batch c)) batches ->
  let s := snes_run (clear_cfg c true) f batches (snes_init c x0) in let t := snes_run (clear_cfg c false) f batches (snes_init c x0) in
  sn_center s = sn_center t /\ sn_sigmas s = sn_sigmas t /\ st_n (sn_store s) = st_n (sn_store t).
Proof.
  intros Hx Hv Hb. destruct (C68_snes_session (clear_cfg c true) f x0 batches Hx Hv Hb) as [H1 _]. destruct (C68_snes_session (clear_cfg c false) f x0 batches Hx Hv Hb) as [H2 _]. cbv zeta in *.
  change (snes_init (clear_cfg c true) x0) with (snes_init c x0) in H1. change (snes_init (clear_cfg c false) x0) with (snes_init c x0) in H2.
  cbn [clear_cfg nc_dim nc_batch nc_centerRate nc_covRate nc_baseline nc_opposed nc_initVariance] in H1, H2. rewrite <- H2 in H1. repeat split; congruence.
Qed.
Example C68_snes_clear_ex : let s b := snes_run (clear_cfg (cfg1 false) b) (fun _ x => at_ x 0) [[[-1]; [2]]; [[1]; [1]]] (snes_init (cfg1 false) [0]) in
  length (st_x (sn_store (s true))) = 2%nat /\ length (st_x (sn_store (s false))) = 4%nat.
Proof. split; reflexivity. Qed.
Print Assumptions C68_snes_clear.

(** what is stored are the points and the user's values of them, whether minimised or not *)
Theorem C68_snes_store c f x0 batches : nc_clear c = false -> Forall (batch_ok (nc_dim c) (nc_batch c)) batches ->
  let st := sn_store (snes_run c f batches (snes_init c x0)) in
  st_n st = (length batches * nc_batch c)%nat /\ length (st_x st) = st_n st /\ st_e st = map (fun k => f k (nth k (st_x st) [])) (seq 0 (st_n st)).
Proof.
  intros Hc Hb st. destruct (logged_run c f batches Hc (snes_init c x0) Hb) as [L1 L2]; [split; reflexivity|]. fold st in L1, L2. rewrite L2, L1. split; [|auto]. rewrite <- L1. clear L1 L2.
  unfold st. assert (G : forall bs s, Forall (batch_ok (nc_dim c) (nc_batch c)) bs -> logged f (sn_store s) ->
    st_n (sn_store (snes_run c f bs s)) = (st_n (sn_store s) + length bs * nc_batch c)%nat).
  { induction bs as [|z zs IH]; intros s Hbs Hs; [cbn; lia|]. apply Forall_cons_iff in Hbs. destruct Hbs as [[Hz Hz'] Hzs].
    change (snes_run c f (z :: zs) s) with (snes_run c f zs (snes_step c f z s)).
    assert (Hstep : logged f (sn_store (snes_step c f z s))) by (apply (logged_run c f [z] Hc s); [constructor; [split; auto|constructor]|auto]).
    rewrite IH by auto. cbn [length]. enough (st_n (sn_store (snes_step c f z s)) = (st_n (sn_store s) + nc_batch c)%nat) by lia.
    unfold snes_step. assert (E : length (st_x (sn_store s)) = length (st_e (sn_store s))) by (destruct Hs as [_ Q]; rewrite Q, map_length, seq_length; auto).
    pose proof (produce_spec c f (snes_sample2base c s) z (sn_store s) Hz E) as P. destruct (produceSamples c f (snes_sample2base c s) z (sn_store s)) as [st' ps]. destruct P as (_ & _ & P & _). exact P. }
  rewrite G by (auto; split; reflexivity). reflexivity.
Qed.
Example C68_snes_store_ex : st_e (sn_store (snes_run (cfg1 true) (fun k _ => INR k) [[[-1]; [2]]; [[1]; [1]]] (snes_init (cfg1 true) [0]))) = [INR 0; INR 1; INR 2; INR 3].
Proof. apply (C68_snes_store (cfg1 true) (fun k _ => INR k) [0] [[[-1]; [2]]; [[1]; [1]]] eq_refl). repeat constructor. Qed.
Print Assumptions C68_snes_store.

(** invariance under scaling and translation of each coordinate: a problem stretched by a and moved by b is searched in the same way, from
    a state that is stretched and moved *)
Theorem C68_snes_affine c a b f h batches s s' : snes_ok c s -> snes_ok c s' -> Forall (batch_ok (nc_dim c) (nc_batch c)) batches ->
  (forall k x, length x = nc_dim c -> h k (aff (nc_dim c) a b x) = f k x) ->
  sn_center s' = aff (nc_dim c) a b (sn_center s) -> sn_sigmas s' = aff (nc_dim c) a (fun _ => 0) (sn_sigmas s) -> st_n (sn_store s') = st_n (sn_store s) ->
  sn_center (snes_run c h batches s') = aff (nc_dim c) a b (sn_center (snes_run c f batches s)) /\
  sn_sigmas (snes_run c h batches s') = aff (nc_dim c) a (fun _ => 0) (sn_sigmas (snes_run c f batches s)).
Proof.
  intros Hs Hs' Hb Hh E1 E2 E3. destruct (snes_run_spec c f batches s Hs Hb) as [_ R1]. destruct (snes_run_spec c h batches s' Hs' Hb) as [_ R2].
  assert (Hi : forall k x, length x = nc_dim c -> internal (nc_opposed c) h k (aff (nc_dim c) a b x) = internal (nc_opposed c) f k x) by (intros k x Hx; unfold internal; rewrite Hh; auto).
  pose proof (sep_run_affine (nc_dim c) (nc_batch c) (nc_centerRate c) (nc_covRate c) (nc_baseline c) a b _ _ batches Hi (sn_center s) (sn_sigmas s) (st_n (sn_store s))) as A.
  unfold snes_view in R1, R2. rewrite <- R1 in A. rewrite <- E1, <- E2, <- E3, <- R2 in A. split; congruence.
Qed.
Example C68_snes_affine_ex : (forall (k : nat) x, length x = 1%nat -> at_ (aff 1 (fun _ => 2) (fun _ => 5) x) 0 - 5 = 2 * at_ x 0) /\
  snes_ok (cfg1 false) (snes_init (cfg1 false) [0]) /\ aff 1 (fun _ => 2) (fun _ => 5) [0] = [5].
Proof.
  split; [|split].
  - intros k x Hx. unfold aff. rewrite at_map_seq by lia. ring.
  - apply snes_init_ok; [reflexivity|cbn; lra].
  - unfold aff, at_. cbn [seq map nth]. f_equal. ring.
Qed.
Print Assumptions C68_snes_affine.

(** with center rate 1 the new center is the utility weighted mean of the points sampled; with the baseline the distance of the old center from
    the plain mean of the points is added *)
Theorem C68_snes_recombination c f draws s i : snes_ok c s -> batch_ok (nc_dim c) (nc_batch c) draws -> (0 < nc_batch c)%nat -> nc_centerRate c = 1 -> (i < nc_dim c)%nat ->
  let n := nc_batch c in let pt k := at_ (sep_points (nc_dim c) (sn_center s) (sn_sigmas s) (nth k draws [])) i in
  exists w, weights_ok n w /\
    at_ (sn_center (snes_step c f draws s)) i = total n (fun k => w k * pt k) + (if nc_baseline c then at_ (sn_center s) i - total n pt / INR n else 0).
Proof.
  intros Hs Hd Hn Hr Hi. cbv zeta. destruct (snes_step_spec c f draws s Hs Hd) as [_ E]. unfold snes_view, sep_gen in E. set (e := fun k => internal (nc_opposed c) f _ _) in E.
  exists (utility (nc_batch c) false e). split.
  - split; [intros; apply utility_nonneg; auto|apply (utility_sum (nc_batch c) false e Hn)].
  - pose proof (f_equal (fun t => fst (fst t)) E) as E1. cbn [fst] in E1. rewrite E1, at_map_seq by auto. rewrite Hr, sep_center_points by auto.
    assert (P : forall k, (k < nc_batch c)%nat -> at_ (sep_points (nc_dim c) (sn_center s) (sn_sigmas s) (nth k draws [])) i = at_ (sn_center s) i + at_ (sn_sigmas s) i * at_ (nth k draws []) i)
      by (intros k _; unfold sep_points; rewrite at_map_seq by auto; auto).
    change total with sumn. f_equal; [apply sumn_ext; intros k Hk; rewrite P by auto; auto|]. destruct (nc_baseline c); auto. f_equal. f_equal. apply sumn_ext. intros k Hk. rewrite P by auto. auto.
Qed.
Example C68_snes_recombination_ex : nc_centerRate (snes_default 3 true) = 1 /\ nc_centerRate (cfg1 false) = 1 /\ batch_ok 1 2 [[-1]; [2]].
Proof. repeat split. repeat constructor. Qed.
Print Assumptions C68_snes_recombination.

(** the order in which a batch is drawn does not matter if the fitness values differ *)
Theorem C68_snes_batch_order c (g : list R -> R) s z z' : snes_ok c s -> batch_ok (nc_dim c) (nc_batch c) z -> Permutation z z' ->
  (forall i j, (i < nc_batch c)%nat -> (j < nc_batch c)%nat ->
     g (sep_points (nc_dim c) (sn_center s) (sn_sigmas s) (nth i z [])) = g (sep_points (nc_dim c) (sn_center s) (sn_sigmas s) (nth j z [])) -> i = j) ->
  sn_center (snes_step c (fun _ => g) z' s) = sn_center (snes_step c (fun _ => g) z s) /\ sn_sigmas (snes_step c (fun _ => g) z' s) = sn_sigmas (snes_step c (fun _ => g) z s).
Proof.
  intros Hs [Hz1 Hz2] Hp Hd. assert (Hz' : batch_ok (nc_dim c) (nc_batch c) z') by (split; [rewrite <- (Permutation_length Hp); auto|rewrite <- Hp; auto]).
  destruct (snes_step_spec c (fun _ => g) z s Hs (conj Hz1 Hz2)) as [_ R1]. destruct (snes_step_spec c (fun _ => g) z' s Hs Hz') as [_ R2].
  assert (E : sep_gen (nc_dim c) (nc_batch c) (nc_centerRate c) (nc_covRate c) (nc_baseline c) (internal (nc_opposed c) (fun _ => g)) (snes_view s) z' =
    sep_gen (nc_dim c) (nc_batch c) (nc_centerRate c) (nc_covRate c) (nc_baseline c) (internal (nc_opposed c) (fun _ => g)) (snes_view s) z).
  { change (internal (nc_opposed c) (fun _ => g)) with (fun (_ : nat) x => if nc_opposed c then - g x else g x).
    apply (sep_gen_perm _ _ _ _ _ (fun x => if nc_opposed c then - g x else g x)); auto. intros i j Hi Hj E. apply Hd; auto. destruct (nc_opposed c); auto. apply Ropp_eq_compat in E. rewrite !Ropp_involutive in E. auto. }
  rewrite <- R1, <- R2 in E. unfold snes_view in E. split; congruence.
Qed.
Example C68_snes_batch_order_ex : forall i j, (i < 2)%nat -> (j < 2)%nat -> at_ (sep_points 1 [0] [4] (nth i [[-1]; [2]] [])) 0 = at_ (sep_points 1 [0] [4] (nth j [[-1]; [2]] [])) 0 -> i = j.
Proof. intros i j Hi Hj. destruct i as [|[|]]; destruct j as [|[|]]; try lia; cbn [nth]; unfold sep_points, at_; cbn [seq map nth]; lra. Qed.
Print Assumptions C68_snes_batch_order.

(** among equal fitness values the later draw is ranked better: on a plateau the center walks, and where depends on the order of the batch *)
Theorem C68_snes_ties_refuted : ~ (forall c s z z', snes_ok c s -> batch_ok (nc_dim c) (nc_batch c) z -> Permutation z z' ->
  sn_center (snes_step c (fun _ _ => 0) z' s) = sn_center (snes_step c (fun _ _ => 0) z s)).
Proof.
  intro H. assert (Ok0 : snes_ok (cfg1 false) (snes_init (cfg1 false) [0])) by (apply snes_init_ok; [reflexivity|cbn; lra]).
  assert (B1 : batch_ok 1 2 [[1]; [-1]]) by (split; [reflexivity|repeat constructor]). assert (B2 : batch_ok 1 2 [[-1]; [1]]) by (split; [reflexivity|repeat constructor]).
  specialize (H (cfg1 false) (snes_init (cfg1 false) [0]) [[1]; [-1]] [[-1]; [1]] Ok0 B1 (perm_swap _ _ _)).
  destruct (snes_step_spec (cfg1 false) (fun _ _ => 0) [[1]; [-1]] _ Ok0 B1) as [_ E1]. destruct (snes_step_spec (cfg1 false) (fun _ _ => 0) [[-1]; [1]] _ Ok0 B2) as [_ E2].
  apply (f_equal (fun t => fst (fst t))) in E1. apply (f_equal (fun t => fst (fst t))) in E2. cbn [snes_view fst] in E1, E2. rewrite E1, E2 in H. clear E1 E2.
  unfold sep_gen, snes_view, snes_init in H. cbn [sn_center sn_sigmas sn_store empty_store st_n cfg1 nc_dim nc_batch nc_centerRate nc_covRate nc_baseline nc_opposed nc_initVariance fst seq map] in H.
  unfold sep_center in H. cbn [total nth] in H. injection H as H. cbn [internal] in H.
  destruct (utility2 (fun _ => 0) ltac:(lra)) as [U0 U1]. rewrite !U0, !U1 in H. unfold at_, tab in H. cbn [nth seq map] in H. lra.
Qed.
Print Assumptions C68_snes_ties_refuted.

(** the setting called initVariance is used as a standard deviation *)
Theorem C68_snes_variance_refuted : ~ (forall c x0 z, length x0 = nc_dim c -> 0 < nc_initVariance c ->
  snes_sample2base c (snes_init c x0) z = sep_points (nc_dim c) x0 (map (fun _ => sqrt (nc_initVariance c)) (seq 0 (nc_dim c))) z).
Proof.
  intro H. specialize (H (cfg1 false) [0] [1] eq_refl ltac:(cbn; lra)). rewrite snes_points in H. unfold sep_points, snes_init in H.
  cbn [sn_center sn_sigmas cfg1 nc_dim nc_initVariance seq map] in H. injection H as H. unfold at_, tab in H. cbn [nth seq map] in H.
  replace 4 with (2 * 2) in H by lra. rewrite sqrt_square in H by lra. lra.
Qed.
Print Assumptions C68_snes_variance_refuted.

(** the added stopping criterion: every scale is below the cutoff *)
Theorem C68_snes_stop c s : snes_ok c s -> (0 < nc_dim c)%nat -> (snes_stop c s = true <-> forall i, (i < nc_dim c)%nat -> at_ (sn_sigmas s) i < nc_cutoff c).
Proof.
  intros Hs Hd. unfold snes_stop. pose proof (so_sigmas c s Hs) as L. assert (Hne : map Rabs (sn_sigmas s) <> []) by (intro E; apply (f_equal (@length R)) in E; rewrite map_length, L in E; cbn in E; lia).
  pose proof (vmaxl_lt (map Rabs (sn_sigmas s)) (nc_cutoff c) Hne) as V. rewrite Forall_map, Forall_forall in V.
  assert (Q : (forall x, In x (sn_sigmas s) -> Rabs x < nc_cutoff c) <-> forall i, (i < nc_dim c)%nat -> at_ (sn_sigmas s) i < nc_cutoff c).
  { split; intros H.
    - intros i Hi. pose proof (so_pos c s Hs i Hi) as P. specialize (H (at_ (sn_sigmas s) i) ltac:(apply nth_In; lia)). rewrite Rabs_right in H; [auto|left; exact P].
    - intros x Hx. apply (In_nth _ _ 0) in Hx. destruct Hx as (i & Hi & <-). pose proof (so_pos c s Hs i ltac:(lia)) as P. rewrite Rabs_right by (left; exact P). apply H. lia. }
  destruct (Rlt_dec _ _) as [A|A]; split; intro B; auto; try discriminate.
  - apply Q, V. auto.
  - exfalso. apply A, V, Q. auto.
Qed.
Example C68_snes_stop_ex : snes_stop (cfg1 false) (snes_init (cfg1 false) [0]) = false.
Proof. unfold snes_stop, snes_init. cbn [sn_sigmas cfg1 nc_dim nc_initVariance nc_cutoff tab seq map vmaxl fold_left]. destruct (Rlt_dec _ _) as [H|]; auto. rewrite Rabs_right in H by lra. lra. Qed.
Print Assumptions C68_snes_stop.

(** ** xNES *)
(** a session is the exponential natural evolution strategy on the draws; the inverse kept beside A is its inverse and the number kept as
    log of the determinant is it *)
Theorem C68_xnes_session expm ld c f x0 batches : (0 < nc_dim c)%nat -> expm_ok (nc_dim c) expm -> logdet_ok (nc_dim c) expm ld -> length x0 = nc_dim c ->
  Forall (batch_ok (nc_dim c) (nc_batch c)) batches ->
  let s := xnes_run expm c f batches (xnes_init c x0) in
  (xn_center s, xn_A s, st_n (xn_store s)) =
    exp_run expm (nc_dim c) (nc_batch c) (nc_centerRate c) (nc_scaleRate c) (nc_covRate c) (nc_baseline c) (internal (nc_opposed c) f) batches (x0, matrix (nc_dim c) ident, O) /\
  meq (nc_dim c) (mprod (nc_dim c) (entry (xn_invA s)) (entry (xn_A s))) ident /\
  xn_logDetA s = ld (xn_A s).
Proof.
  intros Hd He Hl Hx Hb s. destruct (xnes_run_spec expm c f batches He (xnes_init c x0) (xnes_init_ok c x0 Hx) Hb) as (H1 & H2 & H3). split; [exact H2|]. split; [apply (xo_inv _ _ H1)|].
  apply H3; auto. destruct Hl as [Hl _]. symmetry. exact Hl.
Qed.
Example C68_xnes_session_ex : expm_ok 1 expm1 /\ logdet_ok 1 expm1 (fun A => ln (Rabs (entry A 0 0))) /\
  xn_center (xnes_run expm1 (cfg1 false) (fun _ x => at_ x 0) [[[-1]; [2]]] (xnes_init (cfg1 false) [0])) = [2].
Proof.
  split; [exact expm1_ok|]. split; [exact ld1_ok|].
  destruct (C68_xnes_session expm1 (fun A => ln (Rabs (entry A 0 0))) (cfg1 false) (fun _ x => at_ x 0) [0] [[[-1]; [2]]] ltac:(cbn; lia) expm1_ok ld1_ok eq_refl (one_batch _ _)) as (H & _).
  cbv zeta in H. remember (xnes_run _ _ _ _ _) as s. clear Heqs. injection H as H _ _. rewrite H. clear H.
  cbn [cfg1 nc_dim nc_batch nc_centerRate nc_covRate nc_scaleRate nc_baseline seq map]. cbn [total nth Nat.add].
  match goal with |- context [utility 2 false ?e 0] => destruct (utility2 e) as [U0 U1] end.
  { unfold internal, exp_point. cbn [cfg1 nc_opposed seq map total]. unfold at_, entry, matrix, ident. cbn [nth seq map Nat.eqb]. lra. }
  rewrite !U0, !U1. unfold at_, entry, matrix, ident. cbn [nth seq map Nat.eqb]. f_equal. ring.
Qed.
Print Assumptions C68_xnes_session.
Theorem C68_xnes_order expm c f g x0 batches : expm_ok (nc_dim c) expm -> length x0 = nc_dim c -> Forall (batch_ok (nc_dim c) (nc_batch c)) batches -> same_order f g ->
  xn_center (xnes_run expm c f batches (xnes_init c x0)) = xn_center (xnes_run expm c g batches (xnes_init c x0)) /\
  xn_A (xnes_run expm c f batches (xnes_init c x0)) = xn_A (xnes_run expm c g batches (xnes_init c x0)).
Proof.
  intros He Hx Hb Ho. destruct (xnes_run_spec expm c f batches He (xnes_init c x0) (xnes_init_ok c x0 Hx) Hb) as (_ & H1 & _).
  destruct (xnes_run_spec expm c g batches He (xnes_init c x0) (xnes_init_ok c x0 Hx) Hb) as (_ & H2 & _).
  rewrite (exp_run_order _ _ _ _ _ _ _ _ _ _ (internal_order (nc_opposed c) f g Ho)), <- H2 in H1. unfold xnes_view in H1. split; congruence.
Qed.
Example C68_xnes_order_ex : same_order (fun _ x => at_ x 0) (fun _ x => 3 * at_ x 0 + 1).
Proof. intros i x j y. cbv beta. split; lra. Qed.
Print Assumptions C68_xnes_order.

(** ** Rank1NES: learning rates, batch size and baseline given by the caller are overwritten *)
Theorem C68_rank1_settings_refuted : ~ (forall n user, r1_cov user <> None -> r1_in_force n user = user) /\
  (forall n u v, r1_in_force n u = r1_in_force n v).
Proof.
  split; [|reflexivity]. intro H. specialize (H 1%nat {| r1_cov := Some 1; r1_scale := Some 1; r1_batch := Some 10%nat; r1_baseline := true |} ltac:(discriminate)).
  apply (f_equal r1_baseline) in H. discriminate.
Qed.
Print Assumptions C68_rank1_settings_refuted.

(** ** CMA-ES *)
(** the default parameters are admissible in every dimension: positive decreasing weights of sum 1, effective number between 1 and mu, rates within (0,1) *)
Theorem C68_cma_parameters n opposed sp : (0 < n)%nat ->
  let p := cma_params n opposed sp in
  (2 <= cp_mu p)%nat /\ (2 * cp_mu p <= cp_batch p)%nat /\ weights_ok (cp_mu p) (at_ (cp_weights p)) /\
  (forall i j, (i < j)%nat -> (j < cp_mu p)%nat -> at_ (cp_weights p) j < at_ (cp_weights p) i) /\
  1 < cp_mueff p <= INR (cp_mu p) /\ 0 < cp_cumCov p < 1 /\ 0 < cp_cumStep p < 1 /\ 0 < cp_covRate p < 1 /\ 1 < cp_dampings p /\ 0 < cp_chiN p.
Proof.
  intros Hn p. pose proof (params_ok n opposed sp Hn) as K. fold p in K. pose proof (default_batch_ge n) as Hb.
  assert (Hm : (2 <= cp_mu p)%nat) by (change (2 <= default_batch n / 2)%nat; apply (Nat.div_le_lower_bound _ 2 2); lia).
  destruct (mueff_bounds (cp_mu p) ltac:(lia)) as [M1 M2]. split; [auto|]. split; [apply (Nat.mul_div_le (default_batch n) 2); lia|]. split.
  { split; [intros i Hi; left; apply (pk_w p K); auto|apply (pk_sum p K)]. }
  split; [intros i j Hij Hj; apply (weight_decreasing (cp_mu p)); auto|]. split; [split; [apply M2; auto|apply M1]|].
  split; [apply (pk_cc p K)|]. split; [apply (pk_cs p K)|]. split; [apply (pk_cr p K)|]. split; [apply dampings_ge; apply (pk_e p K)|apply (pk_chi p K)].
Qed.
Example C68_cma_parameters_ex : cp_batch (cma_params 1 false 1) = 4%nat /\ cp_mu (cma_params 1 false 1) = 2%nat.
Proof. unfold cma_params. cbn [cp_batch cp_mu]. rewrite default_batch_1. auto. Qed.
Print Assumptions C68_cma_parameters.

(** the new center is the weighted mean of the mu best offspring (smallest internal fitness), in the order of their ranks *)
Theorem C68_cma_recombination eig p f z s : par_ok p ->
  let pt i k := entry (cma_points p s z) i k in
  let e k := internal (cp_opposed p) f (cm_n s + k)%nat (map (fun i => pt i k) (seq 0 (cp_dim p))) in
  exists sel, (forall k, (k < cp_mu p)%nat -> (sel k < cp_batch p)%nat /\ rank (cp_batch p) e (sel k) = k) /\
    forall i, (i < cp_dim p)%nat -> at_ (cm_center (cma_step eig p f z s)) i = total (cp_mu p) (fun k => at_ (cp_weights p) k * pt i (sel k)).
Proof.
  intros Hp. cbv zeta. exists (fun k => nth k (cma_idx p f z s) O). split.
  - intros k Hk. pose proof (pk_sel p Hp). split; [apply idx_in; lia|].
    pose proof (order_nth_rank (cma_fitness p f s (cma_points p s z)) k) as Q. rewrite fitness_length in Q. specialize (Q ltac:(lia)).
    rewrite <- Q at 2. symmetry. apply rank_same; [apply idx_in; lia|]. intros a b Ha Hb. rewrite !fitness_get by auto. reflexivity.
  - intros i Hi. rewrite cma_step_eq, update_eq. cbn [cm_center]. apply (center_val p (cma_points p s z) (cma_idx p f z s)); auto. rewrite idx_length. apply (pk_sel p Hp).
Qed.
Example C68_cma_recombination_ex : par_ok (cma_params 3 true 1).
Proof. apply params_ok. lia. Qed.
Print Assumptions C68_cma_recombination.

(** the covariance matrix stays symmetric and positive definite and the step size positive, whatever numpy's eig returns *)
Theorem C68_cma_positive eig n opposed sp f x0 st zs : (0 < n)%nat -> length x0 = n -> 0 < st ->
  let p := cma_params n opposed sp in let s := cma_run eig p f zs (cma_init p x0 st) in
  0 < cm_step s /\ symmetric n (entry (cm_C s)) /\ posdef n (entry (cm_C s)).
Proof.
  intros Hn Hx Hst p s. pose proof (params_ok n opposed sp Hn) as K. destruct (run_ok eig p f zs K (cma_init p x0 st) (init_ok p x0 st Hx Hst)) as [_ H1 H2 H3]. auto.
Qed.
Example C68_cma_positive_ex : posdef 2 (entry [[2; 1]; [1; 2]]) /\ ~ posdef 2 (entry [[1; 2]; [2; 1]]).
Proof.
  split.
  - intros x (i & Hi & Hx). unfold quad, entry. cbn [total nth]. pose proof (Rsqr_pos_lt _ Hx) as H. unfold Rsqr in H.
    pose proof (Rle_0_sqr (x 0%nat + x 1%nat)). pose proof (Rle_0_sqr (x 0%nat)). pose proof (Rle_0_sqr (x 1%nat)). unfold Rsqr in *. destruct i as [|[|]]; [| |lia]; nra.
  - intro H. specialize (H (fun i => if Nat.eqb i 0 then 1 else -1)). assert (E : exists i, (i < 2)%nat /\ (if Nat.eqb i 0 then 1 else -1) <> 0) by (exists O; split; [lia|cbn [Nat.eqb]; lra]). specialize (H E). unfold quad, entry in H. cbn [total nth Nat.eqb] in H. lra.
Qed.
Print Assumptions C68_cma_positive.

(** offspring have the covariance C (times the squared step size) if the eigenvectors returned are orthogonal: B D (B D)^T = C at all times *)
Theorem C68_cma_factor eig n opposed sp f x0 st zs : (0 < n)%nat -> length x0 = n -> 0 < st -> eig_ok n eig ->
  let p := cma_params n opposed sp in let s := cma_run eig p f zs (cma_init p x0 st) in
  let bd := entry (mmul n n n (cm_B s) (cm_D s)) in meq n (mprod n bd (fun k j => bd j k)) (entry (cm_C s)).
Proof.
  intros Hn Hx Hst He p s. pose proof (params_ok n opposed sp Hn) as K. exact (factored_run eig p f zs K He (cma_init p x0 st) (init_ok p x0 st Hx Hst) (factored_init p x0 st)).
Qed.
Example C68_cma_factor_ex : eig_ok 1 eig1.
Proof. exact eig1_ok. Qed.
Print Assumptions C68_cma_factor.
(** what numpy promises of eig (not eigh) is not enough when eigenvalues coincide: unit eigenvectors need not be orthogonal *)
Theorem C68_cma_eig_refuted : ~ (forall n C Ev B, symmetric n (entry C) -> posdef n (entry C) -> eig_contract n (entry C) (at_ Ev) (entry B) ->
  let bd := entry (mmul n n n B (mtab n n (fun i j => if Nat.eqb i j then sqrt (get Ev i) else 0))) in meq n (mprod n bd (fun k j => bd j k)) (entry C)).
Proof.
  intro H. specialize (H 2%nat [[1; 0]; [0; 1]] [1; 1] [[1; 3 / 5]; [0; 4 / 5]]).
  assert (S : symmetric 2 (entry [[1; 0]; [0; 1]])) by (intros i j Hi Hj; destruct i as [|[|]]; destruct j as [|[|]]; try lia; reflexivity).
  assert (P : posdef 2 (entry [[1; 0]; [0; 1]])) by (intros x (i & Hi & Hx); unfold quad, entry; cbn [total nth]; pose proof (Rsqr_pos_lt _ Hx) as Q;
    pose proof (Rle_0_sqr (x 0%nat)); pose proof (Rle_0_sqr (x 1%nat)); unfold Rsqr in *; destruct i as [|[|]]; [| |lia]; nra).
  assert (E : eig_contract 2 (entry [[1; 0]; [0; 1]]) (at_ [1; 1]) (entry [[1; 3 / 5]; [0; 4 / 5]])).
  { split; [intros i k Hi Hk; destruct i as [|[|]]; destruct k as [|[|]]; try lia|intros k Hk; destruct k as [|[|]]; try lia]; unfold entry, at_; cbn [total nth]; lra. }
  specialize (H S P E 0%nat 0%nat ltac:(lia) ltac:(lia)). unfold mprod in H. cbn [total] in H.
  change (0 + mget (mmul 2 2 2 [[1; 3 / 5]; [0; 4 / 5]] (mtab 2 2 (fun i j => if Nat.eqb i j then sqrt (get [1; 1] i) else 0))) 0 0 * mget (mmul 2 2 2 [[1; 3 / 5]; [0; 4 / 5]] (mtab 2 2 (fun i j => if Nat.eqb i j then sqrt (get [1; 1] i) else 0))) 0 0
    + mget (mmul 2 2 2 [[1; 3 / 5]; [0; 4 / 5]] (mtab 2 2 (fun i j => if Nat.eqb i j then sqrt (get [1; 1] i) else 0))) 0 1 * mget (mmul 2 2 2 [[1; 3 / 5]; [0; 4 / 5]] (mtab 2 2 (fun i j => if Nat.eqb i j then sqrt (get [1; 1] i) else 0))) 0 1 = 1) in H.
  unfold mmul in H. rewrite !mget_mtab in H by lia. cbn [sumn] in H. rewrite !mget_mtab in H by lia. unfold mget, get in H. cbn [nth Nat.eqb] in H. rewrite sqrt_1 in H. lra.
Qed.
Print Assumptions C68_cma_eig_refuted.

(** only the order of the fitness values guides the search (whether it stops is another matter) *)
Theorem C68_cma_order eig p f g x0 st zs : same_order f g ->
  let s := cma_run eig p f zs (cma_init p x0 st) in let t := cma_run eig p g zs (cma_init p x0 st) in
  cm_center s = cm_center t /\ cm_step s = cm_step t /\ cm_C s = cm_C t.
Proof.
  intros Ho s t. pose proof (core_run eig p f g zs Ho (cma_init p x0 st) (cma_init p x0 st) eq_refl) as E. fold s t in E.
  split; [exact (f_equal cm_center E)|]. split; [exact (f_equal cm_step E)|exact (f_equal cm_C E)].
Qed.
Example C68_cma_order_ex : same_order (fun _ x => at_ x 0) (fun _ x => at_ x 0 + 10 ^ 6).
Proof. intros i x j y. cbv beta. split; lra. Qed.
Print Assumptions C68_cma_order.
(** adding a constant to the objective can end the run at once: the convergence test is relative to the size of the fitness values *)
Theorem C68_cma_stop_refuted : ~ (forall p a b k, cma_converged p (a + k) (b + k) = cma_converged p a b) /\
  cma_converged (cma_params 1 false (/ 10 ^ 6)) 0 1 = false /\ cma_converged (cma_params 1 false (/ 10 ^ 6)) (0 + 10 ^ 6) (1 + 10 ^ 6) = true.
Proof.
  assert (A : cma_converged (cma_params 1 false (/ 10 ^ 6)) 0 1 = false).
  { unfold cma_converged. cbn [cma_params cp_stopPrecision]. destruct (Req_EM_T 0 1); [lra|]. destruct (Rle_dec _ _) as [H|]; auto. exfalso.
    rewrite (Rabs_left (0 - 1)), Rabs_R0, Rabs_R1 in H by lra. lra. }
  assert (B : cma_converged (cma_params 1 false (/ 10 ^ 6)) (0 + 10 ^ 6) (1 + 10 ^ 6) = true).
  { unfold cma_converged. cbn [cma_params cp_stopPrecision]. destruct (Req_EM_T _ _); auto. destruct (Rle_dec _ _) as [|H]; auto. exfalso. apply H. clear H.
    rewrite (Rabs_left (_ - _)), !Rabs_right by lra. lra. }
  split; [|auto]. intro H. rewrite H, A in B. discriminate.
Qed.
Print Assumptions C68_cma_stop_refuted.

(** translation: a problem moved by b is searched in the same way from a center moved by b *)
Theorem C68_cma_translation eig n opposed sp f h x0 st zs b : (0 < n)%nat -> length x0 = n -> 0 < st ->
  (forall m x, length x = n -> h m (aff n (fun _ => 1) b x) = f m x) ->
  let p := cma_params n opposed sp in
  let s := cma_run eig p f zs (cma_init p x0 st) in let t := cma_run eig p h zs (cma_init p (aff n (fun _ => 1) b x0) st) in
  cm_center t = aff n (fun _ => 1) b (cm_center s) /\ cm_step t = cm_step s /\ cm_C t = cm_C s /\ cm_stop t = cm_stop s.
Proof.
  intros Hn Hx Hst Hh p s t. pose proof (params_ok n opposed sp Hn) as K.
  pose proof (shift_run eig p f h zs b K Hh (cma_init p x0 st) (init_ok p x0 st Hx Hst)) as E. change (cma_shift p b (cma_init p x0 st)) with (cma_init p (aff n (fun _ => 1) b x0) st) in E.
  fold s t in E. rewrite E. auto.
Qed.
Example C68_cma_translation_ex : forall (m : nat) x, length x = 1%nat -> (at_ (aff 1 (fun _ => 1) (fun _ => 7) x) 0 - 7) ^ 2 = at_ x 0 ^ 2.
Proof. intros m x Hx. unfold aff. rewrite at_map_seq by lia. ring. Qed.
Print Assumptions C68_cma_translation.

(** scaling: the steps of the offspring enter the rank-mu update without division by the step size, so that the same problem at twice the scale is
    not searched in the same way (the covariance matrix is increased) *)
Theorem C68_cma_scale_refuted : ~ (forall eig n opposed sp f h x0 st zs q, (0 < n)%nat -> length x0 = n -> 0 < st -> 0 < q ->
  (forall m x, length x = n -> h m (aff n (fun _ => q) (fun _ => 0) x) = f m x) ->
  let p := cma_params n opposed sp in
  let s := cma_run eig p f zs (cma_init p x0 st) in let t := cma_run eig p h zs (cma_init p (aff n (fun _ => q) (fun _ => 0) x0) (q * st)) in
  meq n (entry (cm_C t)) (entry (cm_C s))).
Proof.
  intro H. specialize (H eig1 1%nat false 1 (fun _ _ => 0) (fun _ _ => 0) [0] 1 [[[1; 1; 1; 1]]] 2 ltac:(lia) eq_refl ltac:(lra) ltac:(lra) ltac:(reflexivity) O O ltac:(lia) ltac:(lia)). cbv zeta in H.
  set (p := cma_params 1 false 1) in *. pose proof (params_ok 1 false 1 ltac:(lia)) as K. fold p in K.
  pose proof (scale_step eig1 p (fun _ _ => 0) (fun _ _ => 0) [[1; 1; 1; 1]] (cma_init p [0] 1) 2 K eq_refl ltac:(reflexivity)) as Q. cbv zeta in Q. destruct Q as (_ & _ & _ & _ & Q).
  specialize (Q O O ltac:(cbn; lia) ltac:(cbn; lia)). change (cma_run eig1 p (fun _ _ => 0) [[[1; 1; 1; 1]]] (cma_init p (aff 1 (fun _ => 2) (fun _ => 0) [0]) (2 * 1)))
    with (cma_step eig1 p (fun _ _ => 0) [[1; 1; 1; 1]] (cma_scale p 2 (cma_init p [0] 1))) in H.
  change (cma_run eig1 p (fun _ _ => 0) [[[1; 1; 1; 1]]] (cma_init p [0] 1)) with (cma_step eig1 p (fun _ _ => 0) [[1; 1; 1; 1]] (cma_init p [0] 1)) in H. rewrite H in Q. clear H.
  set (s := cma_init p [0] 1) in *. set (idx := cma_idx p (fun _ _ => 0) [[1; 1; 1; 1]] s) in *.
  assert (B : mget (cma_bd p s) 0 0 = 1) by (unfold cma_bd; change (mget (mmul 1 1 1 (eye 1) (eye 1)) 0 0 = 1); rewrite eye2 by lia; reflexivity).
  assert (Hb : cp_batch p = 4%nat) by (change (default_batch 1 = 4%nat); apply default_batch_1).
  assert (Hm : cp_mu p = 2%nat) by (change (default_batch 1 / 2 = 2)%nat; rewrite default_batch_1; reflexivity).
  rewrite (sumn_ext (cp_mu p) _ (get (cp_weights p))) in Q.
  2:{ intros l Hl. change (cp_dim p) with 1%nat. cbn [sumn]. rewrite B. assert (L : (nth l idx O < 4)%nat) by (rewrite <- Hb; apply idx_in; lia).
      assert (M : mget [[1; 1; 1; 1]] 0 (nth l idx O) = 1) by (unfold mget, get; cbn [nth]; destruct (nth l idx O) as [|[|[|[|]]]]; cbn [nth]; try lia; reflexivity). rewrite M. ring. }
  rewrite (pk_sum p K) in Q. change (cm_step s) with 1 in Q. pose proof (pk_cr p K) as C1.
  assert (C2 : 1 < cp_mueff p) by (change (1 < cma_mueff (cp_mu p)); apply mueff_bounds; lia).
  assert (C3 : / cp_mueff p < 1) by (rewrite <- Rinv_1; apply Rinv_lt_contravar; lra).
  assert (0 < cp_covRate p * (1 - 1 / cp_mueff p)) by (apply Rmult_lt_0_compat; [lra|unfold Rdiv; lra]). lra.
Qed.
Print Assumptions C68_cma_scale_refuted.

(** ** FEM *)
(** how much a new sample counts: its rank in the window, cut off and scaled, times the forget factor *)
Theorem C68_fem_update_size c fits k : fem_cfg_ok c -> length fits = fc_window c -> (k < fc_window c)%nat ->
  let n := fc_window c in let cut := INR n * (1 - fc_top c) in let r := INR (rank n (at_ fits) k) in
  fem_updateSize c fits k = fc_forget c * (Rmax 0 (r - cut) / (INR n - 1 - cut)) /\ 0 <= fem_updateSize c fits k <= fc_forget c.
Proof.
  intros Hc Hl Hk. cbv zeta. split; [|apply update_range; auto]. rewrite updateSize_spec; rewrite Hl; auto; [|apply (fk_top c Hc)].
  change (get fits) with (at_ fits). unfold top_value. set (r := INR (rank (fc_window c) (at_ fits) k)). set (cut := INR (fc_window c) * (1 - fc_top c)).
  destruct (Rle_dec cut r); [rewrite Rmax_right by lra|rewrite Rmax_left by lra]; unfold Rdiv; ring.
Qed.
Definition fem1 (diag elit shift mut minimize : bool) : fem_cfg := {| fc_dim := 1; fc_diagonal := diag; fc_forget := / 10; fc_muMult := 1; fc_window := 50; fc_top := / 2;
  fc_elitism := elit; fc_shift := shift; fc_mutative := mut; fc_minimize := minimize |}.
Lemma fem1_ok d e sh m mn : fem_cfg_ok (fem1 d e sh m mn).
Proof. assert (I : INR 50 = 50) by (rewrite INR_IZR_INZ; reflexivity). constructor; cbn [fem1 fc_window fc_top fc_forget fc_muMult]; rewrite ?I; try lia; lra. Qed.
Example C68_fem_update_size_ex d e sh m mn : fem_cfg_ok (fem1 d e sh m mn).
Proof. apply fem1_ok. Qed.
Print Assumptions C68_fem_update_size.

(** the covariance matrix stays symmetric and positive definite, the diagonal scales positive *)
Theorem C68_fem_positive c f x0 r zs : fem_cfg_ok c -> length x0 = fc_dim c ->
  let s := fem_run c f zs (fem_init c f x0 r) in
  symmetric (fc_dim c) (entry (fe_sigma s)) /\ posdef (fc_dim c) (entry (fe_sigma s)) /\ (forall i, (i < fc_dim c)%nat -> 0 < at_ (fe_dsigma s) i).
Proof.
  intros Hc Hx s. destruct (run_fem_ok c f zs Hc (fem_init c f x0 r) (init_fem_ok c f x0 r Hx)) as [_ _ _ H1 H2 H3 _]. auto.
Qed.
Example C68_fem_positive_ex : at_ (fe_dsigma (fem_init (fem1 true false false false true) (fun _ x => at_ x 0) [3] [1])) 0 = 1.
Proof. reflexivity. Qed.
Print Assumptions C68_fem_positive.

(** the center never leaves a box that contains the first center, the starting point and the samples *)
Theorem C68_fem_box c f x0 r zs lo hi : fem_cfg_ok c -> length x0 = fc_dim c ->
  let s := fem_init c f x0 r in in_box (fc_dim c) lo hi (fe_mu s) -> in_box (fc_dim c) lo hi x0 -> Forall (in_box (fc_dim c) lo hi) (fem_samples c f zs s) ->
  in_box (fc_dim c) lo hi (fe_mu (fem_run c f zs s)).
Proof. intros Hc Hx s Hm Hb Hs. apply run_box; auto. apply init_fem_ok; auto. Qed.
Example C68_fem_box_ex : let s := fem_init (fem1 false false false false true) (fun _ x => at_ x 0) [0] [/ 2] in
  in_box 1 (fun _ => -2) (fun _ => 2) (fe_mu s) /\ Forall (in_box 1 (fun _ => -2) (fun _ => 2)) (fem_samples (fem1 false false false false true) (fun _ x => at_ x 0) [[1]] s).
Proof.
  split; [|constructor; [|constructor]]; intros i Hi; replace i with O by lia; unfold fem_sample, fem_shifted, fem_init, tab, at_, get;
    cbn [fe_mu fe_count fem1 fc_dim fc_shift fc_elitism fc_diagonal seq map nth andb]; lra.
Qed.
Print Assumptions C68_fem_box.

(** only the order of the fitness values matters *)
Theorem C68_fem_order c f g x0 r zs : fem_cfg_ok c -> same_order f g ->
  let s := fem_run c f zs (fem_init c f x0 r) in let t := fem_run c g zs (fem_init c g x0 r) in
  fe_mu s = fe_mu t /\ fe_sigma s = fe_sigma t /\ fe_dsigma s = fe_dsigma t /\ fe_best s = fe_best t.
Proof.
  intros Hc Ho s t. destruct (rel_run c f g zs Hc Ho _ _ (rel_init c f g x0 r)) as [H1 H2 H3 _ _ H4 _ _ _ _ _]. auto.
Qed.
Example C68_fem_order_ex : same_order (fun _ x => at_ x 0) (fun _ x => 2 * exp (at_ x 0) - 9).
Proof. intros i x j y. cbv beta. split; intro H; [apply exp_increasing in H; lra|apply exp_lt_inv; lra]. Qed.
Print Assumptions C68_fem_order.

(** minimising f is maximising -f *)
Theorem C68_fem_minimize c f x0 r zs :
  let s := fem_run (with_minimize c true) f zs (fem_init (with_minimize c true) f x0 r) in
  let t := fem_run (with_minimize c false) (fun m x => - f m x) zs (fem_init (with_minimize c false) (fun m x => - f m x) x0 r) in
  fe_mu s = fe_mu t /\ fe_sigma s = fe_sigma t /\ fe_dsigma s = fe_dsigma t /\ fe_best s = fe_best t /\ fe_bestE t = - fe_bestE s.
Proof.
  intros s t. pose proof (min_run c f zs (fem_init (with_minimize c true) f x0 r)) as E. change (negE (fem_init (with_minimize c true) f x0 r)) with (fem_init (with_minimize c false) (fun m x => - f m x) x0 r) in E.
  fold s t in E. rewrite E. auto.
Qed.
Example C68_fem_minimize_ex : fe_bestE (fem_run (fem1 false false false false true) (fun _ x => at_ x 0) [[-1]] (fem_init (fem1 false false false false true) (fun _ x => at_ x 0) [0] [/ 2])) = -1.
Proof.
  unfold fem_run. cbn [fold_left]. unfold fem_step. cbn [fem_init fe_count fe_n fe_bestE fem1 fc_minimize fc_window Nat.ltb Nat.leb fe_bestE].
  unfold fem_sample, fem_shifted, fem_init, tab, at_, get, better_eq. cbn [fe_mu fe_count fem1 fc_dim fc_shift fc_elitism fc_diagonal seq map nth andb]. destruct (Rle_dec _ _); lra.
Qed.
Print Assumptions C68_fem_minimize.

(** useAnticipatedMeanShift has no effect: the array kept as the old center is the one that the update changes *)
Theorem C68_fem_shift_refuted c f x0 r zs : fem_cfg_ok c -> length x0 = fc_dim c ->
  fem_run c f zs (fem_init c f x0 r) = fem_run (without_shift c) f zs (fem_init (without_shift c) f x0 r).
Proof.
  intros Hc Hx. change (fem_init (without_shift c) f x0 r) with (fem_init c f x0 r). apply shift_irrelevant_run; auto. apply init_fem_ok. auto.
Qed.
Example C68_fem_shift_refuted_ex : fc_shift (fem1 false false true false true) = true /\ fc_shift (without_shift (fem1 false false true false true)) = false.
Proof. auto. Qed.
Print Assumptions C68_fem_shift_refuted.

(** the starting point given by the caller has no influence on the search (without elitism) *)
Theorem C68_fem_start_refuted c f x0 x1 r zs : fc_elitism c = false ->
  let s := fem_run c f zs (fem_init c f x0 r) in let t := fem_run c f zs (fem_init c f x1 r) in
  fe_mu s = fe_mu t /\ fe_sigma s = fe_sigma t /\ fe_dsigma s = fe_dsigma t.
Proof. intros He s t. destruct (same_run c f zs He (fem_init c f x0 r) (fem_init c f x1 r)) as [H1 H2 H3 _ _ _ _]; [constructor; reflexivity|auto]. Qed.
Example C68_fem_start_refuted_ex : fe_mu (fem_init (fem1 false false false false true) (fun _ x => at_ x 0) [1000] [1]) = [1 * (1 - -1) + -1].
Proof. reflexivity. Qed.
Print Assumptions C68_fem_start_refuted.

(** diagonalOnly: the numbers adapted as variances are sampled from as standard deviations *)
Theorem C68_fem_diagonal_refuted : ~ (forall c s z, fc_diagonal c = true -> fem_ok c s ->
  fem_sample c s z = sep_points (fc_dim c) (fe_mu s) (map (fun i => sqrt (at_ (fe_dsigma s) i)) (seq 0 (fc_dim c))) z).
Proof.
  intro H. set (c := fem1 true false false false true) in *.
  set (s := {| fe_mu := [0]; fe_sigma := eye 1; fe_dsigma := [4]; fe_shift := tab 1 (fun _ => 0); fe_fits := tab 50 (fun _ => 0); fe_count := 0; fe_best := [0]; fe_bestE := 0; fe_n := 1 |}).
  specialize (H c s [1] eq_refl). assert (Ok0 : fem_ok c s).
  { pose proof (init_fem_ok c (fun _ _ => 0) [0] [0] eq_refl) as [_ _ _ H4 H5 _ _]. constructor; auto; try apply tab_length. intros i Hi. replace i with 0%nat by (cbn in Hi; lia). unfold s, get. cbn [fe_dsigma nth]. lra. }
  specialize (H Ok0). unfold fem_sample, sep_points, fem_shifted, tab, at_, get in H. cbn [c s fem1 fc_dim fc_shift fc_diagonal fe_mu fe_dsigma andb seq map nth] in H. injection H as H.
  replace 4 with (2 * 2) in H by lra. rewrite sqrt_square in H by lra. lra.
Qed.
Print Assumptions C68_fem_diagonal_refuted.

(** one step of FEM: the center moves towards the sample (or, with elitism, onto the best point so far); the covariance moves towards the outer product of the
    distance of the sample from the new center (mutative: the old one) *)
Theorem C68_fem_step c f z s : let s' := fem_step c f z s in let x := fem_sample c s z in let k := (fe_count s mod fc_window c)%nat in
  let u := fem_updateSize c (fe_fits s') k in
  at_ (fe_fits s') = (fun i => at_ (upd k (if fc_minimize c then - f (fe_n s) x else f (fe_n s) x) (fe_fits s)) i)
  /\ ((S (fe_count s) < fc_window c)%nat \/ u <= 0 -> fe_mu s' = fem_shifted c s /\ fe_sigma s' = fe_sigma s /\ fe_dsigma s' = fe_dsigma s)
  /\ ((fc_window c <= S (fe_count s))%nat -> 0 < u ->
      (fc_elitism c = true -> fe_mu s' = fe_best s')
      /\ (fc_elitism c = false -> forall i, (i < fc_dim c)%nat ->
            at_ (fe_mu s') i = at_ (fem_shifted c s) i + fc_muMult c * u * (at_ x i - at_ (fem_shifted c s) i))
      /\ let m := if fc_mutative c then fem_shifted c s else fe_mu s' in
         (forall i j, (i < fc_dim c)%nat -> (j < fc_dim c)%nat ->
            entry (fe_sigma s') i j = (1 - u) * entry (fe_sigma s) i j + 1.2 * u * ((at_ x i - at_ m i) * (at_ x j - at_ m j)))
         /\ (forall i, (i < fc_dim c)%nat -> at_ (fe_dsigma s') i = (1 - u) * at_ (fe_dsigma s) i + u * (at_ x i - at_ m i) ^ 2))
  /\ (let e := f (fe_n s) x in
      if better_eq (fc_minimize c) e (fe_bestE s) then fe_best s' = x /\ fe_bestE s' = e else fe_best s' = fe_best s /\ fe_bestE s' = fe_bestE s)
  /\ (forall a b, better_eq true a b = true <-> a <= b) /\ (forall a b, better_eq false a b = true <-> b <= a).
Proof.
  cbv zeta. assert (Ef : fe_fits (fem_step c f z s) = upd (fe_count s mod fc_window c) (if fc_minimize c then - f (fe_n s) (fem_sample c s z) else f (fe_n s) (fem_sample c s z)) (fe_fits s)).
  { unfold fem_step. cbv zeta. destruct (Nat.ltb _ _); [reflexivity|]. destruct (Rlt_dec _ _); reflexivity. }
  rewrite Ef. set (fits := upd _ _ _). set (k := (fe_count s mod fc_window c)%nat) in *. set (x := fem_sample c s z) in *.
  split; [reflexivity|]. split; [|split; [|split; [|split]]].
  - intro H. unfold fem_step. cbv zeta. fold k x fits. destruct (Nat.ltb_spec (S (fe_count s)) (fc_window c)) as [_|H1]; [auto|].
    destruct (Rlt_dec _ _) as [H2|_]; [|auto]. destruct H as [H|H]; [lia|lra].
  - intros Hw Hu. unfold fem_step. cbv zeta. fold k x fits. destruct (Nat.ltb_spec (S (fe_count s)) (fc_window c)) as [H1|_]; [lia|].
    destruct (Rlt_dec _ _) as [_|H2]; [|lra]. cbn [fe_mu fe_sigma fe_dsigma fe_best]. split; [intros ->; reflexivity|]. split; [|split].
    + intros -> i Hi. unfold fem_newmu. change at_ with get. rewrite get_tab by exact Hi. ring.
    + intros i j Hi Hj. unfold fem_newsigma. change entry with mget. rewrite mget_mtab by assumption. change at_ with get. destruct (fc_mutative c); ring.
    + intros i Hi. unfold fem_newdsigma. change at_ with get. rewrite get_tab by exact Hi. destruct (fc_mutative c); ring.
  - unfold fem_step. cbv zeta. fold k x fits. destruct (better_eq _ _ _); (destruct (Nat.ltb _ _); [auto|]; destruct (Rlt_dec _ _); auto).
  - intros a b. unfold better_eq. destruct (Rle_dec a b); split; intros; auto; discriminate.
  - intros a b. unfold better_eq. destruct (Rle_dec b a); split; intros; auto; discriminate.
Qed.
Example C68_fem_step_ex : fem_step {| fc_dim := 1; fc_diagonal := true; fc_forget := / 2; fc_muMult := 1; fc_window := 1; fc_top := 1; fc_elitism := true; fc_shift := false; fc_mutative := false; fc_minimize := true |}
    (fun _ x => at_ x 0) [3] (fem_init (fem1 true true false false true) (fun _ x => at_ x 0) [4] [/ 2]) <> fem_init (fem1 true true false false true) (fun _ x => at_ x 0) [4] [/ 2].
Proof. intro H. apply (f_equal fe_n) in H. unfold fem_step in H. cbv zeta in H. destruct (Nat.ltb _ _) in H; [discriminate|]. destruct (Rlt_dec _ _) in H; discriminate. Qed.
Print Assumptions C68_fem_step.

(** the defaults of SNES *)
Theorem C68_snes_default n o : let c := snes_default n o in
  nc_covRate c = (3 + ln (INR n)) / (5 * sqrt (INR n)) /\ ((0 < n)%nat -> 0 < nc_covRate c) /\ nc_centerRate c = 1 /\ nc_baseline c = true /\ nc_opposed c = o
  /\ nc_batch c = default_batch n /\ nc_dim c = n /\ nc_initVariance c = 1.
Proof.
  assert (E : snes_learningRate n = (3 + ln (INR n)) / (5 * sqrt (INR n))).
  { unfold snes_learningRate, Rdiv. rewrite Rinv_mult. set (y := / sqrt (INR n)). replace 0.6 with (3 * / 5) by lra. field. }
  cbn [snes_default nc_covRate nc_centerRate nc_baseline nc_opposed nc_batch nc_dim nc_initVariance]. split; [exact E|]. split; [|auto 10].
  intro Hn. rewrite E. assert (1 <= INR n) by (change 1 with (INR 1); apply le_INR; lia). apply Rdiv_lt_0_compat.
  - assert (0 <= ln (INR n)); [|lra]. destruct (Req_dec (INR n) 1) as [->|]; [rewrite ln_1; lra|]. rewrite <- ln_1. left. apply ln_increasing; lra.
  - assert (0 < sqrt (INR n)) by (apply sqrt_lt_R0; lra). lra.
Qed.
Example C68_snes_default_ex : nc_covRate (snes_default 1 false) = 3 / 5.
Proof. destruct (C68_snes_default 1 false) as [-> _]. change (INR 1) with 1. rewrite ln_1, sqrt_1. field. Qed.
Print Assumptions C68_snes_default.
