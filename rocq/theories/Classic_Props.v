(** C79: classic control tasks. *)
From Coq Require Import Reals Lra Psatz.
From Verif Require Import Base Functions_Model Classic_Model Classic_Spec Classic_Proofs Classic_Proofs2.
Local Open Scope R_scope.

(** ** episodes of MountainCar and AcrobotTask *)
(** After n actions the episode runs, or the goal was reached, or the steps are used up; it is over two actions after the goal, or with the last step. *)
Theorem C79_phases : forall (S : Type) (k : cfg S) t l t', (0 < k_max k)%nat -> acts k (reset k t) l = Ok t' -> k_resetOnSuccess k = false ->
  phase k (length l) t' /\
  (fst (isFinished k t') = true <->
     (snd (k_reward k (t_state t')) = true /\ (0 < t_steps t' < k_max k)%nat /\ (t_steps t' + 2 <= length l)%nat) \/ (k_max k <= t_steps t')%nat) /\
  (k_max k + 1 <= length l -> fst (isFinished k t') = true)%nat.
Proof.
  intros S k t l t' M H Rs. pose proof (phase_acts k l 0 _ t' (phase_reset k t M) H) as P. cbn [Nat.add] in P. split; [exact P|].
  assert (F : fst (isFinished k t') = true <-> (3 <= t_done t')%nat) by (unfold isFinished; rewrite Rs, andb_false_r; cbn [fst]; apply Nat.leb_le).
  rewrite F. destruct P as [D St L G | L B G D R | L St D R].
  - split; [|lia]. split; [lia|]. intros [(X & Y & Z) | X]; lia.
  - split; [|lia]. split; [intro; left; split; [exact G|]; lia|]. intros [(X & Y & Z) | X]; lia.
  - split; [|lia]. split; [intro; right; lia|]. intros _. lia.
Qed.
(** An evaluation ends after at most max + 2 actions. *)
Theorem C79_evaluation_ends : forall (S W : Type) (k : cfg S) (module : W -> S -> W * Z) w t, k_resetOnSuccess k = false -> (0 < k_max k)%nat ->
  (forall w s, exists s', k_do k (snd (module w s)) s = Ok s') ->
  exists w' t', runLoop k module (k_max k + 3) w (reset k t) = Ok (w', t') /\ (3 <= t_done t')%nat.
Proof.
  intros S W k module w t Rs M Ok_. destruct (run_ends k module (k_max k + 3) Rs Ok_ 0 w _ (phase_reset k t M)) as (w' & t' & m & E & _ & _ & D); [lia | lia |].
  eauto.
Qed.
(** With resetOnSuccess an evaluation never ends. *)
Theorem C79_reset_on_success_refuted : forall (S W : Type) (k : cfg S) (module : W -> S -> W * Z) fuel w t x, k_resetOnSuccess k = true ->
  fst (isFinished k t) = false /\ runLoop k module fuel w t <> Ok x.
Proof.
  intros S W k module fuel w t x Rs. split; [|now apply never_ok]. unfold isFinished. rewrite Rs. destruct (3 <=? t_done t)%nat eqn:E; cbn [andb fst]; auto.
Qed.
(** A reset keeps the total: the next evaluation reports the sum of all so far. *)
Theorem C79_total_kept_refuted : forall (S : Type) (k : cfg S) t, t_cum (reset k t) = t_cum t.
Proof. reflexivity. Qed.
(** An experiment is paid the reward of the goal three times, the total counts it once. *)
Theorem C79_paid_again_refuted : forall (S : Type) (k : cfg S) t a b, t_done t = 1%nat ->
  exists t1 t2, performAction k t a = Ok t1 /\ performAction k t1 b = Ok t2 /\ fst (isFinished k t) = false /\ fst (isFinished k t1) = false /\
    getReward t1 = getReward t /\ getReward t2 = getReward t /\ t_cum t2 = t_cum t /\ t_state t2 = t_state t.
Proof.
  intros S k t a b D. destruct (perform_frozen k t a) as (t1 & E1 & A1 & A2 & A3 & A4); [lia|].
  destruct (perform_frozen k t1 b) as (t2 & E2 & B1 & B2 & B3 & B4); [lia|]. exists t1, t2. split; [exact E1|]. split; [exact E2|].
  unfold isFinished, getReward. rewrite A4, D. cbn [Nat.add Nat.leb andb fst]. rewrite B3, A3, B2, A2, B1, A1. repeat split; reflexivity.
Qed.
(** Before the first action there is no reward. *)
Theorem C79_no_reward_refuted : forall (S : Type) (k : cfg S), getReward (new k) = Err AttributeError.
Proof. reflexivity. Qed.

(** ** MountainCar *)
(** Position and speed stay in their ranges, the goal is not passed while the episode runs, and the episode is worth 1 if the goal was reached, else 0. *)
Theorem C79_car : forall b t l t', acts (car b) (reset (car b) t) l = Ok t' ->
  car_ok (t_state t') /\ (t_done t' = 0%nat -> fst (t_state t') < 45 / 100) /\
  (45 / 100 <= fst (t_state t') -> t_cum t' = t_cum t + 1) /\ (fst (t_state t') < 45 / 100 -> t_cum t' = t_cum t).
Proof.
  intros b t l t' H. destruct (car_inv_acts b l _ t' (car_inv_reset b t) H) as (O & G). split; [exact O|]. split; [exact G|].
  pose proof (car_gain b l (reset (car b) t) t' eq_refl H) as C. cbn [reset t_cum] in C. rewrite C. cbn [car k_reward].
  destruct (t_done t' =? 0)%nat eqn:D.
  - apply Nat.eqb_eq in D. specialize (G D). split; intro; [lra | ring].
  - destruct (leb (45 / 100) (fst (t_state t'))) eqn:Q; cbn [fst]; [apply leb_true in Q | apply leb_false in Q]; split; intro; lra.
Qed.
(** The speed changes by the force and the slope, cut to 0.07; the wall on the left stops the car. *)
Theorem C79_car_step : forall a p v p' v', carDo a (p, v) = Ok (p', v') ->
  exists f, lookup a = Ok f /\ -1 <= f <= 1 /\
    (let w := v + f / 1000 - 25 / 10000 * cos (3 * p) in
     - (14 / 10) < p' -> p' = p + v' /\ (Rabs w <= 7 / 100 -> v' = w) /\ (7 / 100 < w -> v' = 7 / 100) /\ (w < - (7 / 100) -> v' = - (7 / 100))) /\
    (p' <= - (14 / 10) -> p' = - (14 / 10) /\ v' = 0).
Proof.
  intros a p v p' v' H. unfold carDo in H. destruct (lookup a) as [f|] eqn:L; [|discriminate]. cbn [rbind] in H. exists f. split; [reflexivity|].
  split; [exact (lookup_range a f L)|]. cbv zeta. replace (v + f / 1000 - 25 / 10000 * cos (3 * p)) with (v + 1 / 1000 * f + - (25 / 10000) * cos (3 * p)) by field.
  set (w := v + 1 / 1000 * f + - (25 / 10000) * cos (3 * p)) in *. clearbody w.
  destruct (leb _ _) eqn:Q in H; inversion H; subst; clear H; rewrite ?leb_true, ?leb_false in Q.
  - split; [intro; lra | auto].
  - split; [|intro; lra]. intros _. split; [reflexivity|].
    destruct (ltb w (- (7 / 100))) eqn:A; [apply ltb_true in A | apply ltb_false in A; destruct (ltb (7 / 100) w) eqn:B; [apply ltb_true in B | apply ltb_false in B]];
      (split; [intro X; apply Rabs_def2 in X || (unfold Rabs in X; destruct (Rcase_abs w)); lra | split; intro; lra]).
Qed.
Example C79_car_ex : exists p v, carDo 2 (- (1 / 2), 0) = Ok (p, v) /\ v = 1 / 1000 - 25 / 10000 * cos (3 * - (1 / 2)).
Proof.
  destruct (carDo 2 (- (1 / 2), 0)) as [[p v]|] eqn:E.
  - exists p, v. split; [reflexivity|]. destruct (C79_car_step _ _ _ _ _ E) as (f & L & _ & S & W). 
    assert (f = 1) by (vm_compute in L || idtac; inversion L; reflexivity). subst f.
    pose proof (COS_bound (3 * - (1 / 2))) as B.
    destruct (Rlt_le_dec (- (14 / 10)) p) as [G|G].
    + destruct (S G) as (_ & S1 & _). rewrite S1; [lra|]. apply Rabs_le. lra.
    + exfalso. unfold carDo in E. change (lookup 2) with (Ok 1 : result R) in E. cbn [rbind] in E. destruct (leb _ _) eqn:Q in E; inversion E; subst; [|rewrite leb_false in Q; lra].
      rewrite leb_true in Q. revert Q. match goal with |- context [ltb ?w (- (7 / 100))] => destruct (ltb w (- (7 / 100))) eqn:A end; [apply ltb_true in A; lra|].
      apply ltb_false in A. match goal with |- context [ltb (7 / 100) ?w] => destruct (ltb (7 / 100) w) eqn:C end; intro Q; lra.
  - exfalso. unfold carDo in E. change (lookup 2) with (Ok 1 : result R) in E. cbn [rbind] in E. destruct (leb _ _) in E; discriminate.
Qed.

(** ** AcrobotTask *)
(** Angles within half a turn and velocities within their bounds; the observation is scaled accordingly. *)
Theorem C79_arms_range : forall easy target_ b t l t', acts (acrobot easy target_ b) (reset (acrobot easy target_ b) t) l = Ok t' ->
  arms_ok (t_state t') /\ Forall2 (fun v m => Rabs v <= m) (armsObservation (t_state t')) [1; 1; 4; 9; 1].
Proof.
  intros easy tg b t l t' H. assert (O : arms_ok (t_state t')).
  { apply (acts_invariant (acrobot easy tg b) arms_ok l) with (reset (acrobot easy tg b) t); [intros a s s'; apply arms_step | | exact H].
    pose proof PI_RGT_0. unfold arms_ok. cbn [reset t_state acrobot k_init th1 th2 th1' th2']. rewrite Rabs_R0. lra. }
  split; [exact O|]. destruct O as (A & B & C & D). pose proof PI_RGT_0 as Pi. unfold armsObservation. cbn [map].
  assert (Q : forall v m, Rabs v <= m * PI -> Rabs (v / PI) <= m).
  { intros v m Hv. unfold Rdiv. rewrite Rabs_mult, (Rabs_right (/ PI)) by (left; apply Rinv_0_lt_compat; lra).
    apply Rmult_le_reg_r with PI; [exact Pi|]. rewrite Rmult_assoc, Rinv_l, Rmult_1_r; lra. }
  do 5 (apply Forall2_cons; [apply Q; try lra; rewrite ?Rabs_right; lra|]). constructor.
Qed.
Example C79_arms_ex : exists t, acts (acrobot false (15 / 10) false) (reset (acrobot false (15 / 10) false) (new (acrobot false (15 / 10) false))) [1; -1]%Z = Ok t.
Proof.
  cbn [acts]. assert (D : forall x a, In a [1; -1]%Z -> exists y, armsDo a x = Ok y) by (intros x a [<- | [<- | []]]; eexists; reflexivity).
  assert (P : forall t a, In a [1; -1]%Z -> exists t', performAction (acrobot false (15 / 10) false) t a = Ok t').
  { intros t a Ha. unfold performAction. destruct (0 <? t_done t)%nat; [eexists; reflexivity|]. change (k_do (acrobot false (15 / 10) false)) with armsDo.
    destruct (D (t_state t) a Ha) as (y & E). rewrite E. cbn [rbind]. destruct (judge _ _ y). eexists; reflexivity. }
  edestruct P as (t1 & E1); [|rewrite E1]; [left; reflexivity|]. cbn [rbind]. destruct (P t1 (-1)%Z) as (t2 & E2); [right; left; reflexivity|]. rewrite E2. cbn [rbind]. eauto.
Qed.
(** The simulation has no division by zero and is symmetric. *)
Theorem C79_arms_simulation : forall x a, 
  0 < d1 x /\ 0 < m2 * lc2 ^ 2 + I2 - d2 x * d2 x / d1 x /\
  ((0 <= a <= 2)%Z -> armsDo (2 - a) (arms_mirror x) = (let! y := armsDo a x in Ok (arms_mirror y))) /\
  (forall e tg, armsReward e tg (arms_mirror x) = armsReward e tg x).
Proof.
  intros x a. split; [apply d1_pos|]. split; [apply inertia_pos|]. split; [apply arms_do_mirror|].
  intros e tg. unfold armsReward, arms_mirror. cbn [th1 th2]. rewrite !cos_neg. reflexivity.
Qed.
(** The accelerations are those of the two arms exactly when the Coriolis term vanishes: its sign is wrong. *)
Theorem C79_coriolis_refuted : forall x torque, free_arms x torque (accel1 torque x) (accel2 torque x) <-> th1' x * th2' x * sin (th2 x) = 0.
Proof. exact free_iff. Qed.
(** The height that decides about the goal is not that of the tip: folded arms reach the goal, straight ones do not. *)
Theorem C79_height_refuted :
  (forall x, snd (armsReward false (15 / 10) x) = true <-> 15 / 10 <= - cos (th1 x) - cos (th2 x)) /\
  (snd (armsReward false (15 / 10) (Arms PI PI 0 0)) = true /\ tip (Arms PI PI 0 0) = 0) /\
  (snd (armsReward false (15 / 10) (Arms PI 0 0 0)) = false /\ tip (Arms PI 0 0 0) = 2).
Proof.
  assert (K : forall x, snd (armsReward false (15 / 10) x) = true <-> 15 / 10 <= - cos (th1 x) - cos (th2 x)).
  { intro x. unfold armsReward. destruct (leb _ _) eqn:E; cbn [snd]; [apply leb_true in E | apply leb_false in E]; split; intro H; try discriminate; try reflexivity; lra. }
  split; [exact K|]. unfold tip. split; split; cbn [th1 th2].
  - apply K. cbn [th1 th2]. rewrite cos_PI. lra.
  - replace (PI + PI) with (2 * PI) by ring. rewrite cos_PI, cos_2PI. ring.
  - destruct (snd _) eqn:E; [|reflexivity]. apply K in E. cbn [th1 th2] in E. rewrite cos_PI, cos_0 in E. lra.
  - rewrite Rplus_0_r, cos_PI. ring.
Qed.
(** SingleArmSwinger starts with the arm at the top; gravity alone drives it to what counts as the goal, the arm hanging down. *)
Theorem C79_swinger_refuted :
  tip (k_init swinger) = 2 /\ (forall x, tip x <= 2) /\
  (forall t a t', t_done t = 0%nat -> swing t a = Ok t' -> t_done t' = 1%nat -> tip (t_state t') <= 5 / 100) /\
  (forall th, 0 < th < PI -> 0 < accel2 0 (Arms PI th 0 0)).
Proof.
  split; [|split; [|split]].
  - unfold tip. cbn [swinger k_init th1 th2]. rewrite Rplus_0_r, cos_PI. ring.
  - intro x. unfold tip. pose proof (COS_bound (th1 x)). pose proof (COS_bound (th1 x + th2 x)). lra.
  - intros t a t' D H F. unfold swing in H. destruct (performAction swinger t a) as [t1|] eqn:E; [|discriminate]. cbn [rbind] in H. inversion H; subst t'. clear H.
    unfold refix in *. cbn [t_done t_state] in *. unfold tip. cbn [th1 th2].
    unfold performAction in E. rewrite D in E. change (0 <? 0)%nat with false in E. cbv iota in E. destruct (k_do swinger a (t_state t)) as [s|]; [|discriminate]. cbn [rbind] in E.
    unfold judge in E. destruct (k_reward swinger s) as [r gl] eqn:Rw. set (late := (_ <=? _)%nat) in E. clearbody late. inversion E; subst t1. clear E. cbn [t_done t_state] in *.
    destruct late; [discriminate|]. destruct gl; [|discriminate]. cbn [swinger k_reward] in Rw. unfold armsReward in Rw.
    destruct (leb _ _) eqn:Q in Rw; [|discriminate]. apply leb_true in Q. rewrite cos_PI, (Rplus_comm PI), neg_cos.
    pose proof (COS_bound (th1 s)). lra.
  - intros th H. pose proof (sin_gt_0 th (proj1 H) (proj2 H)) as Sp. pose proof (d1_pos (Arms PI th 0 0)) as P1. pose proof (inertia_pos (Arms PI th 0 0)) as P2.
    unfold accel2. apply Rdiv_lt_0_compat; [|exact P2]. unfold phi1, phi2. cbn [th1 th2 th1' th2'].
    rewrite (cos_shift PI), (cos_shift (PI + th)), sin_PI. rewrite (Rplus_comm PI th), neg_sin.
    assert (E : d2 (Arms PI th 0 0) / d1 (Arms PI th 0 0) < 1).
    { apply Rmult_lt_reg_r with (d1 (Arms PI th 0 0)); [exact P1|]. unfold Rdiv. rewrite Rmult_assoc, Rinv_l, Rmult_1_r, Rmult_1_l by lra.
      unfold d1, d2, m1, m2, l1, lc1, lc2, I1, I2. cbn [th2]. pose proof (COS_bound th). nra. }
    set (q := d2 _ / d1 _) in *. unfold m1, m2, l1, lc1, lc2, g. nra.
Qed.

(** ** XORTask and XORChainTask *)
(** With division of integers the n-th observation shows two bits of n, and the action is worth 1 if it is their xor (or and), else -1. *)
Theorem C79_xor : forall c t b1 b2 a flip, (x_truediv c = false \/ x_random c = true) ->
  let p := x_random c in
  let z := wanted c (if p then b1 else Z.testbit (x_counter t) 0) (if p then b2 else Z.testbit (x_counter t) 1) in
  exists t', xorPerform c flip a (xorObserve c b1 b2 t) = Ok t' /\ x_counter t' = (x_counter t + 1)%Z /\
    (a = z -> x_r t' = 1%Z) /\ (a <> z -> x_r t' = (-1)%Z) /\ x_cum t' = (x_cum t + (if flip then - x_r t' else x_r t'))%Z.
Proof.
  intros c t b1 b2 a flip Hc p z. unfold xorPerform, xorObserve. cbn [x_obs x_r x_counter x_state x_cum].
  assert (T : target c (Some (if x_random c then (Int (Z.b2z b1), Int (Z.b2z b2)) else bits c (x_counter t))) = Ok z).
  { unfold z, p. destruct (x_random c) eqn:E; [apply target_int|]. destruct Hc as [Hc|]; [|discriminate]. rewrite (bits_int c _ Hc). apply target_int. }
  rewrite T. cbn [rbind]. eexists. split; [reflexivity|]. unfold addReward, xorReward. cbn [x_obs x_r x_counter x_state x_cum].
  split; [reflexivity|]. destruct (a =? z)%Z eqn:E; [apply Z.eqb_eq in E | apply Z.eqb_neq in E]; repeat split; auto; intro; contradiction.
Qed.
Example C79_xor_ex : map (fun n => (Z.testbit n 0, Z.testbit n 1)) [0; 1; 2; 3; 4]%Z = [(false, false); (true, false); (false, true); (true, true); (false, false)].
Proof. reflexivity. Qed.
(** With true division every action raises TypeError, unless the observations are random. *)
Theorem C79_xor_refuted : forall c t b1 b2 a flip, x_truediv c = true ->
  (x_random c = false -> xorPerform c flip a (xorObserve c b1 b2 t) = Err TypeError) /\ chainPerform c flip a (chainObserve c t) = Err TypeError.
Proof.
  intros c t b1 b2 a flip D. unfold xorPerform, xorObserve, chainPerform, chainObserve. cbn [x_obs]. rewrite !(bits_float c _ D).
  split; [intros ->|]; reflexivity.
Qed.
(** The chain: a right action leads on, a wrong one back to the start; going on without a mistake. *)
Theorem C79_chain : forall c t a, x_truediv c = false ->
  exists t', chainStep c t a = Ok t' /\
    (a = wanted c (Z.testbit (x_state t) 0) (Z.testbit (x_state t) 1) ->
       x_state t' = Z.min (x_state t + 1) 3 /\ x_r t' = (if x_cutoff c <=? x_state t then 1 else -1)%Z) /\
    (a <> wanted c (Z.testbit (x_state t) 0) (Z.testbit (x_state t) 1) -> x_state t' = 0%Z /\ x_r t' = (-1)%Z) /\
    x_cum t' = (x_cum t + x_r t')%Z.
Proof. exact chain_step. Qed.
Theorem C79_chain_perfect : forall c n, x_truediv c = false ->
  exists t, perfect c n xorNew = Ok t /\ x_state t = Z.min (Z.of_nat n) 3 /\ (x_cutoff c <= 0 -> x_cum t = Z.of_nat n)%Z.
Proof. intros c n D. destruct (perfect_spec c n D xorNew) as (t & E & A & B); [cbn; lia|]. exists t. auto. Qed.

(** ** SimpleEnvironment and MinimizeTask *)
(** One observation per action: the state moves by a tenth of the action, and the reward after the action is minus the square of the next observation. *)
Theorem C79_minimize : forall t a, s_noise (m_env t) = false -> s_updated (m_env t) = true -> m_state t = s_state (m_env t) ->
  let t' := snd (m_observe [] (m_perform a t)) in
  m_state t' = rzip (fun s a => s + 1 / 10 * a) (m_state t) a /\ m_reward (m_perform a t) = - rsum (map (fun v => v ^ 2) (m_state t')).
Proof.
  intros t a N U E t'. unfold t', m_observe, m_perform, s_getSensors, s_perform, s_update, m_reward. cbn [m_env s_updated s_noise s_state s_action snd m_state m_action].
  rewrite N, E. split; reflexivity.
Qed.
(** The total of the task is computed with the action before. *)
Theorem C79_minimize_late_refuted : forall t a b, m_cum (m_perform a t) = m_cum (m_perform b t) /\ m_cum (m_perform a t) = m_cum t + m_reward t.
Proof. split; reflexivity. Qed.
(** Looking again moves on: the flag that the state is up to date is never set. *)
Theorem C79_reads_refuted : forall e a, s_noise e = false -> length (s_state e) = length a ->
  let e1 := snd (s_getSensors [] (s_perform a e)) in
  fst (s_getSensors [] e1) = rzip (fun s a => s + 1 / 10 * a) (fst (s_getSensors [] (s_perform a e))) a /\
  (fst (s_getSensors [] e1) = fst (s_getSensors [] (s_perform a e)) -> Forall (fun x => x = 0) a).
Proof.
  intros e a N L e1. assert (E : fst (s_getSensors [] e1) = rzip (fun s a => s + 1 / 10 * a) (fst (s_getSensors [] (s_perform a e))) a).
  { unfold e1, s_getSensors, s_perform, s_update. cbn [s_updated s_noise s_state s_action snd fst]. rewrite N. reflexivity. }
  split; [exact E|]. rewrite E. unfold s_getSensors, s_perform, s_update. cbn [s_updated s_noise s_state s_action snd fst]. rewrite N.
  clear - L. revert L. generalize (s_state e). induction a as [|x a IH]; intros [|s l] L H; try discriminate; [constructor|].
  cbn [rzip] in H. inversion H. constructor; [lra|]. apply (IH l); [cbn in L; lia | assumption].
Qed.
(** Noise is not added: the random numbers are appended to the state, and dropped by the next step. *)
Theorem C79_noise_refuted : forall e eps, length (s_state e) = length (s_action e) ->
  let noisy := {| s_dim := s_dim e; s_state := s_state e; s_action := s_action e; s_updated := false; s_noise := true |} in
  let e1 := s_update eps noisy in
  s_state e1 = rzip (fun s a => s + 1 / 10 * a) (s_state e) (s_action e) ++ eps /\
  length (s_state e1) = (length (s_state e) + length eps)%nat /\
  (forall eps', firstn (length (s_state e)) (s_state (s_update eps' e1)) =
     rzip (fun s a => s + 1 / 10 * a) (rzip (fun s a => s + 1 / 10 * a) (s_state e) (s_action e)) (s_action e)).
Proof.
  intros e eps L noisy e1. assert (Len : length (rzip (fun s a => s + 1 / 10 * a) (s_state e) (s_action e)) = length (s_action e)) by (rewrite rzip_length; lia).
  split; [reflexivity|]. split.
  - unfold e1, s_update, noisy. cbn [s_noise s_state s_action]. rewrite app_length, Len. lia.
  - intro eps'. unfold e1, s_update, noisy. cbn [s_noise s_state s_action]. rewrite rzip_app by exact Len.
    rewrite firstn_app, rzip_length, Len, Nat.min_id, L, Nat.sub_diag, firstn_O, app_nil_r. apply firstn_all2. rewrite rzip_length, Len. lia.
Qed.
(** The end comes with the sixteenth question whether it has come, whoever asks, and the counter starts again. *)
Theorem C79_minimize_end : forall t n, m_t t = 0%nat -> (n <= 15)%nat ->
  let t' := Nat.iter n (fun t => snd (m_finished t)) t in m_t t' = n /\ (fst (m_finished t') = true <-> n = 15%nat) /\ (n = 15%nat -> m_t (snd (m_finished t')) = 0%nat).
Proof.
  intros t n T Hn t'. assert (M : forall m, (m <= 15)%nat -> m_t (Nat.iter m (fun t => snd (m_finished t)) t) = m).
  { induction m as [|m IH]; intro Hm; [exact T|]. change (Nat.iter (S m) (fun t => snd (m_finished t)) t) with (snd (m_finished (Nat.iter m (fun t => snd (m_finished t)) t))).
    specialize (IH ltac:(lia)). set (u := Nat.iter m _ t) in *. clearbody u. unfold m_finished. rewrite IH. assert (Q : (15 <=? m)%nat = false) by (apply Nat.leb_gt; lia).
    rewrite Q. cbn [snd m_t]. lia. }
  pose proof (M n Hn) as E. fold t' in E. split; [exact E|]. unfold m_finished. rewrite E. destruct (15 <=? n)%nat eqn:Q; [apply Nat.leb_le in Q | apply Nat.leb_gt in Q]; cbn [fst snd m_t].
  - split; [split; intro; [lia | reflexivity] | reflexivity].
  - split; [split; intro; [discriminate | lia] | intro; lia].
Qed.

(** ** the ship *)
(** Heading, turn and speed stay in their ranges; an episode takes N steps, and with N as in the constructor it is worth between -25 and 100. *)
Theorem C79_ship : forall maxsteps N pol u, (0 < maxsteps)%Z -> (0 <= N)%Z -> 0 <= u <= 1 ->
  exists y r, shipRun maxsteps N 0 pol (S (Z.to_nat N)) (shipStart u) 0 = Ok (y, N, r) /\ ship_ok y /\
    - (25 / IZR maxsteps) * IZR N <= r <= 100 / IZR maxsteps * IZR N /\ (N = maxsteps -> -25 <= r <= 100).
Proof.
  intros maxsteps N pol u Hm HN Hu. destruct (ship_run maxsteps N pol (S (Z.to_nat N)) Hm 0 (shipStart u) 0 (ship_start_ok u Hu)) as (y & r & E & O & B); [lia | lia |].
  rewrite Z.sub_0_r, Rminus_0_r in B. exists y, r. split; [exact E|]. split; [exact O|]. split; [exact B|]. intros ->.
  assert (P : IZR maxsteps <> 0) by (apply IZR_lt in Hm; lra). unfold Rdiv in B.
  replace (- (25 * / IZR maxsteps) * IZR maxsteps) with (-25) in B by (field; exact P). replace (100 * / IZR maxsteps * IZR maxsteps) with 100 in B by (field; exact P). exact B.
Qed.
Theorem C79_ship_step : forall f u r0 r1 r2 x, ship_ok x -> ship_ok (shipStep f u r0 r1 r2 x).
Proof. exact ship_step. Qed.
(** The drag depends on the side to which the ship heads: mirrored ships get different speeds, and without thrust a ship may get faster. *)
Theorem C79_drag_refuted : sp (shipStep 0 0 0 0 0 (Ship 10 0 10)) <> sp (shipStep 0 0 0 0 0 (Ship (-10) 0 10)) /\
  10 < sp (shipStep 0 0 0 0 0 (Ship (-180) 0 10)).
Proof.
  unfold shipStep. cbn [hd hd' sp]. rewrite !(clip_id 0) by lra. rewrite !clip_id by lra. split; lra.
Qed.

Print Assumptions C79_phases.
Print Assumptions C79_evaluation_ends.
Print Assumptions C79_reset_on_success_refuted.
Print Assumptions C79_total_kept_refuted.
Print Assumptions C79_paid_again_refuted.
Print Assumptions C79_no_reward_refuted.
Print Assumptions C79_car.
Print Assumptions C79_car_step.
Print Assumptions C79_arms_range.
Print Assumptions C79_arms_simulation.
Print Assumptions C79_coriolis_refuted.
Print Assumptions C79_height_refuted.
Print Assumptions C79_swinger_refuted.
Print Assumptions C79_xor.
Print Assumptions C79_xor_refuted.
Print Assumptions C79_chain.
Print Assumptions C79_chain_perfect.
Print Assumptions C79_minimize.
Print Assumptions C79_minimize_late_refuted.
Print Assumptions C79_reads_refuted.
Print Assumptions C79_noise_refuted.
Print Assumptions C79_minimize_end.
Print Assumptions C79_ship.
Print Assumptions C79_ship_step.
Print Assumptions C79_drag_refuted.
