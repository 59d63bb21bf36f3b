(** C78: carts and poles. *)
From Coq Require Import Reals Lra Psatz.
From Verif Require Import Base Functions_Model Poles_Model Poles_Spec Poles_Proofs Poles_Proofs2.
Local Open Scope R_scope.

(** ** the mechanics *)
(** The derivatives solve the equations of motion of a cart with a homogeneous pole, they are the only solution, and no division by zero occurs. *)
Theorem C78_motion : forall c F x, proper c ->
  0 < denom (4 / 3) c (th x) /\
  (let y := derivs (4 / 3) c F x in th y = th' x /\ po y = po' x /\ obeys c F x (th' y) (po' y) /\
   forall a b, obeys c F x a b -> a = th' y /\ b = po' y).
Proof.
  intros c F x P. split; [destruct P as (L & M & C); apply denom_pos; lra|].
  destruct (derivs_motion c F x P) as (E1 & E2 & E3). cbv zeta. repeat (split; [assumption|]).
  intros a b O. exact (obeys_unique c F x a b _ _ P O E3).
Qed.
Lemma pole1_proper : proper pole1.
Proof. unfold proper, pole1, pole. cbn [c_l c_mp c_mc]. lra. Qed.
Example C78_motion_ex : proper pole1 /\ th' (derivs (4 / 3) pole1 1 zero_state) = -60 / 41 /\ po' (derivs (4 / 3) pole1 1 zero_state) = 40 / 41.
Proof.
  split; [exact pole1_proper|]. unfold derivs, denom, pole1, pole, zero_state. cbn [th th' po po' c_g c_l c_mp c_mc c_dt]. rewrite sin_0, cos_0.
  split; field.
Qed.
(** With division of integers (4 / 3 = 1) they do not. *)
Theorem C78_integer_division_refuted : exists x, ~ obeys pole1 1 x (th' (derivs 1 pole1 1 x)) (po' (derivs 1 pole1 1 x)).
Proof.
  exists zero_state. unfold obeys, derivs, denom, pole1, pole, zero_state. cbn [th th' po po' c_g c_l c_mp c_mc c_dt]. rewrite sin_0, cos_0.
  intros (_ & E). revert E.
  match goal with |- ?a = ?b -> _ => replace a with (- (1 / 60)) by field; replace b with 0 by field end. lra.
Qed.
(** Along a motion the energy changes by the work of the force, and stays the same without one. *)
Theorem C78_energy : forall c F y, proper c -> motion (fun t => derivs (4 / 3) c (F t)) y ->
  (forall t, derivable_pt_lim (fun u => energy c (y u)) t (F t * po' (y t))) /\
  ((forall t, F t = 0) -> forall t u, energy c (y t) = energy c (y u)).
Proof.
  intros c F y P M. split; [exact (energy_motion c F y P M)|]. intros Z t u. apply constant_of_null with (f := fun v => energy c (y v)).
  intro v. pose proof (energy_motion c F y P M v) as Q. rewrite Z, Rmult_0_l in Q. exact Q.
Qed.
Example C78_energy_ex : motion (fun _ => derivs (4 / 3) pole1 0) (fun t => St 0 0 (3 * t) 3).
Proof.
  intro t. unfold derivs. cbn [th th' po po']. rewrite sin_0, cos_0.
  split; [apply derivable_pt_lim_const|]. split; [|split].
  - replace (_ / _) with 0 by (unfold Rdiv; ring). apply derivable_pt_lim_const.
  - pose proof (derivable_pt_lim_scal id 3 t 1 (derivable_pt_lim_id t)) as Q. rewrite Rmult_1_r in Q. exact Q.
  - match goal with |- derivable_pt_lim _ _ ?v => replace v with 0 by (unfold Rdiv; ring) end. apply derivable_pt_lim_const.
Qed.
(** On a linear system a step is the Taylor polynomial of degree four. *)
Theorem C78_rk4 : forall f h y, linear_map f ->
  rk4 f h y = axpy (h ^ 4 / 24) (f (f (f (f y)))) (axpy (h ^ 3 / 6) (f (f (f y))) (axpy (h ^ 2 / 2) (f (f y)) (axpy h (f y) y))).
Proof. exact rk4_linear. Qed.
Example C78_rk4_ex : linear_map (fun x => St (th' x) (- th x) (po x) 0) /\
  th (rk4 (fun x => St (th' x) (- th x) (po x) 0) 1 (St 1 0 1 0)) = 1 - 1 / 2 + 1 / 24 /\
  po (rk4 (fun x => St (th' x) (- th x) (po x) 0) 1 (St 1 0 1 0)) = 1 + 1 + 1 / 2 + 1 / 6 + 1 / 24.
Proof.
  set (f := fun x => St (th' x) (- th x) (po x) 0).
  assert (L : linear_map f) by (intros a x y; unfold f, axpy; cbn [th th' po po']; f_equal; ring).
  split; [exact L|]. rewrite (rk4_linear f 1 (St 1 0 1 0) L). unfold f, axpy. cbn [th th' po po']. split; field.
Qed.
(** Mirroring the state and the force mirrors the next state; the place of the track does not matter; without a force a pole at rest, upright or hanging,
    stays so. *)
Theorem C78_mirror : forall q c F x, step q c (- F) (mirror x) = mirror (step q c F x).
Proof. exact step_mirror. Qed.
Theorem C78_shift : forall q c F d x, step q c F (shift d x) = shift d (step q c F x).
Proof. exact step_shift. Qed.
Theorem C78_rest : forall q c x n, sin (th x) = 0 -> th' x = 0 -> po' x = 0 -> Nat.iter n (step q c 0) x = x.
Proof. intros q c x n A B C. induction n as [|n IH]; [reflexivity|]. cbn [Nat.iter nat_rect]. unfold Nat.iter in IH. rewrite IH. apply step_rest; assumption. Qed.
Example C78_rest_ex : step (4 / 3) pole1 0 (St PI 0 2 0) = St PI 0 2 0.
Proof. apply step_rest; cbn [th th' po']; auto using sin_PI. Qed.

(** ** the tasks with a single pole *)
(** The force is within 50 newton; a continuous action in [-1, 1] is scaled by 50, the discrete actions 0, 1, 2 are -50, 0, 50. *)
Theorem C78_force : forall k a,
  (forall F, force k a = Ok F -> -50 <= F <= 50) /\
  (length a <> 1%nat -> force k a = Err AssertionError) /\
  (forall x, a = [x] -> isDiscrete k = false -> -1 <= x <= 1 -> force k a = Ok (50 * x)) /\
  (forall x, a = [x] -> isDiscrete k = false -> 1 < x -> force k a = Ok 50) /\
  (isDiscrete k = true -> force k [0] = Ok (-50) /\ force k [1] = Ok 0 /\ force k [2] = Ok 50).
Proof.
  intros k a. split; [exact (force_range k a)|]. split; [exact (force_bad k a)|].
  split; [|split].
  - intros x -> D H. unfold force. rewrite D. cbn [denormalize]. f_equal. rewrite clip_id; lra.
  - intros x -> D H. unfold force. rewrite D. cbn [denormalize]. f_equal. unfold clip, Rmin, Rmax. repeat destruct (Rle_dec _ _); lra.
  - intro D. unfold force. rewrite D. cbn [map denormalize]. repeat split; f_equal; rewrite clip_id; lra.
Qed.
(** What the agent sees of a single pole. *)
Theorem C78_observation : forall k c x N,
  (forall o T, getObservation (newTask k (Single false c x) N) = Ok (o, T) -> T = newTask k (Single false c x) N) /\
  (k = Balance \/ k = JustBalance \/ k = EasyBalance ->
     exists T, getObservation (newTask k (Single false c x) N) = Ok ([th x / 3; th' x / PI; po x / PI; po' x / PI], T)) /\
  (k = Discrete \/ k = NoHelp -> exists T, getObservation (newTask k (Single false c x) N) = Ok ([th x; th' x; po x; po' x], T)) /\
  (k = Pomdp -> exists T, getObservation (newTask k (Single false c x) N) = Ok ([th x; po x], T)) /\
  (k = Balance \/ k = JustBalance \/ k = EasyBalance ->
     exists T, getObservation (newTask k (Single true c x) N) = Ok ([th x / 3; po x / PI], T)).
Proof.
  intros k c x N. pose proof PI_RGT_0 as Pi.
  assert (A : forall z, (z - -3) / (3 - -3) * 2 - 1 = z / 3) by (intro; field).
  assert (B : forall z, (z - - PI) / (PI - - PI) * 2 - 1 = z / PI) by (intro; field; lra).
  split; [|split; [|split; [|split]]].
  - intros o T. unfold getObservation. destruct k; cbn -[PI rbf]; intro H; try (inversion H; reflexivity).
  - intros [-> | [-> | ->]]; eexists; unfold getObservation; cbn -[PI]; rewrite A, !B; reflexivity.
  - intros [-> | ->]; eexists; reflexivity.
  - intros ->; eexists; reflexivity.
  - intros [-> | [-> | ->]]; eexists; unfold getObservation; cbn -[PI]; rewrite A, !B; reflexivity.
Qed.
(** With radial basis functions: 10 features (82 for two poles), a bias and values in (0, 1], 1 exactly at the centre. *)
Theorem C78_features : forall centers v o, rbf centers v = Ok o ->
  length o = S (length centers) /\ nth 0 o 0 = 1 /\ Forall (fun f => 0 < f <= 1) o.
Proof.
  intros centers v o. unfold rbf. destruct (_ =? _)%nat; [|discriminate]. intro H. inversion H; subst. split; [cbn; rewrite map_length; reflexivity|].
  split; [reflexivity|]. constructor; [lra|]. apply Forall_forall. intros f Hf. apply in_map_iff in Hf as (c & <- & _).
  split; [apply exp_pos|]. apply Rle_trans with (exp 0); [|rewrite exp_0; lra].
  assert (L : forall a b, a <= b -> exp a <= exp b) by (intros a b [Lt | ->]; [left; apply exp_increasing; exact Lt | lra]).
  apply L. set (n := norm _). nra.
Qed.
Example C78_features_ex : length centers1 = 9%nat /\ length centers2 = 81%nat /\ (exists o, rbf centers1 [1; 2; 3; 4] = Ok o /\ length o = 10%nat) /\
  (exists o, rbf centers2 [1; 2; 3; 4; 5; 6] = Ok o /\ length o = 82%nat) /\ nth 5 centers2 [] = [- PI / 4; 1; 0; -1].
Proof. split; [reflexivity|]. split; [reflexivity|]. split; [eexists; split; reflexivity|]. split; [eexists; split; reflexivity|]. reflexivity. Qed.
(** Reward and end of a single pole. *)
Theorem C78_reward : forall T c x, onePole (t_kind T) -> t_env T = Single false c x ->
  pays (t_kind T) (t_N T - t_t T) x (getReward T) /\
  (forall r, pays (t_kind T) (t_N T - t_t T) x r -> r = getReward T) /\
  (isFinished T = true <-> lost (t_kind T) x \/ (t_N T <= t_t T)%Z).
Proof.
  intros T c x K E. assert (P : pays (t_kind T) (t_N T - t_t T) x (getReward T)) by (unfold getReward; rewrite E; apply reward_pays, K).
  split; [exact P|]. split; [intros r Q; exact (pays_det _ _ _ _ _ Q P)|]. exact (finished_single T c x K E).
Qed.
Example C78_reward_ex : pays Balance 10 (St 1 0 0 0) (-2 * 10) /\ pays EasyBalance 10 (St 0 0 2 0) (- 2 / 2).
Proof.
  split; [apply pays_fallen; left; cbn [th]; rewrite Rabs_right; lra|].
  replace (- 2 / 2) with (- Rabs (po (St 0 0 2 0)) / 2) by (cbn [po]; rewrite (Rabs_right 2); lra). apply pays_easy_else.
  - intros (_ & H). cbn [po] in H. rewrite Rabs_right in H; lra.
  - intros [H | H]; cbn [th po] in H; [rewrite Rabs_R0 in H | rewrite Rabs_right in H]; lra.
Qed.
(** A whole episode: the task performs the module's actions, one step each, until the pole is lost or the steps are used up, and sums the rewards.
    It ends, after at most N steps, for every module with one output. *)
Theorem C78_episode : forall (W : Type) (module : W -> list R -> W * list R) k c x0 N d w, onePole k ->
  let T0 := newTask k (Single false c x0) N in
  (forall fuel w' T, episode module fuel d w T0 = Ok (w', T) ->
     exists y, t_env T = Single false c y /\ play k c N 0 (start true (fst (fst d)) (snd (fst d))) (t_t T) y (t_cum T) /\
       t_t T = Z.of_nat (t_samples T)) /\
  ((forall w o, length (snd (module w o)) = 1%nat) -> exists w' T, episode module (S (Z.to_nat N)) d w T0 = Ok (w', T)).
Proof.
  intros W module k c x0 N [[u1 u2] [u3 u4]] w K T0. split.
  - intros fuel w' T H. unfold episode in H.
    destruct (run_single module fuel w (t_reset (u1, u2, (u3, u4)) T0) c (start true u1 u2) w' T K eq_refl eq_refl H) as (y & r & E1 & E2 & E3 & E4 & E5 & E6).
    cbn [t_reset t_cum t_kind t_N t_t t_samples T0 newTask] in *. exists y. split; [exact E1|]. rewrite E2, Rplus_0_l. split; [exact E3|]. lia.
  - intro Mo. unfold episode. apply run_total with (c := c) (x := start true u1 u2); auto; cbn [t_reset t_N t_t newTask T0]; lia.
Qed.
(** The total of BalanceTask: losing after k of N steps is worth between -(k-1) - 2(N-k) and -2(N-k), holding out between -N and 0. *)
Theorem C78_total : forall (W : Type) (module : W -> list R -> W * list R) c x0 N d w fuel w' T,
  0 <= fst (fst d) <= 1 -> 0 <= snd (fst d) <= 1 -> (0 <= N)%Z ->
  episode module fuel d w (newTask Balance (Single false c x0) N) = Ok (w', T) ->
  exists y, t_env T = Single false c y /\ (t_t T <= N)%Z /\
    (fallen y -> (1 <= t_t T)%Z /\ - IZR (t_t T - 1) - 2 * IZR (N - t_t T) <= t_cum T <= -2 * IZR (N - t_t T)) /\
    (~ fallen y -> t_t T = N /\ - IZR N <= t_cum T <= 0).
Proof.
  intros W module c x0 N d w fuel w' T H1 H2 HN H.
  assert (K : onePole Balance) by discriminate.
  destruct (proj1 (C78_episode W module Balance c x0 N d w K) fuel w' T H) as (y & E & P & S).
  destruct (start_fine _ _ H1 H2) as (A & B). set (x := start true (fst (fst d)) (snd (fst d))) in *.
  assert (NF : ~ fallen x) by (intros [G | G]; lra).
  destruct (play_bounds _ _ _ _ _ _ _ P HN NF) as (P1 & P2). destruct (play_count _ _ _ _ _ _ _ _ P) as (C1 & C2).
  exists y. split; [exact E|]. split; [lia|]. rewrite Z.sub_0_r in *. split.
  - intro Fy. split; [|auto]. destruct (Z.eq_dec (t_t T) 0) as [Z0|]; [|lia]. exfalso. rewrite Z0 in P.
    inversion P; subst; [contradiction|]. match goal with Q : play _ _ _ _ _ 0%Z _ _ |- _ => apply play_count in Q end. lia.
  - exact P2.
Qed.
(** An agent and its mirror image collect the same, whatever the actions. *)
Theorem C78_mirrored_run : forall l k c x N U, performAll (newTask k (Single false c x) N) l = Ok U ->
  exists U', performAll (newTask k (Single false c (mirror x)) N) (map (mirrorAction k) l) = Ok U' /\ t_cum U' = t_cum U /\ isFinished U' = isFinished U.
Proof.
  intros l k c x N U H.
  destruct (performAll_mirror l (newTask k (Single false c x) N) (newTask k (Single false c (mirror x)) N) U) as (U' & P & M).
  - exists c, x. repeat (split; [reflexivity|]). reflexivity.
  - exact H.
  - exists U'. split; [exact P|]. split; [|exact (finished_mirror _ _ M)]. destruct M as (? & ? & _ & _ & _ & _ & _ & E). exact E.
Qed.

(** ** where the tasks do not do what they are for *)
(** Losing pays once the N steps are over: a continuing experiment is rewarded for it. *)
Theorem C78_late_refuted : forall c x n, fallen x -> reward Balance (- n) (Single false c x) = 2 * IZR n /\ reward NoHelp (- n) (Single false c x) = IZR n.
Proof.
  intros c x n Fx. split.
  - replace (2 * IZR n) with (-2 * IZR (- n)) by (rewrite opp_IZR; ring). symmetry. eapply pays_det; [apply pays_fallen, Fx | apply reward_pays; discriminate].
  - replace (IZR n) with (- IZR (- n)) by (rewrite opp_IZR; ring). symmetry. eapply pays_det; [apply pays_nohelp_fallen, Fx | apply reward_pays; discriminate].
Qed.
(** Driving off the track with an upright pole ends the episode and is not punished: 0 in JustBalanceTask and even 1 in the discrete tasks. *)
Theorem C78_offtrack_refuted : forall c x N n, upright x -> 24 / 10 < Rabs (po x) ->
  isFinished (newTask JustBalance (Single false c x) N) = true /\ isFinished (newTask Discrete (Single false c x) N) = true /\
  reward JustBalance n (Single false c x) = 0 /\ reward Discrete n (Single false c x) = 1 /\ reward Pomdp n (Single false c x) = 1.
Proof.
  intros c x N n U G.
  split; [apply (finished_single _ c x); [discriminate | reflexivity | left; right; exact G]|].
  split; [apply (finished_single _ c x); [discriminate | reflexivity | left; right; exact G]|].
  split; [|split]; symmetry; (eapply pays_det; [|apply reward_pays; discriminate]).
  - apply pays_just_upright, U.
  - apply pays_discrete_upright; auto.
  - apply pays_discrete_upright; auto.
Qed.
Lemma ltb_left a b s : ltb (Rmin a b) s = ltb a s || ltb b s.
Proof. unfold ltb, Rmin. destruct (Rle_dec a b), (Rlt_dec a s), (Rlt_dec b s); try reflexivity; exfalso; lra. Qed.
(** With two poles it is enough that one is upright: the fall of the other ends the episode and is not punished. *)
Theorem C78_two_poles_refuted : forall x1 x2 m a p N n, Rabs a < 5 / 100 -> 7 / 10 < Rabs m -> Rabs p < 5 / 100 ->
  let e := Double false x1 x2 [a; 0; m; 0; p; 0] in
  isFinished (newTask Balance e N) = true /\ reward Balance n e = 0 /\ reward JustBalance n e = 0 /\ reward Discrete n e = 1.
Proof.
  intros x1 x2 m a p N n Ha Hm Hp e.
  assert (A : ltb (Rmin (Rabs a) (Rabs m)) (5 / 100) = true) by (rewrite ltb_left; apply orb_true_iff; left; apply ltb_true, Ha).
  assert (P : ltb (Rabs p) (5 / 100) = true) by (apply ltb_true, Hp).
  unfold e, reward, isFinished, angles. cbn [newTask t_kind t_env getPoleAngles getCartPosition nth map maxl minl fold_left]. rewrite !Rabs_Rabsolu, A, P.
  split; [|repeat split; reflexivity]. apply orb_true_iff. left. apply orb_true_iff. left. apply gtb_true.
  unfold Rmax. destruct (Rle_dec (Rabs a) (Rabs m)); lra.
Qed.
(** DoublePoleEnvironment cannot be observed through BalanceTask and its continuous relatives (outdim is 0). *)
Theorem C78_double_unobservable_refuted : forall k x1 x2 s N, k = Balance \/ k = JustBalance \/ k = EasyBalance ->
  getObservation (newTask k (Double false x1 x2 s) N) = Err AssertionError.
Proof. intros k x1 x2 s N [-> | [-> | ->]]; reflexivity. Qed.
(** The reward of a step with two poles does not depend on the action: it is that of the last observation. *)
Theorem C78_double_stale_refuted : forall k m x1 x2 s N a a' T T',
  performAction (newTask k (Double m x1 x2 s) N) a = Ok T -> performAction (newTask k (Double m x1 x2 s) N) a' = Ok T' ->
  t_cum T = t_cum T' /\ isFinished T = isFinished T'.
Proof.
  intros k m x1 x2 s N a a' T T' H H'.
  destruct (perform_ok _ _ _ H) as (F & _ & E1 & E2 & E3 & E4 & _ & _ & E5). destruct (perform_ok _ _ _ H') as (F' & _ & E1' & E2' & E3' & E4' & _ & _ & E5').
  cbn [newTask t_kind t_N t_t t_env t_cum] in *.
  assert (A : forall G, getPoleAngles (e_perform G (Double m x1 x2 s)) = getPoleAngles (Double m x1 x2 s)) by (intro; destruct m; reflexivity).
  assert (B : forall G, getCartPosition (e_perform G (Double m x1 x2 s)) = getCartPosition (Double m x1 x2 s)) by (intro; destruct m; reflexivity).
  split.
  - rewrite E5, E5'. unfold reward, angles. rewrite !A, !B. reflexivity.
  - unfold isFinished, angles. rewrite E1, E1', E2, E2', E3, E3', E4, E4', !A, !B. reflexivity.
Qed.
Example C78_double_stale_ex : exists T, performAction (newTask Discrete (Double false zero_state zero_state [1; 0; 0; 0; 0; 0]) 7) [2] = Ok T.
Proof. eexists. reflexivity. Qed.
(** The observation brings them up to date; after a reset the two carts agree, *)
Theorem C78_double_observed : forall x1 x2 s u1 u2 u3 u4 e,
  let e' := snd (getSensors (Double false x1 x2 s)) in
  getPoleAngles e' = [th x1; th x2] /\ getCartPosition e' = po x2 /\
  (e = Double false x1 x2 s -> exists y1 y2, e_reset (u1, u2, (u3, u4)) e = Double false y1 y2 (seen y1 y2) /\ po y1 = po y2 /\ po' y1 = po' y2 /\
     th y2 = uniform (-2 / 10) (2 / 10) u3).
Proof.
  intros x1 x2 s u1 u2 u3 u4 e e'. split; [reflexivity|]. split; [reflexivity|]. intros ->. eexists. eexists. split; [reflexivity|]. repeat split; reflexivity.
Qed.
(** but the two poles do not stand on the same cart: the same force accelerates the two carts differently. *)
Theorem C78_two_carts_refuted : forall F, F <> 0 -> po' (derivs (4 / 3) pole1 F zero_state) <> po' (derivs (4 / 3) pole2 F zero_state).
Proof. exact carts_differ. Qed.
(** NonMarkovPoleEnvironment hands over the angular velocity as the position of the cart. *)
Theorem C78_nonmarkov_refuted : forall c x N,
  getCartPosition (Single true c x) = th' x /\
  (isFinished (newTask Balance (Single true c x) N) = true <-> 7 / 10 < Rabs (th x) \/ 24 / 10 < Rabs (th' x) \/ (N <= 0)%Z).
Proof.
  intros c x N. split; [reflexivity|]. unfold isFinished, angles. cbn [newTask t_kind t_env t_N t_t getPoleAngles getCartPosition sensorsOf nth map maxl fold_left].
  rewrite !orb_true_iff, !gtb_true, Z.leb_le. tauto.
Qed.
Example C78_nonmarkov_ex : isFinished (newTask Balance (Single true pole1 (St 0 0 100 0)) 9) = false.
Proof.
  destruct (isFinished _) eqn:E; [|reflexivity]. apply C78_nonmarkov_refuted in E. cbn [th th'] in E. rewrite Rabs_R0 in E. destruct E as [E | [E | E]]; lra || lia.
Qed.
(** NonMarkovDoublePoleEnvironment hands over the velocity of the first pole as the second angle, and the second angle as the position. *)
Theorem C78_nonmarkov_double_refuted : forall x1 x2 s N,
  let T := newTask Balance (snd (getSensors (Double true x1 x2 s))) N in
  getPoleAngles (t_env T) = [th x1; th' x1] /\ getCartPosition (t_env T) = th x2 /\
  (isFinished T = true <-> 7 / 10 < Rabs (th x1) \/ 7 / 10 < Rabs (th' x1) \/ 24 / 10 < Rabs (th x2) \/ (N <= 0)%Z).
Proof.
  intros x1 x2 s N T. split; [reflexivity|]. split; [reflexivity|].
  unfold isFinished, angles. cbn [T newTask t_kind t_env t_N t_t getSensors snd seen getPoleAngles getCartPosition nth map maxl fold_left].
  rewrite !orb_true_iff, !gtb_true, Z.leb_le. unfold Rmax. destruct (Rle_dec _ _); split; intros H; intuition lra.
Qed.

(** ** the linearised variant *)
(** The mean of the next state is the transposed system: the cart does not move, whatever its velocity. *)
Theorem C78_linear_refuted : forall nu tau a t t' s s',
  linmean nu tau a [t; t'; s; s'] = [t + nu * tau * t'; t' + tau * t + a * (nu * tau / (980665 / 100000)); s; s' + tau * s + a * tau].
Proof.
  intros. unfold linmean, rowmul, linA, linb, rdot, rsum. cbn [hd length seq map nth rzip fold_right].
  f_equal; [field|]. f_equal; [field|]. f_equal; [ring|]. f_equal. ring.
Qed.
(** Its reward is a cost: never negative, 0 exactly at rest in the middle. *)
Theorem C78_linear_reward_refuted : forall t t' s s' a,
  0 <= linReward [t; t'; s; s'] a /\ (linReward [t; t'; s; s'] a = 0 <-> t = 0 /\ t' = 0 /\ s = 0 /\ s' = 0 /\ a = 0).
Proof.
  intros. unfold linReward, rdot, rsum. cbn [map rzip fold_right].
  pose proof (pow2_ge_0 t). pose proof (pow2_ge_0 t'). pose proof (pow2_ge_0 s). pose proof (pow2_ge_0 s'). pose proof (pow2_ge_0 a).
  split; [lra|]. split.
  - intro E. assert (t ^ 2 = 0 /\ t' ^ 2 = 0 /\ s ^ 2 = 0 /\ s' ^ 2 = 0 /\ a ^ 2 = 0) as (A & B & C & D & G) by lra.
    assert (Z : forall z, z ^ 2 = 0 -> z = 0) by (intros z Hz; simpl in Hz; nra). repeat split; apply Z; assumption.
  - intros (-> & -> & -> & -> & ->). lra.
Qed.

Print Assumptions C78_motion.
Print Assumptions C78_integer_division_refuted.
Print Assumptions C78_energy.
Print Assumptions C78_rk4.
Print Assumptions C78_mirror.
Print Assumptions C78_shift.
Print Assumptions C78_rest.
Print Assumptions C78_force.
Print Assumptions C78_observation.
Print Assumptions C78_features.
Print Assumptions C78_reward.
Print Assumptions C78_episode.
Print Assumptions C78_total.
Print Assumptions C78_mirrored_run.
Print Assumptions C78_late_refuted.
Print Assumptions C78_offtrack_refuted.
Print Assumptions C78_two_poles_refuted.
Print Assumptions C78_double_unobservable_refuted.
Print Assumptions C78_double_stale_refuted.
Print Assumptions C78_double_observed.
Print Assumptions C78_two_carts_refuted.
Print Assumptions C78_nonmarkov_refuted.
Print Assumptions C78_nonmarkov_double_refuted.
Print Assumptions C78_linear_refuted.
Print Assumptions C78_linear_reward_refuted.
