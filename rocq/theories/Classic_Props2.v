(** C79, continued: the arms' episodes, the ship's controls, a whole minimisation. *)
From Coq Require Import Reals Lra Psatz.
From Verif Require Import Base Functions_Model Functions_Proofs Classic_Model Classic_Spec Classic_Proofs Classic_Proofs2 Classic_Props.
Local Open Scope R_scope.

Lemma gain {S} (k : cfg S) (R0 : forall s r, k_reward k s = (r, false) -> r = 0) l : forall t t', t_done t = 0%nat -> acts k t l = Ok t' ->
  t_cum t' = t_cum t + (if (t_done t' =? 0)%nat then 0 else fst (k_reward k (t_state t'))).
Proof.
  induction l as [|a l IH]; intros t t' D H; cbn [acts] in H.
  - inversion H; subst. rewrite D. cbn. ring.
  - destruct (performAction k t a) as [t1|] eqn:E; [|discriminate]. cbn [rbind] in H.
    unfold performAction in E. rewrite D in E. change (0 <? 0)%nat with false in E. cbv iota in E.
    unfold judge in E. set (late := (k_max k <=? t_steps t + 1)%nat) in E. clearbody late.
    destruct (k_do k a (t_state t)) as [s|]; [|discriminate]. cbn [rbind] in E. destruct (k_reward k s) as [r gl] eqn:Rw.
    inversion E; subst t1. clear E.
    destruct ((if late then 5 else if gl then 1 else 0) =? 0)%nat eqn:Q.
    + apply Nat.eqb_eq in Q. pose proof (fun q => IH _ t' q H) as J. rewrite (J Q). cbn [t_cum]. destruct late; [discriminate|].
      destruct gl; [discriminate|]. rewrite (R0 _ _ Rw). ring.
    + apply Nat.eqb_neq in Q.
      assert (Fz : forall l t2 t3, t_done t2 <> 0%nat -> acts k t2 l = Ok t3 -> t_cum t3 = t_cum t2 /\ t_state t3 = t_state t2 /\ t_done t3 <> 0%nat).
      { clear. induction l as [|a l IH]; intros t2 t3 Hd H; cbn [acts] in H; [inversion H; subst; auto|].
        destruct (perform_frozen k t2 a) as (t4 & E & E1 & E2 & E3 & E4); [lia|]. rewrite E in H. cbn [rbind] in H.
        destruct (IH t4 t3) as (A & B & C); [lia | exact H|]. rewrite A, B, E1, E2. auto. }
      pose proof (fun q => Fz l _ t' q H) as J. destruct (J Q) as (A & B & C). apply Nat.eqb_neq in C. rewrite A, B, C. cbn [t_cum t_state]. rewrite Rw. reflexivity.
Qed.

(** An evaluation of the arms with actions from -3 to 2 takes at most 999 steps of the simulation. *)
Theorem C79_arms_ends : forall (W : Type) easy tg (module : W -> arms -> W * Z) w t, (forall w s, -3 <= snd (module w s) <= 2)%Z ->
  exists w' t', runLoop (acrobot easy tg false) module 1002 w (reset (acrobot easy tg false) t) = Ok (w', t') /\ fst (isFinished (acrobot easy tg false) t') = true /\
    (t_steps t' <= 999)%nat.
Proof.
  intros W easy tg module w t Ha. set (k := acrobot easy tg false).
  destruct (run_ends k module 1002 eq_refl) with (n := 0%nat) (w := w) (t := reset k t) as (w' & t' & m & E & P & _ & D).
  - intros w1 s. specialize (Ha w1 s). destruct (snd (module w1 s)) as [|p|p]; [eexists; reflexivity | |].
    + assert (p = 1 \/ p = 2)%positive as [-> | ->] by lia; eexists; reflexivity.
    + assert (p = 1 \/ p = 2 \/ p = 3)%positive as [-> | [-> | ->]] by lia; eexists; reflexivity.
  - apply phase_reset. cbn. lia.
  - change (k_max k) with 999%nat. lia.
  - lia.
  - exists w', t'. split; [exact E|]. split; [unfold isFinished; change (k_resetOnSuccess k) with false; rewrite andb_false_r; cbn [fst]; apply Nat.leb_le; exact D|].
    assert (M : k_max k = 999%nat) by reflexivity. destruct P as [P1 P2 P3 P4 | P1 P2 P3 P4 P5 | P1 P2 P3 P4]; lia.
Qed.
(** Without easy rewards an episode of the arms is worth 1 if its last state is a goal, else 0. *)
Theorem C79_arms_worth : forall tg b t l t', tg > 0 -> acts (acrobot false tg b) (reset (acrobot false tg b) t) l = Ok t' ->
  (tg <= - cos (th1 (t_state t')) - cos (th2 (t_state t')) -> t_cum t' = t_cum t + 1) /\
  (- cos (th1 (t_state t')) - cos (th2 (t_state t')) < tg -> t_cum t' = t_cum t).
Proof.
  intros tg b t l t' Ht H.
  assert (R0 : forall s r, k_reward (acrobot false tg b) s = (r, false) -> r = 0).
  { intros s r E. cbn [acrobot k_reward] in E. unfold armsReward in E. destruct (leb _ _) in E; inversion E; reflexivity. }
  pose proof (gain (acrobot false tg b) R0 l (reset (acrobot false tg b) t) t' eq_refl H) as C. cbn [reset t_cum] in C. rewrite C. cbn [acrobot k_reward].
  assert (G : t_done t' = 0%nat -> - cos (th1 (t_state t')) - cos (th2 (t_state t')) < tg).
  { assert (M0 : (0 < k_max (acrobot false tg b))%nat) by (cbn; lia).
    intro D. destruct (phase_acts (acrobot false tg b) l 0 _ t' (phase_reset _ t M0) H) as [P1 P2 P3 P4 | P1 P2 P3 P4 P5 | P1 P2 P3 P4]; try lia.
    destruct l as [|a l].
    - inversion H; subst. cbn [reset t_state acrobot k_init th1 th2]. rewrite cos_0. lra.
    - cbn [acrobot k_reward] in P4. unfold armsReward in P4. destruct (leb _ _) eqn:Q in P4; [cbn [length Nat.add snd] in P4; discriminate P4; discriminate | apply leb_false in Q; lra]. }
  destruct (t_done t' =? 0)%nat eqn:D.
  - apply Nat.eqb_eq in D. specialize (G D). split; intro; [lra | ring].
  - unfold armsReward. destruct (leb _ _) eqn:Q; cbn [fst]; [apply leb_true in Q | apply leb_false in Q]; split; intro; lra.
Qed.
(** Hanging and standing straight arms without torque stay where they are. *)
Theorem C79_arms_rest : armsDo 1 (Arms 0 0 0 0) = Ok (Arms 0 0 0 0) /\ armsDo 1 (Arms PI 0 0 0) = Ok (Arms PI 0 0 0).
Proof.
  pose proof PI_RGT_0 as Pi.
  assert (B0 : forall m, 0 <= m -> bound 0 m = 0).
  { intros m Hm. unfold bound. destruct (ltb 0 (- m)) eqn:E; [apply ltb_true in E; lra|]. destruct (ltb m 0) eqn:F; [apply ltb_true in F; lra | reflexivity]. }
  assert (St : forall th, sin th = 0 -> substep 0 (Arms th 0 0 0) = Arms th 0 0 0).
  { intros th Hs. set (x := Arms th 0 0 0). assert (P2 : phi2 x = 0) by (unfold phi2, x; cbn [th1 th2]; rewrite Rplus_0_r, cos_shift, Hs; ring).
    assert (P1 : phi1 x = 0) by (unfold phi1; rewrite P2; unfold x; cbn [th1 th2 th1' th2']; rewrite cos_shift, Hs, sin_0; ring).
    assert (A2 : accel2 0 x = 0) by (unfold accel2; rewrite P1, P2; unfold x; cbn [th1']; unfold Rdiv; rewrite sin_0 || idtac; ring).
    assert (A1 : accel1 0 x = 0) by (unfold accel1; rewrite A2, P1; unfold Rdiv; ring).
    unfold substep. rewrite A1, A2. unfold x. cbn [th1 th2 th1' th2']. rewrite !Rmult_0_l, !Rplus_0_r, !B0 by lra. rewrite !Rmult_0_l, !Rplus_0_r. reflexivity. }
  assert (W : forall v, - PI <= v <= PI -> wrap v = v).
  { intros v Hv. unfold wrap. destruct (ltb v (- PI)) eqn:E; [apply ltb_true in E; lra|]. destruct (ltb PI v) eqn:F; [apply ltb_true in F; lra | reflexivity]. }
  assert (It : forall n th, sin th = 0 -> Nat.iter n (substep 0) (Arms th 0 0 0) = Arms th 0 0 0).
  { induction n as [|n IH]; intros th Hs; [reflexivity|]. change (substep 0 (Nat.iter n (substep 0) (Arms th 0 0 0)) = Arms th 0 0 0). rewrite IH by exact Hs. apply St, Hs. }
  unfold armsDo. change (lookup 1) with (Ok 0 : result R). cbn [rbind]. split; rewrite It by (apply sin_0 || apply sin_PI); cbn [th1 th2 th1' th2']; rewrite !W by lra; reflexivity.
Qed.
(** What the car shows: its position, a hundred times its speed and 1. *)
Theorem C79_car_seen : forall b t l t', acts (car b) (reset (car b) t) l = Ok t' ->
  exists p w, carObservation (t_state t') = [p; w; 1] /\ - (14 / 10) <= p <= 52 / 100 /\ -7 <= w <= 7 /\ t_state t' = (p, w / 100).
Proof.
  intros b t l t' H. destruct (C79_car b t l t' H) as ((O1 & O2) & _). destruct (t_state t') as [p v]. cbn [fst snd] in *. exists p, (v * 100). split; [reflexivity|].
  unfold Rabs in O2. destruct (Rcase_abs v); (split; [exact O1|]; split; [lra|]; f_equal; field).
Qed.

(** ** a whole minimisation *)
(** reset, then observe and act in turn *)
Fixpoint m_run (t : mtask) (l : list (list R)) : mtask := match l with [] => t | a :: l => m_run (m_perform a (snd (m_observe [] t))) l end.
(** the sum of the actions in a coordinate *)
Definition pushed (i : nat) (l : list (list R)) : R := rsum (map (fun a => nth i a 0) l).
Lemma nth_step : forall s a i, length a = length s -> nth i (rzip (fun s a => s + 1 / 10 * a) s a) 0 = nth i s 0 + 1 / 10 * nth i a 0.
Proof. induction s as [|x s IH]; intros [|y a] i L; try discriminate; destruct i; cbn [rzip nth]; try ring. apply IH. cbn in L. lia. Qed.
(** Observed once before every action, the state is 2 plus a tenth of the actions, and the task has been paid for one action less. *)
Theorem C79_minimize_run : forall t l i, s_noise (m_env t) = false -> Forall (fun a => length a = s_dim (m_env t)) l -> (i < s_dim (m_env t))%nat ->
  let t' := m_run (m_reset t) l in
  length (fst (m_observe [] t')) = s_dim (m_env t) /\ nth i (fst (m_observe [] t')) 0 = 2 + 1 / 10 * pushed i l.
Proof.
  intros t l i N F Hi. set (d := s_dim (m_env t)) in *.
  assert (G : forall l u, s_noise (m_env u) = false -> length (fst (m_observe [] u)) = d -> Forall (fun a => length a = d) l ->
    length (fst (m_observe [] (m_run u l))) = d /\ nth i (fst (m_observe [] (m_run u l))) 0 = nth i (fst (m_observe [] u)) 0 + 1 / 10 * pushed i l).
  { clear - Hi. induction l as [|a l IH]; intros u Nu Lu Fl; cbn [m_run].
    - split; [exact Lu|]. unfold pushed. cbn [map rsum fold_right]. ring.
    - inversion Fl as [|? ? La Fl']; subst. set (v := fst (m_observe [] u)) in *.
      assert (E : fst (m_observe [] (m_perform a (snd (m_observe [] u)))) = rzip (fun s a => s + 1 / 10 * a) v a).
      { unfold v, m_observe, m_perform, s_getSensors, s_perform, s_update. cbn [m_env s_updated s_noise s_state s_action fst snd].
        destruct (s_updated (m_env u)); cbn [s_noise s_state s_action s_updated fst snd m_env]; rewrite ?Nu; cbn [s_noise s_state s_action s_updated fst snd m_env]; rewrite ?Nu; reflexivity. }
      destruct (IH (m_perform a (snd (m_observe [] u)))) as (A & B).
      + unfold m_observe, m_perform, s_getSensors, s_perform, s_update. cbn [m_env snd]. destruct (s_updated (m_env u)); cbn [s_noise snd m_env]; exact Nu.
      + rewrite E, rzip_length. lia.
      + exact Fl'.
      + split; [exact A|]. rewrite B, E, nth_step by lia. unfold pushed. cbn [map]. rewrite rsum_cons. ring. }
  assert (S : fst (m_observe [] (m_reset t)) = repeat 2 d) by reflexivity.
  destruct (G l (m_reset t)) as (A & B); [exact N | rewrite S; apply repeat_length | exact F|]. cbv zeta. split; [exact A|]. rewrite B, S.
  rewrite (nth_indep _ 0 2) by (rewrite repeat_length; exact Hi). rewrite nth_repeat. reflexivity.
Qed.
Example C79_minimize_ex : fst (m_observe [] (m_run (m_reset (m_new 2 false)) [[-10; 0]; [-10; 10]])) = [2 + 1 / 10 * -10 + 1 / 10 * -10; 2 + 1 / 10 * 0 + 1 / 10 * 10].
Proof. reflexivity. Qed.
(** A new evaluation starts with no reward; at the optimum nothing is lost. *)
Theorem C79_minimize_paid : forall t a, m_cum (m_reset t) = 0 /\ m_t (m_reset t) = 0%nat /\ m_cum (m_perform a t) <= m_cum t /\
  (Forall (fun v => v = 0) (rzip (fun s a => s + 1 / 10 * a) (m_state t) (m_action t)) -> m_cum (m_perform a t) = m_cum t).
Proof.
  intros t a. split; [reflexivity|]. split; [reflexivity|]. unfold m_perform, m_reward. cbn [m_cum m_state m_action].
  set (l := rzip _ _ _). clearbody l. split.
  - enough (0 <= rsum (map (fun v => v ^ 2) l)) by lra. induction l as [|x l IH]; [cbn; lra|]. cbn [map]. rewrite rsum_cons. pose proof (pow2_ge_0 x). lra.
  - intro F. replace (rsum _) with 0; [ring|]. induction F as [|x l -> F IH]; [reflexivity|]. cbn [map]. rewrite rsum_cons, <- IH. ring.
Qed.

(** ** the ship's controls *)
Lemma clip_mono x y lo hi : x <= y -> clip x lo hi <= clip y lo hi.
Proof. intro H. unfold clip. apply Rle_min_compat_r, Rle_max_compat_r, H. Qed.
(** Actions within [-1, 1] are thrusts within [-1, 2] and rudders within [-90, 90]; beyond they count as the nearest. *)
Theorem C79_ship_action : forall a1 a2 r0 r1 r2 x, shipAct a1 a2 r0 r1 r2 x = shipStep ((3 * clip a1 (-1) 1 + 1) / 2) (90 * clip a2 (-1) 1) r0 r1 r2 x.
Proof.
  intros. unfold shipAct. f_equal; unfold clip, Rmin, Rmax; repeat destruct (Rle_dec _ _); lra.
Qed.
(** More thrust never makes it slower; straight ahead without thrust it loses 8 per mille of its speed and keeps its heading;
    the rudder turns it: to the other side than its angle, while it runs ahead. *)
Theorem C79_ship_steering :
  (forall f f' u r0 r1 r2 x, f <= f' -> sp (shipStep f u r0 r1 r2 x) <= sp (shipStep f' u r0 r1 r2 x)) /\
  (forall v, -10 <= v <= 40 -> shipStep 0 0 0 0 0 (Ship 0 0 v) = Ship 0 0 (992 / 1000 * v)) /\
  (forall f u r0 r1 r2 x, 0 <= u <= 90 -> sp (shipStep f u r0 r1 r2 x) = sp (shipStep f (- u) r0 r1 r2 x) /\ (0 <= sp (shipStep f u r0 r1 r2 x) -> hd' (shipStep f u r0 r1 r2 x) <= hd' (shipStep f (- u) r0 r1 r2 x))) /\
  (forall v, 0 < v <= 40 -> hd' (shipStep 0 1 0 0 0 (Ship 0 0 v)) < 0).
Proof.
  split; [|split; [|split]].
  - intros. unfold shipStep. cbn [sp]. apply clip_mono. pose proof (clip_mono f f' (-1) 2 H). unfold Rdiv. lra.
  - intros v Hv. unfold shipStep. cbn [hd hd' sp]. rewrite !(clip_id 0) by lra.
    replace (30 * 0 - 2 * v - 2 / 100 * v * (5 * 0 + (0 ^ 2 + 0)) + 0 * 3) with (- 2 * v) by ring. replace (v + 4 * (-2 * v) / 1000) with (992 / 1000 * v) by field.
    rewrite (clip_id (992 / 1000 * v)) by lra. replace (0 + - (992 / 1000 * v) * (0 + 0 + 1 * 0 + 0 * 10) / 1000) with 0 by field. rewrite (clip_id 0) by lra.
    replace (0 + (0 + 0) / 2) with 0 by field. destruct (ltb 180 0) eqn:E; [apply ltb_true in E; lra|]. destruct (ltb 0 (-180)) eqn:E'; [apply ltb_true in E'; lra|]. reflexivity.
  - intros f u r0 r1 r2 x Hu. unfold shipStep. cbn [hd hd' sp]. rewrite (clip_id u), (clip_id (- u)) by lra. replace ((- u) ^ 2) with (u ^ 2) by ring. split; [reflexivity|].
    set (v := clip _ (-10) 40). clearbody v. intro Hv. apply clip_mono. unfold Rdiv. nra.
  - intros v Hv. unfold shipStep. cbn [hd hd' sp]. rewrite (clip_id 0 (-1)), (clip_id 1) by lra.
    set (w := clip _ (-10) 40). assert (W : w = (992 - 8 / 100) / 1000 * v) by (unfold w; rewrite clip_id by lra; field). clearbody w. subst w.
    rewrite clip_id; lra.
Qed.
(** The heading changes by the mean of the old and the new rate of turn, up to a full turn. *)
Theorem C79_ship_heading : forall f u r0 r1 r2 x, let y := shipStep f u r0 r1 r2 x in
  exists z, (-1 <= z <= 1)%Z /\ hd y = hd x + (hd' x + hd' y) / 2 + 360 * IZR z.
Proof.
  intros f u r0 r1 r2 x y. unfold y, shipStep. cbn [hd hd'].
  set (w := clip (hd' x + _) (-180) 180). clearbody w.
  destruct (ltb 180 _); [exists (-1)%Z; split; [lia | lra]|]. destruct (ltb _ (-180)); [exists 1%Z; split; [lia | lra] | exists 0%Z; split; [lia | lra]].
Qed.
(** Only heading north within 5 degrees pays, and only the full speed pays most. *)
Theorem C79_ship_pays : forall maxsteps x, (0 < maxsteps)%Z -> ship_ok x ->
  (0 < shipReward maxsteps x <-> -5 < hd x < 5 /\ 0 < sp x) /\ (shipReward maxsteps x = 100 / IZR maxsteps <-> -5 < hd x < 5 /\ sp x = 40).
Proof.
  intros maxsteps x Hm (_ & _ & O). apply IZR_lt in Hm. assert (P : 0 < / IZR maxsteps) by now apply Rinv_0_lt_compat. unfold shipReward, rewardscale, Rdiv.
  destruct (ltb (Rabs (hd x)) 5) eqn:E; [apply ltb_true in E; apply Rabs_def2 in E | apply ltb_false in E; unfold Rabs in E; destruct (Rcase_abs (hd x))]; split; split; intro H; try split; try nra; try lra.
Qed.
(** The return of an episode is the sum over its N states after the start. *)
Fixpoint voyage (pol : Z -> ship -> (R * R) * (R * R * R)) (n : nat) (t : Z) (x : ship) : list ship :=
  match n with
  | O => []
  | S n => let '((a1, a2), (r0, r1, r2)) := pol t x in let y := shipAct a1 a2 r0 r1 r2 x in y :: voyage pol n (t + 1) y
  end.
Theorem C79_ship_sum : forall maxsteps pol n t x cum,
  shipRun maxsteps (t + Z.of_nat n) t pol (S n) x cum =
  Ok (last (voyage pol n t x) x, (t + Z.of_nat n)%Z, cum + rsum (map (shipReward maxsteps) (voyage pol n t x))).
Proof.
  intros maxsteps pol n. induction n as [|n IH]; intros t x cum.
  - cbn [shipRun voyage map rsum fold_right last]. rewrite Z.add_0_r, Z.leb_refl, Rplus_0_r. reflexivity.
  - change (shipRun maxsteps (t + Z.of_nat (S n)) t pol (S (S n)) x cum) with
      (if (t + Z.of_nat (S n) <=? t)%Z then Ok (x, t, cum)
       else let '((a1, a2), (r0, r1, r2)) := pol t x in let x := shipAct a1 a2 r0 r1 r2 x in shipRun maxsteps (t + Z.of_nat (S n)) (t + 1) pol (S n) x (cum + shipReward maxsteps x)).
    destruct (_ <=? _)%Z eqn:E; [apply Z.leb_le in E; lia|]. cbn [voyage]. destruct (pol t x) as [[a1 a2] [[r0 r1] r2]]. cbv zeta.
    replace (t + Z.of_nat (S n))%Z with ((t + 1) + Z.of_nat n)%Z by lia. rewrite IH. set (y := shipAct a1 a2 r0 r1 r2 x).
    assert (L : forall (l : list ship) a d, last (a :: l) d = last l a) by (clear; induction l as [|b l IH]; intros a d; [reflexivity|]; change (last (b :: l) d = last (b :: l) a); rewrite !IH; reflexivity).
    rewrite L. cbn [map]. rewrite rsum_cons, Rplus_assoc. reflexivity.
Qed.

Print Assumptions C79_arms_ends.
Print Assumptions C79_arms_worth.
Print Assumptions C79_arms_rest.
Print Assumptions C79_car_seen.
Print Assumptions C79_minimize_run.
Print Assumptions C79_minimize_paid.
Print Assumptions C79_ship_action.
Print Assumptions C79_ship_steering.
Print Assumptions C79_ship_heading.
Print Assumptions C79_ship_pays.
Print Assumptions C79_ship_sum.
