(** C78: steps, starts, sensors and repeated episodes. *)
From Coq Require Import Reals Lra Psatz.
From Verif Require Import Base Functions_Model Poles_Model Poles_Spec Poles_Proofs Poles_Proofs2.
Local Open Scope R_scope.

(** A step is dt long: a cart that nothing pushes, with its pole at rest upright or hanging, moves on by dt times its velocity. *)
Theorem C78_glide : forall q c x n, sin (th x) = 0 -> th' x = 0 ->
  Nat.iter n (step q c 0) x = St (th x) 0 (po x + INR n * (c_dt c * po' x)) (po' x).
Proof.
  intros q c x n S0 V0. assert (D : forall p, derivs q c 0 (St (th x) 0 p (po' x)) = St 0 0 (po' x) 0).
  { intro p. unfold derivs. cbn [th th' po po']. rewrite S0.
    match goal with |- context [?a / denom q c (th x)] => assert (N : a = 0) by ring; rewrite N end. unfold Rdiv. f_equal; ring. }
  induction n as [|n IH].
  - cbn [Nat.iter nat_rect INR]. destruct x as [a b p v]. cbn [th th' po po'] in *. subst b. f_equal. ring.
  - cbn [Nat.iter nat_rect]. change (nat_rect (fun _ => state) x (fun _ => step q c 0) n) with (Nat.iter n (step q c 0) x). rewrite IH. unfold step, rk4. set (h := c_dt c). assert (A : forall a s, derivs q c 0 (axpy a (St 0 0 (po' x) 0) (St (th x) 0 s (po' x))) = St 0 0 (po' x) 0).
    { intros a s. unfold axpy. cbn [th th' po po']. replace (a * 0 + th x) with (th x) by ring. replace (a * 0 + 0) with 0 by ring. replace (a * 0 + po' x) with (po' x) by ring. apply D. }
    cbn zeta. rewrite D. rewrite !A. unfold axpy. cbn [th th' po po']. rewrite S_INR. f_equal; field.
Qed.
Print Assumptions C78_glide.
Example C78_glide_ex : Nat.iter 50 (step (4 / 3) pole1 0) (St 0 0 0 2) = St 0 0 2 2.
Proof. rewrite C78_glide; [|apply sin_0|reflexivity]. cbn [th po po' pole1 pole c_dt]. f_equal. rewrite INR_IZR_INZ. cbn [Z.of_nat Pos.of_succ_nat Pos.succ]. field. Qed.

(** Every start within the bounds occurs, and no other; without randomness there is one start. *)
Theorem C78_start : start false 0 0 = St (- (1 / 5)) 0 (1 / 5) 0 /\ (forall u v, start false u v = start false 0 0) /\
  forall a p, (exists u v, 0 <= u <= 1 /\ 0 <= v <= 1 /\ start true u v = St a 0 p 0) <-> Rabs a <= 1 / 5 /\ Rabs p <= 1 / 2.
Proof.
  split; [unfold start; f_equal; lra|]. split; [reflexivity|]. intros a p. unfold start, uniform. split.
  - intros (u & v & Hu & Hv & E). injection E as E1 E2. split; apply Rabs_le; lra.
  - intros (Ha & Hp). pose proof (Rle_abs a). pose proof (Rle_abs (- a)). pose proof (Rle_abs p). pose proof (Rle_abs (- p)). rewrite Rabs_Ropp in *. exists ((a + 1 / 5) / (4 / 10)), (p + 1 / 2). repeat split; try lra. f_equal; field.
Qed.
Print Assumptions C78_start.

(** What the four environments show. *)
Theorem C78_sensors : forall c x x1 x2 s,
  fst (getSensors (Single false c x)) = [th x; th' x; po x; po' x] /\ fst (getSensors (Single true c x)) = [th x; po x] /\
  fst (getSensors (Double false x1 x2 s)) = [th x1; th' x1; th x2; th' x2; po x2; po' x2] /\ fst (getSensors (Double true x1 x2 s)) = [th x1; th x2; po x2] /\
  (forall e, fst (getSensors (snd (getSensors e))) = fst (getSensors e)).
Proof. intros. repeat split. intros [[] c0 x0 | [] y1 y2 s0]; reflexivity. Qed.
Print Assumptions C78_sensors.

(** After a reset the two poles of DoublePoleEnvironment stand on the same cart, at rest, and the stored sensors are up to date. *)
Theorem C78_reset : forall u1 u2 u3 u4 m c x x1 x2 s, e_reset (u1, u2, (u3, u4)) (Single m c x) = Single m c (start true u1 u2) /\
  exists y1 y2 s', e_reset (u1, u2, (u3, u4)) (Double m x1 x2 s) = Double m y1 y2 s' /\ y1 = start true u1 u2 /\ th y2 = th (start true u3 u4) /\ th' y2 = 0 /\
    po y2 = po y1 /\ po' y2 = po' y1 /\ po' y1 = 0 /\ s' = [th y1; th' y1; th y2; th' y2; po y2; po' y2].
Proof. intros. split; [reflexivity|]. destruct m; eexists _, _, _; (split; [reflexivity|]); repeat split. Qed.
Print Assumptions C78_reset.

(** LinearizedBalanceTask ends when the angle exceeds pi/6 (rounded), the position 1.5, or after N steps. *)
Theorem C78_linear_finished : forall N t a v p w, linFinished N t [a; v; p; w] = true <-> 5235988 / 10000000 < Rabs a \/ 3 / 2 < Rabs p \/ (N <= t)%Z.
Proof.
  intros. unfold linFinished. cbn [nth]. rewrite !orb_true_iff, !gtb_true, Z.leb_le. replace (15 / 10) with (3 / 2) by lra. tauto.
Qed.
Print Assumptions C78_linear_finished.

(** Episodes do not depend on earlier ones: a task that has been used gives the same episodes as a new one. *)
Definition alike (T U : task) : Prop := t_kind T = t_kind U /\ t_N T = t_N U /\ t_limits T = t_limits U /\
  match t_env T, t_env U with Single m c _, Single m' c' _ => m = m' /\ c = c' | Double m _ _ _, Double m' _ _ _ => m = m' | _, _ => False end.
Lemma alike_refl T : alike T T.
Proof. unfold alike. destruct (t_env T); auto. Qed.
Lemma alike_trans T U V : alike T U -> alike U V -> alike T V.
Proof.
  intros (A1 & A2 & A3 & A4) (B1 & B2 & B3 & B4). unfold alike. rewrite A1, A2, A3. repeat split; try assumption.
  destruct (t_env T), (t_env U), (t_env V); try tauto; [destruct A4, B4; split; congruence | congruence].
Qed.
Lemma sensors_alike T v e : getSensors (t_env T) = (v, e) -> alike (with_env T e) T.
Proof. unfold alike. intro H. cbn [with_env t_kind t_N t_limits t_env]. destruct (t_env T) as [[] c x | [] x1 x2 s]; cbn [getSensors] in H; injection H as <- <-; auto. Qed.
Lemma observe_alike T o T' : getObservation T = Ok (o, T') -> alike T' T.
Proof.
  unfold getObservation. destruct (getSensors (t_env T)) as (v, e) eqn:E. apply sensors_alike in E.
  destruct (t_kind T); try destruct (nth_error v 0); try destruct (nth_error v 2); try destruct (t_limits T) eqn:Et; try (intro H; discriminate H); try (intro H; injection H as <- <-; exact E).
  all: match goal with |- rbind ?r _ = _ -> _ => destruct r end; cbn [rbind]; intro H; try discriminate H; injection H as <- <-; exact E.
Qed.
Lemma perform_alike T a T' : performAction T a = Ok T' -> alike T' T.
Proof.
  unfold performAction. destruct (force _ a); [|discriminate]. cbn [rbind]. intro H. injection H as <-. unfold alike. cbn [t_kind t_N t_limits t_env]. destruct (t_env T); cbn [e_perform]; auto.
Qed.
Lemma run_alike {W} (module : W -> list R -> W * list R) : forall fuel w T w' T', runLoop module fuel w T = Ok (w', T') -> alike T' T.
Proof.
  induction fuel as [|fuel IH]; intros w T w' T' H; [discriminate|]. cbn [runLoop] in H. destruct (isFinished T); [injection H as <- <-; apply alike_refl|].
  destruct (getObservation T) as [[o T1]|] eqn:E; [|discriminate]. cbn [rbind fst snd] in H. destruct (module w o) as (w1, a). destruct (performAction T1 a) as [T2|] eqn:E2; [|discriminate]. cbn [rbind] in H.
  apply (alike_trans _ T2); [apply (IH _ _ _ _ H)|]. apply (alike_trans _ T1); [apply (perform_alike _ _ _ E2) | apply (observe_alike _ _ _ E)].
Qed.
Lemma reset_alike d T U : alike T U -> t_reset d T = t_reset d U.
Proof.
  intros (A1 & A2 & A3 & A4). unfold t_reset. rewrite A1, A2, A3. f_equal. destruct d as [[u1 u2] [u3 u4]]. unfold e_reset. destruct (t_env T), (t_env U); try tauto; [destruct A4 as (-> & ->) | subst]; reflexivity.
Qed.
Theorem C78_again : forall (W : Type) (module : W -> list R -> W * list R) k e N fuel0 d0 w0 w1 T1, episode module fuel0 d0 w0 (newTask k e N) = Ok (w1, T1) ->
  forall fuel d w, episode module fuel d w T1 = episode module fuel d w (newTask k e N).
Proof.
  intros W module k e N fuel0 d0 w0 w1 T1 H fuel d w. unfold episode in *. f_equal. apply reset_alike. apply (alike_trans _ (t_reset d0 (newTask k e N))); [apply (run_alike _ _ _ _ _ _ H)|].
  unfold alike. cbn [t_reset t_kind t_N t_limits t_env newTask]. destruct d0 as [[u1 u2] [u3 u4]]. destruct e as [m c x | [] x1 x2 s]; cbn; auto.
Qed.
Print Assumptions C78_again.
(** every total is that of its own episode *)
Theorem C78_fresh : forall d T, t_t (t_reset d T) = 0%Z /\ t_cum (t_reset d T) = 0 /\ t_samples (t_reset d T) = 0%nat.
Proof. intros. repeat split. Qed.
Print Assumptions C78_fresh.

(** The features of the tasks with radial basis functions show the angles and their velocities, and nothing of the cart. *)
Theorem C78_features_angles : forall a v p w a2 v2, 
  (exists o, rbf centers1 [a; v; p; w] = Ok o /\ forall p' w', rbf centers1 [a; v; p'; w'] = Ok o) /\
  (exists o, rbf centers2 [a; v; a2; v2; p; w] = Ok o /\ forall p' w', rbf centers2 [a; v; a2; v2; p'; w'] = Ok o) /\
  forall c, c = [a; v] -> rbf [c] [a; v; p; w] = Ok [1; 1].
Proof.
  intros. split; [|split].
  - eexists. split; [reflexivity|]. intros. reflexivity.
  - eexists. split; [reflexivity|]. intros. reflexivity.
  - intros c ->. unfold rbf. cbn [length Nat.sub firstn hd Nat.eqb map rzip]. rewrite !Rminus_diag_eq by reflexivity. do 3 f_equal.
    match goal with |- exp (- ?n ^ 2 / 2) = 1 => assert (N : n = 0) end.
    { unfold norm. match goal with |- sqrt ?x = 0 => replace x with 0; [apply sqrt_0|] end. unfold rdot, rsum. cbn. ring. }
    rewrite N. replace (- 0 ^ 2 / 2) with 0 by field. apply exp_0.
Qed.
Print Assumptions C78_features_angles.
(** Changing the length of episodes does not restart the present one: it goes on, and ends when the new number of steps is reached. *)
Theorem C78_length : forall n T, t_t (setMaxLength n T) = t_t T /\ t_env (setMaxLength n T) = t_env T /\ t_cum (setMaxLength n T) = t_cum T /\
  ((n <= t_t T)%Z -> isFinished (setMaxLength n T) = true) /\ ((t_t T < n)%Z -> (t_t T < t_N T)%Z -> isFinished (setMaxLength n T) = isFinished T).
Proof.
  intros. repeat split.
  - intro H. unfold isFinished. cbn [setMaxLength t_kind t_N t_t t_env]. rewrite (proj2 (Z.leb_le _ _) H). destruct (t_kind T); apply orb_true_r.
  - intros H1 H2. unfold isFinished. cbn [setMaxLength t_kind t_N t_t t_env]. rewrite (proj2 (Z.leb_gt _ _) H1), (proj2 (Z.leb_gt _ _) H2). reflexivity.
Qed.
Print Assumptions C78_length.
