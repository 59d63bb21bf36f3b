(** C79: the inertia of the arms, their rewards, the start of the ship. *)
From Coq Require Import Reals Lra.
From Verif Require Import Base Functions_Model Classic_Model Classic_Spec Classic_Proofs Classic_Proofs2.
Local Open Scope R_scope.

(** the energy of motion of two arms: that of the centres of mass, at lc1 on the first arm and at lc2 on the second, and that of the rotations *)
Definition motion_energy (x : arms) : R :=
  let w := th1' x + th2' x in
  let v1x := lc1 * cos (th1 x) * th1' x in let v1y := lc1 * sin (th1 x) * th1' x in
  let v2x := l1 * cos (th1 x) * th1' x + lc2 * cos (th1 x + th2 x) * w in let v2y := l1 * sin (th1 x) * th1' x + lc2 * sin (th1 x + th2 x) * w in
  m1 / 2 * (v1x ^ 2 + v1y ^ 2) + I1 / 2 * th1' x ^ 2 + m2 / 2 * (v2x ^ 2 + v2y ^ 2) + I2 / 2 * w ^ 2.
(** The coefficients of the equations that acrobot.py solves are those of this energy. *)
Theorem C79_inertia : forall x, motion_energy x = d1 x / 2 * th1' x ^ 2 + d2 x * th1' x * th2' x + (m2 * lc2 ^ 2 + I2) / 2 * th2' x ^ 2.
Proof.
  intro x. unfold motion_energy, d1, d2. cbn zeta. set (a := th1 x). set (b := a + th2 x). assert (E : th2 x = b - a) by (unfold b; ring). rewrite E, cos_minus.
  pose proof (sin2_cos2 a) as Pa. pose proof (sin2_cos2 b) as Pb. unfold Rsqr in *. unfold m1, m2, l1, lc1, lc2, I1, I2.
  assert (Ca : cos a * cos a = 1 - sin a * sin a) by lra. assert (Cb : cos b * cos b = 1 - sin b * sin b) by lra.
  set (p := th1' x). set (q := th2' x).
  match goal with |- ?l = ?r => assert (D : l - r = (cos a * cos a + sin a * sin a - 1) * (5 / 8 * p ^ 2) + (cos b * cos b + sin b * sin b - 1) * ((p + q) ^ 2 / 8)) by field end.
  replace (cos a * cos a + sin a * sin a - 1) with 0 in D by lra. replace (cos b * cos b + sin b * sin b - 1) with 0 in D by lra. lra.
Qed.
Print Assumptions C79_inertia.

(** What acrobot.py pays: 1 at the goal and 0 before it; with easy rewards the height, ten times the height at the goal. *)
Theorem C79_arms_pays : forall tg x, let y := - cos (th1 x) - cos (th2 x) in
  (tg <= y -> armsReward false tg x = (1, true) /\ armsReward true tg x = (10 * y, true)) /\
  (y < tg -> armsReward false tg x = (0, false) /\ armsReward true tg x = (y, false)).
Proof.
  intros tg x y. unfold armsReward. replace (0 - cos (th1 x) - cos (th2 x)) with y by (unfold y; ring). rewrite Rplus_0_l. split; intro H.
  - assert (leb tg y = true) as -> by now apply leb_true. split; reflexivity.
  - destruct (leb tg y) eqn:E; [apply leb_true in E; lra|]. split; reflexivity.
Qed.
Print Assumptions C79_arms_pays.
Example C79_arms_pays_ex : fst (armsReward true (3 / 2) (Arms PI PI 0 0)) = 20.
Proof. destruct (C79_arms_pays (3 / 2) (Arms PI PI 0 0)) as (H & _). cbn [th1 th2] in H. rewrite cos_PI in H. destruct H as (_ & ->); [lra | cbn [fst]; lra]. Qed.

(** The ship starts at rest, with every heading between -30 and 30 degrees. *)
Theorem C79_ship_start : forall h, (exists u, 0 <= u <= 1 /\ shipStart u = Ship h 0 0) <-> -30 <= h <= 30.
Proof.
  intro h. unfold shipStart. split.
  - intros (u & Hu & E). injection E as <-. lra.
  - intro H. exists ((h + 30) / 60). split; [lra|]. f_equal. field.
Qed.
Print Assumptions C79_ship_start.
