(** Phases of an episode; the car; the arms. *)
From Coq Require Import Reals Lra Psatz.
From Verif Require Import Base Functions_Model Classic_Model Classic_Spec.
Local Open Scope R_scope.

Lemma ltb_true x y : ltb x y = true <-> x < y.
Proof. unfold ltb. destruct (Rlt_dec x y); split; intros; try discriminate; auto; contradiction. Qed.
Lemma ltb_false x y : ltb x y = false <-> y <= x.
Proof. unfold ltb. destruct (Rlt_dec x y); split; intros; try discriminate; auto; lra. Qed.
Lemma leb_true x y : leb x y = true <-> x <= y.
Proof. unfold leb. destruct (Rle_dec x y); split; intros; try discriminate; auto; contradiction. Qed.
Lemma leb_false x y : leb x y = false <-> y < x.
Proof. unfold leb. destruct (Rle_dec x y); split; intros; try discriminate; auto; lra. Qed.

(** ** phases *)
Section Phases.
Context {S : Type}.
Variable k : cfg S.
Lemma acts_app t l l' : acts k t (l ++ l') = (let! t := acts k t l in acts k t l').
Proof. revert t. induction l as [|a l IH]; intro t; [reflexivity|]. cbn [app acts]. destruct (performAction k t a); cbn [rbind]; auto. Qed.
Lemma phase_reset t : (0 < k_max k)%nat -> phase k 0 (reset k t).
Proof. intro H. apply Running; cbn; auto. intro; congruence. Qed.
Lemma phase_step n t a t' : phase k n t -> performAction k t a = Ok t' -> phase k (Datatypes.S n) t'.
Proof.
  intros P H. unfold performAction in H. destruct P as [D St M G | L B G D R | M St D R].
  - rewrite D in H. cbn [Nat.ltb Nat.leb] in H. destruct (k_do k a (t_state t)) as [s|]; cbn [rbind] in H; [|discriminate].
    unfold judge in H. destruct (k_reward k s) as [r gl] eqn:E. inversion H; subst t'. clear H.
    destruct (k_max k <=? t_steps t + 1)%nat eqn:Q.
    + apply Nat.leb_le in Q. apply TimeUp; cbn [t_steps t_done t_r t_state]; rewrite ?E; cbn [fst]; try lia; auto.
    + apply Nat.leb_gt in Q. destruct gl.
      * apply Reached; cbn [t_steps t_done t_r t_state]; rewrite ?E; cbn [fst snd]; try lia; auto.
      * apply Running; cbn [t_steps t_done t_r t_state]; rewrite ?E; cbn [fst snd]; try lia; auto.
  - assert (Z : (0 <? t_done t)%nat = true) by (apply Nat.ltb_lt; lia). rewrite Z in H. inversion H; subst t'.
    apply Reached; cbn [t_steps t_done t_r t_state]; auto; lia.
  - assert (Z : (0 <? t_done t)%nat = true) by (apply Nat.ltb_lt; lia). rewrite Z in H. inversion H; subst t'.
    apply TimeUp; cbn [t_steps t_done t_r t_state]; auto; lia.
Qed.
Lemma phase_acts l : forall n t t', phase k n t -> acts k t l = Ok t' -> phase k (n + length l) t'.
Proof.
  induction l as [|a l IH]; intros n t t' P H; cbn [acts length] in *.
  - inversion H; subst. rewrite Nat.add_0_r. exact P.
  - destruct (performAction k t a) as [t1|] eqn:E; [|discriminate]. cbn [rbind] in H.
    replace (n + Datatypes.S (length l))%nat with (Datatypes.S n + length l)%nat by lia. apply (IH _ t1); [|exact H]. exact (phase_step n t a t1 P E).
Qed.
Lemma perform_frozen t a : (0 < t_done t)%nat -> exists t', performAction k t a = Ok t' /\ t_state t' = t_state t /\ t_cum t' = t_cum t /\ t_r t' = t_r t /\
  t_done t' = (t_done t + 1)%nat.
Proof. intro D. unfold performAction. apply Nat.ltb_lt in D. rewrite D. eexists. repeat split; reflexivity. Qed.
(** gains: the total of an episode counts the reward of every step before the end *)
Lemma acts_invariant (P : S -> Prop) l : (forall a s s', P s -> k_do k a s = Ok s' -> P s') -> forall t t', P (t_state t) -> acts k t l = Ok t' -> P (t_state t').
Proof.
  intro Step. induction l as [|a l IH]; intros t t' Pt H; cbn [acts] in H; [inversion H; subst; exact Pt|].
  destruct (performAction k t a) as [t1|] eqn:E; [|discriminate]. cbn [rbind] in H. apply (IH t1); [|exact H].
  unfold performAction in E. destruct (0 <? t_done t)%nat; [inversion E; subst; exact Pt|].
  destruct (k_do k a (t_state t)) as [s|] eqn:D; [|discriminate]. cbn [rbind] in E. destruct (judge k _ s). inversion E; subst. cbn [t_state]. exact (Step a _ _ Pt D).
Qed.
Lemma never_ok {W} (module : W -> S -> W * Z) fuel : k_resetOnSuccess k = true -> forall w t x, runLoop k module fuel w t <> Ok x.
Proof.
  intro Rs. induction fuel as [|fuel IH]; intros w t x; [discriminate|]. cbn [runLoop]. unfold isFinished. rewrite Rs.
  destruct (3 <=? t_done t)%nat; cbn [andb]; cbv iota.
  - destruct (module w _) as [w1 a]. destruct (performAction k _ a); cbn [rbind]; [apply IH | discriminate].
  - destruct (module w _) as [w1 a]. destruct (performAction k _ a); cbn [rbind]; [apply IH | discriminate].
Qed.
End Phases.
(** the loop of f ends within max + 2 actions *)
Lemma run_ends {S W} (k : cfg S) (module : W -> S -> W * Z) fuel : k_resetOnSuccess k = false -> (forall w s, exists s', k_do k (snd (module w s)) s = Ok s') ->
  forall n w t, phase k n t -> (k_max k + 3 <= n + fuel)%nat -> (0 < fuel)%nat -> exists w' t' m, runLoop k module fuel w t = Ok (w', t') /\ phase k m t' /\ (n <= m <= n + fuel)%nat /\ (3 <= t_done t')%nat.
Proof.
  intros Rs Ok_. induction fuel as [|fuel IH]; intros n w t P Hf Hp; [lia|]. cbn [runLoop]. unfold isFinished. rewrite Rs, andb_false_r.
  destruct (3 <=? t_done t)%nat eqn:Q.
  - apply Nat.leb_le in Q. exists w, t, n. split; [reflexivity|]. split; [exact P|]. lia.
  - apply Nat.leb_gt in Q. destruct (module w (t_state t)) as [w1 a] eqn:Mo.
    assert (E : exists t1, performAction k t a = Ok t1).
    { unfold performAction. destruct (0 <? t_done t)%nat; [eexists; reflexivity|].
      destruct (Ok_ w (t_state t)) as (s' & E). rewrite Mo in E. cbn [snd] in E. rewrite E. cbn [rbind]. destruct (judge k _ s'). eexists; reflexivity. }
    destruct E as (t1 & E). rewrite E. cbn [rbind]. pose proof (phase_step k n t a t1 P E) as P1.
    destruct (IH (Datatypes.S n) w1 t1 P1) as (w' & t' & m & R1 & R2 & R3 & R4); [lia | | exists w', t', m; repeat split; auto; lia].
    destruct fuel; [|lia]. exfalso. destruct P as [D0 St M G | L B G D R | M St D R]; lia.
Qed.

Lemma lookup_range a f : lookup a = Ok f -> -1 <= f <= 1.
Proof.
  unfold lookup. destruct (py_nth action_list a) as [x|] eqn:E; [|discriminate]. intro H. inversion H; subst. clear H.
  unfold py_nth in E. assert (I : In f action_list) by (destruct (0 <=? a)%Z; [|destruct (_ <? 0)%Z; [discriminate|]]; eapply nth_error_In; exact E).
  destruct I as [<-|[<-|[<-|[]]]]; lra.
Qed.

(** ** the car *)
Lemma car_step a s s' : car_ok s -> fst s < 45 / 100 -> carDo a s = Ok s' -> car_ok s'.
Proof.
  destruct s as [p v]. intros ((P1 & P2) & V) G H. cbn [fst snd] in *. unfold carDo in H. destruct (lookup a) as [f|] eqn:L; [|discriminate]. cbn [rbind] in H.
  set (w := v + _ + _) in H.
  set (c := if ltb w _ then _ else _) in H.
  assert (C : - (7 / 100) <= c <= 7 / 100).
  { unfold c. destruct (ltb w (- (7 / 100))) eqn:A; [lra|]. apply ltb_false in A. destruct (ltb (7 / 100) w) eqn:B; [lra|]. apply ltb_false in B. lra. }
  destruct (leb (p + c) (- (14 / 10))) eqn:Q; inversion H; subst; unfold car_ok; cbn [fst snd].
  - rewrite Rabs_R0. lra.
  - apply leb_false in Q. split; [lra|]. apply Rabs_le. lra.
Qed.
(** invariant of an episode of the car *)
Definition car_inv (t : task (R * R)) : Prop := car_ok (t_state t) /\ (t_done t = 0%nat -> fst (t_state t) < 45 / 100).
Lemma car_inv_step b t a t' : car_inv t -> performAction (car b) t a = Ok t' -> car_inv t'.
Proof.
  intros (O1 & O2) H. unfold performAction in H. destruct (0 <? t_done t)%nat eqn:D.
  - inversion H; subst. split; [exact O1|]. cbn [t_done]. lia.
  - apply Nat.ltb_ge in D. assert (D0 : t_done t = 0%nat) by lia. specialize (O2 D0). cbn [car k_do] in H.
    destruct (carDo a (t_state t)) as [s|] eqn:E; [|discriminate]. cbn [rbind] in H.
    pose proof (car_step a _ s O1 O2 E) as C. unfold judge in H. destruct (k_max (car b) <=? t_steps t + 1)%nat; cbn [car k_reward] in H;
      destruct (leb (45 / 100) (fst s)) eqn:Q; inversion H; subst; (split; [exact C|]); cbn [t_done t_state]; intro X; try discriminate X.
    apply leb_false in Q. exact Q.
Qed.
Lemma car_inv_acts b l : forall t t', car_inv t -> acts (car b) t l = Ok t' -> car_inv t'.
Proof.
  induction l as [|a l IH]; intros t t' I H; cbn [acts] in H; [inversion H; subst; exact I|].
  destruct (performAction (car b) t a) as [t1|] eqn:E; [|discriminate]. cbn [rbind] in H. apply (IH t1); [exact (car_inv_step b t a t1 I E) | exact H].
Qed.
Lemma car_inv_reset b t : car_inv (reset (car b) t).
Proof. split; [split; cbn [reset car k_init t_state fst snd]; [lra | rewrite Rabs_R0; lra]|]. intros _. cbn [reset car k_init t_state fst]. lra. Qed.
(** what the car has earned *)
Lemma car_gain b l : forall t t', t_done t = 0%nat -> acts (car b) t l = Ok t' ->
  t_cum t' = t_cum t + (if (t_done t' =? 0)%nat then 0 else fst (k_reward (car b) (t_state t'))).
Proof.
  induction l as [|a l IH]; intros t t' D H; cbn [acts] in H.
  - inversion H; subst. rewrite D. cbn. ring.
  - destruct (performAction (car b) t a) as [t1|] eqn:E; [|discriminate]. cbn [rbind] in H.
    unfold performAction in E. rewrite D in E. change (0 <? 0)%nat with false in E. cbv iota in E. change (k_do (car b)) with carDo in E.
    unfold judge in E. set (late := (k_max (car b) <=? t_steps t + 1)%nat) in E. clearbody late.
    destruct (carDo a (t_state t)) as [s|]; [|discriminate]. cbn [rbind] in E. destruct (k_reward (car b) s) as [r gl] eqn:Rw.
    assert (R0 : gl = false -> r = 0) by (cbn [car k_reward] in Rw; destruct (leb _ _); inversion Rw; subst; [discriminate | reflexivity]).
    inversion E; subst t1. clear E.
    destruct ((if late then 5 else if gl then 1 else 0) =? 0)%nat eqn:Q.
    + apply Nat.eqb_eq in Q. pose proof (fun q => IH _ t' q H) as J. rewrite (J Q). cbn [t_cum]. destruct late; [discriminate|].
      destruct gl; [discriminate|]. rewrite (R0 eq_refl). ring.
    + apply Nat.eqb_neq in Q.
      assert (Fz : forall l t2 t3, t_done t2 <> 0%nat -> acts (car b) t2 l = Ok t3 -> t_cum t3 = t_cum t2 /\ t_state t3 = t_state t2 /\ t_done t3 <> 0%nat).
      { clear. induction l as [|a l IH]; intros t2 t3 Hd H; cbn [acts] in H; [inversion H; subst; auto|].
        destruct (perform_frozen (car b) t2 a) as (t4 & E & E1 & E2 & E3 & E4); [lia|]. rewrite E in H. cbn [rbind] in H.
        destruct (IH t4 t3) as (A & B & C); [lia | exact H|]. rewrite A, B, E1, E2. auto. }
      pose proof (fun q => Fz l _ t' q H) as J. destruct (J Q) as (A & B & C). apply Nat.eqb_neq in C. rewrite A, B, C. cbn [t_cum t_state]. rewrite Rw. reflexivity.
Qed.

(** ** the arms *)
Lemma cos_shift x : cos (x - PI / 2) = sin x.
Proof. rewrite cos_minus, cos_PI2, sin_PI2. ring. Qed.
Lemma d1_pos x : 0 < d1 x.
Proof. unfold d1, m1, m2, l1, lc1, lc2, I1, I2. pose proof (COS_bound (th2 x)). nra. Qed.
Lemma inertia_pos x : 0 < m2 * lc2 ^ 2 + I2 - d2 x * d2 x / d1 x.
Proof.
  pose proof (d1_pos x) as P. replace (m2 * lc2 ^ 2 + I2 - d2 x * d2 x / d1 x) with (((m2 * lc2 ^ 2 + I2) * d1 x - d2 x * d2 x) / d1 x) by (field; lra).
  apply Rdiv_lt_0_compat; [|exact P]. unfold d1, d2, m1, m2, l1, lc1, lc2, I1, I2. pose proof (COS_bound (th2 x)). nra.
Qed.
Lemma accel_solve x torque :
  d1 x * accel1 torque x + d2 x * accel2 torque x + phi1 x = 0 /\
  d2 x * accel1 torque x + (m2 * lc2 ^ 2 + I2) * accel2 torque x + m2 * l1 * lc2 * th1' x ^ 2 * sin (th2 x) + phi2 x = torque.
Proof.
  pose proof (d1_pos x) as P. pose proof (inertia_pos x) as Q. unfold accel1. set (A := accel2 torque x).
  assert (EA : A * (m2 * lc2 ^ 2 + I2 - d2 x * d2 x / d1 x) = torque + phi1 x * (d2 x / d1 x) - m2 * l1 * lc2 * th1' x * th1' x * sin (th2 x) - phi2 x).
  { unfold A, accel2. set (D := m2 * lc2 ^ 2 + I2 - d2 x * d2 x / d1 x) in *. field. lra. }
  split; [field; lra|].
  assert (K : torque = A * (m2 * lc2 ^ 2 + I2 - d2 x * d2 x / d1 x) - phi1 x * (d2 x / d1 x) + m2 * l1 * lc2 * th1' x * th1' x * sin (th2 x) + phi2 x) by lra.
  rewrite K. field. lra.
Qed.
Lemma free_iff x torque : free_arms x torque (accel1 torque x) (accel2 torque x) <-> th1' x * th2' x * sin (th2 x) = 0.
Proof.
  destruct (accel_solve x torque) as (A & B). unfold free_arms. unfold phi1, phi2 in A, B. rewrite (cos_shift (th1 x)), (cos_shift (th1 x + th2 x)) in A. rewrite (cos_shift (th1 x + th2 x)) in B.
  set (a1 := accel1 torque x) in *. set (a2 := accel2 torque x) in *. set (E1 := d1 x) in *. set (E2 := d2 x) in *. unfold m1, m2, l1, lc1, lc2, I2, g in *.
  split.
  - intros (C & D). lra.
  - intro Z. split; [|lra]. lra.
Qed.

Lemma bound_range x m : 0 <= m -> Rabs (bound x m) <= m.
Proof.
  intro H. apply Rabs_le. unfold bound. destruct (ltb x (- m)) eqn:A.
  - destruct (ltb m (- m)) eqn:B; [apply ltb_true in B|]; lra.
  - apply ltb_false in A. destruct (ltb m x) eqn:B; [lra | apply ltb_false in B; lra].
Qed.
Lemma substep_range f x r1 r2 : Rabs (th1 x) <= r1 -> Rabs (th2 x) <= r2 ->
  let y := substep f x in Rabs (th1 y) <= r1 + 2 / 10 * PI /\ Rabs (th2 y) <= r2 + 45 / 100 * PI /\ Rabs (th1' y) <= 4 * PI /\ Rabs (th2' y) <= 9 * PI.
Proof.
  intros H1 H2 y. pose proof PI_RGT_0 as Pi. unfold y, substep, delta_t. cbn [th1 th2 th1' th2'].
  pose proof (bound_range (th1' x + accel1 f x * (5 / 100)) (4 * PI) ltac:(lra)) as B1.
  pose proof (bound_range (th2' x + accel2 f x * (5 / 100)) (9 * PI) ltac:(lra)) as B2.
  set (w1 := bound _ (4 * PI)) in *. set (w2 := bound _ (9 * PI)) in *.
  split; [|split; [|split; assumption]].
  - apply Rle_trans with (Rabs (th1 x) + Rabs (w1 * (5 / 100))); [apply Rabs_triang|]. rewrite Rabs_mult, (Rabs_right (5 / 100)) by lra. lra.
  - apply Rle_trans with (Rabs (th2 x) + Rabs (w2 * (5 / 100))); [apply Rabs_triang|]. rewrite Rabs_mult, (Rabs_right (5 / 100)) by lra. lra.
Qed.
Lemma wrap_range t : Rabs t <= 3 * PI -> Rabs (wrap t) <= PI.
Proof.
  intro H. pose proof PI_RGT_0 as Pi. assert (H1 : - (3 * PI) <= t <= 3 * PI) by (unfold Rabs in H; destruct (Rcase_abs t); lra).
  apply Rabs_le. unfold wrap. destruct (ltb t (- PI)) eqn:A; [apply ltb_true in A; lra|]. apply ltb_false in A.
  destruct (ltb PI t) eqn:B; [apply ltb_true in B | apply ltb_false in B]; lra.
Qed.
Lemma arms_step a x x' : arms_ok x -> armsDo a x = Ok x' -> arms_ok x'.
Proof.
  intros (H1 & H2 & _ & _) H. unfold armsDo in H. destruct (lookup a) as [f|]; [|discriminate]. cbn [rbind] in H.
  pose proof PI_RGT_0 as Pi. set (y := Nat.iter 4 (substep f) x) in H.
  assert (B : Rabs (th1 y) <= 3 * PI /\ Rabs (th2 y) <= 3 * PI /\ Rabs (th1' y) <= 4 * PI /\ Rabs (th2' y) <= 9 * PI).
  { change y with (substep f (substep f (substep f (substep f x)))). clear y H.
    destruct (substep_range f x _ _ H1 H2) as (A1 & A2 & _). generalize dependent (substep f x). intros x1 A1 A2.
    destruct (substep_range f x1 _ _ A1 A2) as (B1 & B2 & _). generalize dependent (substep f x1). intros x2 B1 B2.
    destruct (substep_range f x2 _ _ B1 B2) as (C1 & C2 & _). generalize dependent (substep f x2). intros x3 C1 C2.
    destruct (substep_range f x3 _ _ C1 C2) as (D1 & D2 & D3 & D4). repeat split; lra || assumption. }
  clearbody y. destruct B as (B1 & B2 & B3 & B4). inversion H; subst. unfold arms_ok. cbn [th1 th2 th1' th2'].
  split; [apply wrap_range, B1|]. split; [apply wrap_range, B2|]. auto.
Qed.
(** the mirror *)
Lemma bound_mirror x m : 0 <= m -> bound (- x) m = - bound x m.
Proof.
  intro H. unfold bound. destruct (ltb (- x) (- m)) eqn:A, (ltb x (- m)) eqn:B; rewrite ?ltb_true, ?ltb_false in A, B.
  all: repeat match goal with |- context [ltb ?a ?b] => destruct (ltb a b) eqn:? end; rewrite ?ltb_true, ?ltb_false in *; lra.
Qed.
Lemma wrap_mirror t : wrap (- t) = - wrap t.
Proof.
  pose proof PI_RGT_0 as Pi. unfold wrap. repeat match goal with |- context [ltb ?a ?b] => destruct (ltb a b) eqn:? end; rewrite ?ltb_true, ?ltb_false in *; lra.
Qed.
Lemma phi_mirror x : phi1 (arms_mirror x) = - phi1 x /\ phi2 (arms_mirror x) = - phi2 x /\ d1 (arms_mirror x) = d1 x /\ d2 (arms_mirror x) = d2 x.
Proof.
  unfold phi1, phi2, d1, d2, arms_mirror. cbn [th1 th2 th1' th2']. rewrite !cos_shift, cos_neg, !sin_neg.
  replace (- th1 x + - th2 x) with (- (th1 x + th2 x)) by ring. rewrite sin_neg. repeat split; ring.
Qed.
Lemma accel_mirror f x : accel1 (- f) (arms_mirror x) = - accel1 f x /\ accel2 (- f) (arms_mirror x) = - accel2 f x.
Proof.
  destruct (phi_mirror x) as (E1 & E2 & E3 & E4).
  assert (A2 : accel2 (- f) (arms_mirror x) = - accel2 f x).
  { unfold accel2. rewrite E1, E2, E3, E4.
    set (D := m2 * lc2 ^ 2 + I2 - d2 x * d2 x / d1 x). unfold arms_mirror. cbn [th1 th2 th1' th2']. rewrite sin_neg.
    unfold Rdiv. ring. }
  split; [|exact A2]. unfold accel1. rewrite A2, E1, E3, E4. unfold Rdiv. ring.
Qed.
Lemma substep_mirror f x : substep (- f) (arms_mirror x) = arms_mirror (substep f x).
Proof.
  destruct (accel_mirror f x) as (E1 & E2). pose proof PI_RGT_0 as Pi. unfold substep. rewrite E1, E2. unfold arms_mirror. cbn [th1 th2 th1' th2'].
  replace (- th1' x + - accel1 f x * delta_t) with (- (th1' x + accel1 f x * delta_t)) by ring.
  replace (- th2' x + - accel2 f x * delta_t) with (- (th2' x + accel2 f x * delta_t)) by ring.
  rewrite !bound_mirror by lra. f_equal; ring.
Qed.
Lemma lookup_mirror a : (0 <= a <= 2)%Z -> exists f, lookup a = Ok f /\ lookup (2 - a) = Ok (- f).
Proof.
  intro H. assert (C : a = 0%Z \/ a = 1%Z \/ a = 2%Z) by lia.
  destruct C as [-> | [-> | ->]].
  - exists (-1). split; [reflexivity|]. transitivity (Ok 1); [reflexivity | f_equal; lra].
  - exists 0. split; [reflexivity|]. transitivity (Ok 0); [reflexivity | f_equal; lra].
  - exists 1. split; [reflexivity|]. transitivity (Ok (-1)); [reflexivity | f_equal; lra].
Qed.
Lemma arms_do_mirror a x : (0 <= a <= 2)%Z -> armsDo (2 - a) (arms_mirror x) = (let! y := armsDo a x in Ok (arms_mirror y)).
Proof.
  intro H. destruct (lookup_mirror a H) as (f & E1 & E2). unfold armsDo. rewrite E1, E2. cbn [rbind].
  assert (I : forall n, Nat.iter n (substep (- f)) (arms_mirror x) = arms_mirror (Nat.iter n (substep f) x)).
  { induction n as [|n IH]; [reflexivity|]. change (Nat.iter (Datatypes.S n) (substep (- f)) (arms_mirror x)) with (substep (- f) (Nat.iter n (substep (- f)) (arms_mirror x))).
    rewrite IH, substep_mirror. reflexivity. }
  rewrite I. f_equal. unfold arms_mirror at 5. cbn [th1 th2 th1' th2']. set (y := Nat.iter 4 (substep f) x). unfold arms_mirror. cbn [th1 th2 th1' th2'].
  rewrite !wrap_mirror. reflexivity.
Qed.
