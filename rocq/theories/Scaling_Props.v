(** Property C41: scaling between [-1, 1] and the limits of a task. *)
From Verif Require Import Base Scaling_Model.
From Coq Require Import QArith Qabs Qfield Lqa.
Local Open Scope nat_scope.

(** ** Spec *)
Definition between (x lo hi : Q) : Prop := (lo <= x /\ x <= hi)%Q.
Definition proper (l : limit) : Prop := match l with None => True | Some (lo, hi) => (lo < hi)%Q end.
Definition within (l : limit) (x : Q) : Prop := match l with None => True | Some (lo, hi) => between x lo hi end.
(** a value of a scaled actor or sensor is meant to be in [-1, 1] *)
Definition unit (l : limit) (x : Q) : Prop := match l with None => True | Some _ => between x (-1) 1 end.
(** the affine map taking -1 to lo and 1 to hi: x divides [lo, hi] as a divides [-1, 1] *)
Definition scaled (l : limit) (a x : Q) : Prop :=
  match l with None => (x == a)%Q | Some (lo, hi) => (2 * (x - lo) == (a - -1) * (hi - lo))%Q end.
(** r is the point of [lo, hi] nearest to x *)
Definition nearest (l : limit) (x r : Q) : Prop :=
  match l with None => (r == x)%Q | Some (lo, hi) => between r lo hi /\ forall y, between y lo hi -> (Qabs (x - r) <= Qabs (x - y))%Q end.
Inductive Forall3 {A B C} (R : A -> B -> C -> Prop) : list A -> list B -> list C -> Prop :=
| F3_nil : Forall3 R [] [] []
| F3_cons : forall a b c la lb lc, R a b c -> Forall3 R la lb lc -> Forall3 R (a :: la) (b :: lb) (c :: lc).
Definition eqs (l1 l2 : list Q) : Prop := Forall2 Qeq l1 l2.

(** ** Lemmas *)
Lemma qle_false x y : Qle_bool x y = false -> (y < x)%Q.
Proof. intros E. destruct (Qlt_le_dec y x); auto. apply Qle_bool_iff in q. congruence. Qed.
Lemma clip_spec x lo hi : (lo <= hi)%Q -> between (clip x lo hi) lo hi /\
  (between x lo hi -> clip x lo hi = x) /\ ((x < lo)%Q -> clip x lo hi = lo) /\ ((hi < x)%Q -> clip x lo hi = hi).
Proof.
  intros H. unfold clip, between. destruct (Qle_bool lo x) eqn:E1; [apply Qle_bool_iff in E1 | apply qle_false in E1];
    match goal with |- context [Qle_bool ?y hi] => destruct (Qle_bool y hi) eqn:E2 end; [apply Qle_bool_iff in E2 | apply qle_false in E2 | apply Qle_bool_iff in E2 | apply qle_false in E2];
    repeat split; intros; try lra; try reflexivity; exfalso; lra.
Qed.
Lemma clip_nearest x lo hi : (lo <= hi)%Q -> nearest (Some (lo, hi)) x (clip x lo hi).
Proof.
  intros H. destruct (clip_spec x lo hi H) as (A & B & C & D). split; [auto |]. intros y [Y1 Y2].
  assert (Habs : forall a, (Qabs a == if Qlt_le_dec a 0 then - a else a)%Q).
  { intros a. destruct (Qlt_le_dec a 0); [apply Qabs_neg; lra | apply Qabs_pos; auto]. }
  destruct (Qlt_le_dec x lo) as [L |]; [rewrite C by auto | destruct (Qlt_le_dec hi x); [rewrite D by auto | rewrite B by (split; auto)]];
    rewrite !Habs; repeat match goal with |- context [Qlt_le_dec ?a 0] => destruct (Qlt_le_dec a 0) end; lra.
Qed.
Lemma normalize1_spec l s : proper l -> exists x, normalize1 l s = Ok x /\ scaled l x s.
Proof.
  destruct l as [[lo hi] |]; cbn [proper normalize1 scaled]; intros H.
  - destruct (Qeq_bool (hi - lo) 0) eqn:E; [apply Qeq_bool_iff in E; lra |]. eexists. split; [reflexivity |]. field. intros K. lra.
  - exists s. split; [auto | lra].
Qed.
Lemma scaled_inj l a b x : proper l -> scaled l a x -> scaled l b x -> (a == b)%Q.
Proof.
  destruct l as [[lo hi] |]; cbn; intros H A B; [| lra]. assert ((a - b) * (hi - lo) == 0)%Q by lra.
  apply Qmult_integral in H0. destruct H0; lra.
Qed.
Lemma scaled_fun l a x y : scaled l a x -> scaled l a y -> (x == y)%Q.
Proof. destruct l as [[lo hi] |]; cbn; intros A B; lra. Qed.
Lemma Qmult_le_0' a b : (0 <= a -> 0 <= b -> 0 <= a * b)%Q.
Proof. intros. apply Qmult_le_0_compat; auto. Qed.
Lemma scaled_unit l a x : proper l -> scaled l a x -> (unit l a <-> within l x).
Proof.
  destruct l as [[lo hi] |]; cbn; [| tauto]. intros H A. unfold between. split; intros [B C].
  - pose proof (Qmult_le_0' (a - -1) (hi - lo)). pose proof (Qmult_le_0' (1 - a) (hi - lo)). lra.
  - split; apply Qnot_lt_le; intros K.
    + assert (0 < (-1 - a) * (hi - lo))%Q by (apply Qmult_lt_0_compat; lra). lra.
    + assert (0 < (a - 1) * (hi - lo))%Q by (apply Qmult_lt_0_compat; lra). lra.
Qed.
Lemma denormalize1_spec (c : bool) l a : proper l -> exists x, scaled l a x /\
  (if c then nearest l x (denormalize1 c l a) else (denormalize1 c l a == x)%Q) /\
  (unit l a -> (denormalize1 c l a == x)%Q) /\ (c = true -> within l (denormalize1 c l a)).
Proof.
  intros H. destruct l as [[lo hi] |].
  - exists ((a + 1) / 2 * (hi - lo) + lo)%Q. assert (S1 : scaled (Some (lo, hi)) a ((a + 1) / 2 * (hi - lo) + lo)%Q) by (cbn; field). split; [auto |].
    unfold denormalize1. cbn [proper] in H. destruct c.
    + split; [apply clip_nearest; lra |]. destruct (clip_spec ((a + 1) / 2 * (hi - lo) + lo) lo hi ltac:(lra)) as (A & B & _). split; [| auto].
      intros U. rewrite B; [lra |]. now apply (scaled_unit (Some (lo, hi)) _ _ H S1).
    + split; [lra |]. split; [lra | discriminate].
  - exists a. cbn. split; [lra |]. split; [destruct c; lra |]. split; [intros _; lra | auto].
Qed.

(** ** C41 *)
(** the agent's action as the environment gets it: each actor is mapped affinely from [-1, 1] onto its limits; with clipping
    the environment gets the nearest allowed value, always within the limits *)
Theorem C41_denormalize (c : bool) limits actors : Forall proper limits -> length limits = length actors ->
  exists res, denormalize c limits actors = Ok res /\ length res = length actors /\
    Forall3 (fun l a r => exists x, scaled l a x /\ (if c then nearest l x r else (r == x)%Q) /\ (unit l a -> (r == x)%Q) /\ (c = true -> within l r)) limits actors res.
Proof.
  intros HP HL. unfold denormalize. rewrite HL, Nat.eqb_refl. cbn [negb]. eexists. split; [reflexivity |]. rewrite map_length, combine_length. split; [lia |].
  revert actors HL; induction HP as [| l limits Hl _ IH]; intros [| a actors] HL; try discriminate; cbn [combine map]; constructor; [| apply IH; auto]. now apply denormalize1_spec.
Qed.
(** what the agent sees: the inverse affine map *)
Theorem C41_normalize c limits sensors : Forall proper limits -> length limits = length sensors ->
  exists res, normalize c limits sensors = Ok res /\ length res = length sensors /\ Forall3 (fun l s r => scaled l r s) limits sensors res.
Proof.
  intros HP HL. unfold normalize. rewrite HL, Nat.eqb_refl. cbn [negb].
  assert (exists res, mapM (fun p => normalize1 (fst p) (snd p)) (combine limits sensors) = Ok res /\ length res = length sensors /\ Forall3 (fun l s r => scaled l r s) limits sensors res) as (res & -> & A & B).
  { revert sensors HL; induction HP as [| l limits Hl _ IH]; intros [| a sensors] HL; try discriminate; cbn [combine mapM].
    - exists []. repeat constructor.
    - cbn [fst snd]. destruct (normalize1_spec l a Hl) as (x & -> & Hx). cbn [rbind]. destruct (IH sensors) as (res & -> & A & B); [auto |]. cbn [rbind]. exists (x :: res). cbn. split; [auto |]. split; [auto |]. constructor; auto. }
  cbn [rbind]. exists res. auto.
Qed.
(** the two are inverse to each other, whatever the clipping *)
Theorem C41_inverse c1 c2 limits xs : Forall proper limits -> length limits = length xs ->
  (Forall2 unit limits xs -> exists ys zs, denormalize c1 limits xs = Ok ys /\ normalize c2 limits ys = Ok zs /\ eqs zs xs) /\
  (Forall2 within limits xs -> exists ys zs, normalize c2 limits xs = Ok ys /\ denormalize c1 limits ys = Ok zs /\ eqs zs xs).
Proof.
  intros HP HL. split; intros HU.
  - destruct (C41_denormalize c1 limits xs HP HL) as (ys & E & L & F). destruct (C41_normalize c2 limits ys HP ltac:(lia)) as (zs & E2 & L2 & F2).
    exists ys, zs. split; [auto |]. split; [auto |]. clear E E2 L L2 HL. revert zs F2 HU HP. induction F as [| l a r limits xs ys (x & S & _ & U & _) _ IH]; intros zs F2 HU HP; inversion F2 as [| ? ? z ? ? zs' S2]; subst; [constructor |].
    inversion HU; inversion HP; subst. constructor; [| apply IH; auto].
    assert ((r == x)%Q) by auto. apply (scaled_inj l z a r); auto. destruct l as [[lo hi] |]; cbn in *; lra.
  - destruct (C41_normalize c2 limits xs HP HL) as (ys & E & L & F). destruct (C41_denormalize c1 limits ys HP ltac:(lia)) as (zs & E2 & L2 & F2).
    exists ys, zs. split; [auto |]. split; [auto |]. clear E E2 L L2 HL. revert zs F2 HU HP. induction F as [| l a r limits xs ys S _ IH]; intros zs F2 HU HP; inversion F2 as [| ? ? z ? ? zs' S2]; subst; [constructor |].
    inversion HU; inversion HP; subst. constructor; [| apply IH; auto]. destruct S2 as (x & Sx & _ & U & _).
    assert (unit l r) by (apply (scaled_unit l r a); auto). rewrite U by auto. eapply scaled_fun; eauto.
Qed.
(** the environment never gets an action outside the limits when clipping is on (the default) *)
Theorem C41_actions_within limits actors res : Forall proper limits -> to_env true (Some limits) actors = Ok res -> limits <> [] -> Forall2 within limits res.
Proof.
  intros HP E Hn. unfold to_env in E. destruct limits as [| l ls]; [congruence |]. assert (HL : length (l :: ls) = length actors).
  { unfold denormalize in E. destruct (Nat.eqb_spec (length (l :: ls)) (length actors)); [auto | discriminate]. }
  destruct (C41_denormalize true (l :: ls) actors HP HL) as (r & E2 & _ & F). assert (r = res) by congruence. subst r. clear - F.
  induction F as [| ? ? ? ? ? ? (x & _ & _ & _ & W)]; constructor; auto.
Qed.
(** the lengths have to agree *)
Theorem C41_length_mismatch c limits xs : length limits <> length xs -> denormalize c limits xs = Err AssertionError /\ normalize c limits xs = Err AssertionError.
Proof. intros H. unfold denormalize, normalize. destruct (Nat.eqb_spec (length limits) (length xs)); [lia | auto]. Qed.
(** the observations are not clipped although clipping is on: every sensor out of its limits is given to the agent as a value out of [-1, 1] *)
Theorem C41_sensors_not_clipped_refuted c lo hi s : (lo < hi)%Q -> ~ between s lo hi ->
  exists x, to_agent c (Some [Some (lo, hi)]) [s] = Ok [x] /\ ~ between x (-1) 1.
Proof.
  intros H N. destruct (C41_normalize c [Some (lo, hi)] [s]) as (res & E & L & F); [repeat constructor; auto | auto |].
  inversion F as [| ? ? x ? ? ? S T]; subst. inversion T; subst. exists x. split; [auto |]. intros U. apply N. exact (proj1 (scaled_unit (Some (lo, hi)) x s H S) U).
Qed.
(** equal limits stop the sensors with a division by zero *)
Theorem C41_equal_limits_refuted c a b s : (a == b)%Q -> to_agent c (Some [Some (a, b)]) [s] = Err ZeroDivisionError.
Proof.
  intros H. cbn. destruct (Qeq_bool (b - a) 0) eqn:E; [reflexivity |]. assert ((b - a == 0)%Q) by lra. apply Qeq_bool_iff in H0. congruence.
Qed.

Example C41_case : let ls := [Some (0, 10)%Q; None; Some (-3, -1)%Q] in
  Forall proper ls /\ to_env true (Some ls) [(1 # 2); 7; 3]%Q = Ok [30 # 4; 7; -1]%Q /\
  to_agent true (Some ls) [15; 7; -2]%Q = Ok [20 # 10; 7; 0 # 2]%Q.
Proof.
  cbv zeta. split; [repeat (apply Forall_cons || apply Forall_nil); cbn; auto; lra |]. split; vm_compute; reflexivity.
Qed.

Print Assumptions C41_denormalize. Print Assumptions C41_normalize. Print Assumptions C41_inverse. Print Assumptions C41_actions_within. Print Assumptions C41_length_mismatch.
Print Assumptions C41_sensors_not_clipped_refuted. Print Assumptions C41_equal_limits_refuted.
