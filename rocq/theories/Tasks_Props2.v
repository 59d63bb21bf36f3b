(** Property C84, continued: directions and drawings, the cheese maze, the 4x3 maze, the 89-state maze. *)
From Verif Require Import Base Maze_Model Maze_Props Tasks_Model Tasks_Spec Tasks_Props.
From Coq Require Import QArith Lqa.
Local Open Scope nat_scope.

(** ** Directions *)
(** Without noise, sensor number k of the turning maze tells whether a Forward fails after k turns to the "left". *)
Theorem C84_polar_ahead m cols us k : good cols m -> (mz_stochObs m <= 0)%Q -> (mz_stochAction m <= 1)%Q -> k < 4 ->
  exists obs m1 m2, polar_getSensors m us = Ok obs /\ walk calm_polar m (repeat 3%Z k) = Ok m1 /\ calm_polar m1 1 = Ok m2 /\
    nth_error obs k = Some (mz_bang m2).
Proof.
  intros HG HO HA Hk.
  assert (Eo : qlt 0 (mz_stochObs m) = false) by (destruct (qlt_cases 0 (mz_stochObs m)) as [[_ K] | [K _]]; [exfalso; lra | auto]).
  assert (Ea : qlt 1 (mz_stochAction m) = false) by (destruct (qlt_cases 1 (mz_stochAction m)) as [[_ K] | [K _]]; [exfalso; lra | auto]).
  assert (Turn : forall x, mz_stochAction x = mz_stochAction m -> calm_polar x 3 = Ok (with_dir (with_pos x (mz_pos x) false) ((mz_dir x + 1) mod 4))).
  { intros x Hx. unfold calm_polar, polar_performAction, noisy_action. rewrite Hx, Ea, andb_false_r. reflexivity. }
  assert (Walk : forall n x, mz_stochAction x = mz_stochAction m -> mz_dir x < 4 ->
     exists b, walk calm_polar x (repeat 3%Z n) = Ok (with_dir (with_pos x (mz_pos x) b) ((mz_dir x + n) mod 4))).
  { induction n as [| n IH]; intros x Hx Hd; cbn [repeat walk].
    - exists (mz_bang x). rewrite Nat.add_0_r, (Nat.mod_small (mz_dir x) 4) by auto. destruct x; reflexivity.
    - rewrite Turn by auto. cbn [rbind]. destruct (IH (with_dir (with_pos x (mz_pos x) false) ((mz_dir x + 1) mod 4)) Hx) as [b ->]; [apply Nat.mod_upper_bound; lia |].
      exists b. unfold with_dir, with_pos. cbn [mz_dir mz_table mz_goal mz_init mz_pos mz_bang mz_stochAction mz_stochObs]. do 2 f_equal.
      rewrite Nat.add_mod_idemp_l by lia. f_equal. lia. }
  pose proof HG as (HE & _ & _ & HF & HD).
  destruct (Walk k m eq_refl HD) as [b Ew].
  destruct (C40_sensors m cols us HG) as (obs & Es & Lo & Hs & pobs & Ep & Lp & Hp).
  set (m1 := with_dir (with_pos m (mz_pos m) b) ((mz_dir m + k) mod 4)) in *.
  assert (Hd1 : (mz_dir m + k) mod 4 < 4) by (apply Nat.mod_upper_bound; lia).
  assert (G1 : good cols m1). { apply (good_world cols m m1 HG); [unfold same_world; cbn; auto | exact HF | exact Hd1]. }
  destruct (C40_polar_step m1 cols 1 1 0 G1 ltac:(lia)) as (k' & m2 & Hw & E2 & _ & M).
  assert (k' = 1). { destruct Hw as [[[_ P] _] | [_ ->]]; [exfalso; cbn in P; lra | reflexivity]. } subst k'. destruct M as [M _].
  exists pobs, m1, m2. split; [exact Ep |]. split; [exact Ew |]. split; [exact E2 |]. rewrite Hp by auto.
  destruct (nth_error obs ((mz_dir m + k) mod 4)) as [w |] eqn:En; [| apply nth_error_None in En; lia].
  apply Hs in En. change (mz_dir m1) with ((mz_dir m + k) mod 4) in M. unfold moved in M. change (mz_pos m1) with (mz_pos m) in M. change (mz_table m1) with (mz_table m) in M.
  f_equal. destruct En as [[_ En] | [[K _] _]]; [| exfalso; lra].
  destruct M as [(F & _ & ->) | (F & _ & ->)]; [now apply En |]. destruct w; [reflexivity | exfalso; apply F; now apply En].
Qed.
(** As the maze is drawn, a turn to the "left" goes clockwise and a turn to the "right" the other way. *)
Theorem C84_turn_left_refuted m v : on_screen (mz_dir m) = Some v -> (mz_stochAction m <= 1)%Q ->
  exists l r w, calm_polar m 3 = Ok l /\ on_screen (mz_dir l) = Some (clockwise v) /\
    calm_polar m 4 = Ok r /\ on_screen (mz_dir r) = Some w /\ v = clockwise w /\ mz_pos l = mz_pos m /\ mz_pos r = mz_pos m.
Proof.
  intros Hv HA. assert (Ea : qlt 1 (mz_stochAction m) = false) by (destruct (qlt_cases 1 (mz_stochAction m)) as [[_ K] | [K _]]; [exfalso; lra | auto]).
  unfold calm_polar, polar_performAction, noisy_action. rewrite Ea, andb_false_r. cbn [py_nth Z.leb Z.compare Z.to_nat Pos.to_nat Pos.iter_op Nat.add nth_error].
  destruct (mz_dir m) as [| [| [| [| x]]]] eqn:Ed; cbn in Hv; try discriminate; injection Hv as <-; eexists _, _, _;
    (split; [reflexivity |]); (split; [reflexivity |]); (split; [reflexivity |]); (split; [reflexivity |]); repeat split.
Qed.
Lemma draw_rows_nth m t : forall i r, nth_error (draw_rows m i t) r = option_map (draw_row m (i + Z.of_nat r) 0) (nth_error t r).
Proof.
  induction t as [| row t IH]; intros i [| r]; cbn [draw_rows nth_error option_map]; try reflexivity; [now rewrite Z.add_0_r |].
  rewrite IH. do 2 f_equal. lia.
Qed.
Lemma draw_row_nth m r row : forall j c, nth_error (draw_row m r j row) c = option_map (draw_cell m r (j + Z.of_nat c)) (nth_error row c).
Proof.
  induction row as [| p row IH]; intros j [| c]; cbn [draw_row nth_error option_map]; try reflexivity; [now rewrite Z.add_0_r |].
  rewrite IH. do 2 f_equal. lia.
Qed.
Lemma draw_rows_length m t : forall i, length (draw_rows m i t) = length t.
Proof. induction t as [| row t IH]; intros i; cbn [draw_rows length]; [auto | now rewrite IH]. Qed.
Lemma nth_error_rev {A} (l : list A) k : k < length l -> nth_error (rev l) (length l - 1 - k) = nth_error l k.
Proof.
  intros H. destruct (nth_error l k) as [x |] eqn:E; [| apply nth_error_None in E; lia].
  assert (x = nth k l x) by (symmetry; now apply nth_error_nth). rewrite H0 at 1.
  rewrite (nth_error_nth' _ x) by (rewrite rev_length; lia). rewrite rev_nth by lia. do 2 f_equal. lia.
Qed.
(** the drawing shows the goal, the agent, the walls and the free cells, the row 0 at the bottom *)
Theorem C84_draw m r c row wall : nth_error (mz_table m) r = Some row -> nth_error row c = Some wall ->
  length (draw m) = length (mz_table m) /\
  drawn m r c = Some (if is_goal (mz_goal m) (Z.of_nat r, Z.of_nat c) then Goal_ink
                      else if pos_eqb (mz_pos m) (Z.of_nat r, Z.of_nat c) then Agent_ink
                      else if wall then Wall_ink else Free_ink).
Proof.
  intros Hr Hc. assert (r < length (mz_table m)) by (apply nth_error_Some; congruence).
  split; [unfold draw; now rewrite rev_length, draw_rows_length |].
  unfold drawn, draw. rewrite <- (draw_rows_length m (mz_table m) 0). rewrite nth_error_rev by (now rewrite draw_rows_length).
  rewrite draw_rows_nth, Hr. cbn [option_map]. rewrite draw_row_nth, Hc. cbn [option_map]. unfold draw_cell. rewrite !Z.add_0_l.
  replace (pos_eqb (Z.of_nat r, Z.of_nat c) (mz_pos m)) with (pos_eqb (mz_pos m) (Z.of_nat r, Z.of_nat c)); [reflexivity |].
  unfold pos_eqb. cbn [fst snd]. f_equal; apply Z.eqb_sym.
Qed.

(** ** The cheese maze *)
(** whatever the walls and the noise, exactly one entry is set, the last one iff the goal is reached *)
Theorem C84_cheese_one_hot m cols us : good cols m ->
  exists obs i, cheese_getObservation m us = Ok obs /\ hot 7 i obs /\ (i = 6 <-> mz_goal m = Some (mz_pos m)).
Proof.
  intros HG. destruct (C40_sensors m cols us HG) as (s & Es & Ls & _). unfold cheese_getObservation. rewrite Es. cbn [rbind].
  assert (Hn : forall i, i < 7 -> (i = 6 <-> mz_goal m = Some (mz_pos m)) -> exists obs j, one_in 7 i = Ok obs /\ hot 7 j obs /\ (j = 6 <-> mz_goal m = Some (mz_pos m))).
  { intros i Hi P. destruct (one_in_hot 7 i Hi) as (l & E & H). exists l, i. auto. }
  destruct (is_goal (mz_goal m) (mz_pos m)) eqn:Eg; [apply goal_iff in Eg; apply Hn; [lia | tauto] |].
  assert (N : mz_goal m <> Some (mz_pos m)) by (intros K; apply goal_iff in K; congruence).
  do 4 (destruct s as [| ? s]; [discriminate |]). destruct s; [| discriminate].
  assert (Hm : forall i, i < 6 -> exists obs j, one_in 7 i = Ok obs /\ hot 7 j obs /\ (j = 6 <-> mz_goal m = Some (mz_pos m))).
  { intros i Hi. apply Hn; [lia |]. split; [lia | tauto]. }
  destruct b, b0, b1, b2; apply Hm; lia.
Qed.
(** which cells look alike *)
Definition cheese_at (p : pos) : maze := standing cheese_table cheese_goal 0 0 p 0.
Definition looks : list (pos * nat) :=
  [((1, 1)%Z, 0); ((1, 3)%Z, 6); ((1, 5)%Z, 0); ((2, 1)%Z, 4); ((2, 3)%Z, 4); ((2, 5)%Z, 4); ((3, 1)%Z, 2); ((3, 2)%Z, 3); ((3, 3)%Z, 5); ((3, 4)%Z, 3); ((3, 5)%Z, 1)].
Lemma cheese_free p : free cheese_table p <-> In p (map fst looks).
Proof. rewrite <- freePos_spec. assert (freePos cheese_table = map fst looks) by reflexivity. rewrite H. tauto. Qed.
Theorem C84_cheese_cells p us : free cheese_table p ->
  exists obs i, cheese_getObservation (cheese_at p) us = Ok obs /\ hot 7 i obs /\
    (i = 0 <-> p = (1, 1)%Z \/ p = (1, 5)%Z) /\        (* the dead ends *)
    (i = 1 <-> p = (3, 5)%Z) /\ (i = 2 <-> p = (3, 1)%Z) /\  (* the corners *)
    (i = 3 <-> p = (3, 2)%Z \/ p = (3, 4)%Z) /\        (* walls above and below *)
    (i = 4 <-> p = (2, 1)%Z \/ p = (2, 3)%Z \/ p = (2, 5)%Z) /\  (* walls on both sides *)
    (i = 5 <-> p = (3, 3)%Z) /\ (i = 6 <-> p = cheese_goal).
Proof.
  intros H. apply cheese_free in H. unfold cheese_goal.
  assert (K : exists i, In (p, i) looks /\ forall j, In (p, j) looks -> j = i).
  { cbn [looks map fst In] in H |- *. decompose [or] H; try contradiction; subst p; eexists; (split; [eauto 12 |]); intros j Hj; decompose [or] Hj; try contradiction; congruence. }
  cbn [looks map fst In] in H. decompose [or] H; try contradiction; subst p;
  match goal with |- exists obs i, ?x = Ok obs /\ _ => let v := eval vm_compute in x in change x with v end;
  match goal with |- context [Ok ?l = Ok _] =>
    let n := match l with
             | 1%Q :: _ => constr:(0) | _ :: 1%Q :: _ => constr:(1) | _ :: _ :: 1%Q :: _ => constr:(2) | _ :: _ :: _ :: 1%Q :: _ => constr:(3)
             | _ :: _ :: _ :: _ :: 1%Q :: _ => constr:(4) | _ :: _ :: _ :: _ :: _ :: 1%Q :: _ => constr:(5) | _ => constr:(6) end in
    exists l, n end;
  (split; [reflexivity |]); (split; [split; [lia |]; split; [reflexivity |]; intros [| [| [| [| [| [| [| [| j]]]]]]]]; reflexivity |]);
  repeat split; intros; try discriminate; auto; try congruence;
  repeat match goal with H : _ \/ _ |- _ => destruct H end; congruence.
Qed.
(** An agent that looks only at the current observation never finds the cheese from the left arm, whatever its rule. *)
Theorem C84_cheese_memory policy n m : memoryless policy n (cheese_at (2, 1)%Z) = Ok m -> mz_pos m <> cheese_goal.
Proof.
  set (a := policy [0; 0; 0; 0; 1; 0; 0]%Q).
  assert (HS : forall p b, mz_pos (with_pos (cheese_at (2, 1)%Z) p b) = p) by reflexivity.
  assert (Hg : forall p b, In p (map fst looks) -> exists i obs, In (p, i) looks /\ cheese_getObservation (with_pos (cheese_at (2, 1)%Z) p b) (fun _ => 0%Q) = Ok obs /\ obs = repeat 0%Q i ++ [1%Q] ++ repeat 0%Q (6 - i)).
  { intros p b Hp. cbn [looks map fst In] in Hp. decompose [or] Hp; try contradiction; subst p; eexists _, _; (split; [cbn [looks In]; eauto 12 |]); (split; [reflexivity |]); reflexivity. }
  assert (Dirs : forall z, py_nth allActions z = None \/ exists d, py_nth allActions z = Some d /\ (d = (1, 0) \/ d = (0, 1) \/ d = (-1, 0) \/ d = (0, -1))%Z).
  { intros z. destruct (py_nth allActions z) as [d |] eqn:E; [right | auto]. exists d. split; [auto |].
    assert (In d allActions) as K by (unfold py_nth in E; repeat match type of E with context [if ?c then _ else _] => destruct c end; try congruence; eapply nth_error_In; exact E).
    cbn [allActions In] in K. intuition congruence. }
  (* the cells that can be reached: the left arm if the rule goes south between walls, everything but the cheese otherwise *)
  set (ok := fun p : pos => In p (map fst looks) /\ p <> cheese_goal /\ (py_nth allActions a = Some (-1, 0)%Z -> p = (1, 1) \/ p = (2, 1))%Z).
  assert (Step : forall p b m', ok p -> (let! obs := cheese_getObservation (with_pos (cheese_at (2, 1)%Z) p b) (fun _ => 0%Q) in
       performAction (with_pos (cheese_at (2, 1)%Z) p b) (policy obs) 0 0) = Ok m' ->
       exists p' b', m' = with_pos (cheese_at (2, 1)%Z) p' b' /\ ok p').
  { intros p b m' (Hp & Ng & Hs) E. destruct (Hg p b Hp) as (i & obs & Hi & Eo & Ho). rewrite Eo in E. cbn [rbind] in E.
    unfold performAction in E. change (noisy_action _ 4 (policy obs) 0 0) with (policy obs) in E.
    destruct (Dirs (policy obs)) as [K | (d & K & Hd)]; rewrite K in E; [discriminate |].
    assert (Hpol : i = 4 -> py_nth allActions a = Some d). { intros ->. cbn in Ho. subst obs. exact K. }
    unfold ok. cbn [looks In] in Hi. decompose [or] Hi; try contradiction;
      match goal with H : _ = (p, i) |- _ => injection H as <- <- end; try (exfalso; apply Ng; reflexivity);
      (destruct Hd as [-> | [-> | [-> | ->]]]); vm_compute in E; injection E as <-;
      (eexists _, _; split; [reflexivity |]);
      (split; [cbn [looks map fst In]; eauto 12 |]); (split; [try discriminate | intros S; try (specialize (Hs S)); try (rewrite S in Hpol; specialize (Hpol eq_refl)); auto; try discriminate; try (destruct Hs; discriminate)]);
      try (specialize (Hpol eq_refl); specialize (Hs Hpol); destruct Hs; discriminate). }
  assert (Run : forall n p b m, ok p -> memoryless policy n (with_pos (cheese_at (2, 1)%Z) p b) = Ok m -> mz_pos m <> cheese_goal).
  { clear n m. induction n as [| n IH]; intros p b m Hp E; cbn [memoryless] in E.
    - injection E as <-. rewrite HS. apply Hp.
    - destruct (cheese_getObservation (with_pos (cheese_at (2, 1)%Z) p b) (fun _ => 0%Q)) as [obs | x] eqn:Eo; [| discriminate]. cbn [rbind] in E.
      destruct (performAction (with_pos (cheese_at (2, 1)%Z) p b) (policy obs) 0 0) as [m' | x] eqn:Ep; [| discriminate]. cbn [rbind] in E.
      destruct (Step p b m' Hp) as (p' & b' & -> & Hp'); [rewrite Eo; cbn [rbind]; exact Ep |]. eapply IH; eauto. }
  intros E. apply (Run n (2, 1)%Z false m); [| exact E]. split; [cbn; auto 12 |]. split; [discriminate | auto].
Qed.
