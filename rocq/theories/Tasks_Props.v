(** Property C84 (the remaining maze tasks). *)
From Verif Require Import Base Maze_Model Maze_Props Tasks_Model Tasks_Spec.
From Coq Require Import QArith Lqa.
Local Open Scope nat_scope.

Lemma qlt_cases x y : (qlt x y = true /\ (x < y)%Q) \/ (qlt x y = false /\ (y <= x)%Q).
Proof. destruct (qlt x y) eqn:E; [left; split; [auto | now apply qlt_iff] | right; split; [auto |]]. destruct (Qlt_le_dec x y) as [K | K]; [apply qlt_iff in K; congruence | auto]. Qed.

(** ** The shuttle *)
(** the environment of the task, by column, facing and bang *)
Definition ship (c : Z) (e b : bool) : maze :=
  {| mz_table := shuttle_table; mz_goal := Some shuttle_goal; mz_init := [(1, 1)%Z]; mz_pos := (1%Z, c); mz_bang := b; mz_dir := if e then 1 else 3;
     mz_stochAction := 0; mz_stochObs := 0 |}.
Definition voyage (steps : nat) (m : maze) : task :=
  {| tk_env := m; tk_steps := steps; tk_samples := 0; tk_cum := 0%Q; tk_discount := Some (95 # 100)%Q; tk_maxSteps := None;
     tk_bangPenalty := (-3)%Q; tk_defaultPenalty := 0%Q; tk_finalReward := 10%Q |}.
Lemma five c : (1 <= c <= 5)%Z -> c = 1%Z \/ c = 2%Z \/ c = 3%Z \/ c = 4%Z \/ c = 5%Z.
Proof. lia. Qed.
Lemma shuttle_start d d2 : shuttle d d2 = Ok (voyage 0 (ship 1 true false)).
Proof.
  unfold shuttle, mkMaze. cbn [rbind]. unfold reset at 1. cbn [mz_init choose length]. rewrite Nat.mod_1_r. cbn [nth rbind].
  unfold shuttle_reset, polar_reset, reset, with_pos. cbn [tk_env mz_init choose length]. rewrite Nat.mod_1_r. reflexivity.
Qed.
Definition clip_back (c : Z) (e : bool) : Z := if e then Z.max 1 (c - 1) else Z.min 5 (c + 1).
Lemma turn_ship c e b : shuttle_turn (ship c e b) = Ok (ship c (negb e) false).
Proof. destruct e; reflexivity. Qed.
Lemma forward_ship c e b : (1 <= c <= 5)%Z -> shuttle_forward (ship c e b) = Ok (ship c (negb e) (Z.eqb c 1 || Z.eqb c 5)).
Proof. intros H. destruct (five c H) as [-> | [-> | [-> | [-> | ->]]]]; destruct e; reflexivity. Qed.
Lemma backup_ship c e b : (1 <= c <= 5)%Z -> shuttle_backup (ship c e b) = Ok (ship (clip_back c e) e false).
Proof. intros H. destruct (five c H) as [-> | [-> | [-> | [-> | ->]]]]; destruct e; reflexivity. Qed.
(** the draws below which a Backup turns, and below which it turns or backs *)
Definition limits (c : Z) (e : bool) : Q * Q :=
  if Z.eqb c 3 then (1 # 10, 9 # 10)%Q
  else if (Z.eqb c 2 && negb e) || (Z.eqb c 4 && e) then (3 # 10, 6 # 10)%Q else (0, 7 # 10)%Q.
Definition outcome (c : Z) (e b : bool) (a : Z) (r : Q) (c' : Z) (e' b' : bool) : Prop :=
  (a = 2%Z /\ c' = c /\ e' = negb e /\ b' = false) \/
  (a = 1%Z /\ c' = c /\ e' = negb e /\ b' = (Z.eqb c 1 || Z.eqb c 5)) \/
  (a <> 1%Z /\ a <> 2%Z /\
   (((r < fst (limits c e))%Q /\ c' = c /\ e' = negb e /\ b' = false) \/
    ((fst (limits c e) <= r < snd (limits c e))%Q /\ c' = clip_back c e /\ e' = e /\ b' = false) \/
    ((snd (limits c e) <= r)%Q /\ c' = c /\ e' = e /\ b' = b))).
Lemma clip_in c e : (1 <= c <= 5)%Z -> (1 <= clip_back c e <= 5)%Z.
Proof. unfold clip_back. destruct e; lia. Qed.
Lemma move_ship c e b a r : (1 <= c <= 5)%Z -> (0 <= r)%Q ->
  exists c' e' b', shuttle_move (ship c e b) a r = Ok (ship c' e' b') /\ (1 <= c' <= 5)%Z /\ outcome c e b a r c' e' b'.
Proof.
  intros H Hr. unfold shuttle_move. destruct (Z.eqb_spec a 2) as [-> | N2].
  { rewrite turn_ship. exists c, (negb e), false. split; [auto |]. split; [auto |]. left. auto. }
  destruct (Z.eqb_spec a 1) as [-> | N1].
  { rewrite forward_ship by auto. eexists _, _, _. split; [reflexivity |]. split; [auto |]. right; left. auto. }
  assert (HT : forall x, (r < fst (limits c e))%Q -> x = Ok (ship c (negb e) false) ->
     exists c' e' b', x = Ok (ship c' e' b') /\ (1 <= c' <= 5)%Z /\ outcome c e b a r c' e' b').
  { intros x Hx ->. exists c, (negb e), false. split; [auto |]. split; [auto |]. right; right. do 2 (split; [auto |]). left. auto. }
  assert (HB : forall x, (fst (limits c e) <= r < snd (limits c e))%Q -> x = Ok (ship (clip_back c e) e false) ->
     exists c' e' b', x = Ok (ship c' e' b') /\ (1 <= c' <= 5)%Z /\ outcome c e b a r c' e' b').
  { intros x Hx ->. exists (clip_back c e), e, false. split; [auto |]. split; [now apply clip_in |]. right; right. do 2 (split; [auto |]). right; left. auto. }
  assert (HI : forall x, (snd (limits c e) <= r)%Q -> x = Ok (ship c e b) ->
     exists c' e' b', x = Ok (ship c' e' b') /\ (1 <= c' <= 5)%Z /\ outcome c e b a r c' e' b').
  { intros x Hx ->. exists c, e, b. split; [auto |]. split; [auto |]. right; right. do 2 (split; [auto |]). right; right. auto. }
  cbn [mz_pos snd ship mz_dir]. unfold limits in HT, HB, HI.
  replace ((if e then 1 else 3) =? 3) with (negb e) by (destruct e; reflexivity).
  replace ((if e then 1 else 3) =? 1) with e by (destruct e; reflexivity).
  destruct (Z.eqb c 3).
  - cbn [fst snd] in HT, HB, HI. destruct (qlt_cases r (1 # 10)) as [[-> K] | [-> K]]; [apply HT; [auto | apply turn_ship] |].
    destruct (qlt_cases r (9 # 10)) as [[-> K'] | [-> K']]; [apply HB; [auto | now apply backup_ship] | apply HI; auto].
  - destruct ((Z.eqb c 2 && negb e) || (Z.eqb c 4 && e)); cbn [fst snd] in HT, HB, HI.
    + destruct (qlt_cases r (3 # 10)) as [[-> K] | [-> K]]; [apply HT; [auto | apply turn_ship] |].
      destruct (qlt_cases r (6 # 10)) as [[-> K'] | [-> K']]; [apply HB; [auto | now apply backup_ship] | apply HI; auto].
    + destruct (qlt_cases r (7 # 10)) as [[-> K] | [-> K]]; [apply HB; [auto | now apply backup_ship] | apply HI; auto].
Qed.
Lemma perform_voyage n c e b a r : (1 <= c <= 5)%Z -> (0 <= r)%Q ->
  exists c' e' b', shuttle_performAction (voyage n (ship c e b)) a r = Ok (voyage (n + 1) (ship c' e' b')) /\ (1 <= c' <= 5)%Z /\ outcome c e b a r c' e' b'.
Proof.
  intros H Hr. destruct (move_ship c e b a r H Hr) as (c' & e' & b' & E & H' & O). exists c', e', b'. split; [| auto].
  unfold shuttle_performAction. cbn [voyage tk_env]. rewrite E. reflexivity.
Qed.
Definition draws (acts : list (Z * Q)) : Prop := Forall (fun x => (0 <= snd x < 1)%Q) acts.
Definition phi (c : Z) (e : bool) : Z := (5 - c + if e && negb (Z.eqb c 5) then 1 else 0)%Z.
Lemma phi_step c e b a r c' e' b' : (1 <= c <= 5)%Z -> outcome c e b a r c' e' b' -> (phi c e <= phi c' e' + 1)%Z.
Proof.
  unfold phi, outcome, clip_back.
  intros H [(_ & -> & -> & _) | [(_ & -> & -> & _) | (_ & _ & [(_ & -> & -> & _) | [(_ & -> & -> & _) | (_ & -> & -> & _)]])]]; destruct e; cbn [negb andb];
    repeat match goal with |- context [Z.eqb ?x 5] => destruct (Z.eqb_spec x 5) end; cbn [negb]; lia.
Qed.
Lemma fly_voyage acts : forall n c e b, draws acts -> (1 <= c <= 5)%Z ->
  exists c' e' b', fly (voyage n (ship c e b)) acts = Ok (voyage (n + length acts) (ship c' e' b')) /\ (1 <= c' <= 5)%Z /\
    (phi c e <= phi c' e' + Z.of_nat (length acts))%Z.
Proof.
  induction acts as [| [a r] acts IH]; intros n c e b HD H; cbn [fly length].
  - exists c, e, b. rewrite Nat.add_0_r. split; [auto |]. split; [auto | lia].
  - inversion HD as [| ? ? H1 H2]; subst. cbn [snd] in H1. destruct (perform_voyage n c e b a r H (proj1 H1)) as (c1 & e1 & b1 & -> & B1 & O). cbn [rbind].
    destruct (IH (n + 1) c1 e1 b1 H2 B1) as (c' & e' & b' & E & B' & P). exists c', e', b'. split; [rewrite E; do 2 f_equal; lia |]. split; [auto |].
    pose proof (phi_step _ _ _ _ _ _ _ _ H O). lia.
Qed.
Lemma flown_voyage acts t : draws acts -> flown acts t ->
  exists c e b, t = voyage (length acts) (ship c e b) /\ (1 <= c <= 5)%Z /\ (5 <= phi c e + Z.of_nat (length acts))%Z.
Proof.
  intros HD (d & d2 & t0 & E0 & E). rewrite shuttle_start in E0. injection E0 as <-.
  destruct (fly_voyage acts 0 1 true false HD ltac:(lia)) as (c & e & b & E' & B & P). rewrite E' in E. injection E as <-. cbn [Nat.add]. exists c, e, b. auto.
Qed.
Lemma facing_iff n c e b : (facing_new (voyage n (ship c e b)) <-> e = true) /\ (facing_old (voyage n (ship c e b)) <-> e = false).
Proof. unfold facing_new, facing_old. cbn [voyage tk_env ship mz_dir]. destruct e; split; split; (discriminate || reflexivity). Qed.
Lemma column_voyage n c e b : column (voyage n (ship c e b)) = c.
Proof. reflexivity. Qed.
Lemma banged_voyage n c e b : banged (voyage n (ship c e b)) = b.
Proof. reflexivity. Qed.

(** Whatever is done and drawn, nothing fails, the ship stays in the corridor and looks along it; every step is counted, and
    the goal is reached after five steps at the earliest. *)
Theorem C84_shuttle_safe acts : draws acts ->
  exists t, flown acts t /\ in_corridor t /\ tk_steps t = length acts /\
    (maze_isFinished t = true <-> column t = 5%Z) /\ (maze_isFinished t = true -> 5 <= length acts).
Proof.
  intros HD. destruct (fly_voyage acts 0 1 true false HD ltac:(lia)) as (c & e & b & E & B & P).
  exists (voyage (length acts) (ship c e b)). split; [exists 0, 0, (voyage 0 (ship 1 true false)); split; [apply shuttle_start | exact E] |].
  split. { split; [reflexivity |]. rewrite column_voyage. split; [auto |]. destruct (facing_iff (length acts) c e b) as [F1 F2]. destruct e; [left; now apply F1 | right; now apply F2]. }
  split; [reflexivity |]. rewrite column_voyage.
  assert (F : maze_isFinished (voyage (length acts) (ship c e b)) = true <-> c = 5%Z).
  { unfold maze_isFinished. cbn [voyage tk_env ship mz_goal mz_pos is_goal tk_maxSteps]. rewrite orb_false_r. rewrite pos_eqb_iff. unfold shuttle_goal. split; [intros [=]; auto | intros ->; auto]. }
  split; [exact F |]. intros K. apply F in K. subst c. unfold phi in P. rewrite andb_false_r in P. cbn in P. lia.
Qed.
(** what one action does to a ship that has flown *)
Theorem C84_shuttle_step acts t a r : draws acts -> flown acts t -> (0 <= r)%Q ->
  exists t', shuttle_performAction t a r = Ok t' /\ tk_steps t' = tk_steps t + 1 /\
    (a = 2%Z -> turned t t' /\ banged t' = false) /\
    (a <> 1%Z -> a <> 2%Z -> exists turn back, chances t turn back /\
        ((r < turn)%Q -> turned t t' /\ banged t' = false) /\
        ((turn <= r < back)%Q -> backed t t') /\
        ((back <= r)%Q -> idle t t')).
Proof.
  intros HD HF Hr. destruct (flown_voyage acts t HD HF) as (c & e & b & -> & B & _).
  destruct (perform_voyage (length acts) c e b a r B Hr) as (c' & e' & b' & E & B' & O). eexists. split; [exact E |]. split; [reflexivity |].
  destruct (facing_iff (length acts) c e b) as [F1 F2]. destruct (facing_iff (length acts + 1) c' e' b') as [F3 F4].
  assert (HT : c' = c -> e' = negb e -> turned (voyage (length acts) (ship c e b)) (voyage (length acts + 1) (ship c' e' b'))).
  { intros -> ->. unfold turned. rewrite F1, F2, F3, F4. split; [reflexivity |]. destruct e; cbn [negb]; intuition congruence. }
  assert (HS : e' = e -> same_facing (voyage (length acts) (ship c e b)) (voyage (length acts + 1) (ship c' e' b'))).
  { intros ->. unfold same_facing. rewrite F1, F2, F3, F4. tauto. }
  split.
  - intros ->. destruct O as [(_ & A1 & A2 & A3) | [(A & _) | (_ & A & _)]]; [| discriminate | congruence]. split; [auto | exact A3].
  - intros N1 N2. destruct O as [(A & _) | [(A & _) | (_ & _ & O)]]; [congruence | congruence |].
    exists (fst (limits c e)), (snd (limits c e)). split.
    { unfold chances. rewrite F1, F2, column_voyage. unfold limits. destruct (five c B) as [-> | [-> | [-> | [-> | ->]]]]; destruct e; cbn; auto 10. }
    destruct O as [(A & A1 & A2 & A3) | [(A & A1 & A2 & A3) | (A & A1 & A2 & A3)]].
    + split; [intros _; split; [auto | exact A3] |]. assert (fst (limits c e) <= snd (limits c e))%Q by (unfold limits; destruct (Z.eqb c 3); [| destruct ((Z.eqb c 2 && negb e) || (Z.eqb c 4 && e))]; cbn; lra).
      split; [intros [? ?] | intros]; exfalso; lra.
    + destruct A as [Ax Ay]. split; [intros; exfalso; lra |]. split; [intros _ | intros; exfalso; lra]. split; [auto |]. rewrite F1, F2, !column_voyage, A1. unfold clip_back. split; intros ->; reflexivity.
    + assert (fst (limits c e) <= snd (limits c e))%Q by (unfold limits; destruct (Z.eqb c 3); [| destruct ((Z.eqb c 2 && negb e) || (Z.eqb c 4 && e))]; cbn; lra).
      split; [intros; exfalso; lra |]. split; [intros [? ?]; exfalso; lra |]. intros _. split; [auto |]. split; [rewrite !column_voyage; auto | rewrite !banged_voyage; auto].
Qed.
(** the new station is entered backwards: by a Backup, with the old station in front *)
Theorem C84_shuttle_docks acts t a r t' : draws acts -> flown acts t -> (0 <= r)%Q -> maze_isFinished t = false ->
  shuttle_performAction t a r = Ok t' -> maze_isFinished t' = true ->
  a <> 1%Z /\ a <> 2%Z /\ (r < 7 # 10)%Q /\ column t = 4%Z /\ facing_old t /\ facing_old t' /\ fst (maze_getReward t') = 10%Q.
Proof.
  intros HD HF Hr N E F. destruct (flown_voyage acts t HD HF) as (c & e & b & -> & B & _).
  destruct (perform_voyage (length acts) c e b a r B Hr) as (c' & e' & b' & E' & B' & O). rewrite E' in E. injection E as <-.
  assert (Fin : forall n x y z, maze_isFinished (voyage n (ship x y z)) = true <-> x = 5%Z).
  { intros n x y z. unfold maze_isFinished. cbn [voyage tk_env ship mz_goal mz_pos is_goal tk_maxSteps]. rewrite orb_false_r. rewrite pos_eqb_iff. unfold shuttle_goal. split; [intros [=]; auto | intros ->; auto]. }
  apply Fin in F. assert (Nc : c <> 5%Z) by (intros K; apply (Fin (length acts) c e b) in K; congruence). subst c'.
  destruct O as [(_ & A & _) | [(_ & A & _) | (N1 & N2 & [(_ & A & _) | [(R & A & -> & _) | (_ & A & _)]])]]; try congruence.
  destruct (facing_iff (length acts) c e b) as [_ F2]. destruct (facing_iff (length acts + 1) 5 e b') as [_ F4]. rewrite F2, F4, column_voyage.
  unfold clip_back in A. destruct e; [lia |]. assert (c = 4%Z) by lia. subst c. cbn in R.
  do 2 (split; [auto |]). split; [lra |]. do 3 (split; [reflexivity |]). reflexivity.
Qed.
(** and that is possible in five steps *)
Example shuttle_best : exists t, flown [(2%Z, 0%Q); (0%Z, (1 # 2)%Q); (0%Z, (1 # 2)%Q); (0%Z, (1 # 2)%Q); (0%Z, (1 # 2)%Q)] t /\
  maze_isFinished t = true /\ fst (maze_getReward t) = 10%Q /\ facing_old t.
Proof. eexists. split; [exists 0, 0; eexists; split; [apply shuttle_start | vm_compute; reflexivity] |]. vm_compute. auto. Qed.
(** "Forward" turns the ship and never moves it *)
Theorem C84_shuttle_forward_refuted acts t r : draws acts -> flown acts t -> (0 <= r)%Q ->
  exists t', shuttle_performAction t 1 r = Ok t' /\ turned t t' /\ (banged t' = true <-> column t = 1%Z \/ column t = 5%Z).
Proof.
  intros HD HF Hr. destruct (flown_voyage acts t HD HF) as (c & e & b & -> & B & _).
  destruct (perform_voyage (length acts) c e b 1 r B Hr) as (c' & e' & b' & E & B' & O). eexists. split; [exact E |].
  destruct O as [(A & _) | [(_ & -> & -> & ->) | (A & _)]]; [discriminate | | congruence].
  destruct (facing_iff (length acts) c e b) as [F1 F2]. destruct (facing_iff (length acts + 1) c (negb e) (Z.eqb c 1 || Z.eqb c 5)) as [F3 F4].
  split; [| rewrite banged_voyage, column_voyage, orb_true_iff, !Z.eqb_eq; tauto].
  unfold turned. rewrite F1, F2, F3, F4. split; [reflexivity |]. destruct e; cbn [negb]; intuition congruence.
Qed.
(** A Backup is not punished when it hits the wall behind the ship, but a Backup that does nothing is punished for an
    earlier Forward. *)
Theorem C84_shuttle_bang_refuted acts t a r : draws acts -> flown acts t -> (0 <= r)%Q -> a <> 1%Z ->
  (exists t', shuttle_performAction t a r = Ok t' /\ (banged t' = true -> idle t t' /\ banged t = true)) /\
  (exists u v t1 t2, shuttle 0 0 = Ok u /\ fly u [(1%Z, 0%Q)] = Ok v /\ fly v [(0%Z, (1 # 2)%Q)] = Ok t1 /\ fly v [(0%Z, (8 # 10)%Q)] = Ok t2 /\
     column v = 1%Z /\ facing_old v /\ column t1 = 2%Z /\
     fst (maze_getReward t1) = 0%Q /\ idle v t2 /\ fst (maze_getReward t2) = (-3)%Q) /\
  (exists u t1, shuttle 0 0 = Ok u /\ fly u [(0%Z, (1 # 2)%Q)] = Ok t1 /\ facing_new u /\ column u = 1%Z /\ column t1 = 1%Z /\ fst (maze_getReward t1) = 0%Q).
Proof.
  intros HD HF Hr N1. split; [| split].
  - destruct (flown_voyage acts t HD HF) as (c & e & b & -> & B & _).
    destruct (perform_voyage (length acts) c e b a r B Hr) as (c' & e' & b' & E & B' & O). eexists. split; [exact E |]. rewrite !banged_voyage. intros ->.
    destruct O as [(_ & _ & _ & A) | [(A & _) | (_ & _ & [(_ & _ & _ & A) | [(_ & _ & _ & A) | (_ & -> & -> & <-)]])]]; try congruence.
    split; [| auto]. unfold idle, same_facing. destruct (facing_iff (length acts) c e true) as [F1 F2]. destruct (facing_iff (length acts + 1) c e true) as [F3 F4].
    rewrite F1, F2, F3, F4. split; [tauto |]. split; reflexivity.
  - eexists _, _, _, _. split; [apply shuttle_start |]. split; [vm_compute; reflexivity |]. split; [vm_compute; reflexivity |]. split; [vm_compute; reflexivity |].
    split; [reflexivity |]. split; [reflexivity |]. split; [reflexivity |]. split; [reflexivity |]. split; [| reflexivity]. repeat split; vm_compute; (discriminate || auto).
  - eexists _, _. split; [apply shuttle_start |]. split; [vm_compute; reflexivity |]. repeat split; reflexivity.
Qed.
(** the rewards of the steps are never added up *)
Theorem C84_shuttle_total_refuted acts t : draws acts -> flown acts t -> tk_cum t = 0%Q /\ tk_samples t = 0.
Proof. intros HD HF. destruct (flown_voyage acts t HD HF) as (c & e & b & -> & _). auto. Qed.

Lemma one_in_hot n i : i < n -> exists l, one_in n i = Ok l /\ hot n i l.
Proof.
  intros H. unfold one_in. destruct (Nat.ltb_spec i n); [| lia]. eexists. split; [reflexivity |]. split; [auto |]. split.
  - rewrite !app_length, !repeat_length. cbn. lia.
  - intros j. destruct (Nat.eqb_spec j i) as [-> | N].
    + rewrite app_nth2 by (rewrite repeat_length; lia). rewrite repeat_length, Nat.sub_diag. reflexivity.
    + destruct (Nat.lt_ge_cases j i) as [L | L].
      * rewrite app_nth1 by (rewrite repeat_length; lia). apply nth_repeat.
      * rewrite app_nth2 by (rewrite repeat_length; lia). rewrite repeat_length. destruct (j - i) as [| k] eqn:Ej; [lia |]. cbn [app nth]. apply nth_repeat.
Qed.
(** The observation has exactly one entry set: the station the ship is in, or otherwise the station it looks at - in the
    middle of the corridor, with the larger draws, the other one.  The entry for seeing nothing (2) is never set. *)
Theorem C84_shuttle_observation acts t u : draws acts -> flown acts t ->
  exists obs i, shuttle_getObservation (tk_env t) u = Ok obs /\ hot 5 i obs /\ i <> 2 /\
    (i = 0 <-> column t = 1%Z) /\ (i = 4 <-> column t = 5%Z) /\
    ((1 < column t < 5)%Z -> (column t <> 3%Z \/ (u <= 7 # 10)%Q) -> (i = 3 <-> facing_new t) /\ (i = 1 <-> facing_old t)) /\
    (column t = 3%Z -> (7 # 10 < u)%Q -> (i = 1 <-> facing_new t) /\ (i = 3 <-> facing_old t)).
Proof.
  intros HD HF. destruct (flown_voyage acts t HD HF) as (c & e & b & -> & B & _). destruct (facing_iff (length acts) c e b) as [F1 F2]. setoid_rewrite F1; setoid_rewrite F2; rewrite column_voyage. cbn [voyage tk_env].
  unfold shuttle_getObservation. cbn [ship mz_goal mz_pos is_goal at_init0 mz_init mz_dir snd]. unfold shuttle_goal, pos_eqb. cbn [fst snd]. rewrite Z.eqb_refl. cbn [andb rbind].
  assert (Hn : forall i, i < 5 -> exists l, one_in 5 i = Ok l /\ hot 5 i l) by (intros; now apply one_in_hot).
  destruct (five c B) as [-> | [-> | [-> | [-> | ->]]]]; cbn [Z.eqb Pos.eqb].
  - destruct (Hn 0 ltac:(lia)) as (l & -> & Hl). exists l, 0. split; [auto |]. split; [auto |]. split; [lia |]. split; [tauto |]. split; [split; [discriminate | lia] |]. split; intros; lia.
  - destruct (Hn (((if e then 1 else 3) + 2) mod 4)) as (l & -> & Hl); [destruct e; cbn; lia |]. eexists l, _. split; [reflexivity |]. split; [exact Hl |].
    destruct e; cbn -[hot]; (split; [lia |]); (split; [split; [discriminate | lia] |]); (split; [split; [discriminate | lia] |]); (split; [| intros; lia]); intros _ _; intuition congruence.
  - destruct (qlt_cases (7 # 10) u) as [[-> K] | [-> K]].
    + destruct (Hn (if e then 1 else 3)) as (l & -> & Hl); [destruct e; lia |]. eexists l, _. split; [reflexivity |]. split; [exact Hl |].
      destruct e; (split; [lia |]); (split; [split; [discriminate | lia] |]); (split; [split; [discriminate | lia] |]); (split; [intros _ [L | L]; [lia | exfalso; lra] |]); intros _ _; intuition congruence.
    + destruct (Hn (((if e then 1 else 3) + 2) mod 4)) as (l & -> & Hl); [destruct e; cbn; lia |]. eexists l, _. split; [reflexivity |]. split; [exact Hl |].
      destruct e; cbn -[hot]; (split; [lia |]); (split; [split; [discriminate | lia] |]); (split; [split; [discriminate | lia] |]); (split; [intros _ _; intuition congruence |]); intros _ L; exfalso; lra.
  - destruct (Hn (((if e then 1 else 3) + 2) mod 4)) as (l & -> & Hl); [destruct e; cbn; lia |]. eexists l, _. split; [reflexivity |]. split; [exact Hl |].
    destruct e; cbn -[hot]; (split; [lia |]); (split; [split; [discriminate | lia] |]); (split; [split; [discriminate | lia] |]); (split; [| intros; lia]); intros _ _; intuition congruence.
  - destruct (Hn 4 ltac:(lia)) as (l & -> & Hl). exists l, 4. split; [auto |]. split; [auto |]. split; [lia |]. split; [split; [discriminate | lia] |]. split; [tauto |]. split; intros; lia.
Qed.
Example shuttle_case : exists t, flown [(2%Z, 0%Q); (0%Z, (1 # 2)%Q)] t /\ in_corridor t /\ column t = 2%Z /\ facing_old t /\ draws [(2%Z, 0%Q); (0%Z, (1 # 2)%Q)].
Proof.
  eexists. split; [exists 0, 0; eexists; split; [apply shuttle_start | vm_compute; reflexivity] |]. split; [split; [reflexivity | split; [vm_compute; split; discriminate | right; reflexivity]] |].
  split; [reflexivity |]. split; [reflexivity |]. repeat constructor; cbn; lra.
Qed.
Print Assumptions C84_shuttle_safe.
Print Assumptions C84_shuttle_step.
Print Assumptions C84_shuttle_docks.
Print Assumptions C84_shuttle_forward_refuted.
Print Assumptions C84_shuttle_bang_refuted.
Print Assumptions C84_shuttle_total_refuted.
Print Assumptions C84_shuttle_observation.
