(** Property C84, continued: the 4x3 maze, the 89-state maze, and ways to the goal. *)
From Verif Require Import Base Maze_Model Maze_Props Tasks_Model Tasks_Spec Tasks_Props Tasks_Props2.
From Coq Require Import QArith Lqa.
Local Open Scope nat_scope.

(** ** Construction of the mazes *)
Definition freeb (t : list (list bool)) (p : pos) : bool := existsb (pos_eqb p) (freePos t).
Lemma freeb_spec t p : freeb t p = true <-> free t p.
Proof.
  unfold freeb. rewrite <- freePos_spec, existsb_exists. split.
  - intros (x & H & E). apply pos_eqb_iff in E. now subst.
  - intros H. exists p. split; [auto | now apply pos_eqb_iff].
Qed.
Definition enclosedb (t : list (list bool)) (cols : nat) : bool :=
  forallb (fun r => length r =? cols) t &&
  forallb (fun p => (1 <=? fst p) && (fst p + 1 <? Z.of_nat (length t)) && (1 <=? snd p) && (snd p + 1 <? Z.of_nat cols))%Z (freePos t).
Lemma enclosedb_spec t cols : enclosedb t cols = true -> enclosed t cols.
Proof.
  unfold enclosedb. rewrite andb_true_iff, !forallb_forall. intros [A B]. split.
  - apply Forall_forall. intros r Hr. now apply Nat.eqb_eq, A.
  - intros i j H. apply freePos_spec in H. apply B in H. cbn [fst snd] in H. rewrite !andb_true_iff, !Z.leb_le, !Z.ltb_lt in H. lia.
Qed.
Lemma four_enclosed : enclosed four_table 6. Proof. now apply enclosedb_spec. Qed.
Lemma cheese_enclosed : enclosed cheese_table 7. Proof. now apply enclosedb_spec. Qed.
Lemma eightynine_enclosed : enclosed eightynine_table 9. Proof. now apply enclosedb_spec. Qed.

(** ** The 4x3 maze *)
Definition four_wf (f : four) : Prop :=
  good 6 (tk_env (fo_task f)) /\ mz_table (tk_env (fo_task f)) = four_table /\ mz_goal (tk_env (fo_task f)) = Some four_goal /\
  fo_bad f = false /\ tk_finalReward (fo_task f) = 1%Q /\ tk_bangPenalty (fo_task f) = (-4 # 100)%Q /\ tk_defaultPenalty (fo_task f) = (-4 # 100)%Q /\
  fo_minReward f = (-4 # 100)%Q.
Lemma four_init_free p : In p four_init -> free four_table p /\ p <> four_goal /\ p <> (2, 4)%Z.
Proof.
  intros H. split; [apply freeb_spec; assert (K : forallb (freeb four_table) four_init = true) by reflexivity; rewrite forallb_forall in K; auto |].
  cbn [four_init In] in H. unfold four_goal. split; intros ->; decompose [or] H; (contradiction || congruence).
Qed.
Lemma mkFour_spec d : exists f, mkFour d = Ok f /\ four_wf f /\ In (mz_pos (tk_env (fo_task f))) four_init /\ tk_steps (fo_task f) = 0 /\ tk_cum (fo_task f) = 0%Q.
Proof.
  unfold mkFour. destruct (C40_construct four_table 6 (Some four_goal) (Some four_init) (1 # 10) 0 d four_enclosed) as (m & -> & G & ET & EG & EI).
  { split; [discriminate |]. intros p Hp. now apply four_init_free. }
  cbn [rbind]. unfold four_reset, task_reset. cbn [fo_task tk_env]. destruct (good_reset 6 m d G) as (m' & -> & G' & (W1 & W2 & W3 & _) & _ & Hp).
  cbn [rbind]. eexists. split; [reflexivity |]. unfold four_wf. cbn [fo_task tk_env fo_bad tk_finalReward tk_bangPenalty tk_defaultPenalty fo_minReward tk_steps tk_cum].
  rewrite EI in Hp. split; [| auto]. split; [auto |]. split; [congruence |]. split; [congruence |]. repeat split.
Qed.
Lemma poss_in a : a < 4 -> maze4x3_poss (Z.of_nat a) <> [] /\ forall x, In x (maze4x3_poss (Z.of_nat a)) -> exists k, x = Z.of_nat k /\ k < 4.
Proof.
  intros H. unfold maze4x3_poss. split.
  - destruct a as [| [| [| [| a]]]]; [cbn; discriminate .. | lia].
  - intros x Hx. apply filter_In in Hx. destruct Hx as [Hx _]. cbn in Hx. exists (Z.to_nat x). decompose [or] Hx; try contradiction; subst x; cbn; split; lia.
Qed.
Lemma four_step f a u1 c1 u d : four_wf f -> a < 4 -> exists f', four_performAction f (Z.of_nat a) u1 c1 u d = Ok f' /\ four_wf f' /\
  tk_steps (fo_task f') = tk_steps (fo_task f) + 1.
Proof.
  intros (G & ET & EG & EB & E1 & E2 & E3 & E4) Ha. unfold four_performAction. destruct (poss_in a Ha) as [Hne Hin].
  assert (exists k, k < 4 /\ (if qlt u1 (mz_stochAction (tk_env (fo_task f)) * inject_Z (Z.of_nat (length (maze4x3_poss (Z.of_nat a)))))
    then match maze4x3_poss (Z.of_nat a) with [] => Err IndexError | p :: _ => Ok (nth (c1 mod length (maze4x3_poss (Z.of_nat a))) (maze4x3_poss (Z.of_nat a)) p) end
    else Ok (Z.of_nat a)) = Ok (Z.of_nat k)) as (k & Hk & ->).
  { destruct (qlt u1 _); [| exists a; auto]. destruct (maze4x3_poss (Z.of_nat a)) as [| p l] eqn:El; [congruence |].
    destruct (Hin (nth (c1 mod length (p :: l)) (p :: l) p)) as (k & Ek & Hk); [apply nth_In; apply Nat.mod_upper_bound; cbn; lia |]. exists k. split; [auto | congruence]. }
  cbn [rbind]. unfold task_performAction.
  destruct (C40_step (tk_env (fo_task f)) 6 k u d (proj1 G) (proj1 (proj2 (proj2 (proj2 G)))) Hk) as (k' & m1 & _ & E & M & W).
  assert (HD : mz_dir m1 = mz_dir (tk_env (fo_task f))).
  { unfold performAction in E. destruct (py_nth _ _); [| discriminate]. unfold try_move in E. destruct (table_at _ _) as [[|] |]; [.. | discriminate]; injection E as <-; reflexivity. }
  rewrite E. cbn [rbind]. eexists. split; [reflexivity |]. rewrite EB.
  unfold four_wf, addReward, four_getReward, maze_getReward. cbn [fo_task fo_bad fo_minReward tk_env tk_steps tk_finalReward tk_bangPenalty tk_defaultPenalty].
  split; [| reflexivity]. split; [eapply good_world; eauto; [eapply moved_free; eauto; apply G | rewrite HD; apply G] |].
  destruct W as (W1 & W2 & _). split; [congruence |]. split; [congruence |]. auto.
Qed.
(** The documented bad cell (2, 4) is a cell like the others: whatever is done, the flag for it is never set, every reward is
    1 at the goal and -0.04 elsewhere, never -1; and the bad cell is entered and left again. *)
Theorem C84_four_bad_refuted d acts : Forall (fun x => fst (fst (fst (fst x))) < 4) acts ->
  exists f f', mkFour d = Ok f /\ four_run f acts = Ok f' /\ fo_bad f' = false /\ tk_steps (fo_task f') = length acts /\
    fst (four_getReward (fo_bad f') (fo_minReward f') (fo_task f')) =
      (if is_goal (Some four_goal) (mz_pos (tk_env (fo_task f'))) then 1%Q else (-4 # 100)%Q) /\
    free four_table (mz_pos (tk_env (fo_task f'))).
Proof.
  intros HA. destruct (mkFour_spec d) as (f & E & Wf & _ & S0 & _).
  assert (forall f, four_wf f -> exists f', four_run f acts = Ok f' /\ four_wf f' /\ tk_steps (fo_task f') = tk_steps (fo_task f) + length acts) as H.
  { clear f E Wf S0. induction acts as [| [[[[a u1] c1] u] dd] acts IH]; intros f Wf; cbn [four_run length]; [exists f; split; [auto |]; split; [auto | lia] |].
    inversion HA as [| ? ? H1 H2]; subst. cbn [fst] in H1. destruct (four_step f a u1 c1 u dd Wf H1) as (f1 & -> & W1 & S1). cbn [rbind].
    destruct (IH H2 f1 W1) as (f' & E' & W' & S'). exists f'. split; [auto |]. split; [auto | lia]. }
  destruct (H f Wf) as (f' & E' & (G & ET & EG & EB & E1 & E2 & E3 & E4) & S'). exists f, f'. split; [auto |]. split; [auto |]. split; [auto |]. split; [lia |].
  split; [| rewrite <- ET; apply G]. unfold four_getReward. rewrite EB. unfold maze_getReward. cbn [fst]. rewrite EG, E1, E2, E3.
  destruct (is_goal _ _); [reflexivity |]. destruct (mz_bang _); reflexivity.
Qed.
(** through the bad cell, without noise, from (1, 4) to the goal (3, 4) *)
Theorem C84_four_through_refuted : exists f f1 f2, mkFour 8 = Ok f /\ mz_pos (tk_env (fo_task f)) = (1, 4)%Z /\
  four_run f [(0, 1%Q, 0, 1%Q, 0)] = Ok f1 /\ mz_pos (tk_env (fo_task f1)) = (2, 4)%Z /\ maze_isFinished (fo_task f1) = false /\
  fst (four_getReward (fo_bad f1) (fo_minReward f1) (fo_task f1)) = (-4 # 100)%Q /\
  four_run f1 [(0, 1%Q, 0, 1%Q, 0)] = Ok f2 /\ mz_pos (tk_env (fo_task f2)) = four_goal /\
  fst (four_getReward (fo_bad f2) (fo_minReward f2) (fo_task f2)) = 1%Q /\ (tk_cum (fo_task f2) == (95 # 100) * (-4 # 100) + (95 # 100) * (95 # 100) * 1)%Q.
Proof.
  eexists _, _, _. split; [vm_compute; reflexivity |]. split; [vm_compute; reflexivity |]. split; [vm_compute; reflexivity |]. split; [vm_compute; reflexivity |]. split; [vm_compute; reflexivity |].
  split; [vm_compute; reflexivity |]. split; [vm_compute; reflexivity |]. split; [vm_compute; reflexivity |]. split; [vm_compute; reflexivity |]. vm_compute. reflexivity.
Qed.
(** the observation: entry 0 for a wall in the west, 1 for one in the east, 2 for both, 3 for none *)
Theorem C84_four_observation m cols us : good cols m -> (mz_stochObs m <= 0)%Q ->
  exists w e b n, four_getObservation m us = Ok [w; e; b; n] /\
    let west := ~ free (mz_table m) (neighbour (mz_pos m) 3) in
    let east := ~ free (mz_table m) (neighbour (mz_pos m) 1) in
    Forall (fun x => x = 0%Q \/ x = 1%Q) [w; e; b; n] /\
    (w = 1%Q <-> west) /\ (e = 1%Q <-> east) /\ (b = 1%Q <-> west /\ east) /\ (n = 1%Q <-> ~ west /\ ~ east).
Proof.
  intros HG HO. destruct (C40_sensors m cols us HG) as (s & Es & Ls & Hs & _). unfold four_getObservation. rewrite Es. cbn [rbind].
  do 4 (destruct s as [| ? s]; [discriminate |]). destruct s; [| discriminate]. cbn [nth_error].
  pose proof (Hs 3 b2 eq_refl) as H3. pose proof (Hs 1 b0 eq_refl) as H1.
  assert (F3 : b2 = true <-> ~ free (mz_table m) (neighbour (mz_pos m) 3)). { destruct H3 as [[_ H3] | [[K _] _]]; [| exfalso; lra]. rewrite <- H3. destruct b2; intuition congruence. }
  assert (F1 : b0 = true <-> ~ free (mz_table m) (neighbour (mz_pos m) 1)). { destruct H1 as [[_ H1] | [[K _] _]]; [| exfalso; lra]. rewrite <- H1. destruct b0; intuition congruence. }
  eexists _, _, _, _. split; [reflexivity |]. cbn zeta. rewrite <- F3, <- F1. clear. destruct b2, b0; cbn [b2q andb negb];
    (split; [repeat (apply Forall_cons; [auto |]); apply Forall_nil |]); repeat split; intros; (discriminate || intuition congruence || auto).
Qed.
(** it is not "only" one of west, east, both and neither: both walls set three entries *)
Theorem C84_four_observation_refuted us : four_getObservation (standing four_table four_goal (1 # 10) 0 (2, 1)%Z 0) us = Ok [1; 1; 1; 0]%Q.
Proof. reflexivity. Qed.

(** ** The 89-state maze *)
(** cells and directions, with the goal as one state, are 89 *)
Theorem C84_eightynine_states : exists l : list (option (pos * nat)), length l = 89 /\ NoDup l /\
  forall x, In x l <-> (x = None \/ exists p d, x = Some (p, d) /\ free eightynine_table p /\ p <> eightynine_goal /\ d < 4).
Proof.
  set (cells := filter (fun p => negb (pos_eqb p eightynine_goal)) (freePos eightynine_table)).
  exists (None :: map Some (list_prod cells [0; 1; 2; 3])). split; [reflexivity |]. split.
  - constructor; [rewrite in_map_iff; intros (x & K & _); discriminate |].
    apply FinFun.Injective_map_NoDup; [intros x y K; congruence |].
    assert (HP : forall (l1 : list pos) (l2 : list nat), NoDup l1 -> NoDup l2 -> NoDup (list_prod l1 l2)).
    { clear. induction l1 as [| x l1 IH]; intros l2 N1 N2; cbn [list_prod]; [constructor |]. inversion N1 as [| ? ? A B]; subst.
      assert (HA : forall a b : list (pos * nat), NoDup a -> NoDup b -> (forall z, In z a -> In z b -> False) -> NoDup (a ++ b)).
      { clear. induction a as [| y a IH]; intros b Na Nb H; cbn; [auto |]. inversion Na; subst. constructor.
        - rewrite in_app_iff. intros [|]; [auto | eapply H; [left; eauto | auto]].
        - apply IH; auto. intros z ? ?. eapply H; [right; eauto | auto]. }
      apply HA; [apply FinFun.Injective_map_NoDup; [intros u v K; congruence | auto] | auto |].
      intros z Hz Hz'. apply in_map_iff in Hz. destruct Hz as (d & <- & _). apply in_prod_iff in Hz'. tauto. }
    apply HP; [apply NoDup_filter, NoDup_free_rows |]. repeat constructor; cbn; intuition congruence.
  - intros x. cbn [In]. rewrite in_map_iff.
    assert (HC : forall p, In p cells <-> free eightynine_table p /\ p <> eightynine_goal).
    { intros p. unfold cells. rewrite filter_In, freePos_spec, negb_true_iff. split; intros [A B]; (split; [auto |]).
      - intros K. apply pos_eqb_iff in K. congruence.
      - destruct (pos_eqb p eightynine_goal) eqn:E; [apply pos_eqb_iff in E; congruence | auto]. }
    split.
    + intros [<- | ([p d] & <- & H)]; [auto |]. right. apply in_prod_iff in H. rewrite HC in H. exists p, d. destruct H as [[A B] D]. do 3 (split; [auto |]). cbn in D. lia.
    + intros [-> | (p & d & -> & A & B & D)]; [auto |]. right. exists (p, d). split; [auto |]. apply in_prod_iff. rewrite HC. split; [auto |]. cbn. lia.
Qed.

(** ** Ways to the goal *)
(** the direction to go from a cell: the first neighbour nearer to the goal, by a table of distances *)
Fixpoint lookup (p : pos) (l : list (pos * nat)) : option nat :=
  match l with [] => None | (q, n) :: rest => if pos_eqb p q then Some n else lookup p rest end.
Fixpoint spread (t : list (list bool)) (n : nat) (k : nat) (front : list pos) (seen : list (pos * nat)) : list (pos * nat) :=
  match n with
  | 0 => seen
  | S n' =>
      let fresh := filter (fun p => match lookup p seen with None => freeb t p | Some _ => false end) (flat_map (fun p => map (moveInDir p) allActions) front) in
      spread t n' (S k) fresh (seen ++ map (fun p => (p, S k)) fresh)
  end.
Fixpoint route (dist : list (pos * nat)) (n : nat) (p : pos) : list nat :=
  match lookup p dist with
  | Some (S k) =>
      match n, find (fun d => match lookup (moveInDir p (nth d allActions (0, 0)%Z)) dist with Some j => j =? k | None => false end) [0; 1; 2; 3] with
      | S n', Some d => d :: route dist n' (moveInDir p (nth d allActions (0, 0)%Z))
      | _, _ => []
      end
  | _ => []
  end.
Definition ways (t : list (list bool)) (g : pos) (p : pos) : list nat := route (spread t 15 0 [g] [(g, 0)]) 15 p.
(** the same way for an agent that turns *)
Fixpoint turning (d : nat) (ds : list nat) : list Z :=
  match ds with [] => [] | k :: rest => repeat 3%Z ((k + 4 - d) mod 4) ++ [1%Z] ++ turning k rest end.
Definition arrives (r : result maze) (g : pos) : bool := match r with Ok m => pos_eqb (mz_pos m) g | Err _ => false end.
Definition all_arrive (w : pos -> list nat) (t : list (list bool)) (g : pos) (s so : Q) : bool :=
  forallb (fun p => arrives (walk calm (standing t g s so p 0) (map Z.of_nat (w p))) g && forallb (fun a => a <? 4) (w p) &&
    forallb (fun d => arrives (walk calm_polar (standing t g s so p d) (turning d (w p))) g && forallb (fun a => (0 <=? a) && (a <? 4))%Z (turning d (w p))) [0; 1; 2; 3]) (freePos t).
Lemma arrive_walk w t g s so p : all_arrive w t g s so = true -> free t p ->
  (exists acts m, Forall (fun a => 0 <= a < 4)%Z acts /\ walk calm (standing t g s so p 0) acts = Ok m /\ mz_pos m = g) /\
  forall d, d < 4 -> exists acts m, Forall (fun a => 0 <= a < 4)%Z acts /\ walk calm_polar (standing t g s so p d) acts = Ok m /\ mz_pos m = g.
Proof.
  intros H Hp. apply freePos_spec in Hp. unfold all_arrive in H. rewrite forallb_forall in H. specialize (H p Hp). cbv beta in H. clear Hp. rename H into Hp. rewrite !andb_true_iff in Hp. destruct Hp as [[A B] C]. split.
  - unfold arrives in A. destruct (walk calm _ _) as [m |] eqn:E; [| discriminate]. eexists _, m. split; [| split; [exact E | now apply pos_eqb_iff]].
    apply Forall_map, Forall_forall. intros a Ha. rewrite forallb_forall in B. apply B, Nat.ltb_lt in Ha. lia.
  - intros d Hd. rewrite forallb_forall in C. assert (K : In d [0; 1; 2; 3]) by (cbn; lia). specialize (C d K). cbv beta in C. clear K. rename C into K. rewrite andb_true_iff in K. destruct K as [K1 K2].
    unfold arrives in K1. destruct (walk calm_polar _ _) as [m |] eqn:E; [| discriminate]. eexists _, m. split; [| split; [exact E | now apply pos_eqb_iff]].
    apply Forall_forall. intros a Ha. rewrite forallb_forall in K2. apply K2 in Ha. rewrite andb_true_iff, Z.leb_le, Z.ltb_lt in Ha. auto.
Qed.
(** From every free cell of these mazes the goal is reached by some actions when no noise disturbs them; in the 89-state maze
    also with the first four of the five actions of the turning maze, which are those of the task. *)
Theorem C84_solvable p :
  (free trivial_table p -> exists acts m, Forall (fun a => 0 <= a < 4)%Z acts /\ walk calm (standing trivial_table (1, 3)%Z 0 0 p 0) acts = Ok m /\ mz_pos m = (1, 3)%Z) /\
  (free cheese_table p -> exists acts m, Forall (fun a => 0 <= a < 4)%Z acts /\ walk calm (standing cheese_table cheese_goal 0 0 p 0) acts = Ok m /\ mz_pos m = cheese_goal) /\
  (free four_table p -> exists acts m, Forall (fun a => 0 <= a < 4)%Z acts /\ walk calm (standing four_table four_goal (1 # 10) 0 p 0) acts = Ok m /\ mz_pos m = four_goal) /\
  (free eightynine_table p -> forall d, d < 4 -> exists acts m, Forall (fun a => 0 <= a < 4)%Z acts /\
     walk calm_polar (standing eightynine_table eightynine_goal (1 # 10) (1 # 10) p d) acts = Ok m /\ mz_pos m = eightynine_goal).
Proof.
  split; [| split; [| split]]; intros H.
  - apply (arrive_walk (ways trivial_table (1, 3)%Z) trivial_table (1, 3)%Z 0 0 p); [vm_compute; reflexivity | auto].
  - apply (arrive_walk (ways cheese_table cheese_goal) cheese_table cheese_goal 0 0 p); [vm_compute; reflexivity | auto].
  - apply (arrive_walk (ways four_table four_goal) four_table four_goal (1 # 10) 0 p); [vm_compute; reflexivity | auto].
  - apply (arrive_walk (ways eightynine_table eightynine_goal) eightynine_table eightynine_goal (1 # 10) (1 # 10) p); [vm_compute; reflexivity | auto].
Qed.
(** the constructors put the agent on a free cell other than the goal *)
Theorem C84_starts d d2 :
  (exists m, cheese d = Ok m /\ good 7 m /\ mz_table m = cheese_table /\ mz_goal m = Some cheese_goal /\ mz_goal m <> Some (mz_pos m)) /\
  (exists f, mkFour d = Ok f /\ good 6 (tk_env (fo_task f)) /\ mz_pos (tk_env (fo_task f)) <> four_goal /\ mz_pos (tk_env (fo_task f)) <> (2, 4)%Z) /\
  (exists m, eightynine d d2 = Ok m /\ good 9 m /\ mz_goal m = Some eightynine_goal /\ mz_goal m <> Some (mz_pos m)).
Proof.
  assert (HC : forall t cols g sA sO, enclosed t cols -> free t g -> (exists p, free t p /\ p <> g) ->
     exists m, mkMaze t (Some g) None sA sO d = Ok m /\ good cols m /\ mz_table m = t /\ mz_goal m = Some g /\ mz_goal m <> Some (mz_pos m) /\
       forall p, In p (mz_init m) <-> free t p /\ Some g <> Some p).
  { intros t cols g sA sO HE Hg (p & Hp & Hpg).
    destruct (C40_construct t cols (Some g) None sA sO d HE) as (m & E & G & ET & EG & EI); [exists g; split; [auto |]; split; [auto |]; exists p; auto |].
    exists m. do 4 (split; [auto |]). split; [| exact EI]. rewrite EG. unfold mkMaze in E. destruct (remove_first g (freePos t)) as [r |] eqn:Er; [| discriminate]. cbn [rbind] in E.
    unfold reset in E. cbn [mz_init] in E. assert (Hne : r <> []) by (intros ->; discriminate). destruct (choose_in r d Hne) as (q & Eq & Hq). rewrite Eq in E. cbn [rbind] in E. injection E as <-.
    cbn [mz_pos with_pos]. cbn [mz_init with_pos] in EI. now apply EI. }
  split; [| split].
  - destruct (HC cheese_table 7 cheese_goal 0%Q 0%Q cheese_enclosed) as (m & E & G & ET & EG & N & _); [now apply freeb_spec | exists (1, 1)%Z; split; [now apply freeb_spec | discriminate] |].
    exists m. auto 6.
  - destruct (mkFour_spec d) as (f & E & Wf & Hp & _). exists f. split; [auto |]. split; [apply Wf |]. apply four_init_free in Hp. tauto.
  - unfold eightynine. destruct (HC eightynine_table 9 eightynine_goal (1 # 10)%Q (1 # 10)%Q eightynine_enclosed) as (m & -> & G & ET & EG & N & EI);
      [now apply freeb_spec | exists (1, 2)%Z; split; [now apply freeb_spec | discriminate] |]. cbn [rbind]. unfold polar_reset.
    destruct (good_reset 9 m d G) as (m' & -> & G' & W & Ed & Hp). cbn [rbind]. eexists. split; [reflexivity |].
    assert (HM : d2 mod 4 < 4) by (apply Nat.mod_upper_bound; lia). destruct W as (W1 & W2 & _).
    split; [unfold good, with_dir in *; cbn -[Nat.modulo]; intuition |]. change (mz_goal (with_dir m' (d2 mod 4))) with (mz_goal m'). change (mz_pos (with_dir m' (d2 mod 4))) with (mz_pos m').
    rewrite W2, EG. split; [auto |]. apply EI in Hp. tauto.
Qed.
(** and the direction is the one drawn *)
Theorem C84_eightynine_turned d d2 m : eightynine d d2 = Ok m -> mz_dir m = d2 mod 4.
Proof.
  unfold eightynine. destruct (mkMaze _ _ _ _ _ _) as [m0 | e]; cbn [rbind]; [| discriminate]. unfold polar_reset. destruct (reset m0 d) as [m1 | e]; cbn [rbind]; [| discriminate].
  intros [= <-]. reflexivity.
Qed.
Example starts_case : exists m, eightynine 5 2 = Ok m /\ mz_pos m = (2, 1)%Z /\ mz_dir m = 2.
Proof. eexists. split; [vm_compute; reflexivity |]. split; reflexivity. Qed.
Print Assumptions C84_polar_ahead.
Print Assumptions C84_turn_left_refuted.
Print Assumptions C84_draw.
Print Assumptions C84_cheese_one_hot.
Print Assumptions C84_cheese_cells.
Print Assumptions C84_cheese_memory.
Print Assumptions C84_four_bad_refuted.
Print Assumptions C84_four_observation.
Print Assumptions C84_four_observation_refuted.
Print Assumptions C84_eightynine_states.
Print Assumptions C84_solvable.
Print Assumptions C84_starts.
Print Assumptions C84_four_through_refuted.
Print Assumptions C84_eightynine_turned.
