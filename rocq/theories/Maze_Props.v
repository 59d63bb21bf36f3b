(** Properties C40 (mazes) and C56 (episodic returns of the maze tasks). *)
From Verif Require Import Base Maze_Model.
From Coq Require Import QArith Lqa.
Local Open Scope nat_scope.

(** ** Spec *)
(** a free cell of the grid *)
Definition free (t : list (list bool)) (p : pos) : Prop :=
  (0 <= fst p)%Z /\ (0 <= snd p)%Z /\
  exists row, nth_error t (Z.to_nat (fst p)) = Some row /\ nth_error row (Z.to_nat (snd p)) = Some false.
(** a rectangle whose free cells are not on the border *)
Definition enclosed (t : list (list bool)) (cols : nat) : Prop :=
  Forall (fun r => length r = cols) t /\
  forall i j, free t (i, j) -> (1 <= i /\ i + 1 < Z.of_nat (length t) /\ 1 <= j /\ j + 1 < Z.of_nat cols)%Z.
(** north, east, south, west *)
Definition neighbour (p : pos) (k : nat) : pos :=
  match k with
  | 0 => (fst p + 1, snd p)%Z
  | 1 => (fst p, snd p + 1)%Z
  | 2 => (fst p - 1, snd p)%Z
  | _ => (fst p, snd p - 1)%Z
  end.
(** the direction walked: the wanted one, or the drawn one if the action is perturbed *)
Definition perturbed (s u : Q) : Prop := (0 < s /\ u < s)%Q.
Definition walked (n : nat) (s : Q) (action : nat) (u : Q) (d : nat) (k : nat) : Prop :=
  (perturbed s u /\ k = d mod n) \/ (~ perturbed s u /\ k = action).
Definition same_world (m m' : maze) : Prop :=
  mz_table m' = mz_table m /\ mz_goal m' = mz_goal m /\ mz_init m' = mz_init m /\
  mz_stochAction m' = mz_stochAction m /\ mz_stochObs m' = mz_stochObs m.
Definition moved (m m' : maze) (k : nat) : Prop :=
  let q := neighbour (mz_pos m) k in
  (free (mz_table m) q /\ mz_pos m' = q /\ mz_bang m' = false) \/
  (~ free (mz_table m) q /\ mz_pos m' = mz_pos m /\ mz_bang m' = true).
(** what is done to a maze: an action, a reset, a question for the reward of the MDP task *)
Inductive op := Act (action : nat) (u : Q) (d : nat) | Reset (d d2 : nat) | Reward (d : nat).
Definition apply (m : maze) (o : op) : result maze :=
  match o with
  | Act a u d => performAction m (Z.of_nat a) u d
  | Reset d _ => reset m d
  | Reward d => let! x := mdp_getReward m d in Ok (snd x)
  end.
Definition polar_apply (m : maze) (o : op) : result maze :=
  match o with
  | Act a u d => polar_performAction m (Z.of_nat a) u d
  | Reset d d2 => polar_reset m d d2
  | Reward d => let! x := mdp_getReward m d in Ok (snd x)
  end.
Fixpoint run (ap : maze -> op -> result maze) (m : maze) (ops : list op) : result maze :=
  match ops with [] => Ok m | o :: rest => let! m' := ap m o in run ap m' rest end.
Definition ok_op (n : nat) (o : op) : Prop := match o with Act a _ _ => a < n | _ => True end.

(** ** Lemmas *)
Lemma pos_eqb_iff p q : pos_eqb p q = true <-> p = q.
Proof. destruct p, q. unfold pos_eqb. cbn [fst snd]. rewrite andb_true_iff, !Z.eqb_eq. split; [intros [-> ->] | intros [= -> ->]]; auto. Qed.
Lemma pos_eq_dec (p q : pos) : {p = q} + {p <> q}.
Proof. destruct (pos_eqb p q) eqn:E; [left; now apply pos_eqb_iff | right; intros H; apply pos_eqb_iff in H; congruence]. Qed.
Lemma qlt_iff x y : qlt x y = true <-> (x < y)%Q.
Proof. unfold qlt. rewrite negb_true_iff. destruct (Qle_bool y x) eqn:E; [apply Qle_bool_iff in E | assert (~ (y <= x)%Q) by (intros H; apply Qle_bool_iff in H; congruence)]; split; intros; try discriminate; try lra; auto. Qed.
Lemma py_nth_in {A} (l : list A) i : (0 <= i)%Z -> py_nth l i = nth_error l (Z.to_nat i).
Proof. intros. unfold py_nth. destruct (Z.leb_spec 0 i); [auto | lia]. Qed.

Lemma table_at_spec t cols p : enclosed t cols -> (0 <= fst p < Z.of_nat (length t))%Z -> (0 <= snd p < Z.of_nat cols)%Z ->
  exists b, table_at t p = Ok b /\ (b = false <-> free t p).
Proof.
  intros [HF _] Hi Hj. unfold table_at. rewrite py_nth_in by lia. destruct (nth_error t (Z.to_nat (fst p))) as [row |] eqn:E.
  2:{ apply nth_error_None in E. lia. }
  assert (Hl : length row = cols) by (rewrite Forall_forall in HF; apply HF; eapply nth_error_In; eauto).
  rewrite py_nth_in by lia. destruct (nth_error row (Z.to_nat (snd p))) as [b |] eqn:E2.
  2:{ apply nth_error_None in E2. lia. }
  exists b. split; [auto |]. split.
  - intros ->. unfold free. split; [lia |]. split; [lia |]. exists row. auto.
  - intros (_ & _ & r & A & B). rewrite E in A. injection A as <-. congruence.
Qed.
Lemma neighbour_in t cols p k : enclosed t cols -> free t p ->
  (0 <= fst (neighbour p k) < Z.of_nat (length t))%Z /\ (0 <= snd (neighbour p k) < Z.of_nat cols)%Z.
Proof.
  intros [_ H] Hf. destruct p as [i j]. apply H in Hf. destruct k as [| [| [| k]]]; cbn [neighbour fst snd]; lia.
Qed.
Lemma dir_neighbour k : k < 4 -> exists d, nth_error allActions k = Some d /\ forall p, moveInDir p d = neighbour p k.
Proof.
  intros H. destruct k as [| [| [| [| k]]]]; [.. | lia]; eexists; (split; [reflexivity |]); intros [i j]; unfold moveInDir; cbn [fst snd neighbour]; f_equal; lia.
Qed.
Lemma try_move_spec m cols k d : enclosed (mz_table m) cols -> free (mz_table m) (mz_pos m) ->
  (forall p, moveInDir p d = neighbour p k) ->
  exists m', try_move m d = Ok m' /\ moved m m' k /\ same_world m m' /\ mz_dir m' = mz_dir m.
Proof.
  intros HE HF Hd. unfold try_move. rewrite Hd. destruct (neighbour_in _ _ _ k HE HF) as [A B].
  destruct (table_at_spec _ _ _ HE A B) as (b & Eb & Hb). rewrite Eb. cbn [rbind]. destruct b.
  - eexists. split; [reflexivity |]. split; [| unfold same_world; auto 10]. right. split; [| auto]. intros H. apply Hb in H. discriminate.
  - eexists. split; [reflexivity |]. split; [| unfold same_world; auto 10]. left. split; [| auto]. now apply Hb.
Qed.
Lemma noisy_spec m n a u d : 0 < n -> a < n ->
  exists k, noisy_action m n (Z.of_nat a) u d = Z.of_nat k /\ k < n /\ walked n (mz_stochAction m) a u d k.
Proof.
  intros Hn Ha. unfold noisy_action, walked, perturbed. destruct (qlt 0 (mz_stochAction m)) eqn:E1, (qlt u (mz_stochAction m)) eqn:E2; cbn [andb].
  - apply qlt_iff in E1, E2. exists (d mod n). split; [auto |]. split; [apply Nat.mod_upper_bound; lia |]. auto.
  - exists a. split; [auto |]. split; [auto |]. right. split; [| auto]. intros [_ B]. apply qlt_iff in B. congruence.
  - exists a. split; [auto |]. split; [auto |]. right. split; [| auto]. intros [B _]. apply qlt_iff in B. congruence.
  - exists a. split; [auto |]. split; [auto |]. right. split; [| auto]. intros [B _]. apply qlt_iff in B. congruence.
Qed.
Lemma walked_fun n s a u d k k' : walked n s a u d k -> walked n s a u d k' -> k = k'.
Proof. unfold walked. intuition congruence. Qed.

Lemma free_row_spec i j row p : In p (free_row i j row) <->
  fst p = i /\ (j <= snd p)%Z /\ nth_error row (Z.to_nat (snd p - j)) = Some false.
Proof.
  revert j; induction row as [| b row IH]; intros j; cbn [free_row].
  - split; [intros [] |]. intros (_ & _ & H). now destruct (Z.to_nat _).
  - assert (HN : (j + 1 <= snd p)%Z -> nth_error (b :: row) (Z.to_nat (snd p - j)) = nth_error row (Z.to_nat (snd p - (j + 1)))).
    { intros. replace (Z.to_nat (snd p - j)) with (S (Z.to_nat (snd p - (j + 1)))) by lia. reflexivity. }
    destruct b.
    + rewrite IH. split; intros (A & B & C).
      * split; [auto |]. split; [lia |]. now rewrite HN.
      * split; [auto |]. destruct (Z.eq_dec (snd p) j) as [Ej |]; [rewrite Ej, Z.sub_diag in C; discriminate |]. split; [lia |]. rewrite <- HN by lia. auto.
    + cbn [In]. rewrite IH. split.
      * intros [<- | (A & B & C)].
        -- cbn [fst snd]. rewrite Z.sub_diag. split; [auto |]. split; [lia | reflexivity].
        -- split; [auto |]. split; [lia |]. now rewrite HN.
      * intros (A & B & C). destruct (Z.eq_dec (snd p) j) as [E |]; [left; destruct p; cbn [fst snd] in *; congruence |].
        right. split; [auto |]. split; [lia |]. rewrite <- HN by lia. auto.
Qed.
Lemma free_rows_spec i t p : In p (free_rows i t) <->
  (i <= fst p)%Z /\ (0 <= snd p)%Z /\ exists row, nth_error t (Z.to_nat (fst p - i)) = Some row /\ nth_error row (Z.to_nat (snd p)) = Some false.
Proof.
  revert i; induction t as [| row t IH]; intros i; cbn [free_rows].
  - split; [intros [] |]. intros (_ & _ & r & H & _). now destruct (Z.to_nat _).
  - rewrite in_app_iff, IH, free_row_spec. rewrite Z.sub_0_r.
    assert (HN : (i + 1 <= fst p)%Z -> nth_error (row :: t) (Z.to_nat (fst p - i)) = nth_error t (Z.to_nat (fst p - (i + 1)))).
    { intros. replace (Z.to_nat (fst p - i)) with (S (Z.to_nat (fst p - (i + 1)))) by lia. reflexivity. }
    split.
    + intros [(A & B & C) | (A & B & r & C & D)].
      * subst i. rewrite Z.sub_diag. split; [lia |]. split; [auto |]. exists row. auto.
      * split; [lia |]. split; [auto |]. exists r. rewrite HN by auto. auto.
    + intros (A & B & r & C & D). destruct (Z.eq_dec (fst p) i) as [E |].
      * left. rewrite <- E, Z.sub_diag in C. injection C as ->. auto.
      * right. split; [lia |]. split; [auto |]. exists r. rewrite <- HN by lia. auto.
Qed.
Lemma freePos_spec t p : In p (freePos t) <-> free t p.
Proof. unfold freePos, free. rewrite free_rows_spec, Z.sub_0_r. reflexivity. Qed.
Lemma NoDup_free_row i j row : NoDup (free_row i j row).
Proof.
  revert j; induction row as [| b row IH]; intros j; cbn [free_row]; [constructor |]. destruct b; [auto |]. constructor; [| auto].
  rewrite free_row_spec. cbn [fst snd]. lia.
Qed.
Lemma NoDup_free_rows i t : NoDup (free_rows i t).
Proof.
  revert i; induction t as [| row t IH]; intros i; cbn [free_rows]; [constructor |].
  assert (forall l1 l2 : list pos, NoDup l1 -> NoDup l2 -> (forall x, In x l1 -> In x l2 -> False) -> NoDup (l1 ++ l2)) as HA.
  { clear. induction l1 as [| x l1 IH]; intros l2 N1 N2 H; cbn; [auto |]. inversion N1; subst. constructor.
    - rewrite in_app_iff. intros [|]; [auto | eapply H; [left; eauto | auto]].
    - apply IH; auto. intros y ? ?. eapply H; [right; eauto | auto]. }
  apply HA; [apply NoDup_free_row | auto |]. intros x A B. apply free_row_spec in A. apply free_rows_spec in B. lia.
Qed.
Lemma remove_first_spec p l : NoDup l -> In p l -> exists r, remove_first p l = Ok r /\ forall x, In x r <-> In x l /\ x <> p.
Proof.
  induction l as [| y l IH]; intros N H; [destruct H |]. inversion N as [| ? ? Hy Hl]; subst. cbn [remove_first]. destruct (pos_eqb y p) eqn:E.
  - apply pos_eqb_iff in E. subst y. exists l. split; [auto |]. intros x. cbn [In]. split; [intros K; split; [auto | intros ->; auto] | intros [[<- |] K]; congruence || auto].
  - assert (y <> p) by (intros K; apply pos_eqb_iff in K; congruence). destruct H as [| H]; [congruence |]. destruct (IH Hl H) as (r & -> & Hr). cbn [rbind]. eexists. split; [reflexivity |].
    intros x. cbn [In]. rewrite Hr. intuition congruence.
Qed.
Lemma choose_in l d : l <> [] -> exists p, choose l d = Ok p /\ In p l.
Proof.
  intros H. destruct l as [| x l]; [congruence |]. eexists. split; [reflexivity |]. apply nth_In. apply Nat.mod_upper_bound. cbn; lia.
Qed.
Lemma reset_spec m d : mz_init m <> [] -> exists p, reset m d = Ok (with_pos m p false) /\ In p (mz_init m).
Proof. intros H. unfold reset. destruct (choose_in _ d H) as (p & -> & Hp). exists p. auto. Qed.

Definition good (cols : nat) (m : maze) : Prop :=
  enclosed (mz_table m) cols /\ mz_init m <> [] /\ (forall p, In p (mz_init m) -> free (mz_table m) p) /\
  free (mz_table m) (mz_pos m) /\ mz_dir m < 4.
Lemma good_world cols m m' : good cols m -> same_world m m' -> free (mz_table m) (mz_pos m') -> mz_dir m' < 4 -> good cols m'.
Proof. unfold good, same_world. intros (A & B & C & D & F) (-> & ? & -> & ?) ? ?. auto. Qed.
Lemma moved_free m m' k : free (mz_table m) (mz_pos m) -> moved m m' k -> free (mz_table m) (mz_pos m').
Proof. intros H [(A & -> & _) | (_ & -> & _)]; auto. Qed.
Lemma good_reset cols m d : good cols m -> exists m', reset m d = Ok m' /\ good cols m' /\ same_world m m' /\ mz_dir m' = mz_dir m /\ In (mz_pos m') (mz_init m).
Proof.
  intros (A & B & C & D & F). destruct (reset_spec m d B) as (p & -> & Hp). eexists. split; [reflexivity |]. unfold good, same_world, with_pos; cbn. auto 12.
Qed.

(** ** C40 *)
(** one action: the agent goes to the neighbouring cell iff that is free, and otherwise stays and bangs *)
Theorem C40_step m cols action u d : enclosed (mz_table m) cols -> free (mz_table m) (mz_pos m) -> action < 4 ->
  exists k m', walked 4 (mz_stochAction m) action u d k /\ performAction m (Z.of_nat action) u d = Ok m' /\ moved m m' k /\ same_world m m'.
Proof.
  intros HE HF Ha. destruct (noisy_spec m 4 action u d ltac:(lia) Ha) as (k & Ek & Hk & Hw). destruct (dir_neighbour k Hk) as (dir & Ed & Hd).
  destruct (try_move_spec m cols k dir HE HF Hd) as (m' & E & M & W & _). exists k, m'. split; [auto |]. split; [| auto].
  unfold performAction. rewrite Ek, py_nth_in by lia. rewrite Nat2Z.id. rewrite Ed. auto.
Qed.
(** the turning maze: only Forward (1) moves, in the current direction; the others turn *)
Theorem C40_polar_step m cols action u d : good cols m -> action < 5 ->
  exists k m', walked 5 (mz_stochAction m) action u d k /\ polar_performAction m (Z.of_nat action) u d = Ok m' /\ same_world m m' /\
    match k with
    | 1 => moved m m' (mz_dir m) /\ mz_dir m' = mz_dir m
    | 2 => mz_pos m' = mz_pos m /\ mz_bang m' = false /\ mz_dir m' = (mz_dir m + 2) mod 4
    | 3 => mz_pos m' = mz_pos m /\ mz_bang m' = false /\ mz_dir m' = (mz_dir m + 1) mod 4
    | 4 => mz_pos m' = mz_pos m /\ mz_bang m' = false /\ mz_dir m' < 4 /\ (mz_dir m' + 1) mod 4 = mz_dir m
    | _ => mz_pos m' = mz_pos m /\ mz_bang m' = false /\ mz_dir m' = mz_dir m
    end.
Proof.
  intros (HE & _ & _ & HF & HD) Ha. destruct (noisy_spec m 5 action u d ltac:(lia) Ha) as (k & Ek & Hk & Hw).
  exists k. unfold polar_performAction. rewrite Ek, py_nth_in by lia. rewrite Nat2Z.id.
  destruct k as [| [| [| [| [| k]]]]]; [.. | lia]; cbn [nth_error].
  - eexists. split; [auto |]. split; [reflexivity |]. unfold same_world; cbn. auto 12.
  - destruct (dir_neighbour _ HD) as (dir & Ed & Hd). rewrite Ed.
    destruct (try_move_spec (with_pos m (mz_pos m) false) cols (mz_dir m) dir HE HF Hd) as (m' & E & M & W & D). exists m'. auto 6.
  - eexists. split; [auto |]. split; [reflexivity |]. unfold same_world; cbn -[Nat.modulo]. auto 12.
  - eexists. split; [auto |]. split; [reflexivity |]. unfold same_world; cbn -[Nat.modulo]. auto 12.
  - eexists. split; [auto |]. split; [reflexivity |]. unfold same_world; cbn -[Nat.modulo]. split; [auto 10 |]. do 2 (split; [auto |]). split; [apply Nat.mod_upper_bound; lia |].
    destruct (mz_dir m) as [| [| [| [| x]]]]; [reflexivity .. | lia].
Qed.

(** construction *)
Theorem C40_construct t cols goal init sA sO d : enclosed t cols ->
  match init with
  | Some l => l <> [] /\ (forall p, In p l -> free t p)
  | None => exists g, goal = Some g /\ free t g /\ exists p, free t p /\ p <> g
  end ->
  exists m, mkMaze t goal init sA sO d = Ok m /\ good cols m /\ mz_table m = t /\ mz_goal m = goal /\
    match init with Some l => mz_init m = l | None => forall p, In p (mz_init m) <-> free t p /\ goal <> Some p end.
Proof.
  intros HE HI. unfold mkMaze. destruct init as [l |].
  - destruct HI as [A B]. cbn [rbind]. match goal with |- context [reset ?m0 d] => destruct (reset_spec m0 d A) as (p & -> & Hp) end.
    eexists. split; [reflexivity |]. unfold good; cbn. cbn in Hp. split; [| auto]. do 3 (split; [auto |]). split; [auto | lia].
  - destruct HI as (g & -> & Hg & p & Hp & Hpg). destruct (remove_first_spec g (freePos t) (NoDup_free_rows 0 t) (proj2 (freePos_spec t g) Hg)) as (r & -> & Hr). cbn [rbind].
    assert (HS : forall x, In x r <-> free t x /\ Some g <> Some x). { intros x. rewrite Hr, freePos_spec. intuition congruence. }
    assert (Hne : r <> []). { intros ->. apply (HS p). split; congruence. }
    match goal with |- context [reset ?m0 d] => destruct (reset_spec m0 d Hne) as (q & -> & Hq) end.
    eexists. split; [reflexivity |]. unfold good; cbn. cbn in Hq. split; [| auto]. split; [auto |]. split; [auto |]. split; [intros x Hx; now apply HS in Hx |].
    split; [now apply HS in Hq | lia].
Qed.
(** whatever is done, nothing fails and the agent stays on free cells of the same maze *)
Theorem C40_safe cols ops m : good cols m -> Forall (ok_op 4) ops ->
  exists m', run apply m ops = Ok m' /\ good cols m' /\ same_world m m'.
Proof.
  revert m; induction ops as [| o ops IH]; intros m HG HO.
  - exists m. unfold same_world. auto 10.
  - inversion HO as [| ? ? H1 H2]; subst. assert (exists m1, apply m o = Ok m1 /\ good cols m1 /\ same_world m m1) as (m1 & E & G & W).
    { destruct o as [a u d | d d2 | d]; cbn [apply ok_op] in *.
      - destruct (C40_step m cols a u d) as (k & m' & Hw & E & M & W); [apply HG .. | auto |]. exists m'. split; [auto |]. split; [| auto].
        assert (mz_dir m' = mz_dir m). { unfold performAction in E. destruct (py_nth _ _); [| discriminate]. unfold try_move in E. destruct (table_at _ _) as [[|] |]; [..|discriminate]; injection E as <-; reflexivity. }
        eapply good_world; eauto; [eapply moved_free; eauto; apply HG | rewrite H; apply HG].
      - destruct (good_reset _ _ d HG) as (m' & E & G & W & _). eauto.
      - unfold mdp_getReward. destruct (is_goal _ _).
        + destruct (good_reset _ _ d HG) as (m' & E & G & W & _). rewrite E. cbn. eauto.
        + cbn. exists m. unfold same_world. auto 10. }
    cbn [run]. rewrite E. cbn [rbind]. destruct (IH m1 G H2) as (m' & E' & G' & W'). exists m'. split; [auto |]. split; [auto |].
    unfold same_world in *. intuition congruence.
Qed.
Theorem C40_polar_safe cols ops m : good cols m -> Forall (ok_op 5) ops ->
  exists m', run polar_apply m ops = Ok m' /\ good cols m' /\ same_world m m'.
Proof.
  revert m; induction ops as [| o ops IH]; intros m HG HO.
  - exists m. unfold same_world. auto 10.
  - inversion HO as [| ? ? H1 H2]; subst. assert (exists m1, polar_apply m o = Ok m1 /\ good cols m1 /\ same_world m m1) as (m1 & E & G & W).
    { destruct o as [a u d | d d2 | d]; cbn [polar_apply ok_op] in *.
      - destruct (C40_polar_step m cols a u d HG H1) as (k & m' & Hw & E & W & M). exists m'. split; [auto |]. split; [| auto].
        assert (Hk : k < 5). { destruct Hw as [[_ ->] | [_ ->]]; [apply Nat.mod_upper_bound; lia | auto]. }
        assert (free (mz_table m) (mz_pos m') /\ mz_dir m' < 4) as [A B].
        { pose proof (moved_free m m' (mz_dir m)) as F. destruct HG as (_ & _ & _ & HF & HD).
          destruct k as [| [| [| [| [| k]]]]]; [.. | lia].
          - destruct M as (-> & _ & ->). auto.
          - destruct M as [M ->]. auto.
          - destruct M as (-> & _ & ->). split; [auto | apply Nat.mod_upper_bound; lia].
          - destruct M as (-> & _ & ->). split; [auto | apply Nat.mod_upper_bound; lia].
          - destruct M as (-> & _ & ? & _). auto. }
        eapply good_world; eauto.
      - unfold polar_reset. destruct (good_reset _ _ d HG) as (m' & E & G & W & _). rewrite E. cbn [rbind]. eexists. split; [reflexivity |].
        assert (HM : (d2 mod 4 < 4)%nat) by (apply Nat.mod_upper_bound; lia). split; [| exact W]. unfold good, with_dir in *; cbn -[Nat.modulo]. intuition.
      - unfold mdp_getReward. destruct (is_goal _ _).
        + destruct (good_reset _ _ d HG) as (m' & E & G & W & _). rewrite E. cbn. eauto.
        + cbn. exists m. unfold same_world. auto 10. }
    cbn [run]. rewrite E. cbn [rbind]. destruct (IH m1 G H2) as (m' & E' & G' & W'). exists m'. split; [auto |]. split; [auto |].
    unfold same_world in *. intuition congruence.
Qed.

(** sensors: the walls in the four directions, each flipped iff its draw is below the noise level; the turning maze starts with the direction it faces *)
Definition sensed (m : maze) (us : nat -> Q) (k : nat) (b : bool) : Prop :=
  let noisy := (0 < mz_stochObs m /\ us k < mz_stochObs m)%Q in
  (~ noisy /\ (b = false <-> free (mz_table m) (neighbour (mz_pos m) k))) \/
  (noisy /\ (b = true <-> free (mz_table m) (neighbour (mz_pos m) k))).
Lemma sense_spec m cols ks dirs : enclosed (mz_table m) cols -> free (mz_table m) (mz_pos m) ->
  Forall2 (fun k d => forall p, moveInDir p d = neighbour p k) ks dirs ->
  exists l, sense m dirs = Ok l /\ Forall2 (fun k b => b = false <-> free (mz_table m) (neighbour (mz_pos m) k)) ks l.
Proof.
  intros HE HF H. induction H as [| k d ks dirs Hk _ (l & E & IH)]; cbn [sense]; [exists []; auto |].
  rewrite Hk. destruct (neighbour_in _ _ _ k HE HF) as [A B]. destruct (table_at_spec _ _ _ HE A B) as (b & -> & Hb). cbn [rbind]. rewrite E. cbn [rbind].
  exists (b :: l). split; [auto |]. constructor; auto.
Qed.
Theorem C40_sensors m cols us : good cols m ->
  exists obs, getSensors m us = Ok obs /\ length obs = 4 /\
    (forall k b, nth_error obs k = Some b -> sensed m us k b) /\
    exists pobs, polar_getSensors m us = Ok pobs /\ length pobs = 4 /\
      forall i, i < 4 -> nth_error pobs i = nth_error obs ((mz_dir m + i) mod 4).
Proof.
  intros (HE & _ & _ & HF & HD).
  destruct (sense_spec m cols [0; 1; 2; 3] allActions HE HF) as (l & E & HL).
  { unfold allActions. repeat apply Forall2_cons; try apply Forall2_nil; intros [i j]; unfold moveInDir; cbn [fst snd neighbour]; f_equal; lia. }
  inversion HL as [| ? b0 ? l0 H0 T0]; subst. inversion T0 as [| ? b1 ? l1 H1 T1]; subst. inversion T1 as [| ? b2 ? l2 H2 T2]; subst. inversion T2 as [| ? b3 ? l3 H3 T3]; subst. inversion T3; subst.
  assert (HN : forall k b, (b = false <-> free (mz_table m) (neighbour (mz_pos m) k)) ->
     (qlt 0 (mz_stochObs m) = true -> sensed m us k (if qlt (us k) (mz_stochObs m) then negb b else b)) /\
     (qlt 0 (mz_stochObs m) = false -> sensed m us k b)).
  { intros k b Hb. split; intros Hq; unfold sensed.
    - apply qlt_iff in Hq. destruct (qlt (us k) (mz_stochObs m)) eqn:Eu.
      + apply qlt_iff in Eu. right. split; [auto |]. rewrite <- Hb. destruct b; cbn; intuition congruence.
      + left. split; [| auto]. intros [_ K]. apply qlt_iff in K. congruence.
    - left. split; [| auto]. intros [K _]. apply qlt_iff in K. congruence. }
  assert (exists obs, getSensors m us = Ok obs /\ length obs = 4 /\ forall k b, nth_error obs k = Some b -> sensed m us k b) as (obs & Eo & Lo & Ho).
  { unfold getSensors. rewrite E. cbn [rbind]. eexists. split; [reflexivity |].
    destruct (qlt 0 (mz_stochObs m)) eqn:Eq.
    - split; [reflexivity |]. intros k b. cbn [flip_noise]. destruct k as [| [| [| [| k]]]]; cbn [nth_error Nat.add]; intros K; try (injection K as <-; refine (proj1 (HN _ _ _) eq_refl); assumption). destruct k; discriminate.
    - split; [reflexivity |]. intros k b. destruct k as [| [| [| [| k]]]]; cbn [nth_error]; intros K; try (injection K as <-; refine (proj2 (HN _ _ _) eq_refl); assumption). destruct k; discriminate. }
  exists obs. split; [auto |]. split; [auto |]. split; [auto |]. unfold polar_getSensors. rewrite Eo. cbn [rbind]. eexists. split; [reflexivity |].
  do 4 (destruct obs as [| ? obs]; [discriminate |]). destruct obs; [| discriminate].
  destruct (mz_dir m) as [| [| [| [| x]]]]; [.. | lia]; (split; [reflexivity |]); intros [| [| [| [| i]]]] Hi; try lia; reflexivity.
Qed.

(** the observation of the MDP task *)
Definition at_pos (m : maze) (p : pos) : maze := with_pos m p (mz_bang m).
(** it tells any two cells of the grid apart if there are at least as many rows as columns, and any two free cells of an
    enclosed maze even with two columns more *)
Theorem C40_mdp_observation m cols p q :
  mdp_getObservation (at_pos m p) = mdp_getObservation (at_pos m q) ->
  (cols <= length (mz_table m) /\ (0 <= snd p < Z.of_nat cols)%Z /\ (0 <= snd q < Z.of_nat cols)%Z) \/
  (cols <= length (mz_table m) + 2 /\ enclosed (mz_table m) cols /\ free (mz_table m) p /\ free (mz_table m) q) ->
  p = q.
Proof.
  unfold mdp_getObservation. cbn. intros E H. destruct p as [i j], q as [i' j']. cbn [fst snd] in *.
  set (n := Z.of_nat (length (mz_table m))) in *.
  assert (Hd : (Z.abs (j - j') < n)%Z).
  { destruct H as [(A & B & C) | (A & [_ HE] & B & C)]; [lia |]. apply HE in B, C. fold n in B, C. lia. }
  assert (i = i') by nia. subst i'. f_equal. lia.
Qed.
(** with three columns more there are always two different inner cells that it confuses *)
Theorem C40_mdp_observation_refuted m cols : 4 <= length (mz_table m) -> length (mz_table m) + 3 <= cols ->
  let p := (1, Z.of_nat (length (mz_table m)) + 1)%Z in let q := (2, 1)%Z in
  p <> q /\ (1 <= fst p /\ fst p + 1 < Z.of_nat (length (mz_table m)) /\ 1 <= snd p /\ snd p + 1 < Z.of_nat cols)%Z /\
  (1 <= fst q /\ fst q + 1 < Z.of_nat (length (mz_table m)) /\ 1 <= snd q /\ snd q + 1 < Z.of_nat cols)%Z /\
  mdp_getObservation (at_pos m p) = mdp_getObservation (at_pos m q).
Proof.
  intros A B p q. unfold p, q, mdp_getObservation. cbn [at_pos with_pos mz_pos mz_table fst snd]. split; [intros [= ]; lia |]. repeat split; lia.
Qed.
(** the reward of the MDP task: 1 exactly on the goal, and then the agent is put back on an initial position *)
Theorem C40_mdp_reward m cols d : good cols m ->
  exists r m', mdp_getReward m d = Ok (r, m') /\
    (mz_goal m = Some (mz_pos m) /\ r = 1%Q /\ In (mz_pos m') (mz_init m) \/ mz_goal m <> Some (mz_pos m) /\ r = 0%Q /\ m' = m).
Proof.
  intros HG. unfold mdp_getReward. destruct (is_goal (mz_goal m) (mz_pos m)) eqn:E; unfold is_goal in E.
  - destruct (good_reset _ _ d HG) as (m' & -> & _ & _ & _ & Hi). cbn. exists 1%Q, m'. split; [auto |]. left. split; [| auto].
    destruct (mz_goal m); [| discriminate]. apply pos_eqb_iff in E. congruence.
  - exists 0%Q, m. split; [auto |]. right. split; [| auto]. intros K. rewrite K in E. assert (pos_eqb (mz_pos m) (mz_pos m) = true) by now apply pos_eqb_iff. congruence.
Qed.

(** without the border the agent can walk off the grid: the position becomes negative (and is read from the other side) *)
Definition open_maze : list (list bool) := [[false; false]; [false; false]].
Theorem C40_no_border_refuted : exists m m', mkMaze open_maze (Some (1, 1)%Z) None 0 0 0 = Ok m /\
  free open_maze (mz_pos m) /\ performAction m 2 0 0 = Ok m' /\ ~ free open_maze (mz_pos m') /\ mz_bang m' = false.
Proof.
  do 2 eexists. split; [reflexivity |]. split; [repeat split; try (cbn; lia); exists [false; false]; auto |]. split; [reflexivity |]. split; [| reflexivity].
  intros (A & _). cbn in A. lia.
Qed.

(** non-trivial cases *)
Definition trivial_maze : list (list bool) := [[true; true; true; true; true]; [true; false; false; false; true]; [true; true; true; true; true]].
Lemma free_dec t p : free t p <-> (0 <= fst p)%Z /\ (0 <= snd p)%Z /\ nth (Z.to_nat (snd p)) (nth (Z.to_nat (fst p)) t []) true = false.
Proof.
  unfold free. split; intros (A & B & C); (split; [auto |]); (split; [auto |]).
  - destruct C as (row & C & D). apply (nth_error_nth _ _ []) in C. apply (nth_error_nth _ _ true) in D. congruence.
  - destruct (nth_error t (Z.to_nat (fst p))) as [row |] eqn:E.
    + rewrite (nth_error_nth _ _ [] E) in C. exists row. split; [auto |]. destruct (nth_error row (Z.to_nat (snd p))) as [b |] eqn:E2.
      * rewrite (nth_error_nth _ _ true E2) in C. congruence.
      * apply nth_error_None in E2. rewrite nth_overflow in C by auto. discriminate.
    + apply nth_error_None in E. rewrite (nth_overflow t []) in C by auto. destruct (Z.to_nat (snd p)); discriminate.
Qed.
Example trivial_enclosed : enclosed trivial_maze 5.
Proof.
  split; [repeat constructor |]. intros i j H. apply freePos_spec in H. vm_compute in H. destruct H as [[= <- <-] | [[= <- <-] | [[= <- <-] | []]]]; cbn; lia.
Qed.
Example trivial_run : exists m m', mkMaze trivial_maze (Some (1, 3)%Z) (Some [(1, 1)%Z]) (1 # 10) 0 7 = Ok m /\ good 5 m /\
  run apply m [Act 0 (1 # 2) 0; Act 1 (1 # 2) 0; Act 3 0 1; Reward 0] = Ok m' /\ mz_pos m' = (1, 1)%Z.
Proof.
  destruct (C40_construct trivial_maze 5 (Some (1, 3)%Z) (Some [(1, 1)%Z]) (1 # 10) 0 7 trivial_enclosed) as (m & E & G & _).
  { split; [discriminate |]. intros p [<- | []]. apply free_dec. vm_compute. intuition discriminate. }
  exists m. vm_compute in E. injection E as <-. eexists. split; [reflexivity |]. split; [auto |]. split; vm_compute; reflexivity.
Qed.

(** ** C56: the return of an episode *)
(** Spec: the reward of the i-th step, from the positions before and after it *)
Definition step_reward (t : task) (m' : maze) (r : Q) : Prop :=
  (mz_goal m' = Some (mz_pos m') /\ r = tk_finalReward t) \/
  (mz_goal m' <> Some (mz_pos m') /\ mz_bang m' = true /\ r = tk_bangPenalty t) \/
  (mz_goal m' <> Some (mz_pos m') /\ mz_bang m' = false /\ r = tk_defaultPenalty t).
Inductive episode (t : task) : maze -> list (nat * Q * nat) -> maze -> list Q -> Prop :=
| ep_nil : forall m, episode t m [] m []
| ep_cons : forall m a u d acts k m1 m2 r rs, a < 4 -> walked 4 (mz_stochAction m) a u d k -> moved m m1 k -> same_world m m1 -> mz_dir m1 = mz_dir m ->
    step_reward t m1 r -> episode t m1 acts m2 rs -> episode t m ((a, u, d) :: acts) m2 (r :: rs).
(** the sum of g^i * r_i with i from [k] on *)
Fixpoint discounted (g : Q) (k : nat) (rs : list Q) : Q :=
  match rs with [] => 0%Q | r :: rest => (qpower g k * r + discounted g (S k) rest)%Q end.
Definition factor (d : option Q) : Q := match d with Some g => if Qeq_bool g 0 then 1%Q else g | None => 1%Q end.
Fixpoint play (t : task) (acts : list (nat * Q * nat)) : result (list Q * task) :=
  match acts with
  | [] => Ok ([], t)
  | (a, u, d) :: rest =>
      let! x := interaction maze_getReward t (Z.of_nat a) u d in
      let! y := play (snd x) rest in Ok (fst x :: fst y, snd y)
  end.
Lemma goal_iff g p : is_goal g p = true <-> g = Some p.
Proof. unfold is_goal. destruct g as [q |]; [rewrite pos_eqb_iff; split; congruence | split; discriminate]. Qed.
Lemma qpower_1 n : (qpower 1 n == 1)%Q.
Proof. induction n; cbn [qpower]; lra. Qed.

Lemma episode_ext t t' m acts m2 rs : tk_finalReward t' = tk_finalReward t -> tk_bangPenalty t' = tk_bangPenalty t -> tk_defaultPenalty t' = tk_defaultPenalty t ->
  episode t m acts m2 rs -> episode t' m acts m2 rs.
Proof. intros A B C H. induction H; [constructor |]. econstructor; eauto. unfold step_reward in *. rewrite A, B, C. auto. Qed.
Lemma play_spec acts : forall t cols, good cols (tk_env t) -> Forall (fun a => fst (fst a) < 4) acts ->
  exists rs t', play t acts = Ok (rs, t') /\ episode t (tk_env t) acts (tk_env t') rs /\
    tk_steps t' = tk_steps t + length acts /\ tk_samples t' = tk_samples t + length acts /\
    (tk_cum t' == tk_cum t + discounted (factor (tk_discount t)) (S (tk_samples t)) rs)%Q /\
    tk_maxSteps t' = tk_maxSteps t /\ good cols (tk_env t').
Proof.
  induction acts as [| [[a u] d] acts IH]; intros t cols HG HA.
  - exists [], t. cbn [play discounted length]. split; [auto |]. split; [constructor |]. split; [lia |]. split; [lia |]. split; [lra |]. auto.
  - inversion HA as [| ? ? H1 H2]; subst. cbn [fst] in H1.
    destruct (C40_step (tk_env t) cols a u d (proj1 HG) (proj1 (proj2 (proj2 (proj2 HG)))) H1) as (k & m1 & Hw & E & M & W).
    assert (HD : mz_dir m1 = mz_dir (tk_env t)). { unfold performAction in E. destruct (py_nth _ _); [| discriminate]. unfold try_move in E. destruct (table_at _ _) as [[|] |]; [..|discriminate]; injection E as <-; reflexivity. }
    assert (G1 : good cols m1). { eapply good_world; eauto; [eapply moved_free; eauto; apply HG | rewrite HD; apply HG]. }
    cbn [play]. unfold interaction, task_performAction. rewrite E. cbn [rbind].
    match goal with |- context [addReward maze_getReward ?x] => set (t0 := x) end.
    set (r := fst (maze_getReward t0)). assert (Hr : step_reward t m1 r).
    { unfold r, maze_getReward, step_reward. cbn [t0 tk_env fst tk_finalReward tk_bangPenalty tk_defaultPenalty]. destruct (is_goal (mz_goal m1) (mz_pos m1)) eqn:Eg.
      - left. apply goal_iff in Eg. auto.
      - right. assert (mz_goal m1 <> Some (mz_pos m1)) by (intros K; apply goal_iff in K; congruence). destruct (mz_bang m1) eqn:B; auto. }
    set (t1 := addReward maze_getReward t0).
    assert (P1 : tk_env t1 = m1 /\ tk_steps t1 = tk_steps t + 1 /\ tk_samples t1 = tk_samples t + 1 /\ tk_maxSteps t1 = tk_maxSteps t /\ tk_discount t1 = tk_discount t /\
            tk_finalReward t1 = tk_finalReward t /\ tk_bangPenalty t1 = tk_bangPenalty t /\ tk_defaultPenalty t1 = tk_defaultPenalty t) by (unfold t1, addReward, maze_getReward, t0; cbn; auto 10).
    assert (Pc : (tk_cum t1 == tk_cum t + qpower (factor (tk_discount t)) (S (tk_samples t)) * r)%Q).
    { unfold t1, addReward. unfold maze_getReward at 1. fold r. cbn [tk_cum t0 tk_discount tk_samples]. change (fst (maze_getReward t0)) with r.
      assert (Er : (if is_goal (mz_goal (tk_env t0)) (mz_pos (tk_env t0)) then tk_finalReward t0 else if mz_bang (tk_env t0) then tk_bangPenalty t0 else tk_defaultPenalty t0) = r) by reflexivity.
      rewrite Er. replace (tk_samples t + 1) with (S (tk_samples t)) by lia. unfold factor. destruct (tk_discount t) as [g |].
      - destruct (Qeq_bool g 0); [rewrite qpower_1; lra | lra].
      - rewrite qpower_1. lra. }
    assert (Hr1 : fst (maze_getReward t1) = r) by reflexivity.
    assert (Ht1 : snd (maze_getReward t1) = t1) by reflexivity.
    clearbody t1 r. destruct P1 as (P1 & P2 & P3 & P4 & P5 & P6 & P7 & P8). clear t0.
    destruct (IH t1 cols) as (rs & t' & Ep & Hep & Hs & Hsa & Hc & Hm & HG'); [rewrite P1; auto | auto |].
    rewrite Ht1, Ep, Hr1. cbn [rbind fst snd]. exists (r :: rs), t'. split; [auto |]. split.
    { econstructor; eauto. rewrite P1 in Hep. eapply episode_ext; [| | | exact Hep]; congruence. }
    cbn [length discounted]. split; [lia |]. split; [lia |]. split; [| split; [congruence | auto]].
    rewrite Hc, Pc, P5, P3. replace (S (tk_samples t + 1)) with (S (S (tk_samples t))) by lia. lra.
Qed.
(** From a reset on, whatever the agent does, the task counts the steps, the agent is given the reward of each step, the
    total is the sum of the rewards discounted from the first step on, and the task is finished iff the goal is reached or
    the allowed number of steps is used up. *)
Theorem C56_episode t cols d acts : good cols (tk_env t) -> Forall (fun a => fst (fst a) < 4) acts ->
  exists t0 rs t', task_reset t d = Ok t0 /\ In (mz_pos (tk_env t0)) (mz_init (tk_env t)) /\ play t0 acts = Ok (rs, t') /\
    episode t (tk_env t0) acts (tk_env t') rs /\
    tk_steps t' = length acts /\ tk_samples t' = length acts /\
    (tk_cum t' == discounted (factor (tk_discount t)) 1 rs)%Q /\
    (maze_isFinished t' = true <-> mz_goal (tk_env t') = Some (mz_pos (tk_env t')) \/ exists n, tk_maxSteps t = Some n /\ n <= length acts).
Proof.
  intros HG HA. unfold task_reset. destruct (good_reset _ _ d HG) as (m0 & E & G0 & W0 & _ & Hi). rewrite E. cbn [rbind].
  match goal with |- context [Ok ?x] => match type of x with task => set (t0 := x) end end. exists t0. destruct (play_spec acts t0 cols G0 HA) as (rs & t' & Ep & Hep & Hs & Hsa & Hc & Hm & _).
  exists rs, t'. split; [reflexivity |]. split; [auto |]. split; [auto |]. split.
  { eapply episode_ext; [| | | exact Hep]; reflexivity. }
  cbn [t0 tk_steps tk_samples tk_cum tk_discount tk_maxSteps] in *. split; [lia |]. split; [lia |]. split; [rewrite Hc; lra |].
  unfold maze_isFinished. rewrite orb_true_iff, goal_iff, Hm, Hs. cbn [Nat.add]. destruct (tk_maxSteps t) as [n |].
  - rewrite Nat.leb_le. split; (intros [|]; [auto | right]); [exists n; auto |]. match goal with K : exists _, _ |- _ => destruct K as (n' & [= <-] & K) end. auto.
  - split; (intros [|]; [auto |]); [discriminate |]. match goal with K : exists _, _ |- _ => destruct K as (n' & [= ] & K) end.
Qed.
(** T-maze of any length: at the junction the wrong turn is punished in the task's total, but asking for the reward moves the
    agent to the goal, so that the agent itself is given the final reward for it (the total and the agent disagree) *)
Definition tmaze_at (len : nat) (t : task) (p : pos) : task := with_env t (with_pos (tk_env t) p false).
Lemma tmaze_table len i j : i < 5 -> j < len + 3 ->
  table_at (transpose5 (tmaze_columns len)) (Z.of_nat i, Z.of_nat j) =
  Ok (if j =? 0 then true else if j <? len + 1 then negb (i =? 2) else if j =? len + 1 then (i =? 0) || (i =? 4) else true).
Proof.
  intros Hi Hj. unfold table_at. cbn [fst snd]. rewrite py_nth_in by lia. rewrite Nat2Z.id. unfold transpose5.
  assert (E : nth_error [0; 1; 2; 3; 4] i = Some i) by (do 5 (destruct i as [| i]; [reflexivity |]); lia).
  rewrite (map_nth_error _ i _ E). rewrite py_nth_in by lia. rewrite Nat2Z.id.
  assert (exists c, nth_error (tmaze_columns len) j = Some c /\
    c = if j =? 0 then [true; true; true; true; true] else if j <? len + 1 then [true; true; false; true; true] else if j =? len + 1 then [true; false; false; false; true] else [true; true; true; true; true]) as (c & Ec & Hc).
  { unfold tmaze_columns. eexists. split; [| reflexivity]. destruct j as [| j]; [reflexivity |]. cbn [app nth_error]. change (S j =? 0) with false. cbv iota.
    destruct (Nat.ltb_spec (S j) (len + 1)).
    - rewrite nth_error_app1 by (rewrite repeat_length; lia). apply nth_error_repeat. lia.
    - rewrite nth_error_app2 by (rewrite repeat_length; lia). rewrite repeat_length. destruct (Nat.eqb_spec (S j) (len + 1)).
      + replace (j - len) with 0 by lia. reflexivity.
      + replace (j - len) with 1 by lia. reflexivity. }
  rewrite (map_nth_error _ _ _ Ec). f_equal. subst c. destruct (j =? 0), (j <? len + 1), (j =? len + 1); do 5 (destruct i as [| i]; [reflexivity |]); lia.
Qed.
Lemma try_move_free m d q : moveInDir (mz_pos m) d = q -> table_at (mz_table m) q = Ok false -> try_move m d = Ok (with_pos m q false).
Proof. intros E H. unfold try_move. rewrite E, H. reflexivity. Qed.
Theorem C56_tmaze_wrong_turn_refuted len d up :
  exists t0 t', tmaze len d up = Ok t0 /\
    interaction (tmaze_getReward len) (tmaze_at len t0 (2, Z.of_nat (len + 1))%Z) (if up then 2 else 0) 0 0 = Ok (4%Q, t') /\
    (tk_cum t' == tk_cum t0 + qpower (98 # 100) 1 * (-1 # 10))%Q.
Proof.
  unfold tmaze, mkMaze. cbn [rbind]. unfold reset, choose. cbn [mz_init rbind length]. rewrite Nat.mod_1_r. cbn [nth rbind].
  unfold tmaze_reset, task_reset, reset, choose. cbn [tk_env with_pos mz_init rbind length]. rewrite Nat.mod_1_r. cbn [nth rbind].
  pose proof (tmaze_table len) as HT. set (tbl := transpose5 (tmaze_columns len)) in *. clearbody tbl.
  destruct up; do 2 eexists; (split; [reflexivity |]); unfold interaction, task_performAction, performAction, noisy_action, tmaze_at, tmaze_set_goal;
    cbn [tk_env with_env with_pos with_goal mz_stochAction]; change (qlt 0 0) with false; cbn [andb].
  - change (py_nth allActions 2) with (Some (-1, 0)%Z). cbv iota beta. rewrite (try_move_free _ _ (Z.of_nat 1, Z.of_nat (len + 1))); cycle 1.
    { unfold moveInDir. cbn [mz_pos with_pos fst snd]. f_equal; lia. }
    { cbn [mz_table with_pos with_goal]. rewrite HT by lia. replace (len + 1 =? 0) with false by (symmetry; apply Nat.eqb_neq; lia). rewrite Nat.ltb_irrefl, Nat.eqb_refl. reflexivity. }
    cbn [rbind].
    unfold addReward, tmaze_getReward. cbn [tk_env with_pos with_goal mz_goal mz_pos fst snd]. rewrite Z.eqb_refl. change (Z.eqb (Z.abs (Z.of_nat 1 - 3)) 2) with true. cbn [andb].
    unfold maze_getReward. cbn. rewrite !Z.eqb_refl. cbn. split; [reflexivity |]. cbn. reflexivity.
  - change (py_nth allActions 0) with (Some (1, 0)%Z). cbv iota beta. rewrite (try_move_free _ _ (Z.of_nat 3, Z.of_nat (len + 1))); cycle 1.
    { unfold moveInDir. cbn [mz_pos with_pos fst snd]. f_equal; lia. }
    { cbn [mz_table with_pos with_goal]. rewrite HT by lia. replace (len + 1 =? 0) with false by (symmetry; apply Nat.eqb_neq; lia). rewrite Nat.ltb_irrefl, Nat.eqb_refl. reflexivity. }
    cbn [rbind].
    unfold addReward, tmaze_getReward. cbn [tk_env with_pos with_goal mz_goal mz_pos fst snd]. rewrite Z.eqb_refl. change (Z.eqb (Z.abs (Z.of_nat 3 - 1)) 2) with true. cbn [andb].
    unfold maze_getReward. cbn. rewrite !Z.eqb_refl. cbn. split; [reflexivity |]. cbn. reflexivity.
Qed.
(** the tiger task never accumulates anything *)
Theorem C56_tiger_total_refuted left acts :
  let t := fold_left tiger_performAction acts (tiger_reset left) in tg_cum t = 0%Q /\ tg_steps t = length acts.
Proof.
  cbn zeta. assert (H : forall acts t, tg_cum (fold_left tiger_performAction acts t) = tg_cum t /\ tg_steps (fold_left tiger_performAction acts t) = tg_steps t + length acts).
  { clear. induction acts as [| a acts IH]; intros t; cbn [fold_left length]; [split; [auto | lia] |]. destruct (IH (tiger_performAction t a)) as [-> ->]. unfold tiger_performAction. destruct (Z.eqb a 0); cbn; split; auto; lia. }
  destruct (H acts (tiger_reset left)) as [-> ->]. auto.
Qed.
(** what it pays for the last opened door; -1 until a door is opened *)
Theorem C56_tiger_reward left acts :
  let t := fold_left tiger_performAction acts (tiger_reset left) in
  tg_left t = left /\
  (tg_done t = false /\ tg_next t = (-1)%Q /\ Forall (fun a => a = 0%Z) acts \/
   exists before a after, acts = before ++ a :: after /\ a <> 0%Z /\ Forall (fun b => b = 0%Z) after /\ tg_done t = true /\
     tg_next t = if (Z.eqb a 1 && left) || (Z.eqb a 2 && negb left) then (-100)%Q else 10%Q).
Proof.
  cbn zeta. induction acts as [| a acts IH] using rev_ind; [cbn; auto |]. rewrite fold_left_app. cbn [fold_left]. set (t := fold_left tiger_performAction acts (tiger_reset left)) in *.
  destruct IH as [HL IH]. unfold tiger_performAction. destruct (Z.eqb_spec a 0) as [-> |]; cbn [tg_left tg_done tg_next]; (split; [auto |]).
  - destruct IH as [(A & B & C) | (b & x & c & -> & A & B & C & D)].
    + left. rewrite Forall_app. auto.
    + right. exists b, x, (c ++ [0%Z]). rewrite <- app_assoc. cbn. rewrite Forall_app. auto 8.
  - right. exists acts, a, []. rewrite HL. auto 8.
Qed.
(** the observation names the tiger's side, except when the draw is below stochObs *)
Theorem C56_tiger_observation stochObs left acts u :
  let o := tiger_getObservation stochObs (fold_left tiger_performAction acts (tiger_reset left)) u in
  exists a b, o = [a; b] /\ (a + b == 1)%Q /\ ((stochObs <= u)%Q -> (a == if left then 1 else 0)%Q) /\ ((u < stochObs)%Q -> (a == if left then 0 else 1)%Q).
Proof.
  cbn zeta. destruct (C56_tiger_reward left acts) as [HL _]. cbn zeta in HL. unfold tiger_getObservation. rewrite HL. unfold qlt.
  destruct (Qle_bool stochObs u) eqn:E; cbn [negb].
  - apply Qle_bool_iff in E. destruct left; do 2 eexists; (split; [reflexivity |]); repeat split; intros; try reflexivity; lra.
  - assert (H : (u < stochObs)%Q) by (apply Qnot_le_lt; intros K; apply Qle_bool_iff in K; congruence). destruct left; do 2 eexists; (split; [reflexivity |]); repeat split; intros; try reflexivity; lra.
Qed.
Example C56_tiger_observation_ex : tiger_getObservation (15 # 100) (tiger_reset true) (1 # 2) = [1%Q; 0%Q] /\ map Qred (tiger_getObservation (15 # 100) (tiger_reset true) (1 # 10)) = [0%Q; 1%Q].
Proof. vm_compute. auto. Qed.
(** the 4x3 maze: the perturbed moves are not always those perpendicular or parallel to the wanted one: the opposite one is excluded for two of the four actions only *)
Theorem C56_maze4x3_opposite_refuted : In 2%Z (maze4x3_poss 0) /\ In 3%Z (maze4x3_poss 1) /\ ~ In 0%Z (maze4x3_poss 2) /\ ~ In 1%Z (maze4x3_poss 3).
Proof. vm_compute. intuition discriminate. Qed.

Example C56_case : exists m t0 rs t', mkMaze trivial_maze (Some (1, 3)%Z) (Some [(1, 1)%Z]) 0 0 0 = Ok m /\ good 5 m /\
  let t := {| tk_env := m; tk_steps := 5; tk_samples := 5; tk_cum := 3; tk_discount := Some (1 # 2)%Q; tk_maxSteps := Some 9; tk_bangPenalty := (-1)%Q; tk_defaultPenalty := 0; tk_finalReward := 1 |} in
  task_reset t 0 = Ok t0 /\ play t0 [(0, 0%Q, 0); (1, 0%Q, 0); (1, 0%Q, 0)] = Ok (rs, t') /\ rs = [(-1)%Q; 0%Q; 1%Q] /\ (tk_cum t' == -3 # 8)%Q /\ maze_isFinished t' = true.
Proof.
  destruct (C40_construct trivial_maze 5 (Some (1, 3)%Z) (Some [(1, 1)%Z]) 0 0 0 trivial_enclosed) as (m & E & G & _).
  { split; [discriminate |]. intros p [<- | []]. apply free_dec. vm_compute. intuition discriminate. }
  exists m. vm_compute in E. injection E as <-. do 3 eexists. split; [reflexivity |]. split; [auto |]. cbv zeta. split; [vm_compute; reflexivity |]. split; [vm_compute; reflexivity |]. vm_compute. auto.
Qed.

Print Assumptions C40_step. Print Assumptions C40_polar_step. Print Assumptions C40_construct. Print Assumptions C40_safe. Print Assumptions C40_polar_safe. Print Assumptions C40_sensors.
Print Assumptions C40_mdp_observation. Print Assumptions C40_mdp_observation_refuted. Print Assumptions C40_mdp_reward. Print Assumptions C40_no_border_refuted.
Print Assumptions C56_episode. Print Assumptions C56_tmaze_wrong_turn_refuted. Print Assumptions C56_tiger_total_refuted. Print Assumptions C56_tiger_reward. Print Assumptions C56_maze4x3_opposite_refuted.
