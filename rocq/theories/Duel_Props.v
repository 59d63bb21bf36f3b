(** C75: the tasks of playing against an opponent. *)
From Coq Require Import QArith Qround Lqa.
From Verif Require Import Base Dict Games_Model Capture_Model Duel_Model Duel_Spec Duel_Proofs Duel_Proofs2 Duel_Proofs3.

(** the capture game and Gomoku as rules *)
Definition col (z : Z) : color := if (z =? 1)%Z then Black else White.
Definition num (c : color) : Z := match c with Black => 1 | White => -1 end.
Definition capture_rules (n : Z) : rules cgame cmove := {|
  r_reset := capture_reset;
  r_move := fun g c a => let! r := doMove n true g (col c) a in Ok (fst r);
  r_winner := fun g => match c_winner g with Winner c => Some (num c) | _ => None end;
  r_moves := c_moves |}.
Definition gomoku_rules (n : Z) : rules Games_Model.game Games_Model.pos := {|
  r_reset := gomoku_reset;
  r_move := fun g c a => let '(g', r) := gomoku_move (square n) g (col c) a in let! _ := r in Ok g';
  r_winner := fun g => match g_winner g with Winner c => Some (num c) | Draw => Some 0%Z | Undecided => None end;
  r_moves := g_moves |}.
Definition captureTask (alt : bool) (coeff : Q) (n : Z) (games batch : nat) : tcfg :=
  {| k_alternate := alt; k_reward := 1; k_coeff := coeff; k_min := 3; k_max := n * n; k_discount := None; k_draws := false; k_average := games; k_batch := batch |}.
Definition gomokuTask (alt : bool) (coeff : Q) (n : Z) (games batch : nat) : tcfg :=
  {| k_alternate := alt; k_reward := 1; k_coeff := coeff; k_min := 9; k_max := n * n; k_discount := None; k_draws := true; k_average := games; k_batch := batch |}.
Lemma capture_fair n k : fair (capture_rules n) k.
Proof. split; [reflexivity |]. intros g x. cbn. destruct (c_winner g) as [|[]|]; intros H; inversion H; auto. Qed.
Lemma gomoku_fair n k : k_draws k = true -> fair (gomoku_rules n) k.
Proof. intros D. split; [reflexivity |]. intros g x. cbn. destruct (g_winner g) as [|[]|]; intros H; inversion H; auto. Qed.

(** An episode is one game, black first and the two players in turn, to its end; the return is what the end is worth to the agent, counted once,
    whoever started; with alternateStarting the opponent then changes its colour, once. *)
Theorem C75_game {G A W} (R : rules G A) k (opponent agent : player G A W) fuel c t t' :
  fair R k -> (c = 1 \/ c = -1)%Z -> t_color t = c -> doEpisode R k opponent agent fuel (- c) t = Ok t' ->
  exists n, game R opponent agent (- c) (r_reset R) (t_w t) BLACK n (t_g t') (t_w t') /\
    t_samples t' = n /\ t_cum t' == discounted k n (payoff R k (- c) (t_g t')) /\
    t_color t' = (if k_alternate k then - c else c)%Z.
Proof.
  intros F Hc Ec P. destruct (episode_spec R k opponent agent c fuel t t' F Hc Ec P) as (n & [I1 I2] & Hg & Hw). exists n.
  destruct (r_winner R (t_g t')); [| congruence]. tauto.
Qed.
(** Every game that the players can finish is an episode. *)
Theorem C75_complete {G A W} (R : rules G A) k (opponent agent : player G A W) n g2 w2 c t :
  fair R k -> (c = 1 \/ c = -1)%Z -> k_max k <> k_min k -> t_color t = c ->
  game R opponent agent (- c) (r_reset R) (t_w t) BLACK n g2 w2 ->
  exists t', doEpisode R k opponent agent (S n) (- c) t = Ok t'.
Proof. intros F Hc Hm Ec Hg. eapply episode_ok; eauto. Qed.
(** The fitness is the average over averageOverGames such games, the agent always with the colour the opponent does not have; with
    alternateStarting the colours change after every game. *)
Theorem C75_average {G A W} (R : rules G A) k (opponent agent : player G A W) fuel c t v t' :
  fair R k -> k_batch k = 1%nat -> (c = 1 \/ c = -1)%Z -> t_color t = c -> task_f R k opponent agent fuel t = Ok (v, t') ->
  exists l, series R opponent agent k (k_average k) c (t_w t) l (t_color t') (t_w t') /\ length l = k_average k /\
    v == total R k l / inject_Z (Z.of_nat (k_average k)) /\
    (forall i e, nth_error l i = Some e -> fst (fst e) = if k_alternate k && Nat.odd i then c else (- c)%Z) /\
    t_color t' = if k_alternate k && Nat.odd (k_average k) then (- c)%Z else c.
Proof.
  intros F Hb Hc Ec. unfold task_f. destruct (evaluations R k opponent agent fuel (k_average k) 0 t) as [[r t1]|e] eqn:E; cbn [rbind fst snd]; [| discriminate].
  destruct (k_average k =? 0)%nat eqn:E0; [discriminate |]. intros P. injection P as <- <-.
  destruct (evaluations_spec R k opponent agent fuel _ F Hb c t 0%Q r t1 Hc Ec E) as (l & S1 & S2). exists l. split; [exact S1 |].
  assert (X : length l = k_average k /\ (forall i e, nth_error l i = Some e -> fst (fst e) = if k_alternate k && Nat.odd i then c else (- c)%Z) /\
    t_color t1 = if k_alternate k && Nat.odd (k_average k) then (- c)%Z else c).
  { clear - S1. remember (k_average k) as m eqn:Em. clear Em. remember (t_color t1) as c1. remember (t_w t1) as w1. clear Heqc1 Heqw1.
    induction S1 as [c w | m c w n g w1 l c' w' Hg S1 (IH1 & IH2 & IH3)].
    - split; [reflexivity |]. split; [intros [|i] e; discriminate |]. now rewrite andb_false_r.
    - split; [cbn; lia |]. split.
      + intros [|i] e He; cbn [nth_error] in He; [injection He as <-; cbn; now rewrite andb_false_r |]. rewrite (IH2 i e He). rewrite Nat.odd_succ, <- Nat.negb_odd.
        destruct (k_alternate k), (Nat.odd i); cbn [andb negb]; lia.
      + rewrite IH3, Nat.odd_succ, <- Nat.negb_odd. destruct (k_alternate k), (Nat.odd m); cbn [andb negb]; lia. }
  destruct X as (X1 & X2 & X3). repeat (split; [first [assumption | rewrite S2; field; apply inject_nz; apply Nat.eqb_neq in E0; lia] |]). exact X3.
Qed.
Local Open Scope Q_scope.
(** Winning is worth more than losing, and winning sooner more than winning later - if the number of moves stays in its range. *)
Theorem C75_worth {G A} (R : rules G A) k me g :
  (k_min k < k_max k)%Z -> (0 <= k_coeff k <= k_reward k)%Q -> (k_min k <= r_moves R g <= k_max k)%Z -> (me = 1 \/ me = -1)%Z ->
  (r_winner R g = Some me -> 0 <= payoff R k me g) /\ (r_winner R g = Some (- me)%Z -> payoff R k me g <= 0) /\
  (forall g', r_winner R g = Some me -> r_winner R g' = Some me -> (r_moves R g <= r_moves R g')%Z -> payoff R k me g' <= payoff R k me g).
Proof.
  intros Hm Hk Hr Hme. set (D := inject_Z (k_max k - k_min k)).
  assert (HD : (0 < D)%Q) by (unfold D; change 0%Q with (inject_Z 0); rewrite <- Zlt_Qlt; lia).
  assert (Frac : forall m, k_coeff k * inject_Z (m - k_min k) / D == k_coeff k * (inject_Z (m - k_min k) / D)) by (intros; field; lra).
  assert (V : (0 <= k_reward k - k_coeff k * inject_Z (r_moves R g - k_min k) / D)%Q).
  { rewrite Frac. assert (0 <= inject_Z (r_moves R g - k_min k) / D)%Q by (apply Qle_shift_div_l; [auto |]; rewrite Qmult_0_l; change 0%Q with (inject_Z 0); rewrite <- Zle_Qle; lia).
    assert (inject_Z (r_moves R g - k_min k) / D <= 1)%Q by (apply Qle_shift_div_r; [auto |]; rewrite Qmult_1_l; unfold D; rewrite <- Zle_Qle; lia). nra. }
  unfold payoff. fold D. split; [| split].
  - intros ->. destruct (Z.eq_dec me 0); [lia |]. destruct (Z.eq_dec me me); [exact V | congruence].
  - intros ->. destruct (Z.eq_dec (- me) 0); [lia |]. destruct (Z.eq_dec (- me) me); [lia |]. lra.
  - intros g' -> -> L. destruct (Z.eq_dec me 0); [lia |]. destruct (Z.eq_dec me me); [| congruence].
    assert (inject_Z (r_moves R g - k_min k) / D <= inject_Z (r_moves R g' - k_min k) / D)%Q.
    { apply Qmult_le_compat_r; [rewrite <- Zle_Qle; lia |]. apply Qlt_le_weak, Qinv_lt_0_compat, HD. }
    rewrite !Frac. nra.
Qed.

(** Examples on the real games: an opponent that takes the first empty point (with the world counting its moves), an agent that takes the last one. *)
Definition firstLegal (n : Z) : player cgame cmove nat := fun w g c => match c_getLegals n g with [] => Err IndexError | p :: _ => Ok (Put p, S w) end.
Definition lastLegal (n : Z) : player cgame cmove nat := fun w g c => match rev (c_getLegals n g) with [] => Err IndexError | p :: _ => Ok (Put p, S w) end.
Definition fresh (w : nat) (c : Z) : task cgame nat := {| t_g := capture_reset; t_w := w; t_color := c; t_switched := false; t_cum := 0; t_samples := 0 |}.
Example C75_game_ex : exists t1 t2,
  doEpisode (capture_rules 3) (captureTask true (1 # 2) 3 2 1) (firstLegal 3) (lastLegal 3) 20 (-1) (fresh 0 1) = Ok t1 /\
  doEpisode (capture_rules 3) (captureTask true (1 # 2) 3 2 1) (firstLegal 3) (lastLegal 3) 20 1 t1 = Ok t2 /\
  (t_color t1 = -1 /\ t_color t2 = 1 /\ r_moves (capture_rules 3) (t_g t1) = 9)%Z /\ t_cum t1 == - (1 # 2) /\ t_cum t2 == 1 # 2.
Proof. eexists. eexists. split; [vm_compute; reflexivity |]. split; [vm_compute; reflexivity |]. split; [repeat split |]. split; reflexivity. Qed.
Example C75_average_ex : exists v t', task_f (capture_rules 3) (captureTask true (1 # 2) 3 3 1) (firstLegal 3) (lastLegal 3) 20 (fresh 0 1) = Ok (v, t') /\ t_color t' = (-1)%Z.
Proof. eexists. eexists. split; [vm_compute; reflexivity | reflexivity]. Qed.
(** a drawn game of Gomoku is worth nothing *)
Example C75_draw_ex : exists t', doEpisode (gomoku_rules 2) (gomokuTask false 0 2 1 1)
    (fun (w : nat) g c => match getLegals (square 2) (g_b g) with [] => Err IndexError | p :: _ => Ok (p, w) end)
    (fun w g c => match getLegals (square 2) (g_b g) with [] => Err IndexError | p :: _ => Ok (p, w) end) 20 (-1)
    {| t_g := gomoku_reset; t_w := 0%nat; t_color := 1; t_switched := false; t_cum := 0; t_samples := 0 |} = Ok t' /\
  g_winner (t_g t') = Draw /\ t_cum t' == 0 /\ t_samples t' = 4%nat.
Proof. eexists. split; [vm_compute; reflexivity |]. repeat split. Qed.

(** batchSize > 1 with alternateStarting: the agent keeps its colour within a batch, so in every second game both players have the same colour; here
    both always resign, so that each should win the games the other one starts, but the agent is credited with both. *)
Definition resigner : player cgame cmove nat := fun w _ _ => Ok (Resign, S w).
Theorem C75_batch_refuted : exists v t' v2 t2,
  task_f (capture_rules 3) (captureTask true 0 3 1 2) resigner resigner 20 (fresh 0 1) = Ok (v, t') /\ v == 1 /\
  task_f (capture_rules 3) (captureTask true 0 3 2 1) resigner resigner 20 (fresh 0 1) = Ok (v2, t2) /\ v2 == 0.
Proof. eexists. eexists. eexists. eexists. split; [vm_compute; reflexivity |]. split; [reflexivity |]. split; [vm_compute; reflexivity | reflexivity]. Qed.
(** Refused moves count as moves: a winner may get a negative reward. *)
Definition staller (n : nat) : player cgame cmove nat := fun w _ _ => if (w <? n)%nat then Ok (Put (-1, -1)%Z, S w) else Ok (Resign, S w).
Theorem C75_refused_moves_refuted : exists t', doEpisode (capture_rules 3) (captureTask false 1 3 1 1) (staller 12) (staller 40) 20 (-1) (fresh 0 1) = Ok t' /\
  r_winner (capture_rules 3) (t_g t') = Some (-1)%Z /\ t_cum t' < 0.
Proof. eexists. split; [vm_compute; reflexivity |]. split; [reflexivity | vm_compute; reflexivity]. Qed.

(** ** the handicap task *)
(** The games follow the ladder: game after game at the handicap the rule prescribes, until the result is settled or maxGames is reached; every lookup
    in the table of results finds its key, and the score is the one of the games at the highest handicap played. *)
Theorem C75_handicap c play : (forall i h, exists w m, play i h = Ok (w, m)) -> (0 < hc_games c)%nat -> (0 < hc_evals c)%Z ->
  exists v l h, handicap_f c play = Ok (v, l) /\ ladder (hc_evals c) (hc_top c) play l h /\
    (0 < length l <= hc_games c)%nat /\ ((length l < hc_games c)%nat -> settled (hc_evals c) (hc_top c) l h) /\ ladder_score (hc_evals c) l v.
Proof.
  intros HP HG HE. unfold handicap_f.
  assert (I0 : hinv [(0%nat, hzero)] 0 [] 0).
  { constructor; [reflexivity | | reflexivity | lia | intros e []]. intros h Hh. assert (h = 0%nat) by lia. subst. reflexivity. }
  destruct (hloop_ok c play (hc_games c) HP [(0%nat, hzero)] 0%nat [] 0%Z I0 (ladder_start _ _ _)) as (d & cur & m & l & E & I & L & Len & St).
  change (length []) with 0%nat in E. rewrite E. cbn [rbind].
  assert (NE : l <> []).
  { intros ->. cbn [length] in *. destruct (St ltac:(lia)) as [(B & _) | (A & _)]; [vm_compute in B; discriminate |]. change (plays [] cur) with 0%Z in A. lia. }
  destruct (score_ok c d m l cur I NE) as (v & Ev & Hv). rewrite Ev. cbn [rbind]. exists v, l, cur. split; [reflexivity |]. split; [exact L |].
  split; [destruct l; [congruence | cbn [length] in *; lia] |]. split; [intros; apply St; cbn [length]; lia | exact Hv].
Qed.
(** The handicap changes by at most one from game to game, stays between 0 and the maximum, and never comes back to 0. *)
Theorem C75_handicap_range ev top play l h : ladder ev top play l h ->
  (forall e, In e l -> 0 <= e_h e <= Z.max 0 top)%Z /\
  (forall i a b, nth_error l i = Some a -> nth_error l (S i) = Some b -> (Z.abs (e_h b - e_h a) <= 1)%Z /\ (1 <= e_h a -> 1 <= e_h b)%Z).
Proof.
  intros L. set (c := {| hc_games := 1; hc_evals := ev; hc_top := top |}). split; [apply (ladder_range c play l h L) |].
  intros i a b Ha Hb. destruct (ladder_step c play l h i a L Ha) as [S1 S2]. rewrite Hb in S1, S2. split; [lia | exact S2].
Qed.
(** The highest handicap is the number of points on the second line of the board. *)
Definition second_line (n : Z) (p : Games_Model.pos) : Prop :=
  (1 <= fst p <= n - 2 /\ 1 <= snd p <= n - 2 /\ (fst p = 1 \/ fst p = n - 2 \/ snd p = 1 \/ snd p = n - 2))%Z.
Lemma NoDup_app_disjoint {A} (l m : list A) : NoDup l -> NoDup m -> (forall x, In x l -> ~ In x m) -> NoDup (l ++ m).
Proof.
  induction l as [|a l IH]; intros N M D; [exact M|]. apply NoDup_cons_iff in N as [Na Nl]. cbn [app]. constructor.
  - intro I. apply in_app_or in I as [I|I]; [contradiction | exact (D a (or_introl eq_refl) I)].
  - apply IH; auto. intros x Hx. apply D. right. exact Hx.
Qed.
Theorem C75_max_handicap n : (4 <= n)%Z ->
  exists l : list Games_Model.pos, NoDup l /\ (forall p, In p l <-> second_line n p) /\ Z.of_nat (length l) = maxHandicaps n.
Proof.
  intro Hn. set (zs := fun lo k => map (fun i => (lo + Z.of_nat i)%Z) (seq 0 (Z.to_nat k))).
  assert (ZI : forall lo k z, In z (zs lo k) <-> (lo <= z < lo + k)%Z).
  { intros lo k z. unfold zs. rewrite in_map_iff. split.
    - intros (i & <- & Hi). apply in_seq in Hi. lia.
    - intro H. exists (Z.to_nat (z - lo)). split; [lia | apply in_seq; lia]. }
  assert (ZL : forall lo k, length (zs lo k) = Z.to_nat k) by (intros; unfold zs; now rewrite map_length, seq_length).
  assert (ZN : forall lo k, NoDup (zs lo k)).
  { intros. unfold zs. apply FinFun.Injective_map_NoDup; [intros a b; lia | apply seq_NoDup]. }
  assert (MN : forall (f : Z -> Games_Model.pos) lo k, (forall a b, f a = f b -> a = b) -> NoDup (map f (zs lo k))).
  { intros f lo k If. apply FinFun.Injective_map_NoDup; [exact If | apply ZN]. }
  exists (map (fun i => (1, i)%Z) (zs 1 (n - 2))%Z ++ map (fun i => (n - 2, i)%Z) (zs 1 (n - 2))%Z ++
          map (fun i => (i, 1)%Z) (zs 2 (n - 4))%Z ++ map (fun i => (i, n - 2)%Z) (zs 2 (n - 4))%Z).
  split; [|split].
  - repeat apply NoDup_app_disjoint; try (apply MN; intros a b E; inversion E; reflexivity); intros [x y] H G;
      rewrite ?in_app_iff, !in_map_iff in *;
      repeat match goal with H : _ \/ _ |- _ => destruct H | H : exists _, _ |- _ => destruct H | H : _ /\ _ |- _ => destruct H
        | H : (_, _) = (_, _) |- _ => apply pair_equal_spec in H | H : In _ (zs _ _) |- _ => apply ZI in H end; lia.
  - intros [x y]. unfold second_line. cbn [fst snd]. rewrite !in_app_iff, !in_map_iff. split.
    + intro H. repeat match goal with H : _ \/ _ |- _ => destruct H | H : exists _, _ |- _ => destruct H | H : _ /\ _ |- _ => destruct H
        | H : (_, _) = (_, _) |- _ => apply pair_equal_spec in H | H : In _ (zs _ _) |- _ => apply ZI in H end; lia.
    + intros (Hx & Hy & Hc). destruct (Z.eq_dec x 1) as [->|X1]; [left; exists y; split; [reflexivity | apply ZI; lia]|].
      destruct (Z.eq_dec x (n - 2)) as [->|X2]; [right; left; exists y; split; [reflexivity | apply ZI; lia]|].
      destruct (Z.eq_dec y 1) as [->|Y1]; [right; right; left; exists x; split; [reflexivity | apply ZI; lia]|].
      right; right; right. exists x. split; [f_equal; lia | apply ZI; lia].
  - rewrite !app_length, !map_length, !ZL. unfold maxHandicaps. lia.
Qed.
Example C75_max_handicap_ex : maxHandicaps 9 = 24%Z.
Proof. reflexivity. Qed.
Definition default_handicap (size : Z) : hcfg := {| hc_games := 200; hc_evals := 5; hc_top := maxHandicaps size |}.
(** a player that wins without handicap and every second game with one stone *)
Example C75_handicap_ex : exists v l, handicap_f (default_handicap 5) (fun i h => Ok ((h =? 0)%Z || Nat.even i, 10%Z)) = Ok (v, l) /\ length l = 15%nat /\ 9 # 10 < v /\ v < 11 # 10.
Proof. eexists. eexists. split; [vm_compute; reflexivity |]. split; [reflexivity |]. split; vm_compute; reflexivity. Qed.
(** From handicap 1 there is no way down: a player that always wins without handicap and always loses with one stone plays all 200 games, and gets a lower
    score than one that wins three games out of five without handicap. *)
Theorem C75_handicap_floor_refuted : exists v l v' l',
  handicap_f (default_handicap 5) (fun _ h => Ok ((h =? 0)%Z, 10%Z)) = Ok (v, l) /\ length l = 200%nat /\
  handicap_f (default_handicap 5) (fun i h => Ok ((h =? 0)%Z && (Nat.modulo i 5 <? 3)%nat, 10%Z)) = Ok (v', l') /\ length l' = 10%nat /\ v < 0 /\ (19 # 100) < v'.
Proof.
  eexists. eexists. eexists. eexists. split; [vm_compute; reflexivity |]. split; [reflexivity |]. split; [vm_compute; reflexivity |]. split; [reflexivity |]. split; vm_compute; reflexivity.
Qed.
(** "the scale goes from -1": losing every game gives less. *)
Theorem C75_handicap_scale_refuted : exists v l, handicap_f (default_handicap 5) (fun _ _ => Ok (false, 4%Z)) = Ok (v, l) /\ v < - (1).
Proof. eexists. eexists. split; [vm_compute; reflexivity | vm_compute; reflexivity]. Qed.
(** "if > 80% were won, increase the handicap": not when the only loss was quick. *)
Theorem C75_handicap_percent_refuted : exists l, (wins l 0 = 5 /\ plays l 0 = 6)%Z /\ ~ up 5 l 0 /\ ~ (5 # 6 <= 8 # 10) /\
  forall play, (forall i h, play i h = Ok (negb (i =? 0)%nat, if (i =? 0)%nat then 2%Z else 20%Z)) -> exists h, ladder 5 6 play l h.
Proof.
  exists ((0, false, 2) :: repeat (0, true, 20) 5)%Z. split; [split; reflexivity |].
  assert (NU : forall n, (n <= 6)%nat -> ~ up 5 (firstn n ((0, false, 2) :: repeat (0, true, 20) 5)%Z) 0 /\ ~ down 5 (firstn n ((0, false, 2) :: repeat (0, true, 20) 5)%Z) 0).
  { intros n Hn. do 7 (destruct n as [|n]; [split; intros [A B]; vm_compute in A, B; try discriminate; try (apply A; reflexivity) |]). lia. }
  split; [apply (NU 6%nat); lia |]. split; [intros X; apply Qle_bool_iff in X; discriminate |]. intros play HP. exists 0%Z.
  assert (NS : forall n, (n <= 6)%nat -> ~ settled 5 6 (firstn n ((0, false, 2) :: repeat (0, true, 20) 5)%Z) 0).
  { intros n Hn [(A & _) | (A & _)].
    - do 7 (destruct n as [|n]; [vm_compute in A; discriminate |]). lia.
    - do 7 (destruct n as [|n]; [vm_compute in A; apply A; reflexivity |]). lia. }
  assert (G : forall n, (n <= 6)%nat -> ladder 5 6 play (firstn n ((0, false, 2) :: repeat (0, true, 20) 5)%Z) 0).
  { induction n as [|n IH]; intros Hn; [apply ladder_start |].
    assert (E : firstn (S n) ((0, false, 2) :: repeat (0, true, 20) 5)%Z = firstn n ((0, false, 2) :: repeat (0, true, 20) 5)%Z ++ [(0, negb (n =? 0)%nat, if (n =? 0)%nat then 2 else 20)%Z]).
    { clear - Hn. do 6 (destruct n as [|n]; [reflexivity |]). lia. }
    rewrite E. apply ladder_game with (h := 0%Z); [apply IH; lia | apply NS; lia | | rewrite <- E; right; right; split; [intros [X _]; apply (NU (S n) Hn) in X; exact X | split; [intros [X _]; apply (NU (S n) Hn) in X; exact X | reflexivity]]].
    rewrite HP. assert (LE : length (firstn n ((0, false, 2) :: repeat (0, true, 20) 5)%Z) = n) by (rewrite firstn_length; cbn; lia). rewrite LE. reflexivity. }
  apply (G 6%nat). lia.
Qed.
(** maxGames = 0: the score of a handicap of -1 is looked up. *)
Theorem C75_handicap_no_games_refuted play : handicap_f {| hc_games := 0; hc_evals := 5; hc_top := 6 |} play = Err KeyError.
Proof. reflexivity. Qed.

(** ** relative evaluation *)
Lemma nodup_app {X} (l m : list X) : NoDup l -> NoDup m -> (forall x, In x l -> ~ In x m) -> NoDup (l ++ m).
Proof.
  induction l as [|a l IH]; cbn [app]; intros N1 N2 H; [auto |]. apply NoDup_cons_iff in N1 as [A N1]. constructor.
  - rewrite in_app_iff. intros [X1|X1]; [auto | apply (H a); [now left | auto]].
  - apply IH; auto. intros x Hx. apply H. now right.
Qed.
(** The starting positions are one for each class of inner points under the symmetries of the board. *)
Theorem C75_starts size : (3 <= size)%Z ->
  let r z := Z.min z (size - 1 - z) in
  (forall x y, (1 <= x <= size - 2)%Z -> (1 <= y <= size - 2)%Z -> In (Z.min (r x) (r y), Z.max (r x) (r y)) (fixedStartingPos size)) /\
  (forall x y, In (x, y) (fixedStartingPos size) -> (1 <= x <= size - 2 /\ 1 <= y <= size - 2 /\ x = Z.min (r x) (r y) /\ y = Z.max (r x) (r y))%Z) /\
  NoDup (fixedStartingPos size).
Proof.
  intros Hs r. unfold fixedStartingPos. destruct (Z.ltb_spec size 3); [lia |].
  assert (SP : forall a b z, In z (zspan a b) <-> (a <= z < b)%Z).
  { intros a b z. unfold zspan. rewrite in_map_iff. setoid_rewrite in_seq. split; [intros (i & <- & Hi); lia |]. intros Hz. exists (Z.to_nat (z - a)). lia. }
  assert (ND : forall a b, NoDup (zspan a b)) by (intros a b; unfold zspan; apply FinFun.Injective_map_NoDup; [intros i j; lia | apply seq_NoDup]).
  assert (IN : forall x y, In (x, y) (flat_map (fun x => map (fun y => (x, y)) (zspan x ((size + 1) / 2)%Z)) (zspan 1 ((size + 1) / 2)%Z)) <-> (1 <= x <= y /\ y < (size + 1) / 2)%Z).
  { intros x y. rewrite in_flat_map. split.
    - intros (x' & Hx & Hy). apply SP in Hx. apply in_map_iff in Hy as (y' & E & Hy). apply SP in Hy. injection E as -> ->. lia.
    - intros H1. exists x. split; [apply SP; lia |]. apply in_map_iff. exists y. split; [reflexivity | apply SP; lia]. }
  pose proof (Z.div_mod (size + 1) 2 ltac:(lia)) as D. pose proof (Z.mod_pos_bound (size + 1) 2 ltac:(lia)) as M. set (q := ((size + 1) / 2)%Z) in *. split; [| split].
  - intros x y Hx Hy. rewrite IN. unfold r. lia.
  - intros x y H'. rewrite IN in H'. unfold r. lia.
  - generalize (ND 1%Z q). generalize (zspan 1 q). intros l. induction l as [|x l IH]; intros N; cbn [flat_map]; [constructor |]. apply NoDup_cons_iff in N as [N1 N2].
    apply nodup_app; [apply FinFun.Injective_map_NoDup; [intros i j E; now injection E | apply ND] | now apply IH |].
    intros [u v] Hu Hv. apply in_map_iff in Hu as (y & E & _). injection E as <- _. apply in_flat_map in Hv as (x' & Hx' & Hv).
    apply in_map_iff in Hv as (y' & E & _). injection E as -> _. auto.
Qed.

Definition weighted (l : list rgame) : Q := qsum (fun e => ga_coeff e * ga_res e) l / qsum ga_coeff l.
(** A relative evaluation plays, of every n = cases games, the first np from the empty board and one from each fixed position, in order; the np games of the first
    round being equal, only one is played, with np times the weight.  The value is the weighted average of the results. *)
Theorem C75_relative c play : 0 < rc_prop c <= 1 -> 0 <= rc_minT c -> 0 <= rc_warm c -> rc_max c <> rc_min c -> (1 < cases c)%Z -> (0 < rc_games c)%nat ->
  let starts := fixedStartingPos (rc_size c) in
  exists v s, relative_call c play = Ok (v, s) /\ v == weighted (rs_log s) /\
    (0 <= nonpreset c)%Z /\ (cases c - nonpreset c = Z.of_nat (length starts))%Z /\
    map (fun e => (ga_i e, ga_start e)) (rs_log s) = flat_map (planned (cases c) (nonpreset c) starts) (seq 0 (rc_games c)) /\
    Forall (fun e => 0 < ga_coeff e /\ proper c play (weight (nonpreset c) (ga_i e)) (rounds (cases c) (ga_i e)) e) (rs_log s).
Proof.
  intros [P0 P1] M1 M2 Hm Hn Hg starts.
  assert (CC : (0 <= nonpreset c <= cases c)%Z /\ (cases c - nonpreset c = Z.of_nat (length starts))%Z).
  { pose proof (cases_count (rc_prop c) (Z.of_nat (length starts)) P0 P1 ltac:(lia)) as X. unfold cases in *. apply Qlt_bool_iff in P0. unfold nonpreset, cases. rewrite P0. exact X. }
  destruct CC as [[N0 N1] CL]. unfold relative_call.
  destruct (loop_spec c play (relStep c play) (rounds (cases c)) (weight (nonpreset c)) (planned (cases c) (nonpreset c) starts) (rc_games c)
    (fun i s I => step_spec c play i s M1 M2 Hm Hn N0 CL I) 0%nat (relStart c)) as (s & l & E & I & L & F & M).
  { assert (X : rounds (cases c) 0 = 0%nat).
    { unfold rounds. change (Z.of_nat 0 - 1)%Z with (-1)%Z. assert ((-1) / cases c = -1)%Z by (symmetry; apply (Z.div_unique_pos (-1) (cases c) (-1) (cases c - 1)); lia). rewrite H. reflexivity. }
    rewrite X. apply start_inv. }
  rewrite E. cbn [rbind]. cbn [relStart rs_log app] in L.
  assert (FP : Forall (fun e => 0 < ga_coeff e /\ proper c play (weight (nonpreset c) (ga_i e)) (rounds (cases c) (ga_i e)) e) l).
  { eapply Forall_impl; [| exact F]. intros e He. split; [| exact He]. eapply proper_pos; [exact M1 | exact M2 | | exact He]. unfold weight.
    destruct (Nat.eq_dec (ga_i e) 0); [| reflexivity]. destruct (Z_le_dec (nonpreset c) 0); [reflexivity |]. change 0 with (inject_Z 0). rewrite <- Zlt_Qlt. lia. }
  assert (NE : l <> []).
  { intros ->. destruct (rc_games c) as [|g]; [lia |]. cbn [seq flat_map map] in M. unfold planned at 1 in M. destruct (Z_le_dec _ _); [discriminate |]. discriminate. }
  assert (SP : 0 < rs_sum s).
  { rewrite (ri_sum _ _ _ I), L. apply qsum_pos; [exact NE |]. eapply Forall_impl; [| exact FP]. intros e [H _]. exact H. }
  unfold relValue. destruct (Qeq_bool (rs_sum s) 0) eqn:Q0; [apply Qeq_bool_iff in Q0; lra |]. cbn [rbind].
  eexists. exists s. split; [reflexivity |]. split; [unfold weighted; rewrite (ri_score _ _ _ I), (ri_sum _ _ _ I); reflexivity |].
  rewrite L. split; [exact N0 |]. split; [exact CL |]. split; [exact M | exact FP].
Qed.
(** RelativeGomokuTask: all games from the empty board, the temperature rising after every game but the first. *)
Theorem C75_relative_gomoku c play : 0 <= rc_minT c -> 0 <= rc_warm c -> rc_max c <> rc_min c -> (0 < rc_games c)%nat ->
  exists v s, relative_gomoku_call c play = Ok (v, s) /\ v == weighted (rs_log s) /\
    map (fun e => (ga_i e, ga_start e)) (rs_log s) = map (fun i => (i, None)) (seq 0 (rc_games c)) /\
    Forall (fun e => 0 < ga_coeff e /\ proper c play 1 (ga_i e - 1) e) (rs_log s).
Proof.
  intros M1 M2 Hm Hg. unfold relative_gomoku_call.
  destruct (loop_spec c play (relGomokuStep c play) (fun i => i - 1)%nat (fun _ => 1) (fun i => [(i, None)]) (rc_games c)
    (fun i s I => gomoku_step_spec c play i s M1 M2 Hm I) 0%nat (relStart c) (start_inv c)) as (s & l & E & I & L & F & M).
  rewrite E. cbn [rbind]. cbn [relStart rs_log app] in L.
  assert (FP : Forall (fun e => 0 < ga_coeff e /\ proper c play 1 (ga_i e - 1) e) l).
  { eapply Forall_impl; [| exact F]. intros e He. split; [| exact He]. eapply proper_pos; [exact M1 | exact M2 | | exact He]. reflexivity. }
  assert (NE : l <> []) by (intros ->; destruct (rc_games c) as [|g]; [lia | discriminate]).
  assert (SP : 0 < rs_sum s).
  { rewrite (ri_sum _ _ _ I), L. apply qsum_pos; [exact NE |]. eapply Forall_impl; [| exact FP]. intros e [H _]. exact H. }
  unfold relValue. destruct (Qeq_bool (rs_sum s) 0) eqn:Q0; [apply Qeq_bool_iff in Q0; lra |]. cbn [rbind].
  eexists. exists s. split; [reflexivity |]. split; [unfold weighted; rewrite (ri_score _ _ _ I), (ri_sum _ _ _ I); reflexivity |].
  rewrite L. split; [| exact FP]. rewrite M. clear. generalize 0%nat. induction (rc_games c) as [|g IH]; intros i; [reflexivity |]. cbn [seq flat_map map app]. now rewrite IH.
Qed.
(** The value lies between -1 and 1 if the number of moves stays in its range. *)
Theorem C75_relative_bound c play (l : list rgame) w r : l <> [] -> 0 <= rc_coeff c <= 1 -> (rc_min c < rc_max c)%Z ->
  (forall i p kn, (rc_min c <= snd (play i p kn) <= rc_max c)%Z) ->
  Forall (fun e => 0 < ga_coeff e /\ proper c play (w e) (r e) e) l -> - (1) <= weighted l <= 1.
Proof.
  intros NE Hk Hm HP F. unfold weighted. assert (S0 : 0 < qsum ga_coeff l) by (apply qsum_pos; [auto |]; eapply Forall_impl; [| exact F]; intros e [H _]; exact H).
  assert (B : - qsum ga_coeff l <= qsum (fun e => ga_coeff e * ga_res e) l <= qsum ga_coeff l).
  { apply average_bound. eapply Forall_impl; [| exact F]. intros e [H (_ & _ & E)]. split; [exact H |]. cbv zeta in E. rewrite E.
    specialize (HP (ga_i e) (ga_start e) (ga_knob e)). set (mv := snd (play (ga_i e) (ga_start e) (ga_knob e))) in *.
    set (D := inject_Z (rc_max c - rc_min c)). assert (HD : 0 < D) by (unfold D; change 0 with (inject_Z 0); rewrite <- Zlt_Qlt; lia).
    assert (X0 : 0 <= inject_Z (mv - rc_min c) / D) by (apply Qle_shift_div_l; [auto |]; rewrite Qmult_0_l; change 0 with (inject_Z 0); rewrite <- Zle_Qle; lia).
    assert (X1 : inject_Z (mv - rc_min c) / D <= 1) by (apply Qle_shift_div_r; [auto |]; rewrite Qmult_1_l; unfold D; rewrite <- Zle_Qle; lia).
    assert (X2 : rc_coeff c * inject_Z (mv - rc_min c) / D == rc_coeff c * (inject_Z (mv - rc_min c) / D)) by (field; lra).
    rewrite X2. set (x := inject_Z (mv - rc_min c) / D) in *. destruct (Z.eq_dec _ 1); split; nra. }
  split; [apply Qle_shift_div_l; lra | apply Qle_shift_div_r; lra].
Qed.
Definition relCapture (size : Z) (games : nat) (p : Q) (kd : kind) : rcfg := {|
  rc_size := size; rc_games := games; rc_prop := p; rc_minT := 0; rc_maxT := 2 # 10; rc_coeff := 1 # 2; rc_min := 3; rc_max := size * size; rc_kind := kd; rc_warm := 3 # 2 |}.
(** the example of the source: size 5, three positions, half of the games *)
Example C75_relative_ex : fixedStartingPos 5 = [(1, 1); (1, 2); (2, 2)]%Z /\ cases (relCapture 5 8 (1 # 2) Networks) = 6%Z /\
  exists v s, relative_call (relCapture 5 8 (1 # 2) Networks) (fun i p _ => (if Nat.even i then 1 else -1, 10)%Z) = Ok (v, s) /\
    map (fun e => (ga_i e, ga_start e)) (rs_log s) = [(0, None); (3, Some (1, 1)%Z); (4, Some (1, 2)%Z); (5, Some (2, 2)%Z); (6, None); (7, None)]%nat.
Proof. split; [reflexivity |]. split; [reflexivity |]. eexists. eexists. split; [vm_compute; reflexivity | reflexivity]. Qed.

(** "the (anti-symmetric) relative score": the first player always has black.  If black wins every game, each player is better than the other. *)
Theorem C75_antisymmetric_refuted {P : Type} (match_ : P -> P -> nat -> option Duel_Model.pos -> option Q -> Z * Z) :
  (forall black white i p kn, match_ black white i p kn = (1, 11)%Z) ->
  forall p1 p2, exists v v' s s', relative_call (relCapture 5 3 (1 # 2) Fixed) (match_ p1 p2) = Ok (v, s) /\
    relative_call (relCapture 5 3 (1 # 2) Fixed) (match_ p2 p1) = Ok (v', s') /\ v == v' /\ 0 < v.
Proof.
  intros H p1 p2.
  assert (E : forall a b, exists v s, relative_call (relCapture 5 3 (1 # 2) Fixed) (match_ a b) = Ok (v, s) /\ v == 9 # 11).
  { intros a b. unfold relative_call. cbn [relLoop rc_games relCapture].
    assert (R0 : forall c i s p co, scored c (match_ a b) i p co s = scored c (fun _ _ _ => (1, 11)%Z) i p co s) by (intros; unfold scored; now rewrite H).
    assert (R1 : forall c i s, relStep c (match_ a b) i s = relStep c (fun _ _ _ => (1, 11)%Z) i s).
    { intros c i s. unfold relStep. destruct (1 <? cases c)%Z; [| now rewrite R0]. destruct (_ <=? _)%Z; [destruct (nth_error _ _); [now rewrite R0 | reflexivity] |].
      destruct (_ <? _)%Z; [destruct (i =? 0)%nat; [now rewrite R0 | reflexivity] | now rewrite R0]. }
    rewrite R1. eexists. eexists. split; [vm_compute; reflexivity | reflexivity]. }
  destruct (E p1 p2) as (v & s & E1 & V1). destruct (E p2 p1) as (v' & s' & E2 & V2). exists v, v', s, s'. split; [exact E1 |]. split; [exact E2 |]. rewrite V1, V2. split; reflexivity.
Qed.
(** A board of size 2 has no starting positions: the first evaluation divides by zero. *)
Theorem C75_small_board_refuted play : relative_call (relCapture 2 3 (1 # 2) Fixed) play = Err ZeroDivisionError.
Proof. unfold relative_call. cbn [relLoop rc_games relCapture]. unfold relStep, scored, gameResult. cbn [rbind]. destruct (play _ _ _) as [w m]. reflexivity. Qed.
(** presetGamesProportion 1 on a board with one starting position: no game is played from it. *)
Theorem C75_single_start_refuted : fixedStartingPos 3 = [(1, 1)%Z] /\
  exists v s, relative_call (relCapture 3 3 1 Fixed) (fun _ _ _ => (1, 5)%Z) = Ok (v, s) /\ Forall (fun e => ga_start e = None) (rs_log s) /\ length (rs_log s) = 3%nat.
Proof. split; [reflexivity |]. eexists. eexists. split; [vm_compute; reflexivity |]. split; [repeat constructor | reflexivity]. Qed.
(** RelativeGomokuTask counts a draw as a defeat of the first player: two players that always draw are each worse than the other. *)
Theorem C75_draw_refuted : exists v s,
  relative_gomoku_call {| rc_size := 7; rc_games := 3; rc_prop := 0; rc_minT := 0; rc_maxT := 2 # 10; rc_coeff := 1 # 2; rc_min := 9; rc_max := 49; rc_kind := Fixed; rc_warm := 12 # 10 |}
    (fun _ _ _ => (0, 49)%Z) = Ok (v, s) /\ v == - (1 # 2).
Proof. eexists. eexists. split; [vm_compute; reflexivity | reflexivity]. Qed.
Print Assumptions C75_average. Print Assumptions C75_handicap. Print Assumptions C75_relative. Print Assumptions C75_relative_bound.
Print Assumptions C75_max_handicap.
