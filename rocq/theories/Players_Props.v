(** C76: the players of the board games. *)
From Coq Require Import Reals Lra.
From Verif Require Import Base Games_Model Games_Spec Games_Proofs Capture_Model Capture_Spec Capture_Props Games_Props Duel_Model Duel_Spec Functions_Model LinearFA_Model LinearFA_Proofs
  Players_Model Players_Spec Players_Proofs Players_Proofs2 Players_Proofs3 Players_Proofs4.
Local Open Scope Z_scope.

(** ** the players that follow a rule *)
(** RandomCapturePlayer: every empty point with the same chance, in every undecided position. *)
Theorem C76_random n sd g : 1 <= n -> reach n sd g -> equal_chances (free (square n) (c_b g)) (randomCapture n g).
Proof. exact (random_equal n sd g). Qed.
(** NonSuicidePlayer: the same among the moves that are no suicide, if there are any, and the move then does not lose the game; otherwise any empty point. *)
Theorem C76_nonsuicide n sd g c : 1 <= n -> reach n sd g ->
  ((exists p, free (square n) (c_b g) p /\ ~ suicidal n (c_b g) c p) ->
     equal_chances (fun p => free (square n) (c_b g) p /\ ~ suicidal n (c_b g) c p) (nonSuicide n g c) /\
     forall i, exists p g1, nonSuicide n g c i = Ok p /\ doMove n sd g c (Put p) = Ok (g1, true) /\ c_winner g1 <> Winner (opp c)) /\
  (~ (exists p, free (square n) (c_b g) p /\ ~ suicidal n (c_b g) c p) -> equal_chances (free (square n) (c_b g)) (nonSuicide n g c)).
Proof.
  intros Hn R. destruct (nonSuicide_equal n sd g c Hn R) as [A B]. split; [| exact B]. intros H. pose proof (A H) as EC. split; [exact EC |].
  intros i. destruct EC as (N & _ & D & _). destruct (D i) as (p & E & [Hp He] & NS). exists p. destruct (reach_inv n sd g R) as (I & L & W).
  assert (NE : Winner c <> Winner (opp c)) by (destruct c; discriminate).
  destruct (put_spec n sd g c p I L Hp He) as (g1 & r & E1 & [(_ & -> & D1 & _) | [(D1 & D2 & _) | [(D1 & D2 & _) | (_ & _ & -> & _ & D1 & _)]]]).
  - exists g1. split; [exact E |]. split; [exact E1 |]. rewrite D1. exact NE.
  - exfalso. apply NS. split; assumption.
  - exfalso. apply NS. split; assumption.
  - exists g1. split; [exact E |]. split; [exact E1 |]. rewrite D1, W. discriminate.
Qed.
(** KillingPlayer: if some move captures, it plays one of these and wins at once; otherwise it plays like NonSuicidePlayer. *)
Theorem C76_killing n sd g c : 1 <= n -> reach n sd g ->
  ((exists p, free (square n) (c_b g) p /\ captures n (c_b g) c p) ->
     equal_chances (fun p => free (square n) (c_b g) p /\ captures n (c_b g) c p) (killing n g c) /\
     forall i, exists p g1, killing n g c i = Ok p /\ doMove n sd g c (Put p) = Ok (g1, true) /\ c_winner g1 = Winner c) /\
  (~ (exists p, free (square n) (c_b g) p /\ captures n (c_b g) c p) -> forall i, killing n g c i = nonSuicide n g c i).
Proof.
  intros Hn R. destruct (killing_equal n sd g c Hn R) as [A B]. split; [| exact B]. intros H. pose proof (A H) as EC. split; [exact EC |].
  intros i. destruct EC as (N & _ & D & _). destruct (D i) as (p & E & [Hp He] & NS). exists p. destruct (reach_inv n sd g R) as (I & L & W).
  destruct (put_spec n sd g c p I L Hp He) as (g1 & r & E1 & [(_ & -> & D1 & _) | [(D1 & _) | [(D1 & _) | (D1 & _)]]]).
  - exists g1. auto.
  - exfalso. exact (D1 NS).
  - exfalso. exact (D1 NS).
  - exfalso. exact (D1 NS).
Qed.
(** The Gomoku players: the same with the points that complete five in a row. *)
Theorem C76_gomoku s g c : 5 <= fst s -> 5 <= snd s -> gomoku_inv s g -> (exists p, free s (g_b g) p) ->
  equal_chances (free s (g_b g)) (randomGomoku s (g_b g)) /\
  ((exists p, free s (g_b g) p /\ five s (placed (g_b g) p c) c) ->
     equal_chances (fun p => free s (g_b g) p /\ five s (placed (g_b g) p c) c) (killingGomoku s (g_b g) c) /\
     forall i, exists p g1, killingGomoku s (g_b g) c i = Ok p /\ gomoku_move s g c p = (g1, Ok true) /\ g_winner g1 = Winner c) /\
  (~ (exists p, free s (g_b g) p /\ five s (placed (g_b g) p c) c) -> forall i, killingGomoku s (g_b g) c i = randomGomoku s (g_b g) i).
Proof.
  intros H1 H2 I EX.
  assert (K : forall p, In p (gomoku_killing s (g_b g) c) <-> free s (g_b g) p /\ five s (placed (g_b g) p c) c).
  { intros p. destruct (C37_legals s (g_b g) p) as [_ X]. rewrite (X c (gi_five s g I c)). unfold free. tauto. }
  split; [| split].
  - apply choice_equal; [apply legals_NoDup | | intros p; apply legals_free]. eapply nonempty; [intros p; apply legals_free | exact EX].
  - intros H. assert (NE : gomoku_killing s (g_b g) c <> []) by (eapply nonempty; [exact K | exact H]).
    assert (E : forall i, killingGomoku s (g_b g) c i = choice (gomoku_killing s (g_b g) c) i).
    { intros i. unfold killingGomoku. destruct (gomoku_killing s (g_b g) c); [congruence | reflexivity]. }
    assert (EC : equal_chances (fun p => free s (g_b g) p /\ five s (placed (g_b g) p c) c) (killingGomoku s (g_b g) c)).
    { apply (equal_ext _ (choice (gomoku_killing s (g_b g) c))); [exact E |]. apply choice_equal; [apply NoDup_filter, legals_NoDup | exact NE | exact K]. }
    split; [exact EC |]. intros i. destruct EC as (N & _ & D & _). destruct (D i) as (p & E1 & [Hp He] & F).
    destruct (gomoku_move_spec s g c p ltac:(lia) ltac:(lia) I Hp) as [_ M]. destruct (M He) as (g1 & E2 & W & _). exists p, g1. split; [exact E1 |]. split; [exact E2 |]. apply W, F.
  - intros H i. unfold killingGomoku. destruct (gomoku_killing s (g_b g) c) as [|p l]; [reflexivity |]. exfalso. apply H. exists p. apply K. left. reflexivity.
Qed.

(** a position after some moves *)
Definition after (n : Z) (sd : bool) (ms : list (color * pos)) : cgame :=
  fold_left (fun g m => match doMove n sd g (fst m) (Put (snd m)) with Ok (g', _) => g' | Err _ => g end) ms capture_reset.
Lemma after_step n sd ms c p : reach n sd (after n sd ms) -> is_ok (doMove n sd (after n sd ms) c (Put p)) = true ->
  (match c_winner (after n sd (ms ++ [(c, p)])) with Undecided => true | _ => false end) = true -> reach n sd (after n sd (ms ++ [(c, p)])).
Proof.
  intros R. assert (A : after n sd (ms ++ [(c, p)]) = match doMove n sd (after n sd ms) c (Put p) with Ok (g', _) => g' | Err _ => after n sd ms end)
    by (unfold after; rewrite fold_left_app; reflexivity).
  rewrite A. clear A.
  destruct (doMove n sd (after n sd ms) c (Put p)) as [[g1 r]|] eqn:E; [| discriminate]. intros _ U.
  eapply Capture_Props.r_move; [exact R | exact E |]. destruct (c_winner g1); [reflexivity | discriminate | discriminate].
Qed.
Ltac reached := first [exact (Capture_Props.r_reset _ _) | match goal with |- reach ?n ?sd (after ?n ?sd ?ms) =>
    let ms' := eval vm_compute in (removelast ms) in let m := eval vm_compute in (last ms (Black, (0, 0))) in
    change ms with (ms' ++ [(fst m, snd m)]); apply after_step; [reached | vm_compute; reflexivity | vm_compute; reflexivity] end].
(** a white stone in the corner with one liberty left: black captures at (1, 0) *)
Definition corner : list (color * pos) := [(Black, (0, 1)); (White, (0, 0))].
Example C76_killing_ex : reach 3 true (after 3 true corner) /\ killing 3 (after 3 true corner) Black 5 = Ok (1, 0) /\
  nonSuicide 3 (after 3 true corner) Black 5 = Ok (2, 1) /\ randomCapture 3 (after 3 true corner) 1 = Ok (1, 0).
Proof. split; [unfold corner; reached | vm_compute; auto]. Qed.
(** With suicide disabled the random player may choose a move that the game refuses: it loses its turn. *)
Definition eyes : list (color * pos) := [(Black, (2, 2)); (White, (0, 1)); (Black, (2, 1)); (White, (1, 0))].
Theorem C76_refused_refuted : exists g g1, reach 3 false g /\ randomCapture 3 g 0 = Ok (0, 0) /\
  doMove 3 false g Black (Put (0, 0)) = Ok (g1, false) /\ c_b g1 (0, 0) = Empty /\ nonSuicide 3 g Black 0 <> Ok (0, 0).
Proof.
  exists (after 3 false eyes), (with_moves (after 3 false eyes) (c_moves (after 3 false eyes) + 1)). split; [unfold eyes; reached |].
  split; [vm_compute; reflexivity |]. split; [| split; [vm_compute; reflexivity | vm_compute; discriminate]].
  set (g := after 3 false eyes). assert (R : reach 3 false g) by (unfold g, eyes; reached).
  assert (F : free (square 3) (c_b g) (0, 0)) by (split; [split; cbn; lia | reflexivity]).
  destruct (step_ok 3 false g Black (0, 0) R F) as (g1 & r & E & _). destruct (reach_inv 3 false g R) as (I & L & _).
  destruct (put_spec 3 false g Black (0, 0) I L (proj1 F) (proj2 F)) as (g2 & r2 & E2 & D). rewrite E in E2. injection E2 as <- <-. rewrite E.
  assert (NW : is_ok (doMove 3 false g Black (Put (0, 0))) = true /\ match doMove 3 false g Black (Put (0, 0)) with Ok (_, r) => r = false | Err _ => False end) by (split; vm_compute; reflexivity).
  rewrite E in NW. destruct NW as [_ ->]. destruct D as [(_ & D & _) | [(_ & _ & _ & D & _) | [(_ & _ & _ & _ & D) | (_ & _ & D & _)]]]; try discriminate. rewrite D. reflexivity.
Qed.

(** ** games to the end *)
(** In the capture game any two players that put their stones on empty points, from any undecided position, alternate until one of them has won; no more moves are
    made than there are empty points. *)
Theorem C76_end_capture {W} n c1 (p1 p2 : player cgame cmove W) g w : 1 <= n -> c1 = 1 \/ c1 = -1 -> keeps_rules n true p1 -> keeps_rules n true p2 -> reach n true g ->
  exists k g' w', (Z.of_nat k <= n * n - occupied (square n) (c_b g)) /\
    (forall fuel, (k < fuel)%nat -> playToTheEnd (captureRules n true) c1 (- c1) p1 p2 fuel g w = Ok (g', w')) /\
    game (captureRules n true) p2 p1 c1 g w c1 k g' w' /\ c_moves g' = c_moves g + Z.of_nat k /\ exists x, c_winner g' = Winner x.
Proof.
  intros Hn H1 K1 K2 R. pose proof (occ_bound n true g Hn R) as O.
  destruct (ends_enabled n c1 p1 p2 Hn H1 K1 K2 (Z.to_nat (n * n - occupied (square n) (c_b g))) g w false R ltac:(lia)) as (k & Hk & g' & w' & A & B & C & D).
  exists k, g', w'. split; [lia |]. split; [| split; [exact B | split; [exact C | exact D]]].
  intros fuel F. unfold playToTheEnd. replace (- - c1) with c1 by lia. rewrite Z.eqb_refl. apply A, F.
Qed.
(** With suicide disabled, players that avoid suicide (and lose their turn when they cannot) end the game within twice as many moves. *)
Theorem C76_end_careful {W} n c1 (p1 p2 : player cgame cmove W) g w : 2 <= n -> c1 = 1 \/ c1 = -1 -> careful n p1 -> careful n p2 -> reach n false g ->
  exists k g' w', (Z.of_nat k <= 2 * (n * n - occupied (square n) (c_b g))) /\
    (forall fuel, (k < fuel)%nat -> playToTheEnd (captureRules n false) c1 (- c1) p1 p2 fuel g w = Ok (g', w')) /\
    game (captureRules n false) p2 p1 c1 g w c1 k g' w' /\ c_moves g' = c_moves g + Z.of_nat k /\ exists x, c_winner g' = Winner x.
Proof.
  intros Hn H1 K1 K2 R. pose proof (occ_bound n false g ltac:(lia) R) as O.
  destruct (ends_disabled n c1 p1 p2 ltac:(lia) H1 Hn K1 K2 (Z.to_nat (n * n - occupied (square n) (c_b g))) g w false R ltac:(lia)) as (k & Hk & g' & w' & A & B & C & D).
  exists k, g', w'. split; [lia |]. split; [| split; [exact B | split; [exact C | exact D]]].
  intros fuel F. unfold playToTheEnd. replace (- - c1) with c1 by lia. rewrite Z.eqb_refl. apply A, F.
Qed.
(** Gomoku ends within as many moves as the board has points. *)
Theorem C76_end_gomoku {W} s c1 (p1 p2 : player Games_Model.game Games_Model.pos W) w : 5 <= fst s -> 5 <= snd s -> c1 = 1 \/ c1 = -1 -> keeps_rules_gomoku s p1 -> keeps_rules_gomoku s p2 ->
  exists k g' w', (Z.of_nat k <= fst s * snd s) /\
    (forall fuel, (k < fuel)%nat -> playToTheEnd (gomokuRules s) c1 (- c1) p1 p2 fuel gomoku_reset w = Ok (g', w')) /\
    game (gomokuRules s) p2 p1 c1 gomoku_reset w c1 k g' w' /\ g_moves g' = Z.of_nat k /\ g_winner g' <> Undecided.
Proof.
  intros Hs1 Hs2 H1 K1 K2.
  destruct (ends_gomoku s c1 p1 p2 Hs1 Hs2 H1 K1 K2 (Z.to_nat (fst s * snd s)) gomoku_reset w false (gomoku_reset_inv s) ltac:(cbn; nia) ltac:(cbn; nia)) as (k & Hk & g' & w' & A & B & C & D).
  exists k, g', w'. split; [nia |]. split; [| split; [exact B | split; [cbn in C; lia | exact D]]].
  intros fuel F. unfold playToTheEnd. replace (- - c1) with c1 by lia. rewrite Z.eqb_refl. apply A, F.
Qed.
(** players whose random numbers come from a stream *)
Definition drawing {G A} (f : G -> color -> nat -> result A) : player G A (nat -> nat) :=
  fun w g c => let! a := f g (colour c) (w 0%nat) in Ok (a, fun k => w (S k)).
Definition putting (f : cgame -> color -> nat -> result pos) : player cgame cmove (nat -> nat) :=
  drawing (fun g c i => let! p := f g c i in Ok (Put p)).
(** The players above satisfy these conditions. *)
Theorem C76_builtin n : 1 <= n ->
  (forall sd, keeps_rules n sd (putting (fun g _ i => randomCapture n g i)) /\ keeps_rules n sd (putting (nonSuicide n)) /\ keeps_rules n sd (putting (killing n))) /\
  careful n (putting (nonSuicide n)) /\ careful n (putting (killing n)) /\
  forall s, keeps_rules_gomoku s (drawing (fun g _ i => randomGomoku s (g_b g) i)) /\ keeps_rules_gomoku s (drawing (fun g c i => killingGomoku s (g_b g) c i)).
Proof.
  intros Hn.
  assert (NS : forall sd g c i, reach n sd g -> exists p, nonSuicide n g c i = Ok p /\ free (square n) (c_b g) p /\
    ((exists x, free (square n) (c_b g) x /\ ~ suicidal n (c_b g) c x) -> ~ suicidal n (c_b g) c p)).
  { intros sd g c i R. destruct (nonSuicide_equal n sd g c Hn R) as [A B]. destruct (suggestions n sd g c R) as (la & _ & _ & _ & _ & _ & HA & _).
    destruct la as [|x la].
    - assert (NX : ~ exists p, free (square n) (c_b g) p /\ ~ suicidal n (c_b g) c p) by (intros (p & Hp); apply HA in Hp; exact Hp).
      destruct (B NX) as (N & _ & D & _). destruct (D i) as (p & E & F). exists p. split; [exact E |]. split; [exact F |]. intros X. contradiction.
    - assert (X : exists p, free (square n) (c_b g) p /\ ~ suicidal n (c_b g) c p) by (exists x; apply HA; left; reflexivity).
      destruct (A X) as (N & _ & D & _). destruct (D i) as (p & E & F1 & F2). exists p. auto. }
  assert (KL : forall sd g c i, reach n sd g -> exists p, killing n g c i = Ok p /\ free (square n) (c_b g) p /\
    ((exists x, free (square n) (c_b g) x /\ ~ suicidal n (c_b g) c x) -> ~ suicidal n (c_b g) c p)).
  { intros sd g c i R. destruct (killing_equal n sd g c Hn R) as [A B]. destruct (suggestions n sd g c R) as (_ & lk & _ & _ & _ & _ & _ & HK).
    destruct lk as [|x lk].
    - rewrite B; [apply (NS sd), R |]. intros (p & Hp). apply HK in Hp. exact Hp.
    - assert (X : exists p, free (square n) (c_b g) p /\ captures n (c_b g) c p) by (exists x; apply HK; left; reflexivity).
      destruct (A X) as (N & _ & D & _). destruct (D i) as (p & E & F1 & F2). exists p. split; [exact E |]. split; [exact F1 |]. intros _ S1. exact (proj2 S1 F2). }
  split; [intros sd; split; [| split] | split; [| split]].
  - intros w g c R. destruct (random_equal n sd g Hn R) as (N & _ & D & _). destruct (D (w 0%nat)) as (p & E & F). exists p, (fun k => w (S k)). unfold putting, drawing. rewrite E. auto.
  - intros w g c R. destruct (NS sd g (colour c) (w 0%nat) R) as (p & E & F & _). exists p, (fun k => w (S k)). unfold putting, drawing. rewrite E. auto.
  - intros w g c R. destruct (KL sd g (colour c) (w 0%nat) R) as (p & E & F & _). exists p, (fun k => w (S k)). unfold putting, drawing. rewrite E. auto.
  - intros w g c R. destruct (NS false g (colour c) (w 0%nat) R) as (p & E & F). exists p, (fun k => w (S k)). unfold putting, drawing. rewrite E. auto.
  - intros w g c R. destruct (KL false g (colour c) (w 0%nat) R) as (p & E & F). exists p, (fun k => w (S k)). unfold putting, drawing. rewrite E. auto.
  - assert (RG : forall s b i, (exists q, free s b q) -> exists p, randomGomoku s b i = Ok p /\ free s b p).
    { intros s b i EX. assert (EC : equal_chances (free s b) (randomGomoku s b)) by (apply choice_equal; [apply legals_NoDup | eapply nonempty; [intros p; apply legals_free | exact EX] | intros p; apply legals_free]).
      destruct EC as (N & _ & D & _). apply D. }
    intros s. split; intros w g c EX.
    + destruct (RG s (g_b g) (w 0%nat) EX) as (p & E & F). exists p, (fun k => w (S k)). unfold drawing. rewrite E. auto.
    + assert (X : exists p, killingGomoku s (g_b g) (colour c) (w 0%nat) = Ok p /\ free s (g_b g) p).
      { unfold killingGomoku. destruct (gomoku_killing s (g_b g) (colour c)) as [|q l] eqn:E; [apply RG, EX |]. cbn [length Nat.ltb Nat.leb].
        unfold choice. assert (B : (w 0 mod length (q :: l) < length (q :: l))%nat) by (apply Nat.mod_upper_bound; discriminate).
        destruct (nth_error (q :: l) (w 0 mod length (q :: l))%nat) as [p|] eqn:EN; [| apply nth_error_None in EN; lia]. exists p. split; [reflexivity |].
        apply nth_error_In in EN. rewrite <- E in EN. unfold gomoku_killing in EN. apply filter_In in EN as [EN _]. apply legals_free, EN. }
      destruct X as (p & E & F). exists p, (fun k => w (S k)). unfold drawing. rewrite E. auto.
Qed.
(** a game of a random player and a killing one on three by three *)
Example C76_end_ex : exists g w, playToTheEnd (captureRules 3 true) 1 (-1) (putting (fun g _ i => randomCapture 3 g i)) (putting (killing 3)) 10 capture_reset (fun k => k) = Ok (g, w) /\
  c_winner g = Winner Black /\ c_moves g = 8.
Proof. eexists. eexists. split; [vm_compute; reflexivity |]. vm_compute. auto. Qed.
(** On a board of one point with suicide disabled nobody can ever move: the game does not end. *)
Theorem C76_one_point_refuted fuel w : playToTheEnd (captureRules 1 false) 1 (-1) (putting (nonSuicide 1)) (putting (nonSuicide 1)) fuel capture_reset w = Err OutOfFuel.
Proof.
  assert (G : forall fuel second w g, c_b g = (fun _ => Empty) -> c_winner g = Undecided -> playLoop (captureRules 1 false) 1 (-1) (putting (nonSuicide 1)) (putting (nonSuicide 1)) fuel second g w = Err OutOfFuel).
  { intros f0. induction f0 as [|f IH]; intros second u g B U; [reflexivity |]. cbn [playLoop]. unfold over. cbn [r_winner captureRules]. rewrite U.
    assert (S1 : forall c, nonSuicide 1 g c (u 0%nat) = Ok (0, 0)).
    { intros c. unfold nonSuicide, getAcceptable, c_getLegals, getLegals. rewrite B. cbn. rewrite ?B. cbn. unfold randomCapture, c_getLegals, getLegals. rewrite B. cbn. unfold choice. cbn [length]. rewrite Nat.mod_1_r. reflexivity. }
    assert (P : forall c, putting (nonSuicide 1) u g c = Ok (Put (0, 0), fun k => u (S k))) by (intros c; unfold putting, drawing; rewrite S1; reflexivity).
    assert (PP : (if second then putting (nonSuicide 1) u g (-1) else putting (nonSuicide 1) u g 1) = Ok (Put (0, 0), fun k => u (S k))) by (destruct second; apply P). rewrite PP. cbn [rbind fst snd].
    assert (D : forall c, doMove 1 false g c (Put (0, 0)) = Ok (with_moves g (c_moves g + 1), false)).
    { intros c. unfold doMove, c_isLegal. cbn [in_range square fst snd]. cbn. rewrite B. reflexivity. }
    assert (M : forall c, Duel_Model.r_move (captureRules 1 false) g c (Put (0, 0)) = Ok (with_moves g (c_moves g + 1))) by (intros c; cbn [captureRules Duel_Model.r_move]; rewrite D; reflexivity).
    rewrite M. cbn [rbind]. apply IH; assumption. }
  unfold playToTheEnd. cbn. apply G; reflexivity.
Qed.

(** ** the player that follows a module *)
Local Open Scope R_scope.
(** The input of the module has two entries per point: whether the opponent, and whether the player itself, has a stone there. *)
Theorem C76_input s b c : (0 <= fst s)%Z -> (0 <= snd s)%Z -> Z.of_nat (length (moduleInput s b c)) = (2 * (fst s * snd s))%Z /\
  forall p, on_board s p ->
    nth (2 * number s p) (moduleInput s b c) 0 = (match b p with Stone x => if color_eqb x (opp c) then 1 else 0 | _ => 0 end) /\
    nth (2 * number s p + 1) (moduleInput s b c) 0 = (match b p with Stone x => if color_eqb x c then 1 else 0 | _ => 0 end).
Proof.
  intros H1 H2. assert (E : moduleInput s b c = boardArray s (match c with Black => b | White => flip b end)) by (destruct c; [reflexivity | apply inverted_flip]).
  rewrite E, boardArray_length, Nat2Z.inj_mul, iterPos_length by assumption. split; [lia |]. intros p Hp.
  destruct (boardArray_nth s (match c with Black => b | White => flip b end) (number s p) p (iterPos_number s p Hp)) as [A B]. rewrite A, B. unfold cells, flip.
  destruct c; destruct (b p) as [|[]|]; split; reflexivity.
Qed.
(** The module cannot tell the colours: white moves as black would with the colours exchanged. *)
Theorem C76_colour_blind w s module T b c r i : modulePlayer w s module T (flip b) (opp c) r i = modulePlayer w s module T b c r i.
Proof.
  unfold modulePlayer. rewrite legals_flip. f_equal. f_equal. unfold moduleInput. destruct c; cbn [opp].
  - rewrite inverted_flip. apply boardArray_ext, flip_flip.
  - symmetry. apply inverted_flip.
Qed.
Definition fitting (n : Z) (a : vec) : Prop := Z.of_nat (length a) = (n * n)%Z /\ Forall (fun x => 0 <= x) a.
(** With greedySelection the player takes, on a square board, one of the empty points with the greatest output, each with the same chance. *)
Theorem C76_greedy n module T b c r : (1 <= n)%Z -> fitting n (module (moduleInput (square n) b c)) -> (exists p, free (square n) b p) ->
  equal_chances (fun p => free (square n) b p /\ forall q, free (square n) b q ->
      nth (number (square n) q) (module (moduleInput (square n) b c)) 0 <= nth (number (square n) p) (module (moduleInput (square n) b c)) 0)
    (modulePlayer n (square n) module (temperatureOf true T) b c r).
Proof. intros Hn [L P] EX. apply (greedy n b 0 _ Hn L P r eq_refl EX). Qed.
(** With a positive temperature: a draw picks a point according to fixed probabilities.  Among the empty points whose outputs are within 40 temperatures of the greatest
    one they are in the ratio of exp(output / temperature); occupied points have a probability of at most exp(-40), but not zero, and drawing one raises. *)
Theorem C76_gibbs n module T b c : (1 <= n)%Z -> 0 < T -> let a := module (moduleInput (square n) b c) in fitting n a -> (exists p, free (square n) b p) ->
  exists ps, Z.of_nat (length ps) = (n * n)%Z /\ fold_right Rplus 0 ps = 1 /\
    (forall k, (k < length ps)%nat -> 0 < nth k ps 0) /\
    (forall r i, 0 <= r < 1 -> exists k, picks ps r k /\
       (free (square n) b (indexToPos n k) -> modulePlayer n (square n) module (temperatureOf false T) b c r i = Ok (indexToPos n k)) /\
       (~ free (square n) b (indexToPos n k) -> modulePlayer n (square n) module (temperatureOf false T) b c r i = Err AssertionError)) /\
    (forall p, on_board (square n) p -> b p <> Empty -> nth (number (square n) p) ps 0 <= exp (-40)) /\
    (forall p q, free (square n) b p -> free (square n) b q ->
       (forall x, free (square n) b x -> nth (number (square n) x) a 0 - 40 * T <= nth (number (square n) p) a 0 /\ nth (number (square n) x) a 0 - 40 * T <= nth (number (square n) q) a 0) ->
       nth (number (square n) p) ps 0 = nth (number (square n) q) ps 0 * exp ((nth (number (square n) p) a 0 - nth (number (square n) q) a 0) / T)).
Proof.
  intros Hn T0 a [L P] EX. destruct (gibbs n b T a Hn L P T0 EX) as (ps & Lp & S1 & Pos & Dr & Il & Ra). exists ps.
  assert (NB : forall p, on_board (square n) p -> (number (square n) p < length a)%nat) by (intros p Hp; destruct (index_number n p Hp) as (I1 & _ & I3); lia).
  split; [lia |]. split; [exact S1 |]. split; [intros k Hk; apply Pos; lia |]. split; [exact Dr |]. split.
  - intros p Hp He. apply Il; [apply NB, Hp |]. destruct (index_number n p Hp) as (_ & I2 & _). rewrite I2. intros [_ X]. contradiction.
  - intros p q Hp Hq H. destruct (index_number n p (proj1 Hp)) as (_ & I2 & _), (index_number n q (proj1 Hq)) as (_ & J2 & _).
    apply Ra; [apply NB, Hp | apply NB, Hq | rewrite I2; exact Hp | rewrite J2; exact Hq | exact H].
Qed.
(** "plays according to the rules": not so.  With any positive temperature, the draw 0 makes the player fail as soon as the first point is occupied. *)
Theorem C76_rules_refuted n module T b c i : (1 <= n)%Z -> 0 < T -> fitting n (module (moduleInput (square n) b c)) -> (exists p, free (square n) b p) -> b (0, 0)%Z <> Empty ->
  modulePlayer n (square n) module (temperatureOf false T) b c 0 i = Err AssertionError.
Proof.
  intros Hn T0 F EX He. destruct (C76_gibbs n module T b c Hn T0 F EX) as (ps & L & _ & Pos & Dr & _). destruct (Dr 0 i ltac:(lra)) as (k & (K1 & K2) & _ & Bad).
  apply Bad. assert (k = 0%nat).
  { destruct k as [|k]; [reflexivity |]. exfalso. destruct K2 as [K2 _]. destruct ps as [|p ps]; [cbn in K1; lia |]. cbn [firstn fold_right] in K2.
    pose proof (Pos 0%nat ltac:(cbn; lia)) as P0. cbn [nth] in P0.
    assert (0 <= fold_right Rplus 0 (firstn k ps)); [| lra].
    assert (PP : forall j, (j < length ps)%nat -> 0 < nth j ps 0) by (intros j Hj; apply (Pos (S j)); cbn; lia). clear - PP. revert k. induction ps as [|x ps IH]; intros [|k]; cbn [firstn fold_right]; try lra.
    pose proof (PP 0%nat ltac:(cbn; lia)) as X. cbn in X. assert (0 <= fold_right Rplus 0 (firstn k ps)) by (apply IH; intros j Hj; apply (PP (S j)); cbn; lia). lra. }
  subst k. unfold indexToPos. cbn [Z.of_nat]. rewrite Z.div_0_l, Z.mod_0_l by lia. intros [_ X]. contradiction.
Qed.
(** A negative output raises. *)
Theorem C76_negative w s module T b c r i x : In x (module (moduleInput s b c)) -> x < 0 -> modulePlayer w s module T b c r i = Err PlainException.
Proof.
  intros I N. unfold modulePlayer, legalizeIt. destruct (module (moduleInput s b c)) as [|y l] eqn:E; [destruct I |]. rewrite <- E in *.
  destruct (Forall_dec _ _ _) as [F | _]; [| reflexivity]. exfalso. apply (proj1 (Forall_forall _ _) F) in I. lra.
Qed.
(** Positions and indices correspond one to one exactly on square boards (size[0] is used where size[1] is meant). *)
Theorem C76_index s : (5 <= fst s)%Z -> (5 <= snd s)%Z ->
  ((forall p, on_board s p -> posToIndex (fst s) p = Z.of_nat (number s p) /\ indexToPos (fst s) (number s p) = p) <-> fst s = snd s).
Proof.
  destruct s as [rw cl]. cbn [fst snd]. intros H1 H2. split.
  - intros H. destruct (H (1, 0)%Z ltac:(unfold on_board; cbn; lia)) as [A _]. unfold posToIndex, number in A. cbn [fst snd] in A. lia.
  - intros <-. intros p Hp. destruct (index_number rw p Hp) as (A & B & _). auto.
Qed.
(** On a board with more rows than columns the player fails at its first move, *)
Lemma copy_fails w a p : forall l vals, In p l -> (Z.of_nat (length a) <= posToIndex w p)%Z -> copyLegals w a vals l = Err IndexError.
Proof.
  induction l as [|q l IH]; intros vals H L; [destruct H |]. cbn [copyLegals]. destruct (posToIndex w q <? Z.of_nat (length a))%Z eqn:E; [| reflexivity].
  destruct H as [-> | H]; [apply Z.ltb_lt in E; lia | apply IH; assumption].
Qed.
Theorem C76_tall_refuted s module T b c r i : (5 <= snd s < fst s)%Z -> Z.of_nat (length (module (moduleInput s b c))) = (fst s * snd s)%Z ->
  Forall (fun x => 0 <= x) (module (moduleInput s b c)) -> b (fst s - 1, snd s - 1)%Z = Empty -> moduleGomoku s module T b c r i = Err IndexError.
Proof.
  intros H L P E. unfold moduleGomoku, modulePlayer, legalizeIt. destruct (module (moduleInput s b c)) as [|y l] eqn:Ea; [exfalso; cbn in L; nia |]. rewrite <- Ea in *.
  destruct (Forall_dec _ _ _) as [_ | N]; [| contradiction]. rewrite (copy_fails _ _ (fst s - 1, snd s - 1)%Z); [reflexivity | apply legals_free; split; [unfold on_board; cbn [fst snd]; lia | exact E] |].
  unfold posToIndex. cbn [fst snd]. rewrite L. nia.
Qed.
(** and on a board with more columns than rows it takes one point for another: when the output for the point (0, rows) is the greatest it plays (1, 0). *)
Lemma onehot_nth m j k : (j < m)%nat -> nth k (upd j 1 (repeat 0 m)) 0 = if Nat.eq_dec k j then 1 else 0.
Proof.
  intros H. destruct (Nat.eq_dec k j) as [-> | NE]; [apply nth_upd_same; rewrite repeat_length; exact H |]. rewrite nth_upd_other by auto. apply nth_repeat.
Qed.
Theorem C76_wide_refuted s c r i : (5 <= fst s < snd s)%Z -> let a := upd (number s (0, fst s)%Z) 1 (repeat 0 (Z.to_nat (fst s * snd s))) in
  on_board s (0, fst s)%Z /\ moduleGomoku s (fun _ => a) 0 (fun _ => Empty) c r i = Ok (1, 0)%Z.
Proof.
  intros H. set (J := number s (0, fst s)%Z). assert (EJ : J = Z.to_nat (fst s)) by (unfold J, number; cbn [fst snd]; f_equal).
  intros a. split; [unfold on_board; cbn; lia |]. set (b := (fun _ => Empty) : board).
  assert (La : Z.of_nat (length a) = (fst s * snd s)%Z) by (unfold a; rewrite upd_length, repeat_length; nia).
  assert (Jb : (J < Z.to_nat (fst s * snd s))%nat) by (rewrite EJ; nia).
  assert (An : forall k, nth k a 0 = if Nat.eq_dec k J then 1 else 0) by (intros k; apply onehot_nth, Jb).
  assert (Pa : Forall (fun x => 0 <= x) a). { apply Forall_forall. intros x Hx. apply In_nth with (d := 0) in Hx as (k & _ & <-). rewrite An. destruct (Nat.eq_dec k J); lra. }
  unfold moduleGomoku, modulePlayer, legalizeIt.
  assert (B : forall p, In p (getLegals s b) -> (0 <= posToIndex (fst s) p < Z.of_nat (length a))%Z).
  { intros p Hp. apply legals_free in Hp as [[Q1 Q2] _]. rewrite La. unfold posToIndex. nia. }
  destruct (copyLegals_ok (fst s) a (getLegals s b) B (repeat (-100 * (1 + 0)) (length a)) (repeat_length _ _)) as (v & E & L & HV).
  assert (VJ : nth J v 0 = 1).
  { destruct (HV J) as [(_ & Q) | (Q & _)]; [rewrite Q, An; destruct (Nat.eq_dec J J); [reflexivity | congruence] |]. exfalso. apply Q. exists (1, 0)%Z. split; [apply legals_free; split; [unfold on_board; cbn; lia | reflexivity] |].
    unfold posToIndex. cbn [fst snd]. rewrite EJ. f_equal. lia. }
  assert (VK : forall k, (k < length v)%nat -> k <> J -> nth k v 0 <= 0).
  { intros k Hk NE. destruct (HV k) as [(_ & Q) | (_ & Q)]; rewrite Q; [rewrite An; destruct (Nat.eq_dec k J); [congruence | lra] |]. rewrite (repeat_spec (length a) (-100 * (1 + 0)) (nth k (repeat (-100 * (1 + 0)) (length a)) 0)); [lra |]. apply nth_In. rewrite repeat_length. lia. }
  assert (JL : (J < length v)%nat) by lia.
  assert (NE : v <> []) by (intros X; rewrite X in JL; cbn in JL; lia). destruct (vmax_spec v NE) as [M1 M2].
  assert (VM : vmax v = 1).
  { pose proof (M2 _ (nth_In v 0 JL)) as X. rewrite VJ in X. apply In_nth with (d := 0) in M1 as (k & Lk & Ek). destruct (Nat.eq_dec k J) as [-> | NE1]; [lra |]. pose proof (VK k Lk NE1). lra. }
  assert (WE : where_eq (vmax v) 0 v = [J]).
  { assert (I : forall k, In k (where_eq (vmax v) 0 v) <-> k = J).
    { intros k. rewrite where_eq_spec. split.
      - intros (j & Lj & -> & Ej). cbn. destruct (Nat.eq_dec j J); [assumption |]. pose proof (VK j Lj n). lra.
      - intros ->. exists J. split; [exact JL |]. split; [reflexivity |]. lra. }
    destruct (where_eq_NoDup (vmax v) v 0) as [ND _]. destruct (where_eq (vmax v) 0 v) as [|x [|y l]].
    - exfalso. apply (I J). reflexivity.
    - f_equal. apply I. left. reflexivity.
    - exfalso. apply NoDup_cons_iff in ND as [N1 _]. apply N1. left. transitivity J; [| symmetry]; apply I; cbn; auto. }
  destruct a as [|x0 a0] eqn:Ea; [exfalso; cbn in La; nia |]. rewrite <- Ea in *. destruct (Forall_dec _ _ _) as [_ | N]; [| contradiction]. rewrite E. cbn [rbind].
  unfold drawGibbs. destruct v as [|y v'] eqn:Ev; [congruence |]. rewrite <- Ev in *. destruct (Req_EM_T 0 0) as [_ | N]; [| congruence]. rewrite WE.
  unfold choice. cbn [length]. rewrite Nat.mod_1_r. cbn [nth_error rbind].
  assert (IP : indexToPos (fst s) J = (1, 0)%Z) by (unfold indexToPos; rewrite EJ, Z2Nat.id by lia; rewrite Z.div_same, Z.mod_same by lia; reflexivity). rewrite IP.
  assert (Q : pmem (1, 0)%Z (getLegals s b) = true) by (apply pmem_In, legals_free; split; [unfold on_board; cbn; lia | reflexivity]). rewrite Q. reflexivity.
Qed.
(** the hypotheses of the theorems on modules are met, e.g. by constant outputs on a board with one stone *)
Example C76_fitting_ex : let b := placed (fun _ => Empty) (0, 0)%Z Black in fitting 3 (repeat 1 9) /\ (exists p, free (square 3) b p) /\ b (0, 0)%Z <> Empty.
Proof.
  split; [split; [reflexivity | apply Forall_forall; intros x Hx; apply repeat_spec in Hx; lra] |]. split; [| discriminate]. exists (1, 1)%Z. split; [unfold on_board; cbn; lia | reflexivity].
Qed.

Print Assumptions C76_random.
Print Assumptions C76_nonsuicide.
Print Assumptions C76_killing.
Print Assumptions C76_gomoku.
Print Assumptions C76_refused_refuted.
Print Assumptions C76_end_capture.
Print Assumptions C76_end_careful.
Print Assumptions C76_end_gomoku.
Print Assumptions C76_builtin.
Print Assumptions C76_one_point_refuted.
Print Assumptions C76_input.
Print Assumptions C76_colour_blind.
Print Assumptions C76_greedy.
Print Assumptions C76_gibbs.
Print Assumptions C76_rules_refuted.
Print Assumptions C76_negative.
Print Assumptions C76_index.
Print Assumptions C76_tall_refuted.
Print Assumptions C76_wide_refuted.
