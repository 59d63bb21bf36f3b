(** C37 (Gomoku) and C38 (Pente). *)
From Verif Require Import Base Games_Model Games_Spec Games_Proofs Pente_Proofs.
From Coq Require Import Lia.
Local Open Scope Z_scope.

(** the board a sequence of placements describes *)
Definition ideal (ms : list (color * pos)) : board := fold_left (fun b m => placed b (snd m) (fst m)) ms (fun _ => Empty).
Definition play (s : size) (g : game) (ms : list (color * pos)) : game := fold_left (fun g m => fst (gomoku_move s g (fst m) (snd m))) ms g.
(** every move goes to an empty point of the board and nobody moves after the end *)
Inductive legal_game (s : size) : list (color * pos) -> Prop :=
  | lg_nil : legal_game s []
  | lg_snoc ms c p : legal_game s ms -> g_winner (play s gomoku_reset ms) = Undecided -> on_board s p -> ideal ms p = Empty ->
      legal_game s (ms ++ [(c, p)]).

Lemma play_snoc s g ms c p : play s g (ms ++ [(c, p)]) = fst (gomoku_move s (play s g ms) c p).
Proof. unfold play. now rewrite fold_left_app. Qed.
Lemma ideal_snoc ms c p : ideal (ms ++ [(c, p)]) = placed (ideal ms) p c.
Proof. unfold ideal. now rewrite fold_left_app. Qed.

Lemma five_ext s b b' c : (forall p, b p = b' p) -> five s b c -> five s b' c.
Proof. intros E (q & d & Hd & H). exists q, d. split; [auto |]. intros k Hk. rewrite <- E. auto. Qed.
Lemma full_ext s b b' : (forall p, b p = b' p) -> full s b -> full s b'.
Proof. intros E H p Hp. rewrite <- E. auto. Qed.

Lemma legal_game_inv s ms : 5 <= fst s -> 5 <= snd s -> legal_game s ms ->
  let g := play s gomoku_reset ms in
  (forall c, g_winner g = Winner c <-> five s (ideal ms) c) /\
  (g_winner g = Draw <-> full s (ideal ms) /\ forall c, ~ five s (ideal ms) c) /\
  (g_winner g = Undecided -> gomoku_inv s g /\ forall p, g_b g p = ideal ms p) /\
  (forall c, g_winner g = Winner c -> exists p, last ms (Black, (0, 0)) = (c, p)).
Proof.
  intros Hs1 Hs2 H. induction H as [|ms c p H IH Hu Hp He]; cbv zeta.
  - pose proof (gomoku_reset_inv s) as I. cbn. split; [| split; [| split]].
    + intros c. split; [discriminate |]. intros F. now apply empty_no_five in F.
    + split; [discriminate |]. intros [F _]. exfalso. apply (F (0, 0)); [unfold on_board; cbn; lia | reflexivity].
    + auto.
    + discriminate.
  - cbv zeta in IH. destruct IH as (_ & _ & I3 & _). destruct (I3 Hu) as [I E]. rewrite play_snoc, ideal_snoc.
    destruct (gomoku_move_spec s _ c p ltac:(lia) ltac:(lia) I Hp) as [_ M]. rewrite E in M.
    destruct (M He) as (g' & -> & W & D & NO & U & B1 & B2). cbn [fst].
    assert (E' : forall q, placed (g_b (play s gomoku_reset ms)) p c q = placed (ideal ms) p c q) by (intros q; unfold placed; now rewrite E).
    assert (F : forall c', five s (placed (g_b (play s gomoku_reset ms)) p c) c' <-> five s (placed (ideal ms) p c) c') by (intros c'; split; apply five_ext; auto).
    assert (FU : full s (placed (g_b (play s gomoku_reset ms)) p c) <-> full s (placed (ideal ms) p c)) by (split; apply full_ext; auto).
    rewrite F in W, D. rewrite FU in D.
    assert (Fo : ~ five s (placed (ideal ms) p c) (opp c)).
    { rewrite <- F. intros K. apply placed_other_color in K; [| destruct c; discriminate]. now apply (gi_five _ _ I) in K. }
    split; [| split; [| split]].
    + intros c'. destruct c, c'; cbn in *; tauto.
    + rewrite D. split; [intros [? ?]; split; auto; intros [] | intros [? ?]; split; auto]; destruct c; cbn in *; auto.
    + intros K. split; [auto |]. intros q. rewrite K in B1. destruct (pos_dec q p) as [-> |]; [rewrite placed_same; auto |].
      rewrite placed_other, B2, E by auto. auto.
    + intros c' K. rewrite last_last. exists p. destruct c, c'; cbn in *; auto; contradiction.
Qed.

(** In every game of legal moves on every board, with any alternation of colours: the winner is
    c exactly when c has five consecutive stones, it is a draw exactly when the board is full
    without such a row, and otherwise the game is not over; the winner made the last move. *)
Theorem C37_gomoku s ms : 5 <= fst s -> 5 <= snd s -> legal_game s ms ->
  let w := g_winner (play s gomoku_reset ms) in
  (forall c, w = Winner c <-> five s (ideal ms) c) /\
  (w = Draw <-> full s (ideal ms) /\ forall c, ~ five s (ideal ms) c) /\
  (w = Undecided <-> ~ full s (ideal ms) /\ forall c, ~ five s (ideal ms) c) /\
  (forall c, w = Winner c -> exists p, last ms (Black, (0, 0)) = (c, p)).
Proof.
  intros Hs1 Hs2 H. destruct (legal_game_inv s ms Hs1 Hs2 H) as (A & B & C & D). cbv zeta. split; [auto | split; [auto | split; [| auto]]].
  destruct (g_winner (play s gomoku_reset ms)) as [|w|] eqn:E.
  - split; [| auto]. intros _. split.
    + intros F. assert (K : Undecided = Draw) by (apply B; split; [auto |]; intros c F5; apply A in F5; discriminate). discriminate.
    + intros c F5. apply A in F5. discriminate.
  - split; [discriminate |]. intros [_ F]. exfalso. apply (F w). now apply A.
  - split; [discriminate |]. intros [F _]. destruct (proj1 B eq_refl). contradiction.
Qed.

(** moves on an occupied point change nothing but the move counter; positions outside raise KeyError *)
Theorem C37_illegal s g c p : 
  (on_board s p -> g_b g p <> Empty -> gomoku_move s g c p = ({| g_b := g_b g; g_moves := g_moves g + 1; g_winner := g_winner g |}, Ok false)) /\
  (~ on_board s p -> snd (gomoku_move s g c p) = Err KeyError).
Proof.
  unfold gomoku_move, isLegal. split.
  - intros Hp He. rewrite (proj2 (in_range_iff s p) Hp). destruct (cell_eqb (g_b g p) Empty) eqn:E; [apply cell_eqb_iff in E; contradiction | reflexivity].
  - intros Hp. destruct (in_range s p) eqn:E; [apply in_range_iff in E; contradiction | reflexivity].
Qed.
(** getLegals lists exactly the empty points, getKilling exactly the ones that complete a row *)
Theorem C37_legals s b p : (In p (getLegals s b) <-> on_board s p /\ b p = Empty) /\
  forall c, ~ five s b c -> (In p (gomoku_killing s b c) <-> on_board s p /\ b p = Empty /\ five s (placed b p c) c).
Proof.
  assert (L : In p (getLegals s b) <-> on_board s p /\ b p = Empty) by (unfold getLegals; now rewrite filter_In, iterPos_In, cell_eqb_iff).
  split; [exact L |]. intros c N. unfold gomoku_killing. rewrite filter_In, L. split.
  - intros [[H1 H2] H3]. rewrite fiveRow_five in H3 by auto. auto.
  - intros (H1 & H2 & H3). rewrite fiveRow_five by auto. auto.
Qed.

(** Illegal attempts are counted as moves: a draw is declared with 23 points still empty ... *)
Definition early : list (color * pos) := repeat (Black, (0, 0)) 24 ++ [(White, (0, 1))].
Theorem C37_draw_counts_illegal_refuted : exists s ms, let g := play s gomoku_reset ms in
  g_winner g = Draw /\ occupied s (g_b g) = 2 /\ fst s * snd s = 25.
Proof. exists (5, 5), early. vm_compute. auto. Qed.
(** ... and an illegal attempt when one point is left makes the full board no draw. *)
Definition pattern : list (color * pos) := map (fun p => (if (fst p + 2 * snd p) mod 4 <? 2 then Black else White, p)) (iterPos (5, 5)).
Theorem C37_full_board_missed_refuted : exists s ms, let g := play s gomoku_reset ms in
  g_winner g = Undecided /\ occupied s (g_b g) = fst s * snd s.
Proof. exists (5, 5), (removelast pattern ++ [(Black, (0, 0)); last pattern (Black, (0, 0))]). vm_compute. auto. Qed.

(** the hypotheses are met by a real game: black makes a row, white answers elsewhere *)
Definition sample : list (color * pos) :=
  [(Black, (2, 2)); (White, (0, 0)); (Black, (3, 3)); (White, (0, 1)); (Black, (4, 4)); (White, (0, 2)); (Black, (6, 6)); (White, (0, 3)); (Black, (5, 5))].
Ltac legal_tac := repeat (match goal with |- legal_game _ ?l => 
  let l' := eval cbv in (removelast l) in let x := eval cbv in (last l (Black, (0, 0))) in
  match x with (?c, ?p) => change l with (l' ++ [(c, p)]); apply lg_snoc; [| vm_compute; reflexivity | unfold on_board; cbn; lia | vm_compute; reflexivity] end end); apply lg_nil.
Example C37_ex : legal_game (7, 9) sample /\ g_winner (play (7, 9) gomoku_reset sample) = Winner Black /\ g_b (play (7, 9) gomoku_reset sample) (5, 5) = Mark.
Proof. split; [unfold sample; legal_tac | vm_compute; auto]. Qed.
Example C37_ex_draw : g_winner (play (5, 5) gomoku_reset pattern) = Draw.
Proof. vm_compute. reflexivity. Qed.

(** ** Pente *)
Definition pplay (s : size) (g : pente) (ms : list (color * pos)) : pente := fold_left (fun g m => fst (pente_move s g (fst m) (snd m))) ms g.
(** states reached from a reset by legal moves, the game not being over *)
Inductive pente_reach (s : size) : pente -> Prop :=
  | pr_reset : pente_reach s (pente_reset s)
  | pr_move g c p : pente_reach s g -> on_board s p -> g_b (p_game g) p = Empty ->
      g_winner (p_game (fst (pente_move s g c p))) = Undecided -> pente_reach s (fst (pente_move s g c p)).
Lemma pente_reach_inv s g : 5 <= fst s -> 5 <= snd s -> pente_reach s g -> pente_inv s g.
Proof.
  intros H1 H2 H. induction H as [|g c p H IH Hp He Hu]; [now apply pente_reset_inv |].
  destruct (pente_move_spec s g c p H1 H2 IH Hp He) as (g' & l & E & _ & _ & _ & M). rewrite E in *. cbn [fst] in *. now apply M.
Qed.

(** A legal move captures exactly the flanked pairs (l lists them, each once); it wins exactly on
    five in a row or five captured pairs; otherwise the captured points become empty, the mover's
    counter grows by the number of pairs, every other point and the other counter stay, stones on
    the board are the moves minus the captured stones, and it is a draw exactly on a full board. *)
Theorem C38_pente_move s g c p : 5 <= fst s -> 5 <= snd s -> pente_reach s g -> on_board s p -> g_b (p_game g) p = Empty ->
  exists g' l, pente_move s g c p = (g', Ok true) /\ NoDup l /\ (forall q, In q l <-> captured_by s (g_b (p_game g)) c p q) /\
    Nat.Even (length l) /\
    let won := five s (placed (g_b (p_game g)) p c) c \/ 5 <= p_pairs g c + Z.of_nat (length l) / 2 in
    (g_winner (p_game g') = Winner c <-> won) /\
    g_winner (p_game g') <> Winner (opp c) /\
    (g_winner (p_game g') = Draw <-> ~ won /\ full s (g_b (p_game g'))) /\
    (~ won ->
       g_b (p_game g') p = Stone c /\
       (forall q, In q l -> g_b (p_game g') q = Empty) /\
       (forall q, q <> p -> ~ In q l -> g_b (p_game g') q = g_b (p_game g) q) /\
       p_pairs g' c = p_pairs g c + Z.of_nat (length l) / 2 /\ p_pairs g' (opp c) = p_pairs g (opp c) /\
       occupied s (g_b (p_game g')) = g_moves (p_game g') - 2 * (p_pairs g' Black + p_pairs g' White)) /\
    g_moves (p_game g') = g_moves (p_game g) + 1 /\
    (g_winner (p_game g') = Undecided -> pente_reach s g').
Proof.
  intros H1 H2 H Hp He. destruct (pente_move_spec s g c p H1 H2 (pente_reach_inv s g H1 H2 H) Hp He) as (g' & l & E & A & B & C & D).
  exists g', l. cbv zeta in *. repeat (split; [tauto |]). intros K. replace g' with (fst (pente_move s g c p)) by now rewrite E. constructor; auto. now rewrite E.
Qed.
(** in every undecided position: no row, fewer than five pairs each, and the stone count *)
Theorem C38_pente_state s g : 5 <= fst s -> 5 <= snd s -> pente_reach s g ->
  (forall c, ~ five s (g_b (p_game g)) c) /\ (forall c, 0 <= p_pairs g c < 5) /\
  occupied s (g_b (p_game g)) = g_moves (p_game g) - 2 * (p_pairs g Black + p_pairs g White).
Proof. intros H1 H2 H. destruct (pente_reach_inv s g H1 H2 H). auto. Qed.

(** The move that wins by captures neither removes the captured stones nor counts them. *)
Definition capt (i : Z) (j : Z) : list (color * pos) := [(Black, (i, j)); (White, (i, j + 1)); (White, (i, j + 2)); (Black, (i, j + 3))].
Definition five_captures : list (color * pos) := capt 0 0 ++ capt 1 0 ++ capt 5 0 ++ capt 6 0 ++ [(Black, (2, 5)); (White, (2, 6)); (White, (2, 7)); (Black, (2, 8))].
Theorem C38_winning_capture_not_recorded_refuted : exists s ms, let g := pplay s (pente_reset s) ms in
  g_winner (p_game g) = Winner Black /\ p_pairs g Black = 4 /\ g_b (p_game g) (2, 6) = Stone White /\ g_b (p_game g) (2, 7) = Stone White.
Proof. exists (9, 9), five_captures. vm_compute. auto. Qed.
Example C38_ex : let g := pplay (9, 9) (pente_reset (9, 9)) (capt 0 0) in
  p_pairs g Black = 1 /\ g_b (p_game g) (0, 1) = Empty /\ g_b (p_game g) (0, 2) = Empty /\ occupied (9, 9) (g_b (p_game g)) = 3 /\ g_moves (p_game g) = 5.
Proof. vm_compute. auto. Qed.
Example C38_ex_reach : pente_reach (9, 9) (pplay (9, 9) (pente_reset (9, 9)) (capt 0 0)).
Proof. repeat (apply pr_move; [| unfold on_board; cbn; lia | vm_compute; reflexivity | vm_compute; reflexivity]). apply pr_reset. Qed.

Print Assumptions C37_gomoku.
Print Assumptions C37_illegal.
Print Assumptions C37_legals.
Print Assumptions C37_draw_counts_illegal_refuted.
Print Assumptions C37_full_board_missed_refuted.
Print Assumptions C38_pente_move.
Print Assumptions C38_pente_state.
Print Assumptions C38_winning_capture_not_recorded_refuted.
