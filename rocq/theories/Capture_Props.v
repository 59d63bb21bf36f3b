(** C36: the capture game. *)
From Verif Require Import Base Games_Model Games_Spec Games_Proofs Capture_Model Capture_Spec Capture_Proofs Capture_Inv Capture_Rules.
From Coq Require Import Lia Relations.
Local Open Scope Z_scope.

(** Positions reached from a reset by moves of any colours in any order (also refused ones), the
    game not being over. *)
Inductive reach (n : Z) (sd : bool) : cgame -> Prop :=
  | r_reset : reach n sd capture_reset
  | r_move g c m g' r : reach n sd g -> doMove n sd g c m = Ok (g', r) -> c_winner g' = Undecided -> reach n sd g'.
(** Positions set up with any placements on empty points (randomBoard, giveHandicap). *)
Inductive setup (n : Z) : cgame -> Prop :=
  | s_reset : setup n capture_reset
  | s_put g c p g' : setup n g -> on_board (square n) p -> c_b g p = Empty -> setStone n g c p = Ok g' -> setup n g'.

Definition live (n : Z) (g : cgame) : Prop := forall q c, on_board (square n) q -> c_b g q = Stone c -> alive (square n) (c_b g) q.
Lemma cinv_moves n g m : cinv n g -> cinv n (with_moves g m).
Proof. intros []. constructor; auto. Qed.

(** everything a stone placement does, for a position satisfying the invariant *)
Lemma put_spec n sd g c p : cinv n g -> live n g -> on_board (square n) p -> c_b g p = Empty ->
  let b' := placed (c_b g) p c in
  exists g1 r, doMove n sd g c (Put p) = Ok (g1, r) /\
  ((some_dead (square n) b' (opp c) /\ r = true /\ c_winner g1 = Winner c /\ c_b g1 = bset (c_b g) p Mark) \/
   (~ some_dead (square n) b' (opp c) /\ ~ alive (square n) b' p /\ sd = true /\ r = true /\ c_winner g1 = Winner (opp c) /\ c_b g1 = bset (c_b g) p Mark) \/
   (~ some_dead (square n) b' (opp c) /\ ~ alive (square n) b' p /\ sd = false /\ r = false /\ g1 = with_moves g (c_moves g + 1)) \/
   (~ some_dead (square n) b' (opp c) /\ alive (square n) b' p /\ r = true /\ c_b g1 = b' /\ c_winner g1 = c_winner g /\ cinv n g1 /\ live n g1)).
Proof.
  intros I Hl Hp He. cbv zeta. set (b' := placed (c_b g) p c). set (gm := with_moves g (c_moves g + 1)).
  pose proof (cinv_moves n g (c_moves g + 1) I) as Im. fold gm in Im.
  destruct (suicide_spec n gm Im c p Hp He Hl) as (su & Es & Hs). destruct (capture_spec n gm Im c p Hp He Hl) as (k & Ek & Hk).
  change (c_b gm) with (c_b g) in *. fold b' in Hs, Hk.
  unfold doMove. fold gm. unfold c_isLegal. rewrite (proj2 (in_range_iff (square n) p) Hp). change (c_b gm) with (c_b g). rewrite (proj2 (cell_eqb_iff _ _) He). cbn [negb].
  pose proof (alive_new n gm Im c p Hp He) as AN. change (c_b gm) with (c_b g) in AN. fold b' in AN.
  destruct (setStone_inv n gm c p Im Hp He) as (g' & E' & Eb & Em & Ew & I'). change (placed (c_b gm) p c) with b' in Eb.
  assert (Hdec : forall q c', on_board (square n) q -> b' q = Stone c' -> alive (square n) b' q \/ ~ alive (square n) b' q).
  { intros q c' H1 H2. rewrite <- Eb in *. eapply alive_dec; eauto. }
  assert (HD : some_dead (square n) b' (opp c) \/ ~ some_dead (square n) b' (opp c)).
  { destruct k; [left; tauto | right; intros X; apply Hk in X; discriminate]. }
  assert (HA : alive (square n) b' p \/ ~ alive (square n) b' p) by (apply (Hdec p c); [auto | apply placed_same]).
  assert (Hsu : su = true <-> ~ alive (square n) b' p /\ ~ some_dead (square n) b' (opp c)) by exact Hs.
  destruct HD as [HD | HD].
  - assert (su = false) by (apply not_true_iff_false; tauto). subst su. assert (k = true) by tauto. subst k.
    destruct sd; repeat (rewrite ?Es; rewrite ?Ek; cbn [rbind negb]); (eexists; eexists; split; [reflexivity | left; auto]).
  - assert (k = false) by (apply not_true_iff_false; tauto). subst k. destruct HA as [HA | HA].
    + assert (su = false) by (apply not_true_iff_false; tauto). subst su.
      destruct sd; repeat (rewrite ?Es; rewrite ?Ek; cbn [rbind negb]); rewrite E'; cbn [rbind];
        (eexists; eexists; split; [reflexivity |]; right; right; right); repeat (split; [auto |]);
        intros q c' Hq Hc; rewrite Eb in *; eapply (live_after n gm Im c p Hp He Hl); eauto.
    + assert (su = true) by tauto. subst su.
      destruct sd; repeat (rewrite ?Es; rewrite ?Ek; cbn [rbind negb]); (eexists; eexists; split; [reflexivity |]); [right; left | right; right; left]; repeat (split; [auto |]); auto.
Qed.

Lemma refused n sd g c p : ~ (on_board (square n) p /\ c_b g p = Empty) -> doMove n sd g c (Put p) = Ok (with_moves g (c_moves g + 1), false).
Proof.
  intros H. unfold doMove, c_isLegal. destruct (in_range (square n) p) eqn:E1; cbn [negb rbind]; [| reflexivity].
  change (c_b (with_moves g (c_moves g + 1)) p) with (c_b g p). destruct (cell_eqb (c_b g p) Empty) eqn:E2; cbn [negb rbind]; [| reflexivity].
  exfalso. apply H. split; [now apply in_range_iff | now apply cell_eqb_iff].
Qed.

Lemma reach_inv n sd g : reach n sd g -> cinv n g /\ live n g /\ c_winner g = Undecided.
Proof.
  induction 1 as [|g c m g' r H (I & L & W) E U].
  - split; [apply capture_reset_inv |]. split; [intros q c _; discriminate | reflexivity].
  - destruct m as [|p].
    { cbn in E. injection E as <- _. discriminate. }
    destruct (in_range (square n) p && cell_eqb (c_b g p) Empty) eqn:EL.
    + apply andb_true_iff in EL as [E1 E2]. apply in_range_iff in E1. apply cell_eqb_iff in E2.
      destruct (put_spec n sd g c p I L E1 E2) as (g1 & r1 & E' & D). rewrite E in E'. injection E' as <- <-.
      destruct D as [(_ & _ & D & _) | [(_ & _ & _ & _ & D & _) | [(_ & _ & _ & _ & D) | (_ & _ & _ & _ & _ & D1 & D2)]]]; [congruence | congruence | subst g'; auto using cinv_moves | auto].
    + rewrite refused in E.
      * injection E as <- _. auto using cinv_moves.
      * intros [E1 E2]. apply in_range_iff in E1. apply cell_eqb_iff in E2. rewrite E1, E2 in EL. discriminate.
Qed.
Lemma setup_inv n g : setup n g -> cinv n g.
Proof.
  induction 1 as [|g c p g' H I Hp He E]; [apply capture_reset_inv |].
  destruct (setStone_inv n g c p I Hp He) as (g1 & E1 & _ & _ & _ & I1). congruence.
Qed.

(** The tracked groups are the connected groups and the tracked liberties their empty neighbours:
    two stones have the same group label iff they are connected, getLiberties counts the
    liberties of the group and getGroupSize its stones. *)
Theorem C36_groups n g : (exists sd, reach n sd g) \/ setup n g ->
  (forall p c, on_board (square n) p -> c_b g p = Stone c ->
    exists h l m, c_groups g p = Some h /\ (forall q, c_groups g q = Some h <-> conn (square n) (c_b g) p q) /\
      c_libs g h = Some l /\ NoDup l /\ (forall e, In e l <-> liberty (square n) (c_b g) p e) /\
      getLiberties g p = Ok (Some (Z.of_nat (length l))) /\
      NoDup m /\ (forall q, In q m <-> conn (square n) (c_b g) p q) /\ getGroupSize n g p = Ok (Some (Z.of_nat (length m)))) /\
  (forall h, c_libs g h <> None -> exists p c, on_board (square n) p /\ c_b g p = Stone c /\ c_groups g p = Some h).
Proof.
  intros H. assert (I : cinv n g) by (destruct H as [[sd H] | H]; [now apply reach_inv in H | now apply setup_inv]). split.
  - intros p c Hp Hc. destruct (libs_spec n g I p c Hp Hc) as (h & l & H1 & H2 & H3 & H4). exists h, l.
    exists (filter (fun q => match c_groups g q with Some k => k =? h | None => false end) (iterPos (square n))).
    assert (G : forall q, c_groups g q = Some h <-> conn (square n) (c_b g) p q) by (intros q; now apply (ci_conn n g I p q h)).
    repeat apply conj; auto.
    + unfold getLiberties, libcount. rewrite Hc, H1. cbn [oget rbind]. rewrite H2. reflexivity.
    + apply NoDup_filter, iterPos_NoDup.
    + intros q. rewrite filter_In, iterPos_In. rewrite <- G. split.
      * intros [_ K]. destruct (c_groups g q) as [k|]; [| discriminate]. apply Z.eqb_eq in K. now subst.
      * intros K. rewrite K, Z.eqb_refl. split; [| auto]. now apply (ci_stone n g I q h).
    + unfold getGroupSize. rewrite Hc, H1. reflexivity.
  - intros h Hh. destruct (ci_keys n g I h Hh) as (p & Hg). destruct (ci_stone n g I p h Hg) as (Hp & c & Hc). eauto.
Qed.

(** The outcome of every move in every undecided position (suicide allowed, as by default). *)
Theorem C36_move n g c : reach n true g ->
  doMove n true g c Resign = Ok (ended (with_moves g (c_moves g + 1)) (c_b g) (opp c), true) /\
  forall p, let b' := placed (c_b g) p c in
  exists g1 r, doMove n true g c (Put p) = Ok (g1, r) /\
    (r = true <-> on_board (square n) p /\ c_b g p = Empty) /\
    (r = false -> g1 = with_moves g (c_moves g + 1)) /\
    (r = true ->
      (c_winner g1 = Winner c <-> some_dead (square n) b' (opp c)) /\
      (c_winner g1 = Winner (opp c) <-> ~ some_dead (square n) b' (opp c) /\ ~ alive (square n) b' p) /\
      (c_winner g1 = Undecided <-> forall q c', on_board (square n) q -> b' q = Stone c' -> alive (square n) b' q) /\
      (c_winner g1 = Undecided -> c_b g1 = b' /\ reach n true g1)).
Proof.
  intros R. split; [reflexivity |]. intros p. cbv zeta. destruct (reach_inv n true g R) as (I & L & W).
  destruct (in_range (square n) p && cell_eqb (c_b g p) Empty) eqn:EL.
  - apply andb_true_iff in EL as [E1 E2]. apply in_range_iff in E1. apply cell_eqb_iff in E2.
    destruct (put_spec n true g c p I L E1 E2) as (g1 & r & E & D). exists g1, r. split; [auto |].
    assert (Hr : r = true) by (destruct D as [(_ & D & _) | [(_ & _ & _ & D & _) | [(_ & _ & D & _) | (_ & _ & D & _)]]]; congruence). subst r.
    split; [tauto |]. split; [discriminate |]. intros _. set (b' := placed (c_b g) p c) in *.
    assert (NE : Winner c <> Winner (opp c)) by (destruct c; discriminate).
    assert (Hpp : b' p = Stone c) by apply placed_same.
    destruct D as [(D1 & _ & D2 & D3) | [(D1 & D2 & _ & _ & D3 & D4) | [(_ & _ & D & _) | (D1 & D2 & _ & D3 & D4 & D5 & D6)]]]; [| | discriminate |].
    + rewrite D2. split; [tauto |]. split; [split; [congruence | tauto] |]. split; [| discriminate]. split; [discriminate |].
      intros H. exfalso. destruct D1 as (q & A & B & C). apply C. eapply H; eauto.
    + rewrite D3. split; [split; [congruence | tauto] |]. split; [tauto |]. split; [| discriminate]. split; [discriminate |].
      intros H. exfalso. apply D2. eapply H; eauto.
    + rewrite D4, W. split; [split; [discriminate | tauto] |]. split; [split; [discriminate | tauto] |]. split.
      * split; [| auto]. intros _ q c' Hq Hc. rewrite <- D3 in *. eapply D6; eauto.
      * intros _. split; [auto |]. eapply r_move; eauto. congruence.
  - rewrite refused.
    + eexists; exists false. split; [reflexivity |]. split; [| split; [auto | discriminate]]. split; [discriminate |].
      intros [E1 E2]. apply in_range_iff in E1. apply cell_eqb_iff in E2. rewrite E1, E2 in EL. discriminate.
    + intros [E1 E2]. apply in_range_iff in E1. apply cell_eqb_iff in E2. rewrite E1, E2 in EL. discriminate.
Qed.

(** With suicide disabled, a suicide is refused and the game only ends by capture or resignation. *)
Theorem C36_move_no_suicide n g c p : reach n false g -> let b' := placed (c_b g) p c in
  exists g1 r, doMove n false g c (Put p) = Ok (g1, r) /\
    (r = true <-> on_board (square n) p /\ c_b g p = Empty /\ (alive (square n) b' p \/ some_dead (square n) b' (opp c))) /\
    (r = false -> g1 = with_moves g (c_moves g + 1)) /\
    (c_winner g1 = Winner c <-> r = true /\ some_dead (square n) b' (opp c)) /\ c_winner g1 <> Winner (opp c).
Proof.
  intros R. cbv zeta. destruct (reach_inv n false g R) as (I & L & W). destruct (in_range (square n) p && cell_eqb (c_b g p) Empty) eqn:EL.
  - apply andb_true_iff in EL as [E1 E2]. apply in_range_iff in E1. apply cell_eqb_iff in E2.
    destruct (put_spec n false g c p I L E1 E2) as (g1 & r & E & D). exists g1, r. split; [auto |]. set (b' := placed (c_b g) p c) in *.
    assert (NE : Winner c <> Winner (opp c)) by (destruct c; discriminate).
    destruct D as [(D1 & -> & D2 & D3) | [(_ & _ & D & _) | [(D1 & D2 & _ & -> & ->) | (D1 & D2 & -> & D3 & D4 & D5 & D6)]]]; [| discriminate | |].
    + rewrite D2. repeat split; auto; try discriminate; try apply E1; tauto.
    + cbn. rewrite W. repeat split; auto; try discriminate; try apply E1; tauto.
    + rewrite D4, W. repeat split; auto; try discriminate; try apply E1; tauto.
  - assert (N : ~ (on_board (square n) p /\ c_b g p = Empty)).
    { intros [E1 E2]. apply in_range_iff in E1. apply cell_eqb_iff in E2. rewrite E1, E2 in EL. discriminate. }
    rewrite refused by auto. eexists; exists false. split; [reflexivity |]. split; [split; [discriminate | tauto] |]. split; [auto |]. cbn. rewrite W. split; [split; [discriminate | intros [? _]; discriminate] | discriminate].
Qed.

Lemma filterM_spec (f : pos -> result bool) (P : pos -> Prop) : forall l, (forall x, In x l -> exists k, f x = Ok k /\ (k = true <-> P x)) ->
  exists r, filterM f l = Ok r /\ forall x, In x r <-> In x l /\ P x.
Proof.
  induction l as [|x l IH]; intros H; cbn [filterM]; [exists []; split; [auto | cbn; tauto] |].
  destruct (H x (or_introl eq_refl)) as (k & E & Hk). destruct IH as (r & E' & Hr); [intros; apply H; right; auto |]. rewrite E. cbn [rbind]. rewrite E'. cbn [rbind].
  eexists. split; [reflexivity |]. intros y. destruct k; cbn; rewrite Hr.
  - split; [intros [<- | [A B]]; [split; [auto | tauto] | auto] | intros [[<- | A] B]; auto].
  - split; [tauto |]. intros [[<- | A] B]; [apply Hk in B; discriminate | auto].
Qed.
(** getAcceptable: the empty points whose placement is no suicide; getKilling: the ones that capture. *)
Theorem C36_suggestions n sd g c : reach n sd g ->
  exists la lk, getAcceptable n g c = Ok la /\ getKilling n g c = Ok lk /\
    (forall p, In p la <-> on_board (square n) p /\ c_b g p = Empty /\
       ~ (~ alive (square n) (placed (c_b g) p c) p /\ ~ some_dead (square n) (placed (c_b g) p c) (opp c))) /\
    (forall p, In p lk <-> on_board (square n) p /\ c_b g p = Empty /\ some_dead (square n) (placed (c_b g) p c) (opp c)).
Proof.
  intros R. destruct (reach_inv n sd g R) as (I & L & W).
  assert (LG : forall p, In p (c_getLegals n g) <-> on_board (square n) p /\ c_b g p = Empty) by (intros p; unfold c_getLegals, getLegals; now rewrite filter_In, iterPos_In, cell_eqb_iff).
  destruct (filterM_spec (fun p => let! s := suicide n g c p in Ok (negb s))
    (fun p => ~ (~ alive (square n) (placed (c_b g) p c) p /\ ~ some_dead (square n) (placed (c_b g) p c) (opp c))) (c_getLegals n g)) as (la & E1 & H1).
  { intros p Hp. apply LG in Hp as [Hp He]. destruct (suicide_spec n g I c p Hp He L) as (k & Ek & Hk). rewrite Ek. cbn [rbind]. exists (negb k). split; [auto |].
    rewrite <- Hk, negb_true_iff, not_true_iff_false. tauto. }
  assert (E1' : getAcceptable n g c = Ok la) by exact E1. clear E1.
  destruct (filterM_spec (fun p => capture n g c p) (fun p => some_dead (square n) (placed (c_b g) p c) (opp c)) la) as (lk & E2 & H2).
  { intros p Hp. apply H1 in Hp as [Hp _]. apply LG in Hp as [Hp He]. now apply capture_spec. }
  exists la, lk. split; [auto |]. unfold getKilling. rewrite E1'. cbn [rbind]. split; [auto |]. split.
  - intros p. rewrite H1, LG. tauto.
  - intros p. rewrite H2, H1, LG. tauto.
Qed.
(** giveHandicap never fails and keeps the bookkeeping exact, whatever points it visits. *)
Theorem C36_handicap n c ps : forall g, setup n g -> exists g', giveHandicap n true g c ps = Ok g' /\ setup n g'.
Proof.
  induction ps as [|p ps IH]; intros g S; cbn [giveHandicap]; [eauto |].
  unfold c_isLegal. destruct (in_range (square n) p) eqn:E1; cbn [negb rbind]; [| auto]. destruct (cell_eqb (c_b g p) Empty) eqn:E2; cbn [negb rbind]; [| auto].
  apply in_range_iff in E1. apply cell_eqb_iff in E2. destruct (setStone_inv n g c p (setup_inv n g S) E1 E2) as (g1 & E & _). rewrite E. cbn [rbind].
  apply IH. eapply s_put; eauto.
Qed.

(** Non-vacuity: black surrounds a white stone in the corner; the last stone captures it. *)
Definition moves (n : Z) (ms : list (color * pos)) : result (cgame * bool) :=
  fold_left (fun r m => let! x := r in doMove n true (fst x) (fst m) (Put (snd m))) ms (Ok (capture_reset, true)).
Definition corner : list (color * pos) := [(White, (0, 0)); (Black, (0, 1)); (White, (2, 2)); (Black, (1, 1)); (White, (2, 1)); (Black, (1, 0))].
Example C36_ex : exists g, moves 3 corner = Ok (g, true) /\ c_winner g = Winner Black.
Proof. eexists. split; [vm_compute; reflexivity | reflexivity]. Qed.
Definition gtest (ms : list (color * pos)) : cgame := match moves 3 ms with Ok (g, _) => g | Err _ => capture_reset end.
Lemma gtest_step ms c p : reach 3 true (gtest ms) -> is_ok (moves 3 (ms ++ [(c, p)])) = true ->
  c_winner (gtest (ms ++ [(c, p)])) = Undecided -> reach 3 true (gtest (ms ++ [(c, p)])).
Proof.
  assert (E : moves 3 (ms ++ [(c, p)]) = let! x := moves 3 ms in doMove 3 true (fst x) c (Put p)) by (unfold moves; rewrite fold_left_app; reflexivity).
  unfold gtest. rewrite E. destruct (moves 3 ms) as [[g b]|]; cbn [rbind fst]; [| discriminate].
  intros R. destruct (doMove 3 true g c (Put p)) as [[g' b']|] eqn:E'; [| discriminate]. intros _ U. eapply r_move; eauto.
Qed.
Example C36_ex_reach : let g := gtest (removelast corner) in
  reach 3 true g /\ getGroupSize 3 g (2, 1) = Ok (Some 2) /\ getLiberties g (2, 1) = Ok (Some 2) /\ getKilling 3 g Black = Ok [(1, 0)].
Proof.
  split; [| vm_compute; auto]. change (removelast corner) with ((((([] ++ [(White, (0, 0))]) ++ [(Black, (0, 1))]) ++ [(White, (2, 2))]) ++ [(Black, (1, 1))]) ++ [(White, (2, 1))]).
  do 5 (apply gtest_step; [| vm_compute; reflexivity | vm_compute; reflexivity]). apply r_reset.
Qed.

Print Assumptions C36_groups.
Print Assumptions C36_move.
Print Assumptions C36_move_no_suicide.
Print Assumptions C36_suggestions.
Print Assumptions C36_handicap.
