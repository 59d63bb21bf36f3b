(** Every game between players that keep to the rules ends. *)
From Coq Require Import Relations.
From Verif Require Import Base Games_Model Games_Spec Games_Proofs Capture_Model Capture_Spec Capture_Proofs Capture_Inv Capture_Rules Capture_Props Games_Props Duel_Model Duel_Spec Players_Model Players_Spec Players_Proofs.
Local Open Scope Z_scope.

Lemma doMove_moves n sd g c m g1 r : doMove n sd g c m = Ok (g1, r) -> c_moves g1 = c_moves g + 1.
Proof.
  unfold doMove. set (gm := with_moves g (c_moves g + 1)). destruct m as [|p]; [intros E; injection E as <- _; reflexivity |].
  destruct (c_isLegal n sd gm c p) as [[]|]; cbn [rbind negb]; [| intros E; injection E as <- _; reflexivity | discriminate].
  destruct (suicide n gm c p) as [[]|]; cbn [rbind]; [destruct sd; [intros E; injection E as <- _; reflexivity | discriminate] | | discriminate].
  destruct (capture n gm c p) as [[]|]; cbn [rbind]; [intros E; injection E as <- _; reflexivity | | discriminate].
  unfold setStone. destruct (set_loop _ _ _ _ _ _) as [st|]; cbn [rbind]; [| discriminate]. intros E. injection E as <- _. reflexivity.
Qed.
Lemma flt_le {X} (f : X -> bool) l : (length (filter f l) <= length l)%nat.
Proof. induction l as [|x l IH]; cbn [filter length]; [lia | destruct (f x); cbn [length]; lia]. Qed.
Lemma occ_bound n sd g : 1 <= n -> reach n sd g -> 0 <= occupied (square n) (c_b g) < n * n.
Proof.
  intros Hn R. destruct (room n sd g Hn R) as (p & Hp & He).
  assert (N : occupied (square n) (c_b g) <> fst (square n) * snd (square n)).
  { intros E. apply (full_count (square n) (c_b g) ltac:(cbn; lia) ltac:(cbn; lia)) in E. exact (E p Hp He). }
  assert (B : occupied (square n) (c_b g) <= Z.of_nat (length (iterPos (square n)))) by (unfold occupied; fold (zrange (fst (square n))); fold (zrange (snd (square n))); fold (iterPos (square n)); apply inj_le, flt_le).
  rewrite iterPos_length in B by (cbn; lia). cbn [square fst snd] in *. unfold occupied at 1. lia.
Qed.
Lemma step_ok n sd g c p : reach n sd g -> free (square n) (c_b g) p ->
  exists g1 r, doMove n sd g c (Put p) = Ok (g1, r) /\ c_moves g1 = c_moves g + 1 /\
  ((exists x, c_winner g1 = Winner x) \/
   (c_winner g1 = Undecided /\ reach n sd g1 /\
    (occupied (square n) (c_b g1) = occupied (square n) (c_b g) + 1 \/ (sd = false /\ suicidal n (c_b g) c p /\ c_b g1 = c_b g)))).
Proof.
  intros R [Hp He]. destruct (reach_inv n sd g R) as (I & L & W).
  destruct (put_spec n sd g c p I L Hp He) as (g1 & r & E & D). exists g1, r. split; [exact E |]. split; [eapply doMove_moves; eauto |].
  destruct D as [(_ & _ & D & _) | [(_ & _ & _ & _ & D & _) | [(D1 & D2 & D3 & _ & D) | (_ & _ & _ & D1 & D2 & _)]]]; [left; eauto | left; eauto | right | right].
  - assert (W1 : c_winner g1 = Undecided) by (rewrite D; exact W). split; [exact W1 |]. split; [eapply Capture_Props.r_move; eauto |]. right. split; [exact D3 |].
    split; [split; assumption | rewrite D; reflexivity].
  - rewrite W in D2. split; [exact D2 |]. split; [eapply Capture_Props.r_move; eauto |]. left. rewrite D1. apply occupied_placed; assumption.
Qed.

Section Ends.
Context {W : Type}.
Variables (n : Z) (c1 : Z) (p1 p2 : player cgame cmove W).
Hypothesis Hn : 1 <= n.
Hypothesis H1 : c1 = 1 \/ c1 = -1.

(** the players always choose an empty point *)
Definition keeps_rules (sd : bool) (p : player cgame cmove W) : Prop :=
  forall w g c, reach n sd g -> exists q w', p w g c = Ok (Put q, w') /\ free (square n) (c_b g) q.
(** ... and no suicide if they can help it *)
Definition careful (p : player cgame cmove W) : Prop :=
  forall w g c, reach n false g -> exists q w', p w g c = Ok (Put q, w') /\ free (square n) (c_b g) q /\
    ((exists x, free (square n) (c_b g) x /\ ~ suicidal n (c_b g) (colour c) x) -> ~ suicidal n (c_b g) (colour c) q).

Definition side (second : bool) : Z := if second then - c1 else c1.
Lemma side_flip second : side (negb second) = - side second.
Proof. destruct second; cbn; lia. Qed.
Lemma chooses (second : bool) w g : (if Z.eq_dec (side second) c1 then p1 w g (side second) else p2 w g (side second)) = if second then p2 w g (- c1) else p1 w g c1.
Proof. unfold side. destruct second; [destruct (Z.eq_dec (- c1) c1); [lia | reflexivity] | destruct (Z.eq_dec c1 c1); [reflexivity | lia]]. Qed.
(** k moves from g lead to a decided position, in the loop and according to the rules *)
Definition finishes sd (k : nat) (second : bool) (g : cgame) (w : W) : Prop :=
  exists g' w', (forall fuel, (k < fuel)%nat -> playLoop (captureRules n sd) c1 (- c1) p1 p2 fuel second g w = Ok (g', w')) /\
    game (captureRules n sd) p2 p1 c1 g w (side second) k g' w' /\ c_moves g' = c_moves g + Z.of_nat k /\ exists x, c_winner g' = Winner x.
Lemma finished sd second g w x : c_winner g = Winner x -> finishes sd 0 second g w.
Proof.
  intros E. exists g, w. split; [| split; [| split; [lia | eauto]]].
  - intros [|fuel] F; [lia |]. cbn [playLoop]. unfold over. cbn. rewrite E. destruct x; reflexivity.
  - apply game_over with (x := match x with Black => 1 | White => -1 end). cbn. rewrite E. destruct x; reflexivity.
Qed.
Lemma one_move sd (second : bool) g w q w1 g1 r k : c_winner g = Undecided -> (if second then p2 w g (- c1) else p1 w g c1) = Ok (Put q, w1) ->
  doMove n sd g (colour (side second)) (Put q) = Ok (g1, r) -> finishes sd k (negb second) g1 w1 -> finishes sd (S k) second g w.
Proof.
  intros U E D (g' & w' & A & B & C & X). pose proof (doMove_moves _ _ _ _ _ _ _ D) as M. exists g', w'. split; [| split; [| split; [lia | exact X]]].
  - intros [|fuel] F; [lia |]. cbn [playLoop]. unfold over. cbn [r_winner captureRules]. rewrite U. rewrite E. cbn [rbind fst snd].
    change (r_move (captureRules n sd) g (if second then - c1 else c1) (Put q)) with (let! r := doMove n sd g (colour (side second)) (Put q) in Ok (fst r)). rewrite D. cbn [rbind fst]. apply A. lia.
  - eapply game_move; [cbn; rewrite U; reflexivity | rewrite chooses; exact E | change (r_move (captureRules n sd) g (side second) (Put q)) with (let! r := doMove n sd g (colour (side second)) (Put q) in Ok (fst r)); rewrite D; reflexivity |].
    rewrite <- side_flip. exact B.
Qed.

Lemma ends_enabled : keeps_rules true p1 -> keeps_rules true p2 -> forall m g w second, reach n true g -> n * n - occupied (square n) (c_b g) <= Z.of_nat m ->
  exists k, (k <= m)%nat /\ finishes true k second g w.
Proof.
  intros K1 K2. induction m as [|m IH]; intros g w second R B; [pose proof (occ_bound n true g Hn R); lia |].
  destruct (reach_inv n true g R) as (_ & _ & U).
  assert (P : exists q w1, (if second then p2 w g (- c1) else p1 w g c1) = Ok (Put q, w1) /\ free (square n) (c_b g) q) by (destruct second; [apply K2 | apply K1]; exact R).
  destruct P as (q & w1 & E & F). destruct (step_ok n true g (colour (side second)) q R F) as (g1 & r & D & _ & [(x & X) | (U1 & R1 & O)]).
  - exists 1%nat. split; [lia |]. eapply one_move; [exact U | exact E | exact D | eapply finished; exact X].
  - destruct O as [O | (O & _)]; [| discriminate]. destruct (IH g1 w1 (negb second) R1 ltac:(lia)) as (k & Hk & Fk).
    exists (S k). split; [lia |]. eapply one_move; eauto.
Qed.
Lemma ends_disabled : 2 <= n -> careful p1 -> careful p2 -> forall m g w second, reach n false g -> n * n - occupied (square n) (c_b g) <= Z.of_nat m ->
  exists k, (k <= 2 * m)%nat /\ finishes false k second g w.
Proof.
  intros Hn2 K1 K2. induction m as [|m IH]; intros g w second R B; [pose proof (occ_bound n false g Hn R); lia |].
  assert (P : forall w g (second : bool), reach n false g -> exists q w1, (if second then p2 w g (- c1) else p1 w g c1) = Ok (Put q, w1) /\ free (square n) (c_b g) q /\
    ((exists x, free (square n) (c_b g) x /\ ~ suicidal n (c_b g) (colour (side second)) x) -> ~ suicidal n (c_b g) (colour (side second)) q)).
  { intros w0 g0 [] R0; [exact (K2 w0 g0 (- c1) R0) | exact (K1 w0 g0 c1 R0)]. }
  destruct (suggestions n false g (colour (side second)) R) as (la & _ & _ & _ & _ & _ & HA & _).
  destruct (reach_inv n false g R) as (_ & _ & U). destruct (P w g second R) as (q & w1 & E & F & S1).
  destruct (step_ok n false g (colour (side second)) q R F) as (g1 & r & D & _ & [(x & X) | (U1 & R1 & O)]);
    [exists 1%nat; split; [lia |]; eapply one_move; [exact U | exact E | exact D | eapply finished; exact X] |].
  destruct O as [O | (_ & Su & Same)].
  { destruct (IH g1 w1 (negb second) R1 ltac:(lia)) as (k & Hk & Fk). exists (S k). split; [lia |]. eapply one_move; eauto. }
  assert (Other : exists x, free (square n) (c_b g) x /\ ~ suicidal n (c_b g) (colour (side (negb second))) x).
  { exists q. split; [exact F |]. intros Su2. unfold side in Su, Su2. destruct H1 as [-> | ->], second; cbn in Su, Su2; eapply (not_both n false g q Hn2 R F); eassumption. }
  destruct (P w1 g1 (negb second) R1) as (q2 & w2 & E2 & F2 & S2). rewrite Same in F2, S2.
  assert (F2' : free (square n) (c_b g1) q2) by (rewrite Same; exact F2).
  destruct (step_ok n false g1 (colour (side (negb second))) q2 R1 F2') as (g2 & r2 & D2 & _ & [(x & X) | (U2 & R2 & O)]).
  { exists 2%nat. split; [lia |]. eapply one_move; [exact U | exact E | exact D |]. eapply one_move; [exact U1 | exact E2 | exact D2 | eapply finished; exact X]. }
  destruct O as [O | (_ & Su2 & _)]; [| exfalso; rewrite Same in Su2; exact (S2 Other Su2)]. rewrite Same in O.
  destruct (IH g2 w2 (negb (negb second)) R2 ltac:(lia)) as (k & Hk & Fk). exists (S (S k)). split; [lia |].
  eapply one_move; [exact U | exact E | exact D |]. eapply one_move; [exact U1 | exact E2 | exact D2 | exact Fk].
Qed.
End Ends.

(** ** Gomoku *)
Section EndsGomoku.
Context {W : Type}.
Variables (s : size) (c1 : Z) (p1 p2 : player Games_Model.game Games_Model.pos W).
Hypothesis Hs1 : 5 <= fst s.
Hypothesis Hs2 : 5 <= snd s.
Hypothesis H1 : c1 = 1 \/ c1 = -1.
(** the players choose an empty point whenever there is one *)
Definition keeps_rules_gomoku (p : player Games_Model.game Games_Model.pos W) : Prop :=
  forall w g c, (exists q, free s (g_b g) q) -> exists q w', p w g c = Ok (q, w') /\ free s (g_b g) q.
Let side' (second : bool) : Z := if second then - c1 else c1.
Lemma room_gomoku g : gomoku_inv s g -> g_moves g < fst s * snd s -> exists q, free s (g_b g) q.
Proof.
  intros I L. destruct (getLegals s (g_b g)) as [|q l] eqn:E; [| exists q; apply legals_free; rewrite E; left; reflexivity].
  exfalso. assert (F : full s (g_b g)). { intros p Hp He. assert (K : In p (getLegals s (g_b g))) by (apply legals_free; split; assumption). rewrite E in K. exact K. }
  apply full_count in F; [| lia | lia]. rewrite (gi_count s g I) in F. lia.
Qed.
Definition finishes_gomoku (k : nat) (second : bool) (g : Games_Model.game) (w : W) : Prop :=
  exists g' w', (forall fuel, (k < fuel)%nat -> playLoop (gomokuRules s) c1 (- c1) p1 p2 fuel second g w = Ok (g', w')) /\
    Duel_Spec.game (gomokuRules s) p2 p1 c1 g w (side' second) k g' w' /\ g_moves g' = g_moves g + Z.of_nat k /\ g_winner g' <> Undecided.
Lemma finished_gomoku second g w : g_winner g <> Undecided -> finishes_gomoku 0 second g w.
Proof.
  intros E. assert (X : exists x, r_winner (gomokuRules s) g = Some x) by (cbn; destruct (g_winner g) as [|[]|]; [congruence | | |]; eauto). destruct X as (x & X).
  exists g, w. split; [| split; [| split; [lia | exact E]]].
  - intros [|fuel] F; [lia |]. cbn [playLoop]. unfold over. rewrite X. reflexivity.
  - eapply Duel_Spec.game_over. exact X.
Qed.
Lemma ends_gomoku : keeps_rules_gomoku p1 -> keeps_rules_gomoku p2 -> forall m g w second, gomoku_inv s g -> g_moves g < fst s * snd s ->
  fst s * snd s - g_moves g <= Z.of_nat m -> exists k, (k <= m)%nat /\ finishes_gomoku k second g w.
Proof.
  intros K1 K2. induction m as [|m IH]; intros g w second I L B; [lia |].
  pose proof (room_gomoku g I L) as RM.
  assert (P : exists q w1, (if second then p2 w g (- c1) else p1 w g c1) = Ok (q, w1) /\ free s (g_b g) q) by (destruct second; [apply K2 | apply K1]; exact RM).
  destruct P as (q & w1 & E & F). destruct F as [F1 F2].
  destruct (gomoku_move_spec s g (colour (side' second)) q ltac:(lia) ltac:(lia) I F1) as [_ M]. destruct (M F2) as (g1 & D & _ & Dr & _ & U & _).
  assert (Mv : g_moves g1 = g_moves g + 1).
  { revert D. unfold gomoku_move. destruct (isLegal s (g_b g) q) as [[]|]; intros D; [| discriminate | discriminate]. destruct (fiveRow s (g_b g) _ q); injection D as <-; reflexivity. }
  assert (Wn : r_winner (gomokuRules s) g = None) by (cbn; rewrite (gi_und s g I); reflexivity).
  assert (Dm : r_move (gomokuRules s) g (side' second) q = Ok g1).
  { transitivity (let '(g', r) := gomoku_move s g (colour (side' second)) q in let! _ := r in Ok g'); [reflexivity |]. rewrite D. reflexivity. }
  assert (Step : forall k, finishes_gomoku k (negb second) g1 w1 -> finishes_gomoku (S k) second g w).
  { intros k (g' & w' & X1 & X2 & X3 & X4). exists g', w'. split; [| split; [| split; [lia | exact X4]]].
    - intros [|fuel] Fu; [lia |]. cbn [playLoop]. unfold over. rewrite Wn. rewrite E. cbn [rbind fst snd]. change (if second then - c1 else c1) with (side' second). rewrite Dm. cbn [rbind]. apply X1. lia.
    - eapply Duel_Spec.game_move; [exact Wn | | exact Dm |].
      + unfold side'. destruct second; [destruct (Z.eq_dec (- c1) c1); [lia | exact E] | destruct (Z.eq_dec c1 c1); [exact E | lia]].
      + replace (- side' second) with (side' (negb second)) by (unfold side'; destruct second; cbn; lia). exact X2. }
  destruct (g_winner g1) as [|x|] eqn:EW.
  - pose proof (U eq_refl) as I1.
    assert (L1 : g_moves g1 < fst s * snd s).
    { assert (N : g_moves g1 <> fst s * snd s); [| lia]. intros X. revert D. unfold gomoku_move. destruct (isLegal s (g_b g) q) as [[]|]; [| discriminate | discriminate].
      destruct (fiveRow s (g_b g) _ q); [intros D; injection D as <-; discriminate |]. rewrite <- Mv, X, Z.eqb_refl. intros D. injection D as <-. discriminate. }
    destruct (IH g1 w1 (negb second) I1 L1 ltac:(lia)) as (k & Hk & Fk). exists (S k). split; [lia |]. apply Step, Fk.
  - exists 1%nat. split; [lia |]. apply Step, finished_gomoku. congruence.
  - exists 1%nat. split; [lia |]. apply Step, finished_gomoku. congruence.
Qed.
End EndsGomoku.
