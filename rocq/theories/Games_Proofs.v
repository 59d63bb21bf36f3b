(** Five-in-a-row detection, captures and stone counts. *)
From Verif Require Import Base Games_Model Games_Spec.
From Coq Require Import Lia.
Local Open Scope Z_scope.

Lemma pos_eqb_iff p q : pos_eqb p q = true <-> p = q.
Proof. destruct p, q. unfold pos_eqb. cbn [fst snd]. rewrite andb_true_iff, !Z.eqb_eq. split; [intros []; congruence | intros [=]; auto]. Qed.
Lemma pos_eqb_refl p : pos_eqb p p = true. Proof. apply pos_eqb_iff. auto. Qed.
Lemma pos_eqb_neq p q : pos_eqb p q = false <-> p <> q.
Proof. rewrite <- not_true_iff_false, pos_eqb_iff. tauto. Qed.
Lemma pos_dec (p q : pos) : {p = q} + {p <> q}.
Proof. destruct (pos_eqb p q) eqn:E; [left; now apply pos_eqb_iff | right; now apply pos_eqb_neq]. Qed.
Lemma cell_eqb_iff x y : cell_eqb x y = true <-> x = y.
Proof. destruct x as [|[]|], y as [|[]|]; cbn; split; intros; congruence. Qed.
Lemma in_range_iff s p : in_range s p = true <-> on_board s p.
Proof. unfold in_range, on_board. rewrite !andb_true_iff, !Z.leb_le, !Z.ltb_lt. lia. Qed.
Lemma placed_same b p c : placed b p c p = Stone c.
Proof. unfold placed. now rewrite pos_eqb_refl. Qed.
Lemma placed_other b p c q : q <> p -> placed b p c q = b q.
Proof. intros H. unfold placed. apply pos_eqb_neq in H. now rewrite H. Qed.
Lemma bset_same b p x : bset b p x p = x.
Proof. unfold bset. now rewrite pos_eqb_refl. Qed.
Lemma bset_other b p x q : q <> p -> bset b p x q = b q.
Proof. intros H. unfold bset. apply pos_eqb_neq in H. now rewrite H. Qed.

Lemma run_bounds f : forall n i, 0 <= run f i n <= Z.of_nat n.
Proof. induction n as [|n IH]; intros i; cbn [run]; [lia | destruct (f i); [specialize (IH (i + 1)); lia | lia]]. Qed.
Lemma run_prefix f : forall n i j, i <= j < i + run f i n -> f j = true.
Proof.
  induction n as [|n IH]; intros i j H; cbn [run] in H; [lia |].
  destruct (f i) eqn:E; [| lia]. destruct (Z.eq_dec j i) as [-> |]; [auto |]. apply (IH (i + 1)). lia.
Qed.
Lemma run_ge f : forall n i k, 0 <= k <= Z.of_nat n -> (forall j, i <= j < i + k -> f j = true) -> k <= run f i n.
Proof.
  induction n as [|n IH]; intros i k Hk H; cbn [run]; [lia |].
  destruct (Z.eq_dec k 0) as [-> |]; [destruct (f i); [pose proof (run_bounds f n (i + 1)); lia | lia] |].
  rewrite (H i) by lia. cut (k - 1 <= run f (i + 1) n); [lia |]. apply IH; [lia |]. intros j Hj. apply H. lia.
Qed.
Lemma same_iff s b c q : same s b c q = true <-> on_board s q /\ b q = Stone c.
Proof. unfold same. now rewrite andb_true_iff, in_range_iff, cell_eqb_iff. Qed.

Lemma step_shift p d i : step p d i = shift p d i.
Proof. unfold step, shift. f_equal; lia. Qed.
Lemma shift_shift p d i j : shift (shift p d i) d j = shift p d (i + j).
Proof. unfold shift. cbn [fst snd]. f_equal; lia. Qed.
Lemma shift_0 p d : shift p d 0 = p.
Proof. destruct p. unfold shift. cbn [fst snd]. f_equal; lia. Qed.
Lemma shift_inj p d i j : direction d -> shift p d i = shift p d j -> i = j.
Proof.
  intros (H1 & H2 & H3) [= E1 E2]. destruct d as [x y]. cbn [fst snd] in *.
  assert (x <> 0 \/ y <> 0) by (destruct (Z.eq_dec x 0), (Z.eq_dec y 0); subst; auto).
  assert (H1' : x = -1 \/ x = 0 \/ x = 1) by lia. assert (H2' : y = -1 \/ y = 0 \/ y = 1) by lia.
  destruct H1' as [-> | [-> | ->]], H2' as [-> | [-> | ->]]; lia.
Qed.
Lemma dirs_direction d : In d dirs -> direction d.
Proof. intros [<- | [<- | [<- | [<- | []]]]]; repeat split; cbn; try lia; discriminate. Qed.
Definition negd (d : pos) : pos := (- fst d, - snd d).
Lemma direction_cases d : direction d -> In d dirs \/ In (negd d) dirs.
Proof.
  intros (H1 & H2 & H3). destruct d as [x y]. cbn [fst snd] in *.
  assert (H1' : x = -1 \/ x = 0 \/ x = 1) by lia. assert (H2' : y = -1 \/ y = 0 \/ y = 1) by lia.
  destruct H1' as [-> | [-> | ->]], H2' as [-> | [-> | ->]]; cbn; auto; try (right; auto; fail); congruence || tauto.
Qed.
Lemma shift_neg p d k : shift p (negd d) k = shift p d (- k).
Proof. unfold shift, negd. cbn [fst snd]. f_equal; lia. Qed.

(** five stones through p along d, in the board with the stone placed *)
Definition five_through (s : size) (b : board) (c : color) (p d : pos) : Prop :=
  exists o, 0 <= o <= 4 /\ forall k, - o <= k <= 4 - o -> on_board s (shift p d k) /\ b (shift p d k) = Stone c.

Lemma found_iff s b c p d : direction d -> on_board s p ->
  (5 <= found s b c p d <-> five_through s (placed b p c) c p d).
Proof.
  intros Hd Hp. unfold found.
  set (L := run (fun i => same s b c (step p d (- i))) 1 4). set (R := run (fun i => same s b c (step p d i)) 1 4).
  pose proof (run_bounds (fun i => same s b c (step p d (- i))) 4 1) as BL. pose proof (run_bounds (fun i => same s b c (step p d i)) 4 1) as BR.
  fold L in BL. fold R in BR. change (Z.of_nat 4) with 4 in *.
  assert (Hne : forall k, k <> 0 -> shift p d k <> p).
  { intros k Hk E. rewrite <- (shift_0 p d) in E at 2. apply shift_inj in E; auto. }
  split.
  - intros H. exists L. split; [lia |]. intros k Hk.
    destruct (Z.lt_trichotomy k 0) as [Hlt | [-> | Hgt]].
    + assert (F : same s b c (step p d (- (- k))) = true) by (apply (run_prefix (fun i => same s b c (step p d (- i))) 4 1 (- k)); fold L; lia).
      rewrite step_shift, Z.opp_involutive, same_iff in F. rewrite placed_other by (apply Hne; lia). exact F.
    + rewrite shift_0, placed_same. auto.
    + assert (F : same s b c (step p d k) = true) by (apply (run_prefix (fun i => same s b c (step p d i)) 4 1 k); fold R; lia).
      rewrite step_shift, same_iff in F. rewrite placed_other by (apply Hne; lia). exact F.
  - intros (o & Ho & H).
    assert (o <= L).
    { apply run_ge; [change (Z.of_nat 4) with 4; lia |]. intros j Hj. rewrite step_shift, same_iff.
      specialize (H (- j) ltac:(lia)). rewrite placed_other in H by (apply Hne; lia). exact H. }
    assert (4 - o <= R).
    { apply run_ge; [change (Z.of_nat 4) with 4; lia |]. intros j Hj. rewrite step_shift, same_iff.
      specialize (H j ltac:(lia)). rewrite placed_other in H by (apply Hne; lia). exact H. }
    lia.
Qed.
Lemma five_through_neg s b c p d : five_through s b c p d -> five_through s b c p (negd d).
Proof.
  intros (o & Ho & H). exists (4 - o). split; [lia |]. intros k Hk. rewrite shift_neg. apply H. lia.
Qed.
Lemma five_through_five s b c p d : direction d -> five_through s b c p d -> five s b c.
Proof.
  intros Hd (o & Ho & H). exists (shift p d (- o)), d. split; [auto |]. intros k Hk. rewrite shift_shift. apply H. lia.
Qed.
(** a row that was not there before goes through the new stone *)
Lemma five_new s b c p : five s (placed b p c) c -> five s b c \/ exists d, direction d /\ five_through s (placed b p c) c p d.
Proof.
  intros (q & d & Hd & H).
  assert (D : (exists k, 0 <= k <= 4 /\ shift q d k = p) \/ forall k, 0 <= k <= 4 -> shift q d k <> p).
  { destruct (pos_dec (shift q d 0) p); [left; exists 0; split; [lia | auto] |].
    destruct (pos_dec (shift q d 1) p); [left; exists 1; split; [lia | auto] |].
    destruct (pos_dec (shift q d 2) p); [left; exists 2; split; [lia | auto] |].
    destruct (pos_dec (shift q d 3) p); [left; exists 3; split; [lia | auto] |].
    destruct (pos_dec (shift q d 4) p); [left; exists 4; split; [lia | auto] |].
    right. intros k Hk. assert (k = 0 \/ k = 1 \/ k = 2 \/ k = 3 \/ k = 4) as [-> | [-> | [-> | [-> | ->]]]] by lia; auto. }
  destruct D as [(k & Hk & Ek) | D].
  - right. exists d. split; [auto |]. exists k. split; [lia |]. intros j Hj. subst p. rewrite shift_shift. apply H. lia.
  - left. exists q, d. split; [auto |]. intros k Hk. specialize (H k Hk). rewrite placed_other in H by auto. exact H.
Qed.

Lemma fiveRow_iff s b c p : on_board s p ->
  fiveRow s b c p = true <-> exists d, direction d /\ five_through s (placed b p c) c p d.
Proof.
  intros Hp. unfold fiveRow. rewrite existsb_exists. split.
  - intros (d & Hin & H). pose proof (dirs_direction d Hin) as Hd. exists d. split; [auto |]. apply Z.leb_le in H. now apply found_iff.
  - intros (d & Hd & H). destruct (direction_cases d Hd) as [Hin | Hin].
    + exists d. split; [auto |]. apply Z.leb_le. now apply found_iff.
    + exists (negd d). split; [auto |]. apply Z.leb_le. apply found_iff; auto using dirs_direction. now apply five_through_neg.
Qed.
(** on a board without a row, the test is exactly "there is one after the move" *)
Lemma fiveRow_five s b c p : on_board s p -> ~ five s b c -> fiveRow s b c p = true <-> five s (placed b p c) c.
Proof.
  intros Hp Hn. rewrite fiveRow_iff by auto. split.
  - intros (d & Hd & H). eapply five_through_five; eauto.
  - intros H. apply five_new in H as [H | H]; [contradiction | auto].
Qed.
Lemma placed_other_color s b c c' p : c' <> c -> five s (placed b p c) c' -> five s b c'.
Proof.
  intros Hc (q & d & Hd & H). exists q, d. split; [auto |]. intros k Hk. specialize (H k Hk) as [H1 H2]. split; [auto |].
  unfold placed in H2. destruct (pos_eqb _ _); [congruence | auto].
Qed.

(** ** Counting *)
Lemma zrange_In n i : In i (zrange n) <-> 0 <= i < n.
Proof.
  unfold zrange. rewrite in_map_iff. split.
  - intros (k & <- & H). apply in_seq in H. lia.
  - intros H. exists (Z.to_nat i). split; [lia | apply in_seq; lia].
Qed.
Lemma zrange_NoDup n : NoDup (zrange n).
Proof. apply FinFun.Injective_map_NoDup; [intros x y; lia | apply seq_NoDup]. Qed.
Lemma zrange_length n : 0 <= n -> Z.of_nat (length (zrange n)) = n.
Proof. intros H. unfold zrange. rewrite map_length, seq_length. lia. Qed.
Lemma iterPos_In s p : In p (iterPos s) <-> on_board s p.
Proof. destruct p as [x y]. unfold iterPos, on_board. pose proof (in_prod_iff (zrange (fst s)) (zrange (snd s)) x y) as E. rewrite !zrange_In in E. exact E. Qed.
Lemma list_prod_NoDup {A B} (l : list A) (m : list B) : NoDup l -> NoDup m -> NoDup (list_prod l m).
Proof.
  intros Hl Hm. induction Hl as [|x l Hx Hl IH]; cbn; [apply NoDup_nil |].
  assert (E : forall a b, NoDup a -> NoDup b -> (forall z : A * B, In z a -> ~ In z b) -> NoDup (a ++ b)).
  { intros a. induction a as [|z a IHa]; cbn; intros b Ha Hb D; [auto |]. inversion Ha; subst. constructor.
    - rewrite in_app_iff. intros [?|?]; [contradiction | apply (D z); auto].
    - apply IHa; auto. }
  apply E; auto.
  - clear -Hm. induction Hm; cbn; constructor; auto. rewrite in_map_iff. intros (z & [= ->] & ?). contradiction.
  - intros [u v]. rewrite in_map_iff, in_prod_iff. intros (z & [= <- <-] & _) []. contradiction.
Qed.
Lemma iterPos_NoDup s : NoDup (iterPos s).
Proof. apply list_prod_NoDup; apply zrange_NoDup. Qed.
Lemma iterPos_length s : 0 <= fst s -> 0 <= snd s -> Z.of_nat (length (iterPos s)) = fst s * snd s.
Proof. intros. unfold iterPos. etransitivity; [apply f_equal, (prod_length (zrange (fst s)) (zrange (snd s))) |]. rewrite Nat2Z.inj_mul, !zrange_length; auto. Qed.

Definition occ (b : board) (p : pos) : bool := match b p with Empty => false | _ => true end.
Definition nocc (b : board) (l : list pos) : Z := Z.of_nat (length (filter (occ b) l)).
Lemma occupied_nocc s b : occupied s b = nocc b (iterPos s).
Proof. reflexivity. Qed.
Lemma nocc_cons b p l : nocc b (p :: l) = (if occ b p then 1 else 0) + nocc b l.
Proof. unfold nocc. cbn [filter]. destruct (occ b p); cbn [length]; lia. Qed.
Lemma nocc_ext b b' l : (forall p, In p l -> occ b p = occ b' p) -> nocc b l = nocc b' l.
Proof.
  induction l as [|p l IH]; intros H; [reflexivity |]. rewrite !nocc_cons, IH by (intros; apply H; right; auto).
  now rewrite H by (left; auto).
Qed.
Definition b2z (x : bool) : Z := if x then 1 else 0.
(** changing one point changes the count by that point only *)
Lemma nocc_bset b p x l : NoDup l -> In p l ->
  nocc (bset b p x) l = nocc b l - b2z (occ b p) + b2z (occ (bset b p x) p).
Proof.
  induction l as [|q l IH]; intros Hnd Hin; [destruct Hin |]. inversion Hnd; subst. rewrite !nocc_cons. destruct Hin as [-> | Hin].
  - rewrite (nocc_ext (bset b p x) b l).
    + unfold b2z. destruct (occ b p), (occ (bset b p x) p); lia.
    + intros q Hq. unfold occ. rewrite bset_other by (intros ->; contradiction). reflexivity.
  - rewrite IH by auto. unfold occ at 1. rewrite bset_other by (intros ->; contradiction). fold (occ b q). lia.
Qed.
Lemma nocc_full s b : (forall p, on_board s p -> b p <> Empty) <-> nocc b (iterPos s) = Z.of_nat (length (iterPos s)).
Proof.
  assert (G : forall l, nocc b l <= Z.of_nat (length l)).
  { induction l as [|p l IH]; [cbn; lia |]. rewrite nocc_cons. cbn [length]. destruct (occ b p); lia. }
  assert (F : forall l, (forall p, In p l -> b p <> Empty) <-> nocc b l = Z.of_nat (length l)).
  { induction l as [|p l IH]; [split; [reflexivity | intros _ p []] |]. rewrite nocc_cons. cbn [length]. split.
    - intros H. rewrite (proj1 IH) by (intros; apply H; right; auto). specialize (H p (or_introl eq_refl)). unfold occ. destruct (b p); try congruence; lia.
    - intros H. specialize (G l). unfold occ in H. intros q [<- | Hq].
      + destruct (b p); try discriminate. lia.
      + apply IH; auto. destruct (b p); lia. }
  rewrite <- F. split; intros H p Hp; apply H; now apply iterPos_In.
Qed.

(** ** Gomoku *)
(** a game played so far with legal moves only, not yet over *)
Record gomoku_inv (s : size) (g : game) : Prop := {
  gi_und : g_winner g = Undecided;
  gi_five : forall c, ~ five s (g_b g) c;
  gi_marks : forall p, g_b g p <> Mark;
  gi_count : occupied s (g_b g) = g_moves g }.

Lemma empty_no_five s c : ~ five s (fun _ => Empty) c.
Proof. intros (q & d & _ & H). destruct (H 0) as [_ E]; [lia | discriminate]. Qed.
Lemma nocc_empty l : nocc (fun _ => Empty) l = 0.
Proof. induction l as [|p l IH]; [reflexivity |]. rewrite nocc_cons, IH. reflexivity. Qed.
Lemma gomoku_reset_inv s : gomoku_inv s gomoku_reset.
Proof.
  constructor; cbn; auto; [apply empty_no_five | congruence |]. rewrite occupied_nocc. apply nocc_empty.
Qed.

Lemma occupied_placed s b p c : on_board s p -> b p = Empty -> occupied s (placed b p c) = occupied s b + 1.
Proof.
  intros Hp He. rewrite !occupied_nocc. change (placed b p c) with (bset b p (Stone c)).
  rewrite nocc_bset by (auto using iterPos_NoDup; now apply iterPos_In).
  unfold occ. rewrite He, bset_same. cbn. lia.
Qed.
Lemma full_count s b : 0 <= fst s -> 0 <= snd s -> (full s b <-> occupied s b = fst s * snd s).
Proof. intros H1 H2. unfold full. rewrite nocc_full, <- iterPos_length by auto. reflexivity. Qed.

(** What a move does, in the words of the specification. *)
Lemma gomoku_move_spec s g c p : 0 <= fst s -> 0 <= snd s -> gomoku_inv s g -> on_board s p ->
  (g_b g p <> Empty ->
     gomoku_move s g c p = ({| g_b := g_b g; g_moves := g_moves g + 1; g_winner := Undecided |}, Ok false)) /\
  (g_b g p = Empty ->
     exists g', gomoku_move s g c p = (g', Ok true) /\
       (g_winner g' = Winner c <-> five s (placed (g_b g) p c) c) /\
       (g_winner g' = Draw <-> full s (placed (g_b g) p c) /\ ~ five s (placed (g_b g) p c) c) /\
       g_winner g' <> Winner (opp c) /\
       (g_winner g' = Undecided -> gomoku_inv s g') /\
       g_b g' p = (match g_winner g' with Winner _ => Mark | _ => Stone c end) /\
       forall q, q <> p -> g_b g' q = g_b g q).
Proof.
  intros Hs1 Hs2 [Hund Hfive Hmark Hcnt] Hp. unfold gomoku_move, isLegal. rewrite (proj2 (in_range_iff s p) Hp). split.
  - intros He. destruct (cell_eqb (g_b g p) Empty) eqn:E; [apply cell_eqb_iff in E; contradiction |]. now rewrite Hund.
  - intros He. rewrite (proj2 (cell_eqb_iff _ _) He).
    pose proof (fiveRow_five s (g_b g) c p Hp (Hfive c)) as F.
    pose proof (occupied_placed s (g_b g) p c Hp He) as O. pose proof (full_count s (placed (g_b g) p c) Hs1 Hs2) as FC.
    destruct (fiveRow s (g_b g) c p) eqn:E5; eexists; (split; [reflexivity |]); cbn [g_winner g_b g_moves].
    + assert (five s (placed (g_b g) p c) c) by now apply F.
      repeat split; try tauto; try (intros; discriminate); try (intros; exfalso; tauto).
      * intros [= E]. destruct c; discriminate.
      * apply bset_same.
      * intros q Hq. now apply bset_other.
    + assert (N : ~ five s (placed (g_b g) p c) c) by (intros H; apply F in H; discriminate).
      rewrite Hund. destruct (g_moves g + 1 =? fst s * snd s) eqn:EM; [apply Z.eqb_eq in EM | apply Z.eqb_neq in EM].
      * repeat split; try tauto; try (intros; discriminate); try (intros; exfalso; tauto).
        -- apply FC. lia.
        -- apply bset_same.
        -- intros q Hq. now apply bset_other.
      * assert (~ full s (placed (g_b g) p c)) by (rewrite FC; lia).
        repeat split; try tauto; try (intros; discriminate); cbn [g_winner g_b g_moves]; try tauto.
        -- intros c'. change (bset (g_b g) p (Stone c)) with (placed (g_b g) p c).
           destruct c, c'; auto; intros H'; eapply Hfive, placed_other_color; eauto; discriminate.
        -- intros q. change (bset (g_b g) p (Stone c)) with (placed (g_b g) p c). unfold placed. destruct (pos_eqb q p); [discriminate | apply Hmark].
        -- change (bset (g_b g) p (Stone c)) with (placed (g_b g) p c). lia.
        -- apply bset_same.
        -- intros q Hq. now apply bset_other.
Qed.
