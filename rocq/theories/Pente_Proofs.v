(** Pente: captures are exactly the flanked pairs; stone counts. *)
From Verif Require Import Base Games_Model Games_Spec Games_Proofs.
From Coq Require Import Lia.
Local Open Scope Z_scope.

Definition ray (s : size) (b : board) (c : color) (p d : pos) : list pos := kill_ray s b c p d 1.
Definition dirs8 : list pos := flat_map (fun d => [negd d; d]) dirs.
Lemma kill_ray_neg s b c p d : kill_ray s b c p d (-1) = ray s b c p (negd d).
Proof.
  unfold ray, kill_ray.
  assert (E : forall k, step p (negd d) (k * 1) = step p d (k * -1)) by (intros k; unfold step, negd; cbn [fst snd]; f_equal; lia).
  now rewrite !E.
Qed.
Lemma killsWhich_rays s b c p : killsWhich s b c p = flat_map (ray s b c p) dirs8.
Proof.
  unfold killsWhich, dirs8, dirs. cbn [flat_map app]. rewrite !kill_ray_neg, !app_nil_r, <- !app_assoc. reflexivity.
Qed.
Lemma dirs8_iff d : In d dirs8 <-> direction d.
Proof.
  unfold dirs8. rewrite in_flat_map. split.
  - intros (e & He & [<- | [<- | []]]); [| now apply dirs_direction]. apply dirs_direction in He as (H1 & H2 & H3).
    destruct e as [x y]. repeat split; cbn in *; try lia. intros [= A B]. apply H3. f_equal; lia.
  - intros H. destruct (direction_cases d H) as [Hin | Hin]; [exists d; split; [auto | right; left; auto] |].
    exists (negd d). split; [auto |]. left. destruct d as [x y]. unfold negd. cbn [fst snd]. f_equal; lia.
Qed.
Lemma dirs8_NoDup : NoDup dirs8.
Proof. unfold dirs8, dirs, negd. cbn. repeat (constructor; [cbn; intuition congruence |]). apply NoDup_nil. Qed.

Definition flanked (s : size) (b : board) (c : color) (p d : pos) : Prop :=
  on_board s (shift p d 1) /\ b (shift p d 1) = Stone (opp c) /\
  on_board s (shift p d 2) /\ b (shift p d 2) = Stone (opp c) /\
  on_board s (shift p d 3) /\ b (shift p d 3) = Stone c.
Lemma ray_spec s b c p d :
  (flanked s b c p d /\ ray s b c p d = [shift p d 1; shift p d 2]) \/ (~ flanked s b c p d /\ ray s b c p d = []).
Proof.
  unfold ray, kill_ray, flanked. rewrite !Z.mul_1_r, !step_shift, <- !in_range_iff, <- !cell_eqb_iff.
  destruct (in_range s (shift p d 1)), (cell_eqb (b (shift p d 1)) (Stone (opp c))), (in_range s (shift p d 2)),
    (cell_eqb (b (shift p d 2)) (Stone (opp c))), (in_range s (shift p d 3)), (cell_eqb (b (shift p d 3)) (Stone c)); cbn; intuition congruence.
Qed.
Lemma killsWhich_iff s b c p q : In q (killsWhich s b c p) <-> captured_by s b c p q.
Proof.
  rewrite killsWhich_rays, in_flat_map. unfold captured_by. split.
  - intros (d & Hd & H). exists d. split; [now apply dirs8_iff |].
    destruct (ray_spec s b c p d) as [[F E] | [F E]]; rewrite E in H; [| destruct H]. unfold flanked in F. destruct H as [<- | [<- | []]]; tauto.
  - intros (d & Hd & F). exists d. split; [now apply dirs8_iff |].
    destruct (ray_spec s b c p d) as [[F' E] | [F' E]]; rewrite E; [| exfalso; apply F'; unfold flanked; tauto].
    destruct F as (_ & _ & _ & _ & _ & _ & [-> | ->]); cbn; auto.
Qed.
Lemma shift_dir_inj p d d' k k' : direction d -> direction d' -> 1 <= k <= 2 -> 1 <= k' <= 2 -> shift p d k = shift p d' k' -> d = d' /\ k = k'.
Proof.
  intros Hd Hd' Hk Hk' [= E1 E2]. apply dirs8_iff in Hd, Hd'.
  assert (k = 1 \/ k = 2) as [-> | ->] by lia; assert (k' = 1 \/ k' = 2) as [-> | ->] by lia;
  repeat (destruct Hd as [<- | Hd]); try destruct Hd; repeat (destruct Hd' as [<- | Hd']); try destruct Hd'; cbn in E1, E2; split; auto; exfalso; lia.
Qed.
Lemma NoDup_flat_map {A B} (f : A -> list B) (l : list A) : NoDup l -> (forall x, In x l -> NoDup (f x)) ->
  (forall x y z, In x l -> In y l -> In z (f x) -> In z (f y) -> x = y) -> NoDup (flat_map f l).
Proof.
  induction l as [|x l IH]; intros Hl Hf Hd; cbn; [apply NoDup_nil |]. inversion Hl; subst.
  assert (E : forall a b : list B, NoDup a -> NoDup b -> (forall z, In z a -> ~ In z b) -> NoDup (a ++ b)).
  { intros a. induction a as [|z a IHa]; cbn; intros b Ha Hb D; [auto |]. inversion Ha; subst. constructor.
    - rewrite in_app_iff. intros [?|?]; [contradiction | apply (D z); auto].
    - apply IHa; auto. }
  apply E.
  - apply Hf; left; auto.
  - apply IH; auto; intros; [apply Hf; right; auto | eapply Hd; eauto; right; auto].
  - intros z Hz Hz'. apply in_flat_map in Hz' as (y & Hy & Hz'). assert (x = y) by (apply (Hd x y z); auto; [left; auto | right; auto]). subst. contradiction.
Qed.
Lemma ray_In s b c p d q : In q (ray s b c p d) -> exists k, 1 <= k <= 2 /\ q = shift p d k.
Proof.
  destruct (ray_spec s b c p d) as [[_ ->] | [_ ->]]; [| intros []]. intros [<- | [<- | []]]; [exists 1 | exists 2]; split; auto; lia.
Qed.
Lemma killsWhich_NoDup s b c p : NoDup (killsWhich s b c p).
Proof.
  rewrite killsWhich_rays. apply NoDup_flat_map; [apply dirs8_NoDup | |].
  - intros d Hd. apply dirs8_iff in Hd. destruct (ray_spec s b c p d) as [[_ ->] | [_ ->]]; [| apply NoDup_nil].
    constructor; [| constructor; [intros [] | apply NoDup_nil]]. intros [E | []]. apply shift_inj in E; auto; lia.
  - intros d d' q Hd Hd' H H'. apply dirs8_iff in Hd, Hd'. apply ray_In in H as (k & Hk & ->). apply ray_In in H' as (k' & Hk' & E).
    apply shift_dir_inj in E; tauto.
Qed.
Lemma killsWhich_even s b c p : exists n, length (killsWhich s b c p) = (2 * n)%nat.
Proof.
  rewrite killsWhich_rays. induction dirs8 as [|d l (n & IH)]; [exists 0%nat; reflexivity |]. cbn [flat_map]. rewrite app_length, IH.
  destruct (ray_spec s b c p d) as [[_ ->] | [_ ->]]; [exists (S n) | exists n]; cbn [length]; lia.
Qed.
Lemma clear_spec : forall l b q, (In q l -> clear b l q = Empty) /\ (~ In q l -> clear b l q = b q).
Proof.
  induction l as [|x l IH]; intros b q; [split; [intros [] | reflexivity] |].
  change (clear b (x :: l)) with (clear (bset b x Empty) l). destruct (IH (bset b x Empty) q) as [I1 I2].
  assert (D : In q l \/ ~ In q l) by (destruct (in_dec pos_dec q l); auto).
  split.
  - intros [-> | H]; [| auto]. destruct D as [D | D]; [auto |]. rewrite I2 by auto. apply bset_same.
  - intros H. rewrite I2 by (intros ?; apply H; right; auto). apply bset_other. intros ->. apply H. left; auto.
Qed.
Lemma clear_count s : forall l b, NoDup l -> (forall q, In q l -> on_board s q /\ occ b q = true) ->
  occupied s (clear b l) = occupied s b - Z.of_nat (length l).
Proof.
  induction l as [|x l IH]; intros b Hnd H; [cbn; lia |]. inversion Hnd; subst.
  change (clear b (x :: l)) with (clear (bset b x Empty) l). rewrite IH; auto.
  - rewrite !occupied_nocc, nocc_bset by (auto using iterPos_NoDup; apply iterPos_In, H; left; auto).
    rewrite (proj2 (H x (or_introl eq_refl))). unfold occ. rewrite bset_same. cbn [b2z length]. lia.
  - intros q Hq. destruct (H q (or_intror Hq)) as [Ha Hb]. split; [auto |]. unfold occ. rewrite bset_other by (intros ->; contradiction). exact Hb.
Qed.

Record pente_inv (s : size) (g : pente) : Prop := {
  pi_und : g_winner (p_game g) = Undecided;
  pi_five : forall c, ~ five s (g_b (p_game g)) c;
  pi_marks : forall p, g_b (p_game g) p <> Mark;
  pi_pairs : forall c, 0 <= p_pairs g c < 5;
  pi_count : occupied s (g_b (p_game g)) = g_moves (p_game g) - 2 * (p_pairs g Black + p_pairs g White) }.

Lemma killsWhich_empty s c p : killsWhich s (fun _ => Empty) c p = [].
Proof.
  rewrite killsWhich_rays. induction dirs8 as [|d l IH]; cbn [flat_map]; [reflexivity |]. rewrite IH, app_nil_r.
  destruct (ray_spec s (fun _ => Empty) c p d) as [[F ->] | [F ->]]; [| reflexivity]. destruct F as (_ & E & _). discriminate.
Qed.
Lemma pente_reset_inv s : 5 <= fst s -> 5 <= snd s -> pente_inv s (pente_reset s).
Proof.
  intros H1 H2. unfold pente_reset. rewrite killsWhich_empty. cbn.
  set (ctr := (fst s / 2, snd s / 2)). change (bset (fun _ => Empty) ctr (Stone White)) with (placed (fun _ => Empty) ctr White).
  assert (Hc : on_board s ctr).
  { unfold on_board, ctr. cbn [fst snd]. pose proof (Z.div_lt_upper_bound (fst s) 2 (fst s)). pose proof (Z.div_lt_upper_bound (snd s) 2 (snd s)).
    pose proof (Z.div_pos (fst s) 2). pose proof (Z.div_pos (snd s) 2). lia. }
  constructor; cbn; auto.
  - intros c (q & d & Hd & F). destruct (F 0) as [_ E0]; [lia |]. destruct (F 1) as [_ E1]; [lia |].
    unfold placed in E0, E1. destruct (pos_eqb (shift q d 0) ctr) eqn:A; [| discriminate]. destruct (pos_eqb (shift q d 1) ctr) eqn:B; [| discriminate].
    apply pos_eqb_iff in A, B. rewrite <- B in A. apply shift_inj in A; [lia | auto].
  - intros p. unfold placed. destruct (pos_eqb p ctr); discriminate.
  - intros []; cbn; lia.
  - rewrite occupied_placed by auto. rewrite occupied_nocc, nocc_empty. reflexivity.
Qed.

Lemma pente_move_spec s g c p : 5 <= fst s -> 5 <= snd s -> pente_inv s g -> on_board s p -> g_b (p_game g) p = Empty ->
  exists g' l, pente_move s g c p = (g', Ok true) /\ NoDup l /\ (forall q, In q l <-> captured_by s (g_b (p_game g)) c p q) /\
    Nat.Even (length l) /\
    let won := five s (placed (g_b (p_game g)) p c) c \/ 5 <= p_pairs g c + Z.of_nat (length l) / 2 in
    (g_winner (p_game g') = Winner c <-> won) /\
    g_winner (p_game g') <> Winner (opp c) /\
    (g_winner (p_game g') = Draw <-> ~ won /\ full s (g_b (p_game g'))) /\
    (~ won ->
       g_b (p_game g') p = Stone c /\
       (forall q, In q l -> g_b (p_game g') q = Empty) /\
       (forall q, q <> p -> ~ In q l -> g_b (p_game g') q = g_b (p_game g) q) /\
       p_pairs g' c = p_pairs g c + Z.of_nat (length l) / 2 /\ p_pairs g' (opp c) = p_pairs g (opp c) /\
       occupied s (g_b (p_game g')) = g_moves (p_game g') - 2 * (p_pairs g' Black + p_pairs g' White)) /\
    g_moves (p_game g') = g_moves (p_game g) + 1 /\
    (g_winner (p_game g') = Undecided -> pente_inv s g').
Proof.
  intros Hs1 Hs2 [Hund Hfive Hmark Hpairs Hcnt] Hp He. set (b := g_b (p_game g)) in *.
  pose proof (fiveRow_five s b c p Hp (Hfive c)) as F5.
  set (l := killsWhich s b c p) in *. pose proof (killsWhich_NoDup s b c p) as Hnd. fold l in Hnd.
  pose proof (killsWhich_iff s b c p) as Hl. fold l in Hl. destruct (killsWhich_even s b c p) as (n & Hn). fold l in Hn.
  assert (Hdiv : Z.of_nat (length l) / 2 = Z.of_nat n) by (rewrite Hn; replace (Z.of_nat (2 * n)) with (Z.of_nat n * 2) by lia; apply Z.div_mul; lia).
  assert (Hpl : ~ In p l).
  { rewrite Hl. intros (d & Hd & _ & _ & _ & _ & _ & _ & [E | E]); rewrite <- (shift_0 p d) in E at 1; apply shift_inj in E; auto; lia. }
  unfold pente_move. fold b. unfold isLegal. rewrite (proj2 (in_range_iff s p) Hp), (proj2 (cell_eqb_iff _ _) He). fold l.
  destruct (fiveRow s b c p) eqn:E5.
  { assert (five s (placed b p c) c) by now apply F5.
    eexists; exists l. split; [reflexivity |]. cbn. repeat split; auto; try (now exists n); try (apply Hl); try (intros; discriminate); try (intros; exfalso; tauto); try tauto.
    intros [= E]. destruct c; discriminate. }
  assert (N5 : ~ five s (placed b p c) c) by (intros H; apply F5 in H; discriminate).
  destruct (5 <=? p_pairs g c + Z.of_nat (length l) / 2) eqn:EP; [apply Z.leb_le in EP | apply Z.leb_gt in EP].
  { eexists; exists l. split; [reflexivity |]. cbn -[Z.div Z.mul]. repeat split; auto; try (now exists n); try (apply Hl); try (intros; discriminate); try (intros; exfalso; tauto); try tauto.
    intros [= E]. destruct c; discriminate. }
  set (b' := clear (bset b p (Stone c)) l).
  assert (Hb'p : b' p = Stone c) by (unfold b'; rewrite (proj2 (clear_spec l _ p)) by auto; apply bset_same).
  assert (Hb'l : forall q, In q l -> b' q = Empty) by (intros q Hq; now apply clear_spec).
  assert (Hb'o : forall q, q <> p -> ~ In q l -> b' q = b q) by (intros q Hq Hq'; unfold b'; rewrite (proj2 (clear_spec l _ q)) by auto; now apply bset_other).
  assert (Hocc : occupied s b' = occupied s b + 1 - 2 * Z.of_nat n).
  { unfold b'. change (bset b p (Stone c)) with (placed b p c). rewrite clear_count; auto.
    - rewrite occupied_placed, Hn by auto. lia.
    - intros q Hq. assert (q <> p) by (intros ->; contradiction). apply Hl in Hq. unfold occ. rewrite placed_other by auto.
      destruct Hq as (d & _ & H1 & H2 & H3 & H4 & _ & _ & [-> | ->]); [rewrite H2 | rewrite H4]; auto. }
  assert (Hsub : forall c', ~ five s b' c').
  { intros c' H. assert (H' : five s (placed b p c) c').
    { destruct H as (q & d & Hd & H). exists q, d. split; [auto |]. intros k Hk. specialize (H k Hk) as [H1 H2]. split; [auto |].
      destruct (in_dec pos_dec (shift q d k) l) as [Hi | Hi]; [rewrite Hb'l in H2 by auto; discriminate |].
      destruct (pos_dec (shift q d k) p) as [Eq | Eq]; [rewrite Eq in *; rewrite placed_same; rewrite Hb'p in H2; auto |].
      rewrite placed_other by auto. rewrite Hb'o in H2; auto. }
    destruct c, c'; auto; eapply Hfive, placed_other_color; eauto; discriminate. }
  pose proof (full_count s b' ltac:(lia) ltac:(lia)) as FC.
  assert (Hpp : pairs_add (p_pairs g) c (Z.of_nat (length l) / 2) Black + pairs_add (p_pairs g) c (Z.of_nat (length l) / 2) White
    = p_pairs g Black + p_pairs g White + Z.of_nat n) by (rewrite Hdiv; destruct c; cbn; lia).
  assert (Hpc : pairs_add (p_pairs g) c (Z.of_nat (length l) / 2) c = p_pairs g c + Z.of_nat (length l) / 2) by (destruct c; reflexivity).
  assert (Hpo : pairs_add (p_pairs g) c (Z.of_nat (length l) / 2) (opp c) = p_pairs g (opp c)) by (destruct c; reflexivity).
  eexists; exists l. split; [reflexivity |]. unfold pente_set. cbn [fst snd p_game p_pairs g_b g_moves g_winner]. fold b'.
  rewrite Hund. cbv zeta. rewrite Hpp.
  destruct (g_moves (p_game g) + 1 =? fst s * snd s + 2 * (p_pairs g Black + p_pairs g White + Z.of_nat n)) eqn:EM; [apply Z.eqb_eq in EM | apply Z.eqb_neq in EM].
  - assert (full s b') by (apply FC; lia).
    repeat split; auto; try (now exists n); try (apply Hl); try (intros; discriminate); try tauto; try lia; try (intros [?|?]; [contradiction | lia]);
      try (intros; exfalso; intuition lia).
  - assert (~ full s b') by (rewrite FC; lia).
    repeat split; auto; try (now exists n); try (apply Hl); try (intros; discriminate); try tauto; try lia; try (intros [?|?]; [contradiction | lia]);
      try (intros; exfalso; intuition lia); cbn [p_game p_pairs g_b g_moves g_winner]; auto; try (rewrite Hpp); try lia.
    + intros q Hq. destruct (in_dec pos_dec q l) as [Hi | Hi]; [rewrite Hb'l in Hq by auto; discriminate |].
      destruct (pos_dec q p) as [-> |]; [rewrite Hb'p in Hq; discriminate | rewrite Hb'o in Hq by auto; now apply (Hmark q)].
    + rewrite Hdiv in EP; rewrite Hdiv; unfold pairs_add; destruct c, c0; pose proof (Hpairs Black); pose proof (Hpairs White); lia.
    + rewrite Hdiv in EP; rewrite Hdiv; unfold pairs_add; destruct c, c0; pose proof (Hpairs Black); pose proof (Hpairs White); lia.
Qed.
