(** The players that follow a rule, and the end of the games. *)
From Coq Require Import Relations.
From Verif Require Import Base Games_Model Games_Spec Games_Proofs Capture_Model Capture_Spec Capture_Proofs Capture_Inv Capture_Rules Capture_Props Games_Props Duel_Model Duel_Spec Players_Model Players_Spec.
Local Open Scope Z_scope.

Lemma choice_equal {X} (P : X -> Prop) (l : list X) : NoDup l -> l <> [] -> (forall x, In x l <-> P x) -> equal_chances P (choice l).
Proof.
  intros ND NE H. assert (L : (0 < length l)%nat) by (destruct l; [congruence | cbn; lia]).
  assert (E : forall i, exists x, choice l i = Ok x /\ nth_error l (i mod length l) = Some x).
  { intros i. unfold choice. assert (B : (i mod length l < length l)%nat) by (apply Nat.mod_upper_bound; lia).
    destruct (nth_error l (i mod length l)) as [x|] eqn:E; [eauto |]. apply nth_error_None in E. lia. }
  exists (length l). split; [exact L |]. split; [| split; [| split]].
  - intros i. destruct (E i) as (x & E1 & E2). exists x. split; [exact E1 |]. apply H. eapply nth_error_In; eauto.
  - intros x Px. apply H in Px. apply In_nth_error in Px as (i & Hi). assert (B : (i < length l)%nat) by (apply nth_error_Some; congruence).
    exists i. split; [exact B |]. unfold choice. rewrite Nat.mod_small, Hi by exact B. reflexivity.
  - intros i j Hi Hj. unfold choice. rewrite !Nat.mod_small by assumption. intros K. apply (proj1 (NoDup_nth_error l) ND i j Hi).
    destruct (nth_error l i) eqn:E1, (nth_error l j) eqn:E2; congruence.
  - intros i. unfold choice. replace (i + length l)%nat with (i + 1 * length l)%nat by lia. rewrite Nat.mod_add by lia. reflexivity.
Qed.
Lemma filterM_NoDup f : forall l r, NoDup l -> filterM f l = Ok r -> NoDup r /\ forall x, In x r -> In x l.
Proof.
  induction l as [|x l IH]; cbn [filterM]; intros r ND E; [injection E as <-; split; [constructor | intros ? []] |].
  destruct (f x) as [k|]; cbn [rbind] in E; [| discriminate]. destruct (filterM f l) as [r'|]; cbn [rbind] in E; [| discriminate].
  apply NoDup_cons_iff in ND as [N1 N2]. destruct (IH r' N2 eq_refl) as [A B]. injection E as <-. destruct k.
  - split; [constructor; [intros K; apply N1, B, K | exact A] |]. intros y [-> | Hy]; [left; reflexivity | right; auto].
  - split; [exact A |]. intros y Hy. right. auto.
Qed.
Lemma legals_NoDup s b : NoDup (getLegals s b).
Proof. apply NoDup_filter, iterPos_NoDup. Qed.
Lemma legals_free s b p : In p (getLegals s b) <-> free s b p.
Proof. apply (C37_legals s b p). Qed.

(** an undecided position has an empty point *)
Lemma room n sd g : 1 <= n -> reach n sd g -> exists p, free (square n) (c_b g) p.
Proof.
  intros Hn R. destruct (reach_inv n sd g R) as (I & L & W).
  assert (H0 : on_board (square n) (0, 0)) by (unfold on_board; cbn; lia).
  destruct (c_b g (0, 0)) as [|c|] eqn:E.
  - exists (0, 0). split; assumption.
  - destruct (L (0, 0) c H0 E) as (e & A & B & _). exists e. split; assumption.
  - exfalso. exact (ci_mark n g I (0, 0) E).
Qed.
Lemma nonempty {X} (l : list X) (P : X -> Prop) : (forall x, In x l <-> P x) -> (exists x, P x) -> l <> [].
Proof. intros H (x & Hx) ->. apply H in Hx. exact Hx. Qed.

Lemma random_equal n sd g : 1 <= n -> reach n sd g -> equal_chances (free (square n) (c_b g)) (randomCapture n g).
Proof.
  intros Hn R. apply choice_equal; [apply legals_NoDup | | intros p; apply legals_free].
  eapply nonempty; [intros p; apply legals_free | eapply room; eauto].
Qed.
Lemma suggestions n sd g c : reach n sd g -> exists la lk, getAcceptable n g c = Ok la /\ getKilling n g c = Ok lk /\ NoDup la /\ NoDup lk /\
  (forall p, In p la <-> free (square n) (c_b g) p /\ ~ suicidal n (c_b g) c p) /\
  (forall p, In p lk <-> free (square n) (c_b g) p /\ captures n (c_b g) c p).
Proof.
  intros R. destruct (C36_suggestions n sd g c R) as (la & lk & E1 & E2 & H1 & H2). exists la, lk.
  assert (N1 : NoDup la) by (eapply filterM_NoDup; [apply legals_NoDup | exact E1]).
  assert (N2 : NoDup lk). { unfold getKilling in E2. rewrite E1 in E2. cbn [rbind] in E2. eapply filterM_NoDup; [exact N1 | exact E2]. }
  do 4 (split; [assumption |]). split.
  - intros p. rewrite H1. unfold free, suicidal, captures. tauto.
  - intros p. rewrite H2. unfold free, captures. tauto.
Qed.
Lemma choice_or {X} (l : list X) (d e : nat -> result X) : l <> [] -> (forall i, e i = if (0 <? length l)%nat then choice l i else d i) -> forall i, e i = choice l i.
Proof. intros NE H i. rewrite H. destruct l; [congruence | reflexivity]. Qed.
Lemma equal_ext {X} (P : X -> Prop) d e : (forall i, e i = d i) -> equal_chances P d -> equal_chances P e.
Proof.
  intros H (N & A & B & C & D & E). exists N. split; [exact A |]. split; [intros i; rewrite H; apply B |].
  split; [intros p Hp; destruct (C p Hp) as (i & Hi & Ei); exists i; rewrite H; auto |].
  split; [intros i j Hi Hj; rewrite !H; apply D; assumption | intros i; rewrite !H; apply E].
Qed.
Lemma nonSuicide_equal n sd g c : 1 <= n -> reach n sd g ->
  ((exists p, free (square n) (c_b g) p /\ ~ suicidal n (c_b g) c p) ->
     equal_chances (fun p => free (square n) (c_b g) p /\ ~ suicidal n (c_b g) c p) (nonSuicide n g c)) /\
  (~ (exists p, free (square n) (c_b g) p /\ ~ suicidal n (c_b g) c p) -> equal_chances (free (square n) (c_b g)) (nonSuicide n g c)).
Proof.
  intros Hn R. destruct (suggestions n sd g c R) as (la & lk & E1 & E2 & N1 & N2 & H1 & H2). split.
  - intros H. apply (equal_ext _ (choice la)).
    + intros i. unfold nonSuicide. rewrite E1. cbn [rbind]. destruct la; [exfalso; destruct H as (p & Hp); apply H1 in Hp; exact Hp | reflexivity].
    + apply choice_equal; [exact N1 | eapply nonempty; [exact H1 | exact H] | exact H1].
  - intros H. apply (equal_ext _ (randomCapture n g)).
    + intros i. unfold nonSuicide. rewrite E1. cbn [rbind]. destruct la as [|p la]; [reflexivity |]. exfalso. apply H. exists p. apply H1. left. reflexivity.
    + eapply random_equal; eauto.
Qed.
Lemma killing_equal n sd g c : 1 <= n -> reach n sd g ->
  ((exists p, free (square n) (c_b g) p /\ captures n (c_b g) c p) ->
     equal_chances (fun p => free (square n) (c_b g) p /\ captures n (c_b g) c p) (killing n g c)) /\
  (~ (exists p, free (square n) (c_b g) p /\ captures n (c_b g) c p) -> forall i, killing n g c i = nonSuicide n g c i).
Proof.
  intros Hn R. destruct (suggestions n sd g c R) as (la & lk & E1 & E2 & N1 & N2 & H1 & H2). split.
  - intros H. apply (equal_ext _ (choice lk)).
    + intros i. unfold killing. rewrite E2. cbn [rbind]. destruct lk; [exfalso; destruct H as (p & Hp); apply H2 in Hp; exact Hp | reflexivity].
    + apply choice_equal; [exact N2 | eapply nonempty; [exact H2 | exact H] | exact H2].
  - intros H i. unfold killing. rewrite E2. cbn [rbind]. destruct lk as [|p lk]; [reflexivity |]. exfalso. apply H. exists p. apply H2. left. reflexivity.
Qed.

(** no empty point is suicidal for both colours, unless it is the only point of the board *)
Lemma not_both n sd g p : 2 <= n -> reach n sd g -> free (square n) (c_b g) p ->
  suicidal n (c_b g) Black p -> suicidal n (c_b g) White p -> False.
Proof.
  intros Hn R [Hp He] SB SW. destruct (reach_inv n sd g R) as (I & L & W).
  assert (Q : exists q, In q (neighbors n p)).
  { unfold on_board, square in Hp. cbn in Hp. destruct (snd p <? n - 1) eqn:E.
    - exists (fst p, snd p + 1). unfold neighbors. rewrite E. left. reflexivity.
    - apply Z.ltb_ge in E. exists (fst p, snd p - 1). unfold neighbors. destruct (0 <? snd p) eqn:E2; [| apply Z.ltb_ge in E2; lia].
      apply in_or_app. right. left. reflexivity. }
  destruct Q as (q & Hq).
  assert (G : forall c, suicidal n (c_b g) c p -> suicidal n (c_b g) (opp c) p -> c_b g q = Stone c -> False).
  { intros c S1 S2 Eq. apply (proj2 S2). unfold captures.
    assert (O : opp (opp c) = c) by (destruct c; reflexivity). rewrite O.
    destruct (p_liberty n g p Hp He q c Hq Eq) as (A1 & A2 & A3). exists q. split; [exact A1 |].
    split; [rewrite placed_other by assumption; exact Eq |].
    assert (Eq' : c_b g q = Stone (opp (opp c))) by (rewrite O; exact Eq).
    destruct (enemy_one n g I (opp c) p Hp He q Hq Eq') as (k & Ek & Hk). apply Hk.
    destruct (friend_more n g I c p Hp He q Hq Eq) as (k' & Ek' & Hk'). rewrite Ek in Ek'. injection Ek' as <-.
    destruct (libcount_spec n g I q c A1 Eq) as (l & El & _ & Hl). rewrite Ek in El. injection El as ->.
    assert (1 <= Z.of_nat (length l)) by (destruct l; [apply Hl in A3; destruct A3 | cbn [length]; lia]).
    assert (~ (1 < Z.of_nat (length l))); [| lia]. intros K. apply Hk' in K as (e & K1 & K2).
    apply (proj1 S1). apply (alive_new n g I c p Hp He). right. exists q, e. auto. }
  destruct (c_b g q) as [|[]|] eqn:Eq.
  - apply (proj1 SB). apply (alive_new n g I Black p Hp He). left. exists q. auto.
  - exact (G Black SB SW eq_refl).
  - exact (G White SW SB eq_refl).
  - exact (ci_mark n g I q Eq).
Qed.
