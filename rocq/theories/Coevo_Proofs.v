From Coq Require Import QArith Qround Permutation Lia Sorting.Sorted Lqa.
From Verif Require Import Base StableSort Dict Coevo_Model Coevo_Spec.

(** ** shuffling *)
Lemma remove_nth_perm {A} (l : list A) i x : nth_error l i = Some x -> Permutation l (x :: remove_nth i l).
Proof.
  revert i. induction l as [|h t IH]; intros [|i] H; cbn [nth_error remove_nth] in *; try discriminate.
  - injection H as ->. reflexivity.
  - rewrite (IH i H) at 1. apply perm_swap.
Qed.
Lemma draw_all_perm {A} fuel (d : nat -> nat) (l : list A) : fuel = length l -> Permutation l (draw_all fuel d l).
Proof.
  revert d l. induction fuel as [|fuel IH]; intros d l E; cbn [draw_all].
  - destruct l; [reflexivity|discriminate].
  - destruct (nth_error l (d O mod length l)) as [x|] eqn:H.
    + pose proof (remove_nth_perm _ _ _ H) as Hp. rewrite Hp at 1. constructor. apply IH.
      apply Permutation_length in Hp. cbn [length] in Hp. lia.
    + exfalso. apply nth_error_None in H. assert (d O mod length l < length l) by (apply Nat.mod_upper_bound; lia). lia.
Qed.
Lemma shuffled_perm {A} d (l : list A) : Permutation l (shuffled d l).
Proof. apply draw_all_perm. reflexivity. Qed.

(** ** the result table *)
Lemma key_eqb_spec a b : Bool.reflect (a = b) (key_eqb a b).
Proof.
  unfold key_eqb. destruct a as [a1 a2], b as [b1 b2]. cbn [fst snd].
  destruct (Nat.eqb_spec a1 b1), (Nat.eqb_spec a2 b2); cbn [andb]; constructor; congruence.
Qed.
Lemma rget_rset k v t k' : rget k' (rset k v t) = if key_eqb k' k then Some v else rget k' t.
Proof.
  induction t as [|[a b] t IH]; cbn [rset rget].
  - destruct (key_eqb k' k); reflexivity.
  - destruct (key_eqb_spec k a) as [->|Hne]; cbn [rget].
    + destruct (key_eqb_spec k' a); reflexivity.
    + rewrite IH. destruct (key_eqb_spec k' a) as [->|]; auto.
      destruct (key_eqb_spec a k); auto. congruence.
Qed.

(** ** ledger *)
Definition entry_of (L : list game) (p q : nat) : option entry :=
  match scores L p q with
  | [] => None
  | l => Some {| e_won := wins l; e_total := length l; e_score := qsum l; e_list := l |}
  end.
Definition starts_of (L : list game) (p : nat) : option (list nat) := match started L p with [] => None | l => Some l end.
Lemma scores_app L M p q : scores (L ++ M) p q = scores L p q ++ scores M p q.
Proof. unfold scores. rewrite filter_app, map_app. reflexivity. Qed.
Lemma started_app L M p : started (L ++ M) p = started L p ++ started M p.
Proof. unfold started. rewrite filter_app, map_app. reflexivity. Qed.
Lemma scores_one p q r a b : scores [(p, q, r)] a b = if (Nat.eqb p a && Nat.eqb q b)%bool then [r] else [].
Proof. unfold scores. cbn [filter fst snd]. destruct (Nat.eqb p a && Nat.eqb q b)%bool; reflexivity. Qed.
Lemma started_one p q r a : started [(p, q, r)] a = if Nat.eqb p a then [q] else [].
Proof. unfold started. cbn [filter fst snd]. destruct (Nat.eqb p a); reflexivity. Qed.
Lemma wins_app l m : wins (l ++ m) = wins l + wins m.
Proof. unfold wins. rewrite filter_app, app_length. reflexivity. Qed.
Lemma qsum_snoc l x : qsum (l ++ [x]) = (qsum l + x)%Q.
Proof. unfold qsum. rewrite fold_left_app. reflexivity. Qed.
Lemma scores_met L p q : scores L p q <> [] <-> met L p q.
Proof.
  unfold scores, met. split.
  - intro H. set (F := filter (fun g : nat * nat * Q => (fst (fst g) =? p) && (snd (fst g) =? q)) L) in H. destruct F as [|g t] eqn:E; [exfalso; apply H; reflexivity|]. unfold F in E.
    assert (Hg : In g (g :: t)) by (left; reflexivity). rewrite <- E in Hg. apply filter_In in Hg. destruct Hg as [Hg Hb].
    apply andb_prop in Hb. destruct Hb as [H1 H2]. apply Nat.eqb_eq in H1, H2. destruct g as [[a b] r]. cbn [fst snd] in *. subst. eauto.
  - intros [r H] E. apply map_eq_nil in E.
    apply (@in_nil _ (p, q, r)). rewrite <- E. apply filter_In. split; auto. cbn [fst snd]. rewrite !Nat.eqb_refl. reflexivity.
Qed.
Lemma started_In L p q : In q (started L p) <-> met L p q.
Proof.
  unfold started, met. rewrite in_map_iff. split.
  - intros [[[a b] r] [E H]]. apply filter_In in H. destruct H as [H Hb]. cbn [fst snd] in *. apply Nat.eqb_eq in Hb. subst. eauto.
  - intros [r H]. exists (p, q, r). split; auto. apply filter_In. cbn [fst snd]. rewrite Nat.eqb_refl. auto.
Qed.
Lemma met_app L M p q : met (L ++ M) p q <-> met L p q \/ met M p q.
Proof. unfold met. split; [intros [r H]; apply in_app_or in H; destruct H; eauto|intros [[r H]|[r H]]; exists r; apply in_or_app; auto]. Qed.
Lemma rounds_pair L p q : rounds L -> length (scores L p q) = length (scores L q p).
Proof.
  induction 1 as [|L a b x y _ IH Hne]; [reflexivity|].
  rewrite !scores_app, !app_length, IH. f_equal. unfold scores. cbn [filter fst snd].
  destruct (Nat.eqb_spec a p), (Nat.eqb_spec b q), (Nat.eqb_spec a q), (Nat.eqb_spec b p); subst; cbn [andb filter map length]; try congruence; lia.
Qed.
Lemma rounds_met L p q : rounds L -> met L p q -> met L q p.
Proof.
  intros R H. apply scores_met. apply scores_met in H. intro E. apply H. pose proof (rounds_pair _ p q R) as Hl. rewrite E in Hl.
  destruct (scores L p q); auto; discriminate.
Qed.
Lemma rounds_irrefl L p : rounds L -> ~ met L p p.
Proof.
  induction 1 as [|L a b x y _ IH Hne]; intros [r Hr]; [destruct Hr|].
  apply in_app_or in Hr. destruct Hr as [Hr|[E|[E|[]]]]; [apply IH; exists r; auto| |]; congruence.
Qed.

Section S.
Context {P : Type} (ev : nat -> nat -> nat -> Q).
Notation st := (@st P).
(** the dictionaries are the ledger *)
Definition books (L : list game) (s : st) : Prop :=
  steps s = length L /\ (forall p q, rget (p, q) (results s) = entry_of L p q) /\ (forall p, dget p (opponents s) = starts_of L p).
Lemma relEval_books L s p q : books L s -> books (L ++ [(p, q, ev (steps s) p q)]) (relEval ev s p q).
Proof.
  intros (Hs & Hr & Ho). unfold relEval. set (r := ev (steps s) p q). split; [|split]; cbn [steps results opponents].
  - rewrite app_length, Hs. cbn [length]. lia.
  - intros a b. rewrite rget_rset, !Hr. unfold entry_of. rewrite scores_app, scores_one.
    destruct (key_eqb_spec (a, b) (p, q)) as [E|Hne].
    + injection E as -> ->. rewrite !Nat.eqb_refl. cbn [andb].
      destruct (scores L p q) as [|x l] eqn:El.
      * cbn [app e_won e_total e_score e_list length]. unfold wins. cbn [filter]. destruct (Qle_bool r 0); reflexivity.
      * cbn [e_won e_total e_score e_list].
        change ((x :: l) ++ [r]) with (x :: (l ++ [r])). cbv iota beta. change (x :: (l ++ [r])) with ((x :: l) ++ [r]).
        rewrite wins_app, qsum_snoc, app_length. f_equal. f_equal.
        -- change (wins [r]) with (length (if negb (Qle_bool r 0) then [r] else [])). destruct (Qle_bool r 0); cbn [negb length]; lia.
        -- cbn [length]. lia.
    + destruct (Nat.eqb_spec p a), (Nat.eqb_spec q b); cbn [andb]; try (subst; congruence); rewrite app_nil_r; reflexivity.
  - intro a. rewrite dget_dset, !Ho. unfold starts_of. rewrite started_app, started_one.
    rewrite (Nat.eqb_sym p a). destruct (Nat.eqb_spec a p) as [->|Hne].
    + destruct (started L p); reflexivity.
    + rewrite app_nil_r. reflexivity.
Qed.

(** ** what playing does *)
Inductive play : st -> list (nat * nat) -> st -> Prop :=
| play_nil s : play s [] s
| play_tick s n rs s' : play (tick n s) rs s' -> play s rs s'
| play_meet s p q rs s' : p <> q -> play (meet ev p s q) rs s' -> play s ((p, q) :: rs) s'.
Lemma play_app s rs s1 rs' s2 : play s rs s1 -> play s1 rs' s2 -> play s (rs ++ rs') s2.
Proof.
  induction 1 as [s|s n rs s1 _ IH|s p q rs s1 Hne _ IH]; intro H2; cbn [app]; auto.
  - apply (play_tick _ n). auto.
  - apply play_meet; auto.
Qed.
Definition frame (s s' : st) : Prop :=
  mem s' = mem s /\ generation s' = generation s /\ hof s' = hof s /\ hofits s' = hofits s /\ oldPops s' = oldPops s /\ pop s' = pop s
  /\ parasites s' = parasites s /\ pops s' = pops s /\ mainpop s' = mainpop s.
Lemma play_frame s rs s' : play s rs s' -> frame s s'.
Proof.
  induction 1 as [s|s n rs s1 _ IH|s p q rs s1 Hne _ IH]; [repeat split| |]; unfold frame in *; cbn in IH; tauto.
Qed.
Lemma play_steps s rs s' : play s rs s' -> steps s' = steps s + 2 * length rs.
Proof.
  induction 1 as [s|s n rs s1 _ IH|s p q rs s1 Hne _ IH]; cbn [length]; [lia| |]; rewrite IH; cbn [steps tick meet relEval]; lia.
Qed.
Definition good (L : list game) (s : st) : Prop := books L s /\ rounds L /\ genuine ev L.
Lemma meet_good L s p q : p <> q -> good L s -> exists a b, good (L ++ [(p, q, a); (q, p, b)]) (meet ev p s q).
Proof.
  intros Hne (B & R & G). set (a := ev (steps s) p q). set (b := ev (S (steps s)) q p). exists a, b. unfold meet.
  pose proof (relEval_books _ _ p q B) as B1. fold a in B1. pose proof (relEval_books _ _ q p B1) as B2.
  change (ev (steps (relEval ev s p q)) q p) with b in B2. rewrite <- app_assoc in B2. cbn [app] in B2.
  split; [exact B2|split].
  - constructor; auto.
  - intros i x y r H. destruct (Nat.lt_ge_cases i (length L)) as [Hi|Hi].
    + rewrite nth_error_app1 in H by exact Hi. apply G. exact H.
    + rewrite nth_error_app2 in H by exact Hi. destruct B as [Bs _].
      destruct (i - length L) as [|[|k]] eqn:E; cbn [nth_error] in H.
      * injection H as <- <- <-. unfold a. f_equal. lia.
      * injection H as <- <- <-. unfold b. f_equal. lia.
      * destruct k; discriminate.
Qed.
Lemma tick_good L n s : good L s -> good L (tick n s).
Proof. intros ((A & B & C) & D & E). repeat split; auto. Qed.
(** the ledger grows by exactly the rounds played *)
Fixpoint ledger_of (L : list game) (rs : list (nat * nat)) (L' : list game) : Prop :=
  match rs with [] => L' = L | (p, q) :: t => exists a b, ledger_of (L ++ [(p, q, a); (q, p, b)]) t L' end.
Lemma play_good s rs s' L : play s rs s' -> good L s -> exists L', good L' s' /\ ledger_of L rs L'.
Proof.
  intro H. revert L. induction H as [s|s n rs s1 _ IH|s p q rs s1 Hne _ IH]; intros L HL.
  - exists L. split; auto. reflexivity.
  - apply IH. apply tick_good. exact HL.
  - destruct (meet_good _ _ p q Hne HL) as (a & b & H1). destruct (IH _ H1) as (L' & H2 & H3).
    exists L'. split; auto. exists a, b. exact H3.
Qed.
Lemma ledger_met L rs L' p q : ledger_of L rs L' -> (met L' p q <-> met L p q \/ In (p, q) rs \/ In (q, p) rs).
Proof using. clear ev.
  revert L. induction rs as [|[a b] t IH]; intros L H; cbn [ledger_of In] in *.
  - subst. tauto.
  - destruct H as (x & y & H). rewrite (IH _ H), met_app. clear.
    assert (met [(a, b, x); (b, a, y)] p q <-> (a, b) = (p, q) \/ (a, b) = (q, p)) as E.
    { unfold met. split; [intros [r [E|[E|[]]]]; injection E as <- <- _; auto|].
      intros [E|E]; injection E as <- <-; [exists x|exists y]; cbn [In]; auto. }
    rewrite E. tauto.
Qed.

(** ** tournaments *)
Lemma filter_neq p l : Forall (fun q => p <> q) (filter (fun q => negb (Nat.eqb p q)) l).
Proof. apply Forall_forall. intros q H. apply filter_In in H. destruct H as [_ H]. destruct (Nat.eqb_spec p q); [discriminate|auto]. Qed.
Lemma fold_meet_play p os s : Forall (fun q => p <> q) os -> play s (map (pair p) os) (fold_left (meet ev p) os s).
Proof.
  revert s. induction os as [|o t IH]; intros s H; cbn [map fold_left]; [constructor|].
  apply Forall_cons_iff in H. destruct H as [H1 H2]. apply play_meet; auto.
Qed.
Lemma one_play (d : nat -> nat) pop2 n s p : exists os, drawn (filter (fun q => negb (Nat.eqb p q)) pop2) n os /\ play s (map (pair p) os) (oneTournament ev d pop2 n s p).
Proof.
  unfold oneTournament. set (l := filter (fun q => negb (Nat.eqb p q)) pop2). pose proof (filter_neq p pop2) as Hf. fold l in Hf.
  destruct (Nat.ltb_spec n (length l)) as [Hn|Hn].
  - unfold sample. pose proof (shuffled_perm (stream d s) l) as Hp. set (sh := shuffled _ _) in *.
    exists (firstn n sh). split.
    + split; [rewrite firstn_length, <- (Permutation_length Hp); reflexivity|]. exists (skipn n sh). rewrite firstn_skipn. exact Hp.
    + apply (play_tick _ (length l)). apply fold_meet_play. rewrite Hp in Hf. rewrite <- (firstn_skipn n sh) in Hf. apply Forall_app in Hf. tauto.
  - exists l. split.
    + split; [lia|]. exists []. rewrite app_nil_r. reflexivity.
    + apply fold_meet_play. exact Hf.
Qed.
Lemma tournament_play (d : nat -> nat) pop1 pop2 n s : exists rs, schedule pop2 n pop1 rs /\ play s rs (doTournament ev d pop1 pop2 n s).
Proof.
  unfold doTournament. revert s. induction pop1 as [|p t IH]; intro s; cbn [fold_left].
  - exists []. split; constructor.
  - destruct (one_play d pop2 n s p) as (os & Ho & Hp). destruct (IH (oneTournament ev d pop2 n s p)) as (rs & Hs & Hr).
    exists (map (pair p) os ++ rs). split; [constructor; auto|]. exact (play_app _ _ _ _ _ Hp Hr).
Qed.
End S.

Lemma drawn_length l n os : drawn l n os -> length os <= n.
Proof. intros [H _]. lia. Qed.
Lemma drawn_In l n os x : drawn l n os -> In x os -> In x l.
Proof. intros (_ & r & Hp) H. rewrite Hp. apply in_or_app. auto. Qed.
Lemma schedule_length pop2 n pop1 rs : schedule pop2 n pop1 rs -> length rs <= length pop1 * n.
Proof.
  induction 1 as [|p t os rs Hd _ IH]; cbn [length]; [lia|]. rewrite app_length, map_length. apply drawn_length in Hd. lia.
Qed.
Lemma schedule_In pop2 n pop1 rs a b : schedule pop2 n pop1 rs -> In (a, b) rs -> In a pop1 /\ In b pop2 /\ a <> b.
Proof.
  induction 1 as [|p t os rs Hd _ IH]; intro H; [destruct H|].
  apply in_app_or in H. destruct H as [H|H].
  - apply in_map_iff in H. destruct H as (o & E & H). injection E as <- <-. pose proof (drawn_In _ _ _ _ Hd H) as Hf.
    apply filter_In in Hf. destruct Hf as [H1 H2]. destruct (Nat.eqb_spec p o); [discriminate|]. repeat split; auto. left; auto.
  - destruct (IH H) as (A & B & C). repeat split; auto. right; auto.
Qed.
