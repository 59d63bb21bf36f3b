(** Property C88: universal search and the simple race. *)
From Verif Require Import Base Search_Model Search_Spec.
From Coq Require Import Reals Lra.
Local Open Scope nat_scope.

Section Levin.
  Context {P : Type} (gen : nat -> option (nat * P)) (runp : P -> option bool).
  (** the table holds the programs of the positions before [pos] *)
  Definition holds_upto (pos : nat) (t : table) : Prop :=
    (forall c, (t c = None <-> forall i p, i < pos -> gen i <> Some (c, p))) /\
    (forall c l, t c = Some l -> forall p, In p l <-> exists i, i < pos /\ gen i = Some (c, p)).
  Definition drawn (m pos : nat) : Prop := forall i c p, pos <= i -> gen i = Some (c, p) -> m < c.
  Lemma record_holds pos t c p : holds_upto pos t -> gen pos = Some (c, p) -> holds_upto (pos + 1) (record t c p).
  Proof.
    intros [H1 H2] G. split.
    - intros k. unfold record. destruct (Nat.eqb_spec k c) as [-> | N].
      + split; [discriminate | intros H; exfalso; apply (H pos p); [lia | exact G]].
      + rewrite H1. split; intros H i q Hi; [| apply H; lia]. intros E. destruct (Nat.eq_dec i pos) as [-> | Ne]; [rewrite G in E; congruence |]. apply (H i q); [lia | exact E].
    - intros k l. unfold record. destruct (Nat.eqb_spec k c) as [-> | N].
      + intros [= <-] q. destruct (t c) as [l0 |] eqn:Et.
        * rewrite in_app_iff, (H2 c l0 Et). cbn [In]. split.
          -- intros [(i & Hi & E) | [<- | []]]; [exists i; split; [lia | exact E] | exists pos; split; [lia | exact G]].
          -- intros (i & Hi & E). destruct (Nat.eq_dec i pos) as [-> | Ne]; [right; left; congruence | left; exists i; split; [lia | exact E]].
        * cbn [In]. split.
          -- intros [<- | []]. exists pos. split; [lia | exact G].
          -- intros (i & Hi & E). destruct (Nat.eq_dec i pos) as [-> | Ne]; [left; congruence |]. exfalso. apply (proj1 (H1 c) Et i q); [lia | exact E].
      + intros Et q. rewrite (H2 k l Et). split; intros (i & Hi & E); exists i; (split; [| exact E]); [lia |]. destruct (Nat.eq_dec i pos) as [-> | Ne]; [congruence | lia].
  Qed.
  Lemma draw_ok m N : ordered gen -> (forall i c p, N <= i -> gen i = Some (c, p) -> m < c) -> forall df c pos t, holds_upto pos t ->
    (m < c -> exists p, 0 < pos /\ gen (pos - 1) = Some (c, p)) -> (m < c /\ 1 <= df \/ N - pos + 2 <= df) ->
    exists pos' t', draw gen df m c pos t = Ok (pos', t') /\ holds_upto pos' t' /\ drawn m pos'.
  Proof.
    intros [Ho Hs] HN. induction df as [| df IH]; intros c pos t Ht Hc Hf; [lia |]. cbn [draw]. destruct (Nat.leb_spec c m) as [K | K].
    - destruct (gen pos) as [[c' p] |] eqn:G.
      + apply IH; [now apply record_holds | |].
        * intros _. exists p. split; [lia |]. now replace (pos + 1 - 1) with pos by lia.
        * destruct (Nat.le_gt_cases N pos) as [L | L]; [left; split; [now apply (HN pos c' p) | lia] | right; lia].
      + exists pos, t. split; [reflexivity |]. split; [exact Ht |]. intros i d q Hi E. rewrite (Hs pos i Hi G) in E. discriminate.
    - exists pos, t. split; [reflexivity |]. split; [exact Ht |]. intros i d q Hi E. destruct (Hc K) as (p & Hp & G). assert (c <= d) by (apply (Ho (pos - 1) i c d p q); [lia | exact G | exact E]). lia.
  Qed.
  Lemma table_level m pos t c : holds_upto pos t -> drawn m pos -> c <= m ->
    (t c = None <-> forall p, ~ occurs gen c p) /\ forall l, t c = Some l -> forall p, In p l <-> occurs gen c p.
  Proof.
    intros [H1 H2] D L. assert (B : forall i p, gen i = Some (c, p) -> i < pos). { intros i p E. destruct (Nat.lt_ge_cases i pos) as [K | K]; [exact K |]. specialize (D i c p K E). lia. }
    split.
    - rewrite H1. split; [intros H p [i E]; exact (H i p (B i p E) E) | intros H i p _ E; apply (H p); now exists i].
    - intros l E p. rewrite (H2 c l E). split; [intros (i & _ & G); now exists i | intros [i G]; exists i; split; [now apply (B i p) | exact G]].
  Qed.
  Lemma execute_false l : (forall p, In p l -> runp p = Some false) -> execute runp l = Ok false.
  Proof. induction l as [| p l IH]; intros H; [reflexivity |]. cbn [execute]. rewrite (H p (or_introl eq_refl)). apply IH. intros q Hq. apply H. now right. Qed.
  Lemma execute_true l : (forall p, In p l -> runp p <> None) -> (exists p, In p l /\ runp p = Some true) -> execute runp l = Ok true.
  Proof.
    induction l as [| p l IH]; intros H (q & Hq & E); [destruct Hq |]. cbn [execute]. pose proof (H p (or_introl eq_refl)) as Np. destruct (runp p) as [[|] |] eqn:Ep; [reflexivity | | congruence].
    apply IH; [intros r Hr; apply H; now right |]. destruct Hq as [-> | Hq]; [congruence |]. now exists q.
  Qed.
  Lemma execute_div l : (forall p, In p l -> runp p <> Some true) -> (exists p, In p l /\ runp p = None) -> execute runp l = Err DivergenceError.
  Proof.
    induction l as [| p l IH]; intros H (q & Hq & E); [destruct Hq |]. cbn [execute]. pose proof (H p (or_introl eq_refl)) as Np. destruct (runp p) as [[|] |] eqn:Ep; [congruence | | reflexivity].
    apply IH; [intros r Hr; apply H; now right |]. destruct Hq as [-> | Hq]; [congruence |]. now exists q.
  Qed.
  Lemma levels_app cs c t : (forall k, In k cs -> exists l, t k = Some l /\ execute runp l = Ok false) ->
    levels runp (cs ++ [c]) t = match t c with None => Err KeyError | Some l => let! b := execute runp l in Ok b end.
  Proof.
    induction cs as [| k cs IH]; intros H.
    - cbn [app levels]. destruct (t c) as [l |]; [| reflexivity]. destruct (execute runp l) as [[|] |]; reflexivity.
    - cbn [app levels]. destruct (H k (or_introl eq_refl)) as (l & -> & ->). cbn [rbind]. apply IH. intros j Hj. apply H. now right.
  Qed.
  (** the search reaches the phase in which the first complexity that is not fruitless is tried *)
  Lemma reach C : ordered gen -> finitary gen -> (forall c, c < C -> fruitless gen runp c) -> exists F, forall f df, F <= f -> F <= df ->
    exists f' pos t, S f' + C = f /\ holds_upto pos t /\ drawn (C + 1) pos /\
      levinRun gen runp f df = (let! b := match t C with None => Err KeyError | Some l => execute runp l end in if b then Ok (C + 1) else phases gen runp f' df (C + 2) pos t).
  Proof.
    intros Ho Hf Hc. destruct (Hf (C + 1)) as [N HN]. exists (N + C + 2). intros f df Ff Fd.
    assert (G : forall k, k <= C -> exists f' pos t, S f' + k = f /\ holds_upto pos t /\ levinRun gen runp f df = phases gen runp (S f') df (k + 1) pos t).
    { induction k as [| k IH]; intros Hk.
      - exists (f - 1), 0, (fun _ => None). split; [lia |]. split; [split; [intros c; split; [intros _ i p Hi; lia | reflexivity] | discriminate] |]. unfold levinRun. now replace (S (f - 1)) with f by lia.
      - destruct IH as (f' & pos & t & Ef & Ht & ->); [lia |]. cbn [phases].
        destruct (draw_ok (k + 1) N Ho) with (df := df) (c := 0) (pos := pos) (t := t) as (pos' & t' & -> & Ht' & D).
        { intros i c p Hi E. specialize (HN i c p Hi E). lia. } { exact Ht. } { lia. } { right. lia. }
        cbn [rbind fst snd]. replace (seq 0 (k + 1)) with (seq 0 k ++ [k]) by (now rewrite Nat.add_1_r, seq_S). rewrite levels_app.
        + destruct (Hc k ltac:(lia)) as [[p Hp] Hall]. destruct (table_level (k + 1) pos' t' k Ht' D ltac:(lia)) as [T1 T2]. destruct (t' k) as [l |] eqn:Et; [| exfalso; exact (proj1 T1 eq_refl p Hp)].
          rewrite execute_false by (intros q Hq; apply Hall; now apply (T2 l eq_refl)). cbn [rbind]. destruct f' as [| f1]; [lia |]. exists f1, pos', t'. split; [lia |]. split; [exact Ht' |].
          replace (S k + 1) with (k + 1 + 1) by lia. reflexivity.
        + intros j Hj. apply in_seq in Hj. destruct (Hc j ltac:(lia)) as [[p Hp] Hall]. destruct (table_level (k + 1) pos' t' j Ht' D ltac:(lia)) as [T1 T2]. destruct (t' j) as [l |] eqn:Et; [| exfalso; exact (proj1 T1 eq_refl p Hp)].
          exists l. split; [reflexivity |]. apply execute_false. intros q Hq. apply Hall. now apply (T2 l eq_refl). }
    destruct (G C (Nat.le_refl C)) as (f' & pos & t & Ef & Ht & ->). cbn [phases].
    destruct (draw_ok (C + 1) N Ho HN df 0 pos t Ht ltac:(lia) ltac:(right; lia)) as (pos' & t' & -> & Ht' & D). cbn [rbind fst snd].
    exists f', pos', t'. split; [exact Ef |]. split; [exact Ht' |]. split; [exact D |]. replace (seq 0 (C + 1)) with (seq 0 C ++ [C]) by (now rewrite Nat.add_1_r, seq_S). rewrite levels_app.
    - replace (C + 1 + 1) with (C + 2) by lia. destruct (t' C) as [l |]; [| reflexivity]. destruct (execute runp l) as [b |]; reflexivity.
    - intros j Hj. apply in_seq in Hj. destruct (Hc j ltac:(lia)) as [[p Hp] Hall]. destruct (table_level (C + 1) pos' t' j Ht' D ltac:(lia)) as [T1 T2]. destruct (t' j) as [l |] eqn:Et; [| exfalso; exact (proj1 T1 eq_refl p Hp)].
      exists l. split; [reflexivity |]. apply execute_false. intros q Hq. apply Hall. now apply (T2 l eq_refl).
  Qed.
End Levin.

(** when all complexities up to that of the simplest solution have programs and these end, the solution is found, in the phase
    after its complexity *)
Theorem C88_levin {P} (gen : nat -> option (nat * P)) runp C : ordered gen -> finitary gen -> (forall c, c < C -> fruitless gen runp c) ->
  (forall p, occurs gen C p -> runp p <> None) -> (exists p, occurs gen C p /\ runp p = Some true) -> exists F, forall f df, F <= f -> F <= df -> levinRun gen runp f df = Ok (C + 1).
Proof.
  intros Ho Hf Hc Ha (p & Hp & E). destruct (reach gen runp C Ho Hf Hc) as [F H]. exists F. intros f df H1 H2. destruct (H f df H1 H2) as (f' & pos & t & _ & Ht & D & ->).
  destruct (table_level gen (C + 1) pos t C Ht D ltac:(lia)) as [T1 T2]. destruct (t C) as [l |] eqn:Et; [| exfalso; exact (proj1 T1 eq_refl p Hp)].
  rewrite execute_true; [reflexivity | intros q Hq; apply Ha; now apply (T2 l eq_refl) |]. exists p. split; [now apply (T2 l eq_refl) | exact E].
Qed.
(** a complexity without programs ends the search with an error, though there are solutions further on (or none at all) *)
Theorem C88_levin_gap_refuted {P} (gen : nat -> option (nat * P)) runp C : ordered gen -> finitary gen -> (forall c, c < C -> fruitless gen runp c) ->
  (forall p, ~ occurs gen C p) -> exists F, forall f df, F <= f -> F <= df -> levinRun gen runp f df = Err KeyError.
Proof.
  intros Ho Hf Hc Hn. destruct (reach gen runp C Ho Hf Hc) as [F H]. exists F. intros f df H1 H2. destruct (H f df H1 H2) as (f' & pos & t & _ & Ht & D & ->).
  destruct (table_level gen (C + 1) pos t C Ht D ltac:(lia)) as [T1 _]. now rewrite (proj2 T1 Hn).
Qed.
(** the time limit is not enforced: a program that does not end stops the search, although its share of the time is finite *)
Theorem C88_levin_time_refuted {P} (gen : nat -> option (nat * P)) runp C : ordered gen -> finitary gen -> (forall c, c < C -> fruitless gen runp c) ->
  (forall p, occurs gen C p -> runp p <> Some true) -> (exists p, occurs gen C p /\ runp p = None) -> exists F, forall f df, F <= f -> F <= df -> levinRun gen runp f df = Err DivergenceError.
Proof.
  intros Ho Hf Hc Ha (p & Hp & E). destruct (reach gen runp C Ho Hf Hc) as [F H]. exists F. intros f df H1 H2. destruct (H f df H1 H2) as (f' & pos & t & _ & Ht & D & ->).
  destruct (table_level gen (C + 1) pos t C Ht D ltac:(lia)) as [T1 T2]. destruct (t C) as [l |] eqn:Et; [| exfalso; exact (proj1 T1 eq_refl p Hp)].
  rewrite execute_div; [reflexivity | intros q Hq; apply Ha; now apply (T2 l eq_refl) |]. exists p. split; [now apply (T2 l eq_refl) | exact E].
Qed.
Example C88_levin_case : ordered (fun i => Some (i, i)) /\ finitary (fun i => Some (i, i)) /\ (forall c, c < 3 -> fruitless (fun i => Some (i, i)) (fun p => Some (p =? 3)) c) /\
  levinRun (fun i => Some (i, i)) (fun p => Some (p =? 3)) 10 10 = Ok 4 /\ levinRun (fun i => Some (2 * i, i)) (fun p => Some (p =? 3)) 10 10 = Err KeyError.
Proof.
  split; [split; [intros i j c d p q H [= <- <-] [= <- <-]; exact H | discriminate] |]. split; [intros m; exists (m + 1); intros i c p H [= <- <-]; lia |]. split; [| split; reflexivity].
  intros c Hc. split; [exists c; now exists c |]. intros p [i [= -> ->]]. f_equal. apply Nat.eqb_neq. lia.
Qed.

(** ** The race *)
(** the nine commands: backwards, neutral, forwards, times left, straight, right *)
Theorem C88_command a0 a1 : command a0 a1 = 3 * turn a0 + turn a1.
Proof. unfold command, turn. repeat destruct (Rlt_dec _ _); reflexivity. Qed.
(** the position of the way point after the next is never stored *)
Lemma perform_next s a m x : r_next s = (0, 0)%R -> racePerform s a m = Ok x -> r_next (snd x) = (0, 0)%R.
Proof.
  intros H. unfold racePerform. destruct m as [| l |]; [intros [= <-]; reflexivity | | intros [= <-]; exact H]. unfold getData. cbn [r_last r_next r_first r_second r_step r_ready r_wait r_sensors].
  destruct (nth_error l 16), (nth_error l 17); try discriminate. repeat destruct (Req_EM_T _ _); try destruct (Rlt_dec _ _); cbn [rbind]; try discriminate; intros [= <-]; exact H.
Qed.
Lemma perform_score s a m x : r_next s = (0, 0)%R -> (forall l, m = MData l -> waypoint l <> 0%R) -> r_first s = 0 -> r_second s = 0 -> racePerform s a m = Ok x -> r_first (snd x) = 0 /\ r_second (snd x) = 0.
Proof.
  intros H Hw F G. unfold racePerform. destruct m as [| l |]; [intros [= <-]; split; reflexivity | | intros [= <-]; split; assumption]. specialize (Hw l eq_refl). unfold getData. cbn [r_last r_next r_first r_second r_step r_ready r_wait r_sensors].
  destruct (nth_error l 16) as [wx |] eqn:E; [| discriminate]. assert (W : waypoint l = wx) by (unfold waypoint; now apply nth_error_nth). rewrite H. cbn [fst]. destruct (nth_error l 17); [| discriminate].
  destruct (Req_EM_T (fst (r_last s)) 0); [intros [= <-]; split; assumption |]. destruct (Req_EM_T wx (fst (r_last s))); [intros [= <-]; split; assumption |].
  destruct (Req_EM_T wx 0) as [Z |]; [congruence | discriminate].
Qed.
(** so nobody ever scores, whatever the cars do: the total reward stays zero unless a way point has the coordinate zero *)
Theorem C88_score_refuted l sent s : Forall (fun e => forall d, snd e = MData d -> waypoint d <> 0%R) l -> raceRun newRace l = Ok (sent, s) -> r_first s = 0 /\ r_second s = 0 /\ getTotalReward s = 0.
Proof.
  assert (G : forall l s0 sent s, r_next s0 = (0, 0)%R -> r_first s0 = 0 -> r_second s0 = 0 -> Forall (fun e => forall d, snd e = MData d -> waypoint d <> 0%R) l -> raceRun s0 l = Ok (sent, s) -> r_first s = 0 /\ r_second s = 0).
  { clear. induction l as [| [a m] l IH]; intros s0 sent s N F G Hw; cbn [raceRun]; [intros [= <- <-]; auto |]. inversion Hw as [| ? ? W1 W2]; subst. destruct (racePerform s0 a m) as [x | e] eqn:E; cbn [rbind]; [| discriminate].
    destruct (raceRun (snd x) l) as [y | e] eqn:E2; cbn [rbind]; [| discriminate]. intros [= <- <-]. destruct (perform_score s0 a m x N W1 F G E) as [F1 G1]. destruct y as [y1 y2]. apply (IH (snd x) y1 y2); auto. now apply (perform_next s0 a m). }
  intros Hw E. destruct (G l newRace sent s eq_refl eq_refl eq_refl Hw E) as [A B]. auto.
Qed.
(** and reaching a way point ends the run with an exception *)
Lemma run_next l : forall s0 sent s, r_next s0 = (0, 0)%R -> raceRun s0 l = Ok (sent, s) -> r_next s = (0, 0)%R.
Proof.
  induction l as [| [a m] l IH]; intros s0 sent s N; cbn [raceRun]; [intros [= <- <-]; auto |]. destruct (racePerform s0 a m) as [x | e] eqn:E; cbn [rbind]; [| discriminate].
  destruct (raceRun (snd x) l) as [y | e] eqn:E2; cbn [rbind]; [| discriminate]. intros [= <- <-]. destruct y as [y1 y2]. apply (IH (snd x) y1 y2); auto. now apply (perform_next s0 a m).
Qed.
Theorem C88_waypoint_refuted l sent s a d : raceRun newRace l = Ok (sent, s) -> 18 <= length d -> fst (r_last s) <> 0%R -> waypoint d <> fst (r_last s) -> waypoint d <> 0%R -> racePerform s a (MData d) = Err PlainException.
Proof.
  intros E L N1 N2 N3. apply run_next in E; [| reflexivity]. unfold racePerform, getData. cbn [r_last r_next r_first r_second r_step r_ready r_wait r_sensors]. unfold waypoint in *.
  rewrite (nth_error_nth' d 0%R) by lia. rewrite (nth_error_nth' d 0%R) by lia. rewrite E. cbn [fst]. destruct (Req_EM_T (fst (r_last s)) 0); [congruence |]. destruct (Req_EM_T _ (fst (r_last s))); [congruence |].
  destruct (Req_EM_T _ 0); [congruence | reflexivity].
Qed.
(** otherwise a message with the same way point (or the first one) is taken over *)
Theorem C88_data s a d : 18 <= length d -> fst (r_last s) = 0%R \/ waypoint d = fst (r_last s) -> exists o s', racePerform s a (MData d) = Ok (o, s') /\
  r_sensors s' = firstn 7 d /\ r_last s' = (nth 16 d 0, nth 17 d 0)%R /\ r_step s' = r_step s + 1 /\ r_first s' = r_first s /\ r_second s' = r_second s /\ r_wait s' = false /\ r_ready s' = r_ready s.
Proof.
  intros L H. unfold racePerform, getData. cbn [r_last r_next r_first r_second r_step r_ready r_wait r_sensors]. unfold waypoint in *. rewrite !(nth_error_nth' d 0%R) by lia.
  destruct (Req_EM_T (fst (r_last s)) 0) as [Z | Z]; [| destruct (Req_EM_T _ (fst (r_last s))) as [Y | Y]; [| tauto]]; cbn [rbind]; eexists _, _; (split; [reflexivity |]); cbn; auto 10.
Qed.
(** who gets the point, if there is one: the car that was nearer to the way point, the second one in a tie *)
Theorem C88_point s a d : 18 <= length d -> fst (r_last s) <> 0%R -> waypoint d <> fst (r_last s) -> waypoint d = fst (r_next s) -> exists o s', racePerform s a (MData d) = Ok (o, s') /\
  let nearer := (((nth 7 d 0 - fst (r_last s)) ^ 2 + (nth 8 d 0 - snd (r_last s)) ^ 2 < (nth 12 d 0 - fst (r_last s)) ^ 2 + (nth 13 d 0 - snd (r_last s)) ^ 2))%R in
  (nearer -> r_first s' = r_first s + 1 /\ r_second s' = r_second s) /\ (~ nearer -> r_first s' = r_first s /\ r_second s' = r_second s + 1).
Proof.
  intros L N1 N2 E. unfold racePerform, getData. cbn [r_last r_next r_first r_second r_step r_ready r_wait r_sensors]. unfold waypoint in *. rewrite !(nth_error_nth' d 0%R) by lia.
  destruct (Req_EM_T (fst (r_last s)) 0); [congruence |]. destruct (Req_EM_T _ (fst (r_last s))); [congruence |]. destruct (Req_EM_T _ (fst (r_next s))); [| congruence].
  unfold euclidean. cbn [fst snd].
  match goal with |- context [Rlt_dec (sqrt ?u) (sqrt ?v)] => set (A := u); set (B := v) end.
  assert (A0 : (0 <= A)%R) by (unfold A; apply Rplus_le_le_0_compat; apply pow2_ge_0). assert (B0 : (0 <= B)%R) by (unfold B; apply Rplus_le_le_0_compat; apply pow2_ge_0).
  destruct (Rlt_dec (sqrt A) (sqrt B)) as [Y | Y]; cbn [rbind]; eexists _, _; (split; [reflexivity |]); cbv zeta; cbn [r_first r_second]; split; intros H; auto; exfalso.
  - apply H. now apply sqrt_lt_0_alt.
  - apply Y. apply sqrt_lt_1; assumption.
Qed.
(** a command is sent once the server has reported a reset, except in the step after a reset *)
Theorem C88_sent l a m sent s o s' : raceRun newRace l = Ok (sent, s) -> racePerform s a m = Ok (o, s') ->
  o = if existsb (fun e => match snd e with MReset => true | _ => false end) l && negb (match last (map snd l) MOther with MReset => true | _ => false end) then Some (command (fst a) (snd a)) else None.
Proof.
  assert (G : forall l s0 sent s, raceRun s0 l = Ok (sent, s) -> r_ready s = r_ready s0 || existsb (fun e => match snd e with MReset => true | _ => false end) l /\
    r_wait s = match l with [] => r_wait s0 | _ => match last (map snd l) MOther with MReset => true | _ => false end end).
  { clear. induction l as [| [b m] l IH]; intros s0 sent s; cbn [raceRun]; [intros [= <- <-]; split; [now rewrite orb_false_r | reflexivity] |]. destruct (racePerform s0 b m) as [x | e] eqn:E; cbn [rbind]; [| discriminate].
    destruct (raceRun (snd x) l) as [[y1 y2] | e] eqn:E2; cbn [rbind]; [| discriminate]. intros [= <- <-]. destruct (IH _ _ _ E2) as [I1 I2]. cbn [snd existsb map].
    assert (X : r_ready (snd x) = r_ready s0 || match m with MReset => true | _ => false end /\ r_wait (snd x) = match m with MReset => true | _ => false end).
    { revert E. unfold racePerform. destruct m as [| d |]; [intros [= <-]; cbn; now rewrite orb_true_r | | intros [= <-]; cbn; now rewrite orb_false_r]. unfold getData. cbn [r_last r_next r_first r_second r_step r_ready r_wait r_sensors].
      destruct (nth_error d 16), (nth_error d 17); try discriminate. rewrite orb_false_r. repeat destruct (Req_EM_T _ _); try destruct (Rlt_dec _ _); cbn [rbind]; try discriminate; intros [= <-]; auto. }
    destruct X as [X1 X2]. split; [rewrite I1, X1; now rewrite orb_assoc |]. rewrite I2. destruct l as [| e l]; [exact X2 | reflexivity]. }
  intros E P. destruct (G l newRace sent s E) as [I1 I2]. cbn [newRace r_ready orb] in I1.
  assert (O : o = if r_wait s then None else if r_ready s then Some (command (fst a) (snd a)) else None).
  { revert P. unfold racePerform. destruct m as [| d |]; [now intros [= <- _] | | now intros [= <- _]]. destruct (getData _ d); cbn [rbind]; [now intros [= <- _] | discriminate]. }
  rewrite O, I1, I2. destruct l as [| e l]; [reflexivity |]. destruct (existsb _ _); cbn [andb]; destruct (match last (map snd (e :: l)) MOther with MReset => true | _ => false end); reflexivity.
Qed.
(** the example controller always turns, never brakes, and turns left (-1) for positive angles *)
Theorem C88_controller speed angle : command (fst (controller speed angle)) (snd (controller speed angle)) = (if Rlt_dec speed 10 then 6 else 3) + (if Rlt_dec 0 angle then 0 else 2).
Proof. rewrite C88_command. unfold controller, turn. cbn [fst snd]. destruct (Rlt_dec speed 10), (Rlt_dec 0 angle); repeat (destruct (Rlt_dec _ _); [try lra | try lra]); reflexivity. Qed.
(** a run that reaches a state with a way point, to which the two refutations apply *)
Example C88_race_case : exists sent s, raceRun newRace [((1, 0)%R, MReset); ((1, 0)%R, MData (repeat 5%R 18)); ((1, 0)%R, MData (repeat 5%R 18))] = Ok (sent, s) /\ sent = [None; None; Some (command 1 0)] /\ r_last s = (5, 5)%R /\ r_step s = 2.
Proof.
  cbv -[Req_EM_T Rlt_dec command IZR euclidean]. repeat (match goal with |- context [Req_EM_T ?x ?y] => destruct (Req_EM_T x y); try lra end; cbv beta iota). eexists _, _. split; [reflexivity |]. auto.
Qed.

Print Assumptions C88_levin.
Print Assumptions C88_levin_gap_refuted.
Print Assumptions C88_levin_time_refuted.
Print Assumptions C88_command.
Print Assumptions C88_score_refuted.
Print Assumptions C88_waypoint_refuted.
Print Assumptions C88_data.
Print Assumptions C88_point.
Print Assumptions C88_sent.
Print Assumptions C88_controller.
