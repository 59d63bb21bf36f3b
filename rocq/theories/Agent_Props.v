(** Properties C43 (logging agents) and C57 (experiments and their history). *)
From Verif Require Import Base Dataset_Model Dataset_Spec Dataset_Proofs Dataset_Proofs2 Sequential_Model Sequential_Spec Sequential_Proofs Sequential_Proofs2 Agent_Model.

Section Spec.
Context {V : Type}.
Notation row := (row V).
Notation sample := (list row).
Notation triple := (@triple V).

(** ** Spec: the protocol *)
(** where the agent is in its cycle; the history is a list of episodes, the last one open *)
Inductive phase := Waiting | Seen (o : row) | Acted (o a : row).
Record protocol := { ph : phase; eps : list (list sample); log : bool }.
Definition start : protocol := {| ph := Waiting; eps := [[]]; log := true |}.
(** add to the last episode *)
Fixpoint into_last {A} (l : list (list A)) (x : A) : list (list A) :=
  match l with [] => [[x]] | [e] => [e ++ [x]] | e :: t => e :: into_last t x end.
Definition proto (p : protocol) (c : @call V) : protocol * @answer V :=
  match c with
  | IntegrateObservation o => ({| ph := Seen o; eps := eps p; log := log p |}, Done)
  | GetAction a => match ph p with Seen o => ({| ph := Acted o a; eps := eps p; log := log p |}, Done) | _ => (p, Raised AssertionError) end
  | GiveReward r =>
      match ph p with
      | Acted o a => ({| ph := Waiting; eps := if log p then into_last (eps p) [o; a; [r]] else eps p; log := log p |}, Done)
      | _ => (p, Raised AssertionError)
      end
  | NewEpisode =>
      if log p then
        if forallb (fun e => match e with [] => true | _ => false end) (eps p) then (p, Done)      (* nothing recorded yet *)
        else match last (eps p) [] with
             | [] => (p, Raised EmptySequenceError)
             | _ => ({| ph := ph p; eps := eps p ++ [[]]; log := log p |}, Done)
             end
      else (p, Done)
  | Reset => ({| ph := Waiting; eps := [[]]; log := log p |}, Done)
  | SetLogging b => ({| ph := ph p; eps := eps p; log := b |}, Done)
  | RemoveSequence i =>
      if i <? length (eps p)
      then ({| ph := ph p; eps := match firstn i (eps p) ++ skipn (S i) (eps p) with [] => [[]] | l => l end; log := log p |}, Done)
      else (p, Raised IndexError)
  | ReadHistory => (p, Episodes (eps p))
  end.
Fixpoint protos (p : protocol) (cs : list (@call V)) : protocol * list (@answer V) :=
  match cs with
  | [] => (p, [])
  | c :: t => let '(p1, x) := proto p c in let '(p2, xs) := protos p1 t in (p2, x :: xs)
  end.
(** arrays of the declared sizes *)
Definition sized (indim outdim : nat) (c : @call V) : Prop :=
  match c with IntegrateObservation o => length o = indim | GetAction a => length a = outdim | _ => True end.
Definition sample_of (t : triple) : sample := let '(o, a, r) := t in [o; a; [r]].
Definition sized_triple (indim outdim : nat) (t : triple) : Prop := length (fst (fst t)) = indim /\ length (snd (fst t)) = outdim.

(** ** Refinement *)
Context (vzero : V).
Definition at_phase (a : @agent V) (q : phase) : Prop :=
  match q with
  | Waiting => (lastobs a = None /\ lastaction a = None /\ lastreward a = None) \/ (lastobs a <> None /\ lastaction a <> None /\ lastreward a <> None)
  | Seen o => lastobs a = Some o /\ lastaction a = None /\ lastreward a = None
  | Acted o x => lastobs a = Some o /\ lastaction a = Some x /\ lastreward a = None
  end.
Definition phase_sized (i o : nat) (q : phase) : Prop :=
  match q with Waiting => True | Seen x => length x = i | Acted x y => length x = i /\ length y = o end.
Definition rel (indim outdim : nat) (a : agent) (p : protocol) : Prop :=
  at_phase a (ph p) /\ phase_sized indim outdim (ph p) /\ logging a = log p /\ exists pos, RS (rl_schema indim outdim) (history a) (eps p, pos).

Lemma good_rl i o : good (rl_schema i o).
Proof. split; [discriminate |]. split; [repeat constructor; cbn; intuition discriminate | cbn; intuition discriminate]. Qed.
Lemma fit_exact n (r : row) : length r = n -> fit n r = Some r.
Proof. intros <-. unfold fit. now rewrite Nat.eqb_refl. Qed.
Lemma fit_rl i o x y (r : V) : length x = i -> length y = o -> fit_all (rl_schema i o) [x; y; [r]] = Some [x; y; [r]].
Proof. intros. cbn [fit_all rl_schema]. rewrite !fit_exact; auto. Qed.
Lemma into_last_eq {A} (l : list (list (list (list A)))) x : into_last l x = add_to_last l x.
Proof. induction l as [| e [| e' l] IH]; auto. cbn [into_last add_to_last] in *. now rewrite IH. Qed.
Lemma all_empty (l : list (list sample)) : forallb (fun e => match e with [] => true | _ => false end) l = (total l =? 0).
Proof.
  unfold total. induction l as [| e l IH]; auto. cbn [forallb concat]. destruct e; cbn [andb app length]; [auto | reflexivity].
Qed.
Lemma last_rev (l : list (list sample)) : last l [] = match rev l with [] => [] | e :: _ => e end.
Proof. induction l as [| e l IH] using rev_ind; auto. rewrite last_last, rev_app_distr. reflexivity. Qed.

Lemma rel_step i o a p c : rel i o a p -> sized i o c ->
  rel i o (fst (step vzero a c)) (fst (proto p c)) /\ snd (step vzero a c) = snd (proto p c).
Proof.
  intros H0 HS. assert (H1 := H0). destruct H1 as (HA & HZ & HL & pos & HR). pose proof (good_rl i o) as Hg. destruct c as [obs | act | r | | | b | k |]; cbn [step proto].
  - cbn. split; [| auto]. split; [cbn; auto |]. split; [auto |]. split; [auto | exists pos; auto].
  - destruct (ph p) as [| q | q x] eqn:Eph; cbn [at_phase] in HA.
    + destruct HA as [(A & B & C) | (A & B & C)]; [rewrite A; auto |]. destruct (lastobs a) eqn:E1; [| congruence]. destruct (lastaction a) eqn:E2; [| congruence]. cbn. auto.
    + destruct HA as (A & B & C). rewrite A, B, C. cbn. split; [| auto]. split; [cbn; auto |]. split; [cbn; cbn in HZ; auto |]. split; [auto | exists pos; auto].
    + destruct HA as (A & B & C). rewrite A, B. cbn. auto.
  - destruct (ph p) as [| q | q x] eqn:Eph; cbn [at_phase] in HA.
    + destruct HA as [(A & B & C) | (A & B & C)]; [rewrite A; auto |]. destruct (lastobs a), (lastaction a), (lastreward a); cbn; auto; congruence.
    + destruct HA as (A & B & C). rewrite A, B. auto.
    + destruct HA as (A & B & C). rewrite A, B, C. cbn [is_none negb]. rewrite HL. destruct (log p) eqn:El.
      * cbn in HZ. pose proof (sim_qstep vzero (rl_schema i o) (history a) (eps p, pos) (QAdd [q; x; [r]]) Hg) as HQ.
        assert (HF := fit_rl i o q x r (proj1 HZ) (proj2 HZ)).
        specialize (HQ ltac:(right; left; rewrite HF; discriminate) HR). cbn [qstep aqstep] in HQ. rewrite HF in HQ. cbn [length rl_schema Nat.eqb] in HQ.
        destruct (addSample vzero (history a) [q; x; [r]]) as [h y]. cbn [fst snd] in HQ. destruct HQ as [HR' HY]. cbn [fst snd].
        split; [| destruct y; cbn in *; congruence]. split; [cbn; right; repeat split; discriminate |]. split; [exact I |]. split; [auto |]. exists pos. rewrite into_last_eq. auto.
      * cbn. split; [| auto]. split; [cbn; right; repeat split; discriminate |]. split; [exact I |]. split; [auto | exists pos; auto].
  - rewrite HL. destruct (log p) eqn:El; [| auto].
    pose proof (sim_qstep vzero (rl_schema i o) (history a) (eps p, pos) QNew Hg I HR) as HQ. cbn [qstep aqstep] in HQ. rewrite all_empty, last_rev.
    destruct (newSequence (history a)) as [h y]. cbn [fst snd] in HQ. destruct (total (eps p) =? 0) eqn:Et.
    + destruct HQ as [HR' HY]. cbn [fst snd]. split; [| destruct y; cbn in *; congruence]. split; [auto |]. split; [auto |]. split; [auto | eauto].
    + destruct (rev (eps p)) as [| [| s e] t] eqn:Er.
      * apply (f_equal (@rev _)) in Er. rewrite rev_involutive in Er. rewrite Er in Et. discriminate.
      * destruct HQ as [HR' HY]. cbn [fst snd]. split; [| destruct y; cbn in *; congruence]. split; [auto |]. split; [auto |]. split; [auto | eauto].
      * destruct HQ as [HR' HY]. cbn [fst snd]. split; [| destruct y; cbn in *; congruence]. split; [auto |]. split; [auto |]. split; [auto | eauto].
  - cbn. split; [| auto]. split; [cbn; auto |]. split; [exact I |]. split; [auto |]. exists 0. cbn [eps]. eapply RS_clear; eauto.
  - cbn. split; [| auto]. split; [auto |]. split; [auto |]. split; [auto | eauto].
  - pose proof (sim_qstep vzero (rl_schema i o) (history a) (eps p, pos) (QRemove k) Hg I HR) as HQ. cbn [qstep aqstep] in HQ.
    destruct (removeSequence (history a) k) as [h y]. cbn [fst snd] in HQ. destruct (Nat.leb_spec (length (eps p)) k), (Nat.ltb_spec k (length (eps p))); try lia.
    + destruct HQ as [HR' HY]. cbn [fst snd]. split; [| destruct y; cbn in *; congruence]. split; [auto |]. split; [auto |]. split; [auto | eauto].
    + fold (@remove_nth (list sample) k (eps p)) in *. destruct (remove_nth k (eps p)) as [| e t] eqn:Er.
      * destruct HQ as [HR' HY]. cbn [fst snd]. split; [| destruct y; cbn in *; congruence]. split; [auto |]. split; [auto |]. split; [auto |]. exists 0. auto.
      * destruct HQ as [HR' HY]. cbn [fst snd]. split; [| destruct y; cbn in *; congruence]. split; [auto |]. split; [auto |]. split; [auto |]. eauto.
  - cbn [fst snd]. rewrite (RS_iter (rl_schema i o) (history a) (eps p, pos) Hg HR). split; [| reflexivity]. split; [auto |]. split; [auto |]. split; [auto | eauto].
Qed.
Lemma rel_start i o : rel i o (new_agent vzero i o) start.
Proof.
  split; [cbn; auto |]. split; [exact I |]. split; [auto |]. exists 0. cbn [history new_agent eps start]. apply RS_init. apply R_schema. apply good_rl.
Qed.
Lemma rel_steps i o cs : Forall (sized i o) cs -> forall a p, rel i o a p ->
  rel i o (fst (steps vzero a cs)) (fst (protos p cs)) /\ snd (steps vzero a cs) = snd (protos p cs).
Proof.
  induction 1 as [| c cs Hc _ IH]; intros a p HR; cbn [steps protos]; [auto |]. destruct (rel_step i o a p c HR Hc) as [HR' HX].
  destruct (step vzero a c) as [a1 x]. destruct (proto p c) as [p1 y]. cbn [fst snd] in *. subst y. destruct (IH a1 p1 HR') as [HR2 HX2].
  destruct (steps vzero a1 cs), (protos p1 cs). cbn [fst snd] in *. split; [auto | congruence].
Qed.

(** ** C43 *)
(** For every sequence of calls, the agent answers and records exactly as the protocol says. *)
Theorem C43_protocol i o cs : Forall (sized i o) cs ->
  snd (steps vzero (new_agent vzero i o) cs) = snd (protos start cs) /\
  snd (step vzero (fst (steps vzero (new_agent vzero i o) cs)) ReadHistory) = Episodes (eps (fst (protos start cs))).
Proof.
  intros H. destruct (rel_steps i o cs H _ _ (rel_start i o)) as [HR HX]. split; [auto |]. destruct (rel_step i o _ _ ReadHistory HR I) as [_ ->]. reflexivity.
Qed.
End Spec.

Section Facts.
Context {V : Type} (vzero : V).
Notation row := (row V).
Notation sample := (list row).
Notation triple := (@triple V).

(** ** Consequences *)
(** An action is accepted iff the last step was an observation, a reward iff the last step was an action (calls that are refused, and calls
    about episodes and logging, are not steps). *)
Fixpoint last_step (acc : option (@call V)) (cs : list (@call V)) : option (@call V) :=
  match cs with
  | [] => acc
  | c :: t =>
      last_step (match c, acc with
                 | IntegrateObservation _, _ => Some c
                 | GetAction _, Some (IntegrateObservation _) => Some c
                 | GiveReward _, Some (GetAction _) => Some c
                 | Reset, _ => None
                 | _, _ => acc
                 end) t
  end.
Definition phase_of (acc : option (@call V)) (q : @phase V) : Prop :=
  match acc with Some (IntegrateObservation o) => q = Seen o | Some (GetAction a) => exists o, q = Acted o a | Some _ | None => q = Waiting end.
Lemma phase_tracks cs : forall acc (p : @protocol V), phase_of acc (ph p) -> phase_of (last_step acc cs) (ph (fst (protos p cs))).
Proof.
  induction cs as [| c cs IH]; intros acc p H; cbn [last_step protos]; [auto |].
  destruct (proto p c) as [p1 x] eqn:E. specialize (IH (match c, acc with
                 | IntegrateObservation _, _ => Some c
                 | GetAction _, Some (IntegrateObservation _) => Some c
                 | GiveReward _, Some (GetAction _) => Some c
                 | Reset, _ => None
                 | _, _ => acc
                 end) p1). destruct (protos p1 cs) as [p2 xs]. cbn [fst] in *. apply IH. clear IH.
  assert (E1 : p1 = fst (proto p c)) by now rewrite E. subst p1. clear E. unfold proto.
  destruct c as [obs | act | r | | | b | k |].
  - cbn. auto.
  - destruct acc as [[ | | | | | | | ] |]; cbn [phase_of] in H; match type of H with ex _ => destruct H as [? H] | _ => idtac end; rewrite H; cbn; eauto.
  - destruct acc as [[ | | | | | | | ] |]; cbn [phase_of] in H; match type of H with ex _ => destruct H as [? H] | _ => idtac end; rewrite H; cbn; eauto.
  - destruct (log p); [| auto]. destruct (forallb _ _); [auto |]. destruct (last _ _); auto.
  - cbn. auto.
  - auto.
  - destruct (k <? _); auto.
  - auto.
Qed.
Theorem C43_order i o cs : Forall (sized i o) cs ->
  let a := fst (steps vzero (new_agent vzero i o) cs) in
  (forall x, length x = o -> (snd (step vzero a (GetAction x)) = Done <-> exists ob, last_step None cs = Some (IntegrateObservation ob)) /\
             (snd (step vzero a (GetAction x)) <> Done -> step vzero a (GetAction x) = (a, Raised AssertionError))) /\
  (forall r, (snd (step vzero a (GiveReward r)) = Done <-> exists x, last_step None cs = Some (GetAction x)) /\
             (snd (step vzero a (GiveReward r)) <> Done -> step vzero a (GiveReward r) = (a, Raised AssertionError))).
Proof.
  intros H a. destruct (rel_steps vzero i o cs H _ _ (rel_start vzero i o)) as [HR _]. fold a in HR. pose proof (phase_tracks cs None start eq_refl) as HP. set (p := fst (protos start cs)) in *.
  split.
  - intros x Hx. destruct (rel_step vzero i o a p (GetAction x) HR Hx) as [_ HX]. split.
    + rewrite HX. cbn [proto]. destruct (last_step None cs) as [[ | | | | | | | ] |]; cbn [phase_of] in HP; match type of HP with ex _ => destruct HP as [? HP] | _ => idtac end; rewrite HP; cbn; split; intros K; try discriminate; try (destruct K as [? K]; discriminate K); eauto.
    + intros K. cbn [step] in *. destruct (is_none (lastobs a)); [auto |]. destruct (negb (is_none (lastaction a))); [auto |]. destruct (negb (is_none (lastreward a))); [auto |]. cbn in K. congruence.
  - intros r. destruct (rel_step vzero i o a p (GiveReward r) HR I) as [_ HX]. split.
    + rewrite HX. cbn [proto]. destruct (last_step None cs) as [[ | | | | | | | ] |]; cbn [phase_of] in HP; match type of HP with ex _ => destruct HP as [? HP] | _ => idtac end; rewrite HP; cbn; split; intros K; try discriminate; try (destruct K as [? K]; discriminate K); eauto.
    + rewrite HX. cbn [proto]. destruct (ph p) eqn:Eph; [| | cbn; congruence]; intros _.
      * destruct HR as (HA & _). rewrite Eph in HA. cbn [step]. destruct HA as [(A & B & C) | (A & B & C)]; [rewrite A; auto |]. destruct (lastobs a), (lastaction a), (lastreward a); cbn; congruence.
      * destruct HR as (HA & _). rewrite Eph in HA. cbn [step]. destruct HA as (A & B & C). rewrite A, B. auto.
Qed.
(** an observation, in contrast, is accepted at any time: a pending action is then forgotten without a reward and never recorded *)
Theorem C43_observation_any_time_refuted i o o1 a1 o2 : length o1 = i -> length a1 = o -> length o2 = i ->
  snd (steps vzero (new_agent vzero i o) [IntegrateObservation o1; GetAction a1; IntegrateObservation o2; ReadHistory]) = [Done; Done; Done; Episodes [[]]].
Proof.
  intros. assert (F : Forall (sized i o) [IntegrateObservation o1; GetAction a1; IntegrateObservation o2; ReadHistory]) by (repeat (apply Forall_cons || apply Forall_nil); cbn; auto).
  etransitivity; [exact (proj1 (C43_protocol vzero i o _ F)) |]. reflexivity.
Qed.

(** ** C57: experiments *)
Lemma protos_app (p : @protocol V) c1 c2 : protos p (c1 ++ c2) =
  (fst (protos (fst (protos p c1)) c2), snd (protos p c1) ++ snd (protos (fst (protos p c1)) c2)).
Proof.
  revert p; induction c1 as [| c c1 IH]; intros p; cbn [protos app fst snd]; [destruct (protos p c2); auto |].
  destruct (proto p c) as [p1 x]. rewrite IH. destruct (protos p1 c1) as [p2 xs]. cbn [fst snd]. reflexivity.
Qed.
Lemma into_last_snoc {A} (l : list (list A)) e x : into_last (l ++ [e]) x = l ++ [e ++ [x]].
Proof. induction l as [| a l IH]; [auto |]. cbn [app into_last]. destruct (l ++ [e]) eqn:E; [destruct l; discriminate |]. now rewrite IH. Qed.
Lemma interactions_run (ts : list triple) : forall l e, protos {| ph := Waiting; eps := l ++ [e]; log := true |} (flat_map oneInteraction ts) =
  ({| ph := Waiting; eps := l ++ [e ++ map sample_of ts]; log := true |}, repeat Done (3 * length ts)).
Proof.
  induction ts as [| [[o a] r] ts IH]; intros l e; cbn [flat_map map]; [rewrite app_nil_r; reflexivity |].
  change (oneInteraction (o, a, r)) with [IntegrateObservation o; GetAction a; GiveReward r]. rewrite protos_app. cbn [protos proto ph eps log fst snd]. rewrite into_last_snoc, IH. cbn [fst snd].
  rewrite <- app_assoc. cbn [app sample_of]. assert (L : forall n, 3 * S n = S (S (S (3 * n)))) by (intros; lia).
  change (length ((o, a, r) :: ts)) with (S (length ts)). rewrite L. reflexivity.
Qed.
Lemma any_nonempty (l : list (list sample)) e : e <> [] -> forallb (fun x => match x with [] => true | _ => false end) (l ++ [e]) = false.
Proof. intros H. rewrite forallb_app. cbn. destruct e; [congruence |]. now rewrite andb_false_r. Qed.
Definition no_error (xs : list (@answer V)) : Prop := Forall (fun x => match x with Raised _ => False | _ => True end) xs.
Lemma no_error_done n : no_error (repeat Done n).
Proof. induction n; constructor; auto. Qed.
Lemma episode_run (ep : list triple) (l : list (list sample)) : Forall (fun e => e <> []) l ->
  let p := {| ph := Waiting; eps := match l with [] => [[]] | _ => l end; log := true |} in
  protos p (doEpisodes [ep]) = ({| ph := Waiting; eps := l ++ [map sample_of ep]; log := true |}, Done :: repeat Done (3 * length ep)).
Proof.
  intros HF p. unfold doEpisodes. cbn [flat_map]. rewrite app_nil_r. cbn [protos]. assert (E : proto p NewEpisode = ({| ph := Waiting; eps := l ++ [[]]; log := true |}, Done)).
  { unfold p. cbn [proto log eps ph]. destruct l as [| e0 l0] using rev_ind; [reflexivity |]. clear IHl0. destruct (l0 ++ [e0]) eqn:El; [destruct l0; discriminate |]. rewrite <- El in *.
    assert (e0 <> []). { rewrite Forall_forall in HF. apply HF. rewrite in_app_iff. right. left. auto. }
    rewrite any_nonempty by auto. rewrite last_last. destruct e0; [congruence | auto]. }
  rewrite E, interactions_run. reflexivity.
Qed.
Lemma doEpisodes_app (e1 e2 : list (list triple)) : doEpisodes (e1 ++ e2) = doEpisodes e1 ++ doEpisodes e2.
Proof. unfold doEpisodes. apply flat_map_app. Qed.
Lemma doEpisodes_run (es : list (list triple)) : forall (l : list (list sample)), Forall (fun e => e <> []) l -> Forall (fun e => e <> []) es ->
  let r := protos {| ph := Waiting; eps := match l with [] => [[]] | _ => l end; log := true |} (doEpisodes es) in
  fst r = {| ph := Waiting; eps := match l ++ map (map sample_of) es with [] => [[]] | x => x end; log := true |} /\ no_error (snd r).
Proof.
  induction es as [| e es IH]; intros l HL HE; cbn zeta.
  - cbn [map]. rewrite app_nil_r. cbn. split; [destruct l; reflexivity | constructor].
  - inversion HE as [| ? ? H1 H2]; subst. change (e :: es) with ([e] ++ es). rewrite doEpisodes_app, protos_app, episode_run by auto. cbn [fst snd].
    specialize (IH (l ++ [map sample_of e])). replace (match l ++ [map sample_of e] with [] => [[]] | _ => l ++ [map sample_of e] end) with (l ++ [map sample_of e]) in IH by (destruct l; reflexivity).
    destruct IH as [E N]; [apply Forall_app; split; [auto | constructor; [| constructor]; destruct e; [congruence | discriminate]] | auto |].
    rewrite E. split; [cbn [map]; now rewrite <- app_assoc |]. constructor; [exact I |]. apply Forall_app. split; [apply no_error_done | exact N].
Qed.
Lemma sized_episodes i o (es : list (list triple)) : Forall (Forall (sized_triple i o)) es -> Forall (sized i o) (doEpisodes es).
Proof.
  intros H. unfold doEpisodes. induction H as [| e es He _ IH]; [constructor |]. cbn [flat_map app]. constructor; [exact I |]. apply Forall_app. split; [| auto].
  induction He as [| [[x y] r] e [A B] _ IH']; [constructor |]. cbn [flat_map]. apply Forall_app. split; [| auto]. repeat (apply Forall_cons || apply Forall_nil); cbn; auto.
Qed.
(** An episodic experiment with a fresh agent never fails, provided no episode is empty, and leaves exactly its episodes in the history. *)
Theorem C57_episodes i o es : es <> [] -> Forall (fun e => e <> []) es -> Forall (Forall (sized_triple i o)) es ->
  let r := steps vzero (new_agent vzero i o) (doEpisodes es) in
  no_error (snd r) /\ iter_seqs (history (fst r)) = Ok (map (map sample_of) es).
Proof.
  intros HN HE HS. cbn zeta. pose proof (sized_episodes i o es HS) as HZ. destruct (C43_protocol vzero i o _ HZ) as [-> HH].
  destruct (doEpisodes_run es [] ltac:(constructor) HE) as [E N]. cbn [app] in *. change ({| ph := Waiting; eps := [[]]; log := true |}) with (@start V) in *. split; [exact N |]. rewrite E in HH. cbn [eps] in HH.
  cbn [step snd] in HH. destruct (iter_seqs _); [| discriminate]. injection HH as ->. destruct es; [congruence | reflexivity].
Qed.
(** A queued experiment learns from exactly the last n episodes each time (n the length of the queue): the histories read by the learner are the
    n-element windows of the list of all episodes, in order. *)
Definition windows {A} (n k : nat) (l : list A) : list (list A) := map (fun j => firstn n (skipn j l)) (seq 0 k).
Fixpoint histories (xs : list (@answer V)) : list (list (list sample)) :=
  match xs with [] => [] | Episodes e :: t => e :: histories t | _ :: t => histories t end.
Lemma histories_app xs ys : histories (xs ++ ys) = histories xs ++ histories ys.
Proof. induction xs as [| [] xs IH]; cbn; auto. now rewrite IH. Qed.
Lemma histories_done n : histories (repeat Done n) = [].
Proof. induction n; auto. Qed.
Lemma histories_episodes es : forall p, histories (snd (protos p (@doEpisodes V es))) = [].
Proof.
  assert (HG : forall cs, Forall (fun c => c <> ReadHistory) cs -> forall p, histories (snd (@protos V p cs)) = []).
  { induction 1 as [| c cs Hc _ IH]; intros p; cbn [protos]; [auto |]. destruct (proto p c) as [p1 x] eqn:E. specialize (IH p1). destruct (protos p1 cs). cbn [snd] in *.
    assert (x = snd (proto p c)) by now rewrite E. subst x. unfold proto. destruct c; try congruence; cbn [snd histories]; auto.
    - destruct (ph p); auto.
    - destruct (ph p); auto.
    - destruct (log p); [| auto]. destruct (forallb _ _); [auto |]. destruct (last _ _); auto.
    - destruct (i <? length (eps p)); auto. }
  intros p. apply HG. unfold doEpisodes. induction es as [| e es IH]; [constructor |]. cbn [flat_map app]. constructor; [discriminate |]. apply Forall_app. split; [| auto].
  induction e as [| [[a b] r] e IHe]; [constructor |]. cbn [flat_map]. apply Forall_app. split; [repeat constructor; discriminate | auto].
Qed.
Lemma queue_step (x : list sample) (q : list (list sample)) (ep : list triple) : ep <> [] -> x <> [] -> Forall (fun e => e <> []) q ->
  protos {| ph := Waiting; eps := x :: q; log := true |} (stepQueueLoop ep) =
  ({| ph := Waiting; eps := q ++ [map sample_of ep]; log := true |}, Episodes (x :: q) :: Done :: Done :: repeat Done (3 * length ep)).
Proof.
  intros He Hx Hq. unfold stepQueueLoop. cbn [protos proto eps log ph length Nat.ltb Nat.leb firstn skipn app].
  pose proof (episode_run ep q Hq) as E. cbn zeta in E. replace (match q with [] => [[]] | _ => q end) with (match q with [] => [[]] | l0 :: l1 => l0 :: l1 end) in E by (destruct q; auto).
  rewrite E. reflexivity.
Qed.
Lemma queue_run (cycles : list (list triple)) : Forall (fun e => e <> []) cycles -> forall (q : list (list sample)), q <> [] -> Forall (fun e => e <> []) q ->
  let r := protos {| ph := Waiting; eps := q; log := true |} (flat_map stepQueueLoop cycles) in
  no_error (snd r) /\ histories (snd r) = windows (length q) (length cycles) (q ++ map (map sample_of) cycles) /\
  eps (fst r) = skipn (length cycles) (q ++ map (map sample_of) cycles).
Proof.
  induction 1 as [| ep cycles He Hc IH]; intros q Hn Hq; cbn zeta.
  - cbn [flat_map protos fst snd length map]. rewrite app_nil_r. split; [constructor |]. split; reflexivity.
  - destruct q as [| x q]; [congruence |]. inversion Hq as [| ? ? Hx Hq']; subst. cbn [flat_map]. rewrite protos_app, queue_step by auto. cbn [fst snd].
    destruct (IH (q ++ [map sample_of ep])) as (N & W & E); [destruct q; discriminate | apply Forall_app; split; [auto | constructor; [destruct ep; [congruence | discriminate] | constructor]] |].
    split; [| split].
    + apply Forall_app. split; [| auto]. repeat (apply Forall_cons; [exact I |]). apply no_error_done.
    + rewrite histories_app. cbn [histories]. rewrite histories_done. cbn [app]. rewrite W. cbn [length map]. unfold windows. cbn [seq map skipn].
      assert (L : length (q ++ [map sample_of ep]) = S (length q)) by (rewrite app_length; cbn; lia). rewrite L. f_equal.
      * cbn [firstn app]. f_equal. rewrite firstn_app, Nat.sub_diag. cbn [firstn]. rewrite app_nil_r. symmetry. apply firstn_all.
      * rewrite <- seq_shift, map_map. apply map_ext. intros j. cbn [skipn app]. now rewrite <- app_assoc.
    + rewrite E. cbn [length map skipn app]. now rewrite <- app_assoc.
Qed.
Theorem C57_queue i o queue cycles : queue <> [] -> Forall (fun e => e <> []) (queue ++ cycles) -> Forall (Forall (sized_triple i o)) (queue ++ cycles) ->
  let r := steps vzero (new_agent vzero i o) (queued_run queue cycles) in
  no_error (snd r) /\
  histories (snd r) = windows (length queue) (length cycles) (map (map sample_of) (queue ++ cycles)) /\
  iter_seqs (history (fst r)) = Ok (skipn (length cycles) (map (map sample_of) (queue ++ cycles))).
Proof.
  intros HN HE HS. cbn zeta. apply Forall_app in HE as [HE1 HE2]. apply Forall_app in HS as [HS1 HS2].
  assert (HZ : Forall (sized i o) (queued_run queue cycles)).
  { unfold queued_run, fillQueue. constructor; [exact I |]. apply Forall_app. split; [now apply sized_episodes |]. clear - HS2. induction HS2 as [| e es He Hes IH]; [constructor |]. cbn [flat_map]. apply Forall_app. split; [| auto].
    unfold stepQueueLoop. do 2 (constructor; [exact I |]). apply sized_episodes. constructor; auto. }
  destruct (C43_protocol vzero i o _ HZ) as [-> HH]. unfold queued_run, fillQueue in *. cbn [app protos proto] in *. cbn [log start] in *.
  rewrite protos_app in *. destruct (doEpisodes_run queue [] ltac:(constructor) HE1) as [E N]. cbn [app] in *.
  replace (match map (map sample_of) queue with [] => [[]] | x => x end) with (map (map (@sample_of V)) queue) in E by (destruct queue; [congruence | reflexivity]).
  destruct (queue_run cycles HE2 (map (map sample_of) queue)) as (N2 & W & E2); [destruct queue; [congruence | discriminate] | clear - HE1; induction HE1 as [| x l Hx _ IH]; constructor; [destruct x; [congruence | discriminate] | auto] |].
  rewrite E in *. cbn [fst snd] in *. rewrite map_app. rewrite map_length in W. split; [| split].
  - constructor; [exact I |]. apply Forall_app. auto.
  - cbn [histories]. rewrite histories_app, W, histories_episodes. reflexivity.
  - cbn [step snd] in HH. destruct (iter_seqs _); [| discriminate]. injection HH as ->. now rewrite E2.
Qed.
(** An episode that is finished before its first step makes the next episode fail. *)
Theorem C57_empty_episode_refuted i o e1 e2 : e1 <> [] -> Forall (sized_triple i o) e1 -> Forall (sized_triple i o) e2 ->
  In (Raised EmptySequenceError) (snd (steps vzero (new_agent vzero i o) (doEpisodes [e1; []; e2]))).
Proof.
  intros HN H1 H2. rewrite (proj1 (C43_protocol vzero i o _ (sized_episodes i o [e1; []; e2] ltac:(repeat constructor; auto)))).
  change [e1; []; e2] with ([e1] ++ [[]] ++ [e2]). rewrite doEpisodes_app, protos_app. pose proof (episode_run e1 [] ltac:(constructor)) as E. cbn zeta iota in E. change ({| ph := Waiting; eps := [[]]; log := true |}) with (@start V) in E. rewrite E. cbn [fst snd app].
  right. rewrite in_app_iff. right. unfold doEpisodes. cbn [flat_map app protos proto log eps ph]. rewrite app_nil_r. destruct e1 as [| t e1]; [congruence |]. cbn [map forallb andb last].
  cbn [protos proto log eps ph forallb andb last app]. match goal with |- context [protos ?p ?c] => destruct (protos p c) end. cbn. auto.
Qed.
End Facts.

Example C43_case : let cs := [NewEpisode; GetAction [7%Z]; IntegrateObservation [1; 2]%Z; GetAction [7%Z]; GetAction [8%Z]; GiveReward 5%Z; GiveReward 6%Z; NewEpisode; NewEpisode; IntegrateObservation [3; 4]%Z; GetAction [9%Z]; SetLogging false; GiveReward 1%Z; ReadHistory; Reset; GiveReward 3%Z] in
  Forall (sized 2 1) cs /\
  snd (steps 0%Z (new_agent 0%Z 2 1) cs) = [Done; Raised AssertionError; Done; Done; Raised AssertionError; Done; Raised AssertionError; Done; Raised EmptySequenceError; Done; Done; Done; Done; Episodes [[[[1; 2]; [7]; [5]]]; []]%Z; Done; Raised AssertionError].
Proof. cbv zeta. split; [repeat (apply Forall_cons || apply Forall_nil); cbn; auto |]. vm_compute. reflexivity. Qed.
Example C57_case : let t n := ([n; n]%Z, [n]%Z, n) in
  histories (snd (steps 0%Z (new_agent 0%Z 2 1) (queued_run [[t 1%Z]; [t 2%Z; t 3%Z]] [[t 4%Z]; [t 5%Z]]))) =
  [[[sample_of (t 1%Z)]; [sample_of (t 2%Z); sample_of (t 3%Z)]]; [[sample_of (t 2%Z); sample_of (t 3%Z)]; [sample_of (t 4%Z)]]].
Proof. vm_compute. reflexivity. Qed.

Print Assumptions C43_protocol. Print Assumptions C43_order. Print Assumptions C43_observation_any_time_refuted.
Print Assumptions C57_episodes. Print Assumptions C57_queue. Print Assumptions C57_empty_episode_refuted.
