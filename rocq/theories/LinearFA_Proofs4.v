(** The agent (C66). *)
From Coq Require Import Reals Lra.
From Verif Require Import Base Functions_Model Functions_Proofs FiniteDiff_Proofs LinearFA_Model LinearFA_Spec LinearFA_Proofs LinearFA_Proofs2 LinearFA_Proofs3.
Local Open Scope R_scope.

Lemma agent_run_app al p st x cs cs' : agent_run al p st x (cs ++ cs') = rbind (agent_run al p st x cs) (fun y => agent_run al p st y cs').
Proof. revert x. induction cs as [|c cs IH]; intros x; cbn [app agent_run]; [reflexivity |]. destruct (agent_step al p st x c); cbn [rbind]; auto. Qed.
Lemma into_last_last {A} (h : list (list A)) x : last (into_last h x) [] <> [].
Proof.
  induction h as [|e h IH]; cbn [into_last]; [discriminate |]. destruct h as [|e' h]; [cbn; destruct e; discriminate |].
  destruct (into_last (e' :: h) x) eqn:E; [cbn in E; destruct h; discriminate |]. exact IH.
Qed.

Ltac reward NO := unfold giveReward; cbn -[into_last]; unfold with_history, with_last, with_ln, with_oaro; cbn -[into_last]; rewrite ?NO; match goal with |- context [logging (fl ?x)] => destruct (logging (fl x)); reflexivity end.
Section Online.
Context (al : algo) (p : params) (st : settings).
Notation pass := (passNextAction al).

(** between two interactions *)
Definition rest (x : agent) (prev : option step) : Prop := remembers x prev /\ oaro x = None.
Definition ready (x : agent) : Prop := logging (fl x) = true -> forallb (fun e : list step => match e with [] => true | _ => false end) (history x) = true \/ last (history x) [] <> [].

Lemma event_ok beh l e : (match e with Start => True | Transition _ _ _ _ nx _ => nx <> None <-> pass = true end) -> exists l', tell al p beh l e = Ok l'.
Proof.
  destruct e as [| s a r s' nx [[d1 d2] d3]]; intros H; cbn [tell]; [eauto |]. destruct al, nx; cbn [passNextAction updateWeights] in *; eauto; exfalso; destruct H as [H1 H2];
    try (assert (false = true) by (apply H1; discriminate); discriminate); apply H2; auto.
Qed.

Definition after (x : agent) (l : learner) (i : interaction) : agent :=
  let '((o, a, r), _, _) := i in
  mkAgent l (Some o) (Some a) (Some r) None (temperature x) (expl_proportion x)
    (if logging (fl x) then into_last (history x) (o, a, r) else history x) (fl x).

Lemma interaction_online x prev i : rest x prev -> online x = true ->
  exists l, tell_all al p (behaviour p (fl x) (temperature x) (expl_proportion x)) (ln x) (link pass prev i) = Ok l /\ agent_run al p st x (oneInteraction i) = Ok (after x l i).
Proof.
  destruct i as [[[[o a] r] [[d1 d2] d3]] [[e1 e2] e3]]. intros [RM NO] ON. unfold oneInteraction, after, link. cbn [agent_run agent_step].
  unfold integrateObservation. destruct prev as [[[po pa] pr]|]; destruct RM as (R1 & R2 & R3); rewrite R1.
  - rewrite ON. destruct pass eqn:PE.
    + cbn [rbind]. unfold getAction. cbn [with_last with_oaro lastobs oaro]. unfold online in *. cbn [fl with_last with_oaro]. rewrite ON. unfold call_learner. rewrite R2, R3.
      set (beh := behaviour p (fl x) (temperature x) (expl_proportion x)).
      destruct (event_ok beh (ln x) (Transition po pa pr o (Some a) (e1, e2, e3))) as [l E]; [rewrite PE; split; [auto | discriminate] |].
      exists l. cbn [tell_all]. rewrite E. cbn [rbind]. split; [auto |]. cbn [tell] in E.
      change (updateWeights p al (fun s => actionProbs p _ s e3) e1 e2 (ln _) po pa pr o (Some a)) with (updateWeights p al (fun s => beh (ln x) s e3) e1 e2 (ln x) po pa pr o (Some a)).
      rewrite E. cbn [rbind]. reward NO.
    + unfold call_learner. rewrite R2, R3. set (beh := behaviour p (fl x) (temperature x) (expl_proportion x)).
      destruct (event_ok beh (ln x) (Transition po pa pr o None (d1, d2, d3))) as [l E]; [rewrite PE; split; [congruence | discriminate] |].
      exists l. cbn [tell_all]. rewrite E. cbn [rbind]. split; [auto |]. cbn [tell] in E.
      change (updateWeights p al (fun s => actionProbs p _ s d3) d1 d2 (ln _) po pa pr o None) with (updateWeights p al (fun s => beh (ln x) s d3) d1 d2 (ln x) po pa pr o None).
      rewrite E. cbn [rbind]. unfold getAction. cbn [with_last with_ln lastobs oaro]. rewrite NO. cbn [rbind]. reward NO.
  - exists (ln x). cbn [tell_all rbind]. split; [auto |]. unfold getAction. cbn [with_last with_ln lastobs oaro]. rewrite NO. cbn [rbind]. reward NO.
Qed.
Lemma last_step_cons prev i l : last_step prev (i :: l) = last_step (Some (fst (fst i))) l.
Proof. unfold last_step. cbn [rev]. destruct (rev l) as [|j t]; reflexivity. Qed.
Lemma interactions_online ep : forall x prev, rest x prev -> online x = true -> exists x',
  agent_run al p st x (flat_map oneInteraction ep) = Ok x' /\
  tell_all al p (behaviour p (fl x) (temperature x) (expl_proportion x)) (ln x) (links pass prev ep) = Ok (ln x') /\
  rest x' (last_step prev ep) /\ fl x' = fl x /\ temperature x' = temperature x /\ expl_proportion x' = expl_proportion x /\
  (ep <> [] -> ready x').
Proof.
  induction ep as [|i ep IH]; intros x prev RE ON; cbn [flat_map links].
  - exists x. cbn [agent_run tell_all]. split; [auto |]. split; [auto |]. split; [exact RE |]. repeat (split; [auto |]). congruence.
  - destruct (interaction_online x prev i RE ON) as (l & E1 & E2). rewrite agent_run_app, E2. cbn [rbind]. rewrite (tell_all_app p). rewrite E1. cbn [rbind].
    assert (RE1 : rest (after x l i) (Some (fst (fst i)))) by (destruct i as [[[[o a] r] d] d']; cbn; repeat split; auto).
    assert (ON1 : online (after x l i) = true) by (destruct i as [[[[o a] r] d] d']; exact ON).
    assert (FL : fl (after x l i) = fl x /\ temperature (after x l i) = temperature x /\ expl_proportion (after x l i) = expl_proportion x /\ ln (after x l i) = l) by (destruct i as [[[[o a] r] d] d']; auto).
    destruct FL as (F1 & F2 & F3 & F4). destruct (IH (after x l i) (Some (fst (fst i))) RE1 ON1) as (x' & A & B & C & D1 & D2 & D3 & D4). rewrite F1, F2, F3, F4 in *.
    exists x'. rewrite last_step_cons. split; [auto |]. split; [auto |]. split; [auto |]. repeat (split; [congruence |]).
    intros _. destruct ep as [|j ep]; [| apply D4; discriminate]. cbn in A. injection A as <-. intros LG. right. destruct i as [[[[o a] r] d] d']. cbn [after history]. cbn [after fl] in LG. rewrite LG. apply into_last_last.
Qed.
Lemma newSequence_ok h : forallb (fun e : list step => match e with [] => true | _ => false end) h = true \/ last h [] <> [] -> exists h', newSequence h = Ok h'.
Proof. intros H. unfold newSequence. destruct (forallb _ h); [eauto |]. destruct H as [H | H]; [discriminate |]. destruct (last h []); [congruence | eauto]. Qed.
Lemma episodes_online eps : Forall (fun ep => ep <> []) eps -> forall x prev, rest x prev -> ready x -> online x = true -> exists x',
  agent_run al p st x (doEpisodes eps) = Ok x' /\
  tell_all al p (behaviour p (fl x) (temperature x) (expl_proportion x)) (ln x) (stream pass prev eps) = Ok (ln x').
Proof.
  induction 1 as [|ep eps NE F IH]; intros x prev RE RD ON; cbn [doEpisodes flat_map stream].
  - exists x. auto.
  - cbn [app agent_run agent_step]. unfold agent_newEpisode.
    assert (E : exists h, (if logging (fl x) then let! h := newSequence (history x) in Ok (with_history x h) else Ok x) = Ok (with_history x h)).
    { destruct (logging (fl x)) eqn:LG; [| exists (history x); destruct x; reflexivity]. destruct (newSequence_ok (history x) (RD LG)) as [h ->]. exists h. reflexivity. }
    destruct E as [h ->]. cbn [rbind]. change (online (with_history x h)) with (online x). rewrite ON. cbn [rbind]. cbn [tell_all tell rbind]. set (x1 := with_ln (with_history x h) (newEpisode p (ln (with_history x h)))).
    assert (RE1 : rest x1 prev) by exact RE. destruct (interactions_online ep x1 prev RE1 ON) as (x' & A & B & C & D1 & D2 & D3 & D4).
    rewrite agent_run_app, A. cbn [rbind]. rewrite (tell_all_app p). change (fl x1) with (fl x) in *. change (temperature x1) with (temperature x) in *. change (expl_proportion x1) with (expl_proportion x) in *. change (ln x1) with (newEpisode p (ln x)) in *.
    rewrite B. cbn [rbind]. destruct (IH x' (last_step prev ep) C (D4 NE)) as (y & Y1 & Y2); [unfold online; rewrite D1; exact ON |]. rewrite D1, D2, D3 in Y2. exists y. auto.
Qed.
Lemma new_agent_rest l f : exists x, new_agent p st l f = Ok x /\ rest x None /\ ready x /\ fl x = f /\ ln x = newEpisode p (reset p l) /\ history x = [[]] /\
  temperature x = init_temperature st * (if learning f && negb (batchMode f) then 1 else temperature_decay st) /\
  expl_proportion x = init_exploration st * (if learning f && negb (batchMode f) then 1 else exploration_decay st).
Proof.
  unfold new_agent, agent_reset, agent_newEpisode. cbn [fl ln history]. destruct (logging f) eqn:LG; cbn [rbind newSequence forallb andb]; unfold online; cbn [fl with_history];
    destruct (learning f && negb (batchMode f)); eexists; (split; [reflexivity |]); cbn; rewrite ?Rmult_1_r; repeat split; auto; intros _; left; reflexivity.
Qed.

(** ** batch mode *)
Lemma final_cons prev s l : final prev (s :: l) = final (Some s) l.
Proof. unfold final. cbn [rev]. destruct (rev l); reflexivity. Qed.
Definition same (x x' : agent) : Prop := fl x' = fl x /\ temperature x' = temperature x /\ expl_proportion x' = expl_proportion x /\ history x' = history x.
Lemma learn_seq_run draws sq : pass = false -> forall k x prev, remembers x prev -> exists x' k' es,
  learn_seq al p k draws sq x = Ok (k', x') /\ replay k draws prev sq = (es, k') /\ tell_all al p (behaviour p (fl x) (temperature x) (expl_proportion x)) (ln x) es = Ok (ln x') /\ remembers x' (final prev sq) /\ same x x'.
Proof.
  intros PF. induction sq as [|[[o a] r] sq IH]; intros k x prev RM; cbn [learn_seq replay].
  - exists x, k, []. repeat (split; [auto |]). auto. 
  - destruct prev as [[[po pa] pr]|]; destruct RM as (R1 & R2 & R3); rewrite R1.
    + unfold call_learner. rewrite R2, R3. destruct (draws k) as [[d1 d2] d3] eqn:DK. set (beh := behaviour p (fl x) (temperature x) (expl_proportion x)).
      destruct (event_ok beh (ln x) (Transition po pa pr o None (d1, d2, d3))) as [l E]; [rewrite PF; split; [congruence | discriminate] |]. cbn [tell] in E.
      change (updateWeights p al (fun s => actionProbs p _ s d3) d1 d2 (ln _) po pa pr o None) with (updateWeights p al (fun s => beh (ln x) s d3) d1 d2 (ln x) po pa pr o None).
      rewrite E. cbn [rbind fst snd]. set (x1 := with_last (with_ln x l) (Some o) (Some a) (Some r)).
      destruct (IH (S k) x1 (Some (o, a, r))) as (x' & k' & es & A & B & C & D & S1 & S2 & S3 & S4); [cbn; auto |]. rewrite A, B. rewrite final_cons.
      exists x', k', (Transition po pa pr o None (d1, d2, d3) :: es). split; [auto |]. split; [auto |]. split; [| split; [auto | repeat split; auto]].
      cbn [tell_all tell]. rewrite E. cbn [rbind]. exact C.
    + cbn [rbind fst snd]. destruct (IH k (with_last x (Some o) (Some a) (Some r)) (Some (o, a, r))) as (x' & k' & es & A & B & C & D & E); [cbn; auto |]. rewrite A, B, final_cons. exists x', k', es. auto.
Qed.
Lemma learn_seqs_run draws h : pass = false -> forall k x prev, remembers x prev -> exists x',
  learn_seqs al p k draws h x = Ok x' /\ tell_all al p (behaviour p (fl x) (temperature x) (expl_proportion x)) (ln x) (replays k draws prev h) = Ok (ln x').
Proof.
  intros PF. induction h as [|sq h IH]; intros k x prev RM; cbn [learn_seqs replays]; [exists x; auto |].
  destruct (learn_seq_run draws sq PF k x prev RM) as (x1 & k' & es & A & B & C & D & S1 & S2 & S3 & S4). rewrite A, B. cbn [rbind fst snd].
  destruct (IH k' (with_ln x1 (newEpisode p (ln x1))) (final prev sq) D) as (x' & E & F). exists x'. split; [auto |].
  rewrite (tell_all_app p), C. cbn [rbind tell_all tell]. cbn [with_ln fl temperature expl_proportion ln] in F. rewrite S1, S2, S3 in F. exact F.
Qed.
(** acting in batch mode: only the history grows *)
Lemma interaction_batch x prev i : rest x prev -> online x = false -> agent_run al p st x (oneInteraction i) = Ok (after x (ln x) i).
Proof.
  destruct i as [[[[o a] r] [[d1 d2] d3]] [[e1 e2] e3]]. intros [RM NO] ON. unfold oneInteraction, after. cbn [agent_run agent_step].
  unfold integrateObservation. rewrite ON. assert (E : (match lastobs x with Some _ => Ok x | None => Ok x end : result agent) = Ok x) by (destruct (lastobs x); auto). rewrite E. cbn [rbind].
  unfold getAction. cbn [with_last lastobs oaro]. rewrite NO. cbn [rbind]. reward NO.
Qed.
Lemma into_last_snoc {A} (h : list (list A)) e x : into_last (h ++ [e]) x = h ++ [e ++ [x]].
Proof. induction h as [|f h IH]; [reflexivity |]. cbn [app into_last]. destruct (h ++ [e]) eqn:E; [destruct h; discriminate |]. now rewrite IH. Qed.
Lemma interactions_batch ep : forall x prev h e, rest x prev -> online x = false -> logging (fl x) = true -> history x = h ++ [e] -> exists x',
  agent_run al p st x (flat_map oneInteraction ep) = Ok x' /\ ln x' = ln x /\ rest x' (last_step prev ep) /\ fl x' = fl x /\ history x' = h ++ [e ++ steps_of ep].
Proof.
  induction ep as [|i ep IH]; intros x prev h e RE ON LG H; cbn [flat_map].
  - exists x. cbn [agent_run steps_of map]. rewrite app_nil_r. repeat (split; [auto |]). auto.
  - rewrite agent_run_app, (interaction_batch x prev i RE ON). cbn [rbind].
    assert (RE1 : rest (after x (ln x) i) (Some (fst (fst i)))) by (destruct i as [[[[o a] r] d] d']; cbn; repeat split; auto).
    assert (FL : fl (after x (ln x) i) = fl x /\ ln (after x (ln x) i) = ln x /\ history (after x (ln x) i) = h ++ [e ++ [fst (fst i)]]).
    { destruct i as [[[[o a] r] d] d']; cbn [after fl ln history]. rewrite LG, H. cbn [fst]. rewrite into_last_snoc. auto. }
    destruct FL as (F1 & F2 & F3). destruct (IH (after x (ln x) i) (Some (fst (fst i))) h (e ++ [fst (fst i)]) RE1) as (x' & A & B & C & D & E); [unfold online; rewrite F1; exact ON | congruence | auto |].
    exists x'. rewrite last_step_cons. split; [auto |]. split; [congruence |]. split; [auto |]. split; [congruence |]. rewrite E. cbn [steps_of map]. now rewrite <- app_assoc.
Qed.
Lemma episodes_batch eps : Forall (fun ep => ep <> []) eps -> forall x prev h, rest x prev -> online x = false -> logging (fl x) = true ->
  ((history x = [[]] /\ h = []) \/ (history x = h /\ h <> [] /\ last h [] <> [])) -> exists x',
  agent_run al p st x (doEpisodes eps) = Ok x' /\ tell_all al p (fun _ _ _ => []) (ln x) (repeat Start (length eps)) = Ok (ln x') /\
  rest x' (last_step prev (concat eps)) /\ fl x' = fl x /\ (eps <> [] -> history x' = h ++ map steps_of eps).
Proof.
  induction 1 as [|ep eps NE F IH]; intros x prev h RE ON LG H; cbn [doEpisodes flat_map concat].
  - exists x. cbn [length repeat agent_run tell_all]. split; [auto |]. split; [auto |]. split; [exact RE |]. split; [auto |]. congruence.
  - cbn [app agent_run agent_step]. unfold agent_newEpisode. rewrite LG.
    assert (E : newSequence (history x) = Ok (h ++ [[]])).
    { destruct H as [[-> ->] | (-> & H1 & H2)]; [reflexivity |]. unfold newSequence. destruct (forallb _ h) eqn:FB; [| destruct (last h []); [congruence | auto]].
      exfalso. rewrite forallb_forall in FB. apply H2. assert (IL : In (last h []) h). { destruct (exists_last H1) as (h' & e & ->). rewrite last_last. apply in_or_app. right. left. auto. } specialize (FB _ IL). destruct (last h []); [auto | discriminate]. }
    rewrite E. cbn [rbind]. change (online (with_history x (h ++ [[]]))) with (online x). rewrite ON. cbn [rbind]. cbn [ln with_history lastobs lastaction lastreward oaro temperature expl_proportion history fl].
    set (x1 := mkAgent _ _ _ _ _ _ _ _ _). assert (RE1 : rest x1 prev) by exact RE. destruct (interactions_batch ep x1 prev h [] RE1 ON LG eq_refl) as (x' & A & B & C & D & G).
    rewrite agent_run_app, A. cbn [rbind]. cbn [app] in G.
    assert (NS : steps_of ep <> []) by (destruct ep; [congruence | discriminate]).
    destruct (IH x' (last_step prev ep) (h ++ [steps_of ep]) C) as (y & Y1 & Y2 & Y3 & Y4 & Y5); [unfold online; rewrite D; exact ON | rewrite D; exact LG | right; split; [auto |]; split; [destruct h; discriminate | rewrite last_last; auto] |].
    exists y. split; [auto |]. cbn [length repeat tell_all tell rbind]. rewrite B in Y2. split; [exact Y2 |]. split.
    + assert (LS : forall (pr : option step) (l l' : list interaction), last_step pr (l ++ l') = last_step (last_step pr l) l') by (clear; intros pr l l'; unfold last_step; rewrite rev_app_distr; destruct (rev l'); auto).
      rewrite LS. exact Y3.
    + split; [rewrite Y4; exact D |]. intros _. destruct eps as [|ep2 eps]; [cbn in Y1; injection Y1 as <-; rewrite G; auto |]. rewrite Y5 by discriminate. now rewrite <- app_assoc.
Qed.
End Online.

(** ** exploration *)
Lemma learn_seq_same al p draws sq : forall k x k' x', learn_seq al p k draws sq x = Ok (k', x') -> same x x'.
Proof.
  induction sq as [|[[o a] r] sq IH]; intros k x k' x' H; cbn [learn_seq] in H; [injection H as <- <-; repeat split; auto |].
  destruct (lastobs x) as [po|].
  - destruct (call_learner _ _ _ _ _ _ _ _ _) as [x1|] eqn:E; [| discriminate]. cbn [rbind fst snd] in H. apply IH in H. unfold call_learner in E. destruct (draws k) as [[d1 d2] d3].
    destruct (lastaction x); [| discriminate]. destruct (lastreward x); [| discriminate]. destruct (updateWeights _ _ _ _ _ _ _ _ _ _ _); [| discriminate]. cbn [rbind] in E. injection E as <-. exact H.
  - cbn [rbind fst snd] in H. apply IH in H. exact H.
Qed.
Lemma learn_seqs_same al p draws h : forall k x x', learn_seqs al p k draws h x = Ok x' -> same x x'.
Proof.
  induction h as [|sq h IH]; intros k x x' H; cbn [learn_seqs] in H; [injection H as <-; repeat split; auto |].
  destruct (learn_seq al p k draws sq x) as [[k1 x1]|] eqn:E; [| discriminate]. cbn [rbind fst snd] in H. apply IH in H. apply learn_seq_same in E. destruct H as (A & B & C & D), E as (A' & B' & C' & D'). repeat split; cbn in *; congruence.
Qed.
Lemma call_learner_same al p x d s a r s' nx x' : call_learner al p x d s a r s' nx = Ok x' -> same x x'.
Proof.
  unfold call_learner. destruct d as [[d1 d2] d3]. destruct a; [| discriminate]. destruct r; [| discriminate]. destruct (updateWeights _ _ _ _ _ _ _ _ _ _ _); [| discriminate]. cbn [rbind]. intros [= <-]. repeat split.
Qed.
Lemma exploration_step al p st x c x' : agent_step al p st x c = Ok x' -> c <> Reset -> (forall f, c <> SetFlags f) ->
  fl x' = fl x /\
  temperature x' = temperature x * (match c with NewEpisode => if online x then 1 else temperature_decay st | _ => 1 end) /\
  expl_proportion x' = expl_proportion x * (match c with NewEpisode => if online x then 1 else exploration_decay st | _ => 1 end).
Proof.
  assert (SM : forall y, same x y -> fl y = fl x /\ temperature y = temperature x * 1 /\ expl_proportion y = expl_proportion x * 1) by (intros y (A & B & C & _); rewrite !Rmult_1_r; auto).
  intros H N1 N2. destruct c as [o d | a d | r | | | dr | f]; cbn [agent_step] in H; [| | | | congruence | | exfalso; eapply N2; reflexivity].
  - unfold integrateObservation in H. destruct (match lastobs x with Some _ => _ | None => _ end) as [x1|] eqn:E; [| discriminate]. cbn [rbind] in H. injection H as <-.
    assert (S : same x x1); [| destruct (SM x1 S) as (A & B & C); split; [exact A | split; [exact B | exact C]]].
    destruct (lastobs x); [| injection E as <-; repeat split]. destruct (online x); [| injection E as <-; repeat split]. destruct (passNextAction al); [injection E as <-; repeat split |]. eapply call_learner_same; eauto.
  - unfold getAction in H. destruct (lastobs x) as [o|]; [| discriminate]. cbn [with_last oaro] in H. destruct (oaro x) as [[[[s a1] r] s']|]; [| injection H as <-; apply SM; repeat split].
    destruct (online _); [| injection H as <-; apply SM; repeat split]. destruct (call_learner _ _ _ _ _ _ _ _ _) as [x2|] eqn:E; [| discriminate]. cbn [rbind] in H. injection H as <-. apply call_learner_same in E. apply (SM (with_oaro x2 None)). destruct E as (A & B & C & D). repeat split; cbn in *; auto.
  - unfold giveReward in H. destruct (lastobs x); [| discriminate]. destruct (lastaction x); [| discriminate]. destruct (lastreward x); [discriminate |]. destruct (logging (fl x)); injection H as <-; cbn; rewrite !Rmult_1_r; auto.
  - unfold agent_newEpisode in H. destruct (if logging (fl x) then _ else _) as [x1|] eqn:E; [| discriminate]. cbn [rbind] in H.
    assert (S : fl x1 = fl x /\ temperature x1 = temperature x /\ expl_proportion x1 = expl_proportion x).
    { destruct (logging (fl x)); [| injection E as <-; auto]. destruct (newSequence (history x)); [| discriminate]. injection E as <-. auto. }
    destruct S as (A & B & C). assert (ON : online x1 = online x) by (unfold online; now rewrite A). rewrite ON in H. destruct (online x); injection H as <-; cbn; rewrite ?Rmult_1_r; repeat split; congruence.
  - unfold learn in H. destruct (negb (learning (fl x))); [injection H as <-; apply SM; repeat split |]. destruct (negb (batchMode (fl x))); [injection H as <-; apply SM; repeat split |]. apply learn_seqs_same in H. auto.
Qed.
Lemma exploration_run al p st cs : Forall (fun c => c <> Reset /\ forall f, c <> SetFlags f) cs -> forall x x', agent_run al p st x cs = Ok x' ->
  temperature x' = temperature x * (if online x then 1 else temperature_decay st ^ new_episodes cs) /\
  expl_proportion x' = expl_proportion x * (if online x then 1 else exploration_decay st ^ new_episodes cs).
Proof.
  induction 1 as [|c cs [N1 N2] F IH]; intros x x' H; cbn [agent_run] in H.
  - injection H as <-. cbn. destruct (online x); lra.
  - destruct (agent_step al p st x c) as [y|] eqn:E; [| discriminate]. cbn [rbind] in H. apply IH in H as [H1 H2]. apply exploration_step in E as (E1 & E2 & E3); auto.
    assert (ON : online y = online x) by (unfold online; now rewrite E1). rewrite ON in *. rewrite H1, H2, E2, E3. unfold new_episodes. cbn [filter].
    destruct (online x); destruct c; cbn [length pow]; lra.
Qed.
