(** Lemmas for C67: runs of the agent. *)
From Coq Require Import Reals Lra.
From Verif Require Import Base Functions_Model Functions_Proofs FiniteDiff_Proofs PolicyGrad_Model PolicyGrad_Spec PolicyGrad_Proofs PolicyGrad_Proofs2.
Local Open Scope R_scope.

Lemma radd_app a b c d : length a = length c -> radd (a ++ b) (c ++ d) = radd a c ++ radd b d.
Proof. revert c. unfold radd. induction a as [|x a IH]; intros [|y c] H; try discriminate; [reflexivity |]. cbn [app rzip]. f_equal. apply IH. now injection H. Qed.
Lemma running_app d a b : running d (a ++ b) = running d a ++ running (fold_left radd a d) b.
Proof. revert d. induction a as [|x a IH]; intros d; cbn; auto. f_equal. apply IH. Qed.
Lemma running_len d l : length (running d l) = length l.
Proof. revert d. induction l as [|x l IH]; intros d; cbn; auto. Qed.

Lemma nth_zip2 f (a b : rvec) m k : length a = m -> length b = m -> (k < m)%nat -> nth k (rzip f a b) 0 = f (nth k a 0) (nth k b 0).
Proof. intros. apply nth_rzip; lia. Qed.

Section Run.
Context (F : rvec -> rvec -> rvec) (VJP : rvec -> rvec -> rvec -> rvec) (n t : nat).
(** the sizes of a learner *)
Definition sized (l : pg) : Prop := length (theta l) = t /\ length (sigma l) = n /\ length (dmod l) = t /\ length (dexp l) = n /\ gdvalues l = theta l ++ sigma l.
Notation D l := (dmod l ++ dexp l).
Lemma explore_step l o z : sized l -> backward_ok F VJP n (theta l) o -> length z = n -> forall r,
  let l' := fst (explore F VJP l o z) in
  sized l' /\ theta l' = theta l /\ sigma l' = sigma l /\ alpha l' = alpha l /\ D l' = radd (D l) (contribution VJP (theta l) (sigma l) (o, z, r)) /\ loglh l' = loglh l ++ [D l'].
Proof.
  intros (S1 & S2 & S3 & S4 & S5) OK Hz r. unfold explore, normal_backward. cbn [fst]. pose proof (action_len F VJP n (theta l) o OK) as LA.
  set (a := F (theta l) o) in *. assert (LM : length (rmul (map expln (sigma l)) z) = n) by (apply rzip_length; rewrite ?map_length; auto).
  assert (LY : length (normal_forward (sigma l) a z) = n) by (apply rzip_length; auto).
  assert (E : rsub (normal_forward (sigma l) a z) a = error (sigma l) z).
  { apply (vec_eq _ _ n); [apply rzip_length; auto | exact LM |]. intros j Hj. unfold rsub, normal_forward, radd, error. rewrite (nth_zip2 _ _ _ n) by auto. rewrite (nth_zip2 Rplus _ _ n) by auto. ring. }
  assert (LE : length (error (sigma l) z) = n) by exact LM.
  assert (ST : sigma_term (sigma l) (normal_forward (sigma l) a z) a = rzip (fun p z => expln p * explnPrime p * (z * z - 1)) (sigma l) z).
  { apply (vec_eq _ _ n); [apply sigma_term_len; auto | apply rzip_length; auto |]. intros j Hj. rewrite (nth_sigma_term _ _ _ n) by auto. rewrite (nth_zip2 _ (sigma l) z n) by auto.
    unfold normal_forward, radd. rewrite (nth_zip2 Rplus _ _ n) by auto. unfold rmul. rewrite (nth_zip2 Rmult _ _ n) by (rewrite ?map_length; auto). rewrite nth_map0 by lia. pose proof (expln_pos (nth j (sigma l) 0)). field. lra. }
  assert (LV : length (VJP (theta l) o (error (sigma l) z)) = t) by (rewrite (vjp_len F VJP n); auto).
  rewrite E, ST. cbn [fst theta sigma alpha dmod dexp loglh gdvalues sized]. unfold contribution.
  assert (LS : length (rzip (fun p z => expln p * explnPrime p * (z * z - 1)) (sigma l) z) = n) by (apply rzip_length; auto).
  repeat split; auto.
  - apply rzip_length; auto.
  - apply rzip_length; auto.
  - rewrite radd_app by congruence. reflexivity.
Qed.
Lemma interaction_run k x i : learning x = true -> logging x = true -> sized (lrn x) -> backward_ok F VJP n (theta (lrn x)) (fst (fst i)) -> fits n i ->
  exists x', agent_run F VJP k x (oneInteraction i) = Ok (Some x') /\ learning x' = true /\ logging x' = true /\ sized (lrn x') /\
  theta (lrn x') = theta (lrn x) /\ sigma (lrn x') = sigma (lrn x) /\ alpha (lrn x') = alpha (lrn x) /\
  D (lrn x') = radd (D (lrn x)) (contribution VJP (theta (lrn x)) (sigma (lrn x)) i) /\ loglh (lrn x') = loglh (lrn x) ++ [D (lrn x')] /\
  rewards x' = rewards x ++ [snd i] /\ seqidx x' = seqidx x.
Proof.
  intros LN LG S OK Ft. destruct i as [[o z] r]. cbn [fst snd] in *. cbn [oneInteraction agent_run agent_step rbind lrn act lastobs lastaction lastreward learning].
  destruct (explore_step (lrn x) o z S OK Ft r) as (E1 & E2 & E3 & E4 & E5 & E6). unfold act. cbn [lastobs lastaction lastreward learning lrn]. rewrite LN.
  destruct (explore F VJP (lrn x) o z) as [l y]. cbn [fst] in *. cbn [rbind agent_run agent_step reward lastobs lastaction lastreward rewards seqidx logging lrn learning]. unfold reward. cbn [lastobs lastaction lastreward rewards seqidx logging lrn learning]. rewrite LG.
  eexists. split; [reflexivity |]. cbn [lrn learning logging rewards seqidx]. repeat (split; [assumption || reflexivity |]). auto.
Qed.
Lemma agent_run_app k x a b : agent_run F VJP k x (a ++ b) = rbind (agent_run F VJP k x a) (fun o => match o with Some y => agent_run F VJP k y b | None => Ok None end).
Proof. revert x. induction a as [|c a IH]; intros x; cbn [agent_run app]; [reflexivity |]. destruct (agent_step F VJP k x c) as [[y|]|]; cbn [rbind]; auto. Qed.
(** the state after some interactions *)
Definition after (x : agent) (l : list interaction) (x' : agent) : Prop :=
  learning x' = true /\ logging x' = true /\ sized (lrn x') /\ theta (lrn x') = theta (lrn x) /\ sigma (lrn x') = sigma (lrn x) /\ alpha (lrn x') = alpha (lrn x) /\
  let cs := map (contribution VJP (theta (lrn x)) (sigma (lrn x))) l in
  D (lrn x') = fold_left radd cs (D (lrn x)) /\ loglh (lrn x') = loglh (lrn x) ++ running (D (lrn x)) cs /\ rewards x' = rewards x ++ map snd l.
Lemma interactions_run k l : forall x, learning x = true -> logging x = true -> sized (lrn x) -> Forall (fun i => backward_ok F VJP n (theta (lrn x)) (fst (fst i)) /\ fits n i) l ->
  exists x', agent_run F VJP k x (flat_map oneInteraction l) = Ok (Some x') /\ after x l x' /\ seqidx x' = seqidx x.
Proof.
  induction l as [|i l IH]; intros x LN LG S H.
  - exists x. split; [reflexivity |]. split; [| reflexivity]. unfold after. cbn. rewrite !app_nil_r. tauto.
  - apply Forall_cons_iff in H as [[H1 H2] H]. destruct (interaction_run k x i LN LG S H1 H2) as (y & E & A1 & A2 & A3 & A4 & A5 & A6 & A7 & A8 & A9 & A10).
    rewrite <- A4 in H. destruct (IH y A1 A2 A3 H) as (x' & E' & (B1 & B2 & B3 & B4 & B5 & B6 & B7 & B8 & B9) & B10). exists x'. cbn [flat_map]. rewrite agent_run_app, E. cbn [rbind]. split; [exact E' |]. split; [| congruence].
    unfold after. repeat (split; [congruence |]). rewrite A4, A5 in *. cbn [map fold_left running]. rewrite <- A7. split; [exact B7 |]. split; [rewrite B8, A8, <- app_assoc; reflexivity | rewrite B9, A9, <- app_assoc; reflexivity].
Qed.
Lemma after_trans x a y b z : after x a y -> after y b z -> after x (a ++ b) z.
Proof.
  intros (A1 & A2 & A3 & A4 & A5 & A6 & A7 & A8 & A9) (B1 & B2 & B3 & B4 & B5 & B6 & B7 & B8 & B9). unfold after. repeat (split; [congruence |]). rewrite A4, A5 in *. rewrite map_app, fold_left_app, running_app, map_app. 
  rewrite <- A7. split; [exact B7 |]. rewrite B8, A8, B9, A9, !app_assoc. auto.
Qed.
Fixpoint starts_from (a : nat) (ns : list nat) : list nat := match ns with [] => [] | k :: t => a :: starts_from (a + k) t end.
Lemma more_episodes k eps : Forall (fun ep => ep <> []) eps -> forall x, learning x = true -> logging x = true -> sized (lrn x) ->
  Forall (Forall (fun i => backward_ok F VJP n (theta (lrn x)) (fst (fst i)) /\ fits n i)) eps ->
  (last (seqidx x) 0 < length (rewards x))%nat ->
  exists x', agent_run F VJP k x (doEpisodes eps) = Ok (Some x') /\ after x (concat eps) x' /\ seqidx x' = seqidx x ++ starts_from (length (rewards x)) (map (@length _) eps).
Proof.
  induction 1 as [|ep eps NE Hne IH]; intros x LN LG S H LT.
  - exists x. split; [reflexivity |]. cbn. rewrite app_nil_r. split; [| reflexivity]. unfold after. cbn. rewrite !app_nil_r. tauto.
  - apply Forall_cons_iff in H as [H1 H]. cbn [doEpisodes flat_map app]. cbn [agent_run agent_step]. unfold newEpisode. rewrite LG. destruct (Nat.eqb_spec (length (rewards x)) 0) as [Z | _]; [lia |]. destruct (Nat.eqb_spec (last (seqidx x) 0%nat) (length (rewards x))) as [Z | _]; [lia |]. cbn [rbind].
    set (y := mkAgent (lrn x) (lastobs x) (lastaction x) (lastreward x) (rewards x) (seqidx x ++ [length (rewards x)]) (learning x) true).
    destruct (interactions_run k ep y LN eq_refl S H1) as (z & E & A & I). change (flat_map (fun ep => NewEpisode :: flat_map oneInteraction ep) eps) with (doEpisodes eps). rewrite agent_run_app, E. cbn [rbind].
    pose proof A as (A1 & A2 & A3 & A4 & A5 & A6 & A7 & A8 & A9). cbn [y lrn rewards] in A4, A5, A6, A7, A8, A9.
    destruct (IH z A1 A2 A3) as (x' & E' & B & J).
    + rewrite A4. exact H.
    + rewrite I, A9. cbn [y seqidx]. rewrite last_last, app_length, map_length. destruct ep; [congruence | cbn; lia].
    + exists x'. split; [exact E' |]. split; [cbn [concat]; apply (after_trans x ep z (concat eps) x'); [exact A | exact B] |]. rewrite J, I, A9. cbn [y seqidx map starts_from]. rewrite <- app_assoc, app_length, map_length. reflexivity.
Qed.
Lemma skipn_twice {A} k a (l : list A) : skipn k (skipn a l) = skipn (a + k) l.
Proof. revert l. induction a as [|a IH]; intros [|x l]; cbn [skipn Nat.add]; auto. now rewrite skipn_nil. Qed.
Lemma starts_len a ns : length (starts_from a ns) = length ns.
Proof. revert a. induction ns as [|k ns IH]; intros a; cbn; auto. Qed.
Lemma slices {A} ns : forall a (rows : list A), length rows = (a + list_sum ns)%nat ->
  map (fun j => seq_slice (starts_from a ns) j rows) (seq 0 (length ns)) = pieces ns (skipn a rows).
Proof.
  induction ns as [|k ns IH]; intros a rows HL; [reflexivity |]. cbn [length seq map starts_from pieces list_sum fold_right] in *. rewrite <- seq_shift, map_map. f_equal.
  - unfold seq_slice. cbn [length nth]. rewrite starts_len. destruct ns as [|k' ns].
    + cbn [length Nat.eqb]. rewrite firstn_all2; [reflexivity |]. rewrite skipn_length. cbn in HL. lia.
    + cbn [length Nat.eqb starts_from nth]. unfold slice. rewrite skipn_firstn_comm. replace (a + k - a)%nat with k by lia. reflexivity.
  - rewrite skipn_twice. rewrite <- IH by (unfold list_sum in *; lia). apply map_ext. intros j. unfold seq_slice. cbn [length nth]. rewrite starts_len. cbn [Nat.eqb]. reflexivity.
Qed.
Lemma pieces_concat {A} (ls : list (list A)) : pieces (map (@length _) ls) (concat ls) = ls.
Proof. induction ls as [|l ls IH]; cbn [map concat pieces]; [reflexivity |]. rewrite firstn_app, firstn_all, Nat.sub_diag, skipn_app, skipn_all, Nat.sub_diag. cbn. rewrite app_nil_r, IH. reflexivity. Qed.
Lemma list_sum_concat {A} (ls : list (list A)) : list_sum (map (@length _) ls) = length (concat ls).
Proof. induction ls as [|l ls IH]; [reflexivity |]. cbn [map concat]. rewrite app_length, <- IH. reflexivity. Qed.
Lemma pieces_nonempty {A} ns : forall rows : list A, Forall (fun k => k <> 0%nat) ns -> length rows = list_sum ns -> Forall (fun p => p <> []) (pieces ns rows).
Proof.
  induction ns as [|k ns IH]; intros rows H HL; cbn [pieces]; [constructor |]. apply Forall_cons_iff in H as [H1 H]. cbn [list_sum fold_right] in HL. fold (list_sum ns) in HL. constructor.
  - destruct rows as [|r rows]; [cbn in HL; lia |]. destruct k; [congruence | discriminate].
  - apply IH; auto. rewrite skipn_length. unfold list_sum in *. lia.
Qed.
Lemma forallb_map {A B} (f : A -> B) (g : B -> bool) l : forallb (fun a => g (f a)) l = forallb g (map f l).
Proof. induction l as [|x l IH]; cbn; [reflexivity | rewrite IH; reflexivity]. Qed.

Lemma session k l eps : sized l -> loglh l = [] -> eps <> [] -> Forall (fun ep => ep <> []) eps ->
  Forall (Forall (fun i => backward_ok F VJP n (theta l) (fst (fst i)) /\ fits n i)) eps ->
  exists x, agent_run F VJP k (new_agent l) (doEpisodes eps) = Ok (Some x) /\ after (new_agent l) (concat eps) x /\
  seqidx x = starts_from 0 (map (@length _) eps) /\
  let rows := running (D l) (map (contribution VJP (theta l) (sigma l)) (concat eps)) in
  let L := map (sum_rows (t + n)) (pieces (map (@length _) eps) rows) in
  loglh (lrn x) = rows /\
  sequence_sums (t + n) (seqidx x) (loglh (lrn x)) = L /\ sequence_returns (seqidx x) (rewards x) = map return_of eps /\
  calculateGradient Reinforce (lrn x) (seqidx x) (rewards x) = Ok (reinforce (t + n) L (map return_of eps)) /\
  forall pinv, calculateGradient (ENAC pinv) (lrn x) (seqidx x) (rewards x) = Ok (map Some (enac pinv L (map return_of eps))).
Proof.
  intros S LL NE Hne H. destruct eps as [|ep eps]; [congruence |]. apply Forall_cons_iff in Hne as [N1 Hne]. apply Forall_cons_iff in H as [H1 H].
  destruct (interactions_run k ep (new_agent l) eq_refl eq_refl S H1) as (y & E & A & I). pose proof A as (A1 & A2 & A3 & A4 & A5 & A6 & A7 & A8 & A9). cbn [new_agent lrn rewards app] in A4, A5, A6, A7, A8, A9.
  destruct (more_episodes k eps Hne y A1 A2 A3) as (x & E' & B & J).
  { rewrite A4. exact H. }
  { rewrite I, A9, map_length. cbn. destruct ep; [congruence | cbn; lia]. }
  exists x. assert (RN : agent_run F VJP k (new_agent l) (doEpisodes (ep :: eps)) = Ok (Some x)).
  { cbn [doEpisodes flat_map app agent_run agent_step newEpisode new_agent logging rewards length Nat.eqb rbind]. unfold newEpisode. cbn [new_agent logging rewards length Nat.eqb rbind]. fold (new_agent l). change (flat_map (fun ep => NewEpisode :: flat_map oneInteraction ep) eps) with (doEpisodes eps). rewrite agent_run_app, E. exact E'. }
  assert (AF : after (new_agent l) (concat (ep :: eps)) x) by (cbn [concat]; eapply after_trans; eauto).
  assert (SI : seqidx x = starts_from 0 (map (@length _) (ep :: eps))) by (rewrite J, I, A9, map_length; reflexivity).
  split; [exact RN |]. split; [exact AF |]. split; [exact SI |]. cbv zeta. destruct AF as (C1 & C2 & C3 & C4 & C5 & C6 & C7 & C8 & C9). cbn [new_agent lrn rewards app] in C4, C5, C7, C8, C9. rewrite LL in C8. cbn [app] in C8.
  set (rows := running (D l) (map (contribution VJP (theta l) (sigma l)) (concat (ep :: eps)))) in *. assert (LR : length rows = list_sum (map (@length _) (ep :: eps))) by (unfold rows; rewrite running_len, map_length, list_sum_concat; reflexivity).
  assert (GL : length (gdvalues (lrn x)) = (t + n)%nat) by (destruct C3 as (Q1 & Q2 & _ & _ & Q5); rewrite Q5, app_length; lia).
  assert (SS : sequence_sums (t + n) (seqidx x) (loglh (lrn x)) = map (sum_rows (t + n)) (pieces (map (@length _) (ep :: eps)) rows)).
  { unfold sequence_sums. rewrite SI, C8, starts_len. rewrite <- (map_map (fun j => seq_slice (starts_from 0 (map (@length _) (ep :: eps))) j rows)). rewrite slices by (rewrite LR; lia). reflexivity. }
  assert (SR : sequence_returns (seqidx x) (rewards x) = map return_of (ep :: eps)).
  { unfold sequence_returns. rewrite SI, C9, starts_len. rewrite <- (map_map (fun j => seq_slice (starts_from 0 (map (@length _) (ep :: eps))) j (map snd (concat (ep :: eps)))) rsum).
    rewrite slices by (rewrite map_length, list_sum_concat; lia). cbn [skipn]. rewrite concat_map.
    transitivity (map rsum (pieces (map (@length R) (map (map snd) (ep :: eps))) (concat (map (map snd) (ep :: eps))))); [| rewrite pieces_concat, map_map; reflexivity].
    do 2 f_equal. rewrite map_map. apply map_ext. intros. symmetry. apply map_length. }
  split; [exact C8 |]. split; [exact SS |]. split; [exact SR |]. unfold calculateGradient. rewrite GL, SS, SR. split; [| reflexivity].
  replace (forallb _ _) with true; [reflexivity |]. symmetry. rewrite (forallb_map (fun j => seq_slice (seqidx x) j (loglh (lrn x))) (fun p => match p with [] => false | _ => true end)). rewrite SI, C8, starts_len, slices by (rewrite LR; lia). cbn [skipn].
  apply forallb_forall. intros p Hp. assert (Q : Forall (fun p => p <> []) (pieces (map (@length _) (ep :: eps)) rows)).
  { apply pieces_nonempty; auto. apply Forall_map. constructor; [destruct ep; [congruence | discriminate] |]. eapply Forall_impl; [| exact Hne]. intros q Hq. destruct q; [congruence | discriminate]. }
  rewrite Forall_forall in Q. specialize (Q p Hp). destruct p; congruence.
Qed.
End Run.
