(** C69: the coevolution optimizers. *)
From Coq Require Import QArith Qround Permutation Lia Sorting.Sorted Lqa Qabs.
From Verif Require Import Base StableSort Dict Coevo_Model Coevo_Spec Coevo_Proofs Coevo_Proofs2 Coevo_Proofs3 Coevo_Proofs4 Coevo_Proofs5 Coevo_Proofs6 Coevo_Proofs7.

Lemma greedy_ext B f1 f2 : (forall p, f1 p == f2 p)%Q -> forall n from rel res, greedy B f1 n from rel res -> greedy B f2 n from rel res.
Proof.
  intros H n from rel res G. induction G as [|n from rel best before after bb rel' res Ef Hb Hd Nr Hr _ IH]; [constructor|].
  econstructor; [exact Ef|exact Hb| |exact Nr|exact Hr|exact IH]. intros p Hp. destruct (Hd p Hp) as [X|[X Y]]; [left; exact X|right].
  split; [exact X|]. cbn [snd] in *. rewrite <- !H. exact Y.
Qed.

Section C69.
Context {P : Type} (mutate randomize : P -> nat -> P) (average : Q -> P -> P -> P) (ev : nat -> nat -> nat -> Q) (d : nat -> nat) (c : cfg).
Notation st := (@st P).
(** a session: construction, then g generations *)
Definition session (k : kind) (ps : list P) (seeds : list nat) (g : nat) (s : st) : Prop :=
  exists sd s0, construct mutate randomize d c k ps seeds = Ok (sd, s0) /\ generations mutate average ev d c g k s0 = Ok s.
Lemma session_inv k ps seeds g s : settings c -> seedsOk c k ps seeds -> session k ps seeds g s -> exists L, inv ev c k L s /\ generation s = g.
Proof using.
  intros SE SO (sd & s0 & E & Eg). destruct (construct_ok mutate randomize ev d c k ps seeds SE SO) as (sd' & s0' & E' & I & F & _).
  rewrite E in E'. injection E' as <- <-. destruct (generations_ok mutate average ev d c g k [] s0 SE I) as (s' & L & Es & Is & Hg & _).
  rewrite Eg in Es. injection Es as <-. exists L. split; [exact Is|]. destruct F as (_ & _ & _ & F & _). lia.
Qed.
(** sensible settings and seeds: no session ever raises *)
Theorem C69_never_raises k ps seeds g : settings c -> seedsOk c k ps seeds -> exists s, session k ps seeds g s.
Proof using.
  intros SE SO. destruct (construct_ok mutate randomize ev d c k ps seeds SE SO) as (sd & s0 & E & I & _).
  destruct (generations_ok mutate average ev d c g k [] s0 SE I) as (s & L & Es & _). exists s, sd, s0. auto.
Qed.
(** the dictionaries are exactly a ledger of genuine games, played in rounds of two *)
Theorem C69_books k ps seeds g s : settings c -> seedsOk c k ps seeds -> session k ps seeds g s ->
  exists L, rounds L /\ genuine ev L /\ steps s = length L
  /\ (forall p q, match rget (p, q) (results s) with
      | None => scores L p q = []
      | Some e => scores L p q <> [] /\ e_list e = scores L p q /\ e_total e = length (scores L p q) /\ e_won e = wins (scores L p q) /\ e_score e = qsum (scores L p q)
      end)
  /\ (forall p, match dget p (opponents s) with None => started L p = [] | Some l => l = started L p end).
Proof using.
  intros SE SO S. destruct (session_inv _ _ _ _ _ SE SO S) as (L & I & _). destruct (i_good _ _ _ _ _ I) as ((A & B & C) & D & E).
  exists L. split; [exact D|]. split; [exact E|]. split; [exact A|]. split.
  - intros p q. rewrite B. unfold entry_of. destruct (scores L p q) eqn:Es; [reflexivity|]. cbn [e_list e_total e_won e_score]. repeat split; congruence || discriminate.
  - intro p. rewrite C. unfold starts_of. destruct (started L p); reflexivity.
Qed.
(** the relative score: antisymmetric, zero before the first meeting, within the range of the evaluator, exact for an antisymmetric evaluator *)
Theorem C69_beats k ps seeds g s : settings c -> seedsOk c k ps seeds -> session k ps seeds g s ->
  exists L, good ev L s /\ (forall h p, exists q, beats s h p = Ok q /\ (q == meanScore L h p)%Q
    /\ (exists q', beats s p h = Ok q' /\ (q' == - q)%Q)
    /\ (~ met L h p -> (q == 0)%Q)
    /\ (forall B, (forall i a b, (Qabs (ev i a b) <= B)%Q) -> (Qabs q <= B)%Q)
    /\ (forall r, (forall i a b, (ev i a b == r a b)%Q) -> (forall a b, (r a b == - r b a)%Q) -> met L h p -> (q == r h p)%Q)).
Proof using.
  intros SE SO S. destruct (session_inv _ _ _ _ _ SE SO S) as (L & I & _). pose proof (i_good _ _ _ _ _ I) as G. pose proof G as (_ & R & GN).
  exists L. split; [exact G|]. intros h p. exists (empirical L h p). split; [apply (beats_spec ev); exact G|]. pose proof (empirical_mean L h p R) as E.
  split; [exact E|]. split; [|split; [|split]].
  - exists (empirical L p h). split; [apply (beats_spec ev); exact G|]. rewrite E, (empirical_mean L p h R). pose proof (mean_anti L h p). lra.
  - intro Hm. rewrite E. apply mean_unmet; auto.
  - intros B HB. rewrite E. eapply mean_bound; eauto.
  - intros r H1 H2 Hm. rewrite E. eapply mean_exact; eauto.
Qed.
(** the shape of the populations and of the hall of fame *)
Theorem C69_session k ps seeds g s : settings c -> seedsOk c k ps seeds -> session k ps seeds g s ->
  generation s = g /\ length (pop s) = c_size c /\ NoDup (pop s) /\ length (oldPops s) = g /\ length (hofits s) = g
  /\ Forall2 (fun best l => In best l) (hof s) (oldPops s)
  /\ Forall (fun l => length l = c_size c /\ NoDup l) (oldPops s)
  /\ Forall (fun l => length l = numSelected c /\ descending l) (hofits s)
  /\ match k with
     | Base => True
     | Competitive => length (parasites s) = c_size c /\ NoDup (parasites s)
     | Multi n => length (pops s) = n /\ Forall (fun l => length l = c_size c /\ NoDup l) (pops s) /\ mainpop s = g mod n /\ nth_error (pops s) (mainpop s) = Some (pop s)
     end.
Proof using.
  intros SE SO S. destruct (session_inv _ _ _ _ _ SE SO S) as (L & [G K W (Op1 & Op2 & Op3) OO HH HG HF HT HK] & Hg).
  repeat (split; [solve [auto; congruence]|]). split; [eapply Forall_impl; [|exact OO]; intros l (A & B & _); auto|]. split; [exact HT|].
  destruct k as [| |n]; [exact I|destruct HK as (A & B & _); auto|]. destruct HK as (A & B & C & D & E). split; [exact B|].
  split; [eapply Forall_impl; [|exact C]; intros l (X & Y & _); auto|]. split; [congruence|]. rewrite E. apply nth_error_nth'. rewrite B, D. apply Nat.mod_upper_bound. lia.
Qed.
(** everything that the next generation does: who plays whom, who is best, who reproduces, who plays next *)
Theorem C69_generation k ps seeds g s : settings c -> seedsOk c k ps seeds -> session k ps seeds g s ->
  exists s' fits rs L L' np, oneGeneration mutate average ev d c k s = Ok s' /\ good ev L s /\ good ev L' s' /\ generationOf mutate average ev d c k L L' s s' fits rs np.
Proof using.
  intros SE SO S. destruct (session_inv _ _ _ _ _ SE SO S) as (L & I & _).
  destruct (generation_spec mutate average ev d c k L s SE I) as (s' & fits & rs & L' & np & E & I' & GO).
  exists s', fits, rs, L, L', np. split; [exact E|]. split; [apply I|]. split; [apply I'|exact GO].
Qed.
(** the fitness of one population: the total of the mean scores against the opponents and the hall of fame *)
Theorem C69_fitness_base ps seeds g s : settings c -> seedsOk c Base ps seeds -> session Base ps seeds g s ->
  exists fits s1 L L' opps hf rs, evaluate ev d c Base (startGeneration s) = Ok (fits, s1) /\ good ev L s /\ good ev L' s1 /\ ledger_of L rs L'
  /\ Forall2 (fun p f => (f == mixAbs c p (relativeSum L' opps p + relativeSum L' hf p))%Q) (pop s) fits
  /\ (if c_shared c then greedy (Wins L) (weightedScore L) (tournamentSize c - hofTournSize c (startGeneration s)) (pop s) (pop s) opps else opps = pop s)
  /\ (if Nat.ltb 0 (hofTournSize c (startGeneration s)) then Permutation (nodup Nat.eq_dec (hof s)) hf else hf = [])
  /\ (exists r1 r2, rs = r1 ++ r2 /\ schedule opps (Nat.min (tournamentSize c - hofTournSize c (startGeneration s)) (length opps)) (pop s) r1
      /\ schedule hf (hofTournSize c (startGeneration s)) (pop s) r2).
Proof using.
  intros SE SO S. destruct (session_inv _ _ _ _ _ SE SO S) as (L & [G K W (Op1 & Op2 & Op3) OO HH HG HF HT HK] & _). set (s0 := startGeneration s).
  assert (G0 : good ev L s0) by (destruct G as ((A & B & C) & D & F); repeat split; auto).
  assert (El : last (oldPops s0) [] = pop s) by apply last_last.
  destruct (evaluateBase_spec ev d c L s0 G0 Op2) as (fits & s1 & rs & L' & opps & hf & E & HP & G1 & HL & Ho & Hhf & Hsch & F).
  - rewrite El. exact Op2.
  - apply hof_bound. exact SE.
  - intro Hs. change (pop s0) with (pop s). rewrite Op1. pose proof (set_shared c SE Hs). lia.
  - rewrite El in Ho. exists fits, s1, L, L', opps, hf, rs. split; [exact E|]. split; [exact G|]. split; [exact G1|]. split; [exact HL|]. split; [exact F|]. split; [|split; [exact Hhf|exact Hsch]].
    destruct (c_shared c); [|exact Ho]. eapply greedy_ext; [|exact Ho]. intro p. apply (gscore_spec ev L s0 p G0).
Qed.
(** the fitness with two populations: shared fitness *)
Theorem C69_fitness_competitive ps seeds g s : settings c -> seedsOk c Competitive ps seeds -> session Competitive ps seeds g s ->
  exists fits s1 L L' opps rs, let h := hofTournSize c (startGeneration s) in let t := Nat.min (tournamentSize c - h) (length opps) in
  evaluate ev d c Competitive (startGeneration s) = Ok (fits, s1) /\ good ev L s /\ good ev L' s1 /\ ledger_of L rs L'
  /\ Forall2 (fun p f => (f == if Nat.ltb 0 h then inject_Z (Z.of_nat t) * sharedFit L' (pop s) (parasites s) p + inject_Z (Z.of_nat h) * sharedFit L' (pop s) (hof s) p
                               else sharedFit L' (pop s) (parasites s) p)%Q) (pop s) fits
  /\ (if c_shared c && Nat.ltb 1 g then greedy (Wins L) (weightedScore L) (tournamentSize c - h) (parasites s) (last (oldPops s) []) opps else opps = parasites s)
  /\ (exists r1 r2, rs = r1 ++ r2 /\ schedule opps t (pop s) r1 /\ (if Nat.ltb 0 h then schedule (hof s) h (pop s) r2 else r2 = [])).
Proof using.
  intros SE SO S. destruct (session_inv _ _ _ _ _ SE SO S) as (L & [G K W (Op1 & Op2 & Op3) OO HH HG HF HT (Hp1 & Hp2 & Hp3)] & Hg). set (s0 := startGeneration s).
  assert (G0 : good ev L s0) by (destruct G as ((A & B & C) & D & F); repeat split; auto).
  assert (OO0 : Forall (okp c s0) (oldPops s0)). { apply Forall_app. split; [exact OO|]. constructor; [|constructor]. repeat split; auto. }
  destruct (evaluateCompetitive_spec ev d c L s0 G0 Hp2 (nth_old_ok c s0 _ OO0)) as (fits & s1 & rs & L' & opps & E & HP & G1 & HL & Ho & Hsch & F).
  - apply hof_bound. exact SE.
  - intro Hs. change (parasites s0) with (parasites s). rewrite Hp1. pose proof (set_shared c SE Hs). lia.
  - exists fits, s1, L, L', opps, rs. cbv zeta. split; [exact E|]. split; [exact G|]. split; [exact G1|]. split; [exact HL|]. split; [exact F|]. split; [|exact Hsch].
    change (generation s0) with (1 + generation s) in Ho. rewrite Hg in Ho. destruct (c_shared c); cbn [andb] in *; [|exact Ho].
    change (2 <? 1 + g) with (1 <? g) in Ho. destruct (Nat.ltb_spec 1 g) as [Hlt|_]; [|exact Ho].
    eapply greedy_ext with (f1 := gscore s0); [intro p; apply (gscore_spec ev L s0 p G0)|].
    replace (last (oldPops s) []) with (nth (length (oldPops s0) - 2) (oldPops s0) []); [exact Ho|].
    change (oldPops s0) with (oldPops s ++ [pop s]). rewrite app_length. cbn [length].
    destruct (oldPops s) as [|a t] eqn:Eo using rev_ind; [cbn [length] in HG; lia|]. rewrite last_last, app_length, <- app_assoc. cbn [length app].
    replace (length t + 1 + 1 - 2) with (length t) by lia. rewrite app_nth2 by lia. rewrite Nat.sub_diag. reflexivity.
Qed.
(** the fitness with many populations: the mean scores against everybody of every other population, but games only against the first half of each *)
Theorem C69_fitness_multi n ps seeds g s : settings c -> seedsOk c (Multi n) ps seeds -> session (Multi n) ps seeds g s ->
  exists fits s1 L L' rs, evaluate ev d c (Multi n) (startGeneration s) = Ok (fits, s1) /\ good ev L s /\ good ev L' s1 /\ ledger_of L rs L'
  /\ Forall2 (fun p f => (f == mixAbs c p (relativeSum L' (concat (others s)) p))%Q) (pop s) fits
  /\ schedules (pop s) (tournamentSize c) (map bestPart (others s)) rs.
Proof using.
  intros SE SO S. destruct (session_inv _ _ _ _ _ SE SO S) as (L & [G K W (Op1 & Op2 & Op3) OO HH HG HF HT HK] & Hg). set (s0 := startGeneration s).
  assert (G0 : good ev L s0) by (destruct G as ((A & B & C) & D & F); repeat split; auto).
  destruct (evaluateMulti_spec ev d c L s0 G0) as (fits & s1 & rs & L' & E & HP & G1 & HL & HS & F).
  exists fits, s1, L, L', rs. split; [exact E|]. split; [exact G|]. split; [exact G1|]. split; [exact HL|]. split; [exact F|exact HS].
Qed.
(** with a single population the multi-population variant never evaluates anything *)
Theorem C69_multi_single (s : st) : pops s = [pop s] ->
  exists fits, evaluateMulti ev d c s = Ok (fits, s) /\ Forall2 (fun p f => (f == mixAbs c p 0)%Q) (pop s) fits.
Proof using.
  intro H. assert (Eo : others s = []). { unfold others. rewrite H. cbn [filter]. destruct (list_eq_dec Nat.eq_dec (pop s) (pop s)); [reflexivity|congruence]. }
  unfold evaluateMulti. rewrite Eo. cbn [fold_left concat beatSum rbind]. rewrite (rmap_ok _ (fun p => mixAbs c p 0%Q)) by reflexivity. cbn [rbind].
  eexists. split; [reflexivity|]. clear H Eo. induction (pop s) as [|x l IH]; cbn [map]; constructor; [reflexivity|exact IH].
Qed.
(** a run stays within its budget of games and generations *)
Theorem C69_budget k ps seeds g s fuel maxSteps best s' : settings c -> seedsOk c k ps seeds -> session k ps seeds g s -> (match k with Multi _ => False | _ => True end) ->
  learn mutate average ev d c fuel k maxSteps s = Ok (best, s') ->
  (forall m, maxSteps = Some m -> steps s' <= steps s + m) /\ (forall m, c_maxEval c = Some m -> steps s' <= Nat.max (steps s) m)
  /\ (forall m, c_maxGen c = Some m -> generation s' <= Nat.max g m).
Proof using.
  intros SE SO S Hk H. destruct (session_inv _ _ _ _ _ SE SO S) as (L & I & Hg). unfold learn in H.
  destruct (loop mutate average ev d c fuel k match maxSteps with Some m => Some (m + steps s) | None => None end s) as [s1|e] eqn:E; [|discriminate].
  cbn [rbind] in H. destruct (rev (hof s1)); [discriminate|]. injection H as _ <-.
  destruct (loop_budget _ _ _ _ _ _ _ _ _ _ _ SE I Hk E) as (A & B & C). rewrite Hg in C. split; [|split; [exact B|exact C]].
  intros m Hm. subst maxSteps. specialize (A _ eq_refl). lia.
Qed.
(** learning is some number of generations, exactly until a limit is hit, and returns the best of the last one *)
Theorem C69_learn k ps seeds g s fuel maxSteps best s' : settings c -> seedsOk c k ps seeds -> session k ps seeds g s ->
  learn mutate average ev d c fuel k maxSteps s = Ok (best, s') ->
  exists n, session k ps seeds (g + n) s' /\ generations mutate average ev d c n k s = Ok s' /\ In best (last (oldPops s') []) /\ last (hof s') 0 = best
  /\ let limit := match maxSteps with Some m => Some (m + steps s) | None => None end in
     stop c limit s' = true /\ (forall h sh, h < n -> generations mutate average ev d c h k s = Ok sh -> stop c limit sh = false).
Proof using.
  intros SE SO S H. unfold learn in H.
  destruct (loop mutate average ev d c fuel k match maxSteps with Some m => Some (m + steps s) | None => None end s) as [s1|e] eqn:E; [|discriminate].
  cbn [rbind] in H. destruct (rev (hof s1)) as [|b t] eqn:Er; [discriminate|]. injection H as <- <-.
  destruct (loop_generations _ _ _ _ _ _ _ _ _ _ E) as (n & Gn & St & Hn). exists n.
  assert (S' : session k ps seeds (g + n) s1).
  { destruct S as (sd & s0 & Ec & Eg). exists sd, s0. split; [exact Ec|]. clear - Eg Gn. revert s0 Eg. induction g as [|g IH]; intros s0 Eg; cbn [generations Nat.add] in *.
    - injection Eg as <-. exact Gn.
    - destruct (oneGeneration mutate average ev d c k s0) as [s2|e]; [|discriminate]. cbn [rbind] in *. apply IH. exact Eg. }
  split; [exact S'|]. split; [exact Gn|]. assert (Eh : hof s1 = rev t ++ [b]) by (rewrite <- (rev_involutive (hof s1)), Er; reflexivity).
  split; [|split; [rewrite Eh; apply last_last|split; [exact St|exact Hn]]].
  destruct (session_inv _ _ _ _ _ SE SO S') as (L & I & _). pose proof (i_hof _ _ _ _ _ I) as HH. rewrite Eh in HH. apply Forall2_app_inv_l in HH.
  destruct HH as (l1 & l2 & _ & H2 & Eo). inversion H2 as [|? l ? ? Hb Hr]; subst. inversion Hr; subst. rewrite Eo, last_last. exact Hb.
Qed.
(** it ends: always with a limit on the generations; with a limit on the games if games are played *)
Theorem C69_terminates k ps seeds g s : settings c -> seedsOk c k ps seeds -> session k ps seeds g s ->
  (forall m maxSteps, c_maxGen c = Some m -> g < m \/ 0 < g -> exists fuel, learn mutate average ev d c fuel k maxSteps s <> Err OutOfFuel)
  /\ (k = Base -> plain c -> 2 <= c_size c -> 1 <= tournamentSize c -> forall m, exists fuel, learn mutate average ev d c fuel k (Some m) s <> Err OutOfFuel).
Proof using.
  intros SE SO S. destruct (session_inv _ _ _ _ _ SE SO S) as (L & I & Hg). split.
  - intros m maxSteps Hm _. destruct (loop_maxGen mutate average ev d c k L s m match maxSteps with Some m => Some (m + steps s) | None => None end SE I Hm) as (s' & E).
    eexists. unfold learn. rewrite E. cbn [rbind]. destruct (rev (hof s')); discriminate.
  - intros -> PL H2 H1 m. destruct (base_terminates mutate average ev d c L s (m + steps s) SE PL I H2 H1) as (s' & E).
    eexists. unfold learn. rewrite E. cbn [rbind]. destruct (rev (hof s')); discriminate.
Qed.
(** the exact number of games of a generation *)
Theorem C69_games ps seeds g s s' : settings c -> plain c -> seedsOk c Base ps seeds -> session Base ps seeds g s -> oneGeneration mutate average ev d c Base s = Ok s' ->
  steps s' = steps s + 2 * (c_size c * Nat.min (tournamentSize c) (c_size c - 1)).
Proof using. intros SE PL SO S E. destruct (session_inv _ _ _ _ _ SE SO S) as (L & I & _). eapply base_games; eauto. Qed.
(** a population of one never uses up its budget *)
Theorem C69_forever_refuted ps seeds g s m fuel : settings c -> plain c -> seedsOk c Base ps seeds -> session Base ps seeds g s ->
  c_size c = 1 -> c_maxGen c = None -> c_maxEval c = None -> stepsPerGeneration c <= m -> learn mutate average ev d c fuel Base (Some m) s = Err OutOfFuel.
Proof using.
  intros SE PL SO S H1 Hg He Hm. destruct (session_inv _ _ _ _ _ SE SO S) as (L & I & _). unfold learn.
  rewrite (base_forever mutate average ev d c L s (m + steps s) fuel SE PL I H1 Hg He) by lia. reflexivity.
Qed.
(** without elitism the shared sampling of opponents knows nothing: nobody of the new population has played before *)
Theorem C69_sampling_blind_refuted ps seeds g s : settings c -> seedsOk c Base ps seeds -> session Base ps seeds g s -> c_elitism c = false ->
  forall p q, In p (pop s) -> beats s p q = Ok 0%Q /\ globalScore s p = Ok 0%Q.
Proof using.
  intros SE SO (sd & s0 & E & Eg) Hel p q Hp. destruct (construct_ok mutate randomize ev d c Base ps seeds SE SO) as (sd' & s0' & E' & I & F & _).
  rewrite E in E'. injection E' as <- <-. destruct (untried mutate average ev d c [] g s0 s SE I) as (L & Is & U); auto.
  - intros a b _ [r []].
  - pose proof (i_good _ _ _ _ _ Is) as G. pose proof G as ((_ & _ & Ho) & _ & _). split.
    + rewrite (beats_spec ev L s p q G). unfold empirical. destruct (scores L p q) eqn:Es; [reflexivity|]. exfalso. apply (U p q Hp). apply scores_met. congruence.
    + unfold globalScore. rewrite Ho. unfold starts_of. destruct (started L p) as [|o l] eqn:Es; [reflexivity|]. exfalso. apply (U p o Hp). apply started_In. rewrite Es. left. reflexivity.
Qed.
(** two populations never mix; without hall-of-fame games nobody plays their own lineage, so the sampling of parasites relative to the previous hosts (their ancestors) knows nothing *)
Theorem C69_lineages ps seeds g s : settings c -> (c_hof c == 0)%Q -> seedsOk c Competitive ps seeds -> session Competitive ps seeds g s ->
  exists L col, good ev L s /\ (forall p, In p (pop s) -> col p = Nat.even g) /\ (forall p, In p (parasites s) -> col p = negb (Nat.even g))
  /\ (forall p q, met L p q -> col p <> col q)
  /\ (forall p q, In p (parasites s) -> In q (last (oldPops s) []) -> beats s p q = Ok 0%Q).
Proof using.
  intros SE Hh SO (sd & s0 & E & Eg). destruct (construct_ok mutate randomize ev d c Competitive ps seeds SE SO) as (sd' & s0' & E' & I & F & (_ & DJ)).
  rewrite E in E'. injection E' as <- <-.
  assert (U0 : lineages [] s0 (fun x => existsb (Nat.eqb x) (pop s0)) true).
  { constructor.
    - intros p Hp. apply existsb_exists. exists p. split; [exact Hp|apply Nat.eqb_refl].
    - intros p Hp. cbn [negb]. destruct (existsb (Nat.eqb p) (pop s0)) eqn:Ex; [|reflexivity]. apply existsb_exists in Ex. destruct Ex as (x & Hx & Ex). apply Nat.eqb_eq in Ex. subst x. destruct (DJ _ Hx Hp).
    - intros p q [r []].
    - destruct F as (_ & _ & _ & _ & _ & _ & F). rewrite F. intros p []. }
  destruct (lineages_hold mutate average ev d c [] g s0 s _ true SE Hh I U0 Eg) as (L & col & Is & [A B C D]).
  pose proof (i_good _ _ _ _ _ Is) as G. assert (Ev : (if Nat.even g then true else negb true) = Nat.even g) by (destruct (Nat.even g); reflexivity). rewrite Ev in *.
  exists L, col. split; [exact G|]. split; [exact A|]. split; [exact B|]. split; [exact C|]. intros p q Hp Hq.
  rewrite (beats_spec ev L s p q G). unfold empirical. destruct (scores L p q) eqn:Es; [reflexivity|]. exfalso.
  apply (C p q); [apply scores_met; congruence|]. rewrite (B p Hp), (D q Hq). reflexivity.
Qed.
(** the shared sampling is the greedy cover it is meant to be; asking for too many raises *)
Theorem C69_sampling L n from rel (s : st) : good ev L s -> NoDup from -> NoDup rel ->
  (n <= length from -> exists res m, sharedSampling d n from rel s = Ok (res, tick m s) /\ greedy (Wins L) (weightedScore L) n from rel res
     /\ length res = n /\ NoDup res /\ (forall x, In x res -> In x from))
  /\ (length from < n -> sharedSampling d n from rel s = Err IndexError)
  /\ (forall p, exists q, globalScore s p = Ok q /\ (q == weightedScore L p)%Q).
Proof using.
  intros G Nf Nr. destruct (shared_spec ev d L n from rel s G Nf Nr) as [A B]. split; [|split; [exact B|intro p; exists (gscore s p); apply (gscore_spec ev); exact G]].
  intro Hn. destruct (A Hn) as (res & m & E & Hg). exists res, m. split; [exact E|]. split; [eapply greedy_ext; [|exact Hg]; intro p; apply (gscore_spec ev L s p G)|].
  destruct (greedy_facts _ _ _ _ _ _ Hg) as [Hl (rest & Hp)]. split; [exact Hl|]. split; [|intros x Hx; rewrite Hp; apply in_or_app; auto].
  rewrite Hp in Nf. apply NoDup_app_l in Nf. exact Nf.
Qed.
(** a beaten parasite is worth one point in all, and nobody gets more than the number of their decided pairings *)
Theorem C69_sharing L hosts ps : (qsum (map (shareOf L hosts ps) hosts) == inject_Z (Z.of_nat (length (filter (fun p => Nat.ltb 0 (beatenByHosts L hosts p)) ps))))%Q
  /\ (forall h, In h hosts -> (0 <= shareOf L hosts ps h <= inject_Z (Z.of_nat (length (filter (fun p => negb (undecided L h p)) ps))))%Q).
Proof using. split; [apply shares_total|]. intros h Hh. split; [apply shareOf_nonneg|apply shareOf_le; exact Hh]. Qed.
(** without elitism parentChildAverage changes nothing: the averages are computed on a copy of the list and dropped *)
Theorem C69_averaging_lost_refuted a l fits (s : st) : c_elitism c = false ->
  match selectAndReproduce mutate average d c l fits s, selectAndReproduce mutate average d (with_avg a c) l fits s with
  | Ok (l1, s1), Ok (l2, s2) => l1 = l2 /\ map fst (mem s1) = map fst (mem s2)
  | Err e1, Err e2 => e1 = e2
  | _, _ => False
  end.
Proof using.
  intro Hel. assert (T : twins s s) by (split; reflexivity). pose proof (averaging_lost mutate average d c a l fits s s Hel T) as H. unfold agree in H.
  destruct (selectAndReproduce mutate average d c l fits s) as [[l1 s1]|e1], (selectAndReproduce mutate average d (with_avg a c) l fits s) as [[l2 s2]|e2]; try tauto.
  destruct H as [A [B _]]. auto.
Qed.
(** nobody selected, or nobody evaluated yet: IndexError *)
Theorem C69_none_selected k (s : st) fits s1 : numSelected c = 0 -> 0 < c_size c -> evaluate ev d c k (startGeneration s) = Ok (fits, s1) -> fits <> [] ->
  length fits = length (pop s1) -> oneGeneration mutate average ev d c k s = Err IndexError.
Proof using.
  intros H0 Hs E Hf Hl. unfold oneGeneration. rewrite E. cbn [rbind]. destruct (argmax_spec fits Hf) as (i & Ea & (x & Hx & _)). rewrite Ea. cbn [rbind].
  destruct (nth_error (pop s1) i); [|reflexivity]. rewrite reproduce_none by assumption. reflexivity.
Qed.
Theorem C69_no_generation ps seeds k s fuel m : settings c -> seedsOk c k ps seeds -> session k ps seeds 0 s -> m < stepsPerGeneration c ->
  learn mutate average ev d c (S fuel) k (Some m) s = Err IndexError.
Proof using.
  intros SE SO S Hm. destruct (session_inv _ _ _ _ _ SE SO S) as (L & I & Hg). unfold learn. cbn [loop].
  replace (stop c (Some (m + steps s)) s) with true.
  - cbn [rbind]. pose proof (i_hof _ _ _ _ _ I) as HH. pose proof (i_gen _ _ _ _ _ I) as HG. rewrite Hg in HG. destruct (oldPops s); [|discriminate]. inversion HH as [E|]. reflexivity.
  - symmetry. unfold stop. apply Bool.orb_true_iff. left. apply Bool.orb_true_iff. left. cbn [beyond]. apply Nat.ltb_lt. lia.
Qed.
(** the list of seeds given by the caller is left alone, except that many populations extend it in place *)
Theorem C69_seeds k ps seeds sd s : settings c -> seedsOk c k ps seeds -> construct mutate randomize d c k ps seeds = Ok (sd, s) ->
  match k with Multi n => sd = seeds ++ seq (length ps) (n - length seeds) | _ => sd = seeds end.
Proof using.
  clear ev average. intros SE SO E. destruct (construct_ok mutate randomize (fun _ _ _ => 0%Q) d c k ps seeds SE SO) as (sd' & s' & E' & _ & _ & H). rewrite E in E'. injection E' as <- <-.
  destruct k; tauto.
Qed.
End C69.

(** ** concrete sessions: an individual encodes a number; the younger one wins *)
Definition mut1 (x k : nat) : nat := x + k mod 3.
Definition ran1 (x k : nat) : nat := 10 * x + k.
Definition avg1 (q : Q) (x y : nat) : nat := (x + y) / 2.
Definition ev1 (i a b : nat) : Q := inject_Z (Z.of_nat a - Z.of_nat b).
Definition d1 (k : nat) : nat := 7 * k * k + 3.
Definition cfg1 : cfg :=
  {| c_size := 4; c_sel := 1 # 2; c_elitism := true; c_avg := 1; c_tourn := Some 2; c_hof := 0; c_shared := false; c_abs := None; c_absProp := 0; c_maxGen := None; c_maxEval := None |}.
Definition cfg2 : cfg :=
  {| c_size := 4; c_sel := 1 # 2; c_elitism := false; c_avg := 1; c_tourn := Some 3; c_hof := 1 # 3; c_shared := true; c_abs := None; c_absProp := 0; c_maxGen := Some 3; c_maxEval := None |}.
Example settings_ex : settings cfg1 /\ settings cfg2 /\ plain cfg1.
Proof. split; [|split]; [split|split|split; [reflexivity|]]; vm_compute; try lia; try discriminate; reflexivity. Qed.
Example seeds_ex k : k = Base \/ k = Competitive \/ k = Multi 3 -> seedsOk cfg1 k [1; 5; 2; 3; 4; 6] [0; 1] /\ seedsOk cfg2 k [1; 5; 2; 3; 4; 6] [0; 1].
Proof.
  intro H. assert (N : NoDup [0; 1]) by (repeat constructor; cbn; lia).
  split; split; try exact N; try discriminate; try (cbn; lia); try (repeat constructor; cbn; lia); destruct H as [H|[H|H]]; subst k; auto; lia.
Qed.
Definition run (c : cfg) (k : kind) (seeds : list nat) (fuel : nat) (m : option nat) : result (nat * @st nat) :=
  let! r := construct mut1 ran1 d1 c k [1; 5; 2; 3; 4; 6] seeds in learn mut1 avg1 ev1 d1 c fuel k m (snd r).
Definition view (r : result (nat * @st nat)) : result (nat * nat * nat * list nat * list (list nat) * list nat) :=
  let! x := r in let s := snd x in Ok (fst x, steps s, generation s, hof s, oldPops s, pop s).
Example session_base_ex : view (run cfg1 Base [0; 1] 5 (Some 32)) = Ok (9, 32, 2, [6; 9], [[0; 1; 6; 7]; [6; 7; 8; 9]], [9; 8; 10; 11]).
Proof. vm_compute. reflexivity. Qed.
Example session_competitive_ex : view (run cfg1 Competitive [0; 1] 5 (Some 40)) = Ok (11, 32, 2, [7; 11], [[0; 6; 7; 8]; [1; 9; 10; 11]], [7; 8; 12; 13]).
Proof. vm_compute. reflexivity. Qed.
Example session_sampling_ex : view (run cfg2 Base [0; 1] 5 None) = Ok (15, 52, 3, [7; 11; 15], [[0; 1; 6; 7]; [8; 9; 10; 11]; [12; 13; 14; 15]], [16; 17; 18; 19]).
Proof. vm_compute. reflexivity. Qed.
Example session_hof_ex : view (run cfg2 Competitive [0; 1] 5 None) = Ok (15, 64, 3, [7; 11; 15], [[0; 6; 7; 8]; [1; 9; 10; 11]; [12; 13; 14; 15]], [16; 17; 18; 19]).
Proof. vm_compute. reflexivity. Qed.
(** many populations: more games than allowed *)
Theorem C69_multi_budget_refuted : view (run cfg1 (Multi 3) [0; 1] 5 (Some 48)) = Ok (12, 64, 2, [9; 12], [[0; 7; 8; 9]; [1; 10; 11; 12]], [6; 13; 14; 15]).
Proof. vm_compute. reflexivity. Qed.
(** more seeds than the population may have: a population that is too large, and more games than allowed *)
Theorem C69_seeds_budget_refuted : view (run cfg1 Base [0; 1; 2; 3; 4; 5] 5 (Some 16)) = Ok (4, 24, 1, [4], [[0; 1; 2; 3; 4; 5]], [4; 5; 6; 7]).
Proof. vm_compute. reflexivity. Qed.
(** one population out of one: no games, every limit on the games is never reached *)
Example multi_single_ex : view (run cfg1 (Multi 1) [0; 1] 5 (Some 16)) = Err OutOfFuel.
Proof. vm_compute. reflexivity. Qed.
(** the first generation has no hall of fame to play against, yet a game is reserved for it *)
Theorem C69_first_hof_refuted : exists c, c_shared c = false /\ settings c /\ stepsPerGeneration c = 24
  /\ view (run c Base [0; 1] 5 (Some 24)) = Ok (6, 16, 1, [6], [[0; 1; 6; 7]], [6; 7; 8; 9]).
Proof.
  exists {| c_size := 4; c_sel := 1 # 2; c_elitism := true; c_avg := 1; c_tourn := Some 3; c_hof := 1 # 3; c_shared := false; c_abs := None; c_absProp := 0; c_maxGen := None; c_maxEval := None |}.
  split; [reflexivity|]. split; [split; vm_compute; try lia; discriminate|]. split; [reflexivity|vm_compute; reflexivity].
Qed.
(** only the first half of another population is met, although its other half is better *)
Theorem C69_best_part_refuted : exists sd s, construct mut1 ran1 d1 cfg1 (Multi 3) [1; 5; 2; 3; 4; 6] [0; 1] = Ok (sd, s) /\ In [1; 10; 11; 12] (others s)
  /\ bestPart [1; 10; 11; 12] = [1; 10] /\ (forall p q, In p [11; 12] -> In q [1; 10] -> (0 < ev1 0 p q)%Q).
Proof.
  eexists. eexists. split; [vm_compute; reflexivity|]. split; [vm_compute; auto|]. split; [reflexivity|].
  intros p q [<-|[<-|[]]] [<-|[<-|[]]]; reflexivity.
Qed.
(** elitism with averaging: the best are replaced by averages *)
Theorem C69_elite_replaced_refuted : exists c, c_elitism c = true /\ settings c
  /\ view (run c Base [0; 1] 5 (Some 32)) = Ok (13, 32, 2, [6; 13], [[0; 1; 6; 7]; [10; 11; 12; 13]], [16; 17; 18; 19]).
Proof.
  exists {| c_size := 4; c_sel := 1 # 2; c_elitism := true; c_avg := 1 # 2; c_tourn := Some 2; c_hof := 0; c_shared := false; c_abs := None; c_absProp := 0; c_maxGen := None; c_maxEval := None |}.
  split; [reflexivity|]. split; [split; vm_compute; try lia; discriminate|vm_compute; reflexivity].
Qed.
(** the score over all evaluations weights every opponent by how often they were met: 2 points in 6 games, yet more than a half *)
Definition rated (i a b : nat) : Q :=
  match a, b with 0, 1 => 1%Q | 1, 0 => (-1)%Q | 0, 2 => (-1)%Q | 2, 0 => 1%Q | _, _ => 0%Q end.
Theorem C69_global_mean_refuted : exists L s, good rated L s /\ L = [(0, 1, 1%Q); (1, 0, (-1)%Q); (0, 1, 1%Q); (1, 0, (-1)%Q); (0, 2, (-1)%Q); (2, 0, 1%Q)]
  /\ (exists q, @globalScore nat s 0 = Ok q /\ (1 # 2 < q)%Q).
Proof.
  set (s0 := @blank nat [0; 0; 0]). assert (G0 : good rated [] s0) by (repeat split; try constructor; intros [|] ? ? ?; discriminate).
  assert (PL : play rated s0 [(0, 1); (0, 1); (0, 2)] (meet rated 0 (meet rated 0 (meet rated 0 s0 1) 1) 2)) by (do 3 (apply play_meet; [discriminate|]); apply play_nil).
  destruct (play_good rated s0 [(0, 1); (0, 1); (0, 2)] _ [] PL G0) as (L & G & HL). exists L. eexists. split; [exact G|].
  cbn [ledger_of app] in HL. destruct HL as (a1 & b1 & a2 & b2 & a3 & b3 & HL). subst L. destruct G as (_ & _ & GN). split.
  - rewrite (GN 0 _ _ _ eq_refl), (GN 1 _ _ _ eq_refl), (GN 2 _ _ _ eq_refl), (GN 3 _ _ _ eq_refl), (GN 4 _ _ _ eq_refl), (GN 5 _ _ _ eq_refl). reflexivity.
  - eexists. split; [vm_compute; reflexivity|reflexivity].
Qed.
(** the example at the end of coevolution.py is fulfilled *)
Definition en (w : nat) (q : Q) : entry := {| e_won := w; e_total := 1; e_score := q; e_list := [] |}.
Definition doc1 : @st nat :=
  {| mem := []; results := [((1, 2), en 1 1); ((2, 1), en 0 (-1)); ((2, 5), en 1 2); ((5, 2), en 0 (-1)); ((2, 3), en 1 3); ((3, 2), en 0 (-1)); ((4, 3), en 1 4); ((3, 4), en 0 (-1))];
     opponents := [(1, [2]); (2, [1; 5]); (3, [2; 4]); (4, [3]); (5, [2])]; steps := 0; generation := 0; hof := []; hofits := []; oldPops := []; pop := []; parasites := []; pops := []; mainpop := 0; clock := 0 |}.
Theorem C69_documented_sampling : exists s, sharedSampling d1 4 [1; 2; 3; 4; 5] [1; 2; 3; 4; 6; 7; 8; 9] doc1 = Ok ([4; 1; 2; 5], s).
Proof. eexists. vm_compute. reflexivity. Qed.
(** the example at the end of competitivecoevolution.py is not: [0.83, 0, 1.33, 0.83] is expected, before the division by the number of parasites that were played *)
Definition doc2 : @st nat :=
  let b s xy := {| mem := mem s; results := rset (snd xy, fst xy) (en 0 (-1)) (rset xy (en 1 1) (results s));
     opponents := (let o1 := dset (fst xy) (match dget (fst xy) (opponents s) with Some l => l | None => [] end ++ [snd xy]) (opponents s) in
                   dset (snd xy) (match dget (snd xy) o1 with Some l => l | None => [] end ++ [fst xy]) o1);
     steps := 0; generation := 0; hof := []; hofits := []; oldPops := []; pop := []; parasites := []; pops := []; mainpop := 0; clock := 0 |} in
  fold_left b [(1, 6); (1, 7); (8, 1); (5, 2); (6, 2); (8, 2); (3, 5); (3, 6); (3, 7); (4, 5); (4, 7); (8, 4)] (blank []).
Theorem C69_documented_fitness_refuted : exists fits, sharedFitness doc2 [1; 2; 3; 4] [5; 6; 7; 8] = Ok fits
  /\ Forall2 (fun f b => (fst b < f < snd b)%Q) fits [(27 # 100, 28 # 100); (- (1 # 100), 1 # 100); (44 # 100, 45 # 100); (27 # 100, 28 # 100)]%Q.
Proof. eexists. split; [vm_compute; reflexivity|]. repeat constructor. Qed.
Example forever_ex : exists c, settings c /\ plain c /\ c_size c = 1 /\ seedsOk c Base [1; 5; 2; 3; 4; 6] [0] /\ stepsPerGeneration c = 2 /\ view (run c Base [0] 50 (Some 2)) = Err OutOfFuel.
Proof.
  exists {| c_size := 1; c_sel := 1; c_elitism := true; c_avg := 1; c_tourn := None; c_hof := 0; c_shared := false; c_abs := None; c_absProp := 0; c_maxGen := None; c_maxEval := None |}.
  split; [split; vm_compute; try lia; discriminate|]. split; [split; reflexivity|]. split; [reflexivity|]. split; [|split; [reflexivity|vm_compute; reflexivity]].
  split; try discriminate; try (cbn; lia); repeat constructor; cbn; lia.
Qed.
(** a third of two is nobody *)
Example none_selected_ex : exists c, numSelected c = 0 /\ view (run c Base [0] 5 (Some 8)) = Err IndexError.
Proof.
  exists {| c_size := 2; c_sel := 1 # 3; c_elitism := true; c_avg := 1; c_tourn := None; c_hof := 0; c_shared := false; c_abs := None; c_absProp := 0; c_maxGen := None; c_maxEval := None |}.
  split; vm_compute; reflexivity.
Qed.
Example no_generation_ex : view (run cfg1 Base [0; 1] 5 (Some 15)) = Err IndexError.
Proof. vm_compute. reflexivity. Qed.
Example seeds_changed_ex : exists s, construct mut1 ran1 d1 cfg1 (Multi 3) [1; 5; 2; 3; 4; 6] [0; 1] = Ok ([0; 1; 6], s).
Proof. eexists. vm_compute. reflexivity. Qed.

(** the numbers the settings stand for: the whole part of the proportions, everybody by default, averaging only below 1 *)
Theorem C69_settings (c : cfg) : (0 <= c_sel c)%Q ->
  (forall k, numSelected c = k <-> (inject_Z (Z.of_nat k) <= inject_Z (Z.of_nat (c_size c)) * c_sel c)%Q /\ (inject_Z (Z.of_nat (c_size c)) * c_sel c < inject_Z (Z.of_nat (S k)))%Q)
  /\ tournamentSize c = match c_tourn c with Some n => n | None => c_size c end
  /\ (averaging c = true <-> (c_avg c < 1)%Q).
Proof.
  intro H0. split; [|split; [reflexivity|]].
  - intro k. unfold numSelected, floor_nat. set (q := (inject_Z (Z.of_nat (c_size c)) * c_sel c)%Q).
    assert (Hq : (0 <= q)%Q) by (unfold q; apply Qmult_le_0_compat; [change 0%Q with (inject_Z 0); rewrite <- Zle_Qle; lia|exact H0]).
    pose proof (Qfloor_le q) as A. pose proof (Qlt_floor q) as B. assert (C : (0 <= Qfloor q)%Z) by (change 0%Z with (Qfloor 0); apply Qfloor_resp_le; exact Hq). split.
    + intros <-. rewrite Nat2Z.inj_succ, Z2Nat.id by exact C. split; [exact A|exact B].
    + intros [D E]. assert (X : (inject_Z (Z.of_nat k) < inject_Z (Qfloor q + 1))%Q) by (eapply Qle_lt_trans; [exact D|exact B]).
      assert (Y : (inject_Z (Qfloor q) < inject_Z (Z.of_nat (S k)))%Q) by (eapply Qle_lt_trans; [exact A|exact E]). rewrite <- Zlt_Qlt in X, Y. lia.
  - unfold averaging. rewrite negb_true_iff. split.
    + intro H. apply Qnot_le_lt. intro X. apply Qle_bool_iff in X. congruence.
    + intro H. destruct (Qle_bool 1 (c_avg c)) eqn:E; [|reflexivity]. apply Qle_bool_iff in E. exfalso. apply (Qlt_not_le _ _ H E).
Qed.

Print Assumptions C69_never_raises.
Print Assumptions C69_books.
Print Assumptions C69_beats.
Print Assumptions C69_session.
Print Assumptions C69_generation.
Print Assumptions C69_fitness_base.
Print Assumptions C69_fitness_competitive.
Print Assumptions C69_fitness_multi.
Print Assumptions C69_multi_single.
Print Assumptions C69_budget.
Print Assumptions C69_learn.
Print Assumptions C69_terminates.
Print Assumptions C69_games.
Print Assumptions C69_forever_refuted.
Print Assumptions C69_sampling_blind_refuted.
Print Assumptions C69_lineages.
Print Assumptions C69_sampling.
Print Assumptions C69_sharing.
Print Assumptions C69_averaging_lost_refuted.
Print Assumptions C69_none_selected.
Print Assumptions C69_no_generation.
Print Assumptions C69_seeds.
Print Assumptions C69_multi_budget_refuted.
Print Assumptions C69_seeds_budget_refuted.
Print Assumptions C69_first_hof_refuted.
Print Assumptions C69_best_part_refuted.
Print Assumptions C69_elite_replaced_refuted.
Print Assumptions C69_global_mean_refuted.
Print Assumptions C69_documented_sampling.
Print Assumptions C69_documented_fitness_refuted.
(** how an absolute evaluation enters the fitness, and how many games are reserved for the hall of fame *)
Theorem C69_mixture (c : cfg) : (0 <= c_hof c)%Q ->
  (forall p x, c_abs c = None \/ (c_absProp c <= 0)%Q -> mixAbs c p x = x)
  /\ (forall f p x, c_abs c = Some f -> (0 < c_absProp c)%Q -> (mixAbs c p x == x + c_absProp c * (f p - x))%Q)
  /\ (forall s : st (P := nat), hofTournSize c s <= generation s /\ (inject_Z (Z.of_nat (hofTournSize c s)) <= inject_Z (Z.of_nat (tournamentSize c)) * c_hof c)%Q
      /\ (hofTournSize c s < generation s -> (inject_Z (Z.of_nat (tournamentSize c)) * c_hof c < inject_Z (Z.of_nat (S (hofTournSize c s))))%Q)).
Proof.
  intro H0. split; [|split].
  - intros p x [E|E]; unfold mixAbs; [rewrite E; reflexivity|]. destruct (c_abs c); [|reflexivity]. destruct (Qle_bool (c_absProp c) 0) eqn:X; [reflexivity|]. apply Qle_bool_iff in E. congruence.
  - intros f p x E H. unfold mixAbs. rewrite E. destruct (Qle_bool (c_absProp c) 0) eqn:X; [apply Qle_bool_iff in X; lra|]. ring.
  - intro s. unfold hofTournSize, floor_nat. set (q := (inject_Z (Z.of_nat (tournamentSize c)) * c_hof c)%Q).
    assert (Hq : (0 <= q)%Q) by (unfold q; apply Qmult_le_0_compat; [change 0%Q with (inject_Z 0); rewrite <- Zle_Qle; lia|exact H0]).
    pose proof (Qfloor_le q) as A. pose proof (Qlt_floor q) as B. assert (C : (0 <= Qfloor q)%Z) by (change 0%Z with (Qfloor 0); apply Qfloor_resp_le; exact Hq).
    split; [lia|]. split.
    + apply (Qle_trans _ (inject_Z (Qfloor q))); [rewrite <- Zle_Qle; lia|exact A].
    + intro L. eapply Qlt_le_trans; [exact B|]. rewrite <- Zle_Qle. lia.
Qed.
Print Assumptions C69_settings.
Print Assumptions C69_mixture.
