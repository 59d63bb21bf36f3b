(** C77: exploration with discrete actions, and neuro-fitted Q-learning. *)
From Coq Require Import Reals Lra Lia.
From Verif Require Import Base Functions_Model Functions_Proofs LinearFA_Model LinearFA_Proofs Players_Model Players_Spec Players_Proofs Players_Proofs3
  Explorers_Model Explorers_Spec Explorers_Proofs Explorers_Proofs2 Explorers_Proofs3.
Local Open Scope R_scope.

(** ** learner, explorer and module *)
(** Whatever is assigned to a learner in whatever order, its explorer knows its module - if modules have parameters. *)
Theorem C77_wiring truth e0 t0 ws : (forall m, In (SetModule m) ws -> truth m = true) ->
  forall l t, rewires truth (newLearner e0) t0 ws = (l, t) -> forall e m, l_explorer l = Some e -> l_module l = Some m -> t e = Some m.
Proof.
  intros TR. assert (G : forall ws l t, (forall m, In (SetModule m) ws -> truth m = true) -> (forall m, l_module l = Some m -> truth m = true) ->
    (forall e m, l_explorer l = Some e -> l_module l = Some m -> t e = Some m) ->
    forall l' t', rewires truth l t ws = (l', t') -> forall e m, l_explorer l' = Some e -> l_module l' = Some m -> t' e = Some m).
  { clear. induction ws as [|w ws IH]; intros l t TR TM INV l' t' H; cbn [rewires] in H; [injection H as <- <-; exact INV |].
    destruct (rewire truth l t w) as [[l1 t1] r] eqn:W. refine (IH l1 t1 _ _ _ l' t' H); [intros m Hm; apply TR; right; exact Hm | |].
    - destruct w as [m0 | e0]; cbn [rewire] in W.
      + injection W as <- _ _. cbn [l_module]. intros m E. injection E as <-. apply TR. left. reflexivity.
      + assert (E : l_module l1 = l_module l) by (cbv zeta in W; cbn [l_module] in W; destruct (l_module l) as [m|] eqn:M; [destruct (truth m); [destruct e0 |] |]; injection W as <- _ _; cbn [l_module]; auto).
        rewrite E. exact TM.
    - destruct w as [m0 | e0]; cbn [rewire] in W.
      + injection W as <- <- _. cbn [l_module l_explorer]. intros e m He Hm. injection Hm as <-. rewrite He, Nat.eqb_refl. reflexivity.
      + cbv zeta in W. cbn [l_module] in W. destruct (l_module l) as [m1|] eqn:M.
        * rewrite (TM m1 eq_refl) in W. destruct e0 as [e0|]; injection W as <- <- _; cbn [l_module l_explorer]; intros e m He Hm; [| discriminate].
          injection He as <-. try rewrite M in Hm. injection Hm as <-. rewrite Nat.eqb_refl. reflexivity.
        * injection W as <- <- _. cbn [l_module l_explorer]. intros e m _ Hm. try rewrite M in Hm. discriminate. }
  apply (G ws (newLearner e0) t0 TR); cbn; intros; discriminate.
Qed.
Example C77_wiring_ex : exists t, rewires (fun _ => true) (newLearner 0) (fun _ => None) [SetExplorer (Some 1%nat); SetModule 7; SetExplorer (Some 2%nat); SetModule 8] =
  ({| l_module := Some 8%nat; l_explorer := Some 2%nat |}, t) /\ t 2%nat = Some 8%nat /\ t 1%nat = Some 7%nat.
Proof. eexists. split; [reflexivity |]. split; reflexivity. Qed.
(** A module without parameters counts as false: an explorer assigned after it is not told of it and its first exploration raises. *)
Theorem C77_untold_refuted truth e0 t0 e m : truth m = false -> e <> e0 -> t0 e = None ->
  exists l t, rewires truth (newLearner e0) t0 [SetModule m; SetExplorer (Some e)] = (l, t) /\ l_module l = Some m /\ l_explorer l = Some e /\ t e = None.
Proof.
  intros T N U. cbn [rewires rewire newLearner l_module l_explorer]. rewrite T. eexists. eexists. split; [reflexivity |]. split; [reflexivity |]. split; [reflexivity |].
  cbn. rewrite (proj2 (Nat.eqb_neq e e0) N). exact U.
Qed.
(** Taking the explorer away (explorer = None) raises once the learner has a module, and takes effect nevertheless. *)
Theorem C77_none_refuted truth l t m : l_module l = Some m -> truth m = true ->
  rewire truth l t (SetExplorer None) = ({| l_module := Some m; l_explorer := None |}, t, Err AttributeError).
Proof. intros M T. unfold rewire. cbn [l_module]. rewrite M, T. reflexivity. Qed.
(** Two learners sharing an explorer: it knows the module of the one that got its module last. *)
Theorem C77_shared_refuted t e m1 m2 : m1 <> m2 ->
  let '(a, t1, _) := rewire (fun _ => true) (newLearner e) t (SetModule m1) in
  let '(b, t2, _) := rewire (fun _ => true) (newLearner e) t1 (SetModule m2) in
  l_explorer a = Some e /\ l_module a = Some m1 /\ t2 e = Some m2 /\ t2 e <> l_module a.
Proof. intros N. cbn. rewrite Nat.eqb_refl. split; [reflexivity |]. split; [reflexivity |]. split; [reflexivity |]. congruence. Qed.

Section Explorers.
Context {St : Type} (rowOf : St -> nat) (inputOf : St -> vec) (net : vec -> vec -> R).
Notation agentRun := (agentRun rowOf inputOf net).
Notation best := (best rowOf inputOf net).
Notation worth := (worth rowOf inputOf net).
Notation getMaxAction := (getMaxAction rowOf inputOf net).

(** ** the greedy action *)
(** A table chooses evenly among the best actions, *)
Theorem C77_max_table rows cols p s : fit_for rowOf (TableM rows cols p) s -> equal_chances (best (TableM rows cols p) s) (getMaxAction (TableM rows cols p) s).
Proof. apply max_table. Qed.
(** a network takes the first of them. *)
Theorem C77_max_network n p s i : (0 < n)%nat ->
  exists a, getMaxAction (NetM n p) s i = Ok a /\ best (NetM n p) s a /\ forall b, (b < a)%nat -> worth (NetM n p) s b < worth (NetM n p) s a.
Proof. intros H. exact (max_net rowOf inputOf net n p s i H). Qed.
(** The list of action values agrees with the values asked for one by one. *)
Theorem C77_values n p s : exists v, getActionValues rowOf inputOf net (NetM n p) s = Ok v /\ length v = n /\
  forall a, ((a < n)%nat -> netValue inputOf net n p s a = Ok (nth a v 0) /\ nth a v 0 = net p (inputOf s ++ hot n a)) /\ ((n <= a)%nat -> netValue inputOf net n p s a = Err IndexError).
Proof.
  exists (map (netWorth inputOf net n p s) (seq 0 n)). split; [apply netValues |]. split; [rewrite map_length, seq_length; reflexivity |]. intros a. split; intros H.
  - rewrite nth_map_seq, netValue_ok by exact H. split; reflexivity.
  - unfold netValue. rewrite hot_bad by exact H. reflexivity.
Qed.

(** ** EpsilonGreedyExplorer *)
(** After any history, the action is random exactly when the draw is below epsilon times decay to the number of explored actions; then it is any action with the same chance,
    and otherwise one of the best according to what was last learned.  Actions taken without learning do not count. *)
Theorem C77_egreedy m eps dec pre acts g s tie u i :
  let now := setParams m (learned (paramsOf m) pre) in
  let eps' := eps * dec ^ explored pre in
  agentRun (newAgent m (newEGreedy eps dec)) pre = Ok (acts, g) -> fit_for rowOf now s ->
  exists a g', agentRun (newAgent m (newEGreedy eps dec)) (pre ++ [Act s tie u i]) = Ok (acts ++ [a], g') /\
    (u < eps' -> a = (i mod numActions m)%nat) /\ (eps' <= u -> getMaxAction now s tie = Ok a /\ best now s a).
Proof.
  intros now eps' R F. rewrite run_app, R. cbn [rbind fst snd Explorers_Model.agentRun agentStep]. pose proof (run_module _ _ _ _ _ _ _ R) as M. cbn [newAgent ag_module] in M. fold now in M.
  assert (X : ag_explorer g = EGreedy eps' dec) by exact (run_egreedy _ _ _ _ _ _ _ _ _ R). rewrite M, X.
  destruct (max_ok rowOf inputOf net now s tie F) as (a & A). rewrite A. cbn [rbind explore].
  assert (N : numActions now = numActions m) by (unfold now; destruct m; reflexivity). destruct (values_worth rowOf inputOf net now s F) as [_ P]. rewrite N in P.
  assert (RI : randint (numActions now) i = Ok (i mod numActions m)%nat) by (unfold randint; rewrite N; destruct (numActions m); [lia | reflexivity]). rewrite RI.
  destruct (Rlt_dec u eps') as [L | L]; cbn [rbind fst snd app].
  - eexists. eexists. split; [reflexivity |]. split; [reflexivity | lra].
  - eexists. eexists. split; [reflexivity |]. split; [intros; contradiction |]. intros _. split; [reflexivity | eapply max_best; eassumption].
Qed.
(** Exploration fades: the chances of random actions in a run of any length add up to less than epsilon / (1 - decay). *)
Theorem C77_fading eps dec N : 0 <= eps -> 0 <= dec < 1 -> sum_f_R0 (fun k => Rmin 1 (eps * dec ^ k)) N <= eps / (1 - dec).
Proof.
  intros E D. apply Rle_trans with (eps * ((1 - dec ^ S N) / (1 - dec))).
  - rewrite <- tech3 by lra. rewrite scal_sum. apply sum_Rle. intros k _. rewrite Rmult_comm. apply Rmin_r.
  - unfold Rdiv. rewrite <- Rmult_assoc. apply Rmult_le_compat_r; [left; apply Rinv_0_lt_compat; lra |]. pose proof (pow_le dec (S N) (proj1 D)). nra.
Qed.

(** ** BoltzmannExplorer *)
(** After any history the action is drawn with fixed probabilities.  The temperature is tau times decay to the number of explored actions.  No probability is below exp(-40) / n, so
    the choice never becomes greedy; actions within 40 temperatures of the best are chosen in the ratio of exp(value / temperature), those farther away exp(-40) times as
    often as the best; and when all values lie within d temperatures, every action has probability 1/n up to a factor of exp d. *)
Theorem C77_boltzmann m tau dec pre acts g s :
  let now := setParams m (learned (paramsOf m) pre) in
  let T := tau * dec ^ explored pre in
  let n := numActions m in
  agentRun (newAgent m (newBoltzmann tau dec)) pre = Ok (acts, g) -> fit_for rowOf now s -> 0 < tau -> 0 < dec ->
  exists ps, length ps = n /\ fold_right Rplus 0 ps = 1 /\
    (forall u tie i, 0 <= u < 1 -> exists a g', picks ps u a /\ agentRun (newAgent m (newBoltzmann tau dec)) (pre ++ [Act s tie u i]) = Ok (acts ++ [a], g')) /\
    (forall a, (a < n)%nat -> exp (-40) / INR n <= nth a ps 0) /\
    (forall a b, (a < n)%nat -> (b < n)%nat -> (forall c, (c < n)%nat -> worth now s c - 40 * T <= worth now s a /\ worth now s c - 40 * T <= worth now s b) ->
       nth a ps 0 = nth b ps 0 * exp ((worth now s a - worth now s b) / T)) /\
    (forall a b, (a < n)%nat -> best now s b -> worth now s a <= worth now s b - 40 * T -> nth a ps 0 = exp (-40) * nth b ps 0) /\
    (forall d a, (a < n)%nat -> (forall b c, (b < n)%nat -> (c < n)%nat -> worth now s b - worth now s c <= d * T) -> exp (- d) / INR n <= nth a ps 0 <= exp d / INR n).
Proof.
  intros now T n R F T0 D0. assert (N : numActions now = n) by (unfold now, n; destruct m; reflexivity). destruct (values_worth rowOf inputOf net now s F) as [V P]. rewrite N in V, P.
  set (vals := map (worth now s) (seq 0 n)) in *. assert (Lv : length vals = n) by (unfold vals; rewrite map_length, seq_length; reflexivity).
  assert (NE : vals <> []) by (intros E; rewrite E in Lv; cbn in Lv; lia). assert (TP : 0 < T) by (apply Rmult_lt_0_compat; [exact T0 | apply pow_lt, D0]).
  assert (Vn : forall a, (a < n)%nat -> nth a vals 0 = worth now s a) by (intros a Ha; unfold vals; apply nth_map_seq, Ha).
  assert (Vi : forall v, In v vals -> exists a, (a < n)%nat /\ v = worth now s a) by (intros v Hv; apply in_map_iff in Hv as (a & <- & Ha); apply in_seq in Ha; exists a; split; [lia | reflexivity]).
  exists (gibbsProbs vals T). split; [rewrite g_length; exact Lv |]. split; [exact (g_sum vals T NE TP) |]. split; [| split; [| split; [| split]]].
  - intros u tie i Hu. destruct (g_draw vals T NE TP u i Hu) as (k & E & K). rewrite run_app, R. cbn [rbind fst snd Explorers_Model.agentRun agentStep].
    pose proof (run_module _ _ _ _ _ _ _ R) as M. cbn [newAgent ag_module] in M. fold now in M.
    assert (X : ag_explorer g = Boltzmann T dec) by exact (run_boltzmann _ _ _ _ _ _ _ _ _ R). rewrite M, X.
    destruct (max_ok rowOf inputOf net now s tie F) as (a & A). rewrite A. cbn [rbind explore]. rewrite V. cbn [rbind]. rewrite E. cbn [rbind fst snd app]. eexists. eexists. split; [exact K | reflexivity].
  - intros a Ha. rewrite <- Lv. apply g_least; [exact NE | exact TP | rewrite Lv; exact Ha].
  - intros a b Ha Hb H. rewrite <- !Vn by assumption. apply g_ratio; [exact NE | exact TP | rewrite Lv; exact Ha | rewrite Lv; exact Hb |].
    intros w Hw. destruct (Vi w Hw) as (c & Hc & ->). rewrite !Vn by assumption. apply H, Hc.
  - intros a b Ha [Hb B] H. rewrite N in Hb, B. apply g_far; [exact NE | exact TP | rewrite Lv; exact Ha | rewrite Lv; exact Hb | | rewrite !Vn by assumption; exact H].
    intros w Hw. destruct (Vi w Hw) as (c & Hc & ->). rewrite Vn by assumption. apply B, Hc.
  - intros d a Ha H. rewrite <- Lv. apply g_even; [exact NE | exact TP | rewrite Lv; exact Ha |].
    intros v w Hv Hw. destruct (Vi v Hv) as (b & Hb & ->), (Vi w Hw) as (c & Hc & ->). apply H; assumption.
Qed.
(** With tau = 0 the choice is greedy, evenly among the best. *)
Theorem C77_boltzmann_zero m s u : fit_for rowOf m s ->
  equal_chances (best m s) (fun i => let! ax := explore rowOf inputOf net (Some m) (Boltzmann 0 0) s 0 u i in Ok (fst ax)).
Proof.
  intros F. destruct (values_worth rowOf inputOf net m s F) as [V P]. set (vals := map (worth m s) (seq 0 (numActions m))) in *.
  assert (Lv : length vals = numActions m) by (unfold vals; rewrite map_length, seq_length; reflexivity).
  apply equal_ext with (d := choice (LinearFA_Model.where_eq (vmax vals) 0 vals)).
  - intros i. cbn [explore]. rewrite V. cbn [rbind]. unfold drawGibbs. destruct (Req_EM_T 0 0) as [_|C]; [| contradiction]. destruct vals as [|x l] eqn:E; [cbn in Lv; lia |].
    destruct (choice _ i); reflexivity.
  - apply choice_equal; [apply Players_Proofs4.where_eq_NoDup | apply where_nonempty; exact P | intros a; apply vmax_best; exact P].
Qed.

(** ** DiscreteStateDependentExplorer *)
(** Whatever epsilon and decay: in a thousandth of the cases the action is random, otherwise it is the best of a copy of the module, made and disturbed at the start of the episode. *)
Theorem C77_sde m eps dec pre acts g s tie u i :
  let held := setParams m (frozen (paramsOf m) pre) in
  agentRun (newAgent m (newSDE eps dec)) pre = Ok (acts, g) -> fit_for rowOf (setParams m (learned (paramsOf m) pre)) s -> fit_for rowOf held s ->
  exists a g', agentRun (newAgent m (newSDE eps dec)) (pre ++ [Act s tie u i]) = Ok (acts ++ [a], g') /\
    (u < 1 / 1000 -> a = (i mod numActions m)%nat) /\ (1 / 1000 <= u -> getMaxAction held s i = Ok a /\ best held s a).
Proof.
  intros held R F FH. rewrite run_app, R. cbn [rbind fst snd Explorers_Model.agentRun agentStep]. pose proof (run_module _ _ _ _ _ _ _ R) as M. cbn [newAgent ag_module] in M.
  set (now := setParams m (learned (paramsOf m) pre)) in *.
  assert (X : ag_explorer g = SDE (Some held)).
  { unfold newAgent, newSDE in R. cbn [setModule] in R. rewrite <- (setParams_same m) in R at 2. exact (run_sde _ _ _ _ _ _ _ _ R). }
  rewrite M, X. destruct (max_ok rowOf inputOf net now s tie F) as (a0 & A0). rewrite A0. cbn [rbind explore].
  destruct (max_ok rowOf inputOf net held s i FH) as (a & A). rewrite A.
  assert (N : numActions now = numActions m) by (unfold now; destruct m; reflexivity). destruct (values_worth rowOf inputOf net now s F) as [_ P]. rewrite N in P.
  assert (RI : randint (numActions now) i = Ok (i mod numActions m)%nat) by (unfold randint; rewrite N; destruct (numActions m); [lia | reflexivity]). rewrite RI.
  destruct (Rlt_dec u (1 / 1000)) as [L | L]; cbn [rbind fst snd app].
  - eexists. eexists. split; [reflexivity |]. split; [reflexivity | intros; lra].
  - eexists. eexists. split; [reflexivity |]. split; [intros; contradiction |]. intros _. split; [reflexivity | eapply max_best; eassumption].
Qed.
(** Nothing learned since the start of the episode has any influence on what is followed; without episodes, nothing learned ever has. *)
Theorem C77_sde_fixed p0 pre es : Forall (fun e => match e with NewEpisode _ => False | _ => True end) es -> frozen (St := St) p0 (pre ++ es) = frozen p0 pre.
Proof.
  intros F. unfold frozen. rewrite fold_left_app. generalize (fold_left (fun pc e => match e with
                              | Learn q => (q, snd pc)
                              | NewEpisode noise => (fst pc, map (fun xz => fst xz + snd xz / 100) (combine (fst pc) noise))
                              | _ => pc
                              end) pre (p0, p0)).
  induction F as [|e es H _ IH]; intros pc; [reflexivity |]. cbn [fold_left]. rewrite IH. destruct e; try reflexivity. destruct H.
Qed.
Theorem C77_sde_online_refuted p0 es : Forall (fun e => match e with NewEpisode _ => False | _ => True end) es -> frozen (St := St) p0 es = p0.
Proof. intros F. exact (C77_sde_fixed p0 [] es F). Qed.

(** ** NFQ *)
Section NFQ.
Context (gamma : R) (n : nat) (n_pos : (0 < n)%nat).
Notation experience := (@experience St).
(** The network is fitted to one sample per transition, half way between its present value and reward plus discounted best value of the next state.  Fewer than two transitions
    raise, and so does an action that does not exist (unless it is the last of its episode). *)
Theorem C77_nfq fit seqs p :
  nfqLearn rowOf inputOf net fit gamma n seqs p =
    if Forall_dec (valid n) (valid_dec n) (transitions seqs)
    then if le_dec 2 (length (transitions seqs)) then Ok (fit (map (halfway inputOf net gamma n p) (transitions seqs)) p) else Err ValueError
    else Err IndexError.
Proof using n_pos.
  unfold nfqLearn. destruct (Forall_dec _ _ _) as [V | V]; [| rewrite samples_bad by assumption; reflexivity]. rewrite samples_ok by assumption. cbn [rbind]. rewrite map_length.
  set (k := length (transitions seqs)). pose proof (split_sizes k) as SZ. destruct (le_dec 2 k) as [L | L].
  - rewrite (proj2 SZ L). reflexivity.
  - destruct ((0 <? k * 3 / 4)%nat && (0 <? k - k * 3 / 4)%nat)%bool; [exfalso; apply L, SZ; reflexivity | reflexivity].
Qed.
(** How many transitions there are. *)
Theorem C77_nfq_number (seqs : list (list experience)) : length (transitions seqs) = list_sum (map (fun q => length q - 1)%nat seqs).
Proof. unfold transitions. induction seqs as [|q seqs IH]; [reflexivity |]. cbn [flat_map map list_sum fold_right]. rewrite app_length, pairs_length, IH. reflexivity. Qed.
(** The last action and the last reward of an episode are never used: a task that rewards only at the end of an episode teaches nothing. *)
Theorem C77_nfq_end_refuted fit qs qs' p : Forall2 same_but_end qs qs' -> nfqLearn rowOf inputOf net fit gamma n qs p = nfqLearn rowOf inputOf net fit gamma n qs' p.
Proof using n_pos. intros H. unfold nfqLearn. rewrite (samples_end _ _ _ _ _ n_pos p _ _ H). reflexivity. Qed.
(** The targets are the present values exactly if these satisfy the optimality equation on the transitions. *)
Theorem C77_nfq_fixed seqs p :
  Forall (fun x => net p (fst x) = snd x) (map (halfway inputOf net gamma n p) (transitions seqs)) <-> bellman gamma n seqs (netWorth inputOf net n p).
Proof.
  rewrite Forall_map, Forall_forall, bellman_fixed. split; intros H t I; specialize (H t I); destruct t as [[[s a] r] [[s' a'] r']]; exact H.
Qed.
(** If every action has been tried in every state that was reached, and the trainer hits all targets each time, the values converge to the only solution of the optimality equation, and geometrically. *)
Lemma choose_limits (P : vec -> R -> Prop) (l : list vec) : (forall x, In x l -> exists y, P x y) -> exists L, forall x, In x l -> P x (L x).
Proof.
  induction l as [|x l IH]; intros H; [exists (fun _ => 0); intros x [] |]. destruct (IH (fun z Hz => H z (or_intror Hz))) as (L & HL). destruct (H x (or_introl eq_refl)) as (y & Hy).
  exists (fun z => if list_eq_dec Req_EM_T z x then y else L z). intros z Hz. destruct (list_eq_dec Req_EM_T z x) as [-> | N]; [exact Hy |]. destruct Hz as [E | Hz]; [congruence | apply HL, Hz].
Qed.
Theorem C77_nfq_converges (seqs : list (list experience)) (p : nat -> vec) : 0 <= gamma < 1 -> covered n seqs ->
  (forall k, exists ss, nfqSamples rowOf inputOf net gamma n (p k) seqs = Ok ss /\ Forall (fun x => net (p (S k)) (fst x) = snd x) ss) ->
  exists v, bellman gamma n seqs v /\
    (exists C, forall k s a r y, In (s, a, r, y) (transitions seqs) -> Rabs (netWorth inputOf net n (p k) s a - v s a) <= C * ((1 + gamma) / 2) ^ k) /\
    (forall w, bellman gamma n seqs w -> forall s a r y, In (s, a, r, y) (transitions seqs) -> w s a = v s a).
Proof using n_pos.
  intros G COV FIT. set (u := fun k => netWorth inputOf net n (p k)).
  assert (STEP : forall k t, In t (transitions seqs) -> at_of (u (S k)) t = upd_of gamma n (u k) t).
  { intros k t I. destruct (FIT k) as (ss & E & F). apply samples_iff in E as [_ ->]; [| exact n_pos]. rewrite Forall_map, Forall_forall in F. specialize (F t I).
    destruct t as [[[s a] r] [[s' a'] r']]. exact F. }
  destruct (limits gamma n n_pos seqs G COV u STEP) as (C & C0 & HC).
  set (inputs := map (fun t : experience * experience => inputOf (fst (fst (fst t))) ++ hot n (snd (fst (fst t)))) (transitions seqs)).
  destruct (choose_limits (fun x l => forall k, Rabs (net (p k) x - l) <= C * ((1 + gamma) / 2) ^ k) inputs) as (L & HL).
  { intros x Hx. apply in_map_iff in Hx as (t & <- & I). destruct (HC t I) as (l & Hl). exists l. destruct t as [[[s a] r] [[s' a'] r']]. exact Hl. }
  set (v := fun s a => L (inputOf s ++ hot n a)).
  assert (CV : forall k t, In t (transitions seqs) -> Rabs (at_of (u k) t - at_of v t) <= C * ((1 + gamma) / 2) ^ k).
  { intros k t I. assert (J : In (inputOf (fst (fst (fst t))) ++ hot n (snd (fst (fst t)))) inputs) by (apply in_map_iff; exists t; auto). specialize (HL _ J k). destruct t as [[[s a] r] [[s' a'] r']]. exact HL. }
  assert (FX : forall t, In t (transitions seqs) -> at_of v t = upd_of gamma n v t).
  { intros t I. apply Rminus_diag_uniq. destruct (Req_dec (at_of v t - upd_of gamma n v t) 0) as [Q|Q]; [exact Q |]. exfalso.
    assert (Z : Rabs (at_of v t - upd_of gamma n v t) <= 0); [| apply Rabs_no_R0 in Q; pose proof (Rabs_pos (at_of v t - upd_of gamma n v t)); lra].
    apply (small gamma G _ (2 * C)). intros k. pose proof (CV (S k) t I) as H1. rewrite (STEP k t I) in H1. rewrite Rabs_minus_sym in H1.
    pose proof (contract gamma n n_pos seqs G COV (u k) v _ (CV k) t I) as H2.
    replace (at_of v t - upd_of gamma n v t) with ((at_of v t - upd_of gamma n (u k) t) + (upd_of gamma n (u k) t - upd_of gamma n v t)) by ring.
    eapply Rle_trans; [apply Rabs_triang |]. cbn [pow] in H1. assert (0 <= ((1 + gamma) / 2) ^ k) by (apply pow_le; lra). set (z := ((1 + gamma) / 2) ^ k) in *. assert (0 <= C * z) by (apply Rmult_le_pos; assumption). nra. }
  exists v. split; [apply bellman_fixed, FX |]. split; [exists C; intros k s a r y I; exact (CV k _ I) |].
  intros w W s a r y I. exact (fixed_unique gamma n n_pos seqs G COV w v (proj1 (bellman_fixed gamma n seqs w) W) FX _ I).
Qed.
End NFQ.
End Explorers.

(** ** examples: the hypotheses can be met *)
Example C77_table_ex : fit_for (fun x : nat => x) (TableM 2 2 [1; 3; 2; 2]) 1%nat /\ best (fun x : nat => x) (fun _ => []) (fun _ _ => 0) (TableM 2 2 [1; 3; 2; 2]) 1%nat 0.
Proof.
  split; [cbn; lia |]. split; [cbn; lia |]. intros [|[|b]] H; cbn; try lra. cbn in H. lia.
Qed.
Example C77_run_ex : exists g, agentRun (fun x : nat => x) (fun _ => []) (fun _ _ => 0) (newAgent (TableM 2 2 [1; 3; 2; 2]) (newEGreedy (1 / 2) (1 / 2)))
   [Act 0%nat 0 (1 / 3) 0; Learn [1; 3; 5; 2]; ActGreedy 1%nat 0; Act 0%nat 0 (1 / 3) 0] = Ok ([0; 0; 1]%nat, g).
Proof.
  eexists. unfold newAgent, newEGreedy, setModule. cbn [agentRun agentStep ag_module ag_explorer getMaxAction getActionValues Nat.ltb Nat.leb Nat.mul Nat.add skipn firstn rbind].
  assert (V1 : vmax [1; 3] = 3) by (cbn; rewrite Rmax_right; lra). rewrite V1.
  assert (W1 : LinearFA_Model.where_eq 3 0 [1; 3] = [1%nat]) by (cbn; destruct (Req_EM_T 1 3); [lra |]; destruct (Req_EM_T 3 3); [reflexivity | lra]). rewrite W1. cbn [choice length Nat.modulo Nat.divmod snd Nat.sub nth_error rbind explore].
  destruct (Rlt_dec (1 / 3) (1 / 2)) as [_|C]; [| lra]. cbn [numActions randint Nat.eqb Nat.modulo Nat.divmod snd Nat.sub rbind fst setParams ag_module ag_explorer getMaxAction getActionValues Nat.ltb Nat.leb Nat.mul Nat.add skipn firstn].
  assert (V2 : vmax [5; 2] = 5) by (cbn; rewrite Rmax_left; lra). rewrite V2.
  assert (W2 : LinearFA_Model.where_eq 5 0 [5; 2] = [0%nat]) by (cbn; destruct (Req_EM_T 5 5); [| lra]; destruct (Req_EM_T 2 5); [lra | reflexivity]). rewrite W2. cbn [choice length Nat.modulo Nat.divmod snd Nat.sub nth_error rbind fst ag_module ag_explorer explore].
  cbn [getMaxAction getActionValues Nat.ltb Nat.leb Nat.mul Nat.add skipn firstn rbind]. rewrite V1, W1. cbn [choice length Nat.modulo Nat.divmod snd Nat.sub nth_error rbind fst ag_module ag_explorer explore].
  destruct (Rlt_dec (1 / 3) (1 / 2 * (1 / 2))) as [C|_]; [lra |]. cbn [rbind fst snd app]. reflexivity.
Qed.
(** one state, one action, reward 1, discount 1/2: the fitted values 2 - 2 (3/4)^k tend to 2 *)
Example C77_converges_ex : let netw := fun p x : vec => rdot p x in let seqs := [[(tt, 0%nat, 1); (tt, 0%nat, 1)]] in let p := fun k => [2 - 2 * (3 / 4) ^ k] in
  covered 1 seqs /\ forall k, exists ss, nfqSamples (fun _ => 0%nat) (fun _ => []) netw (1 / 2) 1 (p k) seqs = Ok ss /\ Forall (fun x => netw (p (S k)) (fst x) = snd x) ss.
Proof.
  cbv zeta. split.
  - intros x s' a' r' b I Hb. cbn in I. destruct I as [E | []]. injection E as _ <- _ _. assert (b = 0%nat) by lia. subst b. exists 1, (tt, 0%nat, 1). left. reflexivity.
  - intros k. eexists. split.
    + apply samples_ok; [lia |]. cbn. constructor; [unfold valid; cbn; lia | constructor].
    + cbn [transitions flat_map pairs tl combine app map]. constructor; [| constructor]. unfold halfway, maxover, netWorth, hot. cbn. unfold rdot. cbn. field.
Qed.

(** An explorer that has not been given a module raises; a new state-dependent one has no copy to act on. *)
Theorem C77_no_module {St} (rowOf : St -> nat) inputOf net m s a u i eps dec tau : explore rowOf inputOf net None (newEGreedy eps dec) s a u i = Err AssertionError /\
  explore rowOf inputOf net None (newBoltzmann tau dec) s a u i = Err AssertionError /\ explore rowOf inputOf net m (newSDE eps dec) s a u i = Err AttributeError.
Proof. split; [reflexivity |]. split; [reflexivity |]. destruct m; reflexivity. Qed.

Print Assumptions C77_wiring.
Print Assumptions C77_untold_refuted.
Print Assumptions C77_none_refuted.
Print Assumptions C77_shared_refuted.
Print Assumptions C77_max_table.
Print Assumptions C77_max_network.
Print Assumptions C77_values.
Print Assumptions C77_egreedy.
Print Assumptions C77_fading.
Print Assumptions C77_boltzmann.
Print Assumptions C77_boltzmann_zero.
Print Assumptions C77_sde.
Print Assumptions C77_sde_fixed.
Print Assumptions C77_sde_online_refuted.
Print Assumptions C77_nfq.
Print Assumptions C77_nfq_number.
Print Assumptions C77_nfq_end_refuted.
Print Assumptions C77_nfq_fixed.
Print Assumptions C77_nfq_converges.
Print Assumptions C77_no_module.
