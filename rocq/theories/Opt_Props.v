(** Properties C29, C30, C31: black-box optimizers. *)
From Verif Require Import Base Opt_Model Opt_Spec Opt_Proofs Opt_Dir.
From Coq Require Import QArith Lia Lqa.
Local Open Scope Z_scope.

Section U.
  Context {X : Type}.
  Implicit Type o : opt X.
  Lemma fresh_inv mmin mmax store d maxE batch maxS : dirinv mmin mmax (@fresh X mmin mmax store d maxE batch maxS) None None.
  Proof. unfold dirinv, fresh. cbn. auto 10. Qed.
  Lemma user_order mmin mmax o b ev : dirinv mmin mmax o (Some b) ev ->
    forall v w, no_worse (minimizing o) v w <-> as_good b (user_value o v) (user_value o w).
  Proof.
    intros (_ & _ & (_ & E) & _) v w. unfold no_worse, as_good, minimizing, user_value. rewrite E. destruct b, (o_opposed o); cbn [xorb]; split; intros H; lra.
  Qed.
  Definition user_log o (l : list (X * Q)) : list (X * Q) := map (fun e => (fst e, user_value o (snd e))) l.
  Lemma champion_of mmin mmax o b ev log bE bx : dirinv mmin mmax o (Some b) ev -> log <> [] -> best_of (minimizing o) log bE bx ->
    exists x v, bE = Some v /\ bx = Some x /\ champion b (user_log o log) x (user_value o v).
  Proof.
    intros HD Hl Hb. destruct log as [|p0 l0]; [congruence |]. cbn [best_of] in Hb. destruct Hb as (pre & x & v & post & HL & HE & HX & Hpre & Hpost).
    exists x, v. split; [auto |]. split; [auto |]. exists (user_log o pre), (user_log o post). split; [rewrite HL; unfold user_log; rewrite map_app; reflexivity |].
    split; intros y w Hin; unfold user_log in Hin; apply in_map_iff in Hin as ([y' w'] & [= <- <-] & Hin); rewrite <- (user_order _ _ _ _ _ HD); eauto.
  Qed.
  Lemma entry_keeps o f fe x0 : o_allE (entry o f fe x0) = o_allE o /\ o_store (entry o f fe x0) = o_store o /\ o_nEval (entry o f fe x0) = o_nEval o.
  Proof.
    assert (SM : forall o b, o_allE (setMinimize o b) = o_allE o /\ o_store (setMinimize o b) = o_store o /\ o_nEval (setMinimize o b) = o_nEval o).
    { intros o' b. unfold setMinimize. destruct (o_eval o'); [destruct (Bool.eqb _ _) |]; auto. }
    unfold entry. cbn zeta. set (o1 := match fe with None => o | Some d => _ end).
    assert (H1 : o_allE o1 = o_allE o /\ o_store o1 = o_store o /\ o_nEval o1 = o_nEval o).
    { subst o1. destruct fe as [e|]; [| auto]. set (o' := match o_desired o with None => _ | Some _ => o end).
      assert (H' : o_allE o' = o_allE o /\ o_store o' = o_store o /\ o_nEval o' = o_nEval o) by (subst o'; destruct (o_desired o); auto).
      clearbody o'. destruct (o_min o'); [auto |]. destruct (SM o' (fe_min e)) as (-> & -> & ->). auto. }
    clearbody o1. set (o2 := match o_min o1 with None => _ | Some _ => o1 end).
    assert (H2 : o_allE o2 = o_allE o /\ o_store o2 = o_store o /\ o_nEval o2 = o_nEval o).
    { subst o2. destruct (o_min o1); [auto |]. destruct (SM o1 false) as (-> & -> & ->). auto. }
    clearbody o2. destruct (o_opposed (set_dir o2 (o_min o2) (o_opposed o2) (Some f) (o_desired o2))); auto.
  Qed.
  Lemma exec_nEval : forall (ops : list (op X)) o, 0 <= o_nEval o -> 0 <= o_nEval (fold_left exec ops o).
  Proof.
    induction ops as [|c ops IH]; intros o H; cbn [fold_left]; [auto |]. apply IH. destruct c as [b | f fe x0 init]; cbn [exec].
    - unfold setMinimize. destruct (o_eval o); [destruct (Bool.eqb _ _) |]; auto.
    - destruct (entry_keeps o f fe x0) as (_ & _ & K). rewrite setEvaluator_eq. destruct (run init (entry o f fe x0)) as [[o6 r6] l6] eqn:E. destruct (run_spec _ _ _ _ _ E) as (_ & A & _).
      destruct r6; cbn [fst set_best o_nEval]; lia.
  Qed.
End U.

(** ** C29: what is reported is the best of what was evaluated *)
Theorem C29_best : forall (X S : Type) mmin mmax store d maxE batch maxS (ops : list (op X)) f fe x0 (init : prog X S) o1 s l0 fuel add step o2 s2 w l1,
  let o0 := fold_left exec ops (fresh mmin mmax store d maxE batch maxS) in
  setEvaluator o0 f fe x0 init = (o1, Ok s, l0) ->
  (forall e, In e l0 -> fst e = x0) ->
  learn fuel add step s o1 = (o2, s2, w, l1) ->
  let log := user_log o2 (l0 ++ l1) in
  let minimize := match fold_left wanted_dir (ops ++ [SetEval f fe x0 (Ret tt)]) None with Some b => b | None => false end in
  log_of f (o_nEval o0) log /\
  o_nEval o2 = o_nEval o0 + Z.of_nat (length log) /\
  (log = [] -> bestFound o2 = (Some x0, None)) /\
  (log <> [] -> exists x v, bestFound o2 = (Some x, Some v) /\ champion minimize log x v) /\
  o_allE o2 = (if o_store o0 then o_allE o0 ++ map snd log else o_allE o0).
Proof.
  intros X S mmin mmax store d maxE batch maxS ops f fe x0 init o1 s l0 fuel add step o2 s2 w l1 o0 HE Hx HL log minimize.
  assert (HN : 0 <= o_nEval o0) by (apply exec_nEval; cbn; lia).
  pose proof (exec_dir mmin mmax ops _ _ _ (fresh_inv mmin mmax store d maxE batch maxS)) as HD. fold o0 in HD.
  destruct (entry_inv _ _ _ _ _ f fe x0 HD) as (D5 & N5 & B5 & I5 & _).
  destruct (entry_keeps o0 f fe x0) as (K1 & K2 & _).
  rewrite setEvaluator_eq in HE. destruct (run init (entry o0 f fe x0)) as [[o6 r6] l6] eqn:ER. destruct r6 as [s6|e6]; [| discriminate]. injection HE as <- <- <-.
  destruct (run_spec _ _ _ _ _ ER) as (A1 & A2 & A3 & A4 & A5 & A6 & A7 & A8).
  set (o1 := set_best o6 (o_bestE o6) (o_init o6)) in *.
  assert (SD1 : same_dir (entry o0 f fe x0) o1) by (destruct A1; constructor; auto).
  unfold learn in HL. set (o1' := match add with Some n => _ | None => o1 end) in HL.
  assert (EQ : o_nEval o1' = o_nEval o6 /\ o_bestE o1' = o_bestE o6 /\ o_best o1' = Some x0 /\ o_allE o1' = o_allE o6 /\ o_store o1' = o_store o6 /\ o_eval o1' = o_eval o6 /\
    minimizing o1' = minimizing o1 /\ o_opposed o1' = o_opposed o1).
  { assert (o_init o6 = Some x0) by (rewrite (sd10 _ _ A1); auto). subst o1' o1. destruct add; cbn; auto 10. }
  destruct EQ as (Q1 & Q2 & Q3 & Q4 & Q5 & Q6 & Q7 & Q8).
  destruct (loop_spec step fuel s6 o1' o2 s2 w l1 HL) as (C1 & C2 & _ & _ & _ & _ & C7 & C8 & _ & C10 & C11).
  assert (UV : forall v, user_value o2 v = user_value (entry o0 f fe x0) v).
  { intros v. unfold user_value. rewrite (sd4 _ _ C1), Q8, (sd4 _ _ SD1). auto. }
  assert (D2 : dirinv mmin mmax o2 (wanted_dir (fold_left wanted_dir ops None) (SetEval f fe x0 (Ret tt))) (Some f)).
  { apply (same_dir_inv _ _ _ o1) in D5; [| auto]. assert (D1' : dirinv mmin mmax o1' (wanted_dir (fold_left wanted_dir ops None) (SetEval f fe x0 (Ret tt))) (Some f)) by (subst o1'; destruct add; exact D5).
    eapply same_dir_inv; eauto. }
  assert (MN : exists b, wanted_dir (fold_left wanted_dir ops None) (SetEval f fe x0 (Ret tt)) = Some b /\ minimize = b).
  { subst minimize. rewrite fold_left_app. cbn [fold_left]. destruct (fold_left wanted_dir ops None) as [b|] eqn:EW; cbn [wanted_dir]; eauto. }
  destruct MN as (b & EW & EMb). rewrite EMb. rewrite EW in D2, D5.
  assert (LB : best_of (minimizing o1') l6 (o_bestE o1') (o_best o1')).
  { specialize (A8 []). cbn [app length best_of] in A8. assert (PB : best_of (minimizing (entry o0 f fe x0)) l6 (o_bestE o6) (o_best o6)) by (apply A8; [lia | auto]).
    rewrite Q7, (sd_min _ _ SD1), Q2, Q3. destruct l6 as [|p6 l6']; [exact PB |]. cbn [best_of] in PB |- *. destruct PB as (pre & x & v & post & P1 & P2 & P3 & P4 & P5).
    exists pre, x, v, post. split; [auto |]. split; [auto |]. split; [| auto]. f_equal. assert (Hi : In (x, v) (p6 :: l6')) by (rewrite P1; apply in_app_iff; right; left; auto). apply Hx in Hi. cbn in Hi. auto. }
  specialize (C8 l6). assert (FB : best_of (minimizing o1') (l6 ++ l1) (o_bestE o2) (o_best o2)) by (apply C8; [rewrite Q1; lia | exact LB]).
  assert (SM2 : minimizing o2 = minimizing o1') by (apply sd_min; auto).
  split; [| split; [| split; [| split]]].
  - intros k x v Hk. subst log. unfold user_log in Hk. rewrite nth_error_map in Hk. destruct (nth_error (l6 ++ l1) k) as [[x' v']|] eqn:EK; [| discriminate]. injection Hk as <- <-. cbn [fst snd].
    assert (HG : exists g, o_eval (entry o0 f fe x0) = Some g /\ g (o_nEval o0 + Z.of_nat k) x' = Val v').
    { destruct (Nat.lt_ge_cases k (length l6)) as [Hlt | Hge].
      - rewrite nth_error_app1 in EK by auto. destruct (A4 _ _ _ EK) as (g & G1 & G2). exists g. rewrite N5 in G2. auto.
      - rewrite nth_error_app2 in EK by auto. destruct (C7 _ _ _ EK) as (g & G1 & G2). exists g. rewrite Q6, (sd5 _ _ A1) in G1. split; [auto |]. rewrite <- G2. f_equal. lia. }
    destruct HG as (g & G1 & G2). destruct D5 as (_ & _ & _ & g' & G3 & G4). rewrite G1 in G3. injection G3 as <-. rewrite G4 in G2. rewrite UV. unfold user_value.
    destruct (o_opposed (entry o0 f fe x0)); [| exists v'; split; [auto | lra]]. destruct (f (o_nEval o0 + Z.of_nat k) x') as [q|]; cbn [neg_res] in G2; [| discriminate]. injection G2 as <-. exists q. split; [auto | lra].
  - subst log. unfold user_log. rewrite map_length, app_length. lia.
  - intros Hn. subst log. unfold user_log in Hn. apply map_eq_nil in Hn. pose proof Hn as Hn'. apply app_eq_nil in Hn' as [E6 E1]. rewrite E1 in C11. destruct (C11 eq_refl) as [T1 T2].
    rewrite E6 in LB. cbn [best_of] in LB. unfold bestFound. rewrite T1, T2, LB, Q3. reflexivity.
  - intros Hn. rewrite <- SM2 in FB. assert (NN : l6 ++ l1 <> []) by (intros E; apply Hn; subst log; rewrite E; reflexivity).
    destruct (champion_of _ _ _ _ _ (l6 ++ l1) (o_bestE o2) (o_best o2) D2 NN FB) as (x & v & E1 & E2 & E3).
    exists x, (user_value o2 v). split; [unfold bestFound; now rewrite E1, E2 | exact E3].
  - rewrite C10, Q5, (sd11 _ _ A1), K2, Q4. destruct (o_store o0); [| rewrite A5, K2, K1 in *; auto]. rewrite A5, K2, K1.
    subst log. unfold user_log. rewrite map_map, map_app, app_assoc. cbn [snd]. f_equal; [f_equal |]; apply map_ext; intros e.
    + now rewrite UV.
    + unfold user_value. rewrite (sd4 _ _ C1). auto.
Qed.

(** a minimizing hill climber: (x-3)^2 from 0, with the mutations +1, +1, -1, +1, +1 *)
Definition sq (i : Z) (x : Z) : evalres := Val (inject_Z ((x - 3) * (x - 3))).
Definition hmut (n : nat) (x : Z) : Z := if Nat.eqb n 2 then x - 1 else x + 1.
Definition hill_run := 
  let '(o1, _, l0) := setEvaluator (setMinimize (fresh false true true (Some 0%Q) None 1 None) true) sq None 0 (hill_init 0) in
  let '(o2, _, w, l1) := learn 20 (Some 7) (hill_step hmut) 0%nat o1 in (bestFound o2, o_nEval o2, o_nSteps o2, w, user_log o2 (l0 ++ l1)).
Example C29_hill_ex : hill_run =
  ((Some 3, Some 0%Q), 5, 4, Stopped, [(0, 9%Q); (1, 4%Q); (2, 1%Q); (1, 4%Q); (3, 0%Q)]).
Proof. vm_compute. reflexivity. Qed.

(** the number of steps *)
Theorem C29_steps : forall (X S : Type) (step : S -> opt X -> prog X S) fuel s o o2 s2 w l n,
  0 <= n -> n <= Z.of_nat fuel -> learn fuel (Some n) step s o = (o2, s2, w, l) ->
  o_nSteps o <= o_nSteps o2 <= o_nSteps o + n /\
  (w = FuelOut -> o_nSteps o2 = o_nSteps o + n /\ stoppingCriterion o2 = true) /\
  (w = Stopped -> o_nSteps o2 = o_nSteps o + n \/ budget_reached o2 = true \/ desired_reached o2 = true).
Proof.
  intros X S step fuel s o o2 s2 w l n Hn Hf H. unfold learn in H. destruct (loop_spec _ _ _ _ _ _ _ _ H) as (A1 & _ & A3 & A4 & A5 & A6 & _).
  cbn [set_steps o_nSteps o_maxSteps] in *. specialize (A6 _ eq_refl). pose proof (sd9 _ _ A1) as EM. cbn [set_steps o_maxSteps] in EM.
  split; [lia |]. split.
  - intros Hw. specialize (A5 Hw). split; [lia |]. unfold stoppingCriterion, steps_reached. rewrite EM. apply orb_true_iff. right. apply Z.ltb_lt. lia.
  - intros Hw. specialize (A4 Hw). unfold stoppingCriterion in A4. apply orb_prop in A4 as [A4 | A4]; [apply orb_prop in A4 as [A4 | A4]; auto |].
    unfold steps_reached in A4. rewrite EM in A4. apply Z.ltb_lt in A4. left. lia.
Qed.
(** one unit of fuel more than steps: the loop never runs out *)
Theorem C29_terminates : forall (X S : Type) (step : S -> opt X -> prog X S) fuel s o n, 0 <= n < Z.of_nat fuel ->
  snd (fst (learn fuel (Some n) step s o)) <> FuelOut.
Proof.
  intros X S step fuel s o n Hn E. destruct (learn fuel (Some n) step s o) as [[[o2 s2] w] l] eqn:EL. cbn [fst snd] in E. subst w. unfold learn in EL.
  destruct (loop_spec _ _ _ _ _ _ _ _ EL) as (_ & _ & _ & _ & A5 & A6 & _). cbn [set_steps o_nSteps o_maxSteps] in *. specialize (A6 _ eq_refl). specialize (A5 eq_refl). lia.
Qed.
(** the evaluation budget holds as long as a step makes no more evaluations than batchSize announces *)
Theorem C29_budget : forall (X S : Type) (step : S -> opt X -> prog X S) fuel add s o o2 s2 w l M,
  o_maxEval o = Some M ->
  (forall s o', o_batch o' = o_batch o -> o_nEval o <= o_nEval o' -> Z.of_nat (length (snd (run (step s o') o'))) <= o_batch o) ->
  learn fuel add step s o = (o2, s2, w, l) -> o_nEval o2 <= Z.max (o_nEval o) M.
Proof.
  intros X S step fuel add s o o2 s2 w l M HM Hb H. unfold learn in H. set (o1 := match add with Some n => _ | None => o end) in H.
  assert (E : o_maxEval o1 = o_maxEval o /\ o_batch o1 = o_batch o /\ o_nEval o1 = o_nEval o) by (subst o1; destruct add; auto). destruct E as (E1 & E2 & E3).
  destruct (loop_spec _ _ _ _ _ _ _ _ H) as (_ & _ & _ & _ & _ & _ & _ & _ & A9 & _). rewrite E1, E2, E3 in A9. apply A9; auto.
Qed.
Lemma hill_one_evaluation {X} mut n (o o' : opt X) : (length (snd (run (hill_step mut n o') o)) <= 1)%nat.
Proof. unfold hill_step. destruct (o_best o'); cbn; [| lia]. destruct (oneEvaluation o (mut n x)) as [[? ?]|]; cbn; lia. Qed.
Theorem C29_budget_hillclimber : forall X mut fuel add n o o2 s2 w (l : list (X * Q)) M, o_maxEval o = Some M -> o_batch o = 1 ->
  learn fuel add (hill_step mut) n o = (o2, s2, w, l) -> o_nEval o2 <= Z.max (o_nEval o) M.
Proof.
  intros X mut fuel add n o o2 s2 w l M HM HB. apply C29_budget; [auto |]. intros s o' _ _. rewrite HB. pose proof (hill_one_evaluation mut s o' o'). lia.
Qed.
Example C29_budget_ex : let '(o1, _, _) := setEvaluator (fresh false false false None (Some 3) 1 None) sq None 0 (hill_init 0) in
  let '(o2, _, w, l1) := learn 20 None (hill_step hmut) 0%nat o1 in o_nEval o2 = 3 /\ w = Stopped.
Proof. vm_compute. auto. Qed.

Lemma evaluate_all_length {X S} (l : list X) : forall (k : list Q -> prog X S) o, (forall vs o', length (snd (run (k vs) o')) = 0%nat) -> (length (snd (run (evaluate_all l k) o)) <= length l)%nat.
Proof.
  induction l as [|x l IH]; intros k o Hk; cbn [evaluate_all length]; [rewrite Hk; lia |]. cbn [run]. destruct (oneEvaluation o x) as [[o' v]|e]; [| cbn; lia].
  specialize (IH (fun vs => k (v :: vs)) o' ltac:(intros; apply Hk)). destruct (run _ o') as [[? ?] ?]. cbn in *. lia.
Qed.
(** The evaluation budget holds for evolution strategies that keep their parents or do not evaluate them again. *)
Theorem C29_budget_es : forall X noisy elitism fuel add (pick : opt X -> list X * list X) o o2 s2 w (l : list (X * Q)) M mu lambda,
  (noisy = true -> elitism = true) -> (forall o', Z.of_nat (length (fst (pick o'))) = mu /\ Z.of_nat (length (snd (pick o'))) = lambda) ->
  o_maxEval o = Some M -> o_batch o = es_batch noisy elitism mu lambda ->
  learn fuel add (fun _ o' => es_step noisy (fst (pick o')) (snd (pick o'))) tt o = (o2, s2, w, l) -> o_nEval o2 <= Z.max (o_nEval o) M.
Proof.
  intros X noisy elitism fuel add pick o o2 s2 w l M mu lambda Hne Hp HM HB. apply C29_budget; [auto |]. intros s o' _ _. destruct (Hp o') as [H1 H2]. unfold es_step.
  match goal with |- context[evaluate_all ?a ?k] => pose proof (evaluate_all_length a k o' ltac:(reflexivity)) as K end.
  rewrite HB. unfold es_batch, es_popsize. destruct noisy; [rewrite (Hne eq_refl); rewrite app_length in K |]; lia.
Qed.
Example C29_budget_es_ex : let '(o1, _, _) := setEvaluator (fresh false true false None (Some 12) (es_batch true true 3 3) None) sq None 0 (es_init 0 [1; 2]) in
  let '(o2, _, w, _) := learn 20 None (fun _ _ => es_step true [0; 1; 2] [3; 4; 5]) tt o1 in w = Stopped /\ o_nEval o2 = 9.
Proof. vm_compute. auto. Qed.
(** A noisy evolution strategy without elitism re-evaluates its mu parents on top of the lambda offspring it announces. *)
Theorem C29_es_budget_refuted : exists mu lambda M : Z,
  let '(o1, _, _) := setEvaluator (fresh false true false None (Some M) (es_batch true false mu lambda) None) sq None 0 (es_init 0 [1; 2]) in
  let '(o2, _, w, _) := learn 20 None (fun _ _ => es_step true [0; 1; 2] [3; 4; 5]) tt o1 in
  (mu, lambda) = (3, 3) /\ w = Stopped /\ o_maxEval o2 = Some M /\ M = 12 /\ o_nEval o2 = 15.
Proof. exists 3, 3, 12. vm_compute. auto 10. Qed.
(** maxLearningSteps = m lets learn() take m + 1 steps *)
Theorem C29_max_steps_refuted : exists m : Z,
  let '(o1, _, _) := setEvaluator (fresh false false false None None 1 (Some m)) sq None 0 (hill_init 0) in
  let '(o2, _, w, _) := learn 20 None (hill_step (fun _ x => x + 1)) 0%nat o1 in w = Stopped /\ o_nSteps o2 = m + 1 /\ m = 5.
Proof. exists 5. vm_compute. auto. Qed.
(** The stochastic hill climber overwrites the best found with a worse point it moved to. *)
Theorem C29_stochastic_refuted : exists challenger : Z,
  let '(o, _, _) := setEvaluator (fresh false false false None None 1 None) sq None 0 (hill_init 0) in
  match shc_step o challenger true with
  | Ok o' => bestFound o = (Some 0, Some 9%Q) /\ bestFound o' = (Some challenger, Some 4%Q) /\ minimizing o' = false
  | Err _ => False
  end.
Proof. exists 1. vm_compute. auto. Qed.

(** ** C30: the evaluable reported after setting an evaluator *)
Theorem C30_initial_pair : forall (X S : Type) (o : opt X) f fe x0 (init : prog X S) o1 s l0,
  0 <= o_nEval o -> setEvaluator o f fe x0 init = (o1, Ok s, l0) ->
  o_best o1 = Some x0 /\ (l0 = [] -> o_bestE o1 = None) /\
  (l0 <> [] -> exists x v, o_bestE o1 = Some v /\ In (x, v) l0) /\
  ((forall e, In e l0 -> fst e = x0) -> forall v, o_bestE o1 = Some v -> In (x0, v) l0).
Proof.
  intros X S o f fe x0 init o1 s l0 HN H. rewrite setEvaluator_eq in H. destruct (run init (entry o f fe x0)) as [[o6 r6] l6] eqn:ER. destruct r6 as [s6|e6]; [| discriminate]. injection H as <- <- <-.
  destruct (run_spec _ _ _ _ _ ER) as (A1 & A2 & A3 & A4 & A5 & A6 & A7 & A8).
  assert (I5 : o_init (entry o f fe x0) = Some x0) by (unfold entry; cbn zeta; destruct (o_opposed _); reflexivity).
  assert (B5 : o_bestE (entry o f fe x0) = None) by (unfold entry; cbn zeta; destruct (o_opposed _); reflexivity).
  destruct (entry_keeps o f fe x0) as (_ & _ & N5). specialize (A8 []). cbn [app length best_of] in A8.
  assert (PB : best_of (minimizing (entry o f fe x0)) l6 (o_bestE o6) (o_best o6)) by (apply A8; [lia | auto]).
  cbn [set_best o_best o_bestE]. split; [now rewrite (sd10 _ _ A1) |].
  split; [intros E; rewrite E in PB; exact PB |]. split.
  - intros Hn. destruct l6 as [|p l6']; [congruence |]. destruct PB as (pre & x & v & post & P1 & P2 & _). exists x, v. split; [auto |]. rewrite P1. apply in_app_iff. right. left. auto.
  - intros Hx v Hv. destruct l6 as [|p l6']; [cbn in PB; congruence |]. destruct PB as (pre & x & v' & post & P1 & P2 & _). rewrite P2 in Hv. injection Hv as <-.
    assert (Hi : In (x, v') (p :: l6')) by (rewrite P1; apply in_app_iff; right; left; auto). specialize (Hx _ Hi). cbn in Hx. subst x. auto.
Qed.
Example C30_hill_ex : let '(o1, r, l0) := setEvaluator (fresh false false false None None 1 None) sq None 1 (hill_init 1) in
  bestFound o1 = (Some 1, Some 4%Q) /\ l0 = [(1, 4%Q)] /\ r = Ok tt.
Proof. vm_compute. auto. Qed.
(** The evolution strategy evaluates a whole population in _additionalInit: the value of a mutant is then reported for the start point. *)
Theorem C30_es_refuted : exists mutants : list Z,
  let '(o1, r, l0) := setEvaluator (fresh false true false None None 3 None) sq None 0 (es_init 0 mutants) in
  r = Ok tt /\ l0 = [(0, 9%Q); (1, 4%Q); (7, 16%Q)] /\ bestFound o1 = (Some 0, Some 16%Q).
Proof. exists [1; 7]. vm_compute. auto. Qed.
(** ... until a later evaluation is at least as good: from then on the pair belongs together and is the best of everything *)
Theorem C30_recovers : forall (X S : Type) (o : opt X) f fe x0 (init : prog X S) o1 s l0 fuel add step o2 s2 w l1 v0 y u,
  0 <= o_nEval o -> setEvaluator o f fe x0 init = (o1, Ok s, l0) -> o_bestE o1 = Some v0 ->
  learn fuel add step s o1 = (o2, s2, w, l1) -> In (y, u) l1 -> no_worse (minimizing o1) u v0 ->
  exists x v, o_bestE o2 = Some v /\ o_best o2 = Some x /\ In (x, v) l1 /\
    forall z q, In (z, q) (l0 ++ l1) -> no_worse (minimizing o1) v q.
Proof.
  intros X S o f fe x0 init o1 s l0 fuel add step o2 s2 w l1 v0 y u HN H HV HL Hy Hu.
  destruct (C30_initial_pair _ _ _ _ _ _ _ _ _ _ HN H) as (P1 & P2 & P3 & _).
  pose proof H as H'. rewrite setEvaluator_eq in H. destruct (run init (entry o f fe x0)) as [[o6 r6] l6] eqn:ER. destruct r6 as [s6|e6]; [| discriminate]. injection H as <- <- <-.
  destruct (run_spec _ _ _ _ _ ER) as (A1 & A2 & _ & _ & _ & _ & _ & A8). destruct (entry_keeps o f fe x0) as (_ & _ & N5).
  assert (B5 : o_bestE (entry o f fe x0) = None) by (unfold entry; cbn zeta; destruct (o_opposed _); reflexivity).
  set (o1 := set_best o6 (o_bestE o6) (o_init o6)) in *.
  assert (SM : minimizing o1 = minimizing (entry o f fe x0)) by (unfold minimizing; cbn; now rewrite (sd3 _ _ A1)).
  assert (L6 : forall z q, In (z, q) l6 -> no_worse (minimizing o1) v0 q).
  { specialize (A8 []). cbn [app length best_of] in A8. specialize (A8 ltac:(lia) B5). cbn [o1 set_best o_bestE] in HV. intros z q Hz. destruct l6 as [|p l6']; [destruct Hz |].
    destruct A8 as (pre & x & v & post & Q1 & Q2 & Q3 & Q4 & Q5). subst o1. cbn [set_best o_bestE] in HV. rewrite HV in Q2. injection Q2 as <-. rewrite SM. rewrite Q1 in Hz. apply in_app_iff in Hz as [Hz | [[= <- <-] | Hz]].
    - eauto.
    - apply no_worse_refl.
    - apply no_worse_total. eauto. }
  assert (NE : 1 <= o_nEval o1).
  { subst o1. cbn [set_best o_nEval o_bestE] in *. rewrite A2, N5. destruct l6 as [|p l6']; [specialize (P2 eq_refl); congruence | cbn [length]; lia]. }
  unfold learn in HL. set (o1' := match add with Some n => _ | None => o1 end) in HL.
  assert (EQ : o_nEval o1' = o_nEval o1 /\ o_bestE o1' = Some v0 /\ o_best o1' = Some x0 /\ minimizing o1' = minimizing o1) by (subst o1'; destruct add; auto).
  destruct EQ as (E1 & E2 & E3 & E4).
  destruct (loop_spec _ _ _ _ _ _ _ _ HL) as (_ & _ & _ & _ & _ & _ & _ & C8 & _). specialize (C8 [(x0, v0)]). cbn [app length best_of] in C8. rewrite E4 in C8.
  destruct C8 as (pre & x & v & post & Q1 & Q2 & Q3 & Q4 & Q5).
  { lia. }
  { exists [], x0, v0, []. do 3 (split; [auto |]). split; intros ? ? []. }
  assert (Hxv : In (x, v) l1 /\ no_worse (minimizing o1) v v0 /\ forall z q, In (z, q) l1 -> no_worse (minimizing o1) v q).
  { destruct pre as [|p pre]; cbn [app] in Q1.
    - injection Q1 as <- <- Q1. subst post. exfalso. eapply Q5; eauto.
    - injection Q1 as <- Q1. subst l1. split; [apply in_app_iff; right; left; auto |]. split; [apply (Q4 x0); left; auto |].
      intros z q Hz. apply in_app_iff in Hz as [Hz | [[= <- <-] | Hz]]; [apply (Q4 z); right; auto | apply no_worse_refl | apply no_worse_total; eauto]. }
  destruct Hxv as (G1 & G2 & G3). exists x, v. split; [auto |]. split; [auto |]. split; [auto |]. intros z q Hz. apply in_app_iff in Hz as [Hz | Hz]; [| exact (G3 z q Hz)].
  eapply no_worse_trans; [exact G2 | exact (L6 z q Hz)].
Qed.

(** ** C31: the direction of optimization *)
Theorem C31_direction : forall (X : Type) mmin mmax store d maxE batch maxS (ops : list (op X)) b f,
  let o := fold_left exec ops (fresh mmin mmax store d maxE batch maxS) in
  fold_left wanted_dir ops None = Some b -> fold_left wanted_eval ops None = Some f ->
  (exists g, o_eval o = Some g /\ (forall i x, f i x = Bad -> g i x = Bad) /\
     forall i x v, f i x = Val v -> exists v', g i x = Val v' /\ user_value o v' = v) /\
  (forall v w, no_worse (minimizing o) v w <-> as_good b (user_value o v) (user_value o w)) /\
  (mmin = true -> mmax = false -> minimizing o = true) /\ (mmax = true -> mmin = false -> minimizing o = false) /\
  (mmax = false -> mmin = false -> minimizing o = b).
Proof.
  intros X mmin mmax store d maxE batch maxS ops b f o EB EF.
  pose proof (exec_dir mmin mmax ops _ _ _ (fresh_inv mmin mmax store d maxE batch maxS)) as HD. fold o in HD. rewrite EB, EF in HD.
  split; [| split; [eapply user_order; eauto |]].
  - destruct HD as (_ & _ & _ & g & G1 & G2). exists g. split; [auto |]. split.
    + intros i x E. rewrite G2, E. destruct (o_opposed o); auto.
    + intros i x v E. rewrite G2, E. unfold user_value. destruct (o_opposed o); cbn [neg_res]; eexists; (split; [reflexivity |]); [apply Opt_Dir.Qopp_opp | auto].
  - destruct HD as (_ & _ & (E1 & E2) & _). unfold minimizing. rewrite E2, E1. destruct b, mmin, mmax; cbn; auto.
Qed.
Theorem C31_desired : forall (X : Type) mmin mmax store d maxE batch maxS (ops : list (op X)) b f q v,
  let o := fold_left exec ops (fresh mmin mmax store d maxE batch maxS) in
  (evals ops <= 1)%nat -> fold_left wanted_dir ops None = Some b -> fold_left wanted_eval ops None = Some f ->
  fold_left wanted_desired ops d = Some q -> o_bestE o = Some v ->
  (desired_reached o = true <-> as_good b (user_value o v) q).
Proof.
  intros X mmin mmax store d maxE batch maxS ops b f q v o Hn EB EF ED HV.
  pose proof (exec_dir mmin mmax ops _ _ _ (fresh_inv mmin mmax store d maxE batch maxS)) as HD. fold o in HD.
  assert (DI : desinv o (fold_left wanted_eval ops None) (fold_left wanted_desired ops d)).
  { apply (exec_des mmin mmax) with (fl := None); [lia | apply fresh_inv | reflexivity]. }
  unfold desinv in DI. rewrite EB, EF in HD. rewrite EF, ED in DI. destruct HD as (_ & _ & (_ & E2) & _).
  unfold desired_reached, as_good, user_value. rewrite DI, HV. unfold minimizing. rewrite E2.
  destruct b, (o_opposed o); cbn [xorb flip_desired]; rewrite qle_iff; split; intros H; lra.
Qed.
(** a maximizer asked to minimize, its direction switched to and fro: 1/2 <= 1 counts, 9 does not *)
Definition ops31 : list (op Z) := [SetMin true; SetEval sq None 0 (hill_init 3); SetMin false; SetMin true].
Example C31_ex : let o := fold_left exec ops31 (fresh false true false (Some 1%Q) None 1 None) in
  o_opposed o = true /\ minimizing o = false /\ o_bestE o = Some (-0)%Q /\ desired_reached o = true /\ fold_left wanted_dir ops31 None = Some true /\ evals ops31 = 1%nat.
Proof. vm_compute. auto 10. Qed.
(** A second evaluator given while the direction is opposed flips the desired value once more: a value of 0, good enough for the user, is not recognized. *)
Theorem C31_second_evaluator_refuted : exists ops : list (op Z), let o := fold_left exec ops (fresh false true false (Some 1%Q) None 1 None) in
  evals ops = 2%nat /\ fold_left wanted_dir ops None = Some true /\ fold_left wanted_desired ops (Some 1%Q) = Some 1%Q /\
  snd (bestFound o) = Some 0%Q /\ as_good true 0%Q 1%Q /\ desired_reached o = false.
Proof.
  exists [SetMin true; SetEval sq None 3 (hill_init 3); SetEval sq None 3 (hill_init 3)]. vm_compute. repeat split; auto. discriminate.
Qed.
(** Switching the direction after evaluations leaves the sign of the best evaluation behind: (0-3)^2 = 9 is reported as -9. *)
Theorem C31_late_switch_refuted : exists ops : list (op Z), let o := fold_left exec ops (fresh false true false None None 1 None) in
  fold_left wanted_eval ops None = Some sq /\ o_best o = Some 0 /\ sq 0 0 = Val 9%Q /\ bestFound o = (Some 0, Some (-9)%Q).
Proof. exists [SetEval sq None 0 (hill_init 0); SetMin true]. vm_compute. auto. Qed.

Print Assumptions C29_best.
Print Assumptions C29_steps.
Print Assumptions C29_terminates.
Print Assumptions C29_budget.
Print Assumptions C29_budget_hillclimber.
Print Assumptions C29_es_budget_refuted.
Print Assumptions C29_max_steps_refuted.
Print Assumptions C29_stochastic_refuted.
Print Assumptions C30_initial_pair.
Print Assumptions C30_es_refuted.
Print Assumptions C30_recovers.
Print Assumptions C31_direction.
Print Assumptions C31_desired.
Print Assumptions C31_second_evaluator_refuted.
Print Assumptions C31_late_switch_refuted.
