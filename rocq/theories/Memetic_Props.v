(** C73: memetic search and random mask search. *)
From Verif Require Import Base Masked_Model Opt_Model Memetic_Model Memetic_Proofs Memetic_Proofs2.
From Coq Require Import QArith Lia.
Import ListNotations.
Local Open Scope nat_scope.

(** For every session of the three algorithms: each evaluation was made on the
    parameters of the individual it is booked for and is what the evaluator said;
    the best fitness is at least as good as all of them and was obtained by the
    individual kept as best. *)
Theorem C73_best : forall n a c sw init fuel s e, fits n c -> wf n init -> 1 <= localSteps c ->
  session fuel a c sw init = Some (s, e) ->
  (forall i o p q, nth_error (rev (log s)) i = Some (o, p, q) -> p = applyMask o /\ f_eval c i p = Val q) /\
  numE s = length (log s) /\ (exists q, nth_error (rev (log s)) 0 = Some (init, applyMask init, q)) /\
  exists b, bestV s = Some b /\ (exists i, nth_error (rev (log s)) i = Some (bestO s, applyMask (bestO s), b)) /\
    forall o p q, In (o, p, q) (log s) -> if s_min c then (b <= q)%Q else (q <= b)%Q.
Proof.
  intros n a c sw init fuel s e F HW HL E. destruct (session_spec n a c sw init fuel s e F HW HL E) as ((I1 & I2 & I3 & I4) & HN & (new & q & HL0) & _).
  split; [|split; [exact I1|split; [exists q; rewrite HL0, rev_app_distr; reflexivity|]]].
  - intros i o p v. revert I2. generalize (log s) as l. intro l. induction l as [|[[o' p'] v'] l IH]; intros G H; cbn [rev] in H; [destruct i; discriminate|].
    destruct G as (G1 & G2 & G3). destruct (Nat.lt_ge_cases i (length (rev l))) as [Hi|Hi].
    + rewrite nth_error_app1 in H by exact Hi. apply IH; auto.
    + rewrite nth_error_app2 in H by exact Hi. destruct (i - length (rev l)) as [|k] eqn:EK; [|destruct k; discriminate].
      cbn in H. injection H as <- <- <-. assert (i = length l) by (rewrite rev_length in *; lia). subst i. auto.
  - unfold bestOf in I3. destruct (bestV s) as [b|]; [|rewrite HL0 in I3; destruct new; discriminate].
    destruct I3 as (J1 & J2). exists b. split; [reflexivity|]. split.
    + apply in_rev in J1. apply In_nth_error in J1. exact J1.
    + intros o p v Hin. rewrite Forall_forall in J2. apply (J2 _ Hin).
Qed.

(** The evaluations never exceed maxEvaluations. *)
Theorem C73_budget : forall n a c sw init fuel s e M, fits n c -> wf n init -> 1 <= localSteps c ->
  session fuel a c sw init = Some (s, e) -> s_maxEval c = Some M -> 1 <= M -> length (log s) <= M.
Proof.
  intros n a c sw init fuel s e M F HW HL E HM H1. destruct (session_spec n a c sw init fuel s e F HW HL E) as ((I1 & _) & _ & _ & _ & _ & R & _).
  rewrite <- I1. apply (R M HM H1).
Qed.

(** One step of memetic search tries one new topology: the topology mutation of
    the best individual, first with the weights of the best and then at most
    localSteps - 1 more times with other weights, never with another mask. *)
Theorem C73_step : forall n c s s' u, fits n c -> inv n c s -> numE s <> 0 -> swapped s = false -> memeticStep c s = Done s' u ->
  let ch := topo c (tick s) (bestO s) in
  m_vals ch = m_vals (bestO s) /\ swapped s' = false /\
  exists new q0, log s' = new ++ (ch, applyMask ch, q0) :: log s /\ length new + 1 <= localSteps c /\
    Forall (fun e => m_mask (fst (fst e)) = m_mask ch) new.
Proof.
  intros n c s s' u F HI HN HS E ch. assert (S := memeticStep_spec n c s F HI HN). cbv zeta in S. rewrite E in S.
  assert (EC : challengerOf c (switchMutations s) = ch) by (unfold challengerOf; cbn [switchMutations swapped tick bestO]; rewrite HS; reflexivity).
  rewrite EC in S. destruct S as (A & B & new & q0 & C & D & G). split; [apply (fit_topo n c F); apply HI|]. split; [congruence|].
  exists new, q0. split; [rewrite C, <- app_assoc; reflexivity|]. split; [lia|exact G].
Qed.

(** The mutation operators of the class are as before after every memetic session,
    however it ends; an inverse session that ends by a divergence (or the assertion
    on localSteps) leaves them exchanged. *)
Theorem C73_switch : forall n a c sw init fuel s e, fits n c -> wf n init -> 1 <= localSteps c ->
  session fuel a c sw init = Some (s, e) ->
  swapped s = (match a, e with Inverse, Broke | Inverse, Raised => negb sw | _, _ => sw end) /\ (e = Raised -> localSteps c = 1).
Proof.
  intros n a c sw init fuel s e F HW HL E. destruct (session_spec n a c sw init fuel s e F HW HL E) as (_ & _ & _ & A & B & _). auto.
Qed.

(** Inverse memetic search never tries another topology. *)
Theorem C73_inverse_topology_refuted : forall n c init fuel s e, fits n c -> wf n init -> 2 <= localSteps c ->
  session fuel Inverse c false init = Some (s, e) ->
  m_mask (bestO s) = m_mask init /\ forall o p q, In (o, p, q) (log s) -> m_mask o = m_mask init.
Proof.
  intros n c init fuel s e F HW HL E.
  assert (HL1 : 1 <= localSteps c) by lia.
  destruct (session_spec n Inverse c false init fuel s e F HW HL1 E) as (HI & HN & _ & _ & HR & _).
  assert (A : allMask (m_mask init) (log s)).
  { unfold session in E. assert (HB := blackBox_spec n c init (startState false init) eq_refl HW (start_inv n c false init HW)).
    destruct (blackBoxEval c init (startState false init)) as [s0 q|s0|s0]; [|discriminate|discriminate].
    destruct HB as (B1 & B2 & B3 & B4 & B5). injection E as E. cbn [startState pc swapped log tick] in B2, B3, B4.
    apply (fun H1 H2 H3 H4 => inverse_loop_mask n c init (m_mask init) F HW HL1 fuel 0 _ s e H1 H2 H3 H4 E); cbn.
    - destruct B1 as (I1 & I2 & I3 & I4). unfold inv. cbn. repeat split; auto; try apply HW.
      unfold bestOf in *. cbn. destruct (bestV s0); [|exact I3]. destruct I3 as (J1 & J2). split; [|exact J2].
      rewrite B4 in *. destruct J1 as [J|[]]. injection J as _ _ <-. left. reflexivity.
    - destruct B1 as (B1 & _). rewrite B1, B4. cbn. lia.
    - exact B3.
    - rewrite B4. constructor; [reflexivity|constructor].
    - intro ER. specialize (HR ER). lia. }
  unfold allMask in A. rewrite Forall_forall in A. split.
  - destruct (best_in_log n c s HI HN) as (p & q & Hin). apply (A _ Hin).
  - intros o p q Hin. apply (A _ Hin).
Qed.

(** What is reported for a start given as an array: the best fitness, together with
    the parameters that were evaluated last. *)
Theorem C73_reported : forall n a c sw init fuel s e, fits n c -> total c -> wf n init -> 1 <= localSteps c ->
  session fuel a c sw init = Some (s, e) ->
  e <> Broke /\ exists o q, nth_error (rev (log s)) (length (log s) - 1) = Some (o, fst (reported s), q) /\ snd (reported s) = bestV s.
Proof.
  intros n a c sw init fuel s e F T HW HL E. destruct (session_spec n a c sw init fuel s e F HW HL E) as (_ & _ & _ & _ & _ & _ & R).
  destruct (R T) as ((o & q & r & A) & B). split; [exact B|]. exists o, q. rewrite A. cbn [rev length reported fst snd]. split; [|reflexivity].
  rewrite nth_error_app2 by (rewrite rev_length; lia). rewrite rev_length. replace (S (length r) - 1 - length r) with 0 by lia. reflexivity.
Qed.

(** ** Concrete sessions *)
Definition flipFirst (o : masked) : masked := match topologyMutate [true; false; false] [2; 1; 0] o with Ok o' => o' | Err _ => o end.
Definition ex_settings (f : nat -> list Q -> evalres) (M L : nat) : msettings :=
  {| f_eval := f; topo := fun _ => flipFirst; wmut := fun _ => mutate [1; 1; 1]%Q; noise := fun i => [inject_Z (3 - 2 * Z.of_nat i); inject_Z (3 - 2 * Z.of_nat i); 0; 0]%Q;
     rnd := fun i => randomize [true; true; Nat.even i] [] [inject_Z (5 - Z.of_nat i); 1; 1]%Q;
     s_min := false; s_desired := None; s_maxEval := Some M; s_maxSteps := None; localSteps := L |}.
Definition ex_init : masked := create 3 None [true; true; false] [] [2; 3; 4]%Q.
Definition sumOf (_ : nat) (p : list Q) : evalres := Val (fold_right Qplus 0%Q p).

Lemma ex_fits f M L : fits 3 (ex_settings f M L).
Proof.
  split; cbn [ex_settings topo wmut noise rnd].
  - intros _ o (A & B). unfold flipFirst. destruct (topologyMutate [true; false; false] [2; 1; 0] o) as [o'|] eqn:E; [|repeat split; auto].
    destruct o as [[|a [|b [|d [|? ?]]]] vals mx]; cbn in A, B; try discriminate.
    unfold topologyMutate in E. cbn [m_mask combine map fst snd m_max] in E.
    destruct (disable [2; 1; 0] (enabled [negb a; b; d] - mx) [negb a; b; d]) as [[mk ps]|] eqn:ED; [|discriminate]. cbn [rbind] in E.
    assert (DL : length mk = 3).
    { clear E. revert ED. generalize (enabled [negb a; b; d] - mx) as k. generalize [2; 1; 0] as picks.
      assert (G : forall picks k (mask : list bool), length mask = 3 -> disable picks k mask = Ok (mk, ps) -> length mk = 3).
      { induction picks as [|i picks IH]; intros k mask Hm H; destruct k; cbn [disable] in H; try discriminate; [injection H as <- _; auto|injection H as <- _; auto|].
        destruct (nth_error mask i) as [[|]|]; [|eapply IH; eauto|discriminate]. eapply IH; [|exact H]. rewrite upd_length; auto. }
      intros picks k. apply G. reflexivity. }
    destruct (enabled mk =? 0).
    + destruct ps as [|i ps]; [discriminate|]. destruct (i <? length mk); [|discriminate]. cbn [rbind] in E. injection E as <-. unfold wf. cbn. rewrite upd_length. auto.
    + cbn [rbind] in E. injection E as <-. unfold wf. cbn. auto.
  - intros _ o (A & B). unfold wf, mutate. cbn. rewrite map_length, combine_length, B. auto.
  - intros i o _. unfold wf, randomize. cbn [m_mask m_vals length]. destruct (m_max o <? _); auto.
  - intro i. cbn. lia.
Qed.
Lemma ex_wf : wf 3 ex_init.
Proof. split; reflexivity. Qed.

(** memetic search, eight evaluations at most, three for each topology: the
    fitness reported is 5, the parameters reported have fitness -4 *)
Theorem C73_reported_refuted : exists s, session 20 Memetic (ex_settings sumOf 8 3) false ex_init = Some (s, Stopped) /\
  total (ex_settings sumOf 8 3) /\ length (log s) = 7 /\
  (exists b q, snd (reported s) = Some b /\ sumOf 0 (fst (reported s)) = Val q /\ (q < b)%Q) /\
  exists o1 p1 q1 o2 p2 q2, In (o1, p1, q1) (log s) /\ In (o2, p2, q2) (log s) /\ m_mask o1 <> m_mask o2.
Proof.
  eexists. split; [vm_compute; reflexivity|]. split; [discriminate|]. split; [reflexivity|]. split.
  - eexists _, _. split; [reflexivity|]. split; [vm_compute; reflexivity|]. vm_compute. reflexivity.
  - eexists _, _, _, _, _, _. split; [left; reflexivity|]. split; [right; right; right; right; right; right; left; reflexivity|]. discriminate.
Qed.

(** random masks: the last guess is reported, not the best one *)
Theorem C73_guess_refuted : exists s, session 20 Guess (ex_settings sumOf 5 3) false ex_init = Some (s, Stopped) /\
  exists b q, snd (reported s) = Some b /\ sumOf 0 (fst (reported s)) = Val q /\ (q < b)%Q.
Proof.
  eexists. split; [vm_compute; reflexivity|]. eexists _, _. split; [reflexivity|]. split; [vm_compute; reflexivity|]. vm_compute. reflexivity.
Qed.

(** an inverse search that diverges leaves the operators exchanged: from then on
    mutate() of every MaskedParameters changes masks instead of weights *)
Definition diverging (i : nat) (p : list Q) : evalres := if i <? 4 then sumOf i p else Bad.
Theorem C73_inverse_switch_refuted : exists s, session 20 Inverse (ex_settings diverging 20 3) false ex_init = Some (s, Broke) /\
  swapped s = true /\ m_mask (fst (callMutate (ex_settings sumOf 20 3) (bestO s) s)) <> m_mask (bestO s) /\
  m_vals (fst (callMutate (ex_settings sumOf 20 3) (bestO s) s)) = m_vals (bestO s).
Proof. eexists. split; [vm_compute; reflexivity|]. split; [reflexivity|]. split; [discriminate|reflexivity]. Qed.

(** the same objective with the ordinary search *)
Example C73_switch_ex : exists s, session 20 Memetic (ex_settings diverging 20 3) false ex_init = Some (s, Broke) /\ swapped s = false.
Proof. eexists. split; [vm_compute; reflexivity|reflexivity]. Qed.

(** Of the array given as start point only the length matters. *)
Theorem C73_start_refuted : forall fuel a c sw start start' bits drop vals, length start = length start' ->
  session fuel a c sw (initIndividual start bits drop vals) = session fuel a c sw (initIndividual start' bits drop vals).
Proof. intros. unfold initIndividual. rewrite H. reflexivity. Qed.

Print Assumptions C73_best.
Print Assumptions C73_budget.
Print Assumptions C73_step.
Print Assumptions C73_switch.
Print Assumptions C73_inverse_topology_refuted.
Print Assumptions C73_reported.
Print Assumptions C73_reported_refuted.
Print Assumptions C73_guess_refuted.
Print Assumptions C73_inverse_switch_refuted.
Print Assumptions C73_start_refuted.
