(** C82: planning with linear features. *)
From Verif Require Import Base Value_Model Value_Props ModelBased_Model ModelBased_Proofs ModelBased_Proofs2 ModelBased_Props Lstd_Model Lstd_Spec Lstd_Proofs Lstd_Proofs2.
From Coq Require Import QArith Qabs Lqa.
Local Open Scope nat_scope.

(** ** Statistics *)
(** Whichever of the two ways the statistics are gathered, they are the sums over all transitions: the limit on the size of the matrices does not matter. *)
Theorem C82_statistics : forall T R fMap g p limit sample, cols fMap = rows T -> (1 <= p)%Q ->
  exists A b, trueFeatureStats T R fMap g p limit sample = Ok (A, b) /\ rows A = rows fMap /\ length b = rows fMap /\
    (forall i j, i < rows fMap -> j < rows fMap -> (ent A i j == stat (rows T) T fMap g (seq 0 (rows T)) (seq 0 (rows T)) i j)%Q) /\
    (forall i, i < rows fMap -> (at_ b i == resid (rows T) T R fMap (seq 0 (rows T)) (seq 0 (rows T)) i)%Q).
Proof.
  intros T R fMap g p limit sample HC Hp. destruct (all_are T R fMap g limit HC p sample Hp) as ((A & b) & E & H1 & H2 & H3 & H4). exists A, b. repeat (split; [assumption|]). exact H4.
Qed.
Definition chain : mat := [[0; 1]; [1 # 2; 1 # 2]]%Q.
Example C82_statistics_ex : exists A b A' b', trueFeatureStats chain [1; 3]%Q [[1; 2]]%Q (1 # 2) 1 100 [] = Ok (A, b) /\ trueFeatureStats chain [1; 3]%Q [[1; 2]]%Q (1 # 2) 1 0 [] = Ok (A', b') /\
  (ent A 0 0 == 5 # 2)%Q /\ (ent A' 0 0 == 5 # 2)%Q /\ (at_ b 0 == 7)%Q /\ (at_ b' 0 == 7)%Q.
Proof. do 4 eexists. split; [vm_compute; reflexivity|]. split; [vm_compute; reflexivity|]. repeat split. Qed.
(** With a proportion of the states, only the transitions that arrive in one of the sampled states count. *)
Theorem C82_sampled : forall T R fMap g p limit sample, (p < 1)%Q -> NoDup sample -> (forall x, In x sample -> x < rows T) ->
  exists A b, trueFeatureStats T R fMap g p limit sample = Ok (A, b) /\ rows A = rows fMap /\ length b = rows fMap /\
    (forall i j, i < rows fMap -> j < rows fMap -> (ent A i j == stat (rows T) T fMap g (seq 0 (rows T)) sample i j)%Q) /\
    (forall i, i < rows fMap -> (at_ b i == resid (rows T) T R fMap (seq 0 (rows T)) sample i)%Q).
Proof.
  intros T R fMap g p limit sample Hp ND HB. destruct (loop_are (rows T) T R fMap g sample ND HB) as (H1 & H2 & H3 & H4). eexists _, _. split.
  - unfold trueFeatureStats. replace (qltb p 1) with true; [rewrite (surjective_pairing (stats_loop _ _ _ _ _ _)); reflexivity|].
    symmetry. unfold qltb. apply negb_true_iff, Bool.not_true_iff_false. rewrite Qle_bool_iff. lra.
  - repeat (split; [assumption|]). exact H4.
Qed.
(** The documentation has the sampled states as the starting states: they are not. *)
Theorem C82_starting_states_refuted : exists T R fMap g p limit sample A b, (p < 1)%Q /\ NoDup sample /\ cols fMap = rows T /\ stochastic 2 2 T /\ rows T = 2 /\
  trueFeatureStats T R fMap g p limit sample = Ok (A, b) /\ ~ (at_ b 0 == resid 2 T R fMap sample (seq 0 2) 0)%Q.
Proof.
  exists chain, [1; 3]%Q, [[1; 2]]%Q, (1 # 2)%Q, (1 # 2)%Q, 100%Q, [0]. do 2 eexists. split; [reflexivity|]. split; [repeat constructor; intros []|]. split; [reflexivity|].
  split; [apply two_rows; [intros [|[|a]] Ha; [cbn; lra | cbn; lra | lia] | reflexivity | reflexivity]|]. split; [reflexivity|]. split; [vm_compute; reflexivity|]. vm_compute. discriminate.
Qed.
(** A feature map with one row per state, as documented, does not fit unless there are as many features as states. *)
Theorem C82_row_per_state_refuted : forall lstsq T R fMap g p limit sample, rows fMap = rows T -> cols fMap <> rows T -> (1 <= p)%Q ->
  LSTD_values lstsq T R fMap g p limit sample = Err ValueError.
Proof.
  intros lstsq T R fMap g p limit sample _ HC Hp. unfold LSTD_values, trueFeatureStats. replace (qltb p 1) with false by (symmetry; unfold qltb; apply negb_false_iff, Qle_bool_iff; exact Hp).
  rewrite (proj2 (Nat.eqb_neq _ _) HC). reflexivity.
Qed.
Example C82_row_per_state_ex : LSTD_values (fun _ b => b) chain [1; 3]%Q [[1]; [2]]%Q (1 # 2) 1 100 [] = Err ValueError.
Proof. reflexivity. Qed.

(** ** Values *)
(** If the features can express the value function, its weights solve the equations; if the equations have no other solution, the estimate is exact.
    States in which an episode ends (a row of zeros) are allowed: there the value is zero. *)
Theorem C82_exact : forall lstsq T R fMap g p limit sample V w, cols fMap = rows T -> (1 <= p)%Q -> solver (rows fMap) lstsq ->
  bellman (rows T) T (at_ R) g V -> (forall s, s < rows T -> (sigma (rows T) (ent T s) == 1)%Q \/ (V s == 0)%Q) ->
  (forall s, s < rows T -> (V s == weighed fMap (rows fMap) w s)%Q) ->
  exists A b, trueFeatureStats T R fMap g p limit sample = Ok (A, b) /\ solves (rows fMap) A w (at_ b) /\
    (unique (rows fMap) A -> exists E, LSTD_values lstsq T R fMap g p limit sample = Ok E /\ length E = rows T /\ forall s, s < rows T -> (at_ E s == V s)%Q).
Proof.
  intros lstsq T R fMap g p limit sample V w HC Hp HS HB HR HV. destruct (all_are T R fMap g limit HC p sample Hp) as ((A & b) & E & SA). exists A, b. split; [exact E|].
  assert (SW : solves (rows fMap) A w (at_ b)). { apply (true_weights _ _ _ _ _ _ w V SA); auto. intros s Hs. destruct (HR s Hs) as [H1 | H0]; [|rewrite H0; lra].
    change (sigma (rows T) (fun t => ent T s t)) with (sigma (rows T) (ent T s)). rewrite H1. lra. }
  split; [exact SW|]. intros U. unfold LSTD_values. rewrite E. cbn [rbind fst snd]. destruct SA as (RA & LB & _). cbn [fst snd] in RA, LB. destruct (HS A b RA LB (ex_intro _ w SW)) as (LW & SL).
  eexists. split; [reflexivity|]. split; [unfold vec_mat; rewrite build_length; exact HC|]. intros s Hs. rewrite (vec_mat_at _ _ (rows T) s) by auto. rewrite (HV s Hs). apply weighed_ext.
  intros f Hf. apply (unique_same _ A _ _ (at_ b) U SL SW f Hf).
Qed.
(** With as many independent features as states, the estimate is the value function of the transition matrix. *)
Theorem C82_complete : forall lstsq n T R fMap g p limit sample, 0 < n -> shape n n T -> stochastic n n T -> (0 <= g)%Q -> (g < 1)%Q -> (1 <= p)%Q -> complete n fMap -> solver n lstsq ->
  exists V, LSTD_values lstsq T R fMap g p limit sample = Ok V /\ length V = n /\ bellman n T (at_ R) g (at_ V).
Proof.
  intros lstsq n T R fMap g p limit sample Hn ST HT H0 H1 Hp C HS. assert (RT := shape_rows _ _ _ ST). assert (HC : cols fMap = rows T) by (rewrite RT; apply complete_cols; auto).
  destruct (all_are T R fMap g limit HC p sample Hp) as ((A & b) & E & SA). rewrite RT in SA. assert (U := complete_unique n T R fMap g (A, b) C HT H0 H1 SA). cbn [fst] in U.
  assert (RA : rows A = n) by (rewrite <- (proj1 C); apply SA). assert (LB : length b = n) by (rewrite <- (proj1 C); apply SA).
  destruct (HS A b RA LB (unique_solvable n A (at_ b) U)) as (LW & SL). unfold LSTD_values. rewrite E. cbn [rbind fst snd]. eexists. split; [reflexivity|].
  split; [unfold vec_mat; rewrite build_length, HC; exact RT|]. pose proof (complete_bellman n T R fMap g (A, b) (at_ (lstsq A b)) C HT SA SL) as B.
  assert (EQ : forall s, s < n -> (at_ (vec_mat (lstsq A b) fMap) s == weighed fMap n (at_ (lstsq A b)) s)%Q).
  { intros s Hs. rewrite (vec_mat_at _ _ n s); [rewrite (proj1 C); reflexivity | rewrite LW, (proj1 C); reflexivity | lia | auto]. }
  intros s Hs. rewrite (EQ s Hs), (B s Hs). apply sigma_ext. intros t Ht. rewrite (EQ t Ht). reflexivity.
Qed.
(** every transition matrix has exactly one value function *)
Theorem C82_value_function : forall n T R g, 0 < n -> shape n n T -> stochastic n n T -> (0 <= g)%Q -> (g < 1)%Q ->
  exists V, bellman n T R g V /\ forall V', bellman n T R g V' -> forall s, s < n -> (V' s == V s)%Q.
Proof.
  intros n T R g Hn ST HT H0 H1. set (A := build2 n n (fun s t => (if s =? t then 1 else 0) - g * ent T s t)%Q).
  assert (EA : forall x s, s < n -> (sigma n (fun t => ent A s t * x t) == x s - g * sigma n (fun t => ent T s t * x t))%Q).
  { intros x s Hs. rewrite (sigma_ext n _ (fun t => (if t =? s then 1 else 0) * x t + (- g) * (ent T s t * x t))%Q).
    - rewrite sigma_plus, sigma_scale, (sigma_pick n s x Hs). lra.
    - intros t Ht. unfold A. rewrite ent_build2 by auto. rewrite (Nat.eqb_sym t s). lra. }
  assert (U : unique n A). { intros x Hx. apply (fixed_zero n T g x HT H0 H1). intros s Hs. specialize (Hx s Hs). rewrite (EA x s Hs) in Hx. lra. }
  assert (SB : forall V, bellman n T R g V <-> solves n A V (fun s => sigma n (fun t => ent T s t * R t)%Q)).
  { intros V. assert (K : forall s, (sigma n (fun t => ent T s t * (R t + g * V t)) == sigma n (fun t => ent T s t * R t) + g * sigma n (fun t => ent T s t * V t))%Q).
    { intros s. rewrite <- sigma_scale, <- sigma_plus. apply sigma_ext. intros. lra. }
    split; intros H s Hs; specialize (H s Hs); [rewrite (EA V s Hs); rewrite K in H; lra | rewrite (EA V s Hs) in H; rewrite K; lra]. }
  destruct (unique_solvable n A (fun s => sigma n (fun t => ent T s t * R t)%Q) U) as (V & HV). exists V. split; [apply SB, HV|]. intros V' HV' s Hs. apply SB in HV'. apply (unique_same n A _ _ _ U HV' HV s Hs).
Qed.

(** ** Action values *)
Lemma q_unfold lstsq Ts policy R fMap g : Ts <> [] -> LSTD_Qvalues lstsq Ts policy R fMap g =
  Ok (build2 (rows (nth 0 Ts [])) (length Ts) (fun s a => sigma (rows fMap) (fun f => at_ (lstsq (fst (q_stats Ts policy R fMap g)) (snd (q_stats Ts policy R fMap g))) (rows fMap * a + f)%nat * ent fMap f s)%Q)).
Proof. intros H. destruct Ts; [congruence|]. reflexivity. Qed.
Theorem C82_q_exact : forall lstsq Ts policy R fMap g q w, Ts <> [] -> let n := rows (nth 0 Ts []) in let k := length Ts in let numF := rows fMap in
  solver (numF * k) lstsq -> q_bellman n Ts (at_ R) g policy q ->
  (forall s a, s < n -> a < k -> (sigma n (ent (nth a Ts []) s) == 1)%Q \/ (q s a == 0)%Q) ->
  (forall s a, s < n -> a < k -> (q s a == weighed fMap numF (fun f => w (numF * a + f)%nat) s)%Q) ->
  solves (numF * k) (fst (q_stats Ts policy R fMap g)) w (at_ (snd (q_stats Ts policy R fMap g))) /\
  (unique (numF * k) (fst (q_stats Ts policy R fMap g)) -> exists Qs, LSTD_Qvalues lstsq Ts policy R fMap g = Ok Qs /\ shape n k Qs /\ forall s a, s < n -> a < k -> (ent Qs s a == q s a)%Q).
Proof.
  intros lstsq Ts policy R fMap g q w HT n k numF HS HB HR HQ.
  assert (SW : solves (numF * k) (fst (q_stats Ts policy R fMap g)) w (at_ (snd (q_stats Ts policy R fMap g)))).
  { apply (q_weights n Ts policy R fMap g eq_refl w q HQ HB). intros s a Hs Ha. destruct (HR s a Hs Ha) as [H1 | H0]; [|rewrite H0; lra].
    change (sigma n (fun t => ent (nth a Ts []) s t)) with (sigma n (ent (nth a Ts []) s)). rewrite H1. lra. }
  split; [exact SW|]. intros U. rewrite q_unfold by exact HT. fold n k numF.
  destruct (HS (fst (q_stats Ts policy R fMap g)) (snd (q_stats Ts policy R fMap g))) as (LW & SL); [apply (shape_rows _ (numF * k)), shape_build2 | apply build_length | exists w; exact SW|].
  eexists. split; [reflexivity|]. split; [apply shape_build2|]. intros s a Hs Ha. rewrite ent_build2 by auto. rewrite (HQ s a Hs Ha). apply sigma_ext. intros f Hf.
  rewrite (unique_same _ _ _ _ _ U SL SW) by (fold numF in Hf; nia). reflexivity.
Qed.
Theorem C82_q_complete : forall lstsq n Ts policy R fMap g, 0 < n -> Ts <> [] -> Forall (shape n n) Ts -> Forall (stochastic n n) Ts -> stochastic n (length Ts) policy ->
  (0 <= g)%Q -> (g < 1)%Q -> complete n fMap -> solver (n * length Ts) lstsq ->
  exists Qs, LSTD_Qvalues lstsq Ts policy R fMap g = Ok Qs /\ shape n (length Ts) Qs /\ q_bellman n Ts (at_ R) g policy (ent Qs).
Proof.
  intros lstsq n Ts policy R fMap g Hn HT HSh HST HP H0 H1 C HS. assert (En : rows (nth 0 Ts []) = n). { destruct Ts as [| T0 Ts']; [congruence|]. inversion HSh; subst. eapply shape_rows; eauto. }
  pose proof (q_unique n Ts policy R fMap g En C HST HP H0 H1) as U. pose proof (proj1 C) as EF. pose proof (q_solution n Ts policy R fMap g En C HST) as QS.
  rewrite q_unfold, En by exact HT. rewrite EF in *. destruct (HS (fst (q_stats Ts policy R fMap g)) (snd (q_stats Ts policy R fMap g))) as (LW & SL).
  { unfold q_stats. cbn [fst]. rewrite EF. apply (shape_rows _ (n * length Ts)), shape_build2. } { unfold q_stats. cbn [snd]. rewrite EF. apply build_length. } { apply unique_solvable, U. }
  eexists. split; [reflexivity|]. split; [apply shape_build2|]. pose proof (QS _ SL) as B. unfold qw in B. rewrite EF in B.
  intros s a Hs Ha. rewrite ent_build2 by auto. rewrite (B s a Hs Ha). apply sigma_ext. intros t Ht. apply Qmult_comp; [reflexivity|]. apply Qplus_comp; [reflexivity|]. apply Qmult_comp; [reflexivity|].
  apply sigma_ext. intros b Hb. rewrite ent_build2 by auto. reflexivity.
Qed.
Print Assumptions C82_statistics. Print Assumptions C82_sampled. Print Assumptions C82_starting_states_refuted. Print Assumptions C82_row_per_state_refuted.
Print Assumptions C82_exact. Print Assumptions C82_complete. Print Assumptions C82_value_function. Print Assumptions C82_q_exact. Print Assumptions C82_q_complete.
