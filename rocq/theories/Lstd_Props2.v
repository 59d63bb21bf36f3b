(** C82, continued: policy iteration with linear features. *)
From Verif Require Import Base Value_Model Value_Props ModelBased_Model ModelBased_Proofs ModelBased_Proofs2 ModelBased_Props Lstd_Model Lstd_Spec Lstd_Proofs Lstd_Proofs2 Lstd_Props.
From Coq Require Import QArith Qabs Lqa.
Local Open Scope nat_scope.

(** With any features and any solver, what comes out is a policy (the first one, or one that is greedy for some estimate) and its transition matrix. *)
Theorem C82_lspi : forall lstsq n fMap Ts R g init m, 0 < n -> Ts <> [] -> Forall (shape n n) Ts ->
  (forall p, init = Some p -> shape n (length Ts) p /\ stochastic n (length Ts) p) ->
  exists policy T, LSPI_policy lstsq fMap Ts R g init m = Ok (policy, T) /\ shape n (length Ts) policy /\ stochastic n (length Ts) policy /\ shape n n T /\ collapse_of n Ts policy T.
Proof.
  intros lstsq n fMap Ts R g init m Hn HT HS Hinit. unfold LSPI_policy.
  assert (H0 : exists p0, match init with None => let! pT := randomPolicy Ts in Ok (fst pT) | Some p => Ok p end = Ok p0 /\ shape n (length Ts) p0 /\ stochastic n (length Ts) p0).
  { destruct init as [p |]; [destruct (Hinit p eq_refl); eauto|]. destruct (C44_random n Ts Hn HT HS) as (p & T & E & A & _ & U & _). exists p. rewrite E. repeat (split; auto); intros; apply U; auto. }
  destruct H0 as (p0 & -> & A & B). cbn [rbind]. clear Hinit init. assert (En : rows (nth 0 Ts []) = n). { destruct Ts as [| T0 Ts']; [congruence|]. inversion HS; subst. eapply shape_rows; eauto. }
  assert (Hk : 0 < length Ts) by (destruct Ts; [congruence | cbn; lia]).
  assert (Fin : forall p, shape n (length Ts) p -> stochastic n (length Ts) p -> exists policy T, (let! T := collapsedTransitions Ts p in Ok (p, T)) = Ok (policy, T) /\ shape n (length Ts) policy /\ stochastic n (length Ts) policy /\ shape n n T /\ collapse_of n Ts policy T).
  { intros p A' B'. destruct (collapsed_spec n Ts p Hn HT HS A') as (T & E & S' & C). rewrite E. cbn [rbind]. exists p, T. auto. }
  revert p0 A B. induction m as [| m IH]; intros p A B; cbn [lspi_loop]; [apply Fin; auto|]. rewrite q_unfold, En by exact HT. cbn [rbind].
  match goal with |- context [greedyQPolicy ?q] => set (Qs := q) end. destruct (C44_greedy_q Qs n (length Ts)) as (new & E & SN & G); [apply shape_build2 | auto | auto |]. rewrite E. cbn [rbind].
  destruct (qltb (difference new p) (1 # 1000)); [apply Fin; auto|]. apply IH; [exact SN|]. intros s Hs. apply (G s Hs).
Qed.

Section Optimal.
Context (lstsq : mat -> vec -> vec) (n : nat) (fMap : mat) (Ts : list mat) (R : vec) (g : Q).
Context (Hn : 0 < n) (HT : Ts <> []) (HS : Forall (shape n n) Ts) (HST : Forall (stochastic n n) Ts) (Hg0 : (0 <= g)%Q) (Hg1 : (g < 1)%Q) (Hk : length Ts <= 1000).
Context (C : complete n fMap) (HL : solver (n * length Ts) lstsq).
Notation k := (length Ts).
Notation look := (lookahead n Ts (at_ R) g).
Definition fit (p : mat) : Prop := shape n k p /\ uniform_policy n Ts p.
Lemma fit_stochastic p : fit p -> stochastic n k p.
Proof. intros (_ & U) s Hs. apply (U s Hs). Qed.
Lemma lspi_step p : fit p -> exists Qs V new, LSTD_Qvalues lstsq Ts p R fMap g = Ok Qs /\ policy_value n Ts (at_ R) g p V /\ greedyQPolicy Qs = Ok new /\ fit new /\ greedy_for n Ts (at_ R) g V new.
Proof.
  intros HF. assert (HP := fit_stochastic p HF). destruct (C82_q_complete lstsq n Ts p R fMap g Hn HT HS HST HP Hg0 Hg1 C HL) as (Qs & E & SQ & B).
  assert (Hk0 : 0 < k) by (destruct Ts; [congruence | cbn; lia]). destruct (C44_greedy_q Qs n k SQ Hn Hk0) as (new & EN & SN & G).
  exists Qs, (fun t => sigma k (fun b => ent p t b * ent Qs t b)%Q), new. assert (QL : forall s a, s < n -> a < k -> (ent Qs s a == look (fun t => sigma k (fun b => ent p t b * ent Qs t b)%Q) s a)%Q).
  { intros s a Hs Ha. rewrite (B s a Hs Ha). reflexivity. }
  split; [exact E|]. split; [|split; [exact EN|split]].
  - intros s Hs. apply sigma_ext. intros a Ha. rewrite <- (QL s a Hs Ha). reflexivity.
  - split; [exact SN|]. intros s Hs. apply (G s Hs).
  - intros s Hs. destruct (G s Hs) as (U & M). split; [exact U|]. intros a Ha. rewrite (M a Ha). split; apply maximising_ext; auto; intros b Hb; first [apply QL; auto | symmetry; apply QL; auto].
Qed.
Lemma lspi_stop p V new : fit p -> policy_value n Ts (at_ R) g p V -> fit new -> greedy_for n Ts (at_ R) g V new -> (difference new p < 1 # 1000)%Q ->
  exists T, (let! T := collapsedTransitions Ts p in Ok (p, T)) = Ok (p, T) /\ optimal n Ts (at_ R) g p /\ collapse_of n Ts p T.
Proof.
  intros (SP & UP) HV (SN & UN) G HD. assert (SM := difference_same n Ts Hn new p Hk SN UN UP HD). destruct (collapsed_spec n Ts p Hn HT HS SP) as (T & E & _ & CO). exists T. rewrite E. split; [reflexivity|]. split; [|exact CO].
  apply (C44_stable_optimal n Ts R g HST Hg0 Hg1 p V HV). apply (same_greedy n Ts R g new p V SM UP G).
Qed.
Lemma lspi_optimal : forall m p L, fit p -> NoDup L -> incl L (all_supports n Ts) ->
  (forall V p' V', policy_value n Ts (at_ R) g p V -> uniform_policy n Ts p' -> In (support n Ts p') L -> policy_value n Ts (at_ R) g p' V' -> forall s, s < n -> (V' s <= V s)%Q) ->
  length (all_supports n Ts) + 2 <= m + length L ->
  exists p' T', lspi_loop lstsq fMap Ts R g m p = Ok (p', T') /\ optimal n Ts (at_ R) g p' /\ collapse_of n Ts p' T'.
Proof.
  induction m as [| m IH]; intros p L HF ND IN INV HM; [pose proof (NoDup_incl_length ND IN); lia|].
  cbn [lspi_loop]. destruct (lspi_step p HF) as (Qs & V & new & EQs & PV & EG & SN & G). rewrite EQs. cbn [rbind]. rewrite EG. cbn [rbind].
  destruct (qltb (difference new p) (1 # 1000)) eqn:EQ.
  { assert (HD : (difference new p < 1 # 1000)%Q). { unfold qltb in EQ. apply negb_true_iff in EQ. apply Qnot_le_lt. intros K. apply Qle_bool_iff in K. congruence. }
    destruct (lspi_stop p V new HF PV SN G HD) as (T & E & O & CO). exists p, T. auto. }
  clear EQ. destruct (lspi_step new SN) as (Qs2 & V2 & new2 & EQs2 & PV2 & EG2 & SN2 & G2).
  pose proof (C44_improvement n Ts R g HST Hg0 Hg1 p V new V2 (fit_stochastic _ HF) PV G PV2) as IMP.
  destruct (forallb (fun s => Qle_bool (V2 s) (V s)) (seq 0 n)) eqn:EF.
  - rewrite forallb_forall in EF. assert (EQV : forall s, s < n -> (V s == V2 s)%Q). { intros s Hs. apply Qle_antisym; [auto|]. apply Qle_bool_iff. apply EF. apply in_seq. lia. }
    destruct m as [| m]; [pose proof (NoDup_incl_length ND IN); lia|]. cbn [lspi_loop]. rewrite EQs2. cbn [rbind]. rewrite EG2. cbn [rbind].
    assert (ELook : forall s a, s < n -> a < k -> (look V2 s a == look V s a)%Q) by (intros s a Hs Ha; apply sigma_ext; intros s' Hs'; rewrite (EQV s' Hs'); reflexivity).
    assert (SM : same n Ts new2 new).
    { destruct SN as (_ & UN). destruct SN2 as (_ & UN2). intros s a Hs Ha. apply (uniform_same k (ent new2 s) (ent new s)); auto. intros b Hb.
      rewrite (proj2 (G s Hs) b Hb), (proj2 (G2 s Hs) b Hb). split; apply maximising_ext; auto; intros; first [apply ELook; auto | symmetry; apply ELook; auto]. }
    assert (D0 := same_difference n Ts Hn new2 new (proj1 SN2) SM). assert (DL : (difference new2 new < 1 # 1000)%Q) by (rewrite D0; reflexivity).
    replace (qltb (difference new2 new) (1 # 1000)) with true by (symmetry; unfold qltb; apply negb_true_iff, Bool.not_true_iff_false; rewrite Qle_bool_iff; lra).
    destruct (lspi_stop new V2 new2 SN PV2 SN2 G2 DL) as (T & E & O & CO). exists new, T. auto.
  - assert (ST : exists s, s < n /\ (V s < V2 s)%Q).
    { apply Bool.not_true_iff_false in EF. destruct (Forall_Exists_dec (fun s => (V2 s <= V s)%Q) ltac:(intros x; destruct (Qlt_le_dec (V x) (V2 x)); [right; lra | left; auto]) (seq 0 n)) as [F | F].
      - exfalso. apply EF. apply forallb_forall. intros x Hx. apply Qle_bool_iff. rewrite Forall_forall in F. auto.
      - apply Exists_exists in F as (x & Hx & Hlt). exists x. apply in_seq in Hx. split; [lia|]. lra. }
    destruct ST as (s0 & Hs0 & Hlt). assert (UN : uniform_policy n Ts new) by apply SN.
    assert (NI : ~ In (support n Ts new) L). { intros K. pose proof (INV V new V2 PV UN K PV2 s0 Hs0). lra. }
    apply (IH new (support n Ts new :: L)); auto.
    + constructor; auto.
    + intros x [<- | Hx]; [apply support_all | auto].
    + intros W p' V' HW UP' HI HV' s Hs. destruct HI as [E | HI].
      * assert (SS := support_same n Ts Hn p' new UP' UN (eq_sym E)). pose proof (same_value n Ts R g p' new V' SS HV') as HV2. rewrite (value_unique n Ts R g HST Hg0 Hg1 new V' W (fit_stochastic _ SN) HV2 HW s Hs). apply Qle_refl.
      * apply Qle_trans with (V s); [eapply INV; eauto|]. apply (C44_improvement n Ts R g HST Hg0 Hg1 p V new W (fit_stochastic _ HF) PV G HW s Hs).
    + cbn [length]. lia.
Qed.
(** With as many independent features as states and with enough iterations, least-squares policy iteration returns an optimal policy and its transition matrix. *)
Theorem C82_lspi_optimal : forall init, (forall p, init = Some p -> shape n k p /\ uniform_policy n Ts p) ->
  exists N, forall m, N <= m -> exists p T, LSPI_policy lstsq fMap Ts R g init m = Ok (p, T) /\ optimal n Ts (at_ R) g p /\ collapse_of n Ts p T.
Proof.
  intros init Hinit. exists (length (all_supports n Ts) + 2). intros m Hm. unfold LSPI_policy.
  assert (H0 : exists p0, match init with None => let! pT := randomPolicy Ts in Ok (fst pT) | Some p => Ok p end = Ok p0 /\ fit p0).
  { destruct init as [p |]; [exists p; split; [reflexivity | exact (Hinit p eq_refl)]|]. destruct (C44_random n Ts Hn HT HS) as (p & T & E & A & _ & U & _). exists p. rewrite E. repeat (split; auto). }
  destruct H0 as (p0 & -> & HF). cbn [rbind]. apply (lspi_optimal m p0 []); auto; [constructor | intros x [] | intros V p' V' _ _ [] | cbn [length]; lia].
Qed.
End Optimal.
(** So does policy iteration with estimated values. *)
Theorem C82_lstd_pi_optimal : forall lstsq n fMap Ts R g, 0 < n -> Ts <> [] -> Forall (shape n n) Ts -> Forall (stochastic n n) Ts -> (0 <= g)%Q -> (g < 1)%Q -> length Ts <= 1000 ->
  complete n fMap -> solver n lstsq -> forall init, (forall p, init = Some p -> shape n (length Ts) p /\ uniform_policy n Ts p) ->
  exists N, forall m, N <= m -> exists p T, LSTD_PI_policy lstsq fMap Ts R g init m = Ok (p, T) /\ optimal n Ts (at_ R) g p /\ collapse_of n Ts p T.
Proof.
  intros lstsq n fMap Ts R g Hn HT HS HST H0 H1 Hk C HL init Hinit. unfold LSTD_PI_policy. apply (C44_policy_iteration_optimal n Ts R g); auto.
  intros T ST HT'. apply (C82_complete lstsq n T R fMap g 1 (inject_Z 100000000) []); auto. lra.
Qed.

(** ** Cases *)
(** the features that tell every state apart *)
Definition indicator (n : nat) : mat := build2 n n (fun f s => if f =? s then 1%Q else 0%Q).
Example C82_indicator : forall n, complete n (indicator n).
Proof.
  intros n. split; [apply (shape_rows _ n), shape_build2|]. split; [intros i Hi; apply (shape_row n n); [apply shape_build2 | auto]|].
  intros w H f Hf. rewrite <- (H f Hf). unfold weighed. rewrite (sigma_ext n _ (fun j => (if j =? f then 1 else 0) * w j)%Q); [symmetry; apply (sigma_pick n f w Hf)|].
  intros j Hj. unfold indicator. rewrite ent_build2 by auto. lra.
Qed.
(** a solver for two equations *)
Definition solver2 (A : mat) (b : vec) : vec :=
  let a := ent A 0 0 in let c := ent A 0 1 in let e := ent A 1 0 in let h := ent A 1 1 in let u := at_ b 0 in let v := at_ b 1 in let det := (a * h - c * e)%Q in
  if Qeq_dec det 0 then if Qeq_dec a 0 then if Qeq_dec c 0 then if Qeq_dec e 0 then [0; v / h]%Q else [v / e; 0]%Q else [0; u / c]%Q else [u / a; 0]%Q
  else [(h * u - c * v) / det; (a * v - e * u) / det]%Q.
Example C82_solver2 : solver 2 solver2.
Proof.
  intros A b _ _ (x & Hx). pose proof (Hx 0 ltac:(lia)) as X0. pose proof (Hx 1 ltac:(lia)) as X1. cbn [sigma] in X0, X1. unfold solver2.
  set (a := ent A 0 0) in *. set (c := ent A 0 1) in *. set (e := ent A 1 0) in *. set (h := ent A 1 1) in *. set (u := at_ b 0) in *. set (v := at_ b 1) in *. set (p := x 0) in *. set (q := x 1) in *.
  assert (G : forall y z, (a * y + c * z == u)%Q -> (e * y + h * z == v)%Q -> length [y; z] = 2 /\ solves 2 A (at_ [y; z]) (at_ b)).
  { intros y z G0 G1. split; [reflexivity|]. intros [|[|i]] Hi; [| |lia]; cbn [sigma at_ nth]; fold a c e h u v; lra. }
  clearbody a c e h u v p q. destruct (Qeq_dec (a * h - c * e) 0) as [D | D].
  - destruct (Qeq_dec a 0) as [Ha | Ha].
    + destruct (Qeq_dec c 0) as [Hc | Hc].
      * destruct (Qeq_dec e 0) as [He | He].
        -- apply G; [rewrite Ha, Hc in *; lra|]. rewrite He in *. destruct (Qeq_dec h 0) as [Hh | Hh]; [rewrite Hh in *; lra|]. field. exact Hh.
        -- apply G; [rewrite Ha, Hc in *; lra|]. field. exact He.
      * apply G; [field; exact Hc|]. rewrite Ha in *. assert (He : (e == 0)%Q). { assert (Z : (c * e == 0)%Q) by lra. apply Qmult_integral in Z as [Z | Z]; [contradiction | exact Z]. }
        rewrite He in *. assert (Q0 : (q == u / c)%Q) by (rewrite <- X0; field; exact Hc). rewrite <- Q0. lra.
    + apply G; [field; exact Ha|]. assert (Hh : (h == c * e / a)%Q). { assert (Z : (a * h == c * e)%Q) by lra. rewrite <- Z. field. exact Ha. }
      rewrite <- X0, <- X1, Hh. field. exact Ha.
  - apply G; field; exact D.
Qed.
(** two states, stay or switch, a reward in the second state: the policy that goes there and stays *)
Example C82_two_states : LSTD_PI_policy solver2 (indicator 2) [stay; switch] [0; 1]%Q (1 # 2) None 20 = Ok ([[0; 1]; [1; 0]]%Q, [[0; 1]; [0; 1]]%Q) /\
  exists V, LSTD_values solver2 chain [1; 3]%Q (indicator 2) (1 # 2) 1 100 [] = Ok V /\ (at_ V 0 == 26 # 5)%Q /\ (at_ V 1 == 22 # 5)%Q.
Proof. split; [vm_compute; reflexivity|]. eexists. split; [vm_compute; reflexivity|]. split; vm_compute; reflexivity. Qed.
(** one state, two actions *)
Example C82_lspi_ex : LSPI_policy solver2 (indicator 1) [[[1]]; [[1]]]%Q [3]%Q (1 # 2) (Some [[1; 0]]%Q) 5 = Ok ([[1 # 2; 1 # 2]]%Q, [[4 # 4]]%Q) /\
  exists Qs, LSTD_Qvalues solver2 [[[1]]; [[1]]]%Q [[1; 0]]%Q [3]%Q (indicator 1) (1 # 2) = Ok Qs /\ (ent Qs 0 0 == 6)%Q /\ (ent Qs 0 1 == 6)%Q.
Proof. split; [vm_compute; reflexivity|]. eexists. split; [vm_compute; reflexivity|]. split; vm_compute; reflexivity. Qed.
(** one feature, the value of each state in proportion to it: two weeks of wages *)
Example C82_exact_ex : bellman 2 [[0; 1]; [0; 0]]%Q (at_ [5; 2]%Q) (1 # 2) (at_ [2; 0]%Q) /\ (forall s, s < 2 -> (at_ [2; 0]%Q s == weighed [[4; 0]]%Q 1 (fun _ => (1 # 2)%Q) s)%Q) /\
  exists V, LSTD_values (fun A b => [at_ b 0 / ent A 0 0])%Q [[0; 1]; [0; 0]]%Q [5; 2]%Q [[4; 0]]%Q (1 # 2) 1 100 [] = Ok V /\ (at_ V 0 == 2)%Q /\ (at_ V 1 == 0)%Q.
Proof.
  split; [intros [|[|s]] Hs; [vm_compute; reflexivity | vm_compute; reflexivity | lia]|]. split; [intros [|[|s]] Hs; [vm_compute; reflexivity | vm_compute; reflexivity | lia]|].
  eexists. split; [vm_compute; reflexivity|]. split; vm_compute; reflexivity.
Qed.
Print Assumptions C82_lspi. Print Assumptions C82_lspi_optimal. Print Assumptions C82_lstd_pi_optimal.
