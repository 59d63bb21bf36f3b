From Verif Require Import Base Masked_Model Opt_Model Memetic_Model Memetic_Proofs.
From Coq Require Import QArith Lia.
Import ListNotations.
Local Open Scope nat_scope.

(** ** With an evaluator that never diverges, the container holds what was evaluated last *)
Definition total (c : msettings) : Prop := forall i p, f_eval c i p <> Bad.

Lemma localEval_last n c o x s : total c -> wf n o -> length x = enabled (m_mask o) -> inv n c s ->
  exists s' o' q, localEval c o x s = Done s' (o', q) /\ atLast s'.
Proof.
  intros T HW HX HI. assert (HE := localEval_spec n c o x s HW HX HI). assert (HP := localEval_pc c o x s).
  destruct (localEval c o x s) as [s' [o' q]|s'|s'] eqn:E; [| |destruct HE].
  - exists s', o', q. split; [reflexivity|]. destruct HP as (P & r & L). exists o', q, r. rewrite P. exact L.
  - exfalso. unfold localEval in E. destruct (set_total n o x HW HX) as (o' & E' & _). rewrite E' in E. unfold blackBoxEval in E. cbn [setPc numE pc] in E.
    destruct (f_eval c (numE s) (applyMask o')) eqn:EF; [discriminate|]. apply (T _ _ EF).
Qed.

Lemma localLoop_last n c (F : fits n c) (T : total c) : forall fuel o bx bq k s, wf n o -> length bx = enabled (m_mask o) -> inv n c s -> atLast s ->
  atLast (fst (localLoop fuel c o bx bq k s)).
Proof.
  induction fuel as [|fuel IH]; intros o bx bq k s HW HX HI HL; cbn [localLoop]; [destruct (localStop c k bq); exact HL|].
  destruct (localStop c k bq); [exact HL|]. cbv zeta.
  assert (HN : length (addNoise bx (noise c (tick s))) = enabled (m_mask o)).
  { rewrite addNoise_length; [exact HX|]. rewrite HX. eapply Nat.le_trans; [apply (enabled_le n o HW)|apply F]. }
  assert (HI' : inv n c (ticked s)) by (eapply inv_same; [|exact HI]; repeat split).
  destruct (localEval_last n c o _ (ticked s) T HW HN HI') as (s1 & o1 & q1 & E & L1).
  assert (HE := localEval_spec n c o _ (ticked s) HW HN HI'). rewrite E in *. destruct HE as (E1 & E2 & E3 & _).
  destruct (improves (s_min c) q1 (Some bq)); apply IH; auto; rewrite E3; auto.
Qed.

Lemma memeticEval_last n c o s (F : fits n c) (T : total c) : wf n o -> inv n c s -> numE s <> 0 ->
  match memeticEval c o s with Done s' _ | Assert s' => atLast s' | Div _ => False end.
Proof.
  intros HW HI HN. unfold memeticEval. apply Nat.eqb_neq in HN. rewrite HN.
  assert (HI' : inv n c (switchMutations s)) by (eapply inv_same; [|exact HI]; repeat split).
  destruct (localEval_last n c o (visible o) (switchMutations s) T HW (visible_length n o HW) HI') as (s1 & o1 & q1 & E & L1).
  assert (HE := localEval_spec n c o (visible o) (switchMutations s) HW (visible_length n o HW) HI'). rewrite E in *. destruct HE as (E1 & E2 & E3 & E4 & _).
  destruct (1 <? localSteps c); [|exact L1].
  assert (HL := localLoop_last n c F T (localSteps c) o1 (visible o) q1 1 s1 E2 ltac:(rewrite E3; apply (visible_length n); exact HW) E1 L1).
  destruct (localLoop (localSteps c) c o1 (visible o) q1 1 s1) as [s2 q]. exact HL.
Qed.

Definition lastOut (r : out unit) : Prop := match r with Done s' _ | Assert s' => atLast s' | Div _ => False end.

Lemma hillStep_last n c s (F : fits n c) (T : total c) : inv n c s -> numE s <> 0 -> lastOut (hillStep c s).
Proof.
  intros HI HN. unfold hillStep, callMutate. fold (challengerOf c s).
  assert (HW : wf n (challengerOf c s)) by (apply challenger_wf; [exact F|apply HI]).
  assert (HE := memeticEval_last n c (challengerOf c s) (setPc (applyMask (challengerOf c s)) (ticked s)) F T HW ltac:(eapply inv_same; [|exact HI]; repeat split) HN).
  destruct (memeticEval c (challengerOf c s) _); exact HE.
Qed.

Lemma bracket_last f s : lastOut (f (switchMutations s)) -> lastOut (bracket f s).
Proof. unfold bracket. destruct (f (switchMutations s)); exact id. Qed.

Lemma step_last n a c init s (F : fits n c) (T : total c) : wf n init -> inv n c s -> numE s <> 0 -> lastOut (stepOf a c init s).
Proof.
  intros HW HI HN. destruct a; cbn [stepOf].
  - apply bracket_last. apply (hillStep_last n); auto.
  - apply bracket_last. apply bracket_last. apply (hillStep_last n); auto.
  - unfold guessStep, blackBoxEval. cbn [setPc ticked numE pc]. destruct (f_eval c (numE s) _) eqn:E; [|exfalso; exact (T _ _ E)].
    cbn. eexists _, _, _. reflexivity.
Qed.

(** ** Sessions *)
Definition grown (a : algo) (c : msettings) (s s' : mstate) : Prop :=
  exists new, log s' = new ++ log s /\ length new <= batchOf a c.

Lemma step_spec n a c init s (F : fits n c) : wf n init -> inv n c s -> numE s <> 0 -> 1 <= localSteps c -> match stepOf a c init s with
  | Done s' _ => inv n c s' /\ swapped s' = swapped s /\ grown a c s s' /\ log s' <> log s
  | Div s' => inv n c s' /\ swapped s' = (match a with Inverse => negb (swapped s) | _ => swapped s end) /\ grown a c s s'
  | Assert s' => inv n c s' /\ swapped s' = (match a with Inverse => negb (swapped s) | _ => swapped s end) /\ grown a c s s' /\ localSteps c = 1 end.
Proof.
  intros HW HI HN HL.
  assert (LN : forall (x : list (masked * list Q * Q)) e l, (x ++ [e]) ++ l <> l).
  { intros x e l E. apply (f_equal (@length _)) in E. rewrite !app_length in E. cbn in E. lia. }
  destruct a; cbn [stepOf batchOf].
  - assert (S := memeticStep_spec n c s F HI HN). cbv zeta in S. destruct (memeticStep c s) as [s' u|s'|s'].
    + destruct S as (A & B & new & q0 & C & D & _). split; [exact A|]. split; [exact B|]. split; [eexists; split; [exact C|]; rewrite app_length; cbn; lia|]. rewrite C. apply LN.
    + destruct S as (A & B & C). split; [exact A|]. split; [exact B|]. exists []. split; [exact C|cbn; lia].
    + destruct S as (A & B & D & e & C). split; [exact A|]. split; [exact B|]. split; [exists [e]; split; [exact C|cbn; lia]|lia].
  - assert (S := inverseStep_spec n c s F HI HN). cbv zeta in S. destruct (inverseStep c s) as [s' u|s'|s'].
    + destruct S as (A & B & new & q0 & C & D & _). split; [exact A|]. split; [exact B|]. split; [eexists; split; [exact C|]; rewrite app_length; cbn; lia|]. rewrite C. apply LN.
    + destruct S as (A & B & C). split; [exact A|]. split; [exact B|]. exists []. split; [exact C|cbn; lia].
    + destruct S as (A & B & D & e & C). split; [exact A|]. split; [exact B|]. split; [exists [e]; split; [exact C|cbn; lia]|lia].
  - assert (S := guessStep_spec n c init s F HW HI). destruct (guessStep c init s) as [s' u|s'|s'].
    + destruct S as (A & B & e & C). split; [exact A|]. split; [exact B|]. split; [exists [e]; split; [exact C|cbn; lia]|]. rewrite C. apply (LN [] e).
    + destruct S as (A & B & C). split; [exact A|]. split; [exact B|]. exists []. split; [exact C|cbn; lia].
    + destruct S.
Qed.

Lemma log_numE n c s : inv n c s -> numE s <> 0 <-> log s <> [].
Proof. intros (A & _). rewrite A. destruct (log s); cbn; split; intros; congruence || lia. Qed.

Lemma loop_spec n a c init (F : fits n c) : wf n init -> 1 <= localSteps c -> forall fuel steps s s' e,
  inv n c s -> numE s <> 0 -> loop fuel c (batchOf a c) (stepOf a c init) steps s = (s', e) ->
  inv n c s' /\ numE s' <> 0 /\ (exists new, log s' = new ++ log s) /\
  swapped s' = (match a, e with Inverse, Broke | Inverse, Raised => negb (swapped s) | _, _ => swapped s end) /\
  (e = Raised -> localSteps c = 1) /\
  (forall M, s_maxEval c = Some M -> numE s <= M -> numE s' <= M) /\
  (total c -> atLast s -> atLast s' /\ e <> Broke).
Proof.
  intros HW HL. induction fuel as [|fuel IH]; intros steps s s' e HI HN E; cbn [loop] in E.
  - assert (E' : s' = s /\ (e = Stopped \/ e = FuelOut)) by (destruct (stop c (batchOf a c) steps s); injection E as <- <-; auto).
    destruct E' as (-> & Ee). split; [exact HI|]. split; [exact HN|]. split; [exists []; reflexivity|]. split; [destruct a, Ee as [-> | ->]; reflexivity|].
    split; [destruct Ee as [-> | ->]; discriminate|]. split; [auto|]. intros _ H. split; [exact H|]. destruct Ee as [-> | ->]; discriminate.
  - destruct (stop c (batchOf a c) steps s) eqn:ES.
    + injection E as <- <-. split; [exact HI|]. split; [exact HN|]. split; [exists []; reflexivity|]. split; [destruct a; reflexivity|].
      split; [discriminate|]. split; [auto|]. intros _ H. split; [exact H|discriminate].
    + assert (S := step_spec n a c init s F HW HI HN HL). assert (SL := fun T => step_last n a c init s F T HW HI HN).
      assert (BG : forall s1, inv n c s1 -> grown a c s s1 -> numE s1 <> 0 /\ forall M, s_maxEval c = Some M -> numE s1 <= M).
      { intros s1 I1 (new & G1 & G2). split.
        - apply (log_numE n c s1 I1). apply (log_numE n c s HI) in HN. rewrite G1. destruct new; [exact HN|discriminate].
        - intros M HM. unfold stop in ES. rewrite HM in ES. apply orb_false_iff in ES. destruct ES as (ES & _). apply orb_false_iff in ES. destruct ES as (ES & _).
          apply Nat.ltb_ge in ES. destruct I1 as (I1 & _). destruct HI as (I0 & _). rewrite I1, G1, app_length. lia. }
      destruct (stepOf a c init s) as [s1 u|s1|s1].
      * destruct S as (A & B & G & _). destruct (BG s1 A G) as (N1 & M1). destruct (IH (S steps) s1 s' e A N1 E) as (R1 & R2 & (new & R3) & R4 & R5 & R6 & R7).
        split; [exact R1|]. split; [exact R2|]. split; [destruct G as (new0 & G & _); exists (new ++ new0); rewrite R3, G, app_assoc; reflexivity|].
        split; [rewrite B in R4; exact R4|]. split; [exact R5|]. split; [intros M HM _; apply (R6 M HM); apply M1; exact HM|].
        intros T _. apply R7; [exact T|]. apply (SL T).
      * destruct S as (A & B & G). destruct (BG s1 A G) as (N1 & M1). injection E as <- <-. split; [exact A|]. split; [exact N1|]. split; [destruct G as (new0 & G & _); exists new0; exact G|].
        split; [rewrite B; destruct a; reflexivity|]. split; [discriminate|]. split; [intros M HM _; apply M1; exact HM|]. intros T _. destruct (SL T).
      * destruct S as (A & B & G & L). destruct (BG s1 A G) as (N1 & M1). injection E as <- <-. split; [exact A|]. split; [exact N1|]. split; [destruct G as (new0 & G & _); exists new0; exact G|].
        split; [rewrite B; destruct a; reflexivity|]. split; [auto|]. split; [intros M HM _; apply M1; exact HM|]. intros T _. split; [apply (SL T)|discriminate].
Qed.

Lemma start_inv n c sw init : wf n init -> inv n c (startState sw init).
Proof. intro H. unfold inv, bestOf, startState. cbn. auto. Qed.

Lemma session_spec n a c sw init fuel s e (F : fits n c) : wf n init -> 1 <= localSteps c -> session fuel a c sw init = Some (s, e) ->
  inv n c s /\ numE s <> 0 /\ (exists new q, log s = new ++ [(init, applyMask init, q)]) /\
  swapped s = (match a, e with Inverse, Broke | Inverse, Raised => negb sw | _, _ => sw end) /\
  (e = Raised -> localSteps c = 1) /\
  (forall M, s_maxEval c = Some M -> 1 <= M -> numE s <= M) /\
  (total c -> atLast s /\ e <> Broke).
Proof.
  intros HW HL E. unfold session in E. assert (HB := blackBox_spec n c init (startState sw init) eq_refl HW (start_inv n c sw init HW)).
  destruct (blackBoxEval c init (startState sw init)) as [s0 q|s0|s0]; [|discriminate|discriminate].
  destruct HB as (B1 & B2 & B3 & B4 & B5). injection E as E. cbn [startState pc swapped log tick] in B2, B3, B4.
  set (s1 := {| pc := pc s0; swapped := swapped s0; numE := numE s0; bestV := bestV s0; bestO := init; tick := tick s0; log := log s0 |}) in *.
  assert (I1 : inv n c s1).
  { destruct B1 as (I1 & I2 & I3 & I4). unfold inv, s1. cbn. repeat split; auto; try apply HW.
    unfold bestOf in *. cbn. destruct (bestV s0); [|exact I3]. destruct I3 as (J1 & J2). split; [|exact J2].
    rewrite B4 in *. destruct J1 as [J|[]]. injection J as _ _ <-. left. reflexivity. }
  assert (N1 : numE s1 <> 0) by (unfold s1; cbn; destruct B1 as (B1 & _); rewrite B1, B4; cbn; lia).
  destruct (loop_spec n a c init F HW HL fuel 0 s1 s e I1 N1 E) as (R1 & R2 & (new & R3) & R4 & R5 & R6 & R7).
  split; [exact R1|]. split; [exact R2|]. split; [exists new, q; rewrite R3; unfold s1; cbn; rewrite B4; reflexivity|].
  split; [rewrite R4; unfold s1; cbn; rewrite B3; reflexivity|]. split; [exact R5|].
  split; [intros M HM H1; apply (R6 M HM); unfold s1; cbn; destruct B1 as (B1 & _); rewrite B1, B4; cbn; lia|].
  intro T. apply R7; [exact T|]. exists init, q, []. unfold s1. cbn. rewrite B2, B4. reflexivity.
Qed.

(** ** Masks *)
Lemma best_in_log n c s : inv n c s -> numE s <> 0 -> exists p q, In (bestO s, p, q) (log s).
Proof.
  intros HI HN. apply (log_numE n c s HI) in HN. destruct HI as (_ & _ & B & _). unfold bestOf in B. destruct (bestV s) as [b|].
  - destruct B as (B & _). eauto.
  - congruence.
Qed.

Definition allMask (m : list bool) (l : list (masked * list Q * Q)) : Prop := Forall (fun e => m_mask (fst (fst e)) = m) l.

Lemma inverse_loop_mask n c init m (F : fits n c) : wf n init -> 1 <= localSteps c -> forall fuel steps s s' e,
  inv n c s -> numE s <> 0 -> swapped s = false -> allMask m (log s) ->
  loop fuel c (batchOf Inverse c) (stepOf Inverse c init) steps s = (s', e) -> e <> Raised -> allMask m (log s').
Proof.
  intros HW HL. induction fuel as [|fuel IH]; intros steps s s' e HI HN HS HM E HR; cbn [loop] in E.
  - destruct (stop _ _ _ _); injection E as <- <-; exact HM.
  - destruct (stop c (batchOf Inverse c) steps s); [injection E as <- <-; exact HM|]. cbn [stepOf] in E.
    assert (S := inverseStep_spec n c s F HI HN). cbv zeta in S. destruct (inverseStep c s) as [s1 u|s1|s1].
    + destruct S as (A & B & new & q0 & C & D & G).
      assert (EM : m_mask (challengerOf c s) = m).
      { unfold challengerOf. rewrite HS. destruct (fit_wmut n c F (tick s) (bestO s)) as (_ & ->); [apply HI|].
        destruct (best_in_log n c s HI HN) as (p & q & HIn). unfold allMask in HM. rewrite Forall_forall in HM. apply (HM _ HIn). }
      apply (IH (S steps) s1 s' e); auto.
      * apply (log_numE n c s1 A). rewrite C. destruct new; discriminate.
      * congruence.
      * rewrite C. unfold allMask. apply Forall_app. split; [apply Forall_app; split|exact HM]; [rewrite EM in G; exact G|constructor; [exact EM|constructor]].
    + destruct S as (A & B & C). injection E as <- <-. rewrite C. exact HM.
    + injection E as _ <-. congruence.
Qed.
