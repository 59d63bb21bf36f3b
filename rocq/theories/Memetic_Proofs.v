From Verif Require Import Base Masked_Model Opt_Model Memetic_Model.
From Coq Require Import QArith Lia.
Import ListNotations.
Local Open Scope nat_scope.

(** an individual around a container of n parameters *)
Definition wf (n : nat) (o : masked) : Prop := length (m_mask o) = n /\ length (m_vals o) = n.

Record fits (n : nat) (c : msettings) : Prop := {
  fit_topo : forall i o, wf n o -> wf n (topo c i o) /\ m_vals (topo c i o) = m_vals o;
  fit_wmut : forall i o, wf n o -> wf n (wmut c i o) /\ m_mask (wmut c i o) = m_mask o;
  fit_rnd : forall i o, wf n o -> wf n (rnd c i o);
  fit_noise : forall i, n <= length (noise c i) }.

Lemma setVisible_self mask : forall vals, length vals = length mask -> setVisible mask vals (flat_map (fun e => if fst e : bool then [snd e] else []) (combine mask vals)) = Ok vals.
Proof.
  induction mask as [|b mask IH]; intros [|v vals] H; try discriminate; [reflexivity|].
  cbn in H. injection H as H. destruct b; cbn; rewrite (IH vals H); reflexivity.
Qed.
Lemma set_self n o : wf n o -> setParameters o (visible o) = Ok o.
Proof. intros (A & B). unfold setParameters, visible. rewrite setVisible_self by congruence. destruct o; reflexivity. Qed.

Lemma setVisible_total mask : forall vals x, length vals = length mask -> length x = enabled mask ->
  exists v, setVisible mask vals x = Ok v /\ length v = length mask /\ flat_map (fun e => if fst e : bool then [snd e] else []) (combine mask v) = x.
Proof.
  induction mask as [|b mask IH]; intros [|v vals] x H Hx; try discriminate.
  - exists []. destruct x; [auto|discriminate].
  - cbn in H. injection H as H. destruct b.
    + destruct x as [|a x]; [discriminate|]. cbn in Hx. injection Hx as Hx. destruct (IH vals x H Hx) as (w & E & L & F).
      exists (a :: w). cbn. rewrite E. cbn. rewrite L, F. auto.
    + cbn in Hx. destruct (IH vals x H Hx) as (w & E & L & F). exists (v :: w). cbn. rewrite E. cbn. rewrite L, F. auto.
Qed.
Lemma set_total n o x : wf n o -> length x = enabled (m_mask o) -> exists o', setParameters o x = Ok o' /\ wf n o' /\ m_mask o' = m_mask o /\ visible o' = x.
Proof.
  intros (A & B) H. destruct (setVisible_total (m_mask o) (m_vals o) x ltac:(congruence) H) as (v & E & L & F).
  exists {| m_mask := m_mask o; m_vals := v; m_max := m_max o |}. unfold setParameters. rewrite E. unfold wf, visible. cbn. repeat split; auto; lia.
Qed.
Lemma visible_length n o : wf n o -> length (visible o) = enabled (m_mask o).
Proof.
  intros (A & B). unfold visible. rewrite <- B in A. clear B. revert A. destruct o as [mask vals mx]. cbn. revert vals. induction mask as [|b mask IH]; intros [|v vals] H; try discriminate; [reflexivity|].
  cbn in H. injection H as H. destruct b; cbn; rewrite (IH vals H); reflexivity.
Qed.
Lemma enabled_le n o : wf n o -> enabled (m_mask o) <= n.
Proof. intros (A & _). rewrite <- A. unfold enabled. apply count_occ_bound. Qed.

(** ** The invariant of the bookkeeping *)
Definition asGood (mn : bool) (b q : Q) : Prop := if mn then (b <= q)%Q else (q <= b)%Q.
Fixpoint genuine (c : msettings) (l : list (masked * list Q * Q)) : Prop :=
  match l with
  | [] => True
  | (o, p, q) :: r => p = applyMask o /\ f_eval c (length r) p = Val q /\ genuine c r
  end.
Definition bestOf (c : msettings) (s : mstate) : Prop :=
  match bestV s with
  | None => log s = []
  | Some b => In (bestO s, applyMask (bestO s), b) (log s) /\ Forall (fun e => asGood (s_min c) b (snd e)) (log s)
  end.
Definition inv (n : nat) (c : msettings) (s : mstate) : Prop :=
  numE s = length (log s) /\ genuine c (log s) /\ bestOf c s /\ wf n (bestO s).

Lemma asGood_trans mn a b q : asGood mn a b -> asGood mn b q -> asGood mn a q.
Proof. destruct mn; cbn; intros H1 H2; eapply Qle_trans; eauto. Qed.
Lemma asGood_refl mn a : asGood mn a a.
Proof. destruct mn; apply Qle_refl. Qed.
Lemma improves_some mn q b : improves mn q (Some b) = true -> asGood mn q b.
Proof. destruct mn; cbn; apply Qle_bool_iff. Qed.
Lemma improves_not mn q b : improves mn q (Some b) = false -> asGood mn b q.
Proof.
  destruct mn; cbn; intro H.
  - destruct (Qlt_le_dec q b) as [L|L]; [|exact L]. apply Qlt_le_weak, Qle_bool_iff in L. congruence.
  - destruct (Qlt_le_dec b q) as [L|L]; [|exact L]. apply Qlt_le_weak, Qle_bool_iff in L. congruence.
Qed.

Definition same_but_pc (s s' : mstate) : Prop := numE s' = numE s /\ bestV s' = bestV s /\ bestO s' = bestO s /\ log s' = log s.
Lemma inv_same n c s s' : same_but_pc s s' -> inv n c s -> inv n c s'.
Proof. intros (A & B & C & D) (I1 & I2 & I3 & I4). unfold inv, bestOf in *. rewrite A, B, C, D. auto. Qed.

Lemma blackBox_spec n c o s : pc s = applyMask o -> wf n o -> inv n c s -> match blackBoxEval c o s with
  | Done s' q => inv n c s' /\ pc s' = pc s /\ swapped s' = swapped s /\ log s' = (o, applyMask o, q) :: log s /\ tick s' = tick s
  | Div s' => s' = s
  | Assert _ => False end.
Proof.
  intros HP HW (I1 & I2 & I3 & I4). unfold blackBoxEval. destruct (f_eval c (numE s) (pc s)) as [q|] eqn:E; [|reflexivity].
  cbn [pc swapped log tick]. rewrite HP. repeat split; auto.
  - cbn [numE log length]. congruence.
  - cbn [log genuine]. rewrite <- I1, HP in *. auto.
  - unfold bestOf in *. cbn [bestV bestO log]. destruct (bestV s) as [b|] eqn:EB.
    + destruct I3 as (J1 & J2). assert (HN : numE s =? 0 = false) by (apply Nat.eqb_neq; rewrite I1; destruct (log s); [destruct J1|discriminate]).
      rewrite HN. cbn [orb]. destruct (improves (s_min c) q (Some b)) eqn:EI.
      * split; [left; reflexivity|]. constructor; [apply asGood_refl|]. eapply Forall_impl; [|exact J2]. cbn. intros a Ha. eapply asGood_trans; [apply improves_some; exact EI|exact Ha].
      * split; [right; exact J1|]. constructor; [apply improves_not; exact EI|exact J2].
    + cbn [improves]. rewrite orb_true_r. split; [left; reflexivity|]. constructor; [apply asGood_refl|]. rewrite I3. constructor.
  - cbn [bestO]. destruct ((numE s =? 0) || improves (s_min c) q (bestV s)); apply HW || apply I4.
  - cbn [bestO]. destruct ((numE s =? 0) || improves (s_min c) q (bestV s)); apply HW || apply I4.
Qed.

Lemma localEval_spec n c o x s : wf n o -> length x = enabled (m_mask o) -> inv n c s -> match localEval c o x s with
  | Done s' (o', q) => inv n c s' /\ wf n o' /\ m_mask o' = m_mask o /\ visible o' = x /\ pc s' = applyMask o' /\ swapped s' = swapped s /\
      log s' = (o', applyMask o', q) :: log s /\ tick s' = tick s /\ (x = visible o -> o' = o)
  | Div s' => inv n c s' /\ log s' = log s /\ swapped s' = swapped s
  | Assert _ => False end.
Proof.
  intros HW HX HI. unfold localEval. destruct (set_total n o x HW HX) as (o' & E & W' & M & V). rewrite E.
  assert (HB := blackBox_spec n c o' (setPc (applyMask o') s) eq_refl W').
  assert (HI' : inv n c (setPc (applyMask o') s)) by (eapply inv_same; [|exact HI]; repeat split).
  specialize (HB HI'). destruct (blackBoxEval c o' (setPc (applyMask o') s)) as [s' q|s'|s']; [|subst s'; auto|exact HB].
  destruct HB as (B1 & B2 & B3 & B4 & B5). repeat split; auto.
  - apply B1. - apply B1. - apply B1. - apply B1. - apply B1. - apply W'. - apply W'.
  - intros ->. rewrite (set_self n o HW) in E. congruence.
Qed.

(** ** The local loop *)
Definition grows (k : nat) (m : list bool) (s s' : mstate) (new : list (masked * list Q * Q)) : Prop :=
  log s' = new ++ log s /\ length new <= k /\ Forall (fun e => m_mask (fst (fst e)) = m) new.
Definition atLast (s : mstate) : Prop := exists o q r, log s = (o, pc s, q) :: r.

Lemma addNoise_length x d : length x <= length d -> length (addNoise x d) = length x.
Proof. intro H. unfold addNoise. rewrite map_length, combine_length. lia. Qed.

Lemma localLoop_spec n c (F : fits n c) : forall fuel o bx bq k s s' q, wf n o -> length bx = enabled (m_mask o) -> inv n c s ->
  localLoop fuel c o bx bq k s = (s', q) ->
  inv n c s' /\ swapped s' = swapped s /\ (exists new, grows (localSteps c - k) (m_mask o) s s' new /\
    (Forall (fun e => asGood (s_min c) q (snd e)) new /\ (q = bq \/ exists e, In e new /\ snd e = q) /\ asGood (s_min c) q bq)).
Proof.
  induction fuel as [|fuel IH]; intros o bx bq k s s' q HW HX HI E; cbn [localLoop] in E.
  - assert (E' : (s, bq) = (s', q)) by (destruct (localStop c k bq); exact E). injection E' as <- <-.
    split; [exact HI|]. split; [reflexivity|]. exists []. split; [repeat split; cbn; auto; lia|]. split; [constructor|]. split; [auto|apply asGood_refl].
  - destruct (localStop c k bq) eqn:ES.
    + injection E as <- <-. split; [exact HI|]. split; [reflexivity|]. exists []. split; [repeat split; cbn; auto; lia|]. split; [constructor|]. split; [auto|apply asGood_refl].
    + apply orb_false_iff in ES. destruct ES as (ES & _). apply Nat.ltb_ge in ES.
      assert (HL : length (addNoise bx (noise c (tick s))) = enabled (m_mask o)).
      { rewrite addNoise_length; [exact HX|]. rewrite HX. eapply Nat.le_trans; [apply (enabled_le n o HW)|apply F]. }
      assert (HE := localEval_spec n c o _ (ticked s) HW HL ltac:(eapply inv_same; [|exact HI]; repeat split)).
      cbv zeta in E. destruct (localEval c o (addNoise bx (noise c (tick s))) (ticked s)) as [s1 [o1 q1]|s1|s1]; [| |destruct HE].
      * destruct HE as (E1 & E2 & E3 & E4 & E5 & E6 & E7 & E8 & _).
        destruct (improves (s_min c) q1 (Some bq)) eqn:EI.
        -- destruct (IH o1 _ q1 (S k) s1 s' q E2 ltac:(rewrite E3; exact HL) E1 E) as (A1 & A2 & new & (G1 & G2 & G3) & A3 & A4 & A5).
           split; [exact A1|]. split; [rewrite A2, E6; reflexivity|]. exists (new ++ [(o1, applyMask o1, q1)]).
           split; [repeat split|].
           ++ rewrite G1, E7, <- app_assoc. reflexivity.
           ++ rewrite app_length. cbn. lia.
           ++ apply Forall_app. split; [rewrite <- E3; exact G3|constructor; [exact E3|constructor]].
           ++ split; [apply Forall_app; split; [exact A3|constructor; [exact A5|constructor]]|].
              split; [right; destruct A4 as [->|(e & I & Q)]; [eexists; split; [apply in_or_app; right; left; reflexivity|reflexivity]|exists e; split; [apply in_or_app; left; exact I|exact Q]]|].
              eapply asGood_trans; [exact A5|apply improves_some; exact EI].
        -- destruct (IH o1 bx bq (S k) s1 s' q E2 ltac:(rewrite E3; exact HX) E1 E) as (A1 & A2 & new & (G1 & G2 & G3) & A3 & A4 & A5).
           split; [exact A1|]. split; [rewrite A2, E6; reflexivity|]. exists (new ++ [(o1, applyMask o1, q1)]).
           split; [repeat split|].
           ++ rewrite G1, E7, <- app_assoc. reflexivity.
           ++ rewrite app_length. cbn. lia.
           ++ apply Forall_app. split; [rewrite <- E3; exact G3|constructor; [exact E3|constructor]].
           ++ split; [apply Forall_app; split; [exact A3|constructor; [|constructor]; eapply asGood_trans; [exact A5|apply improves_not; exact EI]]|].
              split; [|exact A5]. destruct A4 as [->|(e & I & Q)]; [left; reflexivity|right; exists e; split; [apply in_or_app; left; exact I|exact Q]].
      * destruct HE as (E1 & E2 & E3). injection E as <- <-. split; [exact E1|]. split; [exact E3|]. exists [].
        split; [repeat split; cbn; auto; lia|]. split; [constructor|]. split; [auto|apply asGood_refl].
Qed.

(** What the container holds: when no divergence stopped the loop, the parameters
    of the last evaluation. *)
Lemma localEval_pc c o x s : match localEval c o x s with Done s' (o', q) => pc s' = applyMask o' /\ exists r, log s' = (o', applyMask o', q) :: r | _ => True end.
Proof.
  unfold localEval. destruct (setParameters o x) as [o'|]; [|exact I]. unfold blackBoxEval. cbn [setPc numE pc].
  destruct (f_eval c (numE s) (applyMask o')); [|exact I]. cbn. eauto.
Qed.

(** ** One learning step *)
Lemma memeticEval_spec n c o s (F : fits n c) : wf n o -> inv n c s -> numE s <> 0 -> match memeticEval c o s with
  | Done s' q => inv n c s' /\ swapped s' = swapped s /\ exists new q0, log s' = (new ++ [(o, applyMask o, q0)]) ++ log s /\ length new < localSteps c /\
      Forall (fun e => m_mask (fst (fst e)) = m_mask o) new /\ Forall (fun e => asGood (s_min c) q (snd e)) (new ++ [(o, applyMask o, q0)]) /\
      exists e, In e (new ++ [(o, applyMask o, q0)]) /\ snd e = q
  | Div s' => inv n c s' /\ swapped s' = negb (swapped s) /\ log s' = log s
  | Assert s' => inv n c s' /\ swapped s' = negb (swapped s) /\ localSteps c <= 1 /\ exists e, log s' = e :: log s end.
Proof.
  intros HW HI HN. unfold memeticEval. apply Nat.eqb_neq in HN. rewrite HN.
  assert (HI' : inv n c (switchMutations s)) by (eapply inv_same; [|exact HI]; repeat split).
  assert (HE := localEval_spec n c o (visible o) (switchMutations s) HW (visible_length n o HW) HI').
  destruct (localEval c o (visible o) (switchMutations s)) as [s1 [o1 q0]|s1|s1]; [| |destruct HE].
  - destruct HE as (E1 & E2 & E3 & E4 & E5 & E6 & E7 & E8 & E9). assert (o1 = o) by auto. subst o1.
    destruct (1 <? localSteps c) eqn:EL.
    + apply Nat.ltb_lt in EL. destruct (localLoop (localSteps c) c o (visible o) q0 1 s1) as [s2 q] eqn:EE.
      destruct (localLoop_spec n c F _ _ _ _ _ _ _ _ HW (visible_length n o HW) E1 EE) as (A1 & A2 & new & (G1 & G2 & G3) & A3 & A4 & A5).
      split; [eapply inv_same; [|exact A1]; repeat split|]. split; [cbn [switchMutations swapped]; rewrite A2, E6; cbn; apply negb_involutive|].
      exists new, q0. cbn [switchMutations log]. split; [rewrite G1, E7, <- app_assoc; reflexivity|]. split; [lia|]. split; [exact G3|].
      split; [apply Forall_app; split; [exact A3|constructor; [exact A5|constructor]]|].
      destruct A4 as [->|(e & I & Q)]; [eexists; split; [apply in_or_app; right; left; reflexivity|reflexivity]|exists e; split; [apply in_or_app; left; exact I|exact Q]].
    + apply Nat.ltb_ge in EL. split; [exact E1|]. split; [rewrite E6; reflexivity|]. split; [exact EL|]. rewrite E7. cbn. eauto.
  - destruct HE as (E1 & E2 & E3). auto.
Qed.

(** The individual a hill climbing step challenges with. *)
Definition challengerOf (c : msettings) (s : mstate) : masked := if swapped s then topo c (tick s) (bestO s) else wmut c (tick s) (bestO s).

Lemma challenger_wf n c s : fits n c -> wf n (bestO s) -> wf n (challengerOf c s).
Proof. intros F H. unfold challengerOf. destruct (swapped s); [apply (fit_topo n c F)|apply (fit_wmut n c F)]; exact H. Qed.

Lemma hillStep_spec n c s (F : fits n c) : inv n c s -> numE s <> 0 -> match hillStep c s with
  | Done s' _ => inv n c s' /\ swapped s' = swapped s /\ exists new q0, log s' = (new ++ [(challengerOf c s, applyMask (challengerOf c s), q0)]) ++ log s /\ length new < localSteps c /\
      Forall (fun e => m_mask (fst (fst e)) = m_mask (challengerOf c s)) new
  | Div s' => inv n c s' /\ swapped s' = negb (swapped s) /\ log s' = log s
  | Assert s' => inv n c s' /\ swapped s' = negb (swapped s) /\ localSteps c <= 1 /\ exists e, log s' = e :: log s end.
Proof.
  intros HI HN. unfold hillStep, callMutate. fold (challengerOf c s).
  assert (HW : wf n (challengerOf c s)) by (apply challenger_wf; [exact F|apply HI]).
  assert (HI' : inv n c (setPc (applyMask (challengerOf c s)) (ticked s))) by (eapply inv_same; [|exact HI]; repeat split).
  assert (HE := memeticEval_spec n c (challengerOf c s) _ F HW HI' HN).
  destruct (memeticEval c (challengerOf c s) (setPc (applyMask (challengerOf c s)) (ticked s))) as [s1 q|s1|s1].
  - destruct HE as (A & B & new & q0 & C & D & E & _). split; [exact A|]. split; [exact B|]. exists new, q0. auto.
  - exact HE.
  - exact HE.
Qed.

Lemma memeticStep_spec n c s (F : fits n c) : inv n c s -> numE s <> 0 -> let ch := challengerOf c (switchMutations s) in match memeticStep c s with
  | Done s' _ => inv n c s' /\ swapped s' = swapped s /\ exists new q0, log s' = (new ++ [(ch, applyMask ch, q0)]) ++ log s /\ length new < localSteps c /\
      Forall (fun e => m_mask (fst (fst e)) = m_mask ch) new
  | Div s' => inv n c s' /\ swapped s' = swapped s /\ log s' = log s
  | Assert s' => inv n c s' /\ swapped s' = swapped s /\ localSteps c <= 1 /\ exists e, log s' = e :: log s end.
Proof.
  intros HI HN ch. unfold memeticStep, bracket.
  assert (HI' : inv n c (switchMutations s)) by (eapply inv_same; [|exact HI]; repeat split).
  assert (HE := hillStep_spec n c (switchMutations s) F HI' HN).
  destruct (hillStep c (switchMutations s)) as [s1 q|s1|s1]; cbn [switchMutations swapped log] in HE.
  - destruct HE as (A & B & C). split; [eapply inv_same; [|exact A]; repeat split|]. cbn [switchMutations swapped log]. split; [rewrite B; apply negb_involutive|exact C].
  - rewrite negb_involutive in HE. exact HE.
  - rewrite negb_involutive in HE. exact HE.
Qed.

Lemma inverseStep_spec n c s (F : fits n c) : inv n c s -> numE s <> 0 -> let ch := challengerOf c s in match inverseStep c s with
  | Done s' _ => inv n c s' /\ swapped s' = swapped s /\ exists new q0, log s' = (new ++ [(ch, applyMask ch, q0)]) ++ log s /\ length new < localSteps c /\
      Forall (fun e => m_mask (fst (fst e)) = m_mask ch) new
  | Div s' => inv n c s' /\ swapped s' = negb (swapped s) /\ log s' = log s
  | Assert s' => inv n c s' /\ swapped s' = negb (swapped s) /\ localSteps c <= 1 /\ exists e, log s' = e :: log s end.
Proof.
  intros HI HN ch. unfold inverseStep, bracket.
  assert (HI' : inv n c (switchMutations s)) by (eapply inv_same; [|exact HI]; repeat split).
  assert (HE := memeticStep_spec n c (switchMutations s) F HI' HN).
  assert (EC : challengerOf c (switchMutations (switchMutations s)) = ch) by (unfold ch, challengerOf; cbn [switchMutations swapped tick bestO]; rewrite negb_involutive; reflexivity).
  cbv zeta in HE. rewrite EC in HE. destruct (memeticStep c (switchMutations s)) as [s1 q|s1|s1]; cbn [switchMutations swapped log] in HE.
  - destruct HE as (A & B & C). split; [eapply inv_same; [|exact A]; repeat split|]. cbn [switchMutations swapped log]. split; [rewrite B; apply negb_involutive|exact C].
  - exact HE.
  - exact HE.
Qed.

Lemma guessStep_spec n c init s (F : fits n c) : wf n init -> inv n c s -> match guessStep c init s with
  | Done s' _ => inv n c s' /\ swapped s' = swapped s /\ exists e, log s' = e :: log s
  | Div s' => inv n c s' /\ swapped s' = swapped s /\ log s' = log s
  | Assert s' => False end.
Proof.
  intros HW HI. unfold guessStep. assert (W' := fit_rnd n c F (tick s) init HW).
  assert (HB := blackBox_spec n c (rnd c (tick s) init) (setPc (applyMask (rnd c (tick s) init)) (ticked s)) eq_refl W' ltac:(eapply inv_same; [|exact HI]; repeat split)).
  destruct (blackBoxEval c (rnd c (tick s) init) _) as [s' q|s'|s'].
  - destruct HB as (A & B & C & D & _). repeat split; try apply A; eauto.
  - subst s'. repeat split; try apply HI; eauto.
  - exact HB.
Qed.
