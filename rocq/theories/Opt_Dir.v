(** The direction of optimization. *)
From Verif Require Import Base Opt_Model Opt_Spec Opt_Proofs.
From Coq Require Import QArith Lia Lqa.
Local Open Scope Z_scope.

Lemma Qopp_opp q : (- - q)%Q = q.
Proof. destruct q as [n d]. unfold Qopp. cbn. now rewrite Z.opp_involutive. Qed.
Lemma neg_neg r : neg_res (neg_res r) = r.
Proof. destruct r; cbn; [now rewrite Qopp_opp | auto]. Qed.
Lemma flip_flip d : flip_desired (flip_desired d) = d.
Proof. destruct d; cbn; [now rewrite Qopp_opp | auto]. Qed.

Section D.
  Context {X : Type}.
  Implicit Type o : opt X.
  Definition evrel (op : bool) (ev g : option (evaluator X)) : Prop :=
    match ev with
    | None => g = None
    | Some f => exists g', g = Some g' /\ forall i x, g' i x = (if op then neg_res (f i x) else f i x)
    end.
  Definition dirinv (mmin mmax : bool) o (fl : option bool) (ev : option (evaluator X)) : Prop :=
    o_mustMin o = mmin /\ o_mustMax o = mmax /\
    match fl with
    | None => o_min o = None /\ o_opposed o = false /\ ev = None
    | Some b => o_opposed o = (if b then mmax else mmin) /\ o_min o = Some (xorb b (o_opposed o))
    end /\ evrel (o_opposed o) ev (o_eval o).
  Definition desinv o (ev : option (evaluator X)) (d : option Q) : Prop :=
    o_desired o = match ev with Some _ => if o_opposed o then flip_desired d else d | None => d end.

  Lemma setMinimize_inv mmin mmax o fl ev b : dirinv mmin mmax o fl ev -> dirinv mmin mmax (setMinimize o b) (Some b) ev.
  Proof.
    intros (A1 & A2 & A3 & A4). unfold dirinv, setMinimize. cbn [set_dir o_mustMin o_mustMax o_opposed o_min o_eval]. rewrite A1, A2.
    set (opp := if b then mmax else mmin).
    split; [destruct (o_eval o) as [g0|]; [destruct (Bool.eqb opp (o_opposed o)) |]; auto |]. split; [destruct (o_eval o) as [g0|]; [destruct (Bool.eqb opp (o_opposed o)) |]; auto |]. split; [split; [auto | destruct opp, b; auto] |].
    destruct ev as [f|]; cbn [evrel] in *.
    - destruct A4 as (g & E1 & E2). rewrite E1. destruct (Bool.eqb opp (o_opposed o)) eqn:EB.
      + apply Bool.eqb_prop in EB. exists g. split; [auto |]. intros i x. rewrite E2, EB. auto.
      + apply Bool.eqb_false_iff in EB. unfold flipDirection. cbn [set_dir o_eval]. rewrite E1. exists (oppositeFunction g). split; [auto |]. intros i x. unfold oppositeFunction. rewrite E2.
        destruct opp, (o_opposed o); try congruence. apply neg_neg.
    - now rewrite A4.
  Qed.
  Lemma setMinimize_des mmin mmax o fl ev d b : dirinv mmin mmax o fl ev -> desinv o ev d -> desinv (setMinimize o b) ev d.
  Proof.
    intros (A1 & A2 & A3 & A4) D. unfold desinv, setMinimize in *. cbn [set_dir o_desired o_opposed]. set (opp := if b then _ else _). destruct ev as [f|]; cbn [evrel] in A4.
    - destruct A4 as (g & E1 & _). rewrite E1. destruct (Bool.eqb opp (o_opposed o)) eqn:EB.
      + apply Bool.eqb_prop in EB. rewrite D, EB. auto.
      + apply Bool.eqb_false_iff in EB. unfold flipDirection. cbn [set_dir o_desired]. rewrite D. destruct opp, (o_opposed o); try congruence. apply flip_flip.
    - rewrite A4. auto.
  Qed.

  (** the state in which _additionalInit runs *)
  Definition entry o (f : evaluator X) (fe : option fitev) (x0 : X) : opt X :=
    let o1 := match fe with
              | None => o
              | Some d =>
                  let o' := match o_desired o with None => set_dir o (o_min o) (o_opposed o) (o_eval o) (fe_desired d) | Some _ => o end in
                  match o_min o' with None => setMinimize o' (fe_min d) | Some _ => o' end
              end in
    let o2 := match o_min o1 with None => setMinimize o1 false | Some _ => o1 end in
    let o3 := set_dir o2 (o_min o2) (o_opposed o2) (Some f) (o_desired o2) in
    let o4 := if o_opposed o3 then flipDirection o3 else o3 in
    set_best (set_init o4 x0) None (o_best o4).
  Lemma setEvaluator_eq {S} o f fe x0 (init : prog X S) : setEvaluator o f fe x0 init =
    let '(o6, r, l) := run init (entry o f fe x0) in
    match r with Ok s => (set_best o6 (o_bestE o6) (o_init o6), Ok s, l) | Err e => (o6, Err e, l) end.
  Proof. reflexivity. Qed.
  Lemma set_dir_inv mmin mmax o fl ev d : dirinv mmin mmax o fl ev -> dirinv mmin mmax (set_dir o (o_min o) (o_opposed o) (o_eval o) d) fl ev.
  Proof. intros H. exact H. Qed.
  Lemma entry_inv mmin mmax o fl ev f fe x0 : dirinv mmin mmax o fl ev ->
    dirinv mmin mmax (entry o f fe x0) (wanted_dir fl (SetEval f fe x0 (Ret tt))) (Some f) /\
    o_nEval (entry o f fe x0) = o_nEval o /\ o_bestE (entry o f fe x0) = None /\ o_init (entry o f fe x0) = Some x0 /\
    o_maxEval (entry o f fe x0) = o_maxEval o /\ o_batch (entry o f fe x0) = o_batch o /\ o_nSteps (entry o f fe x0) = o_nSteps o /\
    o_maxSteps (entry o f fe x0) = o_maxSteps o.
  Proof.
    intros H. unfold entry. cbn zeta.
    set (o1 := match fe with None => o | Some d => _ end).
    assert (H1 : dirinv mmin mmax o1 (match fl, fe with None, Some d => Some (fe_min d) | _, _ => fl end) ev /\ o_nEval o1 = o_nEval o /\
                 o_maxEval o1 = o_maxEval o /\ o_batch o1 = o_batch o /\ o_nSteps o1 = o_nSteps o /\ o_maxSteps o1 = o_maxSteps o).
    { subst o1. destruct fe as [d|]; [| destruct fl; repeat (split; [auto |]); auto].
      set (o' := match o_desired o with None => _ | Some _ => o end).
      assert (H' : dirinv mmin mmax o' fl ev /\ o_nEval o' = o_nEval o /\ o_maxEval o' = o_maxEval o /\ o_batch o' = o_batch o /\ o_nSteps o' = o_nSteps o /\ o_maxSteps o' = o_maxSteps o).
      { subst o'. destruct (o_desired o); repeat (split; [auto |]); auto. }
      clearbody o'. destruct H' as (H1 & H2). destruct fl as [b|].
      - pose proof H1 as (_ & _ & (_ & ->) & _). auto.
      - pose proof H1 as (_ & _ & (-> & _) & _). split; [eapply setMinimize_inv; eauto |]. unfold setMinimize. destruct (o_eval o'); [destruct (Bool.eqb _ _) |]; auto. }
    clearbody o1. destruct H1 as (H1 & N1 & N2 & N3 & N4 & N5).
    set (o2 := match o_min o1 with None => setMinimize o1 false | Some _ => o1 end).
    assert (H2 : dirinv mmin mmax o2 (wanted_dir fl (SetEval f fe x0 (Ret tt))) ev /\ o_nEval o2 = o_nEval o /\
                 o_maxEval o2 = o_maxEval o /\ o_batch o2 = o_batch o /\ o_nSteps o2 = o_nSteps o /\ o_maxSteps o2 = o_maxSteps o).
    { subst o2. cbn [wanted_dir]. destruct fl as [b|]; [| destruct fe as [d|]].
      - assert (EM : o_min o1 = Some (xorb b (o_opposed o1))) by (destruct fe; pose proof H1 as (_ & _ & (_ & E) & _); exact E). rewrite EM. destruct fe; auto 10.
      - pose proof H1 as (_ & _ & (_ & ->) & _). auto 10.
      - pose proof H1 as (_ & _ & (-> & _) & _). split; [eapply setMinimize_inv; eauto |]. rewrite <- N1, <- N2, <- N3, <- N4, <- N5. unfold setMinimize. destruct (o_eval o1); [destruct (Bool.eqb _ _) |]; auto 10. }
    clearbody o2. destruct H2 as ((B1 & B2 & B3 & _) & M1 & M2 & M3 & M4 & M5). cbn [wanted_dir] in *.
    assert (B3' : o_opposed o2 = (if match fl with Some b => b | None => match fe with Some e => fe_min e | None => false end end then mmax else mmin) /\
      o_min o2 = Some (xorb (match fl with Some b => b | None => match fe with Some e => fe_min e | None => false end end) (o_opposed o2))) by (destruct fl; exact B3).
    destruct B3' as [B4 B5].
    assert (E : (match fl with Some b => Some b | None => Some match fe with Some e => fe_min e | None => false end end) =
      Some (match fl with Some b => b | None => match fe with Some e => fe_min e | None => false end end)) by (destruct fl; auto). rewrite E. clear E B3.
    set (b := match fl with Some b => b | None => _ end) in *. clearbody b.
    cbn [set_dir o_opposed]. unfold dirinv, flipDirection.
    destruct (o_opposed o2) eqn:EO; cbn [set_best set_init set_dir o_mustMin o_mustMax o_min o_opposed o_eval o_nEval o_bestE o_init o_maxEval o_batch o_nSteps o_maxSteps evrel]; rewrite ?EO;
      (split; [split; [auto |]; split; [auto |]; split; [split; auto |]; eexists; split; [reflexivity |]; intros; reflexivity |]); auto 10.
  Qed.
  Lemma entry_des mmin mmax o fl ev f fe x0 d : dirinv mmin mmax o fl ev -> desinv o ev d -> (ev = None \/ o_opposed o = false) ->
    desinv (entry o f fe x0) (Some f) (wanted_desired d (SetEval f fe x0 (Ret tt))).
  Proof.
    intros H D HE. assert (D0 : o_desired o = d) by (unfold desinv in D; destruct ev; [destruct HE as [|HE]; [discriminate |]; rewrite HE in D; auto | auto]).
    unfold entry. cbn zeta.
    set (o1 := match fe with None => o | Some d => _ end).
    set (d1 := wanted_desired d (SetEval f fe x0 (Ret tt))).
    assert (H1 : dirinv mmin mmax o1 (match fl, fe with None, Some d => Some (fe_min d) | _, _ => fl end) ev /\ o_desired o1 = d1 /\ (o_min o1 = None -> ev = None)).
    { subst o1 d1. cbn [wanted_desired]. destruct fe as [e|]; [| split; [destruct fl; auto |]; split; [destruct d; auto |]; intros Hn; destruct fl as [b|]; [destruct H as (_ & _ & (_ & E) & _); congruence | destruct H as (_ & _ & (_ & _ & ?) & _); auto]].
      set (o' := match o_desired o with None => _ | Some _ => o end).
      assert (H' : dirinv mmin mmax o' fl ev /\ o_desired o' = match d with Some _ => d | None => fe_desired e end).
      { subst o'. rewrite <- D0. destruct (o_desired o) eqn:ED; split; auto. }
      clearbody o'. destruct H' as (H1 & H2). destruct fl as [b|].
      - pose proof H1 as (_ & _ & (_ & EM) & _). rewrite EM. split; [auto |]. split; [rewrite H2; destruct d; auto |]. congruence.
      - pose proof H1 as (_ & _ & (EM & EO & EV) & EE). rewrite EM. split; [eapply setMinimize_inv; eauto |]. rewrite EV in EE. cbn [evrel] in EE. unfold setMinimize. rewrite EE. cbn [set_dir o_desired o_min]. split; [rewrite H2; destruct d; auto |]. auto. }
    clearbody o1. destruct H1 as (H1 & D1 & V1).
    set (o2 := match o_min o1 with None => setMinimize o1 false | Some _ => o1 end).
    assert (D2 : o_desired o2 = d1).
    { subst o2. destruct (o_min o1) eqn:EM; [auto |]. rewrite (V1 eq_refl) in H1. destruct H1 as (_ & _ & _ & EE). cbn [evrel] in EE. unfold setMinimize. rewrite EE. auto. }
    clearbody o2. unfold desinv. cbn [set_dir o_opposed]. unfold flipDirection.
    destruct (o_opposed o2) eqn:EO; cbn [set_best set_init set_dir o_mustMin o_mustMax o_min o_opposed o_eval o_nEval o_bestE o_init o_maxEval o_batch o_nSteps o_maxSteps o_desired]; rewrite ?EO; congruence.
  Qed.

  Lemma same_dir_inv mmin mmax o o' fl ev : same_dir o o' -> dirinv mmin mmax o fl ev -> dirinv mmin mmax o' fl ev.
  Proof. intros [] H. unfold dirinv in *. rewrite sd1, sd2, sd3, sd4, sd5. exact H. Qed.
  Lemma same_dir_des o o' ev d : same_dir o o' -> desinv o ev d -> desinv o' ev d.
  Proof. intros [] H. unfold desinv in *. rewrite sd4, sd6. exact H. Qed.
  Lemma setEvaluator_dir {S} o f fe x0 (init : prog X S) o' r l : setEvaluator o f fe x0 init = (o', r, l) -> same_dir (entry o f fe x0) o'.
  Proof.
    rewrite setEvaluator_eq. destruct (run init (entry o f fe x0)) as [[o6 r6] l6] eqn:E. destruct (run_spec _ _ _ _ _ E) as (A & _).
    destruct r6; intros [= <- <- <-]; [| auto]. destruct A. constructor; auto.
  Qed.

  Lemma exec_dir mmin mmax : forall (ops : list (op X)) o fl ev, dirinv mmin mmax o fl ev ->
    dirinv mmin mmax (fold_left exec ops o) (fold_left wanted_dir ops fl) (fold_left wanted_eval ops ev).
  Proof.
    induction ops as [|c ops IH]; intros o fl ev H; cbn [fold_left]; [auto |]. apply IH. destruct c as [b | f fe x0 init]; cbn [exec wanted_dir wanted_eval].
    - eapply setMinimize_inv; eauto.
    - destruct (setEvaluator o f fe x0 init) as [[o' r] l] eqn:E. cbn [fst]. eapply same_dir_inv; [eapply setEvaluator_dir; eauto |]. apply (entry_inv _ _ _ _ _ f fe x0 H).
  Qed.
  Lemma exec_des mmin mmax : forall (ops : list (op X)) o fl ev d, (evals ops + (match ev with Some _ => 1 | None => 0 end) <= 1)%nat ->
    dirinv mmin mmax o fl ev -> desinv o ev d ->
    desinv (fold_left exec ops o) (fold_left wanted_eval ops ev) (fold_left wanted_desired ops d).
  Proof.
    induction ops as [|c ops IH]; intros o fl ev d Hn H D; cbn [fold_left]; [auto |]. destruct c as [b | f fe x0 init]; cbn [exec wanted_eval wanted_desired].
    - eapply IH; [exact Hn | eapply setMinimize_inv; eauto | eapply setMinimize_des; eauto].
    - unfold evals in Hn. cbn [filter length] in Hn. fold (evals ops) in Hn. destruct ev; [lia |].
      destruct (setEvaluator o f fe x0 init) as [[o' r] l] eqn:E. cbn [fst].
      apply IH with (fl := wanted_dir fl (SetEval f fe x0 (Ret tt))).
      + unfold evals in *. cbn in *. lia.
      + eapply same_dir_inv; [eapply setEvaluator_dir; eauto |]. apply (entry_inv _ _ _ _ _ f fe x0 H).
      + eapply same_dir_des; [eapply setEvaluator_dir; eauto |]. eapply entry_des in D; eauto.
  Qed.
End D.
