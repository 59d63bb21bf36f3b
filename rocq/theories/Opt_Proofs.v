(** Bookkeeping of black-box optimizers. *)
From Verif Require Import Base Opt_Model.
From Coq Require Import QArith Lia Lqa.
Local Open Scope Z_scope.

Lemma qle_iff a b : qle a b = true <-> (a <= b)%Q.
Proof. apply Qle_bool_iff. Qed.

Section P.
  Context {X : Type}.
  Implicit Type o : opt X.
  (** fields an evaluation does not touch *)
  Record same_dir o o' : Prop := {
    sd1 : o_mustMin o' = o_mustMin o; sd2 : o_mustMax o' = o_mustMax o; sd3 : o_min o' = o_min o; sd4 : o_opposed o' = o_opposed o;
    sd5 : o_eval o' = o_eval o; sd6 : o_desired o' = o_desired o; sd7 : o_maxEval o' = o_maxEval o; sd8 : o_batch o' = o_batch o;
    sd9 : o_maxSteps o' = o_maxSteps o; sd10 : o_init o' = o_init o; sd11 : o_store o' = o_store o }.
  Lemma sd_refl o : same_dir o o. Proof. constructor; reflexivity. Qed.
  Lemma sd_trans o1 o2 o3 : same_dir o1 o2 -> same_dir o2 o3 -> same_dir o1 o3.
  Proof. intros [] []. constructor; congruence. Qed.
  Lemma sd_user o o' v : same_dir o o' -> user_value o' v = user_value o v.
  Proof. intros H. unfold user_value. now rewrite (sd4 _ _ H). Qed.
  Lemma sd_min o o' : same_dir o o' -> minimizing o' = minimizing o.
  Proof. intros H. unfold minimizing. now rewrite (sd3 _ _ H). Qed.

  Definition no_worse (mn : bool) (v w : Q) : Prop := if mn then (v <= w)%Q else (w <= v)%Q.
  (** the best of a log of evaluations; among equals the last one *)
  Definition best_of (mn : bool) (log : list (X * Q)) (bE : option Q) (b : option X) : Prop :=
    match log with
    | [] => bE = None
    | _ => exists pre x v post, log = pre ++ (x, v) :: post /\ bE = Some v /\ b = Some x /\
             (forall y w, In (y, w) pre -> no_worse mn v w) /\ (forall y w, In (y, w) post -> ~ no_worse mn w v)
    end.
  Lemma no_worse_refl mn v : no_worse mn v v. Proof. destruct mn; cbn; lra. Qed.
  Lemma no_worse_trans mn u v w : no_worse mn u v -> no_worse mn v w -> no_worse mn u w.
  Proof. destruct mn; cbn; lra. Qed.

  Lemma no_worse_total mn v w : ~ no_worse mn w v -> no_worse mn v w.
  Proof. destruct mn; cbn; intros H; apply Qnot_le_lt in H; lra. Qed.

  Lemma oneEvaluation_spec o x o' v : oneEvaluation o x = Ok (o', v) ->
    same_dir o o' /\ o_nEval o' = o_nEval o + 1 /\ o_nSteps o' = o_nSteps o /\
    (exists f, o_eval o = Some f /\ f (o_nEval o) x = Val v) /\
    o_allE o' = (if o_store o then o_allE o ++ [user_value o v] else o_allE o) /\
    o_allX o' = (if o_store o then o_allX o ++ [x] else o_allX o) /\
    forall log, 0 <= o_nEval o - Z.of_nat (length log) -> best_of (minimizing o) log (o_bestE o) (o_best o) ->
      best_of (minimizing o) (log ++ [(x, v)]) (o_bestE o') (o_best o').
  Proof.
    unfold oneEvaluation. destruct (o_eval o) as [f|] eqn:Ef; [| discriminate]. destruct (f (o_nEval o) x) as [w|] eqn:Ew; [| discriminate].
    intros [= <- <-].
    set (better := match o_bestE o with None => true | Some b => (o_nEval o =? 0) || (if minimizing o then qle w b else qle b w) end).
    assert (HB : forall log, 0 <= o_nEval o - Z.of_nat (length log) -> best_of (minimizing o) log (o_bestE o) (o_best o) ->
      best_of (minimizing o) (log ++ [(x, w)]) (if better then Some w else o_bestE o) (if better then Some x else o_best o)).
    { intros log Hn Hb. unfold best_of. destruct (log ++ [(x, w)]) as [|p0 l0] eqn:EL; [destruct log; discriminate |]. rewrite <- EL. clear p0 l0 EL.
      destruct log as [|p0 l0].
      - cbn in Hb. unfold better. rewrite Hb. exists [], x, w, []. split; [auto |]. split; [auto |]. split; [auto |]. split; intros y u [].
      - cbn [best_of] in Hb. destruct Hb as (pre & bx & bv & post & HL & HE & HX & Hpre & Hpost). unfold better. rewrite HE.
        assert (HZ : (o_nEval o =? 0) = false) by (apply Z.eqb_neq; cbn [length] in Hn; lia). rewrite HZ. cbn [orb].
        set (cmp := if minimizing o then qle w bv else qle bv w).
        assert (Hc : if cmp then no_worse (minimizing o) w bv else ~ no_worse (minimizing o) w bv).
        { unfold cmp, no_worse. destruct (minimizing o).
          - destruct (qle w bv) eqn:E; [now apply qle_iff | rewrite <- qle_iff; congruence].
          - destruct (qle bv w) eqn:E; [now apply qle_iff | rewrite <- qle_iff; congruence]. }
        destruct cmp.
        + exists (p0 :: l0), x, w, []. split; [auto |]. split; [auto |]. split; [auto |]. split; [| intros y u []]. rewrite HL. intros y u Hy. apply in_app_iff in Hy as [Hy | [[= <- <-] | Hy]].
          * eapply no_worse_trans; [exact Hc | eauto].
          * exact Hc.
          * eapply no_worse_trans; [exact Hc |]. specialize (Hpost y u Hy). apply no_worse_total in Hpost. exact Hpost.
        + exists pre, bx, bv, (post ++ [(x, w)]). rewrite HL, <- app_assoc. split; [reflexivity |]. split; [auto |]. split; [auto |]. split; [auto |].
          intros y u Hy. apply in_app_iff in Hy as [Hy | [[= <- <-] | []]]; eauto. }
    destruct better; cbn [count_eval set_best o_mustMin o_mustMax o_min o_opposed o_eval o_desired o_maxEval o_batch o_maxSteps o_nEval o_nSteps o_bestE o_best o_init o_store o_allX o_allE];
      (split; [constructor; reflexivity |]); repeat (split; [auto |]); eauto.
  Qed.

  Lemma run_spec {S} : forall (p : prog X S) o o' r l, run p o = (o', r, l) ->
    same_dir o o' /\ o_nEval o' = o_nEval o + Z.of_nat (length l) /\ o_nSteps o' = o_nSteps o /\
    (forall k x v, nth_error l k = Some (x, v) -> exists f, o_eval o = Some f /\ f (o_nEval o + Z.of_nat k) x = Val v) /\
    o_allE o' = (if o_store o then o_allE o ++ map (fun e => user_value o (snd e)) l else o_allE o) /\
    o_allX o' = (if o_store o then o_allX o ++ map fst l else o_allX o) /\
    (l = [] -> o_bestE o' = o_bestE o /\ o_best o' = o_best o) /\
    forall log, 0 <= o_nEval o - Z.of_nat (length log) -> best_of (minimizing o) log (o_bestE o) (o_best o) ->
      best_of (minimizing o) (log ++ l) (o_bestE o') (o_best o').
  Proof.
    assert (T : forall o, same_dir o o /\ o_nEval o = o_nEval o + Z.of_nat (length (@nil (X * Q))) /\ o_nSteps o = o_nSteps o /\
      (forall k x v, nth_error (@nil (X * Q)) k = Some (x, v) -> exists f, o_eval o = Some f /\ f (o_nEval o + Z.of_nat k) x = Val v) /\
      o_allE o = (if o_store o then o_allE o ++ map (fun e => user_value o (snd e)) (@nil (X * Q)) else o_allE o) /\
      o_allX o = (if o_store o then o_allX o ++ map fst (@nil (X * Q)) else o_allX o) /\
      (@nil (X * Q) = [] -> o_bestE o = o_bestE o /\ o_best o = o_best o) /\
      forall log, 0 <= o_nEval o - Z.of_nat (length log) -> best_of (minimizing o) log (o_bestE o) (o_best o) ->
        best_of (minimizing o) (log ++ []) (o_bestE o) (o_best o)).
    { intros o. cbn [length map]. rewrite !app_nil_r. split; [apply sd_refl |]. split; [lia |]. split; [auto |]. split; [intros [|k] x v; discriminate |].
      split; [destruct (o_store o); auto |]. split; [destruct (o_store o); auto |]. split; [auto |]. intros log _. now rewrite app_nil_r. }
    induction p as [s|e|x k IH]; intros o o' r l E; cbn [run] in E.
    - injection E as <- <- <-. apply T.
    - injection E as <- <- <-. apply T.
    - destruct (oneEvaluation o x) as [[o1 v]|e] eqn:E1; [| injection E as <- <- <-; apply T].
      destruct (run (k v) o1) as [[o2 r2] l2] eqn:E2. injection E as <- <- <-.
      destruct (oneEvaluation_spec o x o1 v E1) as (A1 & A2 & A3 & A4 & A5 & A6 & A7).
      destruct (IH v o1 o2 r2 l2 E2) as (B1 & B2 & B3 & B4 & B5 & B6 & _ & B8). split; [eapply sd_trans; eauto |].
      split; [cbn [length]; lia |]. split; [congruence |]. split; [| split; [| split; [| split; [discriminate |]]]].
      + intros [|j] y w Hj; cbn [nth_error] in Hj; [injection Hj as <- <-; replace (o_nEval o + Z.of_nat 0) with (o_nEval o) by lia; auto |].
        destruct (B4 j y w Hj) as (f & F1 & F2). exists f. split; [rewrite <- (sd5 _ _ A1); auto |]. replace (o_nEval o + Z.of_nat (Datatypes.S j)) with (o_nEval o1 + Z.of_nat j) by lia. auto.
      + rewrite B5, A5, (sd11 _ _ A1). destruct (o_store o); [| auto]. rewrite <- app_assoc. cbn [map app snd]. f_equal. f_equal.
        apply map_ext. intros e. now apply sd_user.
      + rewrite B6, A6, (sd11 _ _ A1). destruct (o_store o); [| auto]. rewrite <- app_assoc. reflexivity.
      + intros log Hn Hb. rewrite (sd_min _ _ A1) in B8. specialize (B8 (log ++ [(x, v)])). rewrite <- app_assoc in B8. cbn [app] in B8. apply B8; [| now apply A7].
        rewrite app_length. cbn [length]. lia.
  Qed.

  (** the criteria *)
  Lemma loop_spec {S} (step : S -> opt X -> prog X S) : forall fuel s o o2 s2 w l, loop fuel step s o = (o2, s2, w, l) ->
    same_dir o o2 /\ o_nEval o2 = o_nEval o + Z.of_nat (length l) /\ o_nSteps o <= o_nSteps o2 /\
    (w = Stopped -> stoppingCriterion o2 = true) /\
    (w = FuelOut -> o_nSteps o2 = o_nSteps o + Z.of_nat fuel) /\
    (forall m, o_maxSteps o = Some m -> o_nSteps o2 <= Z.max (o_nSteps o) (m + 1)) /\
    (forall k x v, nth_error l k = Some (x, v) -> exists f, o_eval o = Some f /\ f (o_nEval o + Z.of_nat k) x = Val v) /\
    (forall log, 0 <= o_nEval o - Z.of_nat (length log) -> best_of (minimizing o) log (o_bestE o) (o_best o) ->
      best_of (minimizing o) (log ++ l) (o_bestE o2) (o_best o2)) /\
    (forall M, o_maxEval o = Some M -> (forall s o', o_batch o' = o_batch o -> o_nEval o <= o_nEval o' -> Z.of_nat (length (snd (run (step s o') o'))) <= o_batch o) ->
      o_nEval o2 <= Z.max (o_nEval o) M) /\
    o_allE o2 = (if o_store o then o_allE o ++ map (fun e => user_value o (snd e)) l else o_allE o) /\
    (l = [] -> o_bestE o2 = o_bestE o /\ o_best o2 = o_best o).
  Proof.
    assert (T : forall o, same_dir o o /\ o_nEval o = o_nEval o + Z.of_nat (length (@nil (X * Q))) /\ o_nSteps o <= o_nSteps o /\
      (forall m, o_maxSteps o = Some m -> o_nSteps o <= Z.max (o_nSteps o) (m + 1)) /\
      (forall k x v, nth_error (@nil (X * Q)) k = Some (x, v) -> exists f, o_eval o = Some f /\ f (o_nEval o + Z.of_nat k) x = Val v) /\
      (forall log, 0 <= o_nEval o - Z.of_nat (length log) -> best_of (minimizing o) log (o_bestE o) (o_best o) ->
        best_of (minimizing o) (log ++ []) (o_bestE o) (o_best o)) /\
      o_allE o = (if o_store o then o_allE o ++ map (fun e => user_value o (snd e)) (@nil (X * Q)) else o_allE o)).
    { intros o. cbn [length map]. rewrite app_nil_r. split; [apply sd_refl |]. split; [lia |]. split; [lia |]. split; [intros; lia |]. split; [intros [|k] x v; discriminate |].
      split; [intros log _; now rewrite app_nil_r | destruct (o_store o); auto]. }
    induction fuel as [|fuel IH]; intros s o o2 s2 w l E; cbn [loop] in E; destruct (stoppingCriterion o) eqn:ES.
    - injection E as <- <- <- <-. destruct (T o) as (T1 & T2 & T3 & T4 & T5 & T6 & T7). split; [auto |]. split; [auto |]. split; [auto |]. split; [auto |]. split; [discriminate |]. repeat (split; [assumption |]). split; [intros; lia |]. auto.
    - injection E as <- <- <- <-. destruct (T o) as (T1 & T2 & T3 & T4 & T5 & T6 & T7). split; [auto |]. split; [auto |]. split; [auto |]. split; [discriminate |]. split; [cbn; lia |]. repeat (split; [assumption |]). split; [intros; lia |]. auto.
    - injection E as <- <- <- <-. destruct (T o) as (T1 & T2 & T3 & T4 & T5 & T6 & T7). split; [auto |]. split; [auto |]. split; [auto |]. split; [auto |]. split; [discriminate |]. repeat (split; [assumption |]). split; [intros; lia |]. auto.
    - destruct (run (step s o) o) as [[o' r] l1] eqn:ER. destruct (run_spec _ _ _ _ _ ER) as (A1 & A2 & A3 & A4 & A5 & A6 & A6' & A7).
      assert (HB : forall M, o_maxEval o = Some M -> Z.of_nat (length l1) <= o_batch o -> o_nEval o' <= M).
      { intros M HM Hl. unfold stoppingCriterion in ES. apply orb_false_iff in ES as [ES _]. apply orb_false_iff in ES as [ES _]. unfold budget_reached in ES. rewrite HM in ES. apply Z.ltb_ge in ES. lia. }
      assert (HS : forall m, o_maxSteps o = Some m -> o_nSteps o <= m).
      { intros m Hm. unfold stoppingCriterion in ES. apply orb_false_iff in ES as [_ ES]. unfold steps_reached in ES. rewrite Hm in ES. now apply Z.ltb_ge in ES. }
      destruct r as [s'|e].
      + destruct (loop fuel step s' (set_steps o' (o_maxSteps o') (o_nSteps o' + 1))) as [[[o3 s3] w3] l3] eqn:EL. injection E as <- <- <- <-.
        destruct (IH _ _ _ _ _ _ EL) as (B1 & B2 & B3 & B4 & B5 & B6 & B7 & B8 & B9 & B10 & B11).
        assert (SD : same_dir o (set_steps o' (o_maxSteps o') (o_nSteps o' + 1))) by (destruct A1; constructor; auto).
        assert (SU : forall v, user_value (set_steps o' (o_maxSteps o') (o_nSteps o' + 1)) v = user_value o v) by (intros v; now apply sd_user).
        pose proof (sd_min _ _ SD) as SM. pose proof SD as [_ _ _ _ S5 _ S7 S8 S9 _ S11]. rewrite SM, S5 in *. cbn [o_nEval o_nSteps o_bestE o_best o_allE set_steps] in *.
        split; [eapply sd_trans; eauto |]. split; [rewrite app_length; lia |]. split; [lia |]. split; [auto |]. split; [intros HW; specialize (B5 HW); lia |].
        split; [intros m Hm; specialize (B6 m); rewrite S9 in B6; specialize (B6 Hm); specialize (HS m Hm); lia |]. split; [| split; [| split; [| split]]].
        * intros k x v Hk. destruct (Nat.lt_ge_cases k (length l1)) as [Hlt | Hge].
          -- rewrite nth_error_app1 in Hk by auto. auto.
          -- rewrite nth_error_app2 in Hk by auto. destruct (B7 _ _ _ Hk) as (f & F1 & F2). exists f. split; [auto |]. rewrite <- F2. f_equal. lia.
        * intros log Hn Hb. specialize (A7 log Hn Hb). specialize (B8 (log ++ l1)). rewrite <- app_assoc in B8. apply B8; [rewrite app_length; lia | auto].
        * intros M HM Hstep. specialize (B9 M). rewrite S7 in B9. specialize (B9 HM).
          assert (L1 : Z.of_nat (length l1) <= o_batch o) by (pose proof (Hstep s o eq_refl ltac:(lia)) as K; rewrite ER in K; exact K). specialize (HB M HM L1).
          assert (o_nEval o3 <= Z.max (o_nEval o') M); [| lia]. apply B9. intros s0 o0 Ho0 Hn0. rewrite S8 in *. apply Hstep; [auto | lia].
        * rewrite B10, S11. cbn [set_steps o_allE]. rewrite A5. destruct (o_store o); [| auto]. rewrite map_app, <- app_assoc. f_equal. f_equal. apply map_ext. intros e. apply SU.
        * intros HN. apply app_eq_nil in HN as [-> ->]. destruct (A6' eq_refl) as [C1 C2]. destruct (B11 eq_refl) as [D1 D2]. split; congruence.
      + assert (K : forall w', w' <> Stopped -> w' <> FuelOut -> (o', s, w', l1) = (o2, s2, w, l) ->
          same_dir o o2 /\ o_nEval o2 = o_nEval o + Z.of_nat (length l) /\ o_nSteps o <= o_nSteps o2 /\
          (w = Stopped -> stoppingCriterion o2 = true) /\ (w = FuelOut -> o_nSteps o2 = o_nSteps o + Z.of_nat (Datatypes.S fuel)) /\
          (forall m, o_maxSteps o = Some m -> o_nSteps o2 <= Z.max (o_nSteps o) (m + 1)) /\
          (forall k x v, nth_error l k = Some (x, v) -> exists f, o_eval o = Some f /\ f (o_nEval o + Z.of_nat k) x = Val v) /\
          (forall log, 0 <= o_nEval o - Z.of_nat (length log) -> best_of (minimizing o) log (o_bestE o) (o_best o) ->
            best_of (minimizing o) (log ++ l) (o_bestE o2) (o_best o2)) /\
          (forall M, o_maxEval o = Some M -> (forall s o', o_batch o' = o_batch o -> o_nEval o <= o_nEval o' -> Z.of_nat (length (snd (run (step s o') o'))) <= o_batch o) ->
            o_nEval o2 <= Z.max (o_nEval o) M) /\
          o_allE o2 = (if o_store o then o_allE o ++ map (fun e => user_value o (snd e)) l else o_allE o) /\
          (l = [] -> o_bestE o2 = o_bestE o /\ o_best o2 = o_best o)).
        { intros w' W1 W2 [= <- <- <- <-]. split; [auto |]. split; [auto |]. split; [lia |]. split; [contradiction |]. split; [contradiction |]. split; [intros; lia |].
          split; [auto |]. split; [auto |]. split; [| auto]. intros M HM Hstep.
          assert (L1 : Z.of_nat (length l1) <= o_batch o) by (pose proof (Hstep s o eq_refl ltac:(lia)) as K; rewrite ER in K; exact K). specialize (HB M HM L1). lia. }
        destruct e; (eapply K; [| | exact E]; discriminate).
  Qed.
End P.
