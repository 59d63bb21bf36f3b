(** Property C50: importance mixing. *)
From Verif Require Import Base Mixing_Model.
From Coq Require Import QArith Qminmax Lqa.
Local Open Scope nat_scope.

Lemma qltb_iff a b : qltb a b = true <-> (a < b)%Q.
Proof. unfold qltb. rewrite negb_true_iff. split; [intros H; apply Qnot_le_lt; intros K; apply Qle_bool_iff in K; congruence | intros H; apply Bool.not_true_iff_false; rewrite Qle_bool_iff; lra]. Qed.
Lemma qdiv_ok a b : ~ (b == 0)%Q -> qdiv a b = Ok (a / b)%Q.
Proof. intros H. unfold qdiv. destruct (Qeq_bool b 0) eqn:E; [apply Qeq_bool_iff in E; contradiction | auto]. Qed.

Section Props.
Context {P : Type} (oldpdf newpdf : P -> Q) (alpha : Q).

(** ** Spec *)
(** an old point is kept, a new point is accepted, for the draw r *)
Definition keeps (x : P) (r : Q) : Prop := (r * oldpdf x < (1 - alpha) * newpdf x)%Q.
Definition accepts (x : P) (r : Q) : Prop := (r < alpha \/ r * newpdf x < newpdf x - oldpdf x)%Q.
Definition densities (x : P) : Prop := (0 < oldpdf x /\ 0 < newpdf x)%Q.
(** strictly increasing from lo on and below hi *)
Fixpoint increasing (lo hi : nat) (l : list nat) : Prop := match l with [] => True | x :: t => lo <= x < hi /\ increasing (S x) hi t end.

Lemma increasing_snoc l : forall lo hi x, increasing lo hi l -> (forall y, In y l -> y < x) -> lo <= x < hi -> increasing lo hi (l ++ [x]).
Proof.
  induction l as [| y l IH]; intros lo hi x H HL Hx; cbn [app increasing] in *; [auto |]. destruct H as [H1 H2]. split; [auto |]. apply IH; auto; [intros; apply HL; right; auto |]. pose proof (HL y ltac:(left; auto)). lia.
Qed.
Lemma ofnat_lt a b : (ofnat a < ofnat b)%Q <-> a < b.
Proof. unfold ofnat. rewrite <- Zlt_Qlt. lia. Qed.
Lemma ofnat_S a : (ofnat (S a) == ofnat a + 1)%Q.
Proof. unfold ofnat. rewrite Nat2Z.inj_succ, <- Z.add_1_r, inject_Z_plus. reflexivity. Qed.
Lemma keeps_iff x r : densities x -> (qltb r ((1 - alpha) * newpdf x / oldpdf x) = true <-> keeps x r).
Proof.
  intros [H1 H2]. rewrite qltb_iff. unfold keeps. split; intros H.
  - setoid_replace ((1 - alpha) * newpdf x)%Q with (((1 - alpha) * newpdf x / oldpdf x) * oldpdf x)%Q by (field; lra). apply Qmult_lt_compat_r; auto.
  - apply Qlt_shift_div_l; auto.
Qed.
Lemma accepts_iff x r : densities x -> (qltb r alpha = true \/ qltb r (1 - oldpdf x / newpdf x) = true <-> accepts x r).
Proof.
  intros [H1 H2]. rewrite !qltb_iff. unfold accepts. assert (E : (r < 1 - oldpdf x / newpdf x)%Q <-> (r * newpdf x < newpdf x - oldpdf x)%Q); [| tauto].
  assert (E1 : ((1 - oldpdf x / newpdf x) * newpdf x == newpdf x - oldpdf x)%Q) by (field; lra). rewrite <- E1. set (z := (1 - oldpdf x / newpdf x)%Q). split; intros K; [apply Qmult_lt_compat_r; auto | eapply Qmult_lt_r; eauto].
Qed.

(** the run over the old points: the indices of the points that are kept, in order, until only max(1, batch*alpha) points are missing *)
Definition missing_enough (batch : nat) (reuse : list nat) : Prop := (Qmax 1 (ofnat batch * alpha) < ofnat batch - ofnat (length reuse))%Q.
Lemma reuse_loop_spec batch : forall points draws i reuse res, Forall densities points -> increasing 0 i reuse -> missing_enough batch reuse \/ points = [] \/ (batch <= 1 /\ reuse = []) ->
  reuse_loop oldpdf newpdf alpha batch i points draws reuse = Ok res ->
  exists m, m <= length points /\ increasing 0 (i + m) res /\
    (forall j, j < i -> (In j res <-> In j reuse)) /\
    (forall j x r, j < m -> nth_error points j = Some x -> nth_error draws j = Some r -> (In (i + j) res <-> keeps x r)) /\
    m <= length draws /\
    (m < length points -> ~ missing_enough batch res) /\
    (length res <= length reuse \/ exists l x, res = l ++ [x] /\ (missing_enough batch l \/ (batch <= 1 /\ l = []))).
Proof.
  induction points as [| x pts IH]; intros draws i reuse res HD HI HM HR; cbn [reuse_loop] in HR.
  - injection HR as <-. exists 0. rewrite Nat.add_0_r. cbn [length]. repeat split; auto; try lia.
  - destruct draws as [| r rs]; [discriminate |]. inversion HD as [| ? ? Hx HD']; subst. rewrite qdiv_ok in HR by (destruct Hx; lra). cbn [rbind] in HR. pose proof (keeps_iff x r Hx) as HK.
    set (reuse' := if qltb r ((1 - alpha) * newpdf x / oldpdf x) then reuse ++ [i] else reuse) in *.
    assert (LT : forall y, In y reuse -> y < i). { clear - HI. revert HI. generalize 0. induction reuse as [| z l IH]; intros lo H y Hy; [destruct Hy |]. destruct H as [H1 H2]. destruct Hy as [-> | Hy]; [lia |]. eapply IH; eauto. }
    assert (HI' : increasing 0 (S i) reuse').
    { assert (HI2 : increasing 0 (S i) reuse). { clear - HI. revert HI. generalize 0. induction reuse as [| z l IH]; intros lo H; cbn [increasing] in *; [auto |]. destruct H. split; [lia | auto]. }
      unfold reuse'. destruct (qltb r _); [| auto]. apply increasing_snoc; auto. lia. }
    assert (HIN : forall j, j < i -> (In j reuse' <-> In j reuse)). { intros j Hj. unfold reuse'. destruct (qltb r _); [| tauto]. rewrite in_app_iff. cbn. intuition lia. }
    assert (HINi : In i reuse' <-> keeps x r). { rewrite <- HK. unfold reuse'. destruct (qltb r _); [rewrite in_app_iff; cbn; tauto |]. split; [intros K; apply LT in K; lia | discriminate]. }
    assert (HLAST : length reuse' <= length reuse \/ exists l y, reuse' = l ++ [y] /\ (missing_enough batch l \/ (batch <= 1 /\ l = []))).
    { unfold reuse'. destruct (qltb r _); [right | left; lia]. exists reuse, i. split; [auto |]. destruct HM as [HM | [HM | HM]]; [auto | discriminate | auto]. }
    destruct (Qle_bool _ _) eqn:EB.
    + injection HR as <-. exists 1. rewrite Nat.add_1_r. cbn [length]. split; [lia |]. split; [auto |]. split; [auto |]. split; [| split; [lia |]].
      * intros j y r' Hj E1 E2. assert (j = 0) by lia. subst j. cbn in E1, E2. injection E1 as <-. injection E2 as <-. rewrite Nat.add_0_r. auto.
      * split; [| auto]. intros _. unfold missing_enough. apply Qle_bool_iff in EB. apply Qle_not_lt. auto.
    + assert (HM' : missing_enough batch reuse'). { unfold missing_enough. apply Qnot_le_lt. intros K. apply Qle_bool_iff in K. congruence. }
      destruct (IH rs (S i) reuse' res HD' HI' (or_introl HM') HR) as (m & Hm & HInc & HOld & HNew & HDr & HStop & HLen).
      exists (S m). cbn [length]. replace (i + S m) with (S i + m) by lia. split; [lia |]. split; [auto |]. split; [intros j Hj; rewrite HOld by lia; auto |]. split; [| split; [lia |]].
      * intros [| j] y r' Hj E1 E2; cbn [nth_error] in E1, E2.
        -- injection E1 as <-. injection E2 as <-. rewrite Nat.add_0_r, HOld by lia. auto.
        -- replace (i + S j) with (S i + j) by lia. apply HNew; auto. lia.
      * split; [intros K; apply HStop; lia |]. destruct HLen as [HLen | HLen]; [| auto]. destruct HLAST as [HL | (l & y & HL & Hl)]; [left; lia |].
        assert (res = reuse' \/ length reuse' < length res \/ length res < length reuse') as [K | [K | K]].
        { destruct (lt_eq_lt_dec (length res) (length reuse')) as [[K | K] | K]; auto. left.
          (* same length: the loop only appends *)
          clear - HR K. revert HR K. generalize (S i). generalize rs. generalize pts. intros p0. revert reuse'. induction p0 as [| a p0 IHp]; intros l0 ds0 i0 HR K; cbn [reuse_loop] in HR; [congruence |].
          destruct ds0 as [| r0 ds0]; [discriminate |]. destruct (qdiv _ _) as [q0 |]; [| discriminate]. cbn [rbind] in HR.
          assert (MONO : forall p l ds i r, reuse_loop oldpdf newpdf alpha batch i p ds l = Ok r -> length l <= length r).
          { clear. induction p as [| a p IHp]; intros l ds i r HR; cbn [reuse_loop] in HR; [injection HR as <-; lia |]. destruct ds as [| r0 ds]; [discriminate |]. destruct (qdiv _ _) as [q |]; [| discriminate]. cbn [rbind] in HR.
            destruct (Qle_bool _ _); [injection HR as <- | apply IHp in HR]; destruct (qltb r0 q); try rewrite app_length in *; lia. }
          destruct (qltb r0 q0).
          - destruct (Qle_bool _ _); [injection HR as <-; rewrite app_length in K; cbn in K; lia |]. apply MONO in HR. rewrite app_length in HR. cbn in HR. lia.
          - destruct (Qle_bool _ _); [congruence |]. eapply IHp; eauto. }
        -- right. exists l, y. subst res. auto.
        -- lia.
        -- right. exists l, y. exfalso.
           assert (MONO : forall p l ds i r, reuse_loop oldpdf newpdf alpha batch i p ds l = Ok r -> length l <= length r).
           { clear. induction p as [| a p IHp]; intros l ds i r HR; cbn [reuse_loop] in HR; [injection HR as <-; lia |]. destruct ds as [| r0 ds]; [discriminate |]. destruct (qdiv _ _) as [q |]; [| discriminate]. cbn [rbind] in HR.
             destruct (Qle_bool _ _); [injection HR as <- | apply IHp in HR]; destruct (qltb r0 q); try rewrite app_length in *; lia. }
           apply MONO in HR. lia.
Qed.
(** the accepted samples, in the order of the draws *)
Inductive accepted : list (Q * P) -> list P -> Prop :=
| acc_nil : accepted [] []
| acc_yes r x ds l : accepts x r -> accepted ds l -> accepted ((r, x) :: ds) (x :: l)
| acc_no r x ds l : ~ accepts x r -> accepted ds l -> accepted ((r, x) :: ds) l.
Lemma new_loop_spec : forall draws need new res, Forall (fun d => densities (snd d)) draws -> new_loop oldpdf newpdf alpha need draws new = Ok res ->
  exists used rest l, draws = used ++ rest /\ accepted used l /\ res = new ++ l /\ length l = need /\ (forall d t, used = t ++ [d] -> accepts (snd d) (fst d)).
Proof.
  induction draws as [| [r x] ds IH]; intros need new res HD HR; destruct need as [| need]; cbn [new_loop] in HR.
  - injection HR as <-. exists [], [], []. repeat split; auto; [constructor | now rewrite app_nil_r |]. intros d t E. destruct t; discriminate.
  - discriminate.
  - injection HR as <-. exists [], ((r, x) :: ds), []. repeat split; auto; [constructor | now rewrite app_nil_r |]. intros d t E. destruct t; discriminate.
  - inversion HD as [| ? ? Hx HD']; subst. cbn [snd] in Hx. pose proof (accepts_iff x r Hx) as HA. rewrite qdiv_ok in HR by (destruct Hx; lra). cbn [rbind] in HR.
    assert (K : (accepts x r /\ new_loop oldpdf newpdf alpha need ds (new ++ [x]) = Ok res) \/ (~ accepts x r /\ new_loop oldpdf newpdf alpha (S need) ds new = Ok res)).
    { destruct (qltb r alpha); [left; split; [tauto | auto] |]. destruct (qltb r (1 - oldpdf x / newpdf x)); [left; split; [tauto | auto] | right]. split; [| auto]. rewrite <- HA. intros [K | K]; discriminate. }
    destruct K as [[KA KR] | [KA KR]]; destruct (IH _ _ _ HD' KR) as (used & rest & l & E1 & E2 & E3 & E4 & E5).
    + exists ((r, x) :: used), rest, (x :: l). split; [now rewrite E1 |]. split; [now constructor |]. split; [now rewrite E3, <- app_assoc |]. split; [cbn; lia |].
      intros d [| d' t] E; injection E as <- E; [auto |]. eapply E5; eauto.
    + exists ((r, x) :: used), rest, l. split; [now rewrite E1 |]. split; [now constructor |]. split; [auto |]. split; [auto |].
      intros d [| d' t] E; injection E as <- E; [| eapply E5; eauto]. subst used. inversion E2; subst. discriminate.
Qed.
End Props.

Section Theorems.
Context {P : Type} (oldpdf newpdf : P -> Q) (alpha : Q).
(** ** C50 *)
(** Every completed run: as many points as before, indices strictly increasing and valid, and at least one new point from two points on;
    an index below the stopping point is reused iff its draw keeps it, and the new points are exactly the accepted samples. *)
Theorem C50_mixing oldpoints d1 d2 reuse new : Forall (densities oldpdf newpdf) oldpoints -> Forall (fun d => densities oldpdf newpdf (snd d)) d2 ->
  importanceMixing oldpdf newpdf alpha oldpoints d1 d2 = Ok (reuse, new) ->
  length reuse + length new = length oldpoints /\
  increasing 0 (length oldpoints) reuse /\
  (2 <= length oldpoints -> 1 <= length new) /\
  (exists m, m <= length oldpoints /\ increasing 0 m reuse /\
     (forall j x r, j < m -> nth_error oldpoints j = Some x -> nth_error d1 j = Some r -> (In j reuse <-> keeps oldpdf newpdf alpha x r)) /\
     (m < length oldpoints -> (ofnat (length new) <= Qmax 1 (ofnat (length oldpoints) * alpha))%Q)) /\
  (exists used rest, d2 = used ++ rest /\ accepted oldpdf newpdf alpha used new).
Proof.
  intros HD1 HD2 HR. unfold importanceMixing in HR. destruct (reuse_loop _ _ _ _ _ _ _ _) as [re | e] eqn:E1; cbn [rbind] in HR; [| discriminate].
  destruct (new_loop _ _ _ _ _ _) as [nw | e] eqn:E2; cbn [rbind] in HR; [| discriminate]. injection HR as -> ->. set (batch := length oldpoints) in *.
  assert (HM : missing_enough alpha batch [] \/ oldpoints = [] \/ (batch <= 1 /\ (@nil nat) = []) \/ ~ missing_enough alpha batch []).
  { destruct (Qlt_le_dec (Qmax 1 (ofnat batch * alpha)) (ofnat batch - ofnat (@length nat []))); [left; auto | right; right; right; apply Qle_not_lt; auto]. }
  assert (S1 : exists m, m <= length oldpoints /\ increasing 0 m reuse /\
     (forall j x r, j < m -> nth_error oldpoints j = Some x -> nth_error d1 j = Some r -> (In j reuse <-> keeps oldpdf newpdf alpha x r)) /\
     (m < length oldpoints -> ~ missing_enough alpha batch reuse) /\ (2 <= batch -> length reuse < batch)).
  { destruct HM as [HM | [HM | [HM | HM]]].
    - destruct (reuse_loop_spec oldpdf newpdf alpha batch oldpoints d1 0 [] reuse HD1 I (or_introl HM) E1) as (m & A & B & C & D & E & F & G). exists m. cbn [Nat.add] in *. do 4 (split; [auto |]).
      intros H2. destruct G as [G | (l & x & -> & G)]; [cbn in G; lia |]. rewrite app_length. cbn [length]. destruct G as [G | [G _]]; [| lia]. unfold missing_enough in G.
      assert (K : (ofnat (length l) + 1 < ofnat batch)%Q) by (pose proof (Q.le_max_l 1 (ofnat batch * alpha)); lra). rewrite <- ofnat_S, ofnat_lt in K. lia.
    - rewrite HM in E1. cbn in E1. injection E1 as <-. exists 0. rewrite HM. cbn. repeat split; auto; try lia.
    - destruct (reuse_loop_spec oldpdf newpdf alpha batch oldpoints d1 0 [] reuse HD1 I (or_intror (or_intror HM)) E1) as (m & A & B & C & D & E & F & G). exists m. cbn [Nat.add] in *. do 4 (split; [auto |]). lia.
    - (* the loop stops at the first point *)
      destruct oldpoints as [| x pts] eqn:EP; [cbn in E1; injection E1 as <-; exists 0; cbn; repeat split; auto; try lia; unfold batch; cbn; lia |].
      cbn [reuse_loop] in E1. destruct d1 as [| r rs]; [discriminate |]. inversion HD1 as [| ? ? Hx HD1']; subst. rewrite qdiv_ok in E1 by (destruct Hx; lra). cbn [rbind] in E1. pose proof (keeps_iff oldpdf newpdf alpha x r Hx) as HK.
      assert (ST : Qle_bool (ofnat batch - ofnat (length (if qltb r ((1 - alpha) * newpdf x / oldpdf x) then [] ++ [0] else []))) (Qmax 1 (ofnat batch * alpha)) = true).
      { apply Qle_bool_iff. unfold missing_enough in HM. apply Qnot_lt_le in HM. cbn [length] in HM. destruct (qltb r _); cbn [app length]; [| auto]. change (ofnat 0) with 0%Q in HM. change (ofnat 1) with 1%Q. lra. }
      rewrite ST in E1. injection E1 as E1. exists 1. cbn [length]. split; [lia |]. split; [rewrite <- E1; destruct (qltb r _); cbn; auto |]. split; [| split].
      + intros j y r' Hj EA EB. assert (j = 0) by lia. subst j. cbn in EA, EB. injection EA as <-. injection EB as <-. rewrite <- HK, <- E1. destruct (qltb r _); cbn; intuition discriminate.
      + intros _. rewrite <- E1. unfold missing_enough. apply Qle_not_lt. apply Qle_bool_iff. exact ST.
      + intros H2. rewrite <- E1. clearbody batch. destruct (qltb r _); cbn [app length]; lia. }
  destruct S1 as (m & Hm & HInc & HKeep & HStop & HLess).
  destruct (new_loop_spec oldpdf newpdf alpha d2 _ [] new HD2 E2) as (used & rest & l & EU & HA & EL & HL & _). cbn [app] in EL. subst l.
  assert (LR : forall hi lo l, increasing lo hi l -> lo <= hi -> length l <= hi - lo). { clear. intros hi lo l. revert lo. induction l as [| y l IH]; intros lo H L; cbn; [lia |]. destruct H as [H1 H2]. apply IH in H2; lia. }
  assert (LRE : length reuse <= batch) by (pose proof (LR _ _ _ HInc ltac:(lia)); unfold batch; lia).
  assert (MONO : forall hi hi' lo l, increasing lo hi l -> hi <= hi' -> increasing lo hi' l). { clear. intros hi hi' lo l. revert lo. induction l as [| y l IH]; intros lo H L; cbn; [auto |]. destruct H as [H1 H2]. split; [lia | auto]. }
  split; [lia |]. split; [eapply MONO; eauto |]. split; [intros H2; specialize (HLess H2); lia |]. split; [| eauto].
  exists m. split; [auto |]. split; [auto |]. split; [auto |]. intros K. specialize (HStop K). unfold missing_enough in HStop. apply Qnot_lt_le in HStop. rewrite HL.
  assert (E : (ofnat (batch - length reuse) == ofnat batch - ofnat (length reuse))%Q) by (unfold ofnat; rewrite Nat2Z.inj_sub by lia; unfold Z.sub; rewrite inject_Z_plus, inject_Z_opp; reflexivity). rewrite E. exact HStop.
Qed.
(** A run completes as soon as there are enough draws below the refresh rate. *)
Theorem C50_completes oldpoints d1 d2 : Forall (densities oldpdf newpdf) oldpoints -> Forall (fun d => densities oldpdf newpdf (snd d)) d2 ->
  length oldpoints <= length d1 -> length oldpoints <= length (filter (fun d => qltb (fst d) alpha) d2) ->
  exists reuse new, importanceMixing oldpdf newpdf alpha oldpoints d1 d2 = Ok (reuse, new).
Proof.
  intros HD1 HD2 H1 H2. unfold importanceMixing.
  assert (A : forall batch pts ds i l, Forall (densities oldpdf newpdf) pts -> length pts <= length ds -> exists r, reuse_loop oldpdf newpdf alpha batch i pts ds l = Ok r).
  { clear. intros batch pts. induction pts as [| x pts IH]; intros ds i l HD HL; cbn [reuse_loop]; [eauto |]. destruct ds as [| r ds]; [cbn in HL; lia |]. inversion HD as [| ? ? [Hx _] HD']; subst. rewrite qdiv_ok by lra. cbn [rbind]. destruct (Qle_bool _ _); [eauto |]. apply IH; auto. cbn in HL. lia. }
  destruct (A (length oldpoints) oldpoints d1 0 [] HD1 H1) as [re ->]. cbn [rbind].
  assert (B : forall ds need l, Forall (fun d => densities oldpdf newpdf (snd d)) ds -> need <= length (filter (fun d => qltb (fst d) alpha) ds) -> exists r, new_loop oldpdf newpdf alpha need ds l = Ok r).
  { clear. induction ds as [| [r x] ds IH]; intros need l HD HL; destruct need as [| need]; cbn [new_loop]; eauto; [cbn in HL; lia |]. inversion HD as [| ? ? [_ Hx] HD']; subst. cbn [filter fst snd] in *. destruct (qltb r alpha); [apply IH; auto; cbn in HL; lia |]. rewrite qdiv_ok by lra. cbn [rbind].
    destruct (qltb r _); apply IH; auto; lia. }
  destruct (B d2 (length oldpoints - length re) [] HD2 ltac:(lia)) as [nw ->]. cbn [rbind]. eauto.
Qed.
End Theorems.

(** Without forced refresh and with an unchanged distribution no new point is ever accepted: the run does not end, whatever is drawn. *)
Theorem C50_no_refresh_refuted {P : Type} (oldpdf newpdf : P -> Q) oldpoints d1 d2 : (forall x, oldpdf x == newpdf x)%Q -> (forall x, 0 < newpdf x)%Q -> 2 <= length oldpoints -> length oldpoints <= length d1 ->
  Forall (fun d => (0 <= fst d)%Q) d2 -> importanceMixing oldpdf newpdf 0 oldpoints d1 d2 = Err OutOfFuel.
Proof.
  intros HE HP HL HD HF. assert (HDen : forall x, densities oldpdf newpdf x) by (intros x; split; [rewrite (HE x) |]; apply HP).
  destruct (importanceMixing oldpdf newpdf 0 oldpoints d1 d2) as [[reuse new] | e] eqn:E.
  - exfalso. unfold importanceMixing in E. destruct (reuse_loop _ _ _ _ _ _ _ _) as [re |] eqn:E1; cbn [rbind] in E; [| discriminate]. destruct (new_loop _ _ _ _ _ _) as [nw |] eqn:E2; cbn [rbind] in E; [| discriminate]. injection E as -> ->.
    destruct (new_loop_spec oldpdf newpdf 0 d2 _ [] new ltac:(apply Forall_forall; intros; apply HDen) E2) as (used & rest & l & EU & HA & EL & HLn & _).
    assert (l = []). { clear - HA HE HF HP EU. subst d2. apply Forall_app in HF as [HF _]. induction HA as [| r x ds l K _ IH | r x ds l K _ IH]; [auto | | inversion HF; auto]. inversion HF as [| ? ? H0 _]; subst. cbn [fst] in H0. exfalso. destruct K as [K | K]; [lra |]. rewrite (HE x) in K. specialize (HP x). nra. }
    subst l. cbn in HLn.
    assert (KM : importanceMixing oldpdf newpdf 0 oldpoints d1 [] = Ok (reuse, [])). { unfold importanceMixing. rewrite E1. cbn [rbind]. rewrite <- HLn. reflexivity. }
    clear - KM HDen HL. destruct (importanceMixing oldpdf newpdf 0 oldpoints d1 []) eqn:EE; [| discriminate]. injection KM as ->.
    assert (AUX : True) by exact I. clear AUX.
    pose proof (fun H1 H2 => proj1 (proj2 (proj2 (@C50_mixing P oldpdf newpdf 0 oldpoints d1 [] reuse [] H1 H2 EE)))) as K. specialize (K ltac:(apply Forall_forall; intros; apply HDen) ltac:(constructor) HL). cbn in K. lia.
  - f_equal. unfold importanceMixing in E.
    assert (A : forall batch pts ds i l, length pts <= length ds -> exists r, reuse_loop oldpdf newpdf 0 batch i pts ds l = Ok r).
    { clear - HDen. intros batch pts. induction pts as [| x pts IH]; intros ds i l HL; cbn [reuse_loop]; [eauto |]. destruct ds as [| r ds]; [cbn in HL; lia |]. destruct (HDen x) as [Hx _]. rewrite qdiv_ok by lra. cbn [rbind]. destruct (Qle_bool _ _); [eauto |]. apply IH; auto. cbn in HL. lia. }
    destruct (A (length oldpoints) oldpoints d1 0 [] HD) as [re Er]. rewrite Er in E. cbn [rbind] in E.
    assert (B : forall ds need l e, new_loop oldpdf newpdf 0 need ds l = Err e -> e = OutOfFuel).
    { clear - HDen. induction ds as [| [r x] ds IH]; intros need l e H; destruct need as [| need]; cbn [new_loop] in H; try congruence. destruct (HDen x) as [_ Hx]. rewrite qdiv_ok in H by lra. cbn [rbind] in H. destruct (qltb r 0); [eauto |]. destruct (qltb r _); eauto. }
    destruct (new_loop oldpdf newpdf 0 (length oldpoints - length re) d2 []) eqn:E2; cbn [rbind] in E; [discriminate |]. injection E as <-. eauto.
Qed.

(** The points follow the new distribution: with uniform draws, the density of the points that are kept (old density times the
    probability of keeping) plus the density of the accepted samples is the new density, at every point. *)
Theorem C50_density {P : Type} (oldpdf newpdf : P -> Q) alpha x : densities oldpdf newpdf x -> (0 <= alpha <= 1)%Q ->
  exists t1 t2, (0 <= t1 <= 1)%Q /\ (0 <= t2 <= 1)%Q /\
    (forall r, (0 <= r < 1)%Q -> (keeps oldpdf newpdf alpha x r <-> (r < t1)%Q)) /\
    (forall r, (0 <= r < 1)%Q -> (accepts oldpdf newpdf alpha x r <-> (r < t2)%Q)) /\
    (oldpdf x * t1 + newpdf x * t2 == newpdf x)%Q.
Proof.
  intros [HO HN] HA. unfold keeps, accepts. set (o := oldpdf x) in *. set (w := newpdf x) in *. clearbody o w.
  destruct (Qlt_le_dec ((1 - alpha) * w) o) as [K | K].
  - (* the old density is larger than (1 - alpha) times the new one *)
    exists ((1 - alpha) * w / o)%Q, alpha. assert (E : ((1 - alpha) * w / o * o == (1 - alpha) * w)%Q) by (field; lra).
    assert (0 <= (1 - alpha) * w)%Q by nra. split; [split; [apply Qle_shift_div_l; lra | apply Qle_shift_div_r; lra] |]. split; [lra |]. split; [| split].
    + intros r Hr. set (t := ((1 - alpha) * w / o)%Q) in *. clearbody t. split; intros L; [apply Qnot_le_lt; intros M; nra | nra].
    + intros r Hr. split; [| auto]. intros [L | L]; [auto |]. apply Qnot_le_lt. intros M. nra.
    + rewrite (Qmult_comm o), E. ring.
  - exists 1%Q, (1 - o / w)%Q. assert (E : (o / w * w == o)%Q) by (field; lra). assert (0 <= o / w)%Q by (apply Qle_shift_div_l; lra). assert (o / w <= 1 - alpha)%Q by (apply Qle_shift_div_r; lra).
    split; [lra |]. split; [lra |]. split; [| split].
    + intros r Hr. split; [lra |]. intros _. nra.
    + intros r Hr. set (z := (o / w)%Q) in *. clearbody z. rewrite <- E. split.
      * intros [L | L]; [lra |]. apply Qnot_le_lt. intros M. nra.
      * intros L. right. nra.
    + setoid_replace (w * (1 - o / w))%Q with (w - o / w * w)%Q by ring. rewrite E. ring.
Qed.
(** A single point may be reused: then there is nothing new at all. *)
Theorem C50_single_refuted : exists d1, importanceMixing (fun _ : unit => 1%Q) (fun _ => 1%Q) (1 # 100) [tt] d1 [] = Ok ([0], []).
Proof. exists [0%Q]. reflexivity. Qed.

Example C50_case : let old (x : Z) := 1%Q in let new (x : Z) := if Z.eqb x 3 then (1 # 4)%Q else 2%Q in
  importanceMixing old new (1 # 100) [1; 2; 3; 4; 5]%Z [1 # 2; 1 # 2; 1 # 2; 1 # 2; 1 # 2]%Q [((1 # 2)%Q, 3%Z); ((1 # 4)%Q, 7%Z); ((1 # 1000)%Q, 3%Z)] = Ok ([0; 1; 3; 4], [7%Z]).
Proof. vm_compute. reflexivity. Qed.

Print Assumptions C50_mixing. Print Assumptions C50_completes. Print Assumptions C50_no_refresh_refuted. Print Assumptions C50_density. Print Assumptions C50_single_refuted.
