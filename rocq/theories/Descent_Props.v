(** Property C27: RPROP and plain gradient descent. *)
From Verif Require Import Base Descent_Model.
From Coq Require Import QArith Lia Lqa.
Local Open Scope Q_scope.

(** ** Spec *)
(** y is the point of [lo,hi] nearest to x *)
Definition nearest (lo hi x y : Q) : Prop := (lo <= x <= hi -> y == x) /\ (x < lo -> y == lo) /\ (hi < x -> y == hi).
(** how one parameter is treated: value v, step t and remembered gradient l before, primed after a gradient g *)
Definition follows (c : rprop_cfg) (v t l g v' t' l' : Q) : Prop :=
  (0 < g -> v' == v + t) /\ (g < 0 -> v' == v - t) /\ (g == 0 -> v' == v) /\
  (0 < l * g -> nearest (deltamin c) (deltamax c) (t * etaplus c) t') /\
  (l * g < 0 -> nearest (deltamin c) (deltamax c) (t * etaminus c) t' /\ l' == 0) /\
  (l * g == 0 -> nearest (deltamin c) (deltamax c) t t') /\
  (0 <= l * g -> l' == g).
Definition at_ (l : list Q) (i : nat) : Q := nth i l 0.
Definition sane (c : rprop_cfg) : Prop := deltamin c <= deltanull c <= deltamax c.
Definition shaped (n : nat) (st : rprop_st) : Prop := length (r_values st) = n /\ length (r_theta st) = n /\ length (r_last st) = n.

(** ** Lemmas *)
Lemma map2_length {A B C} (f : A -> B -> C) : forall a b, length (map2 f a b) = Nat.min (length a) (length b).
Proof. induction a; intros [|b l]; cbn; auto. Qed.
Lemma map2_nth (f : Q -> Q -> Q) : forall a b i, (i < length a)%nat -> (i < length b)%nat -> nth i (map2 f a b) 0 = f (nth i a 0) (nth i b 0).
Proof. induction a as [|x a IH]; intros [|y b] [|i] Ha Hb; cbn in *; try lia; [auto |]. apply IH; lia. Qed.
Lemma map_nth0 (f : Q -> Q) : forall a i, (i < length a)%nat -> nth i (map f a) 0 = f (nth i a 0).
Proof. induction a as [|x a IH]; intros [|i] Ha; cbn in *; try lia; [auto |]. apply IH; lia. Qed.
Lemma qpos_iff q : qpos q = true <-> 0 < q.
Proof.
  unfold qpos. rewrite negb_true_iff. split; intros H.
  - apply Qnot_le_lt. intros K. apply Qle_bool_iff in K. congruence.
  - destruct (Qle_bool q 0) eqn:E; [apply Qle_bool_iff in E; lra | auto].
Qed.
Lemma qneg_iff q : qneg q = true <-> q < 0.
Proof.
  unfold qneg. rewrite negb_true_iff. split; intros H.
  - apply Qnot_le_lt. intros K. apply Qle_bool_iff in K. congruence.
  - destruct (Qle_bool 0 q) eqn:E; [apply Qle_bool_iff in E; lra | auto].
Qed.
Lemma qpos_false q : ~ 0 < q -> qpos q = false.
Proof. intros H. destruct (qpos q) eqn:E; [apply qpos_iff in E; lra | auto]. Qed.
Lemma qneg_false q : ~ q < 0 -> qneg q = false.
Proof. intros H. destruct (qneg q) eqn:E; [apply qneg_iff in E; lra | auto]. Qed.
Lemma qclip_nearest lo hi x : lo <= hi -> nearest lo hi x (qclip lo hi x).
Proof.
  intros H. unfold qclip, qmax, qmin, nearest.
  destruct (Qle_bool x lo) eqn:E1; [apply Qle_bool_iff in E1 | assert (~ x <= lo) by (intros K; apply Qle_bool_iff in K; congruence)].
  - rewrite (proj2 (Qle_bool_iff lo hi) H). split; [intros; lra |]. split; [intros; lra |]. intros; lra.
  - destruct (Qle_bool x hi) eqn:E2; [apply Qle_bool_iff in E2 | assert (~ x <= hi) by (intros K; apply Qle_bool_iff in K; congruence)].
    + split; [intros; lra |]. split; [intros; lra |]. intros; lra.
    + split; [intros; lra |]. split; [intros; lra |]. intros; lra.
Qed.
Lemma nearest_range lo hi x y : lo <= hi -> nearest lo hi x y -> lo <= y <= hi.
Proof.
  intros H (H1 & H2 & H3). destruct (Qlt_le_dec x lo) as [A | A]; [specialize (H2 A); lra |]. destruct (Qlt_le_dec hi x) as [B | B]; [specialize (H3 B); lra |]. specialize (H1 (conj A B)). lra.
Qed.

(** ** One call *)
Theorem C27_step : forall c n st g, deltamin c <= deltamax c -> shaped n st -> length g = n ->
  exists st' g', rprop_call c st g = Ok (st', g') /\ shaped n st' /\
    forall i, (i < n)%nat -> follows c (at_ (r_values st) i) (at_ (r_theta st) i) (at_ (r_last st) i) (at_ g i) (at_ (r_values st') i) (at_ (r_theta st') i) (at_ (r_last st') i).
Proof.
  intros c n st g HC (S1 & S2 & S3) HG. unfold rprop_call. rewrite HG, S1, Nat.eqb_refl. cbn [negb]. do 2 eexists. split; [reflexivity |].
  split; [unfold shaped; cbn [r_values r_theta r_last]; rewrite ?map2_length, ?map_length, ?map2_length, ?map_length; lia |].
  intros i Hi. unfold at_. cbn [r_values r_theta r_last].
  rewrite (map2_nth Qplus) by (rewrite ?map2_length, ?map_length; lia). rewrite (map2_nth Qmult) by (rewrite ?map2_length, ?map_length; lia). rewrite (map_nth0 qsign) by lia.
  rewrite (map_nth0 (qclip (deltamin c) (deltamax c))) by (rewrite ?map2_length, ?map_length; lia).
  rewrite (map2_nth (fun s t => if qneg s then t * etaminus c else t)) by (rewrite ?map2_length; lia).
  rewrite (map2_nth (fun s t => if qpos s then t * etaplus c else t)) by (rewrite ?map2_length; lia).
  rewrite (map2_nth (fun s x => if qneg s then 0 else x)) by (rewrite ?map2_length; lia).
  rewrite (map2_nth Qmult) by lia.
  set (v := nth i (r_values st) 0). set (t := nth i (r_theta st) 0). set (l := nth i (r_last st) 0). set (x := nth i g 0). clearbody v t l x.
  unfold follows. split; [| split; [| split; [| split; [| split; [| split]]]]].
  - intros H. unfold qsign. rewrite (proj2 (qpos_iff x) H). lra.
  - intros H. unfold qsign. rewrite (qpos_false x) by lra. rewrite (proj2 (qneg_iff x) H). lra.
  - intros H. unfold qsign. rewrite (qpos_false x), (qneg_false x) by lra. lra.
  - intros H. rewrite (proj2 (qpos_iff _) H). rewrite (qneg_false (l * x)) by lra. now apply qclip_nearest.
  - intros H. rewrite (qpos_false (l * x)) by lra. rewrite (proj2 (qneg_iff _) H). split; [now apply qclip_nearest | lra].
  - intros H. rewrite (qpos_false (l * x)), (qneg_false (l * x)) by lra. now apply qclip_nearest.
  - intros H. rewrite (qneg_false (l * x)) by lra. lra.
Qed.

(** ** Every history *)
Lemma init_shaped c values : shaped (length values) (rprop_init c values).
Proof. unfold shaped, rprop_init. cbn. rewrite map_length, repeat_length. auto. Qed.
Definition in_range (c : rprop_cfg) (st : rprop_st) : Prop := forall t, In t (r_theta st) -> deltamin c <= t <= deltamax c.
Lemma in_range_nth c st n : shaped n st -> (in_range c st <-> forall i, (i < n)%nat -> deltamin c <= at_ (r_theta st) i <= deltamax c).
Proof.
  intros (_ & S2 & _). split.
  - intros H i Hi. apply H. apply nth_In. lia.
  - intros H t Ht. apply (In_nth _ _ 0) in Ht as (i & Hi & <-). apply H. lia.
Qed.
Lemma follows_range c v t l g v' t' l' : deltamin c <= deltamax c -> follows c v t l g v' t' l' -> deltamin c <= t' <= deltamax c.
Proof.
  intros HC (_ & _ & _ & F4 & F5 & F6 & _). destruct (Qlt_le_dec 0 (l * g)) as [A | A]; [eapply nearest_range; eauto |].
  destruct (Qlt_le_dec (l * g) 0) as [B | B]; [eapply nearest_range; [eauto | apply (F5 B)] |]. eapply nearest_range; [eauto | apply F6; lra].
Qed.
Theorem C27_range : forall c values gs, sane c -> (forall g, In g gs -> length g = length values) ->
  exists st, rprop_run c (rprop_init c values) gs = Ok st /\ shaped (length values) st /\ in_range c st.
Proof.
  intros c values gs HS HG. set (n := length values) in *.
  assert (H0 : shaped n (rprop_init c values) /\ in_range c (rprop_init c values)).
  { split; [apply init_shaped |]. intros t Ht. unfold rprop_init in Ht. cbn [r_theta] in Ht. apply in_map_iff in Ht as (z & <- & Hz). apply repeat_spec in Hz. subst z. unfold sane in HS. lra. }
  destruct H0 as [H0 R0]. generalize dependent (rprop_init c values). clearbody n. induction gs as [|g gs IH]; intros st HSt HR; [exists st; auto |].
  unfold sane in HS. destruct (C27_step c n st g) as (st' & g' & E & S' & F); [lra | auto | apply HG; left; auto |]. cbn [rprop_run]. rewrite E. cbn [rbind fst]. apply IH.
  - intros h Hh. apply HG. right. auto.
  - auto.
  - apply (in_range_nth _ _ n S'). intros i Hi. eapply follows_range; [lra | apply F; auto].
Qed.
(** While the gradient of a parameter keeps its sign the step grows geometrically up to deltamax. *)
Fixpoint qpow (b : Q) (n : nat) : Q := match n with O => 1 | S k => b * qpow b k end.
Lemma qpow_ge1 b n : 1 <= b -> 1 <= qpow b n.
Proof. intros H. induction n; cbn; [lra | nra]. Qed.
Lemma run_snoc c : forall gs st g, rprop_run c st (gs ++ [g]) = (let! s := rprop_run c st gs in let! r := rprop_call c s g in Ok (fst r)).
Proof.
  induction gs as [|h gs IH]; intros st g; cbn [rprop_run app rbind].
  - destruct (rprop_call c st g); cbn; auto.
  - destruct (rprop_call c st h); cbn [rbind]; [apply IH | auto].
Qed.
Theorem C27_growth : forall c values gs g i st, sane c -> 0 < deltamin c -> 1 <= etaplus c -> (forall h, In h (gs ++ [g]) -> length h = length values) -> (i < length values)%nat ->
  ((forall h, In h (gs ++ [g]) -> 0 < at_ h i) \/ (forall h, In h (gs ++ [g]) -> at_ h i < 0)) ->
  rprop_run c (rprop_init c values) (gs ++ [g]) = Ok st ->
  let wanted := deltanull c * qpow (etaplus c) (length gs) in
  at_ (r_theta st) i == (if Qle_bool wanted (deltamax c) then wanted else deltamax c).
Proof.
  intros c values gs g i st HS HM HE HL Hi HG HR wanted.
  assert (GEN : forall gs g st, (forall h, In h (gs ++ [g]) -> length h = length values) ->
    ((forall h, In h (gs ++ [g]) -> 0 < at_ h i) \/ (forall h, In h (gs ++ [g]) -> at_ h i < 0)) ->
    rprop_run c (rprop_init c values) (gs ++ [g]) = Ok st -> shaped (length values) st /\ at_ (r_last st) i == at_ g i /\
    nearest 0 (deltamax c) (deltanull c * qpow (etaplus c) (length gs)) (at_ (r_theta st) i)).
  { clear g gs st HL HG HR wanted. induction gs as [|g0 gs IH] using rev_ind; intros g st HL HG HR.
    - cbn [app] in *. cbn [rprop_run] in HR. destruct (C27_step c _ _ g ltac:(unfold sane in HS; lra) (init_shaped c values) (HL g ltac:(left; auto))) as (st' & g' & E & S' & F).
      rewrite E in HR. cbn [rbind fst] in HR. injection HR as <-. split; [auto |]. specialize (F i Hi). destruct F as (_ & _ & _ & _ & _ & F6 & F7).
      assert (L0 : at_ (r_last (rprop_init c values)) i == 0) by (unfold at_, rprop_init; cbn [r_last]; rewrite nth_repeat; lra).
      assert (T0 : at_ (r_theta (rprop_init c values)) i == deltanull c) by (unfold at_, rprop_init; cbn [r_theta]; rewrite (map_nth0 (fun x => x + deltanull c)) by (rewrite repeat_length; auto); rewrite nth_repeat; lra).
      split; [apply F7; rewrite L0; lra |]. assert (Z0 : at_ (r_last (rprop_init c values)) i * at_ g i == 0) by (rewrite L0; lra). specialize (F6 Z0). destruct F6 as (N1 & _ & _).
      rewrite T0 in N1. unfold sane in HS. specialize (N1 ltac:(lra)). cbn [length qpow]. unfold nearest. split; [intros; lra |]. split; intros; lra.
    - rewrite run_snoc in HR. destruct (rprop_run c (rprop_init c values) (gs ++ [g0])) as [s|e] eqn:ES; [| discriminate]. cbn [rbind] in HR.
      destruct (IH g0 s) as (S1 & L1 & N1).
      + intros h Hh. apply HL. apply in_app_iff. auto.
      + destruct HG as [HG | HG]; [left | right]; intros h Hh; apply HG; apply in_app_iff; auto.
      + auto.
      + destruct (C27_step c _ s g ltac:(unfold sane in HS; lra) S1 (HL g ltac:(apply in_app_iff; right; left; auto))) as (st' & g' & E & S' & F).
        rewrite E in HR. cbn [rbind fst] in HR. injection HR as <-. split; [auto |]. specialize (F i Hi). destruct F as (_ & _ & _ & F4 & _ & _ & F7).
        assert (PP : 0 < at_ (r_last s) i * at_ g i).
        { rewrite L1. assert (I1 : In g0 ((gs ++ [g0]) ++ [g])) by (apply in_app_iff; left; apply in_app_iff; right; left; auto). assert (I2 : In g ((gs ++ [g0]) ++ [g])) by (apply in_app_iff; right; left; auto).
          destruct HG as [HG | HG]; pose proof (HG _ I1); pose proof (HG _ I2); nra. }
        split; [apply F7; lra |]. specialize (F4 PP). rewrite app_length. cbn [length]. replace (length gs + 1)%nat with (S (length gs)) by lia. cbn [qpow].
        set (w := deltanull c * qpow (etaplus c) (length gs)) in *. assert (W : deltanull c * (etaplus c * qpow (etaplus c) (length gs)) == w * etaplus c) by (unfold w; ring).
        assert (W1 : deltanull c <= w) by (unfold w; pose proof (qpow_ge1 (etaplus c) (length gs) HE); unfold sane in HS; nra).
        set (t := at_ (r_theta s) i) in *. set (t' := at_ (r_theta st') i) in *. clearbody t t' w. unfold sane in HS. unfold nearest in *. rewrite W.
        destruct N1 as (N1 & _ & N3). destruct F4 as (M1 & M2 & M3).
        destruct (Qlt_le_dec (deltamax c) w) as [A | A].
        * specialize (N3 A). destruct (Qlt_le_dec (deltamax c) (t * etaplus c)) as [B | B].
          -- specialize (M3 B). split; [intros; nra |]. split; intros; nra.
          -- assert (t * etaplus c == deltamax c) by nra. specialize (M1 ltac:(nra)). split; [intros; nra |]. split; intros; nra.
        * specialize (N1 ltac:(lra)). assert (ET : t * etaplus c == w * etaplus c) by (rewrite N1; lra). assert (G1 : deltamin c <= t * etaplus c) by nra.
          destruct (Qlt_le_dec (deltamax c) (t * etaplus c)) as [B | B].
          -- specialize (M3 B). split; [intros; lra |]. split; intros; lra.
          -- specialize (M1 (conj G1 B)). split; [intros; lra |]. split; intros; lra. }
  destruct (GEN gs g st HL HG HR) as (_ & _ & (N1 & _ & N3)). fold wanted in N1, N3.
  assert (W1 : 0 <= wanted) by (unfold wanted; pose proof (qpow_ge1 (etaplus c) (length gs) HE); unfold sane in HS; nra).
  destruct (Qle_bool wanted (deltamax c)) eqn:E; [apply Qle_bool_iff in E; apply N1; lra |]. apply N3. apply Qnot_le_lt. intros K. apply Qle_bool_iff in K. congruence.
Qed.

Definition cfg0 : rprop_cfg := {| deltamax := 5; deltamin := 1 # 100; deltanull := 1 # 10; etaplus := 6 # 5; etaminus := 1 # 2 |}.
Example C27_ex : sane cfg0 /\ match rprop_run cfg0 (rprop_init cfg0 [1; 2]) [[3; -1]; [2; 5]; [1; 5]] with
  | Ok st => Forall2 Qeq (r_values st) [1 + (1 # 10) + (1 # 10) + (3 # 25); 2 - (1 # 10) + (1 # 10) + (1 # 20)] /\ Forall2 Qeq (r_theta st) [(18 # 125); 1 # 20]
  | Err _ => False end.
Proof. split; [unfold sane, cfg0; cbn; lra |]. vm_compute. split; repeat constructor. Qed.
(** The caller's gradient array is overwritten with zeros where the direction switched. *)
Theorem C27_argument_overwritten_refuted : exists g : list Q,
  match rprop_run cfg0 (rprop_init cfg0 [1]) [[3]] with
  | Ok st => match rprop_call cfg0 st g with Ok (_, g') => g = [-2] /\ g' = [0] | Err _ => False end
  | Err _ => False end.
Proof. exists [-2]. vm_compute. auto. Qed.
(** An initial step outside the range is used unclipped for the first update. *)
Theorem C27_initial_step_refuted : exists c, deltamin c <= deltamax c /\ deltanull c < deltamin c /\
  match rprop_call c (rprop_init c [0]) [1] with Ok (st, _) => Forall2 Qeq (r_values st) [deltanull c] | Err _ => False end.
Proof. exists {| deltamax := 5; deltamin := 1; deltanull := 1 # 10; etaplus := 6 # 5; etaminus := 1 # 2 |}. cbn. split; [lra |]. split; [lra |]. repeat constructor. Qed.

(** ** Plain descent: the parameter change is the discounted sum of the gradients *)
(** of one parameter, the first gradient first: a gradient met k calls before the last one is still felt with factor momentum^k in the
    velocity, and has moved the parameter by 1 + momentum + ... + momentum^k times its own share *)
Fixpoint geo (b : Q) (n : nat) : Q := match n with O => 0 | S k => 1 + b * geo b k end.
Fixpoint discounted (alpha decay mom : Q) (gs : list Q) : Q :=
  match gs with [] => 0 | g :: r => qpow mom (length r) * (alpha * g) + discounted (alpha * decay) decay mom r end.
Fixpoint displacement (alpha decay mom : Q) (gs : list Q) : Q :=
  match gs with [] => 0 | g :: r => geo mom (S (length r)) * (alpha * g) + displacement (alpha * decay) decay mom r end.
Theorem C27_plain : forall momentum decay gs n st, length (p_values st) = n -> length (p_momvec st) = n -> (forall g, In g gs -> length g = n) ->
  exists st', plain_run momentum decay st gs = Ok st' /\ length (p_values st') = n /\ length (p_momvec st') = n /\ p_alpha st' == p_alpha st * qpow decay (length gs) /\
  forall i, (i < n)%nat ->
    at_ (p_momvec st') i == qpow momentum (length gs) * at_ (p_momvec st) i + discounted (p_alpha st) decay momentum (map (fun g => at_ g i) gs) /\
    at_ (p_values st') i == at_ (p_values st) i + momentum * geo momentum (length gs) * at_ (p_momvec st) i + displacement (p_alpha st) decay momentum (map (fun g => at_ g i) gs).
Proof.
  intros momentum decay. induction gs as [|g gs IH]; intros n st L1 L2 HL.
  - exists st. cbn [plain_run length qpow map discounted]. split; [auto |]. split; [auto |]. split; [auto |]. split; [lra |]. intros i Hi. cbn [geo displacement]. split; lra.
  - cbn [plain_run]. unfold plain_call. rewrite (HL g) by (left; auto). rewrite L1, Nat.eqb_refl. cbn [negb rbind].
    set (mv := map2 Qplus (map (fun m => m * momentum) (p_momvec st)) (map (fun x => p_alpha st * x) g)).
    assert (LG : length g = n) by (apply HL; left; auto).
    assert (LM : length mv = n) by (unfold mv; rewrite map2_length, !map_length; lia).
    set (st1 := {| p_values := map2 Qplus (p_values st) mv; p_alpha := p_alpha st * decay; p_momvec := mv |}).
    destruct (IH n st1) as (st' & E & K1 & K2 & K3 & K4); [unfold st1; cbn [p_values]; rewrite map2_length; lia | auto | intros h Hh; apply HL; right; auto |].
    exists st'. split; [auto |]. split; [auto |]. split; [auto |]. split; [rewrite K3; unfold st1; cbn [p_alpha length qpow]; ring |].
    intros i Hi. destruct (K4 i Hi) as [V1 V2]. rewrite V1, V2. cbn [map discounted displacement length qpow geo]. rewrite map_length. unfold st1. cbn [p_momvec p_alpha p_values].
    assert (EM : at_ mv i == at_ (p_momvec st) i * momentum + p_alpha st * at_ g i).
    { unfold mv, at_. rewrite (map2_nth Qplus) by (rewrite map_length; lia). rewrite (map_nth0 (fun m => m * momentum)) by lia. rewrite (map_nth0 (fun x => p_alpha st * x)) by lia. lra. }
    assert (EV : at_ (map2 Qplus (p_values st) mv) i == at_ (p_values st) i + at_ mv i) by (unfold at_; rewrite (map2_nth Qplus) by lia; lra).
    rewrite EV, EM. split; ring.
Qed.
Example C27_plain_ex : match plain_run (1 # 2) (1 # 2) (plain_init (1 # 10) [0]) [[10]; [20]] with
  | Ok st => Forall2 Qeq (p_values st) [5 # 2] /\ Forall2 Qeq (p_momvec st) [3 # 2] | Err _ => False end.
Proof. vm_compute. split; repeat constructor. Qed.

Print Assumptions C27_step.
Print Assumptions C27_range.
Print Assumptions C27_growth.
Print Assumptions C27_argument_overwritten_refuted.
Print Assumptions C27_initial_step_refuted.
Print Assumptions C27_plain.
