(** Relative evaluations. *)
From Coq Require Import QArith Qround Lqa Qabs.
From Verif Require Import Base Dict Duel_Model Duel_Spec Duel_Proofs2.

Lemma Qtrunc_pos q : (0 <= q)%Q -> Qtrunc q = Qfloor q.
Proof. intros H. unfold Qtrunc. apply Qle_bool_iff in H. now rewrite H. Qed.

(** the number of games from fixed positions among the cases is the number of positions *)
Lemma cases_count (p : Q) (L : Z) : (0 < p)%Q -> (p <= 1)%Q -> (0 <= L)%Z ->
  let n := Qtrunc (inject_Z L / p) in let np := Qtrunc (inject_Z n * (1 - p)) in
  (0 <= np <= n)%Z /\ (n - np = L)%Z.
Proof.
  intros P0 P1 HL n np.
  assert (HL' : (0 <= inject_Z L)%Q) by (change 0%Q with (inject_Z 0); rewrite <- Zle_Qle; lia).
  assert (A0 : (0 <= inject_Z L / p)%Q) by (apply Qle_shift_div_l; [auto | lra]).
  assert (En : n = Qfloor (inject_Z L / p)) by (unfold n; now rewrite Qtrunc_pos).
  pose proof (Qfloor_le (inject_Z L / p)) as A1. pose proof (Qlt_floor (inject_Z L / p)) as A2. rewrite <- En in A1, A2.
  assert (B1 : (inject_Z n * p <= inject_Z L)%Q).
  { apply (Qmult_le_r _ _ p) in A1; auto. setoid_replace (inject_Z L / p * p)%Q with (inject_Z L) in A1 by (field; lra). exact A1. }
  assert (B2 : (inject_Z L < inject_Z n * p + p)%Q).
  { apply (Qmult_lt_r _ _ p) in A2; auto. setoid_replace (inject_Z L / p * p)%Q with (inject_Z L) in A2 by (field; lra). rewrite inject_Z_plus in A2. change (inject_Z 1) with 1%Q in A2. lra. }
  assert (N0 : (0 <= n)%Z). { rewrite En. change 0%Z with (Qfloor 0). now apply Qfloor_resp_le. }
  assert (N0' : (0 <= inject_Z n)%Q) by (change 0%Q with (inject_Z 0); rewrite <- Zle_Qle; lia).
  assert (C0 : (0 <= inject_Z n * (1 - p))%Q) by (apply Qmult_le_0_compat; lra).
  assert (Enp : np = Qfloor (inject_Z n * (1 - p))) by (unfold np; now rewrite Qtrunc_pos).
  pose proof (Qfloor_le (inject_Z n * (1 - p))) as C1. pose proof (Qlt_floor (inject_Z n * (1 - p))) as C2. rewrite <- Enp in C1, C2.
  rewrite inject_Z_plus in C2. change (inject_Z 1) with 1%Q in C2.
  assert (D0 : (0 <= np)%Z). { rewrite Enp. change 0%Z with (Qfloor 0). now apply Qfloor_resp_le. }
  assert (D1 : (np <= n)%Z). { rewrite Zle_Qle. nra. }
  split; [auto |].
  assert (U : (inject_Z (n - np) < inject_Z (L + 1))%Q). { unfold Zminus. rewrite !inject_Z_plus, inject_Z_opp. change (inject_Z 1) with 1%Q. lra. }
  assert (V : (inject_Z (L - 1) < inject_Z (n - np))%Q). { unfold Zminus. rewrite !inject_Z_plus, !inject_Z_opp. change (inject_Z 1) with 1%Q. lra. }
  rewrite <- Zlt_Qlt in U, V. lia.
Qed.

Section Rel.
Variable c : rcfg.
Variable play : nat -> option pos -> option Q -> Z * Z.
Lemma heat_nonneg j : (0 <= rc_minT c)%Q -> (0 <= rc_warm c)%Q -> (0 <= heat c j)%Q.
Proof.
  intros H1 H2. induction j as [|j IH]; cbn [heat]; [auto |].
  assert (T : (0 <= (if Qeq_dec (heat c j) 0 then 2 # 100 else heat c j * rc_warm c))%Q) by (destruct (Qeq_dec (heat c j) 0); [lra | now apply Qmult_le_0_compat]).
  destruct (rc_kind c); auto. destruct (Qlt_le_dec _ _); auto.
Qed.

(** the state when the temperature has been increased j times *)
Record rinv (j : nat) (s : rstate) : Prop := {
  ri_temp : rs_temp s == heat c j;
  ri_knob : rs_knob s = None \/ exists j' x, (j' <= j)%nat /\ rs_knob s = Some x /\ x == told c (heat c j') /\ (heat c j' <= rc_maxT c \/ j' = 0%nat)%Q;
  ri_score : rs_score s == qsum (fun e => ga_coeff e * ga_res e)%Q (rs_log s);
  ri_sum : rs_sum s == qsum ga_coeff (rs_log s) }.
Lemma qsum_app f l e : qsum f (l ++ [e]) == qsum f l + f e.
Proof. unfold qsum. induction l as [|a l IH]; cbn [app fold_right]; [ring |]. rewrite IH. ring. Qed.
Lemma start_inv : rinv 0 (relStart c).
Proof.
  constructor; cbn; try reflexivity. destruct (rc_kind c) eqn:K; auto. right. exists 0%nat, (rc_minT c). repeat split; auto. unfold told. rewrite K. reflexivity.
Qed.
Lemma warm_inv j s : (0 <= rc_minT c)%Q -> (0 <= rc_warm c)%Q -> rinv j s -> rinv (S j) (globalWarming c s) /\ rs_log (globalWarming c s) = rs_log s.
Proof.
  intros M1 M2 [T K S1 S2]. unfold globalWarming.
  set (t := if Qeq_bool (rs_temp s) 0 then 2 # 100 else (rs_temp s * rc_warm c)%Q).
  set (h := if Qeq_dec (heat c j) 0 then 2 # 100 else (heat c j * rc_warm c)%Q).
  assert (E : t == h).
  { unfold t, h. destruct (Qeq_bool (rs_temp s) 0) eqn:E1; destruct (Qeq_dec (heat c j) 0) as [E2|E2]; try reflexivity.
    - apply Qeq_bool_iff in E1. exfalso. apply E2. rewrite <- T. auto.
    - exfalso. rewrite <- T in E2. apply Qeq_bool_iff in E2. congruence.
    - rewrite T. reflexivity. }
  assert (K' : rs_knob s = None \/ exists j' x, (j' <= S j)%nat /\ rs_knob s = Some x /\ x == told c (heat c j') /\ (heat c j' <= rc_maxT c \/ j' = 0%nat)%Q).
  { destruct K as [K|(j' & x & A & B & D & F)]; [now left |]. right. exists j', x. repeat split; auto; lia. }
  assert (Hh : rc_kind c <> Fixed -> heat c (S j) = h) by (intros N; cbn [heat]; fold h; destruct (rc_kind c); congruence).
  destruct (Qlt_bool (rc_maxT c) t) eqn:B.
  - apply Qlt_bool_iff in B. split; [| reflexivity]. constructor; cbn [rs_temp rs_knob rs_score rs_sum rs_log]; auto.
    cbn [heat]. fold h. destruct (rc_kind c); auto. destruct (Qlt_le_dec (rc_maxT c) h) as [_|X]; auto. exfalso. rewrite E in B. lra.
  - assert (B' : (t <= rc_maxT c)%Q) by (apply Qnot_lt_le; intros X; apply Qlt_bool_iff in X; congruence).
    destruct (rc_kind c) eqn:Kd; (split; [| reflexivity]); constructor; cbn [rs_temp rs_knob rs_score rs_sum rs_log]; auto.
    + rewrite Hh by congruence. auto.
    + right. exists (S j), t. rewrite Hh by congruence. repeat split; auto; [unfold told; now rewrite Kd | left; rewrite <- E; auto].
    + rewrite Hh by congruence. auto.
    + right. exists (S j), (t / (t + 1))%Q. rewrite Hh by congruence. repeat split; auto; [unfold told; rewrite Kd, E; reflexivity | left; rewrite <- E; auto].
    + cbn [heat]. rewrite Kd. fold h. destruct (Qlt_le_dec (rc_maxT c) h) as [X|X]; [exfalso; rewrite E in B'; lra | reflexivity].
Qed.
Lemma scored_inv j s i p w (co : Q) : rc_max c <> rc_min c -> rinv j s -> co == w / (10 * heat c j + 1) ->
  exists s' e, scored c play i p co s = Ok s' /\ rinv j s' /\ rs_log s' = rs_log s ++ [e] /\ ga_i e = i /\ ga_start e = p /\ proper c play w j e.
Proof.
  intros Hm [T K S1 S2] Hw. unfold scored, gameResult. destruct (Z.eqb_spec (rc_max c - rc_min c) 0); [lia |]. cbn [rbind].
  eexists; eexists. split; [reflexivity |]. cbn [rs_log]. split; [| split; [reflexivity |]].
  - constructor; cbn [rs_temp rs_knob rs_score rs_sum rs_log]; auto; rewrite qsum_app; cbn [ga_coeff ga_res]; [rewrite S1 | rewrite S2]; reflexivity.
  - split; [reflexivity |]. split; [reflexivity |]. unfold proper. cbn [ga_coeff ga_knob ga_i ga_start ga_res]. split; [auto |]. split; [auto |].
    change BLACK with 1%Z. destruct (Z.eqb_spec (fst (play i p (rs_knob s))) 1) as [E|E]; destruct (Z.eq_dec (fst (play i p (rs_knob s))) 1); try congruence; ring.
Qed.
Lemma coeff_eq j s : rinv j s -> 1 / (10 * rs_temp s + 1) == 1 / (10 * heat c j + 1).
Proof. intros I. now rewrite (ri_temp _ _ I). Qed.

(** the weight of game i, and how often the temperature was increased before it *)
Definition weight (np : Z) (i : nat) : Q := if Nat.eq_dec i 0 then (if Z_le_dec np 0 then 1 else inject_Z np) else 1.
Definition rounds (n : Z) (i : nat) : nat := Z.to_nat ((Z.of_nat i - 1) / n).
Lemma rounds_S n i : (1 < n)%Z -> rounds n (S i) = if (Z.of_nat i mod n =? 0)%Z && (0 <? Z.of_nat i)%Z then S (rounds n i) else rounds n i.
Proof.
  intros Hn. unfold rounds. replace (Z.of_nat (S i) - 1)%Z with (Z.of_nat i) by lia. set (z := Z.of_nat i). assert (0 <= z)%Z by lia.
  pose proof (Z.div_mod z n ltac:(lia)) as D. pose proof (Z.mod_pos_bound z n ltac:(lia)) as M.
  destruct (Z.eqb_spec (z mod n) 0) as [E|E]; destruct (Z.ltb_spec 0 z) as [L|L]; cbn [andb].
  - assert ((z - 1) / n = z / n - 1)%Z. { symmetry. apply (Z.div_unique_pos (z - 1) n (z / n - 1) (n - 1)); nia. }
    rewrite H0. assert (1 <= z / n)%Z by nia. lia.
  - assert (z = 0)%Z by lia. rewrite H0. rewrite Z.div_0_l by lia. change (0 - 1)%Z with (-1)%Z.
    assert ((-1) / n = -1)%Z by (symmetry; apply (Z.div_unique_pos (-1) n (-1) (n - 1)); lia). rewrite H1. reflexivity.
  - f_equal. apply (Z.div_unique_pos (z - 1) n (z / n) (z mod n - 1)); lia.
  - assert (z = 0)%Z by lia. rewrite H0 in E. rewrite Z.mod_0_l in E by lia. congruence.
Qed.

Definition okgame (w : nat -> Q) (r : nat -> nat) (e : rgame) : Prop := proper c play (w (ga_i e)) (r (ga_i e)) e.
Lemma step_spec i s : let n := cases c in let np := nonpreset c in
  (0 <= rc_minT c)%Q -> (0 <= rc_warm c)%Q -> rc_max c <> rc_min c -> (1 < n)%Z -> (0 <= np)%Z -> (n - np = Z.of_nat (length (fixedStartingPos (rc_size c))))%Z ->
  rinv (rounds n i) s ->
  exists s' l, relStep c play i s = Ok s' /\ rinv (rounds n (S i)) s' /\ rs_log s' = rs_log s ++ l /\ Forall (okgame (weight np) (rounds n)) l /\
    map (fun e => (ga_i e, ga_start e)) l = planned n np (fixedStartingPos (rc_size c)) i.
Proof.
  intros n np M1 M2 Hm Hn Hnp HL I. unfold relStep. fold n np. set (co := (1 / (10 * rs_temp s + 1))%Q).
  pose proof (Z.mod_pos_bound (Z.of_nat i) n ltac:(lia)) as MB.
  assert (After : forall s1, rinv (rounds n i) s1 -> exists s2,
    (if (n =? 1)%Z then Ok (globalWarming c s1) else if (n =? 0)%Z then Err ZeroDivisionError
     else if (Z.of_nat i mod n =? 0)%Z && (0 <? Z.of_nat i)%Z then Ok (globalWarming c s1) else Ok s1) = Ok s2 /\ rinv (rounds n (S i)) s2 /\ rs_log s2 = rs_log s1).
  { intros s1 I1. destruct (Z.eqb_spec n 1); [lia |]. destruct (Z.eqb_spec n 0); [lia |]. rewrite rounds_S by auto.
    destruct ((Z.of_nat i mod n =? 0)%Z && (0 <? Z.of_nat i)%Z); [| eauto]. destruct (warm_inv _ s1 M1 M2 I1). eauto. }
  assert (Play : forall p w cc, cc == w / (10 * heat c (rounds n i) + 1) -> w = weight np i -> planned n np (fixedStartingPos (rc_size c)) i = [(i, p)] ->
    exists s' l, (let! s0 := scored c play i p cc s in
       if (n =? 1)%Z then Ok (globalWarming c s0) else if (n =? 0)%Z then Err ZeroDivisionError
       else if (Z.of_nat i mod n =? 0)%Z && (0 <? Z.of_nat i)%Z then Ok (globalWarming c s0) else Ok s0) = Ok s' /\
      rinv (rounds n (S i)) s' /\ rs_log s' = rs_log s ++ l /\ Forall (okgame (weight np) (rounds n)) l /\
      map (fun e => (ga_i e, ga_start e)) l = planned n np (fixedStartingPos (rc_size c)) i).
  { intros p w cc Hcc Hw Hpl. destruct (scored_inv _ s i p w cc Hm I Hcc) as (s1 & e & E1 & I1 & E2 & E3 & E4 & E5). rewrite E1. cbn [rbind].
    destruct (After s1 I1) as (s2 & F1 & F2 & F3). exists s2, [e]. split; [exact F1 |]. split; [exact F2 |]. split; [congruence |]. split.
    - constructor; [| constructor]. unfold okgame. rewrite E3, <- Hw. exact E5.
    - cbn [map]. rewrite E3, E4, Hpl. reflexivity. }
  destruct (Z.ltb_spec 1 n) as [_|X]; [| lia]. unfold planned in *. fold n np in Play |- *.
  destruct (Z.leb_spec np (Z.of_nat i mod n)) as [H|H].
  - destruct (Z_le_dec np (Z.of_nat i mod n)) as [_|X]; [| lia].
    assert (Ei : ((Z.of_nat i - np) mod n = Z.of_nat i mod n - np)%Z).
    { symmetry. apply (Z.mod_unique_pos _ n (Z.of_nat i / n)); [lia |]. pose proof (Z.div_mod (Z.of_nat i) n ltac:(lia)). lia. }
    rewrite Ei. destruct (nth_error (fixedStartingPos (rc_size c)) (Z.to_nat (Z.of_nat i mod n - np))) as [p|] eqn:Np.
    + unfold pos in *. rewrite Np in Play |- *. apply (Play (Some p) 1%Q); [unfold co; now apply coeff_eq | | reflexivity].
      unfold weight. destruct (Nat.eq_dec i 0) as [->|]; [| reflexivity]. change (Z.of_nat 0) with 0%Z in H. rewrite Z.mod_0_l in H by lia. destruct (Z_le_dec np 0); [reflexivity | lia].
    + apply nth_error_None in Np. lia.
  - destruct (Z_le_dec np (Z.of_nat i mod n)) as [X|_]; [lia |].
    destruct (Z.ltb_spec (Z.of_nat i) n) as [L|L].
    + destruct (Nat.eqb_spec i 0) as [E0|E0].
      * destruct (Nat.eq_dec i 0) as [_|X]; [| congruence].
        apply (Play None (inject_Z np)); [unfold co; rewrite (coeff_eq _ _ I); unfold Qdiv; ring | | reflexivity].
        unfold weight. destruct (Nat.eq_dec i 0); [| congruence]. destruct (Z_le_dec np 0); [lia | reflexivity].
      * destruct (Nat.eq_dec i 0) as [X|_]; [congruence |]. destruct (Z_lt_dec (Z.of_nat i) n) as [_|X]; [| lia].
        exists s, []. split; [reflexivity |]. rewrite app_nil_r. split; [| split; [reflexivity |]; split; [constructor | reflexivity]].
        rewrite rounds_S by auto. rewrite Z.mod_small by lia. destruct (Z.eqb_spec (Z.of_nat i) 0); [lia |]. exact I.
    + destruct (Nat.eq_dec i 0) as [X|N0]; [lia |]. destruct (Z_lt_dec (Z.of_nat i) n) as [X|_]; [lia |].
      apply (Play None 1%Q); [unfold co; now apply coeff_eq | | reflexivity]. unfold weight. destruct (Nat.eq_dec i 0); [congruence | reflexivity].
Qed.
Lemma gomoku_step_spec i s : (0 <= rc_minT c)%Q -> (0 <= rc_warm c)%Q -> rc_max c <> rc_min c -> rinv (i - 1) s ->
  exists s' l, relGomokuStep c play i s = Ok s' /\ rinv (S i - 1) s' /\ rs_log s' = rs_log s ++ l /\ Forall (okgame (fun _ => 1%Q) (fun i => i - 1)%nat) l /\
    map (fun e => (ga_i e, ga_start e)) l = [(i, None)].
Proof.
  intros M1 M2 Hm I. unfold relGomokuStep. destruct (scored_inv _ s i None 1%Q _ Hm I (coeff_eq _ _ I)) as (s1 & e & E1 & I1 & E2 & E3 & E4 & E5). rewrite E1. cbn [rbind].
  eexists. exists [e]. split; [reflexivity |]. split; [| split; [| split]].
  - destruct i as [|i]; [exact I1 |]. change (0 <? S i)%nat with true. cbv iota. replace (S (S i) - 1)%nat with (S (S i - 1)) by lia. now apply warm_inv.
  - destruct i as [|i]; [exact E2 |]. change (0 <? S i)%nat with true. cbv iota. destruct (warm_inv _ s1 M1 M2 I1) as [_ ->]. exact E2.
  - constructor; [| constructor]. unfold okgame. rewrite E3. exact E5.
  - cbn [map]. rewrite E3, E4. reflexivity.
Qed.

Lemma loop_spec (step : nat -> rstate -> result rstate) (r : nat -> nat) (w : nat -> Q) (plan : nat -> list (nat * option pos)) m :
  (forall i s, rinv (r i) s -> exists s' l, step i s = Ok s' /\ rinv (r (S i)) s' /\ rs_log s' = rs_log s ++ l /\ Forall (okgame w r) l /\ map (fun e => (ga_i e, ga_start e)) l = plan i) ->
  forall i s, rinv (r i) s -> exists s' l, relLoop step i m s = Ok s' /\ rinv (r (i + m)%nat) s' /\ rs_log s' = rs_log s ++ l /\ Forall (okgame w r) l /\
    map (fun e => (ga_i e, ga_start e)) l = flat_map plan (seq i m).
Proof.
  intros HS. induction m as [|m IH]; intros i s I; cbn [relLoop seq flat_map].
  - exists s, []. rewrite Nat.add_0_r, app_nil_r. repeat split; auto; apply I.
  - destruct (HS i s I) as (s1 & l1 & E1 & I1 & L1 & F1 & M1). rewrite E1. cbn [rbind]. destruct (IH (S i) s1 I1) as (s2 & l2 & E2 & I2 & L2 & F2 & M2).
    exists s2, (l1 ++ l2). split; [exact E2 |]. split; [now replace (i + S m)%nat with (S i + m)%nat by lia |]. split; [rewrite L2, L1; now rewrite app_assoc |].
    split; [apply Forall_app; auto |]. rewrite map_app, M1, M2. reflexivity.
Qed.

Lemma qsum_pos f l : l <> [] -> Forall (fun e => 0 < f e)%Q l -> (0 < qsum f l)%Q.
Proof.
  intros N F. destruct l as [|a l]; [congruence |]. apply Forall_cons_iff in F as [Fa F]. cbn [qsum fold_right]. fold (qsum f l).
  assert (0 <= qsum f l)%Q. { clear - F. induction l as [|b l IH]; cbn [qsum fold_right]; [lra |]. apply Forall_cons_iff in F as [Fb F]. specialize (IH F). unfold qsum in IH. lra. } lra.
Qed.
Lemma proper_pos w j e : (0 <= rc_minT c)%Q -> (0 <= rc_warm c)%Q -> (0 < w)%Q -> proper c play w j e -> (0 < ga_coeff e)%Q.
Proof.
  intros M1 M2 W (E & _). rewrite E. pose proof (heat_nonneg j M1 M2). apply Qlt_shift_div_l; lra.
Qed.
Lemma average_bound l : Forall (fun e => 0 < ga_coeff e /\ -(1) <= ga_res e <= 1)%Q l ->
  (- qsum ga_coeff l <= qsum (fun e => ga_coeff e * ga_res e) l <= qsum ga_coeff l)%Q.
Proof.
  induction l as [|e l IH]; intros F; cbn [qsum fold_right]; [lra |]. apply Forall_cons_iff in F as [(F1 & F2 & F3) F]. specialize (IH F). unfold qsum in IH.
  set (x := ga_coeff e) in *. set (y := ga_res e) in *. set (A := fold_right _ 0%Q l) in *. set (B := fold_right (fun e s => (ga_coeff e + s)%Q) 0%Q l) in *.
  assert (x * y <= x)%Q by nra. assert (- x <= x * y)%Q by nra. lra.
Qed.
End Rel.
