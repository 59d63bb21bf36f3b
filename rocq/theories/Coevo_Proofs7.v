From Coq Require Import QArith Qround Permutation Lia Sorting.Sorted Lqa Qabs.
From Verif Require Import Base StableSort Dict Coevo_Model Coevo_Spec Coevo_Proofs Coevo_Proofs2 Coevo_Proofs3 Coevo_Proofs4 Coevo_Proofs5 Coevo_Proofs6.

(** ** competitive sharing *)
Lemma qsum_map_plus {A} (f g : A -> Q) l : (qsum (map (fun x => f x + g x) l) == qsum (map f l) + qsum (map g l))%Q.
Proof. induction l as [|x l IH]; cbn [map]; [reflexivity|]. rewrite !qsum_cons, IH. ring. Qed.
Lemma qsum_ext {A} (f g : A -> Q) l : (forall x, In x l -> f x == g x)%Q -> (qsum (map f l) == qsum (map g l))%Q.
Proof.
  induction l as [|x l IH]; intro H; cbn [map]; [reflexivity|]. rewrite !qsum_cons, IH by (intros; apply H; right; auto). rewrite (H x) by (left; auto). reflexivity.
Qed.
Lemma qsum_if {A} (f : A -> bool) v l : (qsum (map (fun x => if f x then v else 0) l) == inject_Z (Z.of_nat (length (filter f l))) * v)%Q.
Proof.
  induction l as [|x l IH]; cbn [map filter]; [change (0 == 0 * v)%Q; ring|]. rewrite qsum_cons, IH. destruct (f x); cbn [length]; [|ring].
  rewrite Nat2Z.inj_succ, <- Z.add_1_r, inject_Z_plus. ring.
Qed.
(** every parasite that is beaten gives away exactly one point *)
Lemma shares_total L hosts ps : (qsum (map (shareOf L hosts ps) hosts) == inject_Z (Z.of_nat (length (filter (fun p => Nat.ltb 0 (beatenByHosts L hosts p)) ps))))%Q.
Proof.
  induction ps as [|p t IH]; cbn [filter].
  - unfold shareOf. cbn [map]. change (qsum []) with 0%Q. clear. induction hosts as [|h l IH]; cbn [map]; [reflexivity|]. rewrite qsum_cons, IH. reflexivity.
  - set (n := beatenByHosts L hosts p).
    rewrite (qsum_ext _ (fun h => (if winsb L h p then 1 / inject_Z (Z.of_nat n) else 0) + shareOf L hosts t h)%Q).
    2:{ intros h _. unfold shareOf. cbn [map]. rewrite qsum_cons. reflexivity. }
    rewrite qsum_map_plus, IH, (qsum_if (fun h => winsb L h p)). fold (beatenByHosts L hosts p). fold n.
    destruct (Nat.ltb_spec 0 n) as [Hn|Hn]; cbn [length].
    + rewrite Nat2Z.inj_succ, <- Z.add_1_r, inject_Z_plus. change (inject_Z 1) with 1%Q. apply nat_Q_pos in Hn. field. lra.
    + assert (n = 0) as -> by lia. change (inject_Z (Z.of_nat 0)) with 0%Q. ring.
Qed.
Lemma shareOf_nonneg L hosts ps h : (0 <= shareOf L hosts ps h)%Q.
Proof.
  unfold shareOf. induction ps as [|p t IH]; cbn [map]; [change (0 <= 0)%Q; lra|]. rewrite qsum_cons.
  assert (0 <= (if winsb L h p then 1 / inject_Z (Z.of_nat (beatenByHosts L hosts p)) else 0))%Q; [|lra].
  destruct (winsb L h p); [|lra]. destruct (Nat.eq_dec (beatenByHosts L hosts p) 0) as [->|Hn]; [cbn; discriminate|].
  apply Qle_shift_div_l; [apply nat_Q_pos; lia|]. lra.
Qed.
Lemma winsb_decided L h p : winsb L h p = true -> undecided L h p = false.
Proof. intro W. destruct (undecided L h p) eqn:U; [|reflexivity]. apply Qeq_bool_iff in U. apply winsb_Wins in W. unfold Wins in W. lra. Qed.
Lemma shareOf_le L hosts ps h : In h hosts -> (shareOf L hosts ps h <= inject_Z (Z.of_nat (length (filter (fun p => negb (undecided L h p)) ps))))%Q.
Proof.
  intro Hin. unfold shareOf. induction ps as [|p t IH]; cbn [map filter]; [change (0 <= 0)%Q; lra|]. rewrite qsum_cons.
  destruct (winsb L h p) eqn:W.
  - rewrite (winsb_decided _ _ _ W). cbn [negb length]. rewrite Nat2Z.inj_succ, <- Z.add_1_r, inject_Z_plus. change (inject_Z 1) with 1%Q.
    pose proof (beatenBy_pos _ _ _ _ Hin W) as Hp. set (n := beatenByHosts L hosts p) in *.
    assert (1 / inject_Z (Z.of_nat n) <= 1)%Q; [|lra]. apply Qle_shift_div_r; [apply nat_Q_pos; exact Hp|].
    rewrite Qmult_1_l. change 1%Q with (inject_Z 1). rewrite <- Zle_Qle. lia.
  - rewrite Qplus_0_l. eapply Qle_trans; [exact IH|]. destruct (undecided L h p); cbn [negb length]; [lra|].
    rewrite <- Zle_Qle. lia.
Qed.

Section S.
Context {P : Type} (mutate randomize : P -> nat -> P) (average : Q -> P -> P -> P) (ev : nat -> nat -> nat -> Q) (d : nat -> nat) (c : cfg).
Notation st := (@st P).
Notation good := (good ev).
Notation play := (play ev).
Notation settings := (settings c).
Notation inv := (inv ev c).
Notation generationOf := (generationOf mutate average ev d c).
Notation oneGeneration := (oneGeneration mutate average ev d c).
Notation generations := (generations mutate average ev d c).
Notation loop := (loop mutate average ev d c).

(** ** how many games one population plays *)
Lemma filter_none {A} (f : A -> bool) l : (forall x, In x l -> f x = true) -> filter f l = l.
Proof using. clear. induction l as [|x l IH]; intro H; cbn [filter]; [reflexivity|]. rewrite (H x) by (left; auto). rewrite IH; auto. intros; apply H; right; auto. Qed.
Lemma filter_out p l : NoDup l -> In p l -> S (length (filter (fun q => negb (Nat.eqb p q)) l)) = length l.
Proof using.
  clear. induction l as [|x l IH]; intros N H; [destruct H|]. apply NoDup_cons_iff in N. destruct N as [N1 N2]. cbn [filter].
  destruct (Nat.eqb_spec p x) as [->|Hne]; cbn [negb length].
  - rewrite filter_none; [reflexivity|]. intros y Hy. destruct (Nat.eqb_spec x y); [subst; contradiction|reflexivity].
  - destruct H as [->|H]; [congruence|]. rewrite IH; auto.
Qed.
Lemma schedule_self l m n rs : NoDup l -> (forall x, In x m -> In x l) -> schedule l n m rs -> length rs = length m * Nat.min n (length l - 1).
Proof using.
  clear. intros N Hsub H. induction H as [|p t os rs (Hl & _) _ IH]; [reflexivity|]. cbn [length]. rewrite app_length, map_length, IH by (intros; apply Hsub; right; auto).
  rewrite Hl. assert (Hp : In p l) by (apply Hsub; left; auto). pose proof (filter_out p l N Hp). lia.
Qed.
Definition plain : Prop := c_shared c = false /\ (c_hof c == 0)%Q.
Lemma plain_hof (s : st) : plain -> hofTournSize c s = 0.
Proof using.
  intros [_ H]. unfold hofTournSize, floor_nat. rewrite (Qfloor_comp _ 0); [cbn; lia|]. rewrite H. ring.
Qed.
Lemma base_games L (s : st) s' : settings -> plain -> inv Base L s -> oneGeneration Base s = Ok s' ->
  steps s' = steps s + 2 * (c_size c * Nat.min (tournamentSize c) (c_size c - 1)).
Proof using.
  intros SE PL I E. destruct (generation_spec mutate average ev d c Base L s SE I) as (s1 & fits & rs & L' & np & E1 & _ & ((t1 & Ee & HP & _) & _ & _ & Hst & _)).
  rewrite E in E1. injection E1 as <-. rewrite Hst. f_equal. f_equal.
  destruct I as [G K W (Op1 & Op2 & Op3) OO HH HG HF HT HK]. set (s0 := startGeneration s) in *.
  assert (G0 : good L s0) by (destruct G as ((A & B & C) & D & F); repeat split; auto).
  assert (OO0 : Forall (okp c s0) (oldPops s0)). { apply Forall_app. split; [exact OO|]. constructor; [|constructor]. repeat split; auto. }
  destruct (evaluateBase_spec ev d c L s0 G0 Op2 (last_old_ok c s0 OO0) (hof_bound c s0 SE)) as (fits2 & s2 & rs2 & L2 & opps & hf & E2 & HP2 & _ & _ & Ho & _ & (r1 & r2 & Er & S1 & S2) & _).
  { intro Hs. destruct PL. congruence. }
  cbn [evaluate] in Ee. rewrite E2 in Ee. injection Ee as <- <-.
  apply play_steps in HP, HP2. assert (Hlen : length rs = length rs2) by lia. rewrite Hlen, Er, app_length.
  rewrite (plain_hof s0 PL) in *. destruct PL as [Es _]. rewrite Es in Ho. subst opps. apply schedule_length in S2. change (pop s0) with (pop s) in *.
  rewrite (schedule_self _ _ _ _ Op2 (fun x H => H) S1). rewrite Op1 in *. pose proof (set_sel c SE). pose proof (set_size c SE).
  assert (length r2 = 0) by lia. rewrite Nat.sub_0_r in *. assert (c_size c * Nat.min (Nat.min (tournamentSize c) (c_size c)) (c_size c - 1) = c_size c * Nat.min (tournamentSize c) (c_size c - 1)) by (f_equal; lia). lia.
Qed.
Lemma base_terminates L (s : st) m : settings -> plain -> inv Base L s -> 2 <= c_size c -> 1 <= tournamentSize c ->
  exists s', loop (S (m - steps s)) Base (Some m) s = Ok s'.
Proof using.
  intros SE PL I H2 H1. remember (m - steps s) as n eqn:En. assert (Hn : m - steps s <= n) by lia. clear En. revert L s I Hn.
  induction n as [|n IH]; intros L s I Hn; cbn [Coevo_Model.loop]; destruct (stop c (Some m) s) eqn:Est; eauto.
  - exfalso. unfold stop in Est. apply Bool.orb_false_iff in Est. destruct Est as [Est _]. apply Bool.orb_false_iff in Est. destruct Est as [Est _].
    cbn [beyond] in Est. apply Nat.ltb_ge in Est. unfold stepsPerGeneration in Est. nia.
  - destruct (generation_spec mutate average ev d c Base L s SE I) as (s1 & fits & rs & L' & np & E1 & I1 & _). rewrite E1. cbn [rbind].
    pose proof (base_games L s s1 SE PL I E1) as Hs. apply (IH L' s1 I1).
    unfold stop in Est. apply Bool.orb_false_iff in Est. destruct Est as [Est _]. apply Bool.orb_false_iff in Est. destruct Est as [Est _].
    cbn [beyond] in Est. apply Nat.ltb_ge in Est. unfold stepsPerGeneration in Est. assert (1 <= Nat.min (tournamentSize c) (c_size c - 1)) by lia. nia.
Qed.
(** a population of one plays no games, so a limit on the games is never reached *)
Lemma base_forever L (s : st) m fuel : settings -> plain -> inv Base L s -> c_size c = 1 -> c_maxGen c = None -> c_maxEval c = None ->
  steps s + stepsPerGeneration c <= m -> loop fuel Base (Some m) s = Err OutOfFuel.
Proof using.
  intros SE PL. revert L s. induction fuel as [|fuel IH]; intros L s I H1 Hg He Hm; cbn [Coevo_Model.loop]; [reflexivity|].
  replace (stop c (Some m) s) with false.
  2:{ unfold stop. rewrite Hg, He. cbn [beyond]. symmetry. rewrite Bool.orb_false_r, Bool.orb_false_r. apply Nat.ltb_ge. exact Hm. }
  destruct (generation_spec mutate average ev d c Base L s SE I) as (s1 & fits & rs & L' & np & E1 & I1 & _). rewrite E1. cbn [rbind].
  apply (IH L' s1 I1 H1 Hg He). rewrite (base_games L s s1 SE PL I E1), H1. replace (Nat.min (tournamentSize c) (1 - 1)) with 0 by lia. lia.
Qed.

(** ** nobody in a new non-elitist population has played *)
Lemma untried_step L L' (s s' : st) fits rs np : inv Base L s -> generationOf Base L L' s s' fits rs np -> c_elitism c = false ->
  forall p q, In p (pop s') -> ~ met L' p q.
Proof using.
  intros I (_ & HL & _ & _ & Hrs & _ & _ & _ & _ & HR & _ & _ & _ & Hpop) Hel p q Hp M. rewrite Hpop in Hp.
  destruct HR as (kids & sel & _ & _ & HA & _). destruct (HA Hel) as [Enp _]. rewrite Enp in Hp. apply in_seq in Hp.
  assert (p < length (mem s)); [|lia].
  refine (ledger_players L rs L' s (length (mem s)) (i_known _ _ _ _ _ I) HL _ (Nat.le_refl _) p q M). intros a b Hab. destruct (Hrs _ _ Hab) as (A & B & _).
  split; [|eapply faces_valid; eauto]. destruct (i_pop _ _ _ _ _ I) as (_ & _ & V). unfold valid_ids in V. rewrite Forall_forall in V. auto.
Qed.
Lemma untried L0 g (s s' : st) : settings -> inv Base L0 s -> (forall p q, In p (pop s) -> ~ met L0 p q) -> c_elitism c = false -> generations g Base s = Ok s' ->
  exists L, inv Base L s' /\ forall p q, In p (pop s') -> ~ met L p q.
Proof using.
  intros SE. revert L0 s. induction g as [|g IH]; intros L0 s I U Hel E; cbn [Coevo_Proofs6.generations] in E.
  - injection E as <-. eauto.
  - destruct (generation_spec mutate average ev d c Base L0 s SE I) as (s1 & fits & rs & L' & np & E1 & I1 & GO). rewrite E1 in E. cbn [rbind] in E.
    exact (IH L' s1 I1 (untried_step _ _ _ _ _ _ _ I GO Hel) Hel E).
Qed.

(** ** two lineages *)
Record lineages (L : list game) (s : st) (col : nat -> bool) (host : bool) : Prop := {
  l_hosts : forall p, In p (pop s) -> col p = host; l_parasites : forall p, In p (parasites s) -> col p = negb host;
  l_games : forall p q, met L p q -> col p <> col q; l_last : forall p, In p (last (oldPops s) []) -> col p = negb host }.
Lemma no_hof (s : st) : (c_hof c == 0)%Q -> hofTournSize c s = 0.
Proof using. intro H. unfold hofTournSize, floor_nat. rewrite (Qfloor_comp _ 0); [cbn; lia|]. rewrite H. ring. Qed.
Lemma lineages_step L L' (s s' : st) fits rs np col host : (c_hof c == 0)%Q -> inv Competitive L s -> lineages L s col host ->
  generationOf Competitive L L' s s' fits rs np -> exists col', lineages L' s' col' (negb host).
Proof using.
  intros Hhof I [A B C D] (_ & HL & _ & _ & Hrs & _ & _ & Hold & _ & _ & _ & _ & Hnp & (Hp1 & Hp2)).
  destruct I as [G K W (Op1 & Op2 & Op3) OO HH HG HF HT HK].
  set (col' := fun x => if Nat.ltb x (length (mem s)) then col x else host). exists col'.
  assert (same : forall x, x < length (mem s) -> col' x = col x) by (intros x Hx; unfold col'; apply Nat.ltb_lt in Hx; rewrite Hx; reflexivity).
  assert (Vp : forall x, In x (pop s) -> x < length (mem s)) by (unfold valid_ids in Op3; rewrite Forall_forall in Op3; exact Op3).
  assert (Vq : forall x, In x (parasites s) -> x < length (mem s)) by (destruct HK as (_ & _ & V); unfold valid_ids in V; rewrite Forall_forall in V; exact V).
  assert (Hcross : forall a b, In (a, b) rs -> col' a = host /\ col' b = negb host).
  { intros a b Hab. destruct (Hrs _ _ Hab) as (X & [Y|[_ Y]] & _); [rewrite !same by auto; auto|]. rewrite (no_hof _ Hhof) in Y. lia. }
  constructor.
  - intros p Hp. rewrite Hp1 in Hp. rewrite same by auto. auto.
  - intros p Hp. rewrite Hp2 in Hp. rewrite Bool.negb_involutive. destruct (Hnp _ Hp) as [Hp'|Hp']; [rewrite same by auto; auto|].
    unfold col'. apply Nat.ltb_ge in Hp'. rewrite Hp'. reflexivity.
  - intros p q M. pose proof M as M0. apply (ledger_met L rs L' p q HL) in M. destruct M as [M|[M|M]].
    + destruct G as (_ & R & _). rewrite !same; [auto|exact (K _ _ (rounds_met _ _ _ R M))|exact (K _ _ M)].
    + destruct (Hcross _ _ M) as [-> ->]. destruct host; discriminate.
    + destruct (Hcross _ _ M) as [-> ->]. destruct host; discriminate.
  - intros p Hp. rewrite Hold, last_last in Hp. rewrite same by auto. rewrite Bool.negb_involutive. auto.
Qed.
Lemma lineages_hold L0 g (s s' : st) col host : settings -> (c_hof c == 0)%Q -> inv Competitive L0 s -> lineages L0 s col host -> generations g Competitive s = Ok s' ->
  exists L col', inv Competitive L s' /\ lineages L s' col' (if Nat.even g then host else negb host).
Proof using.
  intros SE Hh. revert L0 s col host. induction g as [|g IH]; intros L0 s col host I U E; cbn [Coevo_Proofs6.generations] in E.
  - injection E as <-. exists L0, col. auto.
  - destruct (generation_spec mutate average ev d c Competitive L0 s SE I) as (s1 & fits & rs & L' & np & E1 & I1 & GO). rewrite E1 in E. cbn [rbind] in E.
    destruct (lineages_step _ _ _ _ _ _ _ _ _ Hh I U GO) as (col1 & U1). destruct (IH L' s1 col1 (negb host) I1 U1 E) as (L & col' & I' & U').
    exists L, col'. split; [exact I'|]. rewrite Nat.even_succ, <- Nat.negb_even. destruct (Nat.even g); cbn [negb]; [exact U'|]. rewrite Bool.negb_involutive in U'. exact U'.
Qed.

(** ** averaging without elitism *)
Definition twins (s t : st) : Prop := map fst (mem s) = map fst (mem t) /\ clock s = clock t.
Lemma twins_get s t i x par : twins s t -> nth_error (mem s) i = Some (x, par) -> exists par', nth_error (mem t) i = Some (x, par').
Proof using.
  clear. intros [E _] H. assert (H1 : nth_error (map fst (mem t)) i = Some x) by (rewrite <- E; erewrite map_nth_error; eauto; reflexivity).
  destruct (nth_error (mem t) i) as [[y q]|] eqn:Et.
  - rewrite (map_nth_error _ _ _ Et) in H1. injection H1 as ->. eauto.
  - exfalso. apply nth_error_None in Et. assert (i < length (map fst (mem t))) by (apply nth_error_Some; congruence). rewrite map_length in *. lia.
Qed.
End S.

Definition with_avg (a : Q) (c : cfg) : cfg :=
  {| c_size := c_size c; c_sel := c_sel c; c_elitism := c_elitism c; c_avg := a; c_tourn := c_tourn c; c_hof := c_hof c; c_shared := c_shared c;
     c_abs := c_abs c; c_absProp := c_absProp c; c_maxGen := c_maxGen c; c_maxEval := c_maxEval c |}.
Section Avg.
Context {P : Type} (mutate : P -> nat -> P) (average : Q -> P -> P -> P) (d : nat -> nat) (c : cfg).
Notation st := (@st P).
Definition agree (r r' : result (list nat * st)) : Prop :=
  match r, r' with Ok (l, s), Ok (l', s') => l = l' /\ twins s s' | Err a, Err b => a = b | _, _ => False end.
Lemma extend_twins a n seeds (s t : st) : twins s t -> agree (extend mutate d c n seeds s) (extend mutate d (with_avg a c) n seeds t).
Proof using.
  clear average. revert s t. induction n as [|n IH]; intros s t T; cbn [extend]; [split; auto|].
  pose proof T as [Tm Tc]. unfold choice, stream. rewrite Tc. destruct (nth_error seeds (d (clock t + 0) mod length seeds)) as [ch|]; cbn [rbind]; [|reflexivity].
  cbn [tick mem clock]. destruct (nth_error (mem s) ch) as [[x par]|] eqn:E.
  - destruct (twins_get _ _ _ _ _ T E) as (par' & E'). rewrite E'. rewrite Tc.
    set (k1 := (mutate x (d (clock t + 1 + 0)), if averaging c then Some ch else par)).
    set (k2 := (mutate x (d (clock t + 1 + 0)), if averaging (with_avg a c) then Some ch else par')).
    set (s2 := snd (alloc k1 (tick 1 (tick 1 s)))). set (t2 := snd (alloc k2 (tick 1 (tick 1 t)))).
    change (alloc k1 (tick 1 (tick 1 s))) with (length (mem s), s2). change (alloc k2 (tick 1 (tick 1 t))) with (length (mem t), t2). cbv iota beta.
    assert (T2 : twins s2 t2). { unfold s2, t2, twins. cbn [alloc snd mem clock tick]. rewrite !map_app, Tm, Tc. split; reflexivity. }
    specialize (IH s2 t2 T2). unfold agree in *. destruct (extend mutate d c n seeds s2) as [[l s3]|e], (extend mutate d (with_avg a c) n seeds t2) as [[l' t3]|e']; cbn [rbind fst snd]; try tauto.
    destruct IH as [-> IH]. split; [|exact IH]. f_equal. rewrite <- (map_length fst (mem s)), Tm, map_length. reflexivity.
  - replace (nth_error (mem t) ch) with (@None (P * option nat)); [reflexivity|]. symmetry. apply nth_error_None.
    apply nth_error_None in E. rewrite <- (map_length fst), <- Tm, map_length. exact E.
Qed.
Lemma averaging_lost a l fits (s t : st) : c_elitism c = false -> twins s t ->
  agree (selectAndReproduce mutate average d c l fits s) (selectAndReproduce mutate average d (with_avg a c) l fits t).
Proof using.
  intros Hel T. unfold selectAndReproduce. cbn [with_avg c_elitism c_size]. rewrite Hel. unfold shuffle, stream.
  pose proof T as [Tm Tc]. rewrite Tc. change (numSelected (with_avg a c)) with (numSelected c). unfold extendPopulation.
  set (sel := map snd _). set (k := c_size c + numSelected c - length sel).
  assert (T1 : twins (tick (length (combine fits l)) s) (tick (length (combine fits l)) t)) by (split; cbn [tick mem clock]; congruence).
  pose proof (extend_twins a k sel _ _ T1) as H. unfold agree in *.
  destruct (extend mutate d c k sel (tick (length (combine fits l)) s)) as [[u s1]|e], (extend mutate d (with_avg a c) k sel (tick (length (combine fits l)) t)) as [[v t1]|e'];
    cbn [rbind fst snd]; try tauto. destruct H as [-> H]. auto.
Qed.
End Avg.
