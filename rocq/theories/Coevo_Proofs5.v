From Coq Require Import QArith Qround Permutation Lia Sorting.Sorted Lqa Qabs.
From Verif Require Import Base StableSort Dict Coevo_Model Coevo_Spec Coevo_Proofs Coevo_Proofs2 Coevo_Proofs3 Coevo_Proofs4.

(** ** the best *)
Lemma argmax_from_spec l : forall i b q pre, length pre = i -> nth_error pre b = Some q -> (forall x, In x pre -> (x <= q)%Q) -> (forall j x, j < b -> nth_error pre j = Some x -> (x < q)%Q) ->
  exists x, nth_error (pre ++ l) (argmax_from i b q l) = Some x /\ (forall y, In y (pre ++ l) -> (y <= x)%Q)
  /\ (forall j y, j < argmax_from i b q l -> nth_error (pre ++ l) j = Some y -> (y < x)%Q).
Proof.
  induction l as [|z l IH]; intros i b q pre Hi Hb Hmax Hfirst; cbn [argmax_from].
  - rewrite app_nil_r. exists q. auto.
  - replace (pre ++ z :: l) with ((pre ++ [z]) ++ l) by (rewrite <- app_assoc; reflexivity).
    destruct (Qle_bool z q) eqn:E.
    + apply Qle_bool_iff in E. apply IH.
      * rewrite app_length. cbn [length]. lia.
      * apply nth_error_upto. exact Hb.
      * intros x Hx. apply in_app_or in Hx. destruct Hx as [Hx|[<-|[]]]; auto.
      * intros j x Hj Hx. apply (Hfirst j); auto. rewrite nth_error_app1 in Hx; auto. assert (b < length pre) by (apply nth_error_Some; congruence). lia.
    + assert (Hlt : (q < z)%Q). { apply Qnot_le_lt. intro H. apply Qle_bool_iff in H. congruence. }
      apply IH.
      * rewrite app_length. cbn [length]. lia.
      * rewrite nth_error_app2 by lia. rewrite Hi, Nat.sub_diag. reflexivity.
      * intros x Hx. apply in_app_or in Hx. destruct Hx as [Hx|[<-|[]]]; [apply Hmax in Hx; lra|lra].
      * intros j x Hj Hx. rewrite nth_error_app1 in Hx by lia. apply nth_error_In in Hx. apply Hmax in Hx. lra.
Qed.
Definition isBest (fits : list Q) (i : nat) : Prop :=
  exists x, nth_error fits i = Some x /\ (forall y, In y fits -> (y <= x)%Q) /\ (forall j y, j < i -> nth_error fits j = Some y -> (y < x)%Q).
Lemma argmax_spec l : l <> [] -> exists i, argmax l = Ok i /\ isBest l i.
Proof.
  destruct l as [|q t]; [congruence|]. intros _. eexists. split; [reflexivity|].
  destruct (argmax_from_spec t 1 0 q [q]) as (x & H); auto.
  - intros x [<-|[]]. lra.
  - intros; lia.
  - exists x. exact H.
Qed.
Lemma Qle_total_b a b : Qle_bool a b = true \/ Qle_bool b a = true.
Proof. rewrite !Qle_bool_iff. destruct (Qlt_le_dec a b); [left; lra|auto]. Qed.
Lemma Qle_trans_b a b e : Qle_bool a b = true -> Qle_bool b e = true -> Qle_bool a e = true.
Proof. rewrite !Qle_bool_iff. intros. lra. Qed.
Lemma StronglySorted_snoc {A} (R : A -> A -> Prop) l x : StronglySorted R l -> Forall (fun y => R y x) l -> StronglySorted R (l ++ [x]).
Proof.
  induction 1 as [|y l S IH F]; intro H; cbn [app]; [repeat constructor|]. apply Forall_cons_iff in H. destruct H as [H1 H2].
  constructor; auto. apply Forall_app. split; auto.
Qed.
Lemma StronglySorted_rev {A} (R : A -> A -> Prop) l : StronglySorted R l -> StronglySorted (fun a b => R b a) (rev l).
Proof.
  induction 1 as [|y l S IH F]; cbn [rev]; [constructor|]. apply StronglySorted_snoc; auto. apply Forall_rev. exact F.
Qed.
(** the n largest in decreasing order *)
Definition largest (n : nat) (l top : list Q) : Prop :=
  exists rest, Permutation l (top ++ rest) /\ length top = Nat.min n (length l) /\ descending top /\ (forall a b, In a top -> In b rest -> (b <= a)%Q).
Lemma largest_spec n l : largest n l (firstn n (rev (isort Qle_bool l))).
Proof.
  set (r := rev (isort Qle_bool l)). assert (Hp : Permutation l r) by (unfold r; rewrite <- Permutation_rev, isort_perm; reflexivity).
  assert (S : StronglySorted (fun a b => (b <= a)%Q) r).
  { unfold r. pose proof (StronglySorted_rev _ _ (isort_sorted _ Qle_total_b Qle_trans_b l)) as S. clear - S.
    induction S as [|x m S IH F]; constructor; auto. eapply Forall_impl; [|exact F]. intros y H. apply Qle_bool_iff. exact H. }
  exists (skipn n r). rewrite firstn_skipn. split; [exact Hp|]. split; [rewrite firstn_length, (Permutation_length Hp); reflexivity|].
  split; [apply StronglySorted_firstn; exact S|]. intros a b. rewrite <- (firstn_skipn n r) in S. eapply (StronglySorted_split _ _ _ a b S).
Qed.
Lemma floor_le n q : (0 <= q)%Q -> (q <= 1)%Q -> floor_nat (inject_Z (Z.of_nat n) * q) <= n.
Proof.
  intros H0 H1. unfold floor_nat. assert (Hn : (0 <= inject_Z (Z.of_nat n))%Q) by (change 0%Q with (inject_Z 0); rewrite <- Zle_Qle; lia).
  assert (H : (inject_Z (Z.of_nat n) * q <= inject_Z (Z.of_nat n))%Q) by nra.
  apply Qfloor_resp_le in H. rewrite Qfloor_Z in H. lia.
Qed.
Lemma floor_zero n : floor_nat (inject_Z (Z.of_nat n) * 0) = 0.
Proof. unfold floor_nat. rewrite (Qfloor_comp _ 0) by ring. reflexivity. Qed.
Lemma upd_In {A} n (x : A) l y : In y (upd n x l) -> y = x \/ In y l.
Proof.
  revert n. induction l as [|h t IH]; intros [|n] H; cbn [upd] in H; auto.
  - destruct H as [<-|H]; [auto|right; right; auto].
  - destruct H as [<-|H]; [right; left; auto|]. apply IH in H. destruct H; [auto|right; right; auto].
Qed.

Section S.
Context {P : Type} (mutate randomize : P -> nat -> P) (average : Q -> P -> P -> P) (ev : nat -> nat -> nat -> Q) (d : nat -> nat) (c : cfg).
Notation st := (@st P).
Notation good := (good ev).
Notation play := (play ev).
Notation mutant := (mutant mutate c).
Notation averaged := (averaged average c).
(** what a new population l' is, after the fitnesses fits of the population l *)
Definition reproduced (s : st) (l : list nat) (fits : list Q) (l' : list nat) (m' : list (P * option nat)) : Prop :=
  exists kids selected, m' = mem s ++ kids /\ bestOf (numSelected c) (combine fits l) selected
  /\ (c_elitism c = false -> l' = seq (length (mem s)) (c_size c) /\ length kids = c_size c /\ Forall (mutant (mem s) selected) kids)
  /\ (c_elitism c = true -> averaging c = false ->
      l' = selected ++ seq (length (mem s)) (c_size c - length selected) /\ length kids = c_size c - length selected /\ Forall (mutant (mem s) selected) kids)
  /\ (c_elitism c = true -> averaging c = true -> exists kids1 kids2,
      kids = kids1 ++ kids2 /\ length kids1 = c_size c - length selected /\ Forall (mutant (mem s) selected) kids1
      /\ Forall2 (averaged (mem s ++ kids1) m') (selected ++ seq (length (mem s)) (c_size c - length selected)) l').
Definition okp (s : st) (l : list nat) : Prop := length l = c_size c /\ NoDup l /\ valid_ids s l.
Record settings : Prop := {
  set_sel : 1 <= numSelected c; set_size : numSelected c <= c_size c; set_hof0 : (0 <= c_hof c)%Q; set_hof1 : (c_hof c <= 1)%Q;
  set_shared : c_shared c = true -> tournamentSize c <= c_size c }.
Definition players_known (L : list game) (s : st) : Prop := forall p q, met L p q -> p < length (mem s).
Record inv (k : kind) (L : list game) (s : st) : Prop := {
  i_good : good L s; i_known : players_known L s; i_mem : wf_mem (mem s); i_pop : okp s (pop s); i_old : Forall (okp s) (oldPops s);
  i_hof : Forall2 (fun b l => In b l) (hof s) (oldPops s); i_gen : length (oldPops s) = generation s;
  i_fits : length (hofits s) = generation s; i_top : Forall (fun l => length l = numSelected c /\ descending l) (hofits s);
  i_kind : match k with
           | Base => True
           | Competitive => okp s (parasites s)
           | Multi n => 1 <= n /\ length (pops s) = n /\ Forall (okp s) (pops s) /\ mainpop s = generation s mod n /\ pop s = nth (mainpop s) (pops s) []
           end }.
Lemma okp_grown s s' k l : grown s s' k -> okp s l -> okp s' l.
Proof using. intros G (A & B & C). split; [exact A|split; [exact B|]]. eapply valid_grown; eauto. Qed.
Lemma okp_mem s s' l : mem s' = mem s -> okp s l -> okp s' l.
Proof using. intros E (A & B & C). split; [exact A|split; [exact B|]]. unfold valid_ids in *. rewrite E. exact C. Qed.
Lemma hof_bound (s : st) : settings -> hofTournSize c s <= tournamentSize c.
Proof using. intro SE. unfold hofTournSize. pose proof (floor_le (tournamentSize c) (c_hof c) (set_hof0 SE) (set_hof1 SE)). lia. Qed.
Definition faces (k : kind) (s : st) (b : nat) : Prop :=
  match k with
  | Base => In b (pop s) \/ In b (hof s) /\ 0 < hofTournSize c (startGeneration s)
  | Competitive => In b (parasites s) \/ In b (hof s) /\ 0 < hofTournSize c (startGeneration s)
  | Multi _ => In b (concat (others s))
  end.
Lemma last_In {A} (l : list A) x dflt : In (last (l ++ [x]) dflt) (l ++ [x]).
Proof. rewrite last_last. apply in_or_app. right. left. reflexivity. Qed.
Lemma nth_old_ok s n : Forall (okp s) (oldPops s) -> NoDup (nth n (oldPops s) []).
Proof using.
  intro F. destruct (Nat.lt_ge_cases n (length (oldPops s))) as [H|H].
  - rewrite Forall_forall in F. apply F. apply nth_In. exact H.
  - rewrite nth_overflow by exact H. constructor.
Qed.
Lemma last_old_ok s : Forall (okp s) (oldPops s) -> NoDup (last (oldPops s) []).
Proof using.
  intro F. destruct (oldPops s) as [|a t] using rev_ind; [constructor|]. rewrite last_last.
  apply Forall_app in F. destruct F as [_ F]. apply Forall_inv in F. apply F.
Qed.
Lemma schedules_In pop1 n os rs a b : schedules pop1 n os rs -> In (a, b) rs -> In a pop1 /\ In b (concat os) /\ a <> b.
Proof using.
  clear. induction 1 as [|o t rs rs' H _ IH]; intro Hin; [destruct Hin|]. cbn [concat]. apply in_app_or in Hin. destruct Hin as [Hin|Hin].
  - destruct (schedule_In _ _ _ _ _ _ H Hin) as (A & B & C). repeat split; auto. apply in_or_app. auto.
  - destruct (IH Hin) as (A & B & C). repeat split; auto. apply in_or_app. auto.
Qed.
Lemma bestPart_In os x : In x (concat (map bestPart os)) -> In x (concat os).
Proof using.
  clear. induction os as [|o t IH]; cbn [map concat]; [auto|]. intro H. apply in_app_or in H. apply in_or_app. destruct H as [H|H]; [left|right; auto].
  unfold bestPart in H. rewrite <- (firstn_skipn (Nat.max 1 (length o / 2)) o). apply in_or_app. auto.
Qed.
Lemma evaluate_ok k L s : settings -> inv k L s -> let s0 := startGeneration s in
  exists fits s1 rs L', evaluate ev d c k s0 = Ok (fits, s1) /\ play s0 rs s1 /\ good L' s1 /\ ledger_of L rs L' /\ length fits = length (pop s)
  /\ (forall a b, In (a, b) rs -> In a (pop s) /\ faces k s b /\ a <> b)
  /\ (match k with Multi _ => True | _ => length rs <= c_size c * tournamentSize c end).
Proof using.
  intros SE I s0. destruct I as [G K W (Op1 & Op2 & Op3) OO HH HG HF HT HK].
  assert (G0 : good L s0) by (destruct G as ((A & B & C) & D & E); repeat split; auto).
  pose proof (hof_bound s0 SE) as Hb.
  assert (OO0 : Forall (okp s0) (oldPops s0)).
  { apply Forall_app. split; [exact OO|]. constructor; [|constructor]. repeat split; auto. }
  destruct k as [| |n]; cbn [evaluate].
  - destruct (evaluateBase_spec ev d c L s0 G0 Op2 (last_old_ok s0 OO0) Hb) as (fits & s1 & rs & L' & opps & hf & E & HP & G1 & HL & Ho & Hhf & (r1 & r2 & Er & S1 & S2) & F).
    { intro Hs. change (pop s0) with (pop s). rewrite Op1. pose proof (set_shared SE Hs). lia. }
    exists fits, s1, rs, L'. repeat (split; [solve [auto]|]). split; [symmetry; eapply Forall2_len; exact F|].
    assert (Hin : forall x, In x opps -> In x (pop s)).
    { intros x Hx. destruct (c_shared c); [|subst; exact Hx]. destruct (greedy_facts _ _ _ _ _ _ Ho) as [_ (rest & Hp)]. change (pop s) with (pop s0). rewrite Hp. apply in_or_app. auto. }
    assert (Hin2 : forall x, In x hf -> In x (hof s) /\ 0 < hofTournSize c s0).
    { intros x Hx. destruct (Nat.ltb_spec 0 (hofTournSize c s0)); [|subst; destruct Hx]. apply (nodup_perm_In _ _ x Hhf) in Hx. auto. }
    split.
    + intros a b Hab. subst rs. apply in_app_or in Hab. destruct Hab as [Hab|Hab].
      * destruct (schedule_In _ _ _ _ _ _ S1 Hab) as (A & B & C). repeat split; auto. left. auto.
      * destruct (schedule_In _ _ _ _ _ _ S2 Hab) as (A & B & C). repeat split; auto. right. auto.
    + subst rs. rewrite app_length. apply schedule_length in S1, S2. change (pop s0) with (pop s) in *. rewrite Op1 in *.
      assert (Nat.min (tournamentSize c - hofTournSize c s0) (length opps) <= tournamentSize c - hofTournSize c s0) by lia. nia.
  - destruct HK as (Hp1 & Hp2 & Hp3).
    destruct (evaluateCompetitive_spec ev d c L s0 G0 Hp2 (nth_old_ok s0 _ OO0) Hb) as (fits & s1 & rs & L' & opps & E & HP & G1 & HL & Ho & (r1 & r2 & Er & S1 & S2) & F).
    { intro Hs. change (parasites s0) with (parasites s). rewrite Hp1. pose proof (set_shared SE Hs). lia. }
    exists fits, s1, rs, L'. repeat (split; [solve [auto]|]). split; [symmetry; eapply Forall2_len; exact F|].
    assert (Hin : forall x, In x opps -> In x (parasites s)).
    { intros x Hx. destruct (c_shared c && (2 <? generation s0)); [|subst; exact Hx]. destruct (greedy_facts _ _ _ _ _ _ Ho) as [_ (rest & Hp)]. change (parasites s) with (parasites s0). rewrite Hp. apply in_or_app. auto. }
    split.
    + intros a b Hab. subst rs. apply in_app_or in Hab. destruct Hab as [Hab|Hab].
      * destruct (schedule_In _ _ _ _ _ _ S1 Hab) as (A & B & C). repeat split; auto. left. auto.
      * destruct (Nat.ltb_spec 0 (hofTournSize c s0)); [|subst; destruct Hab].
        destruct (schedule_In _ _ _ _ _ _ S2 Hab) as (A & B & C). repeat split; auto. right. auto.
    + subst rs. rewrite app_length. change (pop s0) with (pop s) in *. apply schedule_length in S1. rewrite Op1 in S1.
      assert (H2 : length r2 <= c_size c * hofTournSize c s0).
      { destruct (0 <? hofTournSize c s0); [|subst; cbn [length]; lia]. apply schedule_length in S2. rewrite Op1 in S2. exact S2. }
      assert (Nat.min (tournamentSize c - hofTournSize c s0) (length opps) <= tournamentSize c - hofTournSize c s0) by lia. nia.
  - destruct (evaluateMulti_spec ev d c L s0 G0) as (fits & s1 & rs & L' & E & HP & G1 & HL & HS & F).
    exists fits, s1, rs, L'. repeat (split; [solve [auto]|]). split; [symmetry; eapply Forall2_len; exact F|]. split; [|exact Logic.I].
    intros a b Hab. destruct (schedules_In _ _ _ _ _ _ HS Hab) as (A & B & C). repeat split; auto. apply bestPart_In in B. exact B.
Qed.

Lemma ledger_players L rs L' s m : players_known L s -> ledger_of L rs L' -> (forall a b, In (a, b) rs -> a < m /\ b < m) -> length (mem s) <= m ->
  forall p q, met L' p q -> p < m.
Proof using. clear ev d average mutate randomize c.
  intros K HL H Hm p q M. apply (ledger_met L rs L' p q HL) in M. destruct M as [M|[M|M]]; [apply K in M; lia| |]; apply H in M; tauto.
Qed.
Lemma faces_valid k L s b : inv k L s -> faces k s b -> b < length (mem s).
Proof using.
  intros I F. destruct I as [G K W (Op1 & Op2 & Op3) OO HH HG HF HT HK].
  assert (Hh : forall x, In x (hof s) -> x < length (mem s)).
  { intros x Hx. clear HG HF HT HK. revert OO Hx. induction HH as [|y l h o Hy _ IH]; intros OO Hx; [destruct Hx|]. apply Forall_cons_iff in OO. destruct OO as [O1 O2].
    destruct Hx as [<-|Hx]; [|auto]. destruct O1 as (_ & _ & O1). unfold valid_ids in O1. rewrite Forall_forall in O1. apply O1. exact Hy. }
  unfold valid_ids in Op3. rewrite Forall_forall in Op3. destruct k as [| |n]; cbn [faces] in F.
  - destruct F as [F|[F _]]; auto.
  - destruct HK as (_ & _ & HK). unfold valid_ids in HK. rewrite Forall_forall in HK. destruct F as [F|[F _]]; auto.
  - destruct HK as (_ & _ & HK & _). apply in_concat in F. destruct F as (o & Ho & Hb). unfold others in Ho. apply filter_In in Ho. destruct Ho as [Ho _].
    rewrite Forall_forall in HK. destruct (HK _ Ho) as (_ & _ & Hv). unfold valid_ids in Hv. rewrite Forall_forall in Hv. auto.
Qed.
(** everything that one generation does *)
Definition generationOf (k : kind) (L L' : list game) (s s' : st) (fits : list Q) (rs : list (nat * nat)) (np : list nat) : Prop :=
  (exists s1, evaluate ev d c k (startGeneration s) = Ok (fits, s1) /\ play (startGeneration s) rs s1 /\ good L' s1)
  /\ ledger_of L rs L' /\ length fits = c_size c /\ steps s' = steps s + 2 * length rs
  /\ (forall a b, In (a, b) rs -> In a (pop s) /\ faces k s b /\ a <> b)
  /\ (match k with Multi _ => True | _ => length rs <= c_size c * tournamentSize c end)
  /\ (exists besti best top, isBest fits besti /\ nth_error (pop s) besti = Some best /\ hof s' = hof s ++ [best]
      /\ largest (numSelected c) fits top /\ hofits s' = hofits s ++ [top])
  /\ oldPops s' = oldPops s ++ [pop s] /\ generation s' = S (generation s)
  /\ reproduced s (pop s) fits np (mem s') /\ length np = c_size c /\ NoDup np
  /\ (forall x, In x np -> In x (pop s) \/ length (mem s) <= x)
  /\ match k with
     | Base => pop s' = np
     | Competitive => pop s' = parasites s /\ parasites s' = np
     | Multi n => pops s' = upd (mainpop s) np (pops s) /\ mainpop s' = S (generation s) mod n /\ pop s' = nth (mainpop s') (pops s') []
     end.
Lemma generation_spec k L s : settings -> inv k L s ->
  exists s' fits rs L' np, oneGeneration mutate average ev d c k s = Ok s' /\ inv k L' s' /\ generationOf k L L' s s' fits rs np.
Proof using.
  intros SE I. pose proof I as I0. destruct (evaluate_ok k L s SE I) as (fits & s1 & rs & L' & E & HP & G1 & HL & Hlen & Hrs & Hcount).
  unfold oneGeneration. rewrite E. cbn [rbind]. pose proof (play_frame _ _ _ _ HP) as (F1 & F2 & F3 & F4 & F5 & F6 & F7 & F8 & F9).
  cbn [startGeneration mem generation hof hofits oldPops pop parasites pops mainpop] in F1, F2, F3, F4, F5, F6, F7, F8, F9.
  destruct I as [G K W (Op1 & Op2 & Op3) OO HH HG HF HT HK]. pose proof SE as SE0. destruct SE as [Q1 Q2 Q3 Q4 Q5].
  assert (Hfne : fits <> []) by (intro Ef; rewrite Ef in Hlen; cbn [length] in Hlen; lia).
  destruct (argmax_spec fits Hfne) as (bi & Ea & HB). rewrite Ea. cbn [rbind]. rewrite F6.
  destruct (nth_error (pop s) bi) as [best|] eqn:Eb.
  2:{ exfalso. destruct HB as (x & Hx & _). apply nth_error_None in Eb. assert (bi < length fits) by (apply nth_error_Some; congruence). lia. }
  set (top := firstn (numSelected c) (rev (isort Qle_bool fits))). pose proof (largest_spec (numSelected c) fits) as Htop. fold top in Htop.
  set (s2 := recordBest best top s1). assert (Em2 : mem s2 = mem s) by exact F1. change (pop s2) with (pop s1). rewrite F6.
  assert (Hpne : pop s <> []) by (intro Ef; rewrite Ef in Op1; cbn [length] in Op1; lia).
  assert (V2 : valid_ids s2 (pop s)) by (unfold valid_ids in *; rewrite Em2; exact Op3).
  assert (W2 : wf_mem (mem s2)) by (rewrite Em2; exact W).
  destruct (reproduce_spec mutate average d c (pop s) fits s2 Hlen Hpne Op2 V2 W2 Q1) as (np & s3 & kids & sel & Er & Gr & HBest & Nn & Vn & Wn & Hnew & Hsz & HA & HBb & HC).
  rewrite Er. cbn [rbind fst snd].
  assert (G3 : good L' s3). { eapply grown_good; [|exact Gr]. destruct G1 as ((A & B & C) & D & E1). repeat split; auto. }
  assert (Gm : mem s3 = mem s ++ kids) by (rewrite <- Em2; apply Gr).
  destruct Gr as (_ & R1 & R2 & R3 & R4 & R5 & R6 & R7 & R8 & R9 & R10 & R11).
  cbn [s2 recordBest results opponents steps generation hof hofits oldPops pop parasites pops mainpop] in R1, R2, R3, R4, R5, R6, R7, R8, R9, R10, R11.
  assert (Hnp : length np = c_size c) by (apply Hsz; lia).
  destruct (best_In _ _ _ _ Hlen HBest) as (Hsub & _ & _).
  rewrite Em2 in *.
  set (s4 := with_pop np s3). set (s' := changeRoles k s4).
  assert (E4 : mem s' = mem s3 /\ results s' = results s3 /\ opponents s' = opponents s3 /\ steps s' = steps s3 /\ generation s' = generation s3 /\ hof s' = hof s3
     /\ hofits s' = hofits s3 /\ oldPops s' = oldPops s3) by (unfold s', s4; destruct k; repeat split).
  destruct E4 as (X1 & X2 & X3 & X4 & X5 & X6 & X7 & X8).
  assert (M' : mem s' = mem s ++ kids) by congruence.
  assert (OLD : forall l, okp s l -> okp s' l).
  { intros l (A & B & C). split; [exact A|split; [exact B|]]. unfold valid_ids in *. rewrite M', app_length. eapply Forall_impl; [|exact C]. intros i Hi. cbn beta in *. lia. }
  assert (NEW : okp s' np). { split; [exact Hnp|split; [exact Nn|]]. unfold valid_ids in *. rewrite X1. exact Vn. }
  assert (Hkind : match k with
     | Base => pop s' = np
     | Competitive => pop s' = parasites s /\ parasites s' = np
     | Multi n => pops s' = upd (mainpop s) np (pops s) /\ mainpop s' = S (generation s) mod n /\ pop s' = nth (mainpop s') (pops s') []
     end).
  { unfold s', s4. destruct k; cbn [changeRoles with_pop pop parasites pops mainpop generation]; [reflexivity|split; [congruence|reflexivity]|].
    rewrite R10, F8, R11, F9, R4, F2. repeat split. }
  exists s', fits, rs, L', np. split; [reflexivity|].
  assert (Ht : length top = numSelected c /\ descending top).
  { destruct Htop as (rest & _ & Hl & Hd & _). split; [|exact Hd]. rewrite Hl, Hlen, Op1. lia. }
  split.
  - constructor.
    + destruct G3 as ((A & B & C) & D & E1). split; [|split; auto]. split; [congruence|split]; intros; [rewrite X2|rewrite X3]; auto.
    + intros p q M. rewrite M', app_length. enough (p < length (mem s)) by lia.
      refine (ledger_players L rs L' s (length (mem s)) K HL _ (Nat.le_refl _) p q M). intros a b Hab. destruct (Hrs _ _ Hab) as (A & B & _).
      split; [|eapply faces_valid; eauto]. unfold valid_ids in Op3. rewrite Forall_forall in Op3. auto.
    + rewrite X1. exact Wn.
    + destruct k; [rewrite Hkind; exact NEW|rewrite (proj1 Hkind); apply OLD; exact HK|].
      destruct HK as (N1 & N2 & N3 & N4 & N5). destruct Hkind as (U1 & U2 & U3). rewrite U3.
      assert (Hin : In (nth (mainpop s') (pops s') []) (pops s')).
      { apply nth_In. rewrite U1, upd_length, U2, N2. apply Nat.mod_upper_bound. lia. }
      rewrite U1 in Hin at 2. apply upd_In in Hin. destruct Hin as [->|Hin]; [exact NEW|]. apply OLD. rewrite Forall_forall in N3. auto.
    + rewrite X8, R7, F5. apply Forall_app. split; [eapply Forall_impl; [|exact OO]; exact OLD|]. constructor; [|constructor]. apply OLD. repeat split; auto.
    + rewrite X8, R7, F5, X6, R5, F3. apply Forall2_app; [exact HH|]. constructor; [|constructor]. eapply nth_error_In; eauto.
    + rewrite X8, R7, F5, X5, R4, F2, app_length. cbn [length]. lia.
    + rewrite X7, R6, F4, X5, R4, F2, app_length. cbn [length]. lia.
    + rewrite X7, R6, F4. apply Forall_app. split; [exact HT|]. constructor; [exact Ht|constructor].
    + destruct k as [| |n]; [exact Logic.I|rewrite (proj2 Hkind); exact NEW|].
      destruct HK as (N1 & N2 & N3 & N4 & N5). destruct Hkind as (U1 & U2 & U3). split; [exact N1|]. split; [rewrite U1, upd_length; exact N2|].
      split; [|split; [rewrite X5, R4, F2; exact U2|exact U3]]. rewrite Forall_forall. intros l Hl. rewrite U1 in Hl. apply upd_In in Hl.
      destruct Hl as [->|Hl]; [exact NEW|]. apply OLD. rewrite Forall_forall in N3. auto.
  - unfold generationOf. split; [exists s1; auto|]. split; [exact HL|]. split; [lia|]. split; [rewrite X4, R3, (play_steps _ _ _ _ HP); reflexivity|].
    split; [exact Hrs|]. split; [exact Hcount|]. split; [exists bi, best, top; rewrite X6, R5, F3, X7, R6, F4; auto|].
    split; [rewrite X8, R7, F5; reflexivity|]. split; [rewrite X5, R4, F2; reflexivity|]. split; [|split; [exact Hnp|split; [exact Nn|split; [|exact Hkind]]]].
    + exists kids, sel. split; [exact M'|]. split; [exact HBest|]. rewrite M', <- Gm. split; [intro Hel; apply HA; [exact Hel|lia]|]. split; [exact HBb|]. exact HC.
    + intros x Hx. destruct (Hnew _ Hx) as [Hx'|Hx']; [left; auto|right; exact Hx'].
Qed.
End S.
