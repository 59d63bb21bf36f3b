From Coq Require Import QArith Qround Permutation Lia Sorting.Sorted Lqa Qabs.
From Verif Require Import Base StableSort Dict Coevo_Model Coevo_Spec Coevo_Proofs Coevo_Proofs2 Coevo_Proofs3.

Lemma nth_error_upto {A} (l k : list A) i x : nth_error l i = Some x -> nth_error (l ++ k) i = Some x.
Proof. intro H. rewrite nth_error_app1; auto. apply nth_error_Some. congruence. Qed.
Lemma StronglySorted_firstn {A} (R : A -> A -> Prop) n l : StronglySorted R l -> StronglySorted R (firstn n l).
Proof.
  intro S. revert n. induction S as [|x l S IH F]; intros [|n]; cbn [firstn]; constructor; auto.
  rewrite Forall_forall in *. intros y Hy. apply F. rewrite <- (firstn_skipn n l). apply in_or_app. auto.
Qed.
Lemma StronglySorted_split {A} (R : A -> A -> Prop) l m x y : StronglySorted R (l ++ m) -> In x l -> In y m -> R x y.
Proof.
  induction l as [|h t IH]; cbn [app]; intros S Hx Hy; [destruct Hx|]. apply StronglySorted_inv in S. destruct S as [S F].
  destruct Hx as [->|Hx]; [|auto]. rewrite Forall_forall in F. apply F. apply in_or_app. auto.
Qed.
Lemma StronglySorted_map {A B} (f : A -> B) (R : A -> A -> Prop) (R' : B -> B -> Prop) l : (forall x y, R x y -> R' (f x) (f y)) -> StronglySorted R l -> StronglySorted R' (map f l).
Proof.
  intros H S. induction S as [|x l S IH F]; cbn [map]; constructor; auto.
  rewrite Forall_forall in *. intros y Hy. apply in_map_iff in Hy. destruct Hy as (z & <- & Hz). auto.
Qed.
Lemma fit_total a b : fit_order a b = true \/ fit_order b a = true.
Proof. unfold fit_order. rewrite !Qle_bool_iff. destruct (Qlt_le_dec (fst a) (fst b)); [right|left]; lra. Qed.
Lemma fit_trans a b e : fit_order a b = true -> fit_order b e = true -> fit_order a e = true.
Proof. unfold fit_order. rewrite !Qle_bool_iff. intros. lra. Qed.
Lemma best_selected n fitted sh : Permutation fitted sh -> bestOf n fitted (map snd (firstn n (isort fit_order sh))).
Proof.
  intro Hp. set (l := isort fit_order sh). pose proof (isort_perm fit_order sh) as Hi. fold l in Hi.
  pose proof (isort_sorted _ fit_total fit_trans sh) as S. fold l in S.
  exists (firstn n l), (skipn n l). rewrite firstn_skipn. split; [rewrite Hi; exact Hp|]. split; [reflexivity|]. split.
  - rewrite firstn_length, (Permutation_length Hi), <- (Permutation_length Hp). reflexivity.
  - split.
    + unfold descending. apply (StronglySorted_map _ (StableSort.le fit_order)).
      * intros x y Hxy. unfold StableSort.le, fit_order in Hxy. apply Qle_bool_iff in Hxy. exact Hxy.
      * apply StronglySorted_firstn. exact S.
    + intros a b Ha Hb. rewrite <- (firstn_skipn n l) in S. pose proof (StronglySorted_split _ _ _ _ _ S Ha Hb) as Hab.
      unfold StableSort.le, fit_order in Hab. apply Qle_bool_iff in Hab. exact Hab.
Qed.
Lemma NoDup_app_l {A} (l m : list A) : NoDup (l ++ m) -> NoDup l.
Proof.
  induction l as [|x l IH]; cbn [app]; intro N; [constructor|]. apply NoDup_cons_iff in N. destruct N as [N1 N2].
  constructor; [|auto]. intro H. apply N1. apply in_or_app. auto.
Qed.
Lemma Forall2_len {A B} (R : A -> B -> Prop) l m : Forall2 R l m -> length l = length m.
Proof. induction 1; cbn [length]; congruence. Qed.
Lemma combine_snd {A B} (l : list A) (m : list B) : length l = length m -> map snd (combine l m) = m.
Proof. revert m. induction l as [|x l IH]; intros [|y m] E; try discriminate; cbn [combine map snd]; [reflexivity|]. f_equal. auto. Qed.
Lemma best_In n fits l selected : length fits = length l -> bestOf n (combine fits l) selected -> (forall x, In x selected -> In x l) /\ (NoDup l -> NoDup selected)
  /\ length selected = Nat.min n (length l).
Proof.
  intros El (ch & rest & Hp & <- & Hl & _). assert (Hl2 : map snd (combine fits l) = l) by (apply combine_snd; auto).
  assert (Hp2 : Permutation l (map snd ch ++ map snd rest)) by (rewrite <- map_app, <- Hp, Hl2; reflexivity).
  repeat split.
  - intros x Hx. rewrite Hp2. apply in_or_app. auto.
  - intro N. rewrite Hp2 in N. apply NoDup_app_l in N. exact N.
  - rewrite map_length, Hl, combine_length, El. f_equal. lia.
Qed.

Section S.
Context {P : Type} (mutate randomize : P -> nat -> P) (average : Q -> P -> P -> P) (ev : nat -> nat -> nat -> Q) (d : nat -> nat) (c : cfg).
Notation st := (@st P).
Definition grown (s s' : st) (kids : list (P * option nat)) : Prop :=
  mem s' = mem s ++ kids /\ results s' = results s /\ opponents s' = opponents s /\ steps s' = steps s /\ generation s' = generation s /\ hof s' = hof s
  /\ hofits s' = hofits s /\ oldPops s' = oldPops s /\ pop s' = pop s /\ parasites s' = parasites s /\ pops s' = pops s /\ mainpop s' = mainpop s.
Lemma grown_refl s : grown s s [].
Proof using. clear. unfold grown. rewrite app_nil_r. repeat split. Qed.
Lemma grown_trans s1 s2 s3 a b : grown s1 s2 a -> grown s2 s3 b -> grown s1 s3 (a ++ b).
Proof using.
  clear. intros H1 H2. unfold grown in *. destruct H1 as (E1 & H1), H2 as (E2 & H2). split; [rewrite E2, E1, app_assoc; reflexivity|].
  repeat match goal with H : _ /\ _ |- _ => destruct H end. repeat split; congruence.
Qed.
Lemma grown_good L s s' k : good ev L s -> grown s s' k -> good ev L s'.
Proof using.
  intros ((A & B & C) & D & E) (_ & G1 & G2 & G3 & _). split; [|auto]. split; [congruence|split].
  - intros p q. rewrite G1. auto.
  - intro p. rewrite G2. auto.
Qed.
Definition valid_ids (s : st) (l : list nat) : Prop := Forall (fun i => i < length (mem s)) l.
Lemma valid_get s l i : valid_ids s l -> In i l -> exists x par, nth_error (mem s) i = Some (x, par).
Proof using.
  intros V H. unfold valid_ids in V. rewrite Forall_forall in V. apply V in H. apply nth_error_Some in H.
  destruct (nth_error (mem s) i) as [[x par]|]; [eauto|congruence].
Qed.
Lemma valid_grown s s' k l : grown s s' k -> valid_ids s l -> valid_ids s' l.
Proof using. intros (E & _) V. unfold valid_ids in *. eapply Forall_impl; [|exact V]. intros i Hi. rewrite E, app_length. cbn beta in *. lia. Qed.

Definition mutant (m : list (P * option nat)) (seeds : list nat) (kid : P * option nat) : Prop :=
  exists parent, childOf mutate m seeds (fst kid) parent /\ (averaging c = true -> snd kid = Some parent)
  /\ (averaging c = false -> exists y, nth_error m parent = Some (y, snd kid)).
Lemma choice_ok {A} (l : list A) (s : st) : l <> [] -> exists x, choice d l s = Ok (x, tick 1 s) /\ In x l.
Proof using.
  intro H. unfold choice. destruct (nth_error l (stream d s 0 mod length l)) as [x|] eqn:E.
  - exists x. split; [reflexivity|]. eapply nth_error_In; eauto.
  - exfalso. apply nth_error_None in E. assert (length l <> 0) by (destruct l; [congruence|discriminate]).
    pose proof (Nat.mod_upper_bound (stream d s 0) (length l)). lia.
Qed.
Lemma mutant_old m k seeds kid : (forall i, In i seeds -> i < length m) -> mutant (m ++ k) seeds kid -> mutant m seeds kid.
Proof using.
  intros V (parent & (Hin & y & par & n & E & Ex) & H1 & H2). exists parent. pose proof (V _ Hin) as Hlt.
  rewrite nth_error_app1 in E by exact Hlt. split; [split; [exact Hin|exists y, par, n; auto]|]. split; [exact H1|].
  intro Ha. destruct (H2 Ha) as (z & Ez). rewrite nth_error_app1 in Ez by exact Hlt. eauto.
Qed.
Lemma extend_spec n seeds s : seeds <> [] -> valid_ids s seeds ->
  exists s' kids, extend mutate d c n seeds s = Ok (seq (length (mem s)) n, s') /\ grown s s' kids /\ length kids = n /\ Forall (mutant (mem s) seeds) kids.
Proof using.
  intros Hne. revert s. induction n as [|n IH]; intros s V; cbn [extend seq].
  - exists s, []. split; [reflexivity|]. split; [apply grown_refl|]. split; [reflexivity|constructor].
  - destruct (choice_ok seeds s Hne) as (ch & E & Hin). rewrite E. cbn [rbind].
    destruct (valid_get _ _ _ V Hin) as (x & par & Ex). cbn [tick mem]. rewrite Ex.
    set (kid := (mutate x (stream d (tick 1 s) 0), if averaging c then Some ch else par)).
    set (s2 := snd (alloc kid (tick 1 (tick 1 s)))). change (alloc kid (tick 1 (tick 1 s))) with (length (mem s), s2). cbv iota beta.
    assert (G1 : grown s s2 [kid]) by (clear; unfold s2, grown; cbn; repeat split).
    destruct (IH s2 (valid_grown _ _ _ _ G1 V)) as (s' & kids & Er & G & Hl & HF). rewrite Er. cbn [rbind fst snd].
    exists s', (kid :: kids). assert (Hm : mem s2 = mem s ++ [kid]) by apply G1. 
    replace (length (mem s2)) with (S (length (mem s))) by (rewrite Hm, app_length; cbn [length]; lia). split; [reflexivity|]. split; [exact (grown_trans _ _ _ _ _ G1 G)|]. split; [cbn [length]; lia|].
    constructor.
    + exists ch. split; [split; [exact Hin|exists x, par, (stream d (tick 1 s) 0); auto]|]. unfold kid. cbn [snd].
      split; intro Ha; rewrite Ha; eauto.
    + eapply Forall_impl; [|exact HF]. intros k Hk. rewrite Hm in Hk. eapply mutant_old; eauto. unfold valid_ids in V. rewrite Forall_forall in V. auto.
Qed.
Lemma extend_none n s : extend mutate d c (S n) [] s = Err IndexError.
Proof using. cbn [extend]. unfold choice. destruct (stream d s 0 mod length []); reflexivity. Qed.
Lemma extendPopulation_spec seeds size s : seeds <> [] -> valid_ids s seeds ->
  exists s' kids, extendPopulation mutate d c seeds size s = Ok (seeds ++ seq (length (mem s)) (size - length seeds), s') /\ grown s s' kids
  /\ length kids = size - length seeds /\ Forall (mutant (mem s) seeds) kids.
Proof using.
  intros Hne V. unfold extendPopulation. destruct (extend_spec (size - length seeds) seeds s Hne V) as (s' & kids & E & R). rewrite E. cbn [rbind fst snd]. eauto.
Qed.
(** ** averaging *)
Definition wf_mem (m : list (P * option nat)) : Prop := Forall (fun e => match snd e with Some q => q < length m | None => True end) m.
Definition averaged (m m' : list (P * option nat)) (p p' : nat) : Prop :=
  match nth_error m p with
  | Some (x, Some q) => length m <= p' /\ exists y par, nth_error m q = Some (y, par) /\ nth_error m' p' = Some (average (c_avg c) x y, Some q)
  | _ => p' = p
  end.
Lemma wf_mem_parent m p x q : wf_mem m -> nth_error m p = Some (x, Some q) -> q < length m.
Proof using. intros W E. apply nth_error_In in E. unfold wf_mem in W. rewrite Forall_forall in W. apply (W _ E). Qed.
Lemma averaged_old m k m' p p' : p < length m -> wf_mem m -> averaged (m ++ k) m' p p' -> averaged m m' p p'.
Proof using.
  intros Hp W. unfold averaged. rewrite nth_error_app1 by exact Hp. destruct (nth_error m p) as [[x [q|]]|] eqn:E; auto.
  intros (Hl & y & par & Ey & E2). rewrite app_length in Hl. split; [lia|]. exists y, par. split; [|exact E2].
  rewrite nth_error_app1 in Ey; auto. eapply wf_mem_parent; eauto.
Qed.
Lemma average_spec l s : valid_ids s l -> wf_mem (mem s) -> NoDup l ->
  exists l' s' kids, averageWithParents average c l s = (l', s') /\ grown s s' kids /\ Forall2 (averaged (mem s) (mem s')) l l'
  /\ NoDup l' /\ valid_ids s' l' /\ wf_mem (mem s') /\ (forall x, In x l' -> In x l \/ length (mem s) <= x).
Proof using.
  revert s. induction l as [|p t IH]; intros s V W N; cbn [averageWithParents].
  - exists [], s, []. split; [reflexivity|]. split; [apply grown_refl|]. repeat split; auto; try constructor.
  - unfold valid_ids in V. apply Forall_cons_iff in V. destruct V as [Hp V]. fold (valid_ids s t) in V. apply NoDup_cons_iff in N. destruct N as [Np N].
    assert (KEEP : (forall x q, nth_error (mem s) p <> Some (x, Some q)) -> exists l' s' kids,
       (let '(t', s2) := averageWithParents average c t s in (p :: t', s2)) = (l', s') /\ grown s s' kids /\ Forall2 (averaged (mem s) (mem s')) (p :: t) l'
       /\ NoDup l' /\ valid_ids s' l' /\ wf_mem (mem s') /\ (forall x, In x l' -> In x (p :: t) \/ length (mem s) <= x)).
    { intro Hno. destruct (IH s V W N) as (t' & s' & kids & E & G & F & N' & V' & W' & Hin). rewrite E. exists (p :: t'), s', kids.
      split; [reflexivity|]. split; [exact G|]. split; [|split; [|split; [|split; [exact W'|]]]].
      - constructor; [|exact F]. unfold averaged. destruct (nth_error (mem s) p) as [[x [q|]]|] eqn:Ep; auto. exfalso. eapply Hno; eauto.
      - constructor; [|exact N']. intro Hx. destruct (Hin _ Hx) as [?|?]; [auto|lia].
      - constructor; [|exact V']. assert (valid_ids s' [p]) as Hv by (apply (valid_grown _ _ _ _ G); constructor; auto). apply Forall_inv in Hv. exact Hv.
      - intros x [<-|Hx]; [left; left; reflexivity|]. destruct (Hin _ Hx); [left; right; auto|auto]. }
    destruct (nth_error (mem s) p) as [[x [q|]]|] eqn:Ep; try (apply KEEP; congruence). clear KEEP.
    pose proof (wf_mem_parent _ _ _ _ W Ep) as Hq. destruct (nth_error (mem s) q) as [[y par]|] eqn:Eq; [|apply nth_error_None in Eq; lia].
    set (kid := (average (c_avg c) x y, Some q)). set (s1 := snd (alloc kid s)). change (alloc kid s) with (length (mem s), s1). cbv iota beta.
    assert (G1 : grown s s1 [kid]) by (clear; unfold s1, grown; cbn; repeat split). assert (Hm : mem s1 = mem s ++ [kid]) by apply G1.
    assert (W1 : wf_mem (mem s1)).
    { rewrite Hm. unfold wf_mem in *. rewrite Forall_forall in *. intros e He. rewrite app_length. cbn [length]. apply in_app_or in He.
      destruct He as [He|[<-|[]]]; [specialize (W _ He); destruct (snd e); lia|]. unfold kid. cbn [snd]. lia. }
    destruct (IH s1 (valid_grown _ _ _ _ G1 V) W1 N) as (t' & s' & kids & E & G & F & N' & V' & W' & Hin). rewrite E.
    exists (length (mem s) :: t'), s', (kid :: kids). split; [reflexivity|]. split; [exact (grown_trans _ _ _ _ _ G1 G)|].
    assert (Hm' : mem s' = mem s1 ++ kids) by apply G.
    assert (Hlen : length (mem s) < length (mem s1)) by (rewrite Hm, app_length; cbn [length]; lia).
    unfold valid_ids in V. rewrite Forall_forall in V.
    split; [|split; [|split; [|split; [exact W'|]]]].
    + constructor.
      * unfold averaged. rewrite Ep. split; [lia|]. exists y, par. split; [exact Eq|]. rewrite Hm'. apply nth_error_upto. rewrite Hm.
        rewrite nth_error_app2 by lia. rewrite Nat.sub_diag. reflexivity.
      * rewrite Hm in F. clear - F V W. revert F. generalize (mem s'). intros m' F. induction F as [|a b l l' Hab _ IH]; constructor.
        -- eapply averaged_old; eauto. apply V. left. reflexivity.
        -- apply IH. intros i Hi. apply V. right. exact Hi.
    + constructor; [|exact N']. intro Hx. destruct (Hin _ Hx) as [Hx'|Hx']; [apply V in Hx'; lia|lia].
    + constructor; [|exact V']. rewrite Hm', app_length. lia.
    + intros z [<-|Hz]; [right; lia|]. destruct (Hin _ Hz) as [?|?]; [left; right; auto|right; lia].
Qed.

(** ** selection and reproduction *)
Lemma mutant_wf m kids seeds : wf_mem m -> (forall i, In i seeds -> i < length m) -> Forall (mutant m seeds) kids -> wf_mem (m ++ kids).
Proof using.
  intros W V F. unfold wf_mem in *. rewrite Forall_forall in *. intros e He. rewrite app_length. apply in_app_or in He. destruct He as [He|He].
  - specialize (W _ He). destruct (snd e); lia.
  - destruct (F _ He) as (par & (Hin & _) & H1 & H2). destruct (averaging c).
    + rewrite (H1 eq_refl). specialize (V _ Hin). lia.
    + destruct (H2 eq_refl) as (y & Ey). apply nth_error_In in Ey. specialize (W _ Ey). cbn [snd] in W. destruct (snd e); lia.
Qed.
Lemma seq_NoDup_app (l : list nat) a n : NoDup l -> (forall x, In x l -> x < a) -> NoDup (l ++ seq a n).
Proof using.
  clear. intros N H. induction l as [|x l IH]; cbn [app]; [apply seq_NoDup|]. apply NoDup_cons_iff in N. destruct N as [N1 N2].
  constructor; [|apply IH; auto; intros; apply H; right; auto]. intro Hx. apply in_app_or in Hx. destruct Hx as [Hx|Hx]; [auto|].
  apply in_seq in Hx. assert (x < a) by (apply H; left; auto). lia.
Qed.
(** what the new population is, given the selected and the memory with their children *)
Lemma reproduce_spec l fits s : length fits = length l -> l <> [] -> NoDup l -> valid_ids s l -> wf_mem (mem s) -> 1 <= numSelected c ->
  exists l' s' kids selected, selectAndReproduce mutate average d c l fits s = Ok (l', s') /\ grown s s' kids
  /\ bestOf (numSelected c) (combine fits l) selected
  /\ NoDup l' /\ valid_ids s' l' /\ wf_mem (mem s')
  /\ (forall x, In x l' -> In x selected \/ length (mem s) <= x)
  /\ (numSelected c <= c_size c -> numSelected c <= length l -> length l' = c_size c)
  /\ (c_elitism c = false -> numSelected c <= length l -> l' = seq (length (mem s)) (c_size c) /\ length kids = c_size c /\ Forall (mutant (mem s) selected) kids)
  /\ (c_elitism c = true -> averaging c = false ->
      l' = selected ++ seq (length (mem s)) (c_size c - length selected) /\ length kids = c_size c - length selected /\ Forall (mutant (mem s) selected) kids)
  /\ (c_elitism c = true -> averaging c = true -> exists kids1 kids2,
      kids = kids1 ++ kids2 /\ length kids1 = c_size c - length selected /\ Forall (mutant (mem s) selected) kids1
      /\ Forall2 (averaged (mem s ++ kids1) (mem s')) (selected ++ seq (length (mem s)) (c_size c - length selected)) l').
Proof using.
  intros El Hne N V W Hn. unfold selectAndReproduce, shuffle. pose proof (shuffled_perm (stream d s) (combine fits l)) as Hp.
  set (sh := shuffled (stream d s) (combine fits l)) in *. pose proof (best_selected (numSelected c) _ _ Hp) as HB.
  set (selected := map snd (firstn (numSelected c) (isort fit_order sh))) in *.
  destruct (best_In _ _ _ _ El HB) as (Hsub & Hnd & Hlen). specialize (Hnd N).
  assert (Hsn : selected <> []). { intro E. rewrite E in Hlen. cbn [length] in Hlen. destruct l; [congruence|cbn [length] in Hlen; lia]. }
  set (s1 := tick (length (combine fits l)) s).
  assert (G0 : grown s s1 []) by (clear; unfold s1, grown; cbn; rewrite app_nil_r; repeat split). assert (Hm1 : mem s1 = mem s) by reflexivity.
  assert (Vs : valid_ids s1 selected). { unfold valid_ids in *. rewrite Forall_forall in *. intros i Hi. rewrite Hm1. auto. }
  assert (Vl : forall i, In i selected -> i < length (mem s)). { unfold valid_ids in Vs. rewrite Forall_forall in Vs. rewrite <- Hm1. exact Vs. }
  destruct (c_elitism c) eqn:Eel.
  - destruct (extendPopulation_spec selected (c_size c) s1 Hsn Vs) as (s2 & kids & E & G & Hk & HF). rewrite E. cbn [rbind fst snd]. rewrite Hm1 in *.
    pose proof (grown_trans _ _ _ _ _ G0 G) as G2. cbn [app] in G2. assert (Hm2 : mem s2 = mem s ++ kids) by apply G2.
    set (l1 := selected ++ seq (length (mem s)) (c_size c - length selected)) in *.
    assert (N1 : NoDup l1) by (apply seq_NoDup_app; auto).
    assert (V1 : valid_ids s2 l1).
    { unfold valid_ids, l1. rewrite Forall_forall. intros i Hi. rewrite Hm2, app_length. apply in_app_or in Hi. destruct Hi as [Hi|Hi]; [specialize (Vl _ Hi); lia|].
      apply in_seq in Hi. lia. }
    assert (W2 : wf_mem (mem s2)) by (rewrite Hm2; eapply mutant_wf; eauto).
    assert (I1 : forall x, In x l1 -> In x selected \/ length (mem s) <= x).
    { intros x Hx. apply in_app_or in Hx. destruct Hx as [Hx|Hx]; [auto|]. apply in_seq in Hx. lia. }
    assert (S1 : numSelected c <= c_size c -> numSelected c <= length l -> length l1 = c_size c) by (intros; unfold l1; rewrite app_length, seq_length; lia).
    destruct (averaging c) eqn:Ea.
    + destruct (average_spec l1 s2 V1 W2 N1) as (l' & s' & kids2 & E2 & G3 & F & N' & V' & W' & Hin). rewrite E2.
      exists l', s', (kids ++ kids2), selected. split; [reflexivity|]. split; [exact (grown_trans _ _ _ _ _ G2 G3)|]. repeat (split; [solve [auto]|]).
      split; [|split; [|split; [intros; discriminate|split; [intros; discriminate|]]]].
      * intros x Hx. destruct (Hin _ Hx) as [Hx'|Hx']; [auto|]. rewrite Hm2, app_length in Hx'. right. lia.
      * intros A B. rewrite <- (Forall2_len _ _ _ F). auto.
      * intros _ _. exists kids, kids2. rewrite <- Hm2. auto.
    + exists l1, s2, kids, selected. split; [reflexivity|]. split; [exact G2|]. repeat (split; [solve [auto]|]).
      split; [intros; discriminate|]. split; [auto|]. intros; discriminate.
  - destruct (extendPopulation_spec selected (c_size c + numSelected c) s1 Hsn Vs) as (s2 & kids & E & G & Hk & HF). rewrite E. cbn [rbind fst snd]. rewrite Hm1 in *.
    pose proof (grown_trans _ _ _ _ _ G0 G) as G2. cbn [app] in G2. assert (Hm2 : mem s2 = mem s ++ kids) by apply G2.
    set (l1 := selected ++ seq (length (mem s)) (c_size c + numSelected c - length selected)) in *.
    assert (N1 : NoDup l1) by (apply seq_NoDup_app; auto).
    assert (I2 : forall x, In x (skipn (numSelected c) l1) -> In x l1) by (intros x Hx; rewrite <- (firstn_skipn (numSelected c) l1); apply in_or_app; auto).
    exists (skipn (numSelected c) l1), s2, kids, selected. split; [reflexivity|]. split; [exact G2|]. split; [exact HB|]. split; [|split; [|split; [|split; [|split; [|split]]]]].
    + rewrite <- (firstn_skipn (numSelected c) l1) in N1. clear - N1. induction (firstn (numSelected c) l1); [exact N1|]. apply IHl0. cbn [app] in N1. apply NoDup_cons_iff in N1. tauto.
    + unfold valid_ids. rewrite Forall_forall. intros i Hi. apply I2 in Hi. rewrite Hm2, app_length. apply in_app_or in Hi. destruct Hi as [Hi|Hi]; [specialize (Vl _ Hi); lia|].
      apply in_seq in Hi. lia.
    + rewrite Hm2. eapply mutant_wf; eauto.
    + intros x Hx. apply I2 in Hx. apply in_app_or in Hx. destruct Hx as [Hx|Hx]; [auto|]. apply in_seq in Hx. lia.
    + intros A B. rewrite skipn_length. unfold l1. rewrite app_length, seq_length. lia.
    + intros _ B. assert (Hs : length selected = numSelected c) by lia. unfold l1.
      rewrite skipn_app, Hs, Nat.sub_diag, skipn_all2 by lia. cbn [app skipn]. rewrite Nat.add_sub in *. rewrite Hs, Nat.add_sub in Hk. auto.
    + split; intros; discriminate.
Qed.
Lemma reproduce_none l fits s : numSelected c = 0 -> 0 < c_size c -> selectAndReproduce mutate average d c l fits s = Err IndexError.
Proof using.
  intros H0 Hs. unfold selectAndReproduce, shuffle. rewrite H0. cbn [firstn map]. unfold extendPopulation. cbn [length]. rewrite Nat.add_0_r, Nat.sub_0_r.
  destruct (c_size c) as [|n]; [lia|]. destruct (c_elitism c); rewrite extend_none; reflexivity.
Qed.
End S.
