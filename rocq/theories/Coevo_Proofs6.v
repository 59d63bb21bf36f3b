From Coq Require Import QArith Qround Permutation Lia Sorting.Sorted Lqa Qabs.
From Verif Require Import Base StableSort Dict Coevo_Model Coevo_Spec Coevo_Proofs Coevo_Proofs2 Coevo_Proofs3 Coevo_Proofs4 Coevo_Proofs5.

Lemma NoDup_app_r {A} (l m : list A) : NoDup (l ++ m) -> NoDup m.
Proof. induction l as [|x l IH]; cbn [app]; intro N; [exact N|]. apply NoDup_cons_iff in N. tauto. Qed.
Lemma stride_aux i n (l : list nat) a : forall x, In x (filter (fun x => Nat.leb i (fst x) && Nat.eqb ((fst x - i) mod n) 0) (combine (seq a (length l)) l)) ->
  In (snd x) l /\ In (fst x) (seq a (length l)).
Proof. intros [u v] H. apply filter_In in H. destruct H as [H _]. split; [eapply in_combine_r; eauto|eapply in_combine_l; eauto]. Qed.
Lemma stride_In i n l x : In x (stride i n l) -> In x l.
Proof. unfold stride. intro H. apply in_map_iff in H. destruct H as (u & <- & Hu). apply stride_aux in Hu. tauto. Qed.
Lemma filter_NoDup_snd {A B} (f : A * B -> bool) (l : list (A * B)) : NoDup (map snd l) -> NoDup (map snd (filter f l)).
Proof.
  induction l as [|x l IH]; cbn [map filter]; intro N; [constructor|]. apply NoDup_cons_iff in N. destruct N as [N1 N2].
  destruct (f x); cbn [map]; auto. constructor; auto. intro H. apply N1. apply in_map_iff in H. destruct H as (y & E & Hy). apply filter_In in Hy.
  apply in_map_iff. exists y. tauto.
Qed.
Lemma filter_NoDup_fst {A B} (f : A * B -> bool) (l : list (A * B)) : NoDup (map fst l) -> NoDup (map fst (filter f l)).
Proof.
  induction l as [|x l IH]; cbn [map filter]; intro N; [constructor|]. apply NoDup_cons_iff in N. destruct N as [N1 N2].
  destruct (f x); cbn [map]; auto. constructor; auto. intro H. apply N1. apply in_map_iff in H. destruct H as (y & E & Hy). apply filter_In in Hy.
  apply in_map_iff. exists y. tauto.
Qed.
Lemma combine_fst_eq {A B} (l : list A) (m : list B) : length l = length m -> map fst (combine l m) = l.
Proof. revert m. induction l as [|x l IH]; intros [|y m] E; try discriminate; cbn [combine map fst]; [reflexivity|]. f_equal. auto. Qed.
Lemma stride_NoDup i n l : NoDup l -> NoDup (stride i n l).
Proof. intro N. unfold stride. apply filter_NoDup_snd. rewrite combine_snd; [exact N|apply seq_length]. Qed.
Lemma filter_len_le {A} (f : A -> bool) l : length (filter f l) <= length l.
Proof. induction l as [|x l IH]; cbn [filter]; [lia|]. destruct (f x); cbn [length]; lia. Qed.
Lemma stride_length i n l : length (stride i n l) <= length l.
Proof.
  unfold stride. rewrite map_length. etransitivity; [apply filter_len_le|]. rewrite combine_length, seq_length. lia.
Qed.
Lemma all_same_length (l : list nat) i : NoDup l -> (forall x, In x l -> x = i) -> length l <= 1.
Proof.
  intros N H. destruct l as [|a [|b t]]; cbn [length]; try lia. exfalso. apply NoDup_cons_iff in N. destruct N as [N _]. apply N.
  rewrite (H a), (H b); [left; reflexivity|right; left; reflexivity|left; reflexivity].
Qed.
Lemma stride_single i n l : length l <= n -> length (stride i n l) <= 1.
Proof.
  intro Hn. unfold stride. rewrite map_length, <- (map_length fst). apply (all_same_length _ i).
  - apply filter_NoDup_fst. rewrite combine_fst_eq by apply seq_length. apply seq_NoDup.
  - intros x Hx. apply in_map_iff in Hx. destruct Hx as ([u v] & <- & Hx). pose proof (stride_aux i n l 0 _ Hx) as [_ Hs]. apply in_seq in Hs.
    apply filter_In in Hx. destruct Hx as [_ Hx]. cbn [fst] in *. apply andb_prop in Hx. destruct Hx as [H1 H2]. apply Nat.leb_le in H1. apply Nat.eqb_eq in H2.
    rewrite Nat.mod_small in H2 by lia. lia.
Qed.
Lemma stride_nonempty i n l : i < length l -> stride i n l <> [].
Proof.
  intros H E. unfold stride in E. apply map_eq_nil in E. destruct (nth_error l i) as [x|] eqn:Ex; [|apply nth_error_None in Ex; lia].
  assert (Hin : In (i, x) (combine (seq 0 (length l)) l)).
  { assert (Hc : nth_error (combine (seq 0 (length l)) l) i = Some (i, x)).
    { clear E. revert Ex. generalize (seq_length (length l) 0). intros Hs Ex.
      assert (Hseq : nth_error (seq 0 (length l)) i = Some i).
      { rewrite nth_error_nth' with (d := 0) by (rewrite Hs; exact H). rewrite seq_nth by exact H. reflexivity. }
      revert Ex Hseq. generalize (seq 0 (length l)). clear. intros m. revert i m. generalize dependent l. intros l i.
      generalize i at 3 5. intros v. revert l i. intros l. induction l as [|y l IH]; intros [|i] [|z m]; cbn [nth_error combine]; try discriminate.
      - intros A B. injection A as ->. injection B as ->. reflexivity.
      - intros A B. apply IH; auto. }
    eapply nth_error_In; eauto. }
  assert (Hf : In (i, x) (filter (fun x => Nat.leb i (fst x) && Nat.eqb ((fst x - i) mod n) 0) (combine (seq 0 (length l)) l))).
  { apply filter_In. split; [exact Hin|]. cbn [fst]. rewrite Nat.leb_refl, Nat.sub_diag. replace (0 mod n) with 0 by (destruct n; [reflexivity|rewrite Nat.mod_0_l by lia; reflexivity]). reflexivity. }
  rewrite E in Hf. destruct Hf.
Qed.

Section S.
Context {P : Type} (mutate randomize : P -> nat -> P) (average : Q -> P -> P -> P) (ev : nat -> nat -> nat -> Q) (d : nat -> nat) (c : cfg).
Notation st := (@st P).
Notation good := (good ev).
Notation play := (play ev).
Notation mutant := (mutant mutate c).
Notation okp := (okp c).
Notation settings := (settings c).
Notation inv := (inv ev c).
Record seedsOk (k : kind) (ps : list P) (seeds : list nat) : Prop := {
  seed_some : seeds <> []; seed_nodup : NoDup seeds; seed_valid : Forall (fun i => i < length ps) seeds; seed_few : length seeds <= c_size c;
  seed_pops : match k with Multi n => 1 <= n | _ => True end }.
Definition fresh_start (s : st) : Prop := results s = [] /\ opponents s = [] /\ steps s = 0 /\ generation s = 0 /\ hof s = [] /\ hofits s = [] /\ oldPops s = [].
Lemma start_good (s : st) : fresh_start s -> good [] s.
Proof using.
  intros (A & B & C & _). repeat split.
  - rewrite C. reflexivity.
  - intros p q. rewrite A. reflexivity.
  - intro p. rewrite B. reflexivity.
  - constructor.
  - intros i p q r H. destruct i; discriminate.
Qed.
Lemma start_grown s s' k : fresh_start s -> grown s s' k -> fresh_start s'.
Proof using. unfold fresh_start, grown. intros (A & B & C & D & E & F & H) (_ & A1 & B1 & C1 & D1 & E1 & F1 & H1 & _). repeat split; congruence. Qed.
Lemma blank_start (ps : list P) : fresh_start (blank ps).
Proof using. clear. repeat split. Qed.
Lemma blank_mem (ps : list P) : wf_mem (mem (blank ps)).
Proof using. clear. unfold wf_mem. cbn [blank mem]. apply Forall_forall. intros e H. apply in_map_iff in H. destruct H as (x & <- & _). exact I. Qed.
Lemma okp_extended seeds (s s' : st) kids : length seeds <= c_size c -> NoDup seeds -> valid_ids s seeds -> grown s s' kids -> length kids = c_size c - length seeds ->
  okp s' (seeds ++ seq (length (mem s)) (c_size c - length seeds)).
Proof using.
  clear. intros Hl N V (E & _) Hk. split; [|split].
  - rewrite app_length, seq_length. lia.
  - apply seq_NoDup_app; auto. unfold valid_ids in V. rewrite Forall_forall in V. exact V.
  - unfold valid_ids in *. rewrite Forall_forall in *. intros i Hi. rewrite E, app_length. apply in_app_or in Hi. destruct Hi as [Hi|Hi]; [apply V in Hi; lia|].
    apply in_seq in Hi. lia.
Qed.
Lemma grown_wf (s s' : st) kids seeds : wf_mem (mem s) -> valid_ids s seeds -> grown s s' kids -> Forall (mutant (mem s) seeds) kids -> wf_mem (mem s').
Proof using.
  intros W V (E & _) F. rewrite E. eapply mutant_wf; eauto. unfold valid_ids in V. rewrite Forall_forall in V. exact V.
Qed.
Lemma inv_start k (s : st) : fresh_start s -> wf_mem (mem s) -> okp s (pop s) ->
  match k with
  | Base => True
  | Competitive => okp s (parasites s)
  | Multi n => 1 <= n /\ length (pops s) = n /\ Forall (okp s) (pops s) /\ mainpop s = generation s mod n /\ pop s = nth (mainpop s) (pops s) []
  end -> inv k [] s.
Proof using.
  intros F W Hp HK. pose proof F as (A & B & C & D & E & G & H). constructor; auto.
  - apply start_good. exact F.
  - intros p q [r []].
  - rewrite H. constructor.
  - rewrite E, H. constructor.
  - rewrite H, D. reflexivity.
  - rewrite G, D. reflexivity.
  - rewrite G. constructor.
Qed.
Lemma fresh_spec i (s : st) : i < length (mem s) -> exists x par, nth_error (mem s) i = Some (x, par) /\
  exists s', fresh randomize d i s = Ok (length (mem s), s') /\ grown s s' [(randomize x (stream d s 0), par)].
Proof using.
  intro H. unfold fresh. destruct (nth_error (mem s) i) as [[x par]|] eqn:E; [|apply nth_error_None in E; lia].
  exists x, par. split; [reflexivity|]. eexists. split; [reflexivity|]. clear. unfold grown. cbn. repeat split.
Qed.
Lemma wf_snoc (m : list (P * option nat)) x i y par : wf_mem m -> nth_error m i = Some (y, par) -> wf_mem (m ++ [(x, par)]).
Proof using.
  clear. intros W E. unfold wf_mem in *. rewrite Forall_forall in *. intros e He. rewrite app_length. apply in_app_or in He. destruct He as [He|[<-|[]]].
  - specialize (W _ He). destruct (snd e); lia.
  - apply nth_error_In in E. specialize (W _ E). cbn [snd] in *. destruct par; lia.
Qed.
Lemma fillSeeds_spec n seeds (s : st) : seeds <> [] -> NoDup seeds -> valid_ids s seeds -> wf_mem (mem s) ->
  exists s' kids, fillSeeds randomize d n seeds s = Ok (seeds ++ seq (length (mem s)) n, s') /\ grown s s' kids /\ length kids = n /\ wf_mem (mem s')
  /\ valid_ids s' (seeds ++ seq (length (mem s)) n).
Proof using.
  revert seeds s. induction n as [|n IH]; intros seeds s Hne N V W; cbn [fillSeeds seq].
  - exists s, []. rewrite app_nil_r. split; [reflexivity|]. split; [apply grown_refl|]. auto.
  - destruct (choice_ok d seeds s Hne) as (ch & E & Hin). rewrite E. cbn [rbind fst snd].
    assert (Hch : ch < length (mem (tick 1 s))) by (unfold valid_ids in V; rewrite Forall_forall in V; apply V; exact Hin).
    destruct (fresh_spec ch (tick 1 s) Hch) as (x & par & Ex & s1 & Ef & G1). rewrite Ef. cbn [rbind fst snd]. change (mem (tick 1 s)) with (mem s) in *.
    assert (G0 : grown s (tick 1 s) []) by (clear; unfold grown; cbn; rewrite app_nil_r; repeat split).
    pose proof (grown_trans _ _ _ _ _ G0 G1) as G. cbn [app] in G. set (kid := (randomize x (stream d (tick 1 s) 0), par)) in *.
    assert (Hm : mem s1 = mem s ++ [kid]) by apply G.
    assert (Hl : length (mem s1) = S (length (mem s))) by (rewrite Hm, app_length; cbn [length]; lia).
    assert (V' : forall i, In i seeds -> i < length (mem s)) by (unfold valid_ids in V; rewrite Forall_forall in V; exact V).
    assert (Hne' : seeds ++ [length (mem s)] <> []) by (intro X; apply app_eq_nil in X; destruct X; discriminate).
    assert (N' : NoDup (seeds ++ [length (mem s)])) by (change [length (mem s)] with (seq (length (mem s)) 1); apply seq_NoDup_app; auto).
    assert (Vn : valid_ids s1 (seeds ++ [length (mem s)])).
    { unfold valid_ids. rewrite Forall_forall. intros i Hi. rewrite Hl. apply in_app_or in Hi. destruct Hi as [Hi|[<-|[]]]; [apply V' in Hi|]; lia. }
    assert (Wn : wf_mem (mem s1)) by (rewrite Hm; eapply wf_snoc; eauto).
    destruct (IH _ s1 Hne' N' Vn Wn) as (s' & kids & E' & G' & Hk & W' & Vf). rewrite E'. rewrite Hl, <- app_assoc in *. cbn [app] in *.
    exists s', (kid :: kids). split; [reflexivity|]. split; [exact (grown_trans _ _ _ _ _ G G')|]. cbn [length]. auto.
Qed.
Lemma extendEach_spec n seeds is (s : st) : wf_mem (mem s) -> valid_ids s seeds -> NoDup seeds ->
  (forall i, In i is -> stride i n seeds <> [] /\ length (stride i n seeds) <= c_size c) ->
  exists s' kids ls, extendEach mutate d c is n seeds s = Ok (ls, s') /\ grown s s' kids /\ length ls = length is /\ Forall (okp s') ls /\ wf_mem (mem s').
Proof using.
  revert s. induction is as [|i t IH]; intros s W V N H; cbn [extendEach].
  - exists s, [], []. split; [reflexivity|]. split; [apply grown_refl|]. auto.
  - destruct (H i) as [H1 H2]; [left; reflexivity|].
    assert (Vi : valid_ids s (stride i n seeds)).
    { unfold valid_ids in *. rewrite Forall_forall in *. intros x Hx. apply V. eapply stride_In; eauto. }
    destruct (extendPopulation_spec mutate d c (stride i n seeds) (c_size c) s H1 Vi) as (s1 & kids & E & G & Hk & HF). rewrite E. cbn [rbind fst snd].
    assert (O1 : okp s1 (stride i n seeds ++ seq (length (mem s)) (c_size c - length (stride i n seeds)))).
    { eapply okp_extended; eauto. apply stride_NoDup. exact N. }
    destruct (IH s1) as (s' & kids' & ls & E' & G' & Hl & Ho & W'); auto.
    + eapply grown_wf; eauto.
    + eapply valid_grown; eauto.
    + intros j Hj. apply H. right. exact Hj.
    + rewrite E'. cbn [rbind fst snd]. eexists s', (kids ++ kids'), _. split; [reflexivity|]. split; [exact (grown_trans _ _ _ _ _ G G')|].
      split; [cbn [length]; congruence|]. split; [|exact W']. constructor; [|exact Ho]. eapply okp_grown; eauto.
Qed.
Lemma construct_ok k ps seeds : settings -> seedsOk k ps seeds ->
  exists sd s, construct mutate randomize d c k ps seeds = Ok (sd, s) /\ inv k [] s /\ fresh_start s
  /\ match k with
     | Base => sd = seeds /\ exists kids, pop s = seeds ++ kids
     | Competitive => sd = seeds /\ (forall x, In x (pop s) -> ~ In x (parasites s))
     | Multi n => sd = seeds ++ seq (length ps) (n - length seeds)
     end.
Proof using.
  intros SE [Hne N V Hf Hk]. assert (Hsz : 1 <= c_size c) by (destruct SE; lia).
  assert (Lm : length (mem (blank ps)) = length ps) by (cbn [blank mem]; apply map_length).
  assert (V0 : valid_ids (blank ps) seeds) by (unfold valid_ids; rewrite Lm; exact V).
  pose proof (blank_start ps) as F0. pose proof (blank_mem ps) as W0.
  destruct k as [| |n]; cbn [construct].
  - unfold initBase. destruct (extendPopulation_spec mutate d c seeds (c_size c) (blank ps) Hne V0) as (s1 & kids & E & G & Hkk & HF). rewrite E. cbn [rbind fst snd].
    eexists seeds, _. split; [reflexivity|]. pose proof (start_grown _ _ _ F0 G) as F1. split; [|split; [exact F1|]].
    + apply inv_start; auto; [exact (grown_wf _ _ _ _ W0 V0 G HF)|]. cbn [with_pop pop]. apply (okp_mem c s1); [reflexivity|]. eapply okp_extended; eauto.
    + split; [reflexivity|]. eexists. reflexivity.
  - unfold initCompetitive.
    assert (HH : exists a b s1 kd, halves randomize d seeds (blank ps) = Ok (a, b, s1) /\ grown (blank ps) s1 kd /\ wf_mem (mem s1) /\ a <> [] /\ b <> [] /\ NoDup a /\ NoDup b
       /\ valid_ids s1 a /\ valid_ids s1 b /\ length a <= c_size c /\ length b <= c_size c /\ (forall x, In x a -> ~ In x b)).
    { destruct seeds as [|x [|y t]]; [congruence| |].
      - cbn [halves]. destruct (fresh_spec x (blank ps)) as (v & par & Ev & s1 & Ef & G).
        { unfold valid_ids in V0. apply Forall_inv in V0. exact V0. }
        rewrite Ef. cbn [rbind fst snd]. rewrite Lm. eexists [x], [length ps], s1, _. split; [reflexivity|]. split; [exact G|].
        assert (Hm : length (mem s1) = S (length ps)) by (destruct G as (E & _); rewrite E, app_length, Lm; cbn [length]; lia).
        apply Forall_inv in V. split; [destruct G as (E & _); rewrite E; eapply wf_snoc; eauto|].
        split; [discriminate|]. split; [discriminate|]. split; [exact N|]. split; [apply NoDup_cons; [intros []|constructor]|].
        split; [unfold valid_ids; constructor; [lia|constructor]|]. split; [unfold valid_ids; constructor; [lia|constructor]|].
        split; [cbn [length]; lia|]. split; [cbn [length]; lia|].
        intros z [<-|[]] [E|[]]. lia.
      - cbn [halves]. set (sd := x :: y :: t) in *. eexists _, _, (blank ps), []. split; [reflexivity|]. split; [apply grown_refl|]. split; [exact W0|].
        assert (Hl : 2 <= length sd) by (unfold sd; cbn [length]; lia). assert (Hd : 1 <= length sd / 2 < length sd).
        { split; [apply Nat.div_le_lower_bound; lia|apply Nat.div_lt; lia]. }
        assert (Sp : firstn (length sd / 2) sd ++ skipn (length sd / 2) sd = sd) by apply firstn_skipn.
        assert (L1 : length (firstn (length sd / 2) sd) = length sd / 2) by (rewrite firstn_length; lia).
        assert (L2 : length (skipn (length sd / 2) sd) = length sd - length sd / 2) by apply skipn_length.
        split; [intro X; rewrite X in L1; cbn [length] in L1; lia|]. split; [intro X; rewrite X in L2; cbn [length] in L2; lia|].
        rewrite <- Sp in N. split; [eapply NoDup_app_l; eauto|]. split; [eapply NoDup_app_r; eauto|].
        unfold valid_ids in V0. rewrite <- Sp in V0. apply Forall_app in V0. destruct V0 as [V1 V2]. split; [exact V1|]. split; [exact V2|]. split; [lia|]. split; [lia|].
        intros z H1 H2. clear - N H1 H2. induction (firstn (length sd / 2) sd) as [|h u IH]; [destruct H1|]. cbn [app] in N. apply NoDup_cons_iff in N. destruct N as [N1 N2].
        destruct H1 as [->|H1]; [apply N1; apply in_or_app; auto|auto]. }
    destruct HH as (a & b & s1 & kd & Eh & G1 & W1 & A1 & B1 & NA & NB & VA & VB & LA & LB & DJ). rewrite Eh. cbn [rbind].
    destruct (extendPopulation_spec mutate d c a (c_size c) s1 A1 VA) as (s2 & k2 & E2 & G2 & Hk2 & HF2). rewrite E2. cbn [rbind fst snd].
    destruct (extendPopulation_spec mutate d c b (c_size c) s2 B1 (valid_grown _ _ _ _ G2 VB)) as (s3 & k3 & E3 & G3 & Hk3 & HF3). rewrite E3. cbn [rbind fst snd].
    pose proof (grown_wf _ _ _ _ W1 VA G2 HF2) as W2. pose proof (grown_wf _ _ _ _ W2 (valid_grown _ _ _ _ G2 VB) G3 HF3) as W3.
    pose proof (start_grown _ _ _ (start_grown _ _ _ (start_grown _ _ _ F0 G1) G2) G3) as F3.
    eexists seeds, _. split; [reflexivity|]. split; [|split; [exact F3|]].
    + apply inv_start; auto; cbn [with_pops2 pop parasites].
      * eapply (okp_mem c s3); [reflexivity|]. eapply okp_grown; [exact G3|]. eapply okp_extended; eauto.
      * eapply (okp_mem c s3); [reflexivity|]. eapply okp_extended; eauto. eapply valid_grown; eauto.
    + split; [reflexivity|]. cbn [with_pops2 pop parasites]. assert (M2 : mem s2 = mem s1 ++ k2) by apply G2.
      unfold valid_ids in VA, VB. rewrite Forall_forall in VA, VB. intros x Hx Hy. apply in_app_or in Hx, Hy. destruct Hx as [Hx|Hx], Hy as [Hy|Hy].
      * apply (DJ x); auto.
      * apply in_seq in Hy. apply VA in Hx. rewrite M2, app_length in Hy. lia.
      * apply in_seq in Hx. apply VB in Hy. lia.
      * apply in_seq in Hx, Hy. rewrite M2, app_length in Hy. lia.
  - unfold initMulti. destruct (fillSeeds_spec (n - length seeds) seeds (blank ps) Hne N V0 W0) as (s1 & kids & E & G & Hkk & W1 & V1). rewrite E. cbn [rbind]. rewrite Lm in *.
    set (sd := seeds ++ seq (length ps) (n - length seeds)) in *.
    assert (Nsd : NoDup sd) by (apply seq_NoDup_app; auto; rewrite Forall_forall in V; exact V).
    assert (Lsd : length sd = Nat.max n (length seeds)) by (unfold sd; rewrite app_length, seq_length; lia).
    destruct (extendEach_spec n sd (seq 0 n) s1 W1 V1 Nsd) as (s2 & kids2 & ls & E2 & G2 & Hl & Ho & W2).
    { intros i Hi. apply in_seq in Hi. split; [apply stride_nonempty; lia|]. destruct (Nat.le_ge_cases (length seeds) n) as [H|H].
      - pose proof (stride_single i n sd). lia.
      - pose proof (stride_length i n sd). lia. }
    rewrite E2. cbn [rbind fst snd]. rewrite seq_length in Hl. destruct ls as [|p0 rest]; [cbn [length] in Hl; lia|].
    pose proof (start_grown _ _ _ (start_grown _ _ _ F0 G) G2) as F2. eexists sd, _. split; [reflexivity|]. split; [|split; [exact F2|reflexivity]].
    apply inv_start; auto; cbn [with_multi pop pops mainpop generation].
    + apply Forall_inv in Ho. exact Ho.
    + split; [exact Hk|]. split; [exact Hl|]. split; [exact Ho|]. destruct F2 as (_ & _ & _ & Fg & _). rewrite Fg, Nat.mod_0_l by lia. split; reflexivity.
Qed.

(** ** sessions *)
Fixpoint generations (g : nat) (k : kind) (s : st) : result st :=
  match g with O => Ok s | S g => let! s' := oneGeneration mutate average ev d c k s in generations g k s' end.
Lemma generations_ok g k L (s : st) : settings -> inv k L s -> exists s' L', generations g k s = Ok s' /\ inv k L' s' /\ generation s' = generation s + g /\ steps s <= steps s'.
Proof using.
  intros SE. revert L s. induction g as [|g IH]; intros L s I; cbn [generations].
  - exists s, L. split; [reflexivity|]. split; [exact I|]. lia.
  - destruct (generation_spec mutate average ev d c k L s SE I) as (s1 & fits & rs & L1 & np & E & I1 & (_ & _ & _ & Hst & _ & _ & _ & _ & Hg & _)). rewrite E. cbn [rbind].
    destruct (IH L1 s1 I1) as (s' & L' & E' & I' & Hg' & Hs'). exists s', L'. split; [exact E'|]. split; [exact I'|]. lia.
Qed.
Lemma generations_snoc g k s : generations (S g) k s = (let! s1 := generations g k s in oneGeneration mutate average ev d c k s1).
Proof using.
  revert s. induction g as [|g IH]; intro s.
  - cbn [generations rbind]. destruct (oneGeneration mutate average ev d c k s); reflexivity.
  - change (generations (S (S g)) k s) with (let! s' := oneGeneration mutate average ev d c k s in generations (S g) k s'). cbn [generations].
    destruct (oneGeneration mutate average ev d c k s) as [s1|e]; [|reflexivity]. cbn [rbind]. rewrite <- IH. reflexivity.
Qed.
Lemma loop_generations fuel k limit s s' : loop mutate average ev d c fuel k limit s = Ok s' ->
  exists g, generations g k s = Ok s' /\ stop c limit s' = true /\ (forall h sh, h < g -> generations h k s = Ok sh -> stop c limit sh = false).
Proof using.
  revert s. induction fuel as [|fuel IH]; intros s H; cbn [loop] in H; [discriminate|].
  destruct (stop c limit s) eqn:E.
  - injection H as <-. exists 0. split; [reflexivity|]. split; [exact E|]. intros; lia.
  - destruct (oneGeneration mutate average ev d c k s) as [s1|e] eqn:E1; [|discriminate]. cbn [rbind] in H. destruct (IH _ H) as (g & A & B & C).
    exists (S g). cbn [generations]. rewrite E1. cbn [rbind]. split; [exact A|]. split; [exact B|]. intros [|h] sh Hh Hs; cbn [generations] in Hs.
    + injection Hs as <-. exact E.
    + rewrite E1 in Hs. cbn [rbind] in Hs. apply (C h sh); auto. lia.
Qed.
Lemma loop_of_generations g fuel k limit s s' : g < fuel -> generations g k s = Ok s' -> stop c limit s' = true ->
  (forall h sh, h < g -> generations h k s = Ok sh -> stop c limit sh = false) -> loop mutate average ev d c fuel k limit s = Ok s'.
Proof using.
  revert fuel s. induction g as [|g IH]; intros [|fuel] s Hf E Hs Hn; try lia; cbn [loop generations] in *.
  - injection E as <-. rewrite Hs. reflexivity.
  - rewrite (Hn 0 s) by (lia || reflexivity). destruct (oneGeneration mutate average ev d c k s) as [s1|e] eqn:E1; [|discriminate]. cbn [rbind] in *.
    apply IH; auto; [lia|]. intros h sh Hh Hsh. apply (Hn (S h) sh); [lia|]. cbn [generations]. rewrite E1. exact Hsh.
Qed.
(** the budget *)
Lemma loop_budget fuel k limit L s s' : settings -> inv k L s -> (match k with Multi _ => False | _ => True end) ->
  loop mutate average ev d c fuel k limit s = Ok s' ->
  (forall m, limit = Some m -> steps s' <= Nat.max (steps s) m) /\ (forall m, c_maxEval c = Some m -> steps s' <= Nat.max (steps s) m)
  /\ (forall m, c_maxGen c = Some m -> generation s' <= Nat.max (generation s) m).
Proof using.
  intros SE. revert L s. induction fuel as [|fuel IH]; intros L s I Hk H; cbn [loop] in H; [discriminate|].
  destruct (stop c limit s) eqn:Est.
  - injection H as <-. repeat split; intros; lia.
  - destruct (generation_spec mutate average ev d c k L s SE I) as (s1 & fits & rs & L1 & np & E & I1 & (_ & _ & _ & Hst & _ & Hc & _ & _ & Hg & _)). rewrite E in H. cbn [rbind] in H.
    destruct (IH L1 s1 I1 Hk H) as (A & B & C). unfold stop in Est. apply Bool.orb_false_iff in Est. destruct Est as [Est E3]. apply Bool.orb_false_iff in Est. destruct Est as [E1 E2].
    assert (Hcnt : length rs <= c_size c * tournamentSize c) by (destruct k; [exact Hc|exact Hc|destruct Hk]).
    unfold stepsPerGeneration in *. split; [|split]; intros m Hm.
    + specialize (A m Hm). rewrite Hm in E1. cbn [beyond] in E1. apply Nat.ltb_ge in E1. nia.
    + specialize (B m Hm). rewrite Hm in E2. cbn [beyond] in E2. apply Nat.ltb_ge in E2. nia.
    + specialize (C m Hm). rewrite Hm in E3. apply Nat.leb_gt in E3. lia.
Qed.
(** termination by generations *)
Lemma loop_maxGen k L s m limit : settings -> inv k L s -> c_maxGen c = Some m ->
  exists s', loop mutate average ev d c (S (m - generation s)) k limit s = Ok s'.
Proof using.
  intros SE I Hm. remember (m - generation s) as n eqn:En. revert L s I En. induction n as [|n IH]; intros L s I En; cbn [loop].
  - replace (stop c limit s) with true; [eauto|]. unfold stop. rewrite Hm. symmetry. apply Bool.orb_true_iff. right. apply Nat.leb_le. lia.
  - destruct (stop c limit s); [eauto|].
    destruct (generation_spec mutate average ev d c k L s SE I) as (s1 & fits & rs & L1 & np & E & I1 & (_ & _ & _ & Hst & _ & Hc & _ & _ & Hg & _)). rewrite E. cbn [rbind].
    destruct (IH L1 s1 I1) as (s' & E'); [lia|]. cbn [loop] in E'. eauto.
Qed.
End S.
