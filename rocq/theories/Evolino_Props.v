(** Property C51: the populations of Evolino. *)
From Verif Require Import Base Dict StableSort Evolino_Model.
From Coq Require Import QArith Lqa.
Local Open Scope nat_scope.

Section Props.
Context {G : Type}.
Notation pop := (@pop G).
Definition ids (p : pop) : list nat := map fst (members p).
(** the set of individuals and the keys of the fitness dictionary agree *)
Definition wf (p : pop) : Prop := NoDup (ids p) /\ NoDup (dkeys (fitness p)) /\ forall k, In k (ids p) <-> In k (dkeys (fitness p)).

(** ** Combinations *)
Inductive taken : list (list nat) -> list nat -> list (list nat) -> Prop :=
| tk_nil : taken [] [] []
| tk_cons l x l' t xs t' : Permutation l (x :: l') -> taken t xs t' -> taken (l :: t) (x :: xs) (l' :: t').
Lemma pop_perm (l : list nat) i : i < length l -> Permutation l (nth i l 0 :: firstn i l ++ skipn (S i) l).
Proof.
  intros H. rewrite <- (firstn_skipn i l) at 1. assert (E : skipn i l = nth i l 0 :: skipn (S i) l).
  { clear - H. revert i H. induction l as [| x l IH]; intros i H; [cbn in H; lia |]. destruct i; [reflexivity |]. cbn [skipn nth]. cbn in H. rewrite IH by lia. reflexivity. }
  rewrite E. symmetry. apply Permutation_middle.
Qed.
Lemma take_one_spec draw : forall ls c, Forall (fun l => l <> []) ls -> exists xs ls', take_one draw c ls = Ok (xs, ls', c + length ls) /\ taken ls xs ls'.
Proof.
  induction ls as [| l ls IH]; intros c H; cbn [take_one]; [exists [], []; rewrite Nat.add_0_r; split; [auto | constructor] |].
  inversion H as [| ? ? Hl Hls]; subst. destruct l as [| a l0]; [congruence |]. destruct (IH (S c) Hls) as (xs & ls' & E1 & T). rewrite E1. cbn [rbind].
  set (l := a :: l0). assert (E : l = a :: l0) by auto. clearbody l. set (i := draw c mod length l). eexists; eexists. split; [cbn [length]; replace (c + S (length ls)) with (S c + length ls) by lia; reflexivity |]. constructor; [| auto]. apply pop_perm. apply Nat.mod_upper_bound. rewrite E. discriminate.
Qed.
Lemma taken_lengths ls xs ls' : taken ls xs ls' -> length xs = length ls /\ length ls' = length ls.
Proof. induction 1 as [| l x l' t xs t' HP _ [IH1 IH2]]; cbn; auto. Qed.
Lemma taken_nth ls xs ls' : taken ls xs ls' -> forall i, i < length ls -> Permutation (nth i ls []) (nth i xs 0 :: nth i ls' []).
Proof. induction 1 as [| l x l' t xs t' HP _ IH]; intros i Hi; cbn in Hi; [lia |]. destruct i; cbn [nth]; [auto | apply IH; lia]. Qed.
Lemma taken_size n ls xs ls' : taken ls xs ls' -> Forall (fun l => length l = S n) ls -> Forall (fun l => length l = n) ls'.
Proof. induction 1 as [| l x l' t xs t' HP _ IH]; intros F; [constructor |]. inversion F; subst. constructor; [| auto]. apply Permutation_length in HP. cbn in HP. lia. Qed.
Lemma assemble_spec draw : forall n ls c, Forall (fun l => length l = n) ls -> exists inds c', assemble draw c n ls = Ok (inds, c') /\ length inds = n /\
  Forall (fun ind => length ind = length ls) inds /\ forall i, i < length ls -> Permutation (map (fun ind => nth i ind 0) inds) (nth i ls []).
Proof.
  induction n as [| n IH]; intros ls c H; cbn [assemble].
  - exists [], c. split; [auto |]. split; [auto |]. split; [constructor |]. intros i Hi. rewrite Forall_forall in H. pose proof (H (nth i ls []) (nth_In _ _ Hi)). destruct (nth i ls []); [constructor | discriminate].
  - destruct (take_one_spec draw ls c) as (xs & ls' & E & T). { eapply Forall_impl; [| exact H]. intros l Hl ->. discriminate. }
    rewrite E. cbn [rbind]. destruct (IH ls' (c + length ls) (taken_size n _ _ _ T H)) as (inds & c' & E2 & L & F & P). rewrite E2. cbn [rbind fst snd].
    destruct (taken_lengths _ _ _ T) as [T1 T2]. exists (xs :: inds), c'. split; [auto |]. split; [cbn; auto |]. split; [constructor; [auto | rewrite <- T2; auto] |].
    intros i Hi. cbn [map]. rewrite (taken_nth _ _ _ T i Hi). constructor. apply P. lia.
Qed.
Lemma combinations_spec draw m : forall n sps c, sps <> [] -> Forall (fun l => length l = m) sps -> exists inds, combinations draw c n sps = Ok inds /\ length inds = n * m /\
  Forall (fun ind => length ind = length sps) inds /\ forall i, i < length sps -> Permutation (map (fun ind => nth i ind 0) inds) (concat (repeat (nth i sps []) n)).
Proof.
  induction n as [| n IH]; intros sps c Hn H; cbn [combinations].
  - exists []. split; [auto |]. split; [auto |]. split; [constructor |]. intros. constructor.
  - assert (HL : length (hd [] sps) = m) by (destruct sps; [congruence | now inversion H]). rewrite HL. destruct (assemble_spec draw m sps c H) as (inds & c' & E & L & F & P). rewrite E. cbn [rbind fst snd].
    destruct (IH sps c' Hn H) as (rest & E2 & L2 & F2 & P2). rewrite E2. cbn [rbind]. exists (inds ++ rest). split; [auto |]. split; [rewrite app_length; cbn; lia |]. split; [apply Forall_app; auto |].
    intros i Hi. rewrite map_app. cbn [repeat concat]. apply Permutation_app; auto.
Qed.
Lemma count_repeat (l : list nat) k n : NoDup l -> count_occ Nat.eq_dec (concat (repeat l n)) k = if in_dec Nat.eq_dec k l then n else 0.
Proof.
  intros ND. induction n as [| n IH]; cbn [repeat concat]; [destruct (in_dec Nat.eq_dec k l); auto |]. rewrite count_occ_app, IH. destruct (in_dec Nat.eq_dec k l) as [K | K].
  - rewrite (proj1 (NoDup_count_occ' Nat.eq_dec l) ND k K). auto.
  - rewrite (proj1 (count_occ_not_In Nat.eq_dec l k) K). auto.
Qed.
(** Every sub-individual is built into exactly nCombinations individuals, always in the place of its own subpopulation. *)
Theorem C51_combinations draw nComb (sps : list pop) m : sps <> [] -> Forall (fun p => NoDup (ids p) /\ length (ids p) = m) sps ->
  exists inds, getIndividuals draw nComb sps = Ok inds /\ length inds = nComb * m /\ Forall (fun ind => length ind = length sps) inds /\
  forall i p, nth_error sps i = Some p -> forall k, count_occ Nat.eq_dec (map (fun ind => nth i ind 0) inds) k = if in_dec Nat.eq_dec k (ids p) then nComb else 0.
Proof.
  intros Hn HF. unfold getIndividuals. destruct sps as [| p0 sps0] eqn:ES; [congruence |]. rewrite <- ES in *.
  destruct (combinations_spec draw m nComb (map (fun p => map fst (members p)) sps) 0) as (inds & E & L & F & P).
  { rewrite ES. discriminate. }
  { apply Forall_map. eapply Forall_impl; [| exact HF]. intros p [_ H]. exact H. }
  exists inds. rewrite map_length in F, P. split; [rewrite ES in E; rewrite ES; exact E |]. split; [auto |]. split; [auto |]. intros i p Hp k. assert (Hi : i < length sps) by (apply nth_error_Some; congruence).
  assert (EN : nth i (map (fun p => map fst (members p)) sps) [] = ids p). { apply nth_error_nth. rewrite nth_error_map, Hp. reflexivity. }
  pose proof (P i Hi) as PI. rewrite EN in PI. rewrite (proj1 (Permutation_count_occ Nat.eq_dec _ _) PI). apply count_repeat. rewrite Forall_forall in HF. apply (HF p). eapply nth_error_In; eauto.
Qed.
(** Subpopulations of different sizes: when one is smaller than the first the draw from it fails. *)
Lemma take_one_empty draw : forall ls c, Exists (fun l => l = []) ls -> take_one draw c ls = Err ValueError.
Proof.
  induction ls as [| l ls IH]; intros c H; [inversion H |]. cbn [take_one]. destruct l as [| a l]; [auto |]. inversion H as [? ? K | ? ? K]; subst; [discriminate |]. now rewrite IH.
Qed.
Lemma taken_exists n ls xs ls' : taken ls xs ls' -> Exists (fun l => length l < S n) ls -> Exists (fun l => length l < n) ls'.
Proof. induction 1 as [| l x l' t xs t' HP _ IH]; intros F; inversion F as [? ? K | ? ? K]; subst; [left | right; auto]. apply Permutation_length in HP. cbn in HP. lia. Qed.
Theorem C51_sizes_refuted draw nComb (sps : list pop) p0 t : 1 <= nComb -> sps = p0 :: t -> Exists (fun p => length (ids p) < length (ids p0)) t -> getIndividuals draw nComb sps = Err ValueError.
Proof.
  intros Hn -> HE. unfold getIndividuals. destruct nComb as [| n]; [lia |]. cbn [combinations]. change (length (hd [] (map (fun p => map fst (members p)) (p0 :: t)))) with (length (ids p0)).
  assert (A : forall n ls c, Exists (fun l => length l < n) ls -> assemble draw c n ls = Err ValueError).
  { clear. induction n as [| n IH]; intros ls c H; [apply Exists_exists in H as (l & _ & K); lia |]. cbn [assemble].
    destruct (Exists_dec (fun l : list nat => l = []) ls ltac:(intros [|]; [left; auto | right; discriminate])) as [K | K]; [now rewrite take_one_empty |].
    destruct (take_one_spec draw ls c) as (xs & ls' & E & T). { apply Forall_forall. intros l Hl ->. apply K. apply Exists_exists. eauto. }
    rewrite E. cbn [rbind]. rewrite IH; [auto |]. eapply taken_exists; eauto. }
  rewrite A; [auto |]. right. apply Exists_exists in HE as (p & Hp & K). apply Exists_exists. exists (ids p). split; [apply (in_map (fun p => map fst (members p)) t p Hp) | auto].
Qed.

(** ** Sorting and removing *)
Lemma nodup_app {A} (l1 l2 : list A) : NoDup (l1 ++ l2) -> NoDup l1 /\ NoDup l2.
Proof.
  induction l1 as [| a l1 IH]; cbn; intros H; [split; [constructor | auto] |]. inversion H as [| ? ? H1 H2]; subst. destruct (IH H2). split; [constructor; auto; intros K; apply H1, in_or_app; auto | auto].
Qed.
Lemma nodup_snoc (l : list nat) x : NoDup l -> ~ In x l -> NoDup (l ++ [x]).
Proof. intros H1 H2. eapply Permutation_NoDup; [apply Permutation_cons_append | constructor; auto]. Qed.
Lemma fle_total a b : fle a b = true \/ fle b a = true.
Proof. destruct a as [x |], b as [y |]; cbn; auto. destruct (Qlt_le_dec x y) as [K | K]; [left | right]; apply Qle_bool_iff; lra. Qed.
Lemma fle_trans a b c : fle a b = true -> fle b c = true -> fle a c = true.
Proof. destruct a, b, c; cbn; auto; try discriminate. rewrite !Qle_bool_iff. lra. Qed.
Lemma sorted_perm (p : pop) : Permutation (getSortedIndividualList p) (dkeys (fitness p)).
Proof. apply isort_perm. Qed.
Lemma sorted_sorted (p : pop) : StronglySorted (fun a b => fle (fit p b) (fit p a) = true) (getSortedIndividualList p).
Proof. apply (isort_sorted (fun a b => fle (fit p b) (fit p a))); [intros; apply fle_total | intros x y z A B; eapply fle_trans; eauto]. Qed.
Lemma sorted_split {A} (R : A -> A -> Prop) l1 l2 : StronglySorted R (l1 ++ l2) -> forall x y, In x l1 -> In y l2 -> R x y.
Proof.
  induction l1 as [| a l1 IH]; intros H x y Hx Hy; [destruct Hx |]. cbn in H. inversion H as [| ? ? H1 H2]; subst. destruct Hx as [-> | Hx]; [rewrite Forall_forall in H2; apply H2, in_or_app; auto | eauto].
Qed.
Lemma wf_sizes p : wf p -> length (dkeys (fitness p)) = getIndividualsN p.
Proof.
  intros (A & B & C). replace (getIndividualsN p) with (length (ids p)) by apply map_length. apply Nat.le_antisymm; apply NoDup_incl_length; auto; intros k; apply C.
Qed.
Lemma removeIndividuals_spec : forall ks p, wf p -> NoDup ks -> (forall k, In k ks -> In k (ids p)) ->
  exists p', removeIndividuals p ks = Ok p' /\ wf p' /\ members p' = filter (fun y => negb (existsb (Nat.eqb (fst y)) ks)) (members p) /\
  forall k, ~ In k ks -> dget k (fitness p') = dget k (fitness p).
Proof.
  induction ks as [| k ks IH]; intros p HW ND HI; cbn [removeIndividuals].
  - exists p. split; [auto |]. split; [auto |]. split; [| auto]. cbn. symmetry. clear. induction (members p) as [| x l IH]; cbn; [auto | now rewrite IH].
  - inversion ND as [| ? ? Hk ND']; subst. destruct HW as (A & B & C). unfold removeIndividual at 1. destruct (dget k (fitness p)) as [f |] eqn:Ef; [| exfalso; apply dget_none in Ef; apply Ef, C, HI; left; auto]. cbn [rbind].
    set (p1 := {| members := filter (fun y => negb (k =? fst y)) (members p); fitness := ddel k (fitness p) |}).
    assert (I1 : forall x, In x (ids p1) <-> In x (ids p) /\ x <> k).
    { intros x. unfold ids, p1. cbn [members]. rewrite !in_map_iff. split.
      - intros (y & E & Hy). apply filter_In in Hy as [Hy Hn]. split; [eauto |]. intros ->. rewrite <- E, Nat.eqb_refl in Hn. discriminate.
      - intros ((y & E & Hy) & Hn). exists y. split; [auto |]. apply filter_In. split; [auto |]. rewrite E. apply negb_true_iff, Nat.eqb_neq. auto. }
    assert (W1 : wf p1).
    { split; [| split].
      - unfold ids, p1. cbn [members]. clear - A. unfold ids in A. induction (members p) as [| x l IH]; cbn; [constructor |]. inversion A; subst. destruct (k =? fst x); cbn [negb map]; [auto |]. constructor; auto. intros K. apply H1. apply in_map_iff in K as (y & E & Hy). apply filter_In in Hy as [Hy _]. rewrite <- E. now apply in_map.
      - apply ddel_nodup; auto.
      - intros x. rewrite I1. unfold p1. cbn [fitness]. rewrite dkeys_ddel, filter_In, (C x), negb_true_iff, Nat.eqb_neq. intuition. }
    destruct (IH p1 W1 ND') as (p' & E & W' & M & F). { intros x Hx. apply I1. split; [apply HI; right; auto |]. intros ->. contradiction. }
    exists p'. split; [auto |]. split; [auto |]. split.
    + rewrite M. unfold p1. cbn [members]. clear. induction (members p) as [| x l IH]; cbn [filter]; [auto |]. cbn [existsb]. rewrite (Nat.eqb_sym (fst x) k). destruct (k =? fst x); cbn [negb orb filter]; [auto |]. destruct (existsb _ ks); cbn [negb]; now rewrite IH.
    + intros x Hx. rewrite F by (intros K; apply Hx; right; auto). unfold p1. cbn [fitness]. rewrite dget_ddel. destruct (Nat.eqb_spec x k) as [-> | _]; [exfalso; apply Hx; left; auto | auto].
Qed.
Lemma filter_count (p : pop) ks : NoDup (ids p) -> NoDup ks -> (forall k, In k ks -> In k (ids p)) ->
  length (filter (fun y => negb (existsb (Nat.eqb (fst y)) ks)) (members p)) + length ks = length (members p).
Proof.
  intros A ND HI. assert (E : Permutation ks (filter (fun k => existsb (Nat.eqb k) ks) (ids p))).
  { apply NoDup_Permutation; auto; [now apply NoDup_filter |]. intros x. rewrite filter_In, existsb_exists. split; [intros Hx; split; [auto | exists x; rewrite Nat.eqb_refl; auto] |]. intros (_ & y & Hy & K). apply Nat.eqb_eq in K. congruence. }
  apply Permutation_length in E. rewrite E. unfold ids. clear. induction (members p) as [| x l IH]; cbn [filter map length]; [auto |]. destruct (existsb _ ks); cbn [negb length]; lia.
Qed.

(** ** Selection *)
(** what removing the n worst does, for n between 1 and the size of the population *)
Definition keeps_best (p p' : pop) : Prop :=
  (forall y, In y (members p') -> In y (members p)) /\
  (forall k, In k (ids p') -> dget k (fitness p') = dget k (fitness p)) /\
  (forall k j, In k (ids p') -> In j (ids p) -> ~ In j (ids p') -> fle (fit p j) (fit p k) = true).
Lemma removeWorst_spec p n : wf p -> 1 <= n <= getIndividualsN p -> exists p', removeWorstIndividuals p n = Ok p' /\ wf p' /\ getIndividualsN p' = getIndividualsN p - n /\ keeps_best p p'.
Proof.
  intros HW Hn. unfold removeWorstIndividuals, getWorstIndividuals. destruct (Nat.eqb_spec n 0) as [-> | _]; [lia |]. set (s := getSortedIndividualList p). assert (PS := sorted_perm p). fold s in PS.
  assert (LS : length s = getIndividualsN p) by (rewrite <- (wf_sizes p HW); now apply Permutation_length). set (c := length s - n).
  assert (NDs : NoDup s) by (eapply Permutation_NoDup; [symmetry; exact PS | apply HW]). assert (NDk : NoDup (skipn c s)) by (rewrite <- (firstn_skipn c s) in NDs; now apply nodup_app in NDs).
  assert (IK : forall k, In k (skipn c s) -> In k (ids p)). { intros k Hk. apply HW. eapply Permutation_in; [exact PS |]. rewrite <- (firstn_skipn c s). apply in_or_app. auto. }
  destruct (removeIndividuals_spec (skipn c s) p HW NDk IK) as (p' & E & W' & M & F). exists p'. split; [auto |]. split; [auto |]. assert (FC := filter_count p (skipn c s) (proj1 HW) NDk IK). rewrite <- M in FC.
  split; [unfold getIndividualsN, sub in *; rewrite skipn_length in FC; unfold c in *; lia |].
  assert (IDS : forall k, In k (ids p') <-> In k (ids p) /\ ~ In k (skipn c s)).
  { intros k. unfold ids. rewrite M, !in_map_iff. split.
    - intros (y & <- & Hy). apply filter_In in Hy as [Hy K]. split; [eauto |]. intros Hin. apply negb_true_iff in K. apply Bool.not_true_iff_false in K. apply K. apply existsb_exists. exists (fst y). split; [auto | apply Nat.eqb_refl].
    - intros ((y & <- & Hy) & K). exists y. split; [auto |]. apply filter_In. split; [auto |]. apply negb_true_iff. apply Bool.not_true_iff_false. intros K'. apply existsb_exists in K' as (x & Hx & E'). apply Nat.eqb_eq in E'. rewrite E' in K. contradiction. }
  split; [| split].
  - intros y Hy. rewrite M in Hy. apply filter_In in Hy. tauto.
  - intros k Hk. apply F. apply IDS in Hk. tauto.
  - intros k j Hk Hj Hn'. apply IDS in Hk as [Hk1 Hk2]. assert (Hj2 : In j (skipn c s)). { destruct (in_dec Nat.eq_dec j (skipn c s)); [auto |]. exfalso. apply Hn'. apply IDS. auto. }
    pose proof (sorted_sorted p) as SS. fold s in SS. rewrite <- (firstn_skipn c s) in SS. apply (sorted_split _ _ _ SS); [| auto].
    assert (In k s) by (eapply Permutation_in; [symmetry; exact PS | apply HW; auto]). rewrite <- (firstn_skipn c s) in H. apply in_app_or in H as [H | H]; [auto | contradiction].
Qed.
Theorem C51_selection nParents p : wf p -> let n := getIndividualsN p in let keep := match nParents with None => n / 4 | Some k => k end in
  (n < keep -> subSelection nParents p = Err AssertionError) /\
  (keep < n -> exists p', subSelection nParents p = Ok p' /\ wf p' /\ getIndividualsN p' = keep /\ keeps_best p p').
Proof.
  intros HW n keep. unfold subSelection. fold n. fold keep. split; intros H.
  - now rewrite (proj2 (Nat.ltb_lt n keep) H).
  - destruct (Nat.ltb_spec n keep); [lia |]. destruct (removeWorst_spec p (n - keep) HW ltac:(unfold n in *; lia)) as (p' & E & W & L & K). exists p'. repeat (split; auto). unfold n in *. lia.
Qed.
(** Asking for all individuals to be kept deletes every one of them: [-0:] is the whole list. *)
Lemma removeWorst_zero p : wf p -> exists p', removeWorstIndividuals p 0 = Ok p' /\ members p' = [] /\ wf p'.
Proof.
  intros HW. unfold removeWorstIndividuals, getWorstIndividuals. cbn [Nat.eqb]. set (s := getSortedIndividualList p). assert (PS := sorted_perm p). fold s in PS.
  assert (NDs : NoDup s) by (eapply Permutation_NoDup; [symmetry; exact PS | apply HW]). assert (IK : forall k, In k s -> In k (ids p)) by (intros k Hk; apply HW; eapply Permutation_in; eauto).
  destruct (removeIndividuals_spec s p HW NDs IK) as (p' & E & W' & M & F). exists p'. split; [auto |]. split; [| auto]. pose proof (filter_count p s (proj1 HW) NDs IK) as FC. rewrite <- M in FC.
  assert (length s = length (members p)) by (rewrite (Permutation_length PS); apply (wf_sizes p HW)). destruct (members p'); [auto | cbn in FC; lia].
Qed.
Theorem C51_selection_all_refuted p : wf p -> exists p', subSelection (Some (getIndividualsN p)) p = Ok p' /\ members p' = [].
Proof.
  intros HW. unfold subSelection. rewrite Nat.ltb_irrefl, Nat.sub_diag. destruct (removeWorst_zero p HW) as (p' & E & M & _). eauto.
Qed.

(** ** Reproduction *)
Lemma one_round_spec free : forall best children, length children < free ->
  one_round free best children = children ++ firstn (free - length children) best.
Proof.
  induction best as [| b best IH]; intros ch H; cbn [one_round]; [rewrite firstn_nil, app_nil_r; auto |]. rewrite app_length. cbn [length].
  destruct (Nat.leb_spec free (length ch + 1)) as [L | L].
  - replace (free - length ch) with 1 by lia. reflexivity.
  - rewrite IH by (rewrite app_length; cbn; lia). rewrite <- app_assoc. cbn [app]. f_equal. rewrite app_length. cbn [length]. replace (free - length ch) with (S (free - (length ch + 1))) by lia. reflexivity.
Qed.
(** the parents: the fittest over and over again *)
Definition cycle (best : list nat) (n : nat) : list nat := map (fun j => nth (j mod length best) best 0) (seq 0 n).
Lemma cycle_full best : forall k m, m <= length best -> best <> [] -> cycle best (k * length best + m) = concat (repeat best k) ++ firstn m best.
Proof.
  intros k m Hm Hb. assert (HL : length best <> 0) by (destruct best; [congruence | cbn; lia]). assert (B : forall n, n <= length best -> map (fun j => nth (j mod length best) best 0) (seq 0 n) = firstn n best).
  { intros n Hn. transitivity (map (fun j => nth j best 0) (seq 0 n)).
    - apply map_ext_in. intros j Hj. apply in_seq in Hj. rewrite Nat.mod_small by lia. auto.
    - clear - Hn. revert n Hn. induction best as [| b best IH]; intros n Hn; cbn in Hn; [assert (n = 0) by lia; subst; auto |]. destruct n as [| n]; [auto |]. cbn [seq map nth firstn]. f_equal. rewrite <- seq_shift, map_map. apply IH. lia. }
  unfold cycle. induction k as [| k IH]; cbn [Nat.mul Nat.add repeat concat]; [cbn [app]; auto |].
  rewrite <- Nat.add_assoc, seq_app, map_app, B by lia. rewrite firstn_all. rewrite <- app_assoc. f_equal. rewrite <- IH. cbn [Nat.add].
  assert (SH : forall a b n, seq (a + b) n = map (fun j => a + j) (seq b n)). { clear. intros a b n. revert b. induction n as [| n IHn]; intros b; cbn; [auto |]. f_equal. rewrite <- IHn. f_equal. lia. }
  pose proof (SH (length best) 0 (k * length best + m)) as E. rewrite Nat.add_0_r in E. rewrite E, map_map. apply map_ext. intros j.
  replace (length best + j) with (j + 1 * length best) by lia. now rewrite Nat.mod_add.
Qed.
Lemma breed_spec best free : best <> [] -> length best <= free -> forall fuel k, k * length best <= free -> free <= fuel + k * length best ->
  breed fuel free best (concat (repeat best k)) = Ok (cycle best free).
Proof.
  intros Hb HL. assert (HP : 0 < length best) by (destruct best; [congruence | cbn; lia]). assert (LC : forall k, length (concat (repeat best k)) = k * length best).
  { clear. induction k as [| k IH]; cbn [repeat concat]; [auto |]. rewrite app_length, IH. cbn. auto. }
  induction fuel as [| fuel IH]; intros k Hk HF; cbn [breed].
  - assert (free = k * length best) by lia. rewrite LC, (proj2 (Nat.leb_le free (k * length best))) by lia. pose proof (cycle_full best k 0 ltac:(lia) Hb) as E. cbn [firstn] in E. rewrite Nat.add_0_r, app_nil_r in E. rewrite H, E. auto.
  - rewrite LC. destruct (Nat.leb_spec free (k * length best)) as [L | L].
    + assert (free = k * length best) by lia. pose proof (cycle_full best k 0 ltac:(lia) Hb) as E. cbn [firstn] in E. rewrite Nat.add_0_r, app_nil_r in E. rewrite H, E. auto.
    + rewrite one_round_spec by (rewrite LC; auto). rewrite LC. destruct (Nat.le_gt_cases (length best) (free - k * length best)) as [Q | Q].
      * rewrite firstn_all2 by lia. assert (E : concat (repeat best k) ++ best = concat (repeat best (S k))). { clear. induction k as [| k IH]; cbn [repeat concat]; [rewrite app_nil_r; auto |]. rewrite <- app_assoc, IH. reflexivity. }
        rewrite E. apply IH; cbn [Nat.mul]; lia.
      * rewrite <- cycle_full by (auto; lia). replace (k * length best + (free - k * length best)) with free by lia. destruct fuel; cbn [breed]; (rewrite (proj2 (Nat.leb_le free (length (cycle best free)))); [auto |]); unfold cycle; rewrite map_length, seq_length; auto.
Qed.
Lemma breed_stuck free : 0 < free -> forall fuel, breed fuel free [] [] = Err OutOfFuel.
Proof. intros H. induction fuel as [| k IH]; cbn [breed length]; destruct (Nat.leb_spec free 0); try lia; auto. Qed.
Lemma addIndividuals_spec : forall l p, wf p -> NoDup (map fst l) -> (forall k, In k (map fst l) -> ~ In k (ids p)) ->
  let p' := addIndividuals p l in wf p' /\ members p' = members p ++ l /\ (forall k, dget k (fitness p') = if in_dec Nat.eq_dec k (map fst l) then Some None else dget k (fitness p)).
Proof.
  induction l as [| x l IH]; intros p HW ND HN; cbn zeta; cbn [addIndividuals fold_left].
  - split; [auto |]. split; [now rewrite app_nil_r | auto].
  - cbn [map] in ND. inversion ND as [| ? ? Hx ND']; subst. set (p1 := addIndividual p x). assert (NI : ~ In (fst x) (ids p)) by (apply HN; left; auto).
    assert (EX : existsb (fun y => fst y =? fst x) (members p) = false). { apply Bool.not_true_iff_false. intros K. apply existsb_exists in K as (y & Hy & E). apply Nat.eqb_eq in E. apply NI. rewrite <- E. now apply in_map. }
    assert (M1 : members p1 = members p ++ [x]) by (unfold p1, addIndividual; cbn [members]; now rewrite EX).
    assert (I1 : ids p1 = ids p ++ [fst x]) by (unfold ids; rewrite M1, map_app; auto).
    assert (K1 : dkeys (fitness p1) = dkeys (fitness p) ++ [fst x]). { unfold p1, addIndividual. cbn [fitness]. apply dkeys_dset_new. intros K. apply NI. now apply HW. }
    assert (W1 : wf p1). { destruct HW as (A & B & C). split; [| split].
      - rewrite I1. apply nodup_snoc; auto.
      - rewrite K1. apply nodup_snoc; auto. intros K. apply NI. now apply C.
      - intros k. rewrite I1, K1, !in_app_iff, (C k). tauto. }
    destruct (IH p1 W1 ND') as (A & B & C). { intros k Hk K. rewrite I1 in K. apply in_app_or in K as [K | [K | []]]; [apply (HN k); auto; right; auto | subst k; contradiction]. }
    cbn zeta in *. fold (addIndividuals p1 l). split; [auto |]. split; [rewrite B, M1, <- app_assoc; auto |]. intros k. rewrite C. unfold p1, addIndividual. cbn [fitness]. rewrite dget_dset.
    cbn [map]. destruct (in_dec Nat.eq_dec k (map fst l)) as [K | K]; destruct (in_dec Nat.eq_dec k (fst x :: map fst l)) as [K' | K']; auto; [exfalso; apply K'; right; auto | |].
    + destruct K' as [K' | K']; [| contradiction]. rewrite K', Nat.eqb_refl. auto.
    + destruct (Nat.eqb_spec k (fst x)) as [-> | _]; [exfalso; apply K'; left; auto | auto].
Qed.
Lemma Forall2_at {A B} (R : A -> B -> Prop) l l' : Forall2 R l l' -> forall j a b, nth_error l j = Some a -> nth_error l' j = Some b -> R a b.
Proof. induction 1 as [| x y l l' H _ IH]; intros j a b Ha Hb; destruct j; cbn in Ha, Hb; try discriminate; [congruence | eauto]. Qed.
Lemma nth_error_comb {A B} : forall (l : list A) (l' : list B) j a b, nth_error l j = Some a -> nth_error l' j = Some b -> nth_error (combine l l') j = Some (a, b).
Proof. induction l as [| x l IH]; intros [| y l'] [| j] a b Ha Hb; cbn in *; try discriminate; [congruence | auto]. Qed.
Lemma Forall2_len {A B} (R : A -> B -> Prop) l l' : Forall2 R l l' -> length l = length l'.
Proof. induction 1; cbn; auto. Qed.
Lemma nth_error_ext {A} : forall (l l' : list A), (forall j, nth_error l j = nth_error l' j) -> l = l'.
Proof.
  induction l as [| x l IH]; intros [| y l'] H; [auto | specialize (H 0); discriminate | specialize (H 0); discriminate |].
  f_equal; [specialize (H 0); cbn in H; congruence | apply IH; intros j; apply (H (S j))].
Qed.
Lemma genome_of_In p k : wf p -> In k (ids p) -> exists g, genome_of p k = Some g /\ In (k, g) (members p).
Proof.
  intros _ H. unfold genome_of. apply in_map_iff in H as ([k' g] & E & Hy). cbn in E. subst k'. destruct (find (fun y => fst y =? k) (members p)) as [[k' g'] |] eqn:F.
  - apply find_some in F as [F1 F2]. cbn in F2. apply Nat.eqb_eq in F2. subst k'. exists g'. auto.
  - exfalso. pose proof (find_none _ _ F _ Hy) as K. cbn in K. now rewrite Nat.eqb_refl in K.
Qed.
Lemma children_spec p mutate : wf p -> forall parents next, (forall k, In k parents -> In k (ids p)) ->
  Forall2 (fun j x => let '(i, b) := j in exists g, fst x = next + i /\ In (b, g) (members p) /\ snd x = mutate (next + i) g) (combine (seq 0 (length parents)) parents) (children_of p mutate next parents).
Proof.
  intros HW. induction parents as [| b parents IH]; intros next H; cbn [children_of length seq combine]; [constructor |].
  destruct (genome_of_In p b HW ltac:(apply H; left; auto)) as (g & E & HI). rewrite E. constructor.
  - exists g. rewrite Nat.add_0_r. auto.
  - rewrite <- seq_shift. assert (IHn := IH (S next) ltac:(intros; apply H; right; auto)). clear - IHn. revert IHn. generalize (seq 0 (length parents)). generalize (children_of p mutate (S next) parents). intros ch sq. revert ch parents. induction sq as [| i sq IH]; intros ch parents HF; [inversion HF; cbn; constructor |].
    destruct parents as [| b' ps]; [cbn in *; inversion HF; constructor |]. cbn [combine map] in *. inversion HF as [| ? ? ? ? H1 H2]; subst. constructor; [| now apply IH]. destruct H1 as (g & A & B & C). exists g. replace (next + S i) with (S next + i) by lia. auto.
Qed.
(** Reproduction: the population is refilled to its size, everything that was there stays with its genome and fitness, child j is a mutated
    copy of parent (j mod number of parents), where the parents are the fittest. *)
Theorem C51_reproduction fuel max_n next mutate p : wf p -> 0 < getIndividualsN p <= max_n -> (forall k, In k (ids p) -> k < next) -> max_n <= fuel ->
  exists p' children best, subReproduction fuel max_n next mutate p = Ok p' /\ wf p' /\ getIndividualsN p' = max_n /\
  members p' = members p ++ children /\ (forall k, In k (ids p) -> dget k (fitness p') = dget k (fitness p)) /\ (forall x, In x children -> dget (fst x) (fitness p') = Some None) /\
  length best = Nat.min (max_n - getIndividualsN p) (getIndividualsN p) /\ incl best (ids p) /\ NoDup best /\
  (forall k j, In k best -> In j (ids p) -> ~ In j best -> fle (fit p j) (fit p k) = true) /\
  (forall j x, nth_error children j = Some x -> exists g, fst x = next + j /\ In (nth (j mod length best) best 0, g) (members p) /\ snd x = mutate (next + j) g).
Proof.
  intros HW Hn Hnext Hfuel. unfold subReproduction. set (free := max_n - getIndividualsN p). unfold getBestIndividualsSorted. set (s := getSortedIndividualList p). set (best := firstn free s).
  assert (PS := sorted_perm p). fold s in PS. assert (LS : length s = getIndividualsN p) by (rewrite <- (wf_sizes p HW); now apply Permutation_length).
  assert (LB : length best = Nat.min free (getIndividualsN p)) by (unfold best; rewrite firstn_length; lia).
  assert (IB : incl best (ids p)). { intros k Hk. apply HW. eapply Permutation_in; [exact PS |]. rewrite <- (firstn_skipn free s). apply in_or_app. auto. }
  assert (NDs : NoDup s) by (eapply Permutation_NoDup; [symmetry; exact PS | apply HW]). assert (NDb : NoDup best) by (rewrite <- (firstn_skipn free s) in NDs; now apply nodup_app in NDs).
  assert (BS : forall k j, In k best -> In j (ids p) -> ~ In j best -> fle (fit p j) (fit p k) = true).
  { intros k j Hk Hj Hj'. pose proof (sorted_sorted p) as SS. fold s in SS. rewrite <- (firstn_skipn free s) in SS. apply (sorted_split _ _ _ SS); [auto |].
    assert (In j s) by (eapply Permutation_in; [symmetry; exact PS | apply HW; auto]). rewrite <- (firstn_skipn free s) in H. apply in_app_or in H as [H | H]; [contradiction | auto]. }
  assert (EB : breed fuel free best [] = Ok (cycle best free)).
  { destruct (Nat.eq_dec free 0) as [Z | NZ].
    - rewrite Z. destruct fuel; cbn [breed length Nat.leb]; reflexivity.
    - assert (Hb : best <> []) by (intros K; rewrite K in LB; cbn in LB; lia). change (@nil nat) with (concat (repeat best 0)). apply breed_spec; auto; [lia | lia |]. unfold free. lia. }
  rewrite EB. cbn [rbind]. set (ch := children_of p mutate next (cycle best free)).
  assert (CIN : forall k, In k (cycle best free) -> In k (ids p)).
  { intros k Hk. unfold cycle in Hk. apply in_map_iff in Hk as (j & <- & Hj). apply in_seq in Hj. apply IB. apply nth_In. apply Nat.mod_upper_bound. lia. }
  pose proof (children_spec p mutate HW (cycle best free) next CIN) as CS. fold ch in CS. assert (LCy : length (cycle best free) = free) by (unfold cycle; now rewrite map_length, seq_length). rewrite LCy in CS.
  assert (LCh : length ch = free). { apply Forall2_len in CS. rewrite combine_length, seq_length, LCy, Nat.min_id in CS. symmetry. exact CS. }
  assert (CN : forall j x, nth_error ch j = Some x -> exists g, fst x = next + j /\ In (nth (j mod length best) best 0, g) (members p) /\ snd x = mutate (next + j) g).
  { intros j x Hx. assert (Hj : j < free) by (rewrite <- LCh; apply nth_error_Some; congruence). assert (HC : nth_error (combine (seq 0 free) (cycle best free)) j = Some (j, nth (j mod length best) best 0)).
    { assert (HA : nth_error (seq 0 free) j = Some j) by (rewrite nth_error_nth' with (d := 0) by (rewrite seq_length; auto); rewrite seq_nth by auto; auto).
      assert (HB : nth_error (cycle best free) j = Some (nth (j mod length best) best 0)) by (unfold cycle; rewrite nth_error_map, HA; auto).
      now apply nth_error_comb. }
    pose proof (Forall2_at _ _ _ CS j _ _ HC Hx) as K. exact K. }
  assert (FI : map fst ch = seq next free).
  { apply nth_error_ext. intros j. rewrite nth_error_map. destruct (nth_error ch j) as [x |] eqn:Ex; cbn [option_map].
    - destruct (CN j x Ex) as (g & E & _). assert (j < free) by (rewrite <- LCh; apply nth_error_Some; congruence). transitivity (Some (next + j)); [etransitivity; [exact (f_equal (option_map fst) Ex) |]; cbn [option_map]; f_equal; exact E |]. symmetry. rewrite nth_error_nth' with (d := 0) by (rewrite seq_length; auto). rewrite seq_nth by auto. auto.
    - etransitivity; [exact (f_equal (option_map fst) Ex) |]; cbn [option_map]. apply nth_error_None in Ex. symmetry. apply nth_error_None. rewrite seq_length. lia. }
  destruct (addIndividuals_spec ch p HW) as (W' & M' & F').
  { rewrite FI. apply seq_NoDup. }
  { intros k Hk K. rewrite FI in Hk. apply in_seq in Hk. pose proof (Hnext k K). lia. }
  assert (N' : getIndividualsN (addIndividuals p ch) = max_n). { unfold getIndividualsN in *. transitivity (length (members p ++ ch)); [now rewrite M' |]. rewrite app_length. etransitivity; [apply f_equal; exact LCh |]. unfold free. lia. }
  exists (addIndividuals p ch), ch, best. split; [rewrite N', Nat.eqb_refl; auto |]. split; [auto |]. split; [auto |]. split; [auto |]. split.
  { intros k Hk. rewrite F'. destruct (in_dec Nat.eq_dec k (map fst ch)) as [K | K]; [| auto]. rewrite FI in K. apply in_seq in K. pose proof (Hnext k Hk). lia. }
  split. { intros x Hx. rewrite F'. destruct (in_dec Nat.eq_dec (fst x) (map fst ch)) as [K | K]; [auto |]. exfalso. apply K. now apply in_map. }
  auto 10.
Qed.
(** An empty population with a positive size never finishes reproducing; so it is after selection with the default parameter from
    fewer than four individuals. *)
Theorem C51_reproduction_empty_refuted max_n next mutate p : members p = [] -> wf p -> 0 < max_n -> forall fuel, subReproduction fuel max_n next mutate p = Err OutOfFuel.
Proof.
  intros HM HW H fuel. assert (HN : getIndividualsN p = 0) by (unfold getIndividualsN; now rewrite HM). unfold subReproduction. rewrite HN, Nat.sub_0_r. unfold getBestIndividualsSorted.
  assert (E : getSortedIndividualList p = []). { pose proof (Permutation_length (sorted_perm p)) as L. rewrite (wf_sizes p HW), HN in L. destruct (getSortedIndividualList p); [auto | discriminate]. }
  rewrite E, firstn_nil, breed_stuck by auto. auto.
Qed.
Theorem C51_small_population_refuted max_n next mutate p : wf p -> 0 < getIndividualsN p < 4 -> 0 < max_n -> forall fuel,
  (let! p' := subSelection None p in subReproduction fuel max_n next mutate p') = Err OutOfFuel.
Proof.
  intros HW Hn Hm fuel. assert (Z : getIndividualsN p / 4 = 0) by (apply Nat.div_small; lia). destruct (C51_selection None p HW) as [_ H]. cbn zeta in H. rewrite Z in H. destruct (H ltac:(lia)) as (p' & E & W & L & _). rewrite E. cbn [rbind].
  apply C51_reproduction_empty_refuted; auto. unfold getIndividualsN in L. now apply length_zero_iff_nil.
Qed.
(** Burst mutation: from two individuals on the best one survives and the rest are its mutated copies. *)
Theorem C51_burst fuel max_n next mutate p : wf p -> 2 <= getIndividualsN p -> 1 <= max_n -> (forall k, In k (ids p) -> k < next) -> max_n <= fuel ->
  exists p' top g children, burst fuel max_n next mutate p = Ok p' /\ wf p' /\ members p' = (top, g) :: children /\ length children = max_n - 1 /\ In (top, g) (members p) /\
  dget top (fitness p') = dget top (fitness p) /\ (forall j, In j (ids p) -> fle (fit p j) (fit p top) = true) /\
  (forall j x, nth_error children j = Some x -> fst x = next + j /\ snd x = mutate (next + j) g /\ dget (fst x) (fitness p') = Some None).
Proof.
  intros HW Hn Hm Hnext Hfuel. unfold burst. destruct (removeWorst_spec p (getIndividualsN p - 1) HW ltac:(lia)) as (p1 & E & W1 & L1 & (K1 & K2 & K3)).
  assert (EB : match getIndividualsN p with 0 => Ok p | S k => removeWorstIndividuals p k end = Ok p1) by (destruct (getIndividualsN p) as [| k]; [lia |]; rewrite <- E; f_equal; lia). rewrite EB. cbn [rbind]. clear EB.
  assert (L : getIndividualsN p1 = 1) by lia. clear L1. destruct (C51_reproduction fuel max_n next mutate p1 W1 ltac:(lia)) as (p' & ch & best & E' & W' & N' & M' & F' & C' & LB & IB & _ & _ & CH); [| auto |].
  { intros k Hk. apply Hnext. apply in_map_iff in Hk as (y & <- & Hy). apply in_map. auto. }
  assert (EM : exists x, members p1 = [x]) by (unfold getIndividualsN in L; destruct (members p1) as [| x [| ? ?]]; cbn in L; try discriminate; eauto). destruct EM as [[top g] EM]. rewrite EM in M', CH, K1.
  assert (IT : ids p1 = [top]) by (unfold ids; now rewrite EM). exists p', top, g, ch. split; [auto |]. split; [auto |]. split; [auto |].
  assert (LCH : length ch = max_n - 1) by (unfold getIndividualsN in N'; rewrite M' in N'; cbn [app] in N'; cbn in N'; rewrite <- N'; cbn; symmetry; apply Nat.sub_0_r). split; [auto |]. split; [apply K1; left; auto |].
  split. { rewrite F' by (rewrite IT; left; auto). apply K2. rewrite IT. left; auto. }
  split. { intros j Hj. destruct (Nat.eq_dec j top) as [-> | NE]; [destruct (fle_total (fit p top) (fit p top)); auto |]. apply K3; auto; [rewrite IT; left; auto | rewrite IT; intros [Q | []]; auto]. }
  intros j x Hx. destruct (CH j x Hx) as (g' & A & B & C). assert (In x ch) by (eapply nth_error_In; eauto). destruct B as [B | []]. injection B as B1 B2. subst g'. auto.
Qed.
(** ... but the only individual of a subpopulation is deleted, and the refilling never ends. *)
Theorem C51_burst_single_refuted max_n next mutate p : wf p -> getIndividualsN p = 1 -> 0 < max_n -> forall fuel, burst fuel max_n next mutate p = Err OutOfFuel.
Proof.
  intros HW L Hm fuel. unfold burst. rewrite L. cbn [Nat.sub]. destruct (removeWorst_zero p HW) as (p' & E & M & W). rewrite E. cbn [rbind]. now apply C51_reproduction_empty_refuted.
Qed.

(** ** Evaluation *)
(** [v] is the best fitness among the individuals that have sub-individual [k] in place [i]: -Infinity when there are none *)
Definition best_of (eval : list nat -> Q) (inds : list (list nat)) (i k : nat) (v : option Q) : Prop :=
  (v = None /\ forall ind, In ind inds -> nth_error ind i <> Some k) \/
  (exists ind, v = Some (eval ind) /\ In ind inds /\ nth_error ind i = Some k /\ forall ind', In ind' inds -> nth_error ind' i = Some k -> (eval ind' <= eval ind)%Q).
Definition upd1 (p : pop) k f := if fle (Some f) (fit p k) then p else setFitness p k f.
Lemma setIndividualFitness_spec f : forall sps ind, Forall2 (fun p k => In k (dkeys (fitness p))) sps ind ->
  exists sps', setIndividualFitness sps ind f = Ok sps' /\ length sps' = length sps /\ forall i p k, nth_error sps i = Some p -> nth_error ind i = Some k -> nth_error sps' i = Some (upd1 p k f).
Proof.
  induction 1 as [| p k sps ind H _ (sps' & E & L & IH)]; cbn [setIndividualFitness]; [exists []; split; [auto |]; split; [auto |]; intros [|]; discriminate |].
  unfold getFitness. destruct (proj2 (dget_keys k (fitness p)) H) as [v Ev]. rewrite Ev. cbn [rbind]. rewrite E. cbn [rbind]. eexists. split; [reflexivity |]. split; [cbn; now rewrite L |].
  intros [| i] p' k' Hp Hk; cbn in *; [| eauto]. injection Hp as <-. injection Hk as <-. unfold upd1, fit. now rewrite Ev.
Qed.
Lemma upd1_spec p k f : In k (dkeys (fitness p)) -> members (upd1 p k f) = members p /\ dkeys (fitness (upd1 p k f)) = dkeys (fitness p) /\
  forall k', fit (upd1 p k f) k' = if (k' =? k) then (if fle (Some f) (fit p k) then fit p k else Some f) else fit p k'.
Proof.
  intros H. unfold upd1. destruct (fle (Some f) (fit p k)) eqn:E.
  - split; [auto |]. split; [auto |]. intros k'. destruct (Nat.eqb_spec k' k) as [-> | _]; auto.
  - unfold setFitness. cbn [members fitness]. split; [auto |]. split; [now apply dkeys_dset_in |]. intros k'. unfold fit at 1. cbn [fitness]. rewrite dget_dset. destruct (k' =? k); auto.
Qed.
Lemma best_of_snoc eval done ind i k v : best_of eval done i k v ->
  best_of eval (done ++ [ind]) i k (match nth_error ind i with Some k' => if k =? k' then (if fle (Some (eval ind)) v then v else Some (eval ind)) else v | None => v end).
Proof.
  intros H. assert (KEEP : nth_error ind i <> Some k -> best_of eval (done ++ [ind]) i k v).
  { intros N. destruct H as [[-> H] | (b & -> & Hb & Hk & H)].
    - left. split; [auto |]. intros x Hx. apply in_app_or in Hx as [Hx | [<- | []]]; auto.
    - right. exists b. split; [auto |]. split; [apply in_or_app; auto |]. split; [auto |]. intros x Hx Hxk. apply in_app_or in Hx as [Hx | [<- | []]]; auto. contradiction. }
  destruct (nth_error ind i) as [k' |] eqn:E; [| apply KEEP; discriminate]. destruct (Nat.eqb_spec k k') as [<- | NE]; [| apply KEEP; congruence]. clear KEEP.
  destruct H as [[-> H] | (b & -> & Hb & Hk & H)]; cbn [fle].
  - right. exists ind. split; [auto |]. split; [apply in_or_app; right; left; auto |]. split; [auto |]. intros x Hx Hxk. apply in_app_or in Hx as [Hx | [<- | []]]; [exfalso; eapply H; eauto | lra].
  - destruct (Qle_bool (eval ind) (eval b)) eqn:C; right.
    + apply Qle_bool_iff in C. exists b. split; [auto |]. split; [apply in_or_app; auto |]. split; [auto |]. intros x Hx Hxk. apply in_app_or in Hx as [Hx | [<- | []]]; auto.
    + assert (~ (eval ind <= eval b)%Q) by (rewrite <- Qle_bool_iff, C; discriminate). exists ind. split; [auto |]. split; [apply in_or_app; right; left; auto |]. split; [auto |]. intros x Hx Hxk. apply in_app_or in Hx as [Hx | [<- | []]]; [specialize (H x Hx Hxk); lra | lra].
Qed.
Definition inv (eval : list nat -> Q) (done : list (list nat)) (sps0 sps : list pop) : Prop := length sps = length sps0 /\
  forall i p0, nth_error sps0 i = Some p0 -> exists p, nth_error sps i = Some p /\ members p = members p0 /\ dkeys (fitness p) = dkeys (fitness p0) /\ forall k, In k (dkeys (fitness p0)) -> best_of eval done i k (fit p k).
Definition bestinv (eval : list nat -> Q) (done : list (list nat)) (best : option (list nat * Q)) : Prop :=
  match best with None => done = [] | Some (ind, f) => f = eval ind /\ In ind done /\ forall ind', In ind' done -> (eval ind' <= f)%Q end.
Lemma evaluate_all_spec eval (sps0 : list pop) : forall inds done sps best, Forall (fun ind => Forall2 (fun p k => In k (dkeys (fitness p))) sps0 ind) inds ->
  inv eval done sps0 sps -> bestinv eval done best -> exists sps' best', evaluate_all eval sps inds best = Ok (sps', best') /\ inv eval (done ++ inds) sps0 sps' /\ bestinv eval (done ++ inds) best'.
Proof.
  induction inds as [| ind inds IH]; intros done sps best HF HI HB; cbn [evaluate_all]; [exists sps, best; rewrite app_nil_r; auto |].
  inversion HF as [| ? ? Hind HF']; subst. destruct HI as [HL HI]. assert (H2 : Forall2 (fun p k => In k (dkeys (fitness p))) sps ind).
  { assert (HD : forall i p0, nth_error sps0 i = Some p0 -> exists p, nth_error sps i = Some p /\ dkeys (fitness p) = dkeys (fitness p0)) by (intros i p0 Hp; destruct (HI i p0 Hp) as (p & ? & ? & ? & ?); eauto).
    clear - Hind HL HD. revert sps HL HD. induction Hind as [| p k sps0 ind H _ IH]; intros sps HL HD; destruct sps as [| q sps]; cbn in HL; try discriminate; [constructor |]. constructor.
    - destruct (HD 0 p eq_refl) as (q' & E & D). cbn in E. injection E as <-. now rewrite D.
    - apply IH; [lia |]. intros i p0 Hp. apply (HD (S i) p0 Hp). }
  destruct (setIndividualFitness_spec (eval ind) sps ind H2) as (sps1 & E1 & L1 & N1). rewrite E1. cbn [rbind].
  replace (done ++ ind :: inds) with ((done ++ [ind]) ++ inds) by (rewrite <- app_assoc; auto). apply IH; auto.
  - split; [lia |]. intros i p0 Hp0. destruct (HI i p0 Hp0) as (p & Ep & Mp & Dp & Bp). pose proof (Forall2_len _ _ _ H2) as LL. destruct (nth_error ind i) as [k |] eqn:Ek; [| apply nth_error_None in Ek; assert (i < length sps) by (apply nth_error_Some; congruence); lia].
    assert (Hk : In k (dkeys (fitness p))) by apply (Forall2_at _ _ _ H2 i p k Ep Ek). exists (upd1 p k (eval ind)). destruct (upd1_spec p k (eval ind) Hk) as (A & B & C). split; [apply N1; auto |]. split; [congruence |]. split; [congruence |].
    intros k' Hk'. pose proof (best_of_snoc eval done ind i k' (fit p k') (Bp k' Hk')) as BS. rewrite Ek in BS. rewrite C. destruct (Nat.eqb_spec k' k) as [-> | _]; exact BS.
  - unfold bestinv in *. destruct best as [[b f] |].
    + destruct HB as (-> & Hb & HM). destruct (Qle_bool (eval ind) (eval b)) eqn:C.
      * apply Qle_bool_iff in C. split; [auto |]. split; [apply in_or_app; auto |]. intros x Hx. apply in_app_or in Hx as [Hx | [<- | []]]; auto.
      * assert (~ (eval ind <= eval b)%Q) by (rewrite <- Qle_bool_iff, C; discriminate). split; [auto |]. split; [apply in_or_app; right; left; auto |]. intros x Hx. apply in_app_or in Hx as [Hx | [<- | []]]; [specialize (HM x Hx); lra | lra].
    + rewrite HB. cbn [app]. split; [auto |]. split; [left; auto |]. intros x [<- | []]. lra.
Qed.
Lemma clear_spec (p : pop) : members (clearFitness p) = members p /\ dkeys (fitness (clearFitness p)) = dkeys (fitness p) /\ forall k, fit (clearFitness (p : pop)) k = None.
Proof.
  split; [auto |]. unfold clearFitness. cbn [fitness]. split; [unfold dkeys; rewrite map_map; reflexivity |]. intros k. unfold fit. cbn [fitness]. induction (fitness p) as [| [a b] d IH]; cbn [map dget fst]; [auto |]. destruct (k =? a); auto.
Qed.
(** After an evaluation the fitness of a sub-individual is that of the best individual it took part in, whatever it was before, and the best
    individual is one of the greatest fitness. *)
Theorem C51_evaluate eval draw nComb (sps : list pop) m : sps <> [] -> Forall (fun p => wf p /\ getIndividualsN p = m) sps ->
  exists inds sps' best, getIndividuals draw nComb sps = Ok inds /\ evaluate eval draw nComb sps = Ok (sps', best) /\ length sps' = length sps /\
  (forall i p, nth_error sps i = Some p -> exists p', nth_error sps' i = Some p' /\ members p' = members p /\ wf p' /\ forall k, In k (ids p) -> best_of eval inds i k (fit p' k)) /\
  (1 <= nComb -> 1 <= m -> exists ind, best = Some (ind, eval ind) /\ In ind inds /\ forall ind', In ind' inds -> (eval ind' <= eval ind)%Q).
Proof.
  intros Hn HF. destruct (C51_combinations draw nComb sps m Hn) as (inds & E & L & LF & CO).
  { eapply Forall_impl; [| exact HF]. intros p [(A & _) B]. split; [auto |]. rewrite <- B. unfold ids. apply map_length. }
  assert (E' : getIndividuals draw nComb (map clearFitness sps) = Ok inds).
  { rewrite <- E. unfold getIndividuals. destruct sps as [| p0 t]; [congruence |]. cbn [map]. rewrite map_map. reflexivity. }
  assert (HC : Forall (fun ind => Forall2 (fun p k => In k (dkeys (fitness p))) (map clearFitness sps) ind) inds).
  { apply Forall_forall. intros ind Hind. rewrite Forall_forall in LF. pose proof (LF ind Hind) as Li. clear E E' L Hn.
    assert (HK : forall i p, nth_error sps i = Some p -> In (nth i ind 0) (dkeys (fitness (clearFitness p)))).
    { intros i p Hp. pose proof (CO i p Hp (nth i ind 0)) as C. destruct (in_dec Nat.eq_dec (nth i ind 0) (ids p)) as [K | K].
      - rewrite (proj1 (proj2 (clear_spec p))). rewrite Forall_forall in HF. apply (HF p (nth_error_In _ _ Hp)). auto.
      - exfalso. apply (proj2 (count_occ_not_In Nat.eq_dec _ _)) in C. apply C. apply (in_map (fun ind => nth i ind 0) inds ind Hind). }
    clear - HK Li. revert ind Li HK. induction sps as [| p t IH]; intros [| k ind] Li HK; cbn in Li; try discriminate; cbn [map]; constructor; [apply (HK 0 p eq_refl) |]. apply IH; [lia |]. intros i q Hq. apply (HK (S i) q Hq). }
  destruct (evaluate_all_spec eval (map clearFitness sps) inds [] (map clearFitness sps) None HC) as (sps' & best & Ev & [IL II] & HB).
  { split; [auto |]. intros i p0 Hp. exists p0. split; [auto |]. split; [auto |]. split; [auto |]. intros k _. left. rewrite nth_error_map in Hp. destruct (nth_error sps i) as [p |]; cbn in Hp; [| discriminate]. injection Hp as <-. split; [apply clear_spec | intros ? []]. }
  { reflexivity. }
  cbn [app] in *. exists inds, sps', best. split; [auto |]. split; [unfold evaluate; cbn zeta; rewrite E'; cbn [rbind]; auto |]. split; [rewrite IL, map_length; auto |]. split.
  - intros i p Hp. destruct (II i (clearFitness p)) as (p' & Ep & Mp & Dp & Bp); [rewrite nth_error_map, Hp; auto |]. destruct (clear_spec p) as (C1 & C2 & C3). rewrite Forall_forall in HF. destruct (HF p (nth_error_In _ _ Hp)) as [(W1 & W2 & W3) _].
    exists p'. split; [auto |]. split; [congruence |]. split.
    + unfold wf, ids. rewrite Mp, C1, Dp, C2. auto.
    + intros k Hk. apply Bp. rewrite C2. now apply W3.
  - intros H1 H2. unfold bestinv in HB. destruct best as [[b f] |]; [destruct HB as (-> & A & B); eauto |]. exfalso. subst inds. cbn in L. nia.
Qed.
End Props.

(** Cases.  Two subpopulations of three, every individual twice; the fitness is the sum of the identities. *)
Definition mkpop (l : list nat) : pop := addIndividuals (empty_pop (G := nat)) (map (fun k => (k, 100 * k)) l).
Definition ev1 (l : list nat) : Q := inject_Z (Z.of_nat (list_sum l)).
Example ex_wf : wf (mkpop [1; 2; 3]) /\ getIndividualsN (mkpop [1; 2; 3]) = 3.
Proof.
  split; [| reflexivity]. split; [| split]; [repeat constructor; cbn; intuition congruence .. |]. intros k. cbn. tauto.
Qed.
Example ex_inds : getIndividuals (fun c => c + c / 3) 2 [mkpop [1; 2; 3]; mkpop [4; 5; 6]] = Ok [[1; 5]; [2; 4]; [3; 6]; [3; 4]; [1; 5]; [2; 6]].
Proof. vm_compute. reflexivity. Qed.
Example ex_eval : exists a b, evaluate ev1 (fun c => c + c / 3) 2 [mkpop [1; 2; 3]; mkpop [4; 5; 6]] = Ok ([a; b], Some ([3; 6], ev1 [3; 6])) /\ map (fit a) [1; 2; 3] = [Some (ev1 [6]); Some (ev1 [8]); Some (ev1 [9])].
Proof. eexists; eexists. split; vm_compute; reflexivity. Qed.
Definition pop8 := setFitness (setFitness (setFitness (mkpop [1; 2; 3; 4]) 2 7) 4 9) 1 8.
Example ex_select : exists p, subSelection (Some 2) pop8 = Ok p /\ members p = [(1, 100); (4, 400)].
Proof. eexists. split; vm_compute; reflexivity. Qed.
Example ex_repro : exists p, (let! q := subSelection (Some 2) pop8 in subReproduction 9 7 20 (fun k g => k + g) q) = Ok p /\ members p = [(1, 100); (4, 400); (20, 420); (21, 121); (22, 422); (23, 123); (24, 424)].
Proof. eexists. split; vm_compute; reflexivity. Qed.
Print Assumptions C51_combinations.
Print Assumptions C51_sizes_refuted.
Print Assumptions C51_selection.
Print Assumptions C51_selection_all_refuted.
Print Assumptions C51_reproduction.
Print Assumptions C51_reproduction_empty_refuted.
Print Assumptions C51_small_population_refuted.
Print Assumptions C51_burst.
Print Assumptions C51_burst_single_refuted.
Print Assumptions C51_evaluate.
