(** Lemmas for C81: buffets, components, centering. *)
From Coq Require Import Reals Lra Sorting.Sorted Permutation.
From Verif Require Import Base StableSort Functions_Model Functions_Proofs LinearFA_Model Cluster_Model Cluster_Spec Cluster_Proofs.
Local Open Scope R_scope.

(** ** columns as binary numbers *)
Lemma tuple_total : forall a b, tuple_leb a b = true \/ tuple_leb b a = true.
Proof. induction a as [|x a IH]; intros [|y b]; cbn [tuple_leb]; auto. destruct x, y; cbn; auto. Qed.
Lemma tuple_trans : forall a b c, tuple_leb a b = true -> tuple_leb b c = true -> tuple_leb a c = true.
Proof. induction a as [|x a IH]; intros [|y b] [|z c]; cbn [tuple_leb]; auto; try discriminate. destruct x, y, z; cbn; auto; try discriminate; apply IH. Qed.
Lemma tuple_antisym : forall a b, tuple_leb a b = true -> tuple_leb b a = true -> a = b.
Proof. induction a as [|x a IH]; intros [|y b]; cbn [tuple_leb]; auto; try discriminate. destruct x, y; cbn; try discriminate; intros; f_equal; auto. Qed.
Definition valueFrom (v : nat) (col : list bool) : nat := fold_left (fun v b => 2 * v + (if b : bool then 1 else 0))%nat col v.
Lemma value_from : forall col v, valueFrom v col = (v * 2 ^ length col + value col)%nat.
Proof.
  unfold value. fold valueFrom. change (fold_left (fun (v : nat) (b : bool) => (2 * v + (if b then 1 else 0))%nat)) with (fun l v => valueFrom v l).
  induction col as [|b col IH]; intro v; [cbn; lia|]. unfold valueFrom in *. cbn [fold_left length]. rewrite IH, (IH (2 * 0 + _)%nat), Nat.pow_succ_r'. destruct b; lia.
Qed.
Lemma value_lt col : (value col < 2 ^ length col)%nat.
Proof.
  induction col as [|b col IH]; [cbn; lia|]. change (value (b :: col)) with (valueFrom (2 * 0 + (if b then 1 else 0))%nat col). rewrite value_from. cbn [length]. rewrite Nat.pow_succ_r'. destruct b; lia.
Qed.
Lemma value_cons b col : value (b :: col) = ((if b then 2 ^ length col else 0) + value col)%nat.
Proof. change (value (b :: col)) with (valueFrom (2 * 0 + (if b then 1 else 0))%nat col). rewrite value_from. destruct b; lia. Qed.
Lemma tuple_value : forall a b, length a = length b -> (tuple_leb a b = true <-> (value a <= value b)%nat).
Proof.
  induction a as [|x a IH]; intros [|y b] L; try discriminate; [cbn; split; auto|]. cbn [length] in L. injection L as L. cbn [tuple_leb]. rewrite !value_cons.
  specialize (IH b L). pose proof (value_lt a) as Va. pose proof (value_lt b) as Vb. rewrite L in *. destruct x, y; cbn [Bool.eqb negb]; [rewrite IH| | |rewrite IH]; split; intros; try lia; try discriminate; reflexivity.
Qed.
(** ** transposing *)
Lemma transposed_length w M : length (transposed w M) = w.
Proof. unfold transposed. rewrite map_length, seq_length. reflexivity. Qed.
Lemma transposed_rows w M : Forall (fun c => length c = length M) (transposed w M).
Proof. apply Forall_map, Forall_forall. intros j _. apply map_length. Qed.
Lemma list_seq {A} (d : A) : forall l, map (fun j => nth j l d) (seq 0 (length l)) = l.
Proof. induction l as [|a l IH]; [reflexivity|]. cbn [length seq map nth]. f_equal. rewrite <- seq_shift, map_map. exact IH. Qed.
Lemma transposed_twice h w L : length L = w -> Forall (fun c => length c = h) L -> transposed w (transposed h L) = L.
Proof.
  intros <- F. unfold transposed. transitivity (map (fun j => nth j L []) (seq 0 (length L))); [|apply list_seq]. apply map_ext_in. intros j Hj. apply in_seq in Hj. rewrite map_map.
  rewrite Forall_forall in F. assert (Lj : length (nth j L []) = h) by (apply F, nth_In; lia). rewrite <- (list_seq false (nth j L [])), Lj. apply map_ext_in. intros i _.
  change false with (nth i (@nil bool) false) at 1 || idtac. 
  replace (nth j (map (fun r : list bool => nth i r false) L) false) with (nth i (nth j L []) false); [|symmetry; rewrite <- (map_nth (fun r => nth i r false)); apply nth_indep; rewrite map_length; lia]. reflexivity.
Qed.
Lemma columns_leftordered h w M : length M = h -> columns w (leftordered h w M) = rev (isort tuple_leb (columns w M)).
Proof.
  intro L. unfold leftordered. fold (transposed w M). change (columns w ?x) with (transposed w x). apply transposed_twice.
  - rewrite rev_length, isort_length. apply transposed_length.
  - apply Forall_forall. intros c Hc. apply in_rev in Hc. apply isort_In in Hc. pose proof (transposed_rows w M) as T. rewrite Forall_forall in T. rewrite (T c Hc). exact L.
Qed.
Lemma ss_rev {A} (R : A -> A -> Prop) l : StronglySorted R l -> StronglySorted (fun x y => R y x) (rev l).
Proof.
  induction 1 as [|a l S IH F]; [constructor|]. cbn [rev]. apply ss_app; [exact IH | constructor; constructor|]. intros x y Hx [<-|[]]. rewrite Forall_forall in F. apply F, in_rev, Hx.
Qed.

(** ** the buffet *)
Lemma buffet_spec reduced customers : forall draws done skipped stick,
  let b := fold_left (dish reduced) draws {| b_res := done ++ repeat (repeat false customers) (skipped + length draws); b_stick := stick; b_skipped := skipped; b_i := length done + skipped |} in
  let new := filter (existsb (fun t => t)) (dishes reduced stick draws) in
  b_skipped b = (skipped + length draws - length new)%nat /\ b_res b = done ++ new ++ repeat (repeat false customers) (skipped + length draws - length new)%nat /\
  (length new <= length draws)%nat.
Proof.
  induction draws as [|(nu, us) draws IH]; intros done skipped stick; cbv zeta.
  - cbn [fold_left dishes filter length b_skipped b_res app]. rewrite Nat.sub_0_r, Nat.add_0_r. auto.
  - cbn [fold_left dishes filter]. unfold dish at 2. cbn [fst snd b_stick b_i b_skipped b_res]. unfold dish at 3. cbn [fst snd b_stick b_i b_skipped b_res].
    set (taken := map (fun u => if Rlt_dec u (stick * nu * reduced) then true else false) us). destruct (existsb (fun t => t) taken).
    + assert (U : upd (length done + skipped - skipped) taken (done ++ repeat (repeat false customers) (skipped + length ((nu, us) :: draws))) =
                  (done ++ [taken]) ++ repeat (repeat false customers) (skipped + length draws)).
      { replace (length done + skipped - skipped)%nat with (length done) by lia. cbn [length]. replace (skipped + S (length draws))%nat with (S (skipped + length draws)) by lia. cbn [repeat].
        rewrite <- app_assoc. cbn [app]. generalize (repeat (repeat false customers) (skipped + length draws)). clear. intro r. induction done as [|a l IH]; [reflexivity|]. cbn [length app upd]. f_equal. exact IH. }
      rewrite U. replace (S (length done + skipped)) with (length (done ++ [taken]) + skipped)%nat by (rewrite app_length; cbn [length]; lia).
      destruct (IH (done ++ [taken]) skipped (stick * nu)) as (I1 & I2 & I3). rewrite I1, I2. cbn [length]. split; [lia|]. split; [rewrite <- app_assoc; cbn [app]; do 4 f_equal; lia | lia].
    + replace (S (length done + skipped)) with (length done + S skipped)%nat by lia. cbn [length]. replace (skipped + S (length draws))%nat with (S skipped + length draws)%nat by lia.
      destruct (IH done (S skipped) (stick * nu)) as (I1 & I2 & I3). rewrite I1, I2. split; [lia|]. split; [reflexivity | lia].
Qed.
Lemma generate_spec customers reduced draws : generateIBP customers reduced draws = filter (existsb (fun t => t)) (dishes reduced 1 draws).
Proof.
  unfold generateIBP. destruct (buffet_spec reduced customers draws [] 0 1) as (I1 & I2 & I3). cbn [app length Nat.add] in I1, I2, I3. cbv zeta. rewrite I1, I2.
  set (new := filter _ _) in *. replace (length draws - (length draws - length new))%nat with (length new) by lia. rewrite firstn_app, Nat.sub_diag, firstn_O, app_nil_r. apply firstn_all.
Qed.

(** ** components *)
Lemma pair_total a b : pair_leb a b = true \/ pair_leb b a = true.
Proof. unfold pair_leb. destruct (Rlt_dec (fst a) (fst b)), (Rlt_dec (fst b) (fst a)); auto. destruct (Nat.leb_spec (snd a) (snd b)); [auto|]. right. apply Nat.leb_le. lia. Qed.
Lemma pair_spec a b : pair_leb a b = true <-> fst a < fst b \/ fst a = fst b /\ (snd a <= snd b)%nat.
Proof. unfold pair_leb. destruct (Rlt_dec (fst a) (fst b)), (Rlt_dec (fst b) (fst a)); rewrite ?Nat.leb_le; split; intro H; try (left; assumption); try discriminate; try reflexivity;
  [exfalso; destruct H as [H|(H & _)]; lra | right; split; [lra | exact H] | destruct H as [H|(_ & H)]; [lra | exact H]]. Qed.
Lemma pair_trans a b c : pair_leb a b = true -> pair_leb b c = true -> pair_leb a c = true.
Proof. rewrite !pair_spec. intros [H|(H & H')] [K|(K & K')]; [left; lra | left; lra | left; lra | right; split; [lra | lia]]. Qed.
Lemma nat_total x y : (x <=? y)%nat = true \/ (y <=? x)%nat = true.
Proof. rewrite !Nat.leb_le. lia. Qed.
Lemma nat_trans x y z : (x <=? y)%nat = true -> (y <=? z)%nat = true -> (x <=? z)%nat = true.
Proof. rewrite !Nat.leb_le. lia. Qed.
Lemma ss_nodup_gt l : StronglySorted (fun x y => le Nat.leb y x) l -> NoDup l -> StronglySorted (fun x y => (y < x)%nat) l.
Proof.
  induction 1 as [|a l S IH F]; intro N; [constructor|]. inversion N as [|? ? N1 N2]; subst. constructor; [apply IH, N2|]. rewrite Forall_forall in *. intros x Hx. specialize (F x Hx). unfold le in F.
  apply Nat.leb_le in F. assert (x <> a) by (intros ->; contradiction). lia.
Qed.
Lemma enum_in : forall (l : list R) a i v, In (v, i) (combine l (seq a (length l))) <-> (a <= i)%nat /\ nth_error l (i - a) = Some v.
Proof.
  induction l as [|x l IH]; intros a i v; [split; [intros [] | intros (_ & E); destruct (i - a)%nat; discriminate]|]. cbn [length seq combine In]. rewrite IH. split.
  - intros [E|(H & E)]; [injection E as <- <-; rewrite Nat.sub_diag; auto|]. split; [lia|]. replace (i - a)%nat with (S (i - S a)) by lia. exact E.
  - intros (H & E). destruct (Nat.eq_dec i a) as [->|N]; [left; rewrite Nat.sub_diag in E; cbn in E; congruence|]. right. split; [lia|]. replace (i - a)%nat with (S (i - S a)) in E by lia. exact E.
Qed.
Lemma enum_snd (l : list R) a : map snd (combine l (seq a (length l))) = seq a (length l).
Proof. revert a. induction l as [|x l IH]; intro a; [reflexivity|]. cbn [length seq combine map snd]. f_equal. apply IH. Qed.
Lemma components_spec dim vals : (0 < dim <= length vals)%nat -> exists ix, components dim vals = Ok ix /\ length ix = dim /\ StronglySorted (fun x y => (y < x)%nat) ix /\
  Forall (fun i => (i < length vals)%nat) ix /\
  forall i j, In i ix -> (j < length vals)%nat -> ~ In j ix -> nth j vals 0 < nth i vals 0 \/ nth j vals 0 = nth i vals 0 /\ (j < i)%nat.
Proof.
  intros (Hd & Hl). unfold components. destruct (Nat.ltb_spec (length vals) dim); [lia|]. destruct (Nat.eqb_spec dim 0) as [Z|_]; [lia|].
  set (pairs := combine vals (seq 0 (length vals))). set (sorted := isort pair_leb pairs). set (n := length vals) in *.
  assert (Lp : length pairs = n) by (unfold pairs; rewrite combine_length, seq_length; apply Nat.min_id).
  assert (Ls : length sorted = n) by (unfold sorted; rewrite isort_length; exact Lp). pose proof (isort_sorted pair_leb pair_total pair_trans pairs) as So. fold sorted in So.
  pose proof (isort_perm pair_leb pairs) as Pm. fold sorted in Pm.
  assert (Nd : NoDup (map snd sorted)) by (apply (Permutation_NoDup (Permutation_sym (Permutation_map snd Pm))); unfold pairs; rewrite enum_snd; apply seq_NoDup).
  pose proof (firstn_skipn (n - dim) sorted) as Sp. set (dropped := firstn (n - dim) sorted) in *. set (kept := skipn (n - dim) sorted) in *.
  rewrite <- Sp, map_app in Nd.
  assert (Nk : NoDup (map snd kept)) by (clear - Nd; induction (map snd dropped) as [|a l IH]; [exact Nd | cbn [app] in Nd; inversion Nd; auto]).
  eexists. split; [reflexivity|]. split; [rewrite rev_length, isort_length, map_length; unfold kept; rewrite skipn_length; lia|].
  pose proof (isort_perm Nat.leb (map snd kept)) as Pk. split.
  - apply ss_nodup_gt; [apply (ss_rev (le Nat.leb)), isort_sorted; [exact nat_total | exact nat_trans]|]. apply NoDup_rev. apply (Permutation_NoDup (Permutation_sym Pk)), Nk.
  - assert (Ik : forall i, In i (rev (isort Nat.leb (map snd kept))) <-> exists v, In (v, i) kept).
    { intro i. rewrite <- in_rev, isort_In, in_map_iff. split; [intros ((v, k) & <- & Hk); exists v; exact Hk | intros (v & Hv); exists (v, i); auto]. }
    assert (Is : forall v i, In (v, i) sorted -> (i < n)%nat /\ nth i vals 0 = v).
    { intros v i Hi. unfold sorted in Hi. apply isort_In in Hi. unfold pairs in Hi. apply enum_in in Hi as (_ & E). rewrite Nat.sub_0_r in E. split; [apply nth_error_Some; congruence | apply nth_error_nth, E]. }
    split.
    + apply Forall_forall. intros i Hi. apply Ik in Hi as (v & Hv). apply (Is v i). rewrite <- Sp. apply in_or_app. now right.
    + intros i j Hi Hj Nj. apply Ik in Hi as (v & Hv). destruct (Is v i) as (_ & Ei); [rewrite <- Sp; apply in_or_app; now right|].
      assert (Hs : In (nth j vals 0, j) sorted) by (unfold sorted; apply isort_In; unfold pairs; apply enum_in; rewrite Nat.sub_0_r; split; [lia | apply nth_error_nth', Hj]).
      rewrite <- Sp in Hs. apply in_app_iff in Hs as [Hs|Hs]; [|exfalso; apply Nj, Ik; eauto].
      assert (Le : pair_leb (nth j vals 0, j) (v, i) = true).
      { rewrite <- Sp in So. clear - So Hs Hv. revert Hs So. generalize (nth j vals 0, j) as a. intro a. clear - Hv. induction dropped as [|b l IH]; intros Hs So; [destruct Hs|]. cbn [app] in So. inversion So as [|? ? S1 F1]; subst.
        destruct Hs as [->|Hs]; [|apply IH; assumption]. rewrite Forall_forall in F1. apply F1. apply in_or_app. now right. }
      apply pair_spec in Le. cbn [fst snd] in Le. rewrite Ei. destruct Le as [Le|(Le & Le')]; [now left|]. right. split; [exact Le|]. assert (j <> i); [|lia]. intros ->. apply Nj, Ik. eauto.
Qed.

(** ** centering *)
Lemma vsub_nth : forall (a b : vec) j, length a = length b -> nth j (vsub a b) 0 = nth j a 0 - nth j b 0.
Proof. induction a as [|x a IH]; intros [|y b] j L; try discriminate; [destruct j; cbn; ring|]. unfold vsub in *. cbn [rzip]. destruct j as [|j]; [reflexivity|]. cbn [nth]. apply IH. cbn in L; lia. Qed.
Lemma vec_ext (a b : vec) : length a = length b -> (forall j, (j < length a)%nat -> nth j a 0 = nth j b 0) -> a = b.
Proof. intros. apply (nth_ext _ _ 0 0); assumption. Qed.
Lemma mean_length d data : length (mean d data) = d.
Proof. unfold mean. rewrite map_length, seq_length. reflexivity. Qed.
Lemma mean_nth d data j : (j < d)%nat -> nth j (mean d data) 0 = rsum (map (fun r => nth j r 0) data) / INR (length data).
Proof.
  intro H. unfold mean. rewrite (nth_indep _ 0 (rsum (map (fun r => nth 0 r 0) data) / INR (length data))) by (rewrite map_length, seq_length; exact H).
  rewrite (map_nth (fun j => rsum (map (fun r => nth j r 0) data) / INR (length data))), seq_nth by exact H. reflexivity.
Qed.
Lemma centered_sum d data j : Forall (fun r => length r = d) data -> (j < d)%nat -> rsum (map (fun r => nth j r 0) (makeCentered d data)) = 0.
Proof.
  intros F Hj. unfold makeCentered. rewrite map_map. rewrite (map_ext_in _ (fun r => nth j r 0 + - nth j (mean d data) 0)).
  - rewrite rsum_map_plus, rsum_const, mean_nth by exact Hj. destruct data as [|r data]; [cbn; ring|]. field. apply not_0_INR. discriminate.
  - intros r Hr. rewrite Forall_forall in F. rewrite vsub_nth by (rewrite mean_length; apply F, Hr). ring.
Qed.
Lemma mean_shift d data t : data <> [] -> Forall (fun r => length r = d) data -> length t = d -> mean d (map (fun r => vadd r t) data) = vadd (mean d data) t.
Proof.
  intros Ne F Lt. assert (Va : forall a b : vec, length a = length b -> length (vadd a b) = length a).
  { clear. induction a as [|x a IH]; intros [|y b] L; try discriminate; [reflexivity|]. unfold vadd in *. cbn [rzip length]. rewrite IH by (cbn in L; lia). reflexivity. }
  assert (Vn : forall (a b : vec) j, length a = length b -> nth j (vadd a b) 0 = nth j a 0 + nth j b 0).
  { clear. induction a as [|x a IH]; intros [|y b] j L; try discriminate; [destruct j; cbn; ring|]. unfold vadd in *. cbn [rzip]. destruct j as [|j]; [reflexivity|]. cbn [nth]. apply IH. cbn in L; lia. }
  apply vec_ext; [rewrite mean_length, Va; rewrite mean_length; congruence|]. intros j Hj. rewrite mean_length in Hj. rewrite Vn by (rewrite mean_length; congruence). rewrite !mean_nth, map_length, map_map by exact Hj.
  rewrite (map_ext_in _ (fun r => nth j r 0 + nth j t 0)); [|intros r Hr; rewrite Forall_forall in F; apply Vn; rewrite (F r Hr); congruence].
  rewrite rsum_map_plus, rsum_const. field. apply not_0_INR. destruct data; [congruence | discriminate].
Qed.
Lemma centered_shift d data t : Forall (fun r => length r = d) data -> length t = d -> makeCentered d (map (fun r => vadd r t) data) = makeCentered d data.
Proof.
  intros F Lt. destruct data as [|r0 data0] eqn:E; [reflexivity|]. rewrite <- E in *. assert (Ne : data <> []) by (rewrite E; discriminate). unfold makeCentered. rewrite mean_shift, map_map by assumption. apply map_ext_in. intros r Hr.
  rewrite Forall_forall in F. specialize (F r Hr). pose proof (mean_length d data) as Lm. revert Lm. generalize (mean d data). clear - F Lt. intros m Lm. revert t m d F Lt Lm. induction r as [|x r IH]; intros [|y t] [|z m] [|d] F Lt Lm; try discriminate; [reflexivity|].
  unfold vsub, vadd in *. cbn [rzip]. rewrite (IH t m d) by (cbn in *; lia). f_equal. ring.
Qed.
Lemma centered_again d data : Forall (fun r => length r = d) data -> makeCentered d (makeCentered d data) = makeCentered d data.
Proof.
  intro F. unfold makeCentered at 1. transitivity (map (fun r : vec => r) (makeCentered d data)); [|apply map_id]. apply map_ext_in. intros r Hr.
  assert (Lr : length r = d). { unfold makeCentered in Hr. apply in_map_iff in Hr as (q & <- & Hq). rewrite Forall_forall in F. rewrite vsub_length; [apply F, Hq | rewrite mean_length; apply F, Hq]. }
  apply vec_ext; [rewrite vsub_length; [reflexivity | rewrite mean_length; exact Lr]|]. intros j Hj. rewrite vsub_length in Hj by (rewrite mean_length; exact Lr). rewrite vsub_nth by (rewrite mean_length; exact Lr).
  rewrite mean_nth, centered_sum by (try exact F; lia). unfold Rdiv. ring.
Qed.
