(** Property C63: what the error measures measure. *)
From Coq Require Import QArith Lqa.
From Verif Require Import Base Dataset_Model Dataset_Spec Dataset_Proofs2 Sequential_Model Sequential_Spec Sequential_Proofs Sequential_Proofs2 Grid_Model Errors_Model Errors_Spec Errors_Proofs Errors_Proofs2.
Local Open Scope Q_scope.
Notation total := Errors_Spec.total.

Lemma flat_weight imp outdim ss : total_weight imp outdim ss == total (sample_weight imp outdim) (concat ss).
Proof. unfold total_weight. rewrite total_concat. reflexivity. Qed.

Section Sequences.
Context {M : Type} (mreset : M -> M) (activate : M -> qrow -> M * qrow) (imp : bool) (indim outdim : nat).
Context (s : sds Q) (ss : list (list qsample)) (Hb : built imp indim outdim s ss) (Hout : out_ok activate outdim) (Hreset : resettable mreset activate) (m : M).
Notation E := (total_error mreset activate imp outdim m ss).
Notation W := (total_weight imp outdim ss).

(** testOnData is HALF the mean squared error, the module starting anew with every sequence *)
Theorem C63_testOnData : Forall (fun sq => sq <> []) ss -> 0 < W -> exists m' v, testOnData mreset activate imp s m = Ok (m', v) /\ v == E / 2 / W.
Proof.
  intros Hn Hw. destruct (built_facts _ _ _ _ _ Hb) as (Hs & _ & _ & _ & _ & _ & Hi). unfold testOnData. rewrite Hi. cbn [rbind]. apply testOnSeqs_ok; auto.
Qed.
(** so are evaluateModuleMSE, however often it is averaged ... *)
Theorem C63_evaluateModuleMSE n : 0 < W -> exists m' v, evaluateModuleMSE_seq mreset activate imp (S n) s m = Ok (m', v) /\ v == E / 2 / W.
Proof.
  intro Hw. destruct (built_facts _ _ _ _ _ Hb) as (Hs & _ & _ & _ & _ & _ & Hi). unfold evaluateModuleMSE_seq. rewrite Hi. cbn [rbind].
  destruct (seq_mse_loop_ok mreset activate imp outdim Hout Hreset (S n) ss Hs Hw m 0) as (m' & r & -> & Hr). cbn [rbind Nat.eqb fst snd]. eexists _, _. split; [reflexivity|]. rewrite Hr. field. split; [lra|].
  rewrite Nat2Z.inj_succ. unfold Z.succ. rewrite inject_Z_plus. change (inject_Z 1) with 1. assert (0 <= inject_Z (Z.of_nat n)) by (change 0 with (inject_Z 0); rewrite <- Zle_Qle; lia). lra.
Qed.
(** ... but ModuleValidator.MSE is the mean squared error itself *)
Theorem C63_module_MSE : concat ss <> [] -> ~ W == 0 -> exists m' v, module_MSE mreset activate imp s m = Ok (m', Some v) /\ v == E / W.
Proof.
  intros Hne Hw. destruct (built_facts _ _ _ _ _ Hb) as (Hs & _ & _ & _ & Ht & Hi & Hit). unfold module_MSE, calculateModuleOutput. rewrite Ht, Hit. cbn [rbind].
  pose proof (out_seqs_is mreset activate Hreset ss m m) as Eo.
  destruct (mse_ok imp outdim (concat ss) (snd (out_seqs mreset activate ss m))) as (v & Ev & Hv).
  - apply Forall_concat. auto.
  - auto.
  - rewrite Eo. apply answers_len.
  - rewrite Eo. intros y Hy. eapply answers_dim; eauto.
  - rewrite <- flat_weight. auto.
  - exists (fst (out_seqs mreset activate ss m)), v. split.
    + destruct imp; [rewrite (Hi eq_refl)|]; cbn [rbind]; rewrite Ev; reflexivity.
    + rewrite Hv, Eo, flat_error, flat_weight. reflexivity.
Qed.
(** the two disagree by the factor two *)
Theorem C63_half : Forall (fun sq => sq <> []) ss -> concat ss <> [] -> 0 < W ->
  exists m1 m2 a b, testOnData mreset activate imp s m = Ok (m1, a) /\ module_MSE mreset activate imp s m = Ok (m2, Some b) /\ b == 2 * a.
Proof.
  intros Hn Hne Hw. destruct (C63_testOnData Hn Hw) as (m1 & a & E1 & H1). destruct C63_module_MSE as (m2 & b & E2 & H2); [auto|lra|].
  exists m1, m2, a, b. repeat split; auto. rewrite H1, H2. field. lra.
Qed.
(** a dataset whose last sequence has been opened but not filled breaks testOnData, and only that *)
Theorem C63_open_sequence_refuted a : ss = a ++ [[]] -> testOnData mreset activate imp s m = Err ZeroDivisionError.
Proof.
  intros ->. destruct (built_facts _ _ _ _ _ Hb) as (Hs & _ & _ & _ & _ & _ & Hi). unfold testOnData, testOnSeqs. rewrite Hi. cbn [rbind].
  rewrite (test_loop_empty mreset activate imp outdim Hout); [reflexivity|]. apply Forall_app in Hs. apply Hs.
Qed.

(** ** Classification *)
(** the hit rate of one output; with more outputs, or importance, there is none *)
Theorem C63_hit_rate : imp = false -> outdim = 1%nat -> concat ss <> [] -> exists m' v,
  module_classification mreset activate imp outdim s m = Ok (m', v) /\
  v * inject_Z (Z.of_nat (length (concat ss))) ==
  total (fun p => if Qeq_bool (nth 0 (s_target (fst p)) 0) (nth 0 (snd p) 0) then 1 else 0) (combine (concat ss) (concat (map (answers mreset activate m) ss))).
Proof.
  intros Ei Eo Hne. destruct (built_facts _ _ _ _ _ Hb) as (Hs & _ & _ & _ & Ht & _ & Hit). unfold module_classification, calculateModuleOutput. rewrite Ht, Hit, Ei. cbn [rbind].
  rewrite (out_seqs_is mreset activate Hreset ss m m). set (ys := concat (map (answers mreset activate m) ss)). assert (Ly : length ys = length (concat ss)) by apply answers_len.
  unfold classificationPerformance_2d. rewrite Ly, map_length, Nat.eqb_refl, Eo. cbn [negb Nat.eqb]. assert (Hl : length (concat ss) <> 0%nat) by (destruct (concat ss); [contradiction|discriminate]).
  destruct (Nat.eqb_spec (length (concat ss)) 0); [lia|]. unfold ratio. destruct (Nat.eqb_spec (length (concat ss)) 0); [lia|]. cbn [rbind]. eexists _, _. split; [reflexivity|].
  assert (P : ~ inject_Z (Z.of_nat (length (concat ss))) == 0) by (change 0 with (inject_Z 0); intro X; apply (proj1 (inject_Z_injective _ _)) in X; lia).
  rewrite Qmult_comm, Qmult_div_r by auto. revert Ly. generalize (concat ss) as smps. clear. intros smps. revert smps. unfold hits. induction ys as [|y ys IH]; intros [|smp smps] L; cbn in L; try discriminate; [reflexivity|].
  cbn [map combine filter fst snd]. rewrite total_cons, <- IH by lia. cbn [fst snd].
  replace (Qeq_bool (hd 0 y) (hd 0 (s_target smp))) with (Qeq_bool (nth 0 (s_target smp) 0) (nth 0 y 0)).
  2: { destruct y; destruct (s_target smp); cbn [hd nth]; apply Qeq_bool_comm. }
  destruct (Qeq_bool _ _); cbn [length]; [|lra]. rewrite Nat2Z.inj_succ. unfold Z.succ. rewrite inject_Z_plus. change (inject_Z 1) with 1. lra.
Qed.
Theorem C63_hit_rate_refuted : concat ss <> [] -> (imp = true \/ outdim <> 1%nat) -> module_classification mreset activate imp outdim s m = Err TypeError.
Proof.
  intros Hne Hc. destruct (built_facts _ _ _ _ _ Hb) as (Hs & _ & _ & _ & Ht & _ & Hit). unfold module_classification, calculateModuleOutput. rewrite Ht, Hit. cbn [rbind].
  destruct imp eqn:Ei; [reflexivity|]. destruct Hc as [Hc|Hc]; [discriminate|]. rewrite (out_seqs_is mreset activate Hreset ss m m). unfold classificationPerformance_2d. rewrite answers_len, map_length, Nat.eqb_refl. cbn [negb].
  destruct (Nat.eqb_spec (length (concat ss)) 0) as [H|H]; [destruct (concat ss); [contradiction|discriminate]|]. destruct (Nat.eqb_spec outdim 1); [contradiction|reflexivity].
Qed.

(** the ends of the sequences *)
Theorem C63_sequence_ends : getSequenceEnds s = Ok (map (end_of ss) (seq 0 (length ss))) /\
  (Forall (fun sq => sq <> []) ss -> getSequenceEndsImportance s = Ok (concat (map (fun sq : list qsample => repeat 0 (length sq - 1) ++ [1]) ss))).
Proof.
  destruct (built_facts _ _ _ _ _ Hb) as (_ & Hq & Hl & Hw & _). assert (X : getSequenceEnds s = Ok (ends 0 ss)).
  { unfold getSequenceEnds. rewrite Hl, Hq. cbn [rbind]. rewrite <- ends_starts by (apply wfs_nonempty; auto). reflexivity. }
  split; [rewrite X, ends_spec; f_equal|]. intro Hn. unfold getSequenceEndsImportance. rewrite Hl, X. cbn [rbind]. apply (set_all_ends ss Hn []).
Qed.
(** the class of a sequence is decided by the sum of all its outputs and by its last target *)
Theorem C63_testOnSequenceData : Forall (fun sq => sq <> []) ss -> (0 < outdim)%nat -> exists m' co ct v,
  testOnSequenceData mreset activate outdim s m = Ok (m', v) /\
  Forall2 (fun sq c => winner (column_sums outdim (answers mreset activate m sq)) c) ss co /\ Forall2 (fun sq c => winner (s_target (last sq [])) c) ss ct /\
  v * inject_Z (Z.of_nat (length ss)) == total (fun p => if (fst p =? snd p)%nat then 1 else 0) (combine co ct).
Proof.
  intros Hn Ho. destruct (built_facts _ _ _ _ _ Hb) as (Hs & Hq & Hl & Hw & Ht & _ & Hit). unfold testOnSequenceData, calculateModuleOutput. rewrite Ht, Hit. cbn [rbind].
  unfold getSequenceEnds. rewrite Hl, Hq. cbn [rbind]. pose proof (ends_starts ss 0 (wfs_nonempty _ Hw)) as Xe. cbn [plus] in Xe. rewrite Xe. rewrite (out_seqs_is mreset activate Hreset ss m m).
  pose proof (class_all outdim (answers mreset activate m) ss Hn) as C. specialize (C ltac:(intro; unfold answers; rewrite outputs_len, map_length; reflexivity) 0%nat [] [] [] ltac:(intros e [])).
  cbn [app] in C. change (Z.of_nat 0) with 0%Z in C. rewrite C. unfold classificationPerformance_1d. rewrite !map_length, Nat.eqb_refl. cbn [negb]. unfold ratio.
  assert (Hne : length ss <> 0%nat) by (apply wfs_nonempty in Hw; destruct ss; [contradiction|discriminate]). destruct (Nat.eqb_spec (length ss) 0); [contradiction|]. cbn [rbind].
  exists (fst (out_seqs mreset activate ss m)), (map (fun sq => qargmax (fold_left (zipq Qplus) (answers mreset activate m sq) (repeat 0 outdim))) ss), (map (fun sq : list qsample => qargmax (s_target (last sq []))) ss).
  eexists. split; [reflexivity|]. split; [|split].
  - clear - Ho Hout. induction ss as [|sq r IH]; cbn [map]; constructor; auto. apply summed_winner; auto. intros y Hy. eapply outputs_dim; eauto.
  - clear - Ho Hs Hn. induction ss as [|sq r IH]; cbn [map]; [constructor|]. inversion Hs as [|? ? Hsq Hr]; subst. inversion Hn; subst. constructor; auto. apply qargmax_winner.
    destruct (exists_last ltac:(eassumption)) as (a & x & ->). rewrite last_last. apply Forall_app in Hsq. destruct Hsq as [_ Hx]. inversion Hx as [|? ? (_ & T & _) _]; subst. destruct (s_target x); [cbn in Ho; lia|discriminate].
  - assert (P : ~ inject_Z (Z.of_nat (length ss)) == 0) by (change 0 with (inject_Z 0); intro X; apply (proj1 (inject_Z_injective _ _)) in X; lia).
    rewrite Qmult_comm, Qmult_div_r by auto. generalize (map (fun sq => qargmax (fold_left (zipq Qplus) (answers mreset activate m sq) (repeat 0 outdim))) ss) as co. generalize (map (fun sq : list qsample => qargmax (s_target (last sq []))) ss) as ct. clear.
    intros ct co. revert ct. unfold hits. induction co as [|a co IH]; intros [|b ct]; try reflexivity. cbn [combine filter fst snd]. rewrite total_cons, <- IH. cbn [fst snd].
    destruct (a =? b)%nat; cbn [length]; [|lra]. rewrite Nat2Z.inj_succ. unfold Z.succ. rewrite inject_Z_plus. change (inject_Z 1) with 1. lra.
Qed.
(** winner takes all *)
Theorem C63_testOnClassData : imp = false -> (0 < outdim)%nat -> exists m' out targ, testOnClassData mreset activate s m = Ok (m', out, targ) /\
  Forall2 (fun y c => winner y c) (concat (map (answers mreset activate m) ss)) out /\ Forall2 (fun smp c => winner (s_target smp) c) (concat ss) targ.
Proof.
  intros Ei Ho. destruct (built_facts _ _ _ _ _ Hb) as (Hs & _ & _ & _ & _ & _ & Hit). unfold testOnClassData. rewrite Hit. cbn [rbind]. rewrite Ei in Hs.
  destruct (class_loop_ok mreset activate outdim ss Hreset Hs m m [] []) as [m' ->]. eexists _, _, _. split; [reflexivity|]. cbn [app]. split.
  - assert (D : forall y, In y (concat (map (answers mreset activate m) ss)) -> length y = outdim) by (intros y Hy; eapply answers_dim; eauto). revert D. generalize (concat (map (answers mreset activate m) ss)). clear - Ho.
    induction l as [|y l IH]; intro D; cbn [map]; constructor; [|apply IH; intros; apply D; right; auto]. apply qargmax_winner. intro X. specialize (D y (or_introl eq_refl)). rewrite X in D. cbn in D. lia.
  - apply Forall_concat in Hs. revert Hs. generalize (concat ss). clear - Ho. induction 1 as [|smp l (_ & T & _) _ IH]; cbn [map]; constructor; auto. apply qargmax_winner. intro X. rewrite X in T. cbn in T. lia.
Qed.
Theorem C63_testOnClassData_refuted : imp = true -> concat ss <> [] -> testOnClassData mreset activate s m = Err ValueError.
Proof.
  intros Ei Hne. destruct (built_facts _ _ _ _ _ Hb) as (Hs & _ & _ & _ & _ & _ & Hit). unfold testOnClassData. rewrite Hit. cbn [rbind]. rewrite Ei in Hs. clear - Hs Hne.
  generalize (@nil nat) at 1 as out. generalize (@nil nat) as targ. revert m. induction ss as [|sq r IH]; intros m targ out; [contradiction|].
  inversion Hs as [|? ? Hsq Hr]; subst. cbn [class_loop]. destruct sq as [|smp sq].
  - cbn [class_seq rbind]. apply IH; auto.
  - inversion Hsq as [|? ? (L & _) _]; subst. destruct smp as [|x [|t [|w [|]]]]; cbn in L; try discriminate. reflexivity.
Qed.
End Sequences.

(** ** Data without sequences *)
Section Samples.
Context {M : Type} (mreset : M -> M) (activate : M -> qrow -> M * qrow) (outdim : nat).
Context (Hout : out_ok activate outdim) (Hm : memoryless activate).
Lemma memoryless_outputs m0 xs : forall m, outputs activate m xs = map (fun x => snd (activate m0 x)) xs.
Proof. induction xs as [|x xs IH]; intro m; [reflexivity|]. cbn [outputs map]. rewrite IH, (Hm m m0). reflexivity. Qed.
Lemma memoryless_resettable : resettable mreset activate.
Proof. intros m m' xs. rewrite !(memoryless_outputs m). reflexivity. Qed.
Lemma singles_error m smps : total_error mreset activate false outdim m (single_sequences smps) == total (sample_error false outdim) (combine smps (outputs activate m (map s_input smps))).
Proof.
  rewrite flat_error. unfold single_sequences. rewrite map_map. apply eq_subrelation; [typeclasses eauto|]. f_equal. f_equal.
  - induction smps as [|x r IH]; [reflexivity|]. cbn [map concat app]. rewrite IH. reflexivity.
  - rewrite (memoryless_outputs m). induction smps as [|x r IH]; [reflexivity|]. cbn [map concat]. rewrite IH. unfold answers. cbn [map outputs app]. f_equal. apply Hm.
Qed.
Lemma eval_loop_ok smps : Forall (shape false outdim) smps -> forall m e p, exists m' e' p', eval_loop activate false (single_sequences smps) m e p = Ok (m', e', p') /\
  e' == e + (1 # 2) * total (sample_error false outdim) (combine smps (outputs activate m (map s_input smps))) /\ p' == p + total (sample_weight false outdim) smps.
Proof.
  unfold single_sequences. induction 1 as [|smp smps Hs _ IH]; intros m e p; [exists m, e, p; cbn; split; [reflexivity|split; lra]|].
  cbn [map eval_loop]. destruct (evaluate_ok activate false outdim Hout [smp] m) as (m1 & e1 & p1 & -> & He & Hp); [constructor; auto|]. cbn [rbind].
  destruct (IH m1 (e + e1) (p + p1)) as (m' & e' & p' & X & He' & Hp'). exists m', e', p'. split; [exact X|]. cbn [map outputs combine] in *. rewrite !total_cons in *. change (total (sample_error false outdim) []) with 0 in He. change (total (sample_weight false outdim) []) with 0 in Hp.
  rewrite (memoryless_outputs m) in He'. rewrite (memoryless_outputs m _ (fst (activate m (s_input smp)))). split; [rewrite He', He|rewrite Hp', Hp]; lra.
Qed.
Theorem C63_supervised smps m n : Forall (shape false outdim) smps -> smps <> [] -> (0 < outdim)%nat ->
  exists m1 m2 m3 a b c, testOnData_sup mreset activate smps m = Ok (m1, a) /\ module_MSE_sup mreset activate smps m = Ok (m2, Some b) /\ evaluateModuleMSE mreset activate (S n) smps m = Ok (m3, c) /\
  a == b / 2 /\ c == b / 2 /\ b * (inject_Z (Z.of_nat (length smps)) * inject_Z (Z.of_nat outdim)) == total (sample_error false outdim) (combine smps (map (fun smp => snd (activate m (s_input smp))) smps)).
Proof.
  intros Hs Hne Ho. set (W := total (sample_weight false outdim) smps). set (E := total (sample_error false outdim) (combine smps (outputs activate m (map s_input smps)))).
  assert (Wv : W == inject_Z (Z.of_nat (length smps)) * inject_Z (Z.of_nat outdim)).
  { unfold W. clear. induction smps as [|x r IH]; [change (0 == 0 * inject_Z (Z.of_nat outdim)); ring|]. rewrite total_cons, IH. unfold sample_weight, s_weight. rewrite ones_total. cbn [length]. rewrite Nat2Z.inj_succ. unfold Z.succ. rewrite inject_Z_plus. change (inject_Z 1) with 1. lra. }
  assert (Wp : 0 < W). { rewrite Wv. rewrite <- inject_Z_mult. change 0 with (inject_Z 0). rewrite <- Zlt_Qlt. destruct smps; [contradiction|]. cbn [length]. nia. }
  assert (Es : forall m', total (sample_error false outdim) (combine smps (outputs activate m' (map s_input smps))) = E) by (intro m'; unfold E; rewrite !(memoryless_outputs m); reflexivity).
  assert (Hss : Forall (Forall (shape false outdim)) (single_sequences smps)) by (unfold single_sequences; apply Forall_map; eapply Forall_impl; [|exact Hs]; intros; constructor; auto).
  assert (Hsw : total_weight false outdim (single_sequences smps) == W).
  { rewrite flat_weight. unfold single_sequences, W. clear. induction smps as [|x r IH]; [reflexivity|]. cbn [map concat app]. rewrite !total_cons, IH. reflexivity. }
  destruct (testOnSeqs_ok mreset activate false outdim Hout memoryless_resettable (single_sequences smps) m Hss) as (m1 & a & E1 & H1).
  { unfold single_sequences. apply Forall_map, Forall_forall. discriminate. } { rewrite Hsw. auto. }
  destruct (mse_ok false outdim smps (snd (out_seq activate smps (mreset m)))) as (b & E2 & H2); auto.
  { rewrite out_seq_is, outputs_len, map_length. auto. } { rewrite out_seq_is. intros y Hy. eapply outputs_dim; eauto. } { fold W. lra. }
  rewrite out_seq_is in H2. rewrite Es in H2. fold W in H2. rewrite singles_error, Hsw in H1. fold E in H1.
  assert (L : forall k m r, exists m' r', module_mse_loop mreset activate k smps m r = Ok (m', r') /\ r' == r + inject_Z (Z.of_nat k) * (E / 2 / W)).
  { intros k. induction k as [|k IH]; intros m0 r; [exists m0, r; split; [reflexivity|change (inject_Z (Z.of_nat 0)) with 0; ring]|].
    cbn [module_mse_loop]. unfold evaluateMSE. destruct (eval_loop_ok smps Hs (mreset m0) 0 0) as (m4 & e4 & p4 & -> & He & Hp). cbn [rbind]. rewrite Es in He. fold W in Hp.
    replace (positive p4) with true by (symmetry; apply positive_iff; lra). cbn [rbind fst snd]. destruct (IH m4 (r + e4 / p4)) as (m' & r' & X & Hr). exists m', r'. split; [exact X|].
    rewrite Hr, He, Hp, Nat2Z.inj_succ. unfold Z.succ. rewrite inject_Z_plus. change (inject_Z 1) with 1. field. lra. }
  destruct (L (S n) m 0) as (m3 & c & E3 & H3).
  assert (Np : ~ inject_Z (Z.of_nat (S n)) == 0) by (change 0 with (inject_Z 0); intro X; apply (proj1 (inject_Z_injective _ _)) in X; lia).
  exists m1, (fst (out_seq activate smps (mreset m))), m3, a, b, (c / inject_Z (Z.of_nat (S n))). split; [exact E1|]. split.
  { unfold module_MSE_sup, calculateModuleOutput_sup. change (fun smp => nth 1 smp []) with s_target. rewrite E2. reflexivity. }
  split; [unfold evaluateModuleMSE; rewrite E3; reflexivity|]. rewrite H1, H2, H3. split; [field; lra|]. split; [field; split; [lra|auto]|].
  rewrite <- Wv. unfold E. rewrite (memoryless_outputs m), map_map. field. lra.
Qed.
End Samples.
(** a module with a memory is reset before every sample by the one and only once by the other *)
Definition adder (m : Q) (x : qrow) : Q * qrow := let m' := m + hd 0 x in (m', [m']).
Theorem C63_supervised_memory_refuted : exists smps a b, Forall (shape false 1) smps /\ resettable (fun _ => 0) adder /\
  testOnData_sup (fun _ => 0) adder smps 0 = Ok a /\ module_MSE_sup (fun _ => 0) adder smps 0 = Ok b /\ snd a == 0 /\ snd b = Some (1 # 2).
Proof.
  exists [[[1]; [1]]; [[1]; [1]]]. eexists _, _. split; [repeat constructor; discriminate|]. split; [intros m m' xs; reflexivity|]. split; [vm_compute; reflexivity|]. split; [vm_compute; reflexivity|]. split; reflexivity.
Qed.

(** ** Cases *)
Definition ex_ops : list (qop Q) := [QAdd [[1]; [1; 0]]; QAdd [[2]; [0; 1]]; QNew; QAdd [[3]; [1; 1]]].
Definition ex_s : sds Q := fst (qrun 0 (init (fst (run 0 empty_ds (schema_ops (schema false 1 2))))) ex_ops).
Definition both (m : Q) (x : qrow) : Q * qrow := let m' := m + hd 0 x in (m', [m'; 1]).
Example C63_example : built false 1 2 ex_s [[[[1]; [1; 0]]; [[2]; [0; 1]]]; [[[3]; [1; 1]]]] /\ out_ok both 2 /\ resettable (fun _ => 0) both /\
  (exists m v, testOnData (fun _ => 0) both false ex_s 0 = Ok (m, v) /\ v == 14 # 12) /\
  (exists m v, module_MSE (fun _ => 0) both false ex_s 0 = Ok (m, Some v) /\ v == 14 # 6) /\
  getSequenceEnds ex_s = Ok [1; 2]%Z /\ (exists m v, testOnSequenceData (fun _ => 0) both 2 ex_s 0 = Ok (m, v) /\ v == 1 # 2) /\
  module_classification (fun _ => 0) both false 2 ex_s 0 = Err TypeError.
Proof.
  split.
  { exists ex_ops. split; [|split; [reflexivity|vm_compute; reflexivity]]. unfold ex_ops, schema. repeat (apply Forall_cons; [cbn; try exact I; auto|]); try apply Forall_nil; right; left; discriminate. }
  split; [intros m x; reflexivity|]. split; [intros m m' xs; reflexivity|].
  split; [eexists _, _; split; [vm_compute; reflexivity|reflexivity]|]. split; [eexists _, _; split; [vm_compute; reflexivity|reflexivity]|]. split; [vm_compute; reflexivity|].
  split; [eexists _, _; split; [vm_compute; reflexivity|reflexivity]|]. vm_compute. reflexivity.
Qed.

Print Assumptions C63_testOnData.
Print Assumptions C63_evaluateModuleMSE.
Print Assumptions C63_module_MSE.
Print Assumptions C63_half.
Print Assumptions C63_open_sequence_refuted.
Print Assumptions C63_hit_rate.
Print Assumptions C63_hit_rate_refuted.
Print Assumptions C63_sequence_ends.
Print Assumptions C63_testOnSequenceData.
Print Assumptions C63_testOnClassData.
Print Assumptions C63_testOnClassData_refuted.
Print Assumptions C63_supervised.
Print Assumptions C63_supervised_memory_refuted.
