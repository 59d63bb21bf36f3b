(** Second layer: a data set with a fixed list of linked fields is a list of samples. *)
From Verif Require Import Base Dataset_Model Dataset_Spec Dataset_Proofs.

Section Proofs.
Context {V : Type} (vzero : V).
Notation row := (row V).
Notation ds := (ds V).

(** The fields of a schema filled with the columns of the samples. *)
Fixpoint cols (k : nat) (sch : list (string * nat)) (samples : list (list row))
  : list (string * (nat * list row)) :=
  match sch with
  | [] => []
  | (l, n) :: t => (l, (n, map (fun s => nth k s []) samples)) :: cols (S k) t samples
  end.

Definition rep (sch : list (string * nat)) (samples : list (list row)) (pos : nat) : pds V :=
  mkP (cols 0 sch samples) (map fst sch) (Z.of_nat pos).

Definition good (sch : list (string * nat)) : Prop :=
  sch <> [] /\ NoDup (map fst sch) /\ ~ In ""%string (map fst sch).

Lemma cols_keys k sch samples : map fst (cols k sch samples) = map fst sch.
Proof. revert k; induction sch as [|[l n] t IH]; intro k; simpl; f_equal; auto. Qed.

Lemma lookup_cols l sch samples : forall k,
  lookup l (cols k sch samples)
  = match index_of l sch with
    | Some j => option_map (fun kn => (snd kn, map (fun s => nth (k + j) s []) samples)) (nth_error sch j)
    | None => None
    end.
Proof.
  induction sch as [|[l' n] t IH]; intro k; simpl; auto.
  destruct (String.eqb l l'); simpl.
  - rewrite Nat.add_0_r. reflexivity.
  - rewrite IH. destruct (index_of l t) as [j|]; simpl; auto.
    rewrite Nat.add_succ_r. reflexivity.
Qed.

Lemma index_of_Some l sch j : index_of l sch = Some j ->
  exists n, nth_error sch j = Some (l, n).
Proof.
  revert j; induction sch as [|[k n] t IH]; intro j; simpl; [discriminate|].
  destruct (String.eqb_spec l k) as [->|Hn].
  - intro H; inversion H; subst. exists n. reflexivity.
  - destruct (index_of l t) as [i|]; simpl; [|discriminate].
    intro H; inversion H; subst. simpl. auto.
Qed.

Lemma index_of_In l sch : In l (map fst sch) -> exists j, index_of l sch = Some j.
Proof.
  induction sch as [|[k n] t IH]; simpl; [tauto|].
  destruct (String.eqb_spec l k) as [->|Hn]; [eauto|].
  intros [E|H]; [congruence|]. destruct (IH H) as [j Hj]. rewrite Hj. simpl; eauto.
Qed.

Lemma prows_rep l sch samples pos :
  prows (rep sch samples pos) l
  = option_map (fun j => map (fun s => nth j s []) samples) (index_of l sch).
Proof.
  unfold prows, rep. simpl. rewrite lookup_cols.
  destruct (index_of l sch) as [j|] eqn:E; simpl; auto.
  destruct (index_of_Some _ _ _ E) as [n Hn]. rewrite Hn. reflexivity.
Qed.

Lemma index_of_nodup pre l n t : NoDup (map fst (pre ++ (l, n) :: t)) ->
  index_of l (pre ++ (l, n) :: t) = Some (length pre).
Proof.
  induction pre as [|[k m] pre IH]; simpl; intro H.
  - rewrite String.eqb_refl. reflexivity.
  - inversion H; subst. destruct (String.eqb_spec l k) as [->|Hn].
    + exfalso. apply H2. rewrite map_app. apply in_or_app. right. left. reflexivity.
    + rewrite IH; auto.
Qed.

(** ** Adding a sample *)

Lemma lookup_app_r {A} l (pre post : list (string * A)) :
  ~ In l (map fst pre) -> lookup l (pre ++ post) = lookup l post.
Proof.
  induction pre as [|[k f] t IH]; simpl; intro H; auto.
  destruct (String.eqb_spec l k) as [->|]; [tauto|]. apply IH; tauto.
Qed.

Lemma set_app_r {A} l (f : A) pre post :
  ~ In l (map fst pre) -> set l f (pre ++ post) = pre ++ set l f post.
Proof.
  induction pre as [|[k g] t IH]; simpl; intro H; auto.
  destruct (String.eqb_spec l k) as [->|]; [tauto|]. f_equal. apply IH; tauto.
Qed.

Lemma padd_fits sch samples smp : forall k pre rs rs',
  NoDup (map fst pre ++ map fst sch) ->
  fit_all sch rs = Some rs' ->
  (forall j, j < length sch -> nth (k + j) smp [] = nth j rs' []) ->
  padd (pre ++ cols k sch samples) (map fst sch) rs
  = (pre ++ cols k sch (samples ++ [smp]), Ok tt).
Proof.
  induction sch as [|[l n] t IH]; intros k pre rs rs' Hn Hf Hj; simpl.
  - reflexivity.
  - simpl in Hf. destruct rs as [|r rs]; [discriminate|].
    destruct (fit n r) as [r1|] eqn:Er; [|discriminate].
    destruct (fit_all t rs) as [rs1|] eqn:Ers; [|discriminate].
    inversion Hf; subst rs'. clear Hf.
    assert (Hl : ~ In l (map fst pre)).
    { simpl in Hn. apply NoDup_remove_2 in Hn. intro H. apply Hn. apply in_or_app; auto. }
    unfold padd1. rewrite lookup_app_r by auto. simpl lookup. rewrite String.eqb_refl, Er.
    rewrite set_app_r by auto. simpl set. rewrite String.eqb_refl.
    specialize (IH (S k) (pre ++ [(l, (n, map (fun s : list (list V) => nth k s []) samples ++ [r1]))]) rs rs1).
    rewrite <- !app_assoc in IH. simpl app in IH. rewrite IH.
    + rewrite map_app. cbn [map].
      specialize (Hj 0). simpl in Hj. rewrite Nat.add_0_r in Hj.
      rewrite Hj by lia. reflexivity.
    + rewrite map_app. simpl. rewrite <- app_assoc. simpl. exact Hn.
    + exact Ers.
    + intros j Hjl. specialize (Hj (S j)). simpl in Hj. rewrite Nat.add_succ_r in Hj.
      simpl. apply Hj. lia.
Qed.

Lemma fit_all_length sch : forall rs rs' : list row, fit_all sch rs = Some rs' -> length rs' = length sch.
Proof.
  induction sch as [|[l n] t IH]; intros [|r rs] rs' H; simpl in *; try discriminate.
  - inversion H; reflexivity.
  - destruct (fit n r); [|discriminate]. destruct (fit_all t rs) eqn:E; [|discriminate].
    inversion H; subst. simpl. f_equal. eauto.
Qed.

(** ** Reading a sample *)

Lemma pick_rep sch samples pos i : NoDup (map fst sch) ->
  (forall s, In s samples -> length s = length sch) ->
  forall post pre, sch = pre ++ post -> post <> [] ->
  pick (rep sch samples pos) i (map fst post)
  = option_map (skipn (length pre)) (nth_error samples i).
Proof.
  intros Hn Hlen. induction post as [|[l n] t IH]; intros pre Hsch Hne; [congruence|].
  cbn [map fst pick]. rewrite prows_rep. rewrite Hsch at 1.
  rewrite index_of_nodup by (rewrite <- Hsch; auto). cbn [option_map].
  rewrite nth_error_map.
  destruct (nth_error samples i) as [s|] eqn:Es; cbn [option_map]; [|reflexivity].
  assert (Hs : length s = length sch) by (apply Hlen; eapply nth_error_In; eauto).
  assert (Hsk : skipn (length pre) s = nth (length pre) s [] :: skipn (S (length pre)) s).
  { assert (H : length pre < length s)
      by (rewrite Hs, Hsch, app_length; simpl; lia).
    clear -H. revert H. generalize (length pre) as k. induction s as [|x s IH]; intros k H; simpl in *; [lia|].
    destruct k; simpl; auto. apply (IH k). lia. }
  destruct t as [|[l' n'] t'].
  - simpl. rewrite Hsk. f_equal. f_equal. symmetry. apply skipn_all2.
    rewrite Hs, Hsch, app_length. simpl. lia.
  - rewrite (IH (pre ++ [(l, n)])).
    + simpl. rewrite Hsk. rewrite app_length. simpl. rewrite Nat.add_1_r. reflexivity.
    + rewrite <- app_assoc. exact Hsch.
    + discriminate.
Qed.

(** ** Simulation *)

Definition R (sch : list (string * nat)) (d : ds) (s : list (list row) * nat) : Prop :=
  wf d /\ abs d = rep sch (fst s) (snd s) /\
  forall smp, In smp (fst s) -> length smp = length sch.

Lemma pstep_rep sch samples pos o :
  good sch -> clean sch o -> (forall smp, In smp samples -> length smp = length sch) ->
  let '((samples', pos'), x) := sstep sch (samples, pos) o in
  pstep (rep sch samples pos) (sop_op o) = (rep sch samples' pos', x) /\
  (forall smp, In smp samples' -> length smp = length sch).
Proof.
  intros (Hne & Hnd & _) Hc Hlen. destruct o as [rs|oi|l| | | |]; cbn [sstep sop_op].
  - cbn [pstep]. unfold rep at 1. cbn [plinks]. rewrite map_length.
    destruct (Nat.eqb_spec (length rs) (length sch)) as [Hl|Hl]; [|split; auto].
    unfold rep. cbn [plinks pfields pidx].
    destruct (fit_all sch rs) as [rs'|] eqn:Ef.
    + pose proof (fit_all_length _ _ _ Ef) as Hl'.
      change (cols 0 sch samples) with ([] ++ cols 0 sch samples).
      rewrite (padd_fits sch samples rs' 0 [] rs rs'); auto.
      split; [reflexivity|].
      intros smp Hin. apply in_app_or in Hin. destruct Hin as [Hin|[<-|[]]]; auto.
    + simpl in Hc. destruct Hc as [Hc|[Hc|Hc]]; try congruence.
      destruct sch as [|[l n] t]; [contradiction|]. destruct rs as [|r rs]; [contradiction|].
      split; auto. cbn [map fst padd cols]. unfold padd1. cbn [lookup]. rewrite String.eqb_refl, Hc.
      reflexivity.
  - assert (Hst : forall i, pstep (rep sch samples pos) (OGetLinked (Some (Z.of_nat i)))
        = (rep sch samples (S i), match nth_error samples i with
                                  | Some smp => OutRows smp | None => OutErr IndexError end)).
    { intro i. cbn [pstep]. pose proof (pick_rep sch samples pos i Hnd Hlen sch [] eq_refl Hne) as Hp.
      unfold rep in *. cbn [plinks pfields pidx].
      rewrite Nat2Z.id. rewrite Hp.
      assert (El : map fst sch <> []) by (destruct sch; [congruence|discriminate]).
      destruct (map fst sch) eqn:Em; [congruence|].
      apply pair_equal_spec; split.
      - f_equal. lia.
      - destruct (nth_error samples i); reflexivity. }
    destruct oi as [i|].
    + rewrite Hst. auto.
    + rewrite <- (Hst pos). split; auto.
  - cbn [pstep]. rewrite prows_rep. destruct (index_of l sch); split; auto.
  - cbn [pstep]. unfold plen. split; auto. unfold rep at 2. cbn [plinks].
    destruct sch as [|[l n] t]; [congruence|]. cbn [map fst].
    rewrite prows_rep. simpl. rewrite String.eqb_refl. simpl. rewrite map_length. reflexivity.
  - cbn [pstep]. unfold plen. split; auto. unfold rep at 2. cbn [plinks].
    destruct sch as [|[l n] t]; [congruence|]. cbn [map fst].
    rewrite prows_rep. simpl index_of. rewrite String.eqb_refl. cbn [option_map]. rewrite map_length.
    f_equal. f_equal. unfold rep. cbn [pidx].
    destruct (Nat.eqb_spec pos (length samples)); [apply Z.eqb_eq|apply Z.eqb_neq]; lia.
  - cbn. auto.
  - cbn [pstep]. split; [|simpl; tauto]. f_equal. unfold rep. cbn [plinks pfields pidx].
    f_equal.
    replace (match map fst sch with [] => map fst (cols 0 sch samples) | s :: l => s :: l end)
      with (map fst sch) by (rewrite cols_keys; destruct (map fst sch); reflexivity).
    unfold pclear.
    assert (H : forall k post ls, (forall kn, In kn post -> In (fst kn) ls) ->
      map (fun kf : string * (nat * list row) =>
             if existsb (String.eqb (fst kf)) ls then (fst kf, (fst (snd kf), [])) else kf)
          (cols k post samples) = cols k post []).
    { intros k post ls; revert k; induction post as [|[l n] t IH]; intros k Hin; simpl; auto.
      rewrite (proj2 (existsb_eqb_In l ls)).
      - f_equal. apply IH. intros kn Hk. apply Hin. right; auto.
      - apply (Hin (l, n)). left; auto. }
    apply H. intros kn Hk. apply in_map; auto.
Qed.

Lemma rep_op_ok sch samples pos (o : sop V) : good sch -> op_ok (rep sch samples pos) (sop_op o).
Proof.
  intros _. assert (Hs : synced (rep sch samples pos)).
  { exists (length samples). intros l Hl. unfold rep in Hl. cbn in Hl.
    destruct (index_of_In _ _ Hl) as [j Hj].
    rewrite prows_rep, Hj. simpl. eexists; split; [reflexivity|]. apply map_length. }
  destruct o as [rs|[i|]|l| | | |]; simpl; auto; split; auto; try lia.
Qed.

Lemma sim_step sch d s o : good sch -> clean sch o -> R sch d s ->
  let '(d', x) := step vzero d (sop_op o) in
  let '(s', y) := sstep sch s o in R sch d' s' /\ x = y.
Proof.
  intros Hg Hc (Hw & Ha & Hlen). destruct s as [samples pos]. simpl in Ha, Hlen.
  assert (Hok : op_ok (abs d) (sop_op o)) by (rewrite Ha; apply rep_op_ok; auto).
  pose proof (step_refines vzero d (sop_op o) Hw Hok) as H1.
  pose proof (pstep_rep sch samples pos o Hg Hc Hlen) as H2.
  destruct (step vzero d (sop_op o)) as [d' x]. destruct H1 as [Hw' H1].
  destruct (sstep sch (samples, pos) o) as [[samples' pos'] y]. destruct H2 as [H2 Hlen'].
  rewrite Ha, H2 in H1. apply pair_equal_spec in H1. destruct H1 as [H1 H3].
  unfold R. simpl. auto.
Qed.

Lemma sim_run sch os : good sch -> Forall (clean sch) os -> forall d s, R sch d s ->
  R sch (fst (run vzero d (map sop_op os))) (fst (srun sch s os)) /\
  snd (run vzero d (map sop_op os)) = snd (srun sch s os).
Proof.
  intros Hg. induction os as [|o os IH]; intros Hc d s HR; cbn [map run srun].
  - auto.
  - inversion Hc; subst. pose proof (sim_step sch d s o Hg H1 HR) as H.
    destruct (step vzero d (sop_op o)) as [d1 x]. destruct (sstep sch s o) as [s1 y].
    destruct H as [HR1 ->]. destruct (IH H2 d1 s1 HR1) as [Ha Hb].
    destruct (run vzero d1 (map sop_op os)) as [d2 xs].
    destruct (srun sch s1 os) as [s2 ys]. simpl in *. subst. auto.
Qed.

(** ** Construction *)

Lemma run_app os1 os2 : forall d : ds,
  run vzero d (os1 ++ os2)
  = let '(d1, xs) := run vzero d os1 in
    let '(d2, ys) := run vzero d1 os2 in (d2, xs ++ ys).
Proof.
  induction os1 as [|o t IH]; intro d; simpl.
  - destruct (run vzero d os2); reflexivity.
  - destruct (step vzero d o) as [d1 x]. rewrite IH.
    destruct (run vzero d1 t) as [d2 xs]. destruct (run vzero d2 os2). reflexivity.
Qed.

Lemma prun_addFields sch : forall pre : list (string * (nat * list row)),
  NoDup (map fst pre ++ map fst sch) ->
  prun (mkP pre [] 0%Z) (map (fun kn => OAddField (fst kn) (snd kn)) sch)
  = (mkP (pre ++ cols 0 sch []) [] 0%Z, repeat OutUnit (length sch)).
Proof.
  induction sch as [|[l n] t IH]; intros pre Hn; simpl.
  - rewrite app_nil_r. reflexivity.
  - assert (Hl : ~ In l (map fst pre)).
    { simpl in Hn. apply NoDup_remove_2 in Hn. intro H. apply Hn. apply in_or_app; auto. }
    rewrite set_keys_absent by auto. rewrite IH.
    + rewrite <- app_assoc. simpl.
      assert (Hk : forall k k', cols k t ([] : list (list row)) = cols k' t []).
      { clear. induction t as [|[l n] t IH]; intros k k'; simpl; auto. f_equal. apply IH. }
      rewrite (Hk 0 1). reflexivity.
    + rewrite map_app. simpl. rewrite <- app_assoc. exact Hn.
Qed.

Lemma prun_app (os1 os2 : list (op V)) : forall p,
  prun p (os1 ++ os2)
  = let '(d1, xs) := prun p os1 in
    let '(d2, ys) := prun d1 os2 in (d2, xs ++ ys).
Proof.
  induction os1 as [|o t IH]; intro d; simpl.
  - destruct (prun d os2); reflexivity.
  - destruct (pstep d o) as [d1 x]. rewrite IH.
    destruct (prun d1 t) as [d2 xs]. destruct (prun d2 os2). reflexivity.
Qed.

Lemma prun_schema sch : good sch ->
  prun (pempty (V := V)) (schema_ops sch) = (rep sch [] 0, repeat OutUnit (S (length sch))).
Proof.
  intros (Hne & Hnd & _). unfold schema_ops. rewrite prun_app.
  unfold pempty. rewrite prun_addFields by (simpl; auto). simpl app at 1.
  cbn [prun]. 
  assert (HL : pstep (mkP (cols 0 sch ([] : list (list row))) [] 0%Z) (OLink (map fst sch))
               = (rep sch [] 0, OutUnit)).
  { assert (Hr : forall l, In l (map fst sch) ->
        prows (mkP (cols 0 sch ([] : list (list row))) [] 0%Z) l = Some []).
    { intros l Hl. change (prows (rep sch [] 0) l = Some []). rewrite prows_rep.
      destruct (index_of_In _ _ Hl) as [j ->]. reflexivity. }
    cbn [pstep]. destruct (map fst sch) as [|l ls] eqn:E.
    - destruct sch; [congruence|discriminate].
    - rewrite Hr by (left; auto). rewrite <- E in Hr.
      assert (Hin : forall k, In k ls -> In k (map fst sch)) by (rewrite E; right; auto).
      revert Hin. generalize ls at 1 3 as ks. induction ks as [|k t IH]; intro Hin.
      + unfold rep. rewrite E. reflexivity.
      + rewrite Hr by (apply Hin; left; auto). simpl Nat.eqb. apply IH.
        intros k' Hk'. apply Hin. right; auto. }
  rewrite HL. f_equal. simpl. rewrite <- repeat_cons. reflexivity.
Qed.

Lemma schema_session_ok sch : good sch -> session_ok (pempty (V := V)) (schema_ops sch).
Proof.
  intros (_ & _ & He). unfold schema_ops.
  generalize (pempty (V := V)) as p. induction sch as [|[l n] t IH]; intro p; simpl.
  - auto.
  - simpl in He. split; [intro; subst; tauto|].
    assert (H : forall ls q, session_ok (V := V) q (map (fun kn => OAddField (fst kn) (snd kn)) t ++ [OLink ls])).
    { clear -He. intro ls. induction t as [|[l' n'] t IH]; intro q; simpl; auto.
      simpl in He. split; [intro; subst; tauto|]. apply IH. tauto. }
    apply H.
Qed.

Lemma R_schema sch : good sch ->
  R sch (fst (run vzero empty_ds (schema_ops sch))) ([], 0) /\
  snd (run vzero empty_ds (schema_ops sch)) = repeat OutUnit (S (length sch)).
Proof.
  intro Hg. destruct (run_refines vzero (schema_ops sch) empty_ds wf_empty (schema_session_ok sch Hg)) as [Hw Hr].
  change (abs empty_ds) with (pempty (V := V)) in Hr. rewrite prun_schema in Hr by auto.
  apply pair_equal_spec in Hr. destruct Hr as [Ha Ho].
  split; [|congruence]. split; [exact Hw|]. simpl. split; [congruence|tauto].
Qed.

Lemma session_is_sample_list sch os : good sch -> Forall (clean sch) os ->
  snd (run vzero empty_ds (schema_ops sch ++ map sop_op os))
  = repeat OutUnit (S (length sch)) ++ snd (srun sch ([], 0) os).
Proof.
  intros Hg Hc. rewrite run_app. destruct (R_schema sch Hg) as [HR Ho].
  destruct (run vzero empty_ds (schema_ops sch)) as [d1 xs]. simpl in *.
  destruct (sim_run sch os Hg Hc d1 _ HR) as [_ H].
  destruct (run vzero d1 (map sop_op os)). simpl in *. subst; auto.
Qed.

Lemma R_session sch os : good sch -> Forall (clean sch) os ->
  R sch (fst (run vzero empty_ds (schema_ops sch ++ map sop_op os))) (fst (srun sch ([], 0) os)).
Proof.
  intros Hg Hc. rewrite run_app. destruct (R_schema sch Hg) as [HR Ho].
  destruct (run vzero empty_ds (schema_ops sch)) as [d1 xs]. simpl in *.
  destruct (sim_run sch os Hg Hc d1 _ HR) as [H _].
  destruct (run vzero d1 (map sop_op os)). exact H.
Qed.

(** ** Iteration *)

Lemma iter_loop_R sch : good sch -> forall fuel d samples pos,
  R sch d (samples, pos) -> pos <= length samples -> length samples - pos < fuel ->
  iter_loop fuel d = Ok (skipn pos samples).
Proof.
  intros Hg. induction fuel as [|fuel IH]; intros d samples pos HR Hp Hf; [lia|].
  cbn [iter_loop].
  pose proof (sim_step sch d (samples, pos) SEnd Hg I HR) as H1. cbn in H1.
  destruct H1 as [_ H1]. 
  destruct (endOfData d) as [b|e] eqn:Ee; simpl in H1; [|discriminate].
  inversion H1; subst b. simpl rbind.
  destruct (Nat.eqb_spec pos (length samples)) as [->|Hn].
  - rewrite skipn_all. reflexivity.
  - pose proof (sim_step sch d (samples, pos) (SGet None) Hg I HR) as H2. cbn in H2.
    destruct (getLinked d None) as [d' x]. destruct H2 as [HR' H2].
    destruct (nth_error samples pos) as [smp|] eqn:En.
    2:{ apply nth_error_None in En. lia. }
    destruct x as [s|e]; simpl in H2; inversion H2; subst s.
    rewrite (IH d' samples (S pos) HR') by lia. simpl.
    f_equal. symmetry. clear -En. revert pos En. induction samples as [|x t IH]; intros [|p] H; simpl in *; try discriminate.
    + inversion H; reflexivity.
    + apply IH; auto.
Qed.

Lemma iter_session sch os fuel : good sch -> Forall (clean sch) os ->
  length (fst (fst (srun sch ([], 0) os))) < fuel ->
  iter fuel (fst (run vzero empty_ds (schema_ops sch ++ map sop_op os)))
  = Ok (fst (fst (srun sch ([], 0) os))).
Proof.
  intros Hg Hc Hf. pose proof (R_session sch os Hg Hc) as HR.
  destruct (srun sch ([], 0) os) as [[samples pos] xs]. simpl in *.
  unfold iter. pose proof (sim_step sch _ _ SReset Hg I HR) as H. cbn in H. destruct H as [H _].
  rewrite (iter_loop_R sch Hg fuel _ samples 0 H); [reflexivity| |]; lia.
Qed.

End Proofs.
