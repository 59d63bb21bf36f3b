From Verif Require Import Base Dataset_Model Dataset_Spec Dataset_Proofs Dataset_Proofs2
  Batches_Model Sequential_Model Sequential_Spec Sequential_Proofs.

Section Proofs.
Context {V : Type} (vzero : V).
Notation row := (row V).
Notation sample := (list row).
Notation sds := (sds V).

Lemma add_to_last_app (a : list (list sample)) z smp : add_to_last (a ++ [z]) smp = a ++ [z ++ [smp]].
Proof.
  induction a as [|s a IH]; auto. cbn [app add_to_last]. rewrite IH.
  destruct (a ++ [z]) eqn:E; auto. destruct a; discriminate.
Qed.

Lemma concat_add_to_last (ss : list (list sample)) smp : concat (add_to_last ss smp) = concat ss ++ [smp].
Proof.
  destruct ss as [|s t]; auto.
  destruct (@exists_last _ (s :: t)) as (a & z & ->); [discriminate|].
  rewrite add_to_last_app, !concat_app. simpl. rewrite !app_nil_r, app_assoc. reflexivity.
Qed.

Lemma starts_add_to_last (ss : list (list sample)) smp a : wfs ss -> starts a (add_to_last ss smp) = starts a ss.
Proof.
  intros (b & z & -> & _). rewrite add_to_last_app, !starts_app. reflexivity.
Qed.

Lemma wfs_add (ss : list (list sample)) smp : wfs ss -> wfs (add_to_last ss smp).
Proof. intros (a & z & -> & F). rewrite add_to_last_app. exists a, (z ++ [smp]). auto. Qed.

Lemma py_nth_last {A} (l : list A) x : py_nth (l ++ [x]) (-1)%Z = Some x.
Proof.
  unfold py_nth. simpl. rewrite app_length. simpl.
  replace (Z.to_nat (Z.of_nat (length l + 1) + -1)) with (length l) by lia.
  destruct (Z.ltb_spec (Z.of_nat (length l + 1) + -1) 0); [lia|].
  rewrite nth_error_app2, Nat.sub_diag by lia. reflexivity.
Qed.

Lemma total_app (a : list (list sample)) z : total (a ++ [z]) = total a + length z.
Proof. unfold total. rewrite concat_app, app_length. simpl. rewrite app_nil_r. reflexivity. Qed.

Lemma filter_length_le {A} (p : A -> bool) l : length (filter p l) <= length l.
Proof. induction l as [|x l IH]; simpl; auto. destruct (p x); simpl; lia. Qed.

Lemma filter_starts (ss : list (list sample)) : wfs ss -> forall a p, a <= p ->
  length ss - length (filter (fun q => Z.of_nat p <? Z.of_nat q)%Z (starts a ss)) = S (seq_at ss (p - a)).
Proof.
  induction ss as [|s t IH]; intros Hw a p Hp.
  - destruct Hw as (b & z & E & _). destruct b; discriminate.
  - cbn [starts filter]. destruct (Z.ltb_spec (Z.of_nat p) (Z.of_nat a)); [lia|].
    destruct t as [|s' t'].
    + reflexivity.
    + destruct (wfs_cons _ _ Hw) as [Hs Hw']; [discriminate|].
      change (seq_at (s :: s' :: t') (p - a)) with
        (if (p - a <? length s)%nat then 0 else S (seq_at (s' :: t') (p - a - length s))).
      destruct (Nat.ltb_spec (p - a) (length s)) as [H1|H1].
      * assert (E : filter (fun q => (Z.of_nat p <? Z.of_nat q)%Z) (starts (a + length s) (s' :: t'))
                    = starts (a + length s) (s' :: t')).
        { assert (Hall : forall v, In v (starts (a + length s) (s' :: t')) -> p < v)
            by (intros v Hv; apply starts_ge in Hv; lia).
          revert Hall. generalize (starts (a + length s) (s' :: t')). clear.
          induction l as [|v l IH]; intro H; simpl; auto.
          destruct (Z.ltb_spec (Z.of_nat p) (Z.of_nat v)).
          - f_equal. apply IH. intros; apply H; right; auto.
          - specialize (H v (or_introl eq_refl)). lia. }
        rewrite E, starts_length. cbn [length]. lia.
      * specialize (IH Hw' (a + length s) p ltac:(lia)).
        replace (p - (a + length s)) with (p - a - length s) in IH by lia.
        rewrite <- IH. cbn [length].
        assert (Hle : length (filter (fun q => (Z.of_nat p <? Z.of_nat q)%Z) (starts (a + length s) (s' :: t')))
                      <= S (length t')).
        { etransitivity; [apply filter_length_le|]. rewrite starts_length. simpl. lia. }
        simpl length in IH. lia.
Qed.

Lemma sim_qstep sch (s : sds) st o : good sch -> qclean sch o -> RS sch s st ->
  let '(s', x) := qstep vzero s o in
  let '(st', y) := aqstep sch st o in RS sch s' st' /\ x = y.
Proof.
  intros Hg Hc HR. destruct st as [ss pos].
  pose proof (RS_seqs _ _ _ HR) as Hsq. cbn [fst] in Hsq.
  pose proof (RS_length vzero _ _ _ Hg HR) as HL. cbn [fst] in HL.
  destruct o as [|rs|i|i| | |i|i| | | |i|i| ].
  - (* newSequence *)
    cbn [qstep aqstep]. unfold newSequence. rewrite HL, Hsq.
    destruct (Nat.eqb_spec (total ss) 0) as [H0|H0]; [cbn; auto|].
    pose proof HR as (HRb & Hwq & Haq & Hws). cbn [fst snd] in *.
    destruct Hws as (a & z & -> & F).
    rewrite starts_app, py_nth_last, rev_app_distr. cbn [rev app Nat.add].
    rewrite total_app. destruct z as [|smp z].
    + cbn [length]. rewrite Nat.add_0_r, Nat.eqb_refl. cbn. auto.
    + destruct (Nat.eqb_spec (total a) (total a + length (smp :: z))) as [E|E]; [simpl in E; lia|].
      destruct (push_seq_abs s (total a + length (smp :: z)) _ Hwq Haq) as (H1 & H2 & H3).
      cbn [fst snd qout_of]. split; auto. unfold RS. cbn [fst snd]. rewrite H1.
      split; [|split; [|split]]; auto.
      * rewrite concat_app. cbn [concat]. rewrite app_nil_r. exact HRb.
      * rewrite H3. do 3 f_equal. rewrite (starts_app (a ++ [smp :: z])), map_app, total_app. reflexivity.
      * exists (a ++ [smp :: z]), []. split; auto. apply Forall_app; split; auto. constructor; auto. discriminate.
  - (* addSample *)
    pose proof HR as (HRb & Hwq & Haq & Hws). cbn [fst snd] in *.
    pose proof (sim_step vzero sch (body s) _ (SAdd rs) Hg Hc HRb) as H.
    cbn [qstep]. unfold addSample. cbn in H |- *.
    destruct (appendLinked vzero (body s) rs) as [d x] eqn:E.
    destruct (length rs =? length sch).
    + destruct (fit_all sch rs) as [smp|]; cbn in H |- *; destruct H as [H1 H2].
      * split; [|destruct x; inversion H2; reflexivity].
        unfold RS. cbn [body seqd fst snd]. rewrite concat_add_to_last, starts_add_to_last by auto.
        split; [|split; [|split]]; auto. apply wfs_add; auto.
      * split; [|destruct x; inversion H2; reflexivity].
        unfold RS. cbn [body seqd fst snd]. auto.
    + cbn in H |- *. destruct H as [H1 H2]. split; [|destruct x; inversion H2; reflexivity].
      unfold RS. cbn [body seqd fst snd]. auto.
  - apply (remove_step vzero); auto.
  - (* gotoSequence *)
    cbn [qstep aqstep]. unfold gotoSequence. rewrite Hsq.
    destruct (Nat.ltb_spec i (length ss)) as [H|H].
    + rewrite starts_nth by auto. cbn. split; auto.
      destruct HR as (HRb & Hwq & Haq & Hws). cbn [fst snd] in *.
      split; [|split; [|split]]; auto. cbn [body fst snd]. eapply R_idx; eauto.
    + rewrite (proj2 (nth_error_None _ _)) by (rewrite starts_length; auto). cbn. auto.
  - cbn. split; auto. eapply (RS_clear vzero); eauto.
  - cbn. unfold getNumSequences. rewrite Hsq, starts_length. auto.
  - (* getSequenceLength *)
    cbn [qstep aqstep]. split; auto. unfold getSequenceLength. rewrite Hsq, starts_length, HL.
    cbn [rbind]. destruct (Nat.eqb_spec (length ss) (i + 1)) as [E|E].
    + rewrite starts_nth by lia. destruct (nth_error ss i) as [sq|] eqn:En; [|apply nth_error_None in En; lia].
      cbn. f_equal. rewrite <- before_total, E, Nat.add_1_r, (before_S _ _ _ En). lia.
    + destruct (Nat.ltb_spec (length ss) (i + 1)) as [H|H].
      * rewrite (proj2 (nth_error_None _ _)) by lia. reflexivity.
      * rewrite !starts_nth by lia. destruct (nth_error ss i) as [sq|] eqn:En; [|apply nth_error_None in En; lia].
        cbn. f_equal. rewrite Nat.add_1_r, (before_S _ _ _ En). lia.
  - cbn [qstep aqstep]. split; auto. rewrite (RS_getSequence _ _ _ _ Hg HR). cbn [fst].
    destruct (nth_error ss i); reflexivity.
  - cbn [qstep aqstep]. split; auto. rewrite (RS_iter _ _ _ Hg HR). reflexivity.
  - cbn [qstep aqstep]. split; auto. rewrite HL. reflexivity.
  - (* getCurrentSequence *)
    cbn [qstep aqstep]. split; auto. f_equal. unfold getCurrentSequence. rewrite Hsq.
    pose proof HR as ((_ & Hab & _) & _ & _ & Hws). cbn [fst snd] in *.
    apply (f_equal pidx) in Hab. cbn in Hab. rewrite Hab.
    pose proof (filter_starts ss Hws 0 pos ltac:(lia)) as H. rewrite Nat.sub_0_r in H.
    rewrite starts_length. lia.
  - (* endOfSequence *)
    cbn [qstep aqstep]. split; auto. unfold endOfSequence. rewrite Hsq, starts_length.
    pose proof HR as ((_ & Hab & _) & _ & _ & Hws). cbn [fst snd] in *.
    apply (f_equal pidx) in Hab. cbn in Hab.
    destruct (Nat.eqb_spec (length ss) (i + 1)) as [E|E].
    + destruct (Nat.leb_spec (length ss) i); [lia|]. destruct (Nat.eqb_spec (S i) (length ss)); [|lia].
      unfold endOfData. rewrite HL, Hab. cbn. f_equal.
      destruct (Nat.eqb_spec pos (total ss)), (Z.eqb_spec (Z.of_nat pos) (Z.of_nat (total ss))); auto; lia.
    + destruct (Nat.ltb_spec (length ss) (i + 1)) as [H|H].
      * destruct (Nat.leb_spec (length ss) i); [|lia]. reflexivity.
      * destruct (Nat.leb_spec (length ss) i); [lia|]. destruct (Nat.eqb_spec (S i) (length ss)); [lia|].
        rewrite Nat.add_1_r, starts_nth by lia. cbn [Nat.add qout_of]. f_equal. rewrite Hab.
        destruct (Nat.leb_spec (before ss (S i)) pos), (Z.leb_spec (Z.of_nat (before ss (S i))) (Z.of_nat pos)); auto; lia.
  - (* getSample *)
    pose proof HR as (HRb & Hwq & Haq & Hws). cbn [fst snd] in *.
    cbn [qstep]. unfold getSample.
    pose proof (sim_step vzero sch (body s) _ (SGet i) Hg I HRb) as H.
    assert (Ei : sop_op (V := V) (SGet i) = OGetLinked (option_map Z.of_nat i)) by (destruct i; reflexivity).
    rewrite Ei in H. cbn in H |- *.
    destruct (getLinked (body s) (option_map Z.of_nat i)) as [d x] eqn:E.
    cbn in H. destruct H as [H1 H2]. split.
    + unfold RS. cbn [body seqd fst snd]. auto.
    + destruct (nth_error (concat ss) _), x; inversion H2; reflexivity.
  - (* reset *)
    cbn. split; auto.
    pose proof HR as (HRb & Hwq & Haq & Hws). cbn [fst snd] in *.
    split; [|split; [|split]]; auto. cbn [body fst snd]. unfold reset.
    change 0%Z with (Z.of_nat 0). eapply R_idx; eauto.
Qed.

Lemma sim_qrun sch os : good sch -> Forall (qclean sch) os -> forall (s : sds) st, RS sch s st ->
  RS sch (fst (qrun vzero s os)) (fst (aqrun sch st os)) /\
  snd (qrun vzero s os) = snd (aqrun sch st os).
Proof.
  intros Hg. induction os as [|o os IH]; intros Hc s st HR; [cbn; auto|].
  inversion Hc; subst. cbn. pose proof (sim_qstep sch s st o Hg H1 HR) as H.
  destruct (qstep vzero s o) as [s1 x]. destruct (aqstep sch st o) as [st1 y].
  destruct H as [HR1 ->]. destruct (IH H2 s1 st1 HR1) as [H3 H4].
  destruct (qrun vzero s1 os), (aqrun sch st1 os). cbn in *. split; auto. congruence.
Qed.

Lemma session_is_sequence_list sch os : good sch -> Forall (qclean sch) os ->
  let s0 := init (fst (run vzero empty_ds (schema_ops sch))) in
  RS sch (fst (qrun vzero s0 os)) (fst (aqrun sch ([[]], 0) os)) /\
  snd (qrun vzero s0 os) = snd (aqrun sch ([[]], 0) os).
Proof.
  intros Hg Hc. apply sim_qrun; auto. apply RS_init. apply R_schema; auto.
Qed.

(** ** Splitting *)

Lemma fit_idem n (r r' : row) : fit n r = Some r' -> fit n r' = Some r'.
Proof.
  unfold fit. intro H. assert (E : length r' = n).
  { destruct (Nat.eqb_spec (length r) n); [inversion H; subst; auto|].
    destruct r as [|x [|]]; inversion H; subst. apply repeat_length. }
  rewrite E, Nat.eqb_refl. reflexivity.
Qed.

Lemma fit_all_idem sch : forall rs rs' : list row, fit_all sch rs = Some rs' -> fit_all sch rs' = Some rs'.
Proof.
  induction sch as [|[l n] t IH]; intros [|r rs] rs' H; simpl in *; try discriminate.
  - inversion H; reflexivity.
  - destruct (fit n r) eqn:E1; [|discriminate]. destruct (fit_all t rs) eqn:E2; [|discriminate].
    inversion H; subst. rewrite (fit_idem _ _ _ E1), (IH _ _ E2). reflexivity.
Qed.

Definition fitted (sch : list (string * nat)) (ss : list (list sample)) : Prop :=
  Forall (fun smp => fit_all sch smp = Some smp) (concat ss).

Lemma fitted_step sch st (o : qop V) : fitted sch (fst st) -> fitted sch (fst (fst (aqstep sch st o))).
Proof.
  destruct st as [ss pos]. unfold fitted. cbn [fst]. intro H. destruct o; cbn [aqstep]; auto.
  - destruct (total ss =? 0); auto. destruct (rev ss) as [|[|]]; cbn; auto;
      rewrite concat_app; simpl; rewrite app_nil_r; auto.
  - destruct (length rs =? length sch); auto. destruct (fit_all sch rs) eqn:E; auto. cbn [fst].
    rewrite concat_add_to_last. apply Forall_app. split; auto. repeat constructor. eapply fit_all_idem; eauto.
  - destruct (length ss <=? i); auto.
    assert (Hr : Forall (fun smp => fit_all sch smp = Some smp) (concat (remove_nth i ss))).
    { unfold remove_nth. rewrite concat_app. apply Forall_app. split.
      - rewrite <- (firstn_skipn i ss), concat_app in H. apply Forall_app in H. tauto.
      - rewrite <- (firstn_skipn (S i) ss), concat_app in H. apply Forall_app in H. tauto. }
    destruct (remove_nth i ss) eqn:E; auto.
  - destruct (i <? length ss); auto.
  - constructor.
Qed.

Lemma fitted_run sch (os : list (qop V)) : forall st, fitted sch (fst st) -> fitted sch (fst (fst (aqrun sch st os))).
Proof.
  induction os as [|o os IH]; intros st H; auto. cbn.
  pose proof (fitted_step sch st o H) as H1.
  destruct (aqstep sch st o) as [st1 y]. pose proof (IH st1 H1) as H2. destruct (aqrun sch st1 os). exact H2.
Qed.

Lemma add_samples_RS sch sq : good sch -> Forall (fun smp => fit_all sch smp = Some smp) sq ->
  forall (s : sds) a z pos, RS sch s (a ++ [z], pos) ->
  exists s', fold_left (fun acc sp => match acc with
                               | (s2, Ok _) => addSample vzero s2 sp
                               | (s2, Err e) => (s2, Err e)
                               end) sq (s, Ok tt) = (s', Ok tt) /\ RS sch s' (a ++ [z ++ sq], pos).
Proof.
  intros Hg. induction sq as [|smp sq IH]; intros HF s a z pos HR.
  - exists s. rewrite app_nil_r. auto.
  - inversion HF as [|? ? H1 H2]; subst. cbn [fold_left].
    assert (Hc : qclean sch (QAdd smp)) by (cbn; right; left; congruence).
    pose proof (sim_qstep sch s _ _ Hg Hc HR) as H. cbn [qstep aqstep] in H.
    rewrite H1, (fit_all_length _ _ _ H1), Nat.eqb_refl, add_to_last_app in H.
    destruct (addSample vzero s smp) as [s1 x]. cbn in H. destruct H as [HR1 Hx].
    destruct x as [[]|]; [|discriminate].
    destruct (IH H2 s1 a (z ++ [smp]) pos HR1) as (s' & E & HR'). exists s'. split; auto.
    rewrite <- app_assoc in HR'. exact HR'.
Qed.

Definition addseq (ss : list (list sample)) (sq : list sample) : list (list sample) :=
  if total ss =? 0 then [sq] else ss ++ [sq].

Lemma add_sequence_RS sch (s : sds) ss sq : good sch -> Forall (fun smp => fit_all sch smp = Some smp) sq ->
  RS sch s (ss, 0) -> (total ss = 0 \/ Forall (fun q => q <> []) ss) ->
  exists s', add_sequence vzero s sq = (s', Ok tt) /\ RS sch s' (addseq ss sq, 0).
Proof.
  intros Hg HF HR Hss. unfold add_sequence, addseq.
  pose proof (sim_qstep sch s _ QNew Hg I HR) as H. cbn [qstep aqstep] in H.
  pose proof HR as (_ & _ & _ & Hws). cbn [fst] in Hws.
  destruct (Nat.eqb_spec (total ss) 0) as [E|E].
  - rewrite (total_zero ss Hws E) in *. destruct (newSequence s) as [s1 x]. cbn in H. destruct H as [HR1 Hx].
    destruct x as [[]|]; [|discriminate].
    destruct (add_samples_RS sch sq Hg HF s1 [] [] 0 HR1) as (s' & E' & HR'). eauto.
  - destruct Hss as [Hss|Hss]; [contradiction|].
    destruct Hws as (a & z & -> & _). apply Forall_app in Hss. destruct Hss as [_ Hz]. inversion Hz; subst.
    rewrite rev_app_distr in H. cbn [rev app] in H. destruct z as [|z0 z]; [congruence|].
    destruct (newSequence s) as [s1 x]. cbn in H. destruct H as [HR1 Hx].
    destruct x as [[]|]; [|discriminate].
    destruct (add_samples_RS sch sq Hg HF s1 (a ++ [z0 :: z]) [] 0 HR1) as (s' & E' & HR'). eauto.
Qed.

Lemma split_loop sch (li : list nat) : good sch ->
  forall all, Forall (Forall (fun smp => fit_all sch smp = Some smp)) all ->
  (all = [] \/ exists a z, all = a ++ [z] /\ Forall (fun q => q <> []) a) ->
  forall k (l r : sds) L R', RS sch l (or_one L, 0) -> RS sch r (or_one R', 0) ->
  Forall (fun q => q <> []) L -> Forall (fun q => q <> []) R' ->
  exists l' r' k', fold_left (fun acc sq => match acc with
                 | (index, l, r, Ok _) =>
                     if existsb (Nat.eqb index) li
                     then let '(l', y) := add_sequence vzero l sq in (S index, l', r, y)
                     else let '(r', y) := add_sequence vzero r sq in (S index, l, r', y)
                 | _ => acc
                 end) all (k, l, r, Ok tt) = (k', l', r', Ok tt) /\
   RS sch l' (or_one (L ++ choose (fun i => existsb (Nat.eqb i) li) k all), 0) /\
   RS sch r' (or_one (R' ++ choose (fun i => negb (existsb (Nat.eqb i) li)) k all), 0).
Proof.
  intros Hg. induction all as [|sq all IH]; intros HF Hall k l r L R' Hl Hr HL HR'.
  - exists l, r, k. cbn. rewrite !app_nil_r. auto.
  - inversion HF as [|? ? HF1 HF2]; subst.
    assert (Hne : forall X, Forall (fun q : list sample => q <> []) X -> total (or_one X) = 0 \/ Forall (fun q => q <> []) (or_one X)).
    { intros [|x X] H; auto. }
    assert (Hadd : forall X, Forall (fun q : list sample => q <> []) X -> addseq (or_one X) sq = or_one (X ++ [sq])).
    { intros [|x X] H; auto. unfold addseq. simpl or_one. inversion H; subst.
      destruct (Nat.eqb_spec (total (x :: X)) 0) as [E|E]; [|reflexivity].
      unfold total in E. simpl in E. rewrite app_length in E. destruct x; [congruence|simpl in E; lia]. }
    assert (Hrest : all = [] \/ (sq <> [] /\ (all = [] \/ exists a z, all = a ++ [z] /\ Forall (fun q => q <> []) a))).
    { destruct Hall as [E|(a & z & E & F)]; [discriminate|].
      destruct a as [|q a]; simpl in E; inversion E; subst; auto.
      inversion F; subst. right. split; auto. right. eauto. }
    cbn [fold_left choose].
    destruct (existsb (Nat.eqb k) li) eqn:Ek; cbn [negb].
    + destruct (add_sequence_RS sch l _ sq Hg HF1 Hl (Hne L HL)) as (l1 & E1 & H1). rewrite E1.
      rewrite (Hadd L HL) in H1. destruct Hrest as [->|[Hsq Hrest]].
      * cbn. exists l1, r, (S k). rewrite app_nil_r. auto.
      * destruct (IH HF2 Hrest (S k) l1 r (L ++ [sq]) R') as (l' & r' & k' & E & H2 & H3); auto.
        { apply Forall_app; auto. }
        exists l', r', k'. rewrite <- app_assoc in H2. auto.
    + destruct (add_sequence_RS sch r _ sq Hg HF1 Hr (Hne R' HR')) as (r1 & E1 & H1). rewrite E1.
      rewrite (Hadd R' HR') in H1. destruct Hrest as [->|[Hsq Hrest]].
      * cbn. exists l, r1, (S k). rewrite app_nil_r. auto.
      * destruct (IH HF2 Hrest (S k) l r1 L (R' ++ [sq])) as (l' & r' & k' & E & H2 & H3); auto.
        { apply Forall_app; auto. }
        exists l', r', k'. rewrite <- app_assoc in H3. auto.
Qed.

Lemma split_RS sch (s : sds) ss pos li : good sch -> fitted sch ss -> RS sch s (ss, pos) ->
  exists l r, splitWithProportion_seq vzero s li = Ok (l, r) /\
    RS sch l (or_one (choose (fun i => existsb (Nat.eqb i) li) 0 ss), 0) /\
    RS sch r (or_one (choose (fun i => negb (existsb (Nat.eqb i) li)) 0 ss), 0).
Proof.
  intros Hg Hf HR. unfold splitWithProportion_seq. rewrite (RS_iter _ _ _ Hg HR). cbn [fst rbind].
  pose proof (RS_clear vzero _ _ _ Hg HR) as Hc.
  destruct (split_loop sch li Hg ss) with (k := 0) (l := clear_seq s) (r := clear_seq s)
    (L := @nil (list sample)) (R' := @nil (list sample)) as (l' & r' & k' & E & H1 & H2); auto.
  - apply Forall_concat. exact Hf.
  - right. destruct HR as (_ & _ & _ & Hw). exact Hw.
  - rewrite E. exists l', r'. auto.
Qed.

End Proofs.

Lemma choose_length {A} (l : list A) li : NoDup li -> (forall i, In i li -> i < length l) ->
  length (choose (fun i => existsb (Nat.eqb i) li) 0 l) = length li.
Proof.
  intros Hn Hb.
  assert (Hgen : forall (l : list A) k, length (choose (fun i => existsb (Nat.eqb i) li) k l)
     = length (filter (fun i => existsb (Nat.eqb i) li) (seq k (length l)))).
  { clear. induction l as [|x l IH]; intro k; simpl; auto.
    destruct (existsb (Nat.eqb k) li); simpl; rewrite IH; auto. }
  rewrite Hgen. apply Permutation_length, NoDup_Permutation; auto.
  - apply NoDup_filter, seq_NoDup.
  - intro x. rewrite filter_In, in_seq, existsb_exists. split.
    + intros [_ (y & Hy & E)]. apply Nat.eqb_eq in E. subst; auto.
    + intro H. split; [specialize (Hb x H); lia|]. exists x. split; auto. apply Nat.eqb_refl.
Qed.

Lemma choose_partition {A} p (l : list A) k :
  Permutation (choose p k l ++ choose (fun i => negb (p i)) k l) l.
Proof.
  revert k; induction l as [|x l IH]; intro k; simpl; auto.
  destruct (p k); simpl; auto. rewrite <- Permutation_middle. auto.
Qed.

Section Final.
Context {V : Type} (vzero : V).

Definition seq_init (sch : list (string * nat)) : sds V := init (fst (run vzero empty_ds (schema_ops sch))).

Lemma session_outputs sch os : good sch -> Forall (qclean sch) os ->
  snd (qrun vzero (seq_init sch) os) = snd (aqrun sch ([[]], 0) os).
Proof. intros Hg Hc. apply (session_is_sequence_list vzero sch os Hg Hc). Qed.

Lemma split_session sch os li : good sch -> Forall (qclean sch) os ->
  let s := fst (qrun vzero (seq_init sch) os) in
  exists ss l r,
    iter_seqs s = Ok ss /\ splitWithProportion_seq vzero s li = Ok (l, r) /\
    iter_seqs l = Ok (or_one (choose (fun i => existsb (Nat.eqb i) li) 0 ss)) /\
    iter_seqs r = Ok (or_one (choose (fun i => negb (existsb (Nat.eqb i) li)) 0 ss)) /\
    Permutation (choose (fun i => existsb (Nat.eqb i) li) 0 ss ++
                 choose (fun i => negb (existsb (Nat.eqb i) li)) 0 ss) ss /\
    (NoDup li -> (forall i, In i li -> i < length ss) ->
     length (choose (fun i => existsb (Nat.eqb i) li) 0 ss) = length li) /\
    (forall os', Forall (qclean sch) os' ->
       snd (qrun vzero l os')
       = snd (aqrun sch (or_one (choose (fun i => existsb (Nat.eqb i) li) 0 ss), 0) os') /\
       snd (qrun vzero r os')
       = snd (aqrun sch (or_one (choose (fun i => negb (existsb (Nat.eqb i) li)) 0 ss), 0) os')).
Proof.
  intros Hg Hc. cbv zeta. destruct (session_is_sequence_list vzero sch os Hg Hc) as [HR _].
  fold (seq_init sch) in HR.
  assert (Hf : fitted sch (fst (fst (aqrun sch ([[]], 0) os)))) by (apply fitted_run; constructor).
  destruct (fst (aqrun sch ([[]], 0) os)) as [ss pos].
  destruct (split_RS vzero sch _ ss pos li Hg Hf HR) as (l & r & E & H1 & H2).
  exists ss, l, r. split; [exact (RS_iter _ _ _ Hg HR)|]. split; auto.
  split; [exact (RS_iter _ _ _ Hg H1)|]. split; [exact (RS_iter _ _ _ Hg H2)|].
  split; [apply choose_partition|]. split; [apply choose_length|].
  intros os' Hc'. split; apply sim_qrun; auto.
Qed.
End Final.
