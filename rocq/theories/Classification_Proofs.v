From Verif Require Import Base Dataset_Model Dataset_Spec Dataset_Proofs Dataset_Proofs2
  Batches_Model Batches_Proofs Sequential_Model Sequential_Spec Sequential_Proofs Sequential_Proofs2
  Classification_Model Classification_Spec.

Lemma getField_set_eq (d : ds Z) l n rows : getField (setField d l n rows) l = Ok rows.
Proof. unfold getField, setField. cbn [fields with_fields]. rewrite lookup_set_eq. cbn. rewrite firstn_all. reflexivity. Qed.

Lemma getField_set_neq (d : ds Z) l k n rows : k <> l -> getField (setField d l n rows) k = getField d k.
Proof. intro H. unfold getField, setField. cbn [fields with_fields]. rewrite lookup_set_neq by auto. reflexivity. Qed.

Lemma dimension_set_eq (d : ds Z) l n rows : dimension (setField d l n rows) l = Ok n.
Proof. unfold dimension, setField. cbn [fields with_fields]. rewrite lookup_set_eq. reflexivity. Qed.

Lemma dimension_set_neq (d : ds Z) l k n rows : k <> l -> dimension (setField d l n rows) k = dimension d k.
Proof. intro H. unfold dimension, setField. cbn [fields with_fields]. rewrite lookup_set_neq by auto. reflexivity. Qed.

Lemma mapM_Forall2 {A B} (f : A -> result B) l r : mapM f l = Ok r -> Forall2 (fun x y => f x = Ok y) l r.
Proof.
  revert r; induction l as [|x l IH]; intros r H; simpl in H.
  - inversion H; constructor.
  - destruct (f x) eqn:E; simpl in H; [|discriminate].
    destruct (mapM f l) eqn:E2; simpl in H; [|discriminate]. inversion H; subst. constructor; auto.
Qed.

Lemma encode_ok n lo hi t : (- Z.of_nat n <= t < Z.of_nat n)%Z ->
  exists r, encode n lo hi [t] = Ok r /\ length r = n /\
    forall j, j < n -> nth_error r j
      = Some (if (Z.of_nat j =? (if t <? 0 then t + Z.of_nat n else t))%Z then hi else lo).
Proof.
  intro H. unfold encode. set (j0 := (if (t <? 0)%Z then (t + Z.of_nat n)%Z else t)).
  assert (Hj : (0 <= j0 < Z.of_nat n)%Z) by (subst j0; destruct (Z.ltb_spec t 0); lia).
  destruct (Z.leb_spec 0 j0); [|lia]. destruct (Z.ltb_spec j0 (Z.of_nat n)); [|lia]. cbn [andb].
  eexists. split; [reflexivity|]. rewrite upd_length, repeat_length. split; auto.
  intros j Hjn. destruct (Z.eqb_spec (Z.of_nat j) j0) as [E|E].
  - rewrite <- E, Nat2Z.id. rewrite nth_error_upd_eq; auto. rewrite repeat_length; auto.
  - rewrite nth_error_upd_neq by lia. apply nth_error_repeat_lt; auto.
Qed.

Lemma encode_err n lo hi t : (t < - Z.of_nat n \/ Z.of_nat n <= t)%Z -> encode n lo hi [t] = Err IndexError.
Proof.
  intro H. unfold encode. set (j0 := (if (t <? 0)%Z then (t + Z.of_nat n)%Z else t)).
  assert (Hj : (j0 < 0 \/ Z.of_nat n <= j0)%Z) by (subst j0; destruct (Z.ltb_spec t 0); lia).
  destruct (Z.leb_spec 0 j0), (Z.ltb_spec j0 (Z.of_nat n)); cbn; auto; lia.
Qed.

Lemma encode_all n lo hi ts : Forall (fun t => - Z.of_nat n <= t < Z.of_nat n)%Z ts ->
  exists rows, mapM (encode n lo hi) (map (fun t => [t]) ts) = Ok rows /\ length rows = length ts /\
    forall i t, nth_error ts i = Some t -> exists r, nth_error rows i = Some r /\ length r = n /\
      forall j, j < n -> nth_error r j
        = Some (if (Z.of_nat j =? (if t <? 0 then t + Z.of_nat n else t))%Z then hi else lo).
Proof.
  induction ts as [|t ts IH]; intro H.
  - exists []. repeat split; auto. intros [|]; discriminate.
  - inversion H; subst. destruct (IH H3) as (rows & E & L & P).
    destruct (encode_ok n lo hi t H2) as (r & E1 & L1 & P1).
    exists (r :: rows). cbn [map mapM]. rewrite E1. cbn [rbind]. rewrite E. cbn [rbind].
    split; auto. split; [simpl; congruence|].
    intros [|i] t' Ht; simpl in Ht.
    + inversion Ht; subst. exists r. auto.
    + apply P; auto.
Qed.

Lemma encode_all_err n lo hi ts : Exists (fun t => t < - Z.of_nat n \/ Z.of_nat n <= t)%Z ts ->
  mapM (encode n lo hi) (map (fun t => [t]) ts) = Err IndexError.
Proof.
  induction ts as [|t ts IH]; intro H; [inversion H|].
  cbn [map mapM].
  destruct (Z.lt_ge_cases t (- Z.of_nat n)) as [H1|H1].
  { rewrite encode_err by auto. reflexivity. }
  destruct (Z.lt_ge_cases t (Z.of_nat n)) as [H2|H2].
  - destruct (encode_ok n lo hi t) as (r & E & _); [lia|]. rewrite E. cbn [rbind].
    inversion H; subst; [lia|]. rewrite IH by auto. reflexivity.
  - rewrite encode_err by auto. reflexivity.
Qed.

Lemma one_of_many c ts n lo hi :
  dimension (cb c) "target" = Ok 1 ->
  getField (cb c) "target" = Ok (map (fun t => [t]) ts) ->
  getLength (cb c) = Ok (length ts) -> nClasses c = Z.of_nat n -> 0 < n ->
  Forall (fun t => 0 <= t < Z.of_nat n)%Z ts ->
  exists c1 rows c2,
    convertToOneOfMany c lo hi = (c1, Ok tt) /\
    getField (cb c1) "target" = Ok rows /\ length rows = length ts /\
    (forall i t, nth_error ts i = Some t -> exists r, nth_error rows i = Some r /\ length r = n /\
       forall j, j < n -> nth_error r j = Some (if (Z.of_nat j =? t)%Z then hi else lo)) /\
    getField (cb c1) "class" = Ok (map (fun t => [t]) ts) /\
    getField (cb c1) "input" = getField (cb c) "input" /\
    convertToClassNb c1 = Ok c2 /\
    getField (cb c2) "target" = Ok (map (fun t => [t]) ts) /\
    getField (cb c2) "input" = getField (cb c) "input" /\
    nClasses c1 = nClasses c /\ nClasses c2 = nClasses c.
Proof.
  intros Hd Ht Hl Hn Hpos HF.
  destruct (encode_all n lo hi ts) as (rows & E & L & P).
  { eapply Forall_impl; [|exact HF]. cbn. intros; lia. }
  unfold convertToOneOfMany. rewrite Hd. cbn [negb Nat.eqb].
  destruct (Z.leb_spec (nClasses c) 0); [lia|].
  rewrite Ht, Hl, map_length, Nat.ltb_irrefl, firstn_all2 by (rewrite map_length; auto).
  rewrite Hn, Nat2Z.id, E.
  eexists _, rows, _. split; [reflexivity|]. cbn [cb nClasses].
  rewrite getField_set_neq by discriminate. rewrite getField_set_eq.
  split; auto. split; auto. split.
  { intros i t Hi. destruct (P i t Hi) as (r & H1 & H2 & H3). exists r. split; auto. split; auto.
    intros j Hj. rewrite H3 by auto. rewrite Forall_forall in HF. apply nth_error_In in Hi.
    specialize (HF t Hi). cbn in HF. destruct (Z.ltb_spec t 0); [lia|reflexivity]. }
  rewrite getField_set_eq. split; auto.
  rewrite !getField_set_neq by discriminate. split; auto.
  unfold convertToClassNb. cbn [cb]. rewrite getField_set_eq, dimension_set_eq. cbn [rbind].
  split; [reflexivity|]. cbn [cb nClasses]. rewrite getField_set_eq. split; auto.
  rewrite !getField_set_neq by discriminate. auto.
Qed.

Lemma one_of_many_refused c ts n lo hi :
  dimension (cb c) "target" = Ok 1 ->
  getField (cb c) "target" = Ok (map (fun t => [t]) ts) ->
  getLength (cb c) = Ok (length ts) -> nClasses c = Z.of_nat n -> 0 < n ->
  Exists (fun t => t < - Z.of_nat n \/ Z.of_nat n <= t)%Z ts ->
  convertToOneOfMany c lo hi = (c, Err IndexError).
Proof.
  intros Hd Ht Hl Hn Hpos HF. unfold convertToOneOfMany. rewrite Hd. cbn [negb Nat.eqb].
  destruct (Z.leb_spec (nClasses c) 0); [lia|].
  rewrite Ht, Hl, map_length, Nat.ltb_irrefl, firstn_all2 by (rewrite map_length; auto).
  rewrite Hn, Nat2Z.id, encode_all_err by auto. reflexivity.
Qed.

(** ** splitByClass *)

Definition class_positions (p : Z -> bool) (cs : list Z) : list nat :=
  filter (fun i => match nth_error cs i with Some z => p z | None => false end) (seq 0 (length cs)).

Lemma where_class_spec p cs : where_class p (map (fun z => [z]) cs) = class_positions p cs.
Proof.
  unfold where_class, class_positions. rewrite map_length.
  assert (H : forall cs k full, (forall i, i < length cs -> nth_error full (k + i) = nth_error cs i) ->
     flat_map (fun ir : nat * list Z => match snd ir with [z] => if p z then [fst ir] else [] | _ => [] end)
       (combine (seq k (length cs)) (map (fun z => [z]) cs))
     = filter (fun i => match nth_error full i with Some z => p z | None => false end) (seq k (length cs))).
  { clear. induction cs as [|c cs IH]; intros k full Hf; [reflexivity|].
    cbn [length seq map combine flat_map filter snd fst].
    pose proof (Hf 0 ltac:(simpl; lia)) as H0. rewrite Nat.add_0_r in H0. simpl in H0. rewrite H0.
    rewrite (IH (S k) full).
    - destruct (p c); reflexivity.
    - intros i Hi. specialize (Hf (S i) ltac:(simpl; lia)). rewrite Nat.add_succ_r in Hf. exact Hf. }
  apply H. auto.
Qed.

Lemma select_ok {A} (d : A) (l : list A) ix : (forall i, In i ix -> i < length l) ->
  select l ix = Ok (map (fun i => nth i l d) ix).
Proof. intro H. apply select_map. auto. Qed.

Lemma class_positions_lt p cs i : In i (class_positions p cs) -> i < length cs.
Proof. unfold class_positions. rewrite filter_In, in_seq. lia. Qed.

Lemma of_class_positions {A} (d : A) p cs (rows : list A) : length cs <= length rows ->
  map (fun i => nth i rows d) (class_positions p cs) = of_class p cs rows.
Proof.
  unfold class_positions, of_class.
  assert (H : forall cs rows k full frows, length cs <= length rows ->
     (forall i, i < length cs -> nth_error full (k + i) = nth_error cs i) ->
     (forall i, i < length cs -> nth (k + i) frows d = nth i rows d) ->
     map (fun i => nth i frows d)
       (filter (fun i => match nth_error full i with Some z => p z | None => false end) (seq k (length cs)))
     = map snd (filter (fun cr : Z * A => p (fst cr)) (combine cs rows))).
  { clear. induction cs as [|c cs IH]; intros rows k full frows Hl Hf Hr; [reflexivity|].
    destruct rows as [|r rows]; [simpl in Hl; lia|].
    cbn [length seq filter combine fst].
    pose proof (Hf 0 ltac:(simpl; lia)) as H0. rewrite Nat.add_0_r in H0. simpl in H0. rewrite H0.
    pose proof (Hr 0 ltac:(simpl; lia)) as H1. rewrite Nat.add_0_r in H1. simpl in H1.
    assert (E : map (fun i => nth i frows d)
       (filter (fun i => match nth_error full i with Some z => p z | None => false end) (seq (S k) (length cs)))
       = map snd (filter (fun cr : Z * A => p (fst cr)) (combine cs rows))).
    { apply IH.
      - simpl in Hl. lia.
      - intros i Hi. specialize (Hf (S i) ltac:(simpl; lia)). rewrite Nat.add_succ_r in Hf. exact Hf.
      - intros i Hi. specialize (Hr (S i) ltac:(simpl; lia)). rewrite Nat.add_succ_r in Hr. exact Hr. }
    destruct (p c); cbn [map snd]; [f_equal|]; auto. }
  intro Hl. apply H; auto.
Qed.

Lemma split_fields_get src ix ls : forall dst r, split_fields src ix ls dst = Ok r -> NoDup ls ->
  links r = links dst /\
  (forall l, ~ In l ls -> getField r l = getField dst l /\ dimension r l = dimension dst l) /\
  (forall l rows, In l ls -> getField src l = Ok rows ->
     exists sel, select rows ix = Ok sel /\ getField r l = Ok sel /\ dimension r l = dimension src l).
Proof.
  induction ls as [|l ls IH]; intros dst r H Hn; cbn in H.
  - inversion H; subst. split; auto. split; [auto|]. intros ? ? [].
  - inversion Hn; subst. destruct (lookup l (fields src)) as [f|] eqn:El.
    + assert (Eg : getField src l = Ok (firstn (fmark f) (fbuf f))) by (unfold getField; rewrite El; auto).
      rewrite Eg in H. cbn [rbind] in H.
      destruct (select (firstn (fmark f) (fbuf f)) ix) as [sel|] eqn:Es; cbn [rbind] in H; [|discriminate].
      destruct (IH _ _ H H3) as (A1 & A2 & A3). split; [exact A1|]. split.
      * intros k Hk. destruct (A2 k) as [B1 B2]; [intro; apply Hk; right; auto|].
        assert (k <> l) by (intro; subst; apply Hk; left; auto).
        rewrite B1, B2. split; [apply getField_set_neq|apply dimension_set_neq]; auto.
      * intros k rows [->|Hk] Hg.
        -- rewrite Eg in Hg. inversion Hg; subst. exists sel.
           destruct (A2 k H2) as [B1 B2]. rewrite B1, B2.
           split; auto. split; [apply getField_set_eq|]. rewrite dimension_set_eq. unfold dimension. rewrite El. reflexivity.
        -- apply A3; auto.
    + destruct (IH _ _ H H3) as (A1 & A2 & A3). split; [exact A1|]. split.
      * intros k Hk. apply A2. intro; apply Hk; right; auto.
      * intros k rows [->|Hk] Hg.
        -- unfold getField in Hg. rewrite El in Hg. discriminate.
        -- apply A3; auto.
Qed.

Lemma split_fields_ok src ix ls : forall dst,
  (forall l rows, In l ls -> getField src l = Ok rows -> forall i, In i ix -> i < length rows) ->
  exists r, split_fields src ix ls dst = Ok r.
Proof.
  induction ls as [|l ls IH]; intros dst H; cbn; [eauto|].
  destruct (lookup l (fields src)) as [f|] eqn:El.
  - assert (Eg : getField src l = Ok (firstn (fmark f) (fbuf f))) by (unfold getField; rewrite El; auto).
    rewrite Eg. cbn [rbind]. rewrite (select_ok []).
    + cbn [rbind]. apply IH. intros; eapply H; eauto; right; auto.
    + eapply H; eauto. left; auto.
  - apply IH. intros; eapply H; eauto; right; auto.
Qed.

Lemma assignClasses_nop c cl tg od : getField (cb c) "class" = Ok cl -> getField (cb c) "target" = Ok tg ->
  dimension (cb c) "target" = Ok od -> length tg <= length cl ->
  exists n, assignClasses c = Ok (mkC (cb c) n) /\
    ((0 < nClasses c)%Z -> n = nClasses c) /\
    ((nClasses c <= 0)%Z -> n = Z.of_nat (length (nodup Z.eq_dec (concat cl)))).
Proof.
  intros H1 H2 H3 H4. unfold assignClasses. rewrite H1, H2, H3. cbn [rbind].
  destruct (Nat.ltb_spec (length cl) (length tg)); [lia|]. cbn [rbind].
  destruct (Z.leb_spec (nClasses c) 0); [rewrite H1|]; eexists; (split; [reflexivity|]); split; auto; lia.
Qed.

Lemma getLength_supervised (d : ds Z) rows : links d = ["input"; "target"]%string ->
  (forall l f, In (l, f) (fields d) -> fmark f <= length (fbuf f)) ->
  getField d "input" = Ok rows -> getLength d = Ok (length rows).
Proof.
  intros Hl Hw Hg. unfold getLength. rewrite Hl. unfold getField in Hg.
  destruct (lookup "input" (fields d)) as [f|] eqn:E; [|discriminate]. inversion Hg; subst.
  rewrite firstn_length, Nat.min_l; auto. apply lookup_In in E. eauto.
Qed.

Lemma split_side src ix dst r (cs : list Z) inp tgt p :
  split_fields src ix split_labels dst = Ok r ->
  ix = class_positions p cs ->
  getField src "class" = Ok (map (fun z => [z]) cs) ->
  getField src "input" = Ok inp -> getField src "target" = Ok tgt ->
  length cs <= length inp -> length inp = length tgt ->
  links r = links dst /\
  getField r "class" = Ok (map (fun z => [z]) (of_class p cs cs)) /\
  getField r "input" = Ok (of_class p cs inp) /\
  getField r "target" = Ok (of_class p cs tgt) /\
  dimension r "target" = dimension src "target".
Proof.
  intros H Hix Hc Hi Ht H1 H2.
  destruct (split_fields_get _ _ _ _ _ H) as (A1 & A2 & A3).
  { unfold split_labels. repeat constructor; simpl; intuition discriminate. }
  split; [exact A1|].
  destruct (A3 "class"%string _ ltac:(simpl; auto) Hc) as (s1 & B1 & B2 & _).
  destruct (A3 "input"%string _ ltac:(simpl; auto) Hi) as (s2 & B3 & B4 & _).
  destruct (A3 "target"%string _ ltac:(simpl; auto) Ht) as (s3 & B5 & B6 & B7).
  assert (Hlt : forall i, In i ix -> i < length cs) by (subst ix; apply class_positions_lt).
  rewrite (select_ok []) in B1 by (intros i Hin; rewrite map_length; auto).
  rewrite (select_ok []) in B3 by (intros i Hin; apply Hlt in Hin; lia).
  rewrite (select_ok []) in B5 by (intros i Hin; apply Hlt in Hin; lia).
  inversion B1; inversion B3; inversion B5; subst. rewrite B2, B4, B6.
  rewrite !of_class_positions by (rewrite ?map_length; lia). 
  split; [|auto]. f_equal. unfold of_class. clear.
  induction cs as [|c cs IH]; auto.
  generalize cs at 2 4. intro full. 
  assert (G : forall a b : list Z, map snd (filter (fun cr : Z * list Z => p (fst cr)) (combine a (map (fun z => [z]) b)))
     = map (fun z => [z]) (map snd (filter (fun cr : Z * Z => p (fst cr)) (combine a b)))).
  { clear. induction a as [|x a IH]; intros [|y b]; auto. cbn. destruct (p x); cbn; rewrite IH; auto. }
  apply (G (c :: cs) (c :: full)).
Qed.

Lemma of_class_length {A B} p cs (r1 : list A) (r2 : list B) : length cs <= length r1 -> length cs <= length r2 ->
  length (of_class p cs r1) = length (of_class p cs r2).
Proof.
  unfold of_class. rewrite !map_length. revert r1 r2.
  induction cs as [|c cs IH]; intros [|x r1] [|y r2] H1 H2; simpl in *; try lia.
  destruct (p c); simpl; rewrite (IH r1 r2) by lia; auto.
Qed.

Lemma of_class_partition {A B} p cs (r1 : list A) (r2 : list B) : length cs = length r1 -> length cs = length r2 ->
  Permutation (combine (of_class p cs r1) (of_class p cs r2) ++
               combine (of_class (fun z => negb (p z)) cs r1) (of_class (fun z => negb (p z)) cs r2))
              (combine r1 r2).
Proof.
  unfold of_class. revert r1 r2.
  induction cs as [|c cs IH]; intros [|x r1] [|y r2] H1 H2; simpl in *; try lia; auto.
  destruct (p c); cbn [negb map combine snd app].
  - constructor. apply IH; lia.
  - rewrite <- Permutation_middle. constructor. apply IH; lia.
Qed.

Lemma split_by_class c k cs inp tgt :
  links (cb c) = ["input"; "target"]%string ->
  getField (cb c) "class" = Ok (map (fun z => [z]) cs) ->
  getField (cb c) "input" = Ok inp -> getField (cb c) "target" = Ok tgt ->
  length cs <= length inp -> length inp = length tgt ->
  (forall l rows, In l ["importance"; "aux"]%string -> getField (cb c) l = Ok rows -> length cs <= length rows) ->
  exists l r, splitByClass c k = Ok (l, r) /\
    getField (cb l) "input" = Ok (of_class (fun z => z =? k)%Z cs inp) /\
    getField (cb l) "target" = Ok (of_class (fun z => z =? k)%Z cs tgt) /\
    getField (cb l) "class" = Ok (map (fun z => [z]) (of_class (fun z => z =? k)%Z cs cs)) /\
    getField (cb r) "input" = Ok (of_class (fun z => negb (z =? k))%Z cs inp) /\
    getField (cb r) "target" = Ok (of_class (fun z => negb (z =? k))%Z cs tgt) /\
    getField (cb r) "class" = Ok (map (fun z => [z]) (of_class (fun z => negb (z =? k))%Z cs cs)).
Proof.
  intros Hl Hc Hi Ht H1 H2 Hx. unfold splitByClass. rewrite Hc. cbn [rbind].
  rewrite !where_class_spec.
  assert (Hdim : exists od, dimension (cb c) "target" = Ok od).
  { unfold dimension. unfold getField in Ht. destruct (lookup "target" (fields (cb c))); [eauto|discriminate]. }
  destruct Hdim as [od Hod].
  assert (Hok : forall p, exists r, split_fields (cb c) (class_positions p cs) split_labels (clear (cb c) false) = Ok r).
  { intro p. apply split_fields_ok. intros l rows Hin Hg i Hp. apply class_positions_lt in Hp.
    unfold split_labels in Hin. cbn in Hin.
    destruct Hin as [<-|[<-|[<-|Hin]]].
    - rewrite Hi in Hg; inversion Hg; subst; lia.
    - rewrite Ht in Hg; inversion Hg; subst; lia.
    - rewrite Hc in Hg; inversion Hg; subst; rewrite map_length; lia.
    - specialize (Hx l rows). cbn in Hx. specialize (Hx Hin Hg). lia. }
  destruct (Hok (fun z => z =? k)%Z) as [l El]. destruct (Hok (fun z => negb (z =? k))%Z) as [r Er].
  rewrite El. cbn [rbind]. rewrite Er. cbn [rbind].
  destruct (split_side _ _ _ _ cs inp tgt _ El eq_refl Hc Hi Ht H1 H2) as (_ & L1 & L2 & L3 & L4).
  destruct (split_side _ _ _ _ cs inp tgt _ Er eq_refl Hc Hi Ht H1 H2) as (_ & R1 & R2 & R3 & R4).
  rewrite Hod in L4, R4.
  destruct (assignClasses_nop (mkC l (nClasses c)) _ _ _ L1 L3 L4) as (nl & EL & _).
  { rewrite map_length. erewrite of_class_length; [apply le_n|lia|lia]. }
  destruct (assignClasses_nop (mkC r (nClasses c)) _ _ _ R1 R3 R4) as (nr & ER & _).
  { rewrite map_length. erewrite of_class_length; [apply le_n|lia|lia]. }
  rewrite EL. cbn [rbind]. rewrite ER. cbn [rbind].
  eexists _, _. split; [reflexivity|]. cbn [cb]. auto 10.
Qed.

Lemma assign_repairs c cl tg : getField (cb c) "class" = Ok cl -> getField (cb c) "target" = Ok tg ->
  dimension (cb c) "target" = Ok 1 -> length cl < length tg ->
  exists c', assignClasses c = Ok c' /\ getField (cb c') "class" = Ok tg /\
    getField (cb c') "target" = Ok tg /\ getField (cb c') "input" = getField (cb c) "input".
Proof.
  intros H1 H2 H3 H4. unfold assignClasses. rewrite H1, H2, H3. cbn [rbind].
  destruct (Nat.ltb_spec (length cl) (length tg)); [|lia]. cbn [rbind Nat.ltb Nat.leb].
  destruct (nClasses c <=? 0)%Z.
  - rewrite getField_set_eq. cbn [rbind]. eexists. split; [reflexivity|]. cbn [cb].
    rewrite getField_set_eq, !getField_set_neq by discriminate. auto.
  - eexists. split; [reflexivity|]. cbn [cb].
    rewrite getField_set_eq, !getField_set_neq by discriminate. auto.
Qed.

(** ** Time windows *)

Definition wsch (n m : nat) : list (string * nat) := [("input"%string, n); ("target"%string, m)].

Lemma windows_from_spec sq w : 0 < w -> (forall smp, In smp sq -> length smp = 2) ->
  forall fuel j, length sq <= fuel + (j + 1) * w ->
  windows_from (S fuel) ((j + 1) * w) w (map (fun s => nth 0 s []) sq) (map (fun s => nth 1 s []) sq)
  = Ok (map (window sq w) (seq j ((length sq - 1) / w - j))).
Proof.
  intros Hw Hlen. induction fuel as [|fuel IH]; intros j Hf.
  - cbn [windows_from]. rewrite map_length. simpl in Hf.
    destruct (Nat.leb_spec (length sq) ((j + 1) * w)); [|lia].
    replace ((length sq - 1) / w - j) with 0; auto.
    assert ((length sq - 1) / w < j + 1); [|lia].
    apply Nat.div_lt_upper_bound; [lia|]. nia.
  - remember (S fuel) as F. cbn [windows_from]. rewrite map_length.
    destruct (Nat.leb_spec (length sq) ((j + 1) * w)) as [H|H].
    + replace ((length sq - 1) / w - j) with 0; auto.
      assert ((length sq - 1) / w < j + 1); [|lia].
      apply Nat.div_lt_upper_bound; [lia|]. nia.
    + rewrite nth_error_map. destruct (nth_error sq ((j + 1) * w - 1)) as [smp|] eqn:E.
      2:{ apply nth_error_None in E. nia. }
      cbn [option_map]. replace ((j + 1) * w + w) with ((S j + 1) * w) by lia.
      subst F. rewrite (IH (S j)) by lia. cbn [rbind].
      assert (Hc : (length sq - 1) / w - j = S ((length sq - 1) / w - S j)).
      { assert (j + 1 <= (length sq - 1) / w); [|lia].
        apply Nat.div_le_lower_bound; [lia|]. lia. }
      rewrite Hc. cbn [seq map]. do 2 f_equal. unfold window.
      rewrite slice_map. rewrite (nth_error_nth _ _ [] E).
      replace ((j + 1) * w - w) with (j * w) by lia. reflexivity.
Qed.

Lemma append_samples sch smps : good sch -> Forall (fun smp => fit_all sch smp = Some smp) smps ->
  forall (d : ds Z) samples, R sch d (samples, 0) ->
  exists d', fold_left (fun acc smp => match acc with
                              | (d, Ok _) => appendLinked 0%Z d smp
                              | (d, Err e) => (d, Err e)
                              end) smps (d, Ok tt) = (d', Ok tt) /\ R sch d' (samples ++ smps, 0).
Proof.
  intros Hg. induction smps as [|smp smps IH]; intros HF d samples HR.
  - exists d. rewrite app_nil_r. auto.
  - inversion HF as [|? ? H1 H2]; subst. cbn [fold_left].
    assert (Hc : clean sch (SAdd smp)) by (cbn; right; left; congruence).
    pose proof (sim_step 0%Z sch d _ _ Hg Hc HR) as H. cbn in H.
    rewrite H1, (fit_all_length _ _ _ H1), Nat.eqb_refl in H.
    destruct (appendLinked 0%Z d smp) as [d1 x]. destruct H as [HR1 Hx].
    destruct x as [[]|]; [|discriminate].
    destruct (IH H2 d1 (samples ++ [smp]) HR1) as (d' & E & HR'). exists d'. split; auto.
    rewrite <- app_assoc in HR'. exact HR'.
Qed.

Lemma fit_all_two n m (r : list (list Z)) : fit_all (wsch n m) r = Some r ->
  exists a b, r = [a; b] /\ length a = n /\ length b = m.
Proof.
  assert (Hfit : forall k (x y : list Z), fit k x = Some y -> length y = k).
  { intros k x y. unfold fit. destruct (Nat.eqb_spec (length x) k); [congruence|].
    destruct x as [|v [|]]; try discriminate. intro H; inversion H; subst. apply repeat_length. }
  destruct r as [|a [|b [|? ?]]]; cbn; try discriminate.
  - destruct (fit n a); discriminate.
  - destruct (fit n a) as [a'|] eqn:Ea; [|discriminate]. destruct (fit m b) as [b'|] eqn:Eb; [|discriminate].
    intro H. inversion H; subst. apply Hfit in Ea, Eb. eauto.
  - destruct (fit n a); [|discriminate]. destruct (fit m b); discriminate.
Qed.

Lemma concat_const_length {A} n (l : list (list A)) : (forall r, In r l -> length r = n) ->
  length (concat l) = length l * n.
Proof.
  induction l as [|r l IH]; intro H; simpl; auto. rewrite app_length, IH, H; auto.
  - left; auto.
  - intros; apply H; right; auto.
Qed.

Lemma window_fits n m w sq j : 0 < w -> Forall (fun smp => fit_all (wsch n m) smp = Some smp) sq ->
  (j + 1) * w <= length sq ->
  fit_all (wsch (n * w) m) (window sq w j) = Some (window sq w j).
Proof.
  intros Hw HF Hj. unfold window.
  assert (H1 : length (concat (map (fun s : list (list Z) => nth 0 s []) (slice (j * w) ((j + 1) * w) sq))) = n * w).
  { rewrite (concat_const_length n).
    - rewrite map_length, slice_length. nia.
    - intros r Hr. apply in_map_iff in Hr. destruct Hr as (s & <- & Hs).
      assert (Hin : In s sq).
      { unfold slice in Hs. rewrite <- (firstn_skipn ((j+1)*w) sq). apply in_or_app. left.
        rewrite <- (firstn_skipn (j*w) (firstn ((j+1)*w) sq)). apply in_or_app. right. exact Hs. }
      rewrite Forall_forall in HF. destruct (fit_all_two _ _ _ (HF _ Hin)) as (a & b & -> & Ha & _). exact Ha. }
  assert (H2 : length (nth 1 (nth ((j + 1) * w - 1) sq []) []) = m).
  { assert (Hin : In (nth ((j + 1) * w - 1) sq []) sq) by (apply nth_In; nia).
    rewrite Forall_forall in HF. destruct (fit_all_two _ _ _ (HF _ Hin)) as (a & b & -> & _ & Hb). exact Hb. }
  unfold wsch. cbn [fit_all]. unfold fit. rewrite H1, H2, !Nat.eqb_refl. reflexivity.
Qed.

Lemma good_wsch n m : good (wsch n m).
Proof.
  split; [discriminate|]. split.
  - repeat constructor; simpl; intuition discriminate.
  - simpl. intuition discriminate.
Qed.

Lemma skipn_firstn_slice {A} a b (l : list A) : slice a b l = firstn (b - a) (skipn a l).
Proof. unfold slice. rewrite firstn_skipn_comm. destruct (Nat.le_gt_cases a b).
  - do 2 f_equal. lia.
  - replace (b - a) with 0 by lia. rewrite Nat.add_0_r, !skipn_all2; auto; rewrite firstn_length; lia.
Qed.

Lemma dimension_R sch (d : ds Z) st l n j : good sch -> R sch d st -> nth_error sch j = Some (l, n) -> dimension d l = Ok n.
Proof.
  intros (_ & Hnd & _) (_ & Ha & _) Hj. apply (f_equal pfields) in Ha. cbn in Ha.
  unfold dimension. pose proof (lookup_absfs l (fields d)) as H. rewrite Ha, lookup_cols in H.
  destruct (nth_error_split _ _ Hj) as (a & b & E & Hl). rewrite E in H.
  rewrite index_of_nodup in H by (rewrite <- E; auto). rewrite <- E, Hl, Hj in H. cbn in H.
  destruct (lookup l (fields d)); [|discriminate]. cbn in H. inversion H. reflexivity.
Qed.

Lemma R_field sch (d : ds Z) samples pos l n j : good sch -> R sch d (samples, pos) -> nth_error sch j = Some (l, n) ->
  getField d l = Ok (map (fun smp => nth j smp []) samples).
Proof.
  intros (_ & Hnd & _) (Hw & Ha & _) Hj. rewrite getField_abs, Ha. cbn [fst snd].
  rewrite prows_rep. destruct (nth_error_split _ _ Hj) as (a & b & -> & Hl).
  rewrite index_of_nodup by auto. rewrite Hl. reflexivity.
Qed.

Lemma timeWindows_ok n m (s : sds Z) ss pos w : 0 < w -> RS (wsch n m) s (ss, pos) -> fitted (wsch n m) ss ->
  exists d, timeWindows s w = Ok d /\
    R (wsch (n * w) m) d (flat_map (fun sq => windows_of sq w ((length sq - 1) / w)) (cut_last (length ss) ss), 0).
Proof.
  intros Hw HR Hf. pose proof (good_wsch n m) as Hg. unfold timeWindows.
  destruct (Nat.eqb_spec w 0); [lia|].
  pose proof HR as (HRb & Hwq & Haq & Hws). cbn [fst snd] in *.
  rewrite (dimension_R _ _ _ "input" n 0 Hg HRb eq_refl), (dimension_R _ _ _ "target" m 1 Hg HRb eq_refl).
  cbn [rbind].
  rewrite (R_field _ _ _ _ "input" n 0 Hg HRb eq_refl), (R_field _ _ _ _ "target" m 1 Hg HRb eq_refl).
  cbn [rbind].
  assert (Hmark : match lookup seq_label (fields (seqd s)) with
               | Some f => Ok (fmark f) | None => Err KeyError end = Ok (length ss)).
  { pose proof (lookup_absfs seq_label (fields (seqd s))) as H. apply (f_equal pfields) in Haq. cbn in Haq.
    rewrite Haq in H. cbn in H. destruct (lookup seq_label (fields (seqd s))) as [f|] eqn:E; [|discriminate].
    cbn in H. inversion H as [[H1 H2]]. destruct Hwq as [[_ Hm] _].
    destruct (Hm _ _ (lookup_In _ _ _ E)) as [_ Hmf].
    apply (f_equal (@length _)) in H2. rewrite map_length, starts_length, firstn_length in H2. f_equal. lia. }
  rewrite Hmark. cbn [rbind].
  destruct (linkFields (addField (addField (empty_ds (V:=Z)) "input" (n * w)) "target" m) ["input"%string; "target"%string])
    as [d0|] eqn:Ed0; [|discriminate].
  assert (HR0 : R (wsch (n * w) m) d0 ([], 0)).
  { pose proof (R_schema 0%Z (wsch (n * w) m) (good_wsch _ _)) as H. cbn in Ed0. inversion Ed0. exact (proj1 H). }
  cbn [rbind]. unfold getNumSequences. rewrite (RS_seqs _ _ _ HR). cbn [fst]. rewrite starts_length.
  set (T := cut_last (length ss) ss).
  rewrite (mapM_ok _ (fun i => windows_of (nth i T []) w ((length (nth i T []) - 1) / w))).
  2:{ intros i Hi. apply in_seq in Hi.
      rewrite nth_error_app1 by (rewrite starts_length; lia). rewrite starts_nth by lia. cbn [Nat.add].
      assert (Hnth : exists b, nth_error (starts 0 ss ++ [length ss]) (i + 1) = Some b /\
                slice (before ss i) b (concat ss) = nth i T []).
      { subst T. destruct Hws as (a & z & E & _). assert (Hls : length ss = length a + 1) by (rewrite E, app_length; auto).
        assert (Hcl : cut_last (length ss) ss = a ++ [firstn (length ss - length (concat a)) z]).
        { unfold cut_last. generalize (length ss). intro k. rewrite E, removelast_last, last_last. reflexivity. }
        rewrite Hcl. destruct (Nat.eq_dec i (length a)) as [->|Hne].
        - exists (length ss). split.
          + rewrite nth_error_app2 by (rewrite starts_length; lia). rewrite starts_length, Hls.
            replace (length a + 1 - (length a + 1)) with 0 by lia. reflexivity.
          + rewrite app_nth2, Nat.sub_diag by lia. cbn [nth].
            rewrite skipn_firstn_slice. unfold before. rewrite skipn_concat.
            generalize (length ss). intro k. rewrite E.
            rewrite firstn_app, firstn_all, Nat.sub_diag, skipn_app, skipn_all, Nat.sub_diag.
            cbn [firstn skipn app concat]. rewrite !app_nil_r. reflexivity.
        - exists (before ss (S i)). split.
          + rewrite nth_error_app1 by (rewrite starts_length; lia). rewrite Nat.add_1_r, starts_nth by lia. reflexivity.
          + destruct (nth_error ss i) as [sq|] eqn:En; [|apply nth_error_None in En; lia].
            rewrite (slice_concat _ _ _ En).
            rewrite app_nth1 by lia. rewrite E, nth_error_app1 in En by lia. symmetry. apply nth_error_nth; auto. }
      destruct Hnth as (b & Hb & Hsl). rewrite Hb. rewrite !slice_map, Hsl.
      pose proof (windows_from_spec (nth i T []) w Hw) as H.
      specialize (H) as H'. rewrite map_length.
      assert (Hsub : forall x, In x (nth i T []) -> In x (concat ss)).
      { intros x Hx. rewrite <- Hsl in Hx. unfold slice in Hx.
        rewrite <- (firstn_skipn b (concat ss)). apply in_or_app. left.
        rewrite <- (firstn_skipn (before ss i) (firstn b (concat ss))). apply in_or_app. auto. }
      assert (Hlt : length (nth i T []) <= length (concat ss)).
      { rewrite <- Hsl. unfold slice. rewrite skipn_length, firstn_length. lia. }
      specialize (H' ltac:(intros smp Hs; apply HRb; cbn; auto) (length (concat ss)) 0).
      rewrite Nat.add_0_l, Nat.mul_1_l, Nat.sub_0_r in H'. rewrite H' by lia. reflexivity. }
  cbn [rbind].
  assert (HTl : length T = length ss).
  { subst T. destruct Hws as (a & z & E & _). unfold cut_last. rewrite E, removelast_last, !app_length. reflexivity. }
  assert (Hcc : concat (map (fun i => windows_of (nth i T []) w ((length (nth i T []) - 1) / w)) (seq 0 (length ss)))
    = flat_map (fun sq => windows_of sq w ((length sq - 1) / w)) T).
  { rewrite <- HTl. rewrite flat_map_concat_map. f_equal. clear.
    induction T as [|x T IH]; auto. cbn [length seq map nth]. f_equal. rewrite <- seq_shift, map_map. exact IH. }
  rewrite Hcc.
  destruct (append_samples (wsch (n * w) m) (flat_map (fun sq => windows_of sq w ((length sq - 1) / w)) T)
     (good_wsch _ _)) with (d := d0) (samples := @nil (list (list Z))) as (d' & E & HR'); auto.
  { apply Forall_forall. intros x Hx. apply in_flat_map in Hx. destruct Hx as (sq & Hsq & Hx).
    unfold windows_of in Hx. apply in_map_iff in Hx. destruct Hx as (j & <- & Hj). apply in_seq in Hj.
    apply window_fits; auto.
    - apply Forall_forall. intros smp Hs. unfold fitted in Hf. rewrite Forall_forall in Hf. apply Hf.
      subst T. unfold cut_last in Hsq. destruct Hws as (a & z & Ess & _). rewrite Ess in *.
      rewrite removelast_last, last_last in Hsq. apply in_concat. apply in_app_or in Hsq.
      destruct Hsq as [Hq|[<-|[]]].
      + exists sq. split; auto. apply in_or_app; auto.
      + exists z. split; [apply in_or_app; right; left; auto|].
        rewrite <- (firstn_skipn (length (a ++ [z]) - length (concat a)) z). apply in_or_app; auto.
    - assert (w * ((length sq - 1) / w) <= length sq - 1) by (apply Nat.mul_div_le; lia). nia. }
  rewrite E. exists d'. split; auto.
Qed.

Lemma windows_session n m os w : 0 < w -> Forall (qclean (wsch n m)) os ->
  let s := fst (qrun 0%Z (init (fst (run 0%Z empty_ds (schema_ops (wsch n m))))) os) in
  exists ss d, iter_seqs s = Ok ss /\ timeWindows s w = Ok d /\
    let wins := flat_map (fun sq => windows_of sq w ((length sq - 1) / w)) (cut_last (length ss) ss) in
    getLength d = Ok (length wins) /\
    getField d "input" = Ok (map (fun s => nth 0 s []) wins) /\
    getField d "target" = Ok (map (fun s => nth 1 s []) wins).
Proof.
  intros Hw Hc. pose proof (good_wsch n m) as Hg. cbv zeta.
  destruct (session_is_sequence_list 0%Z (wsch n m) os Hg Hc) as [HR _].
  assert (Hf : fitted (wsch n m) (fst (fst (aqrun (wsch n m) ([[]], 0) os)))) by (apply fitted_run; constructor).
  destruct (fst (aqrun (wsch n m) ([[]], 0) os)) as [ss pos].
  destruct (timeWindows_ok n m _ ss pos w Hw HR Hf) as (d & E & HRd).
  exists ss, d. split; [exact (RS_iter _ _ _ Hg HR)|]. split; auto.
  split; [exact (R_getLength 0%Z _ _ _ (good_wsch _ _) HRd)|].
  split; [exact (R_field _ _ _ _ _ (n * w) 0 (good_wsch _ _) HRd eq_refl)
         |exact (R_field _ _ _ _ _ m 1 (good_wsch _ _) HRd eq_refl)].
Qed.

Lemma window_count L w : 0 < w -> (L - 1) / w = if L mod w =? 0 then L / w - 1 else L / w.
Proof.
  intro Hw. pose proof (Nat.div_mod L w ltac:(lia)) as H. pose proof (Nat.mod_upper_bound L w ltac:(lia)) as H1.
  destruct (Nat.eqb_spec (L mod w) 0) as [E|E].
  - destruct (Nat.eq_dec (L / w) 0) as [E0|E0].
    + rewrite E0. assert (L = 0) by nia. subst. simpl. apply Nat.div_small. lia.
    + symmetry. apply (Nat.div_unique _ _ _ (w - 1)); [lia|]. nia.
  - symmetry. apply (Nat.div_unique _ _ _ (L mod w - 1)); [lia|]. nia.
Qed.
