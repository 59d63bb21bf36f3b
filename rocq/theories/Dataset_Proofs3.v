(** Malformed samples, unlinked length, type conversion. *)
From Verif Require Import Base Dataset_Model Dataset_Spec Dataset_Proofs Dataset_Proofs2.

Section Proofs.
Context {V : Type} (vzero : V).
Notation row := (row V).
Notation ds := (ds V).

(** A state that some admissible session leads to. *)
Definition reachable (d : ds) : Prop :=
  exists os, session_ok pempty os /\ d = fst (run vzero empty_ds os).

Lemma reachable_wf d : reachable d -> wf d.
Proof. intros (os & Hs & ->). apply (run_refines vzero os empty_ds wf_empty Hs). Qed.

(** ** C02 *)

Lemma padd_stop samples : forall pre k (fpre : list (string * (nat * list row))) l n post rs1 rs1' r rs2,
  NoDup (map fst fpre ++ map fst (pre ++ (l, n) :: post)) ->
  fit_all pre rs1 = Some rs1' -> fit n r = None ->
  padd (fpre ++ cols k (pre ++ (l, n) :: post) samples)
       (map fst (pre ++ (l, n) :: post)) (rs1 ++ r :: rs2)
  = (fpre ++
     (fix go (k : nat) (sch : list (string * nat)) (xs : list row) :=
        match sch, xs with
        | (l, n) :: t, x :: xs' => (l, (n, map (fun s => nth k s []) samples ++ [x])) :: go (S k) t xs'
        | _, _ => cols k sch samples
        end) k (pre ++ (l, n) :: post) rs1', Err ValueError).
Proof.
  induction pre as [|[l0 n0] pre IH]; intros k fpre l n post rs1 rs1' r rs2 Hn Hf Hr.
  - destruct rs1; [|discriminate]. inversion Hf; subst rs1'. simpl.
    unfold padd1. rewrite lookup_app_r.
    + simpl. rewrite String.eqb_refl, Hr. reflexivity.
    + simpl in Hn. apply NoDup_remove_2 in Hn. intro H. apply Hn, in_or_app; auto.
  - destruct rs1 as [|r1 rs1]; [discriminate|]. simpl in Hf.
    destruct (fit n0 r1) as [x|] eqn:Ex; [|discriminate].
    destruct (fit_all pre rs1) as [xs|] eqn:Exs; [|discriminate].
    inversion Hf; subst rs1'. clear Hf.
    assert (Hl : ~ In l0 (map fst fpre)).
    { simpl in Hn. apply NoDup_remove_2 in Hn. intro H. apply Hn, in_or_app; auto. }
    cbn [app map fst padd]. unfold padd1. cbn [cols].
    rewrite lookup_app_r by auto. cbn [lookup]. rewrite String.eqb_refl, Ex.
    rewrite set_app_r by auto. cbn [set]. rewrite String.eqb_refl.
    specialize (IH (S k) (fpre ++ [(l0, (n0, map (fun s : list row => nth k s []) samples ++ [x]))])
                   l n post rs1 xs r rs2).
    rewrite <- !app_assoc in IH. cbn [app] in IH. rewrite IH; auto.
    rewrite map_app. cbn [map fst]. rewrite <- app_assoc. exact Hn.
Qed.

Lemma lookup_go samples pre post : forall k rs1' j,
  length rs1' = length pre -> NoDup (map fst (pre ++ post)) ->
  forall l n, nth_error (pre ++ post) j = Some (l, n) ->
  lookup l ((fix go (k : nat) (sch : list (string * nat)) (xs : list row) :=
        match sch, xs with
        | (l, n) :: t, x :: xs' => (l, (n, map (fun s => nth k s []) samples ++ [x])) :: go (S k) t xs'
        | _, _ => cols k sch samples
        end) k (pre ++ post) rs1')
  = Some (n, map (fun s => nth (k + j) s []) samples ++
             (if j <? length pre then [nth j rs1' []] else [])).
Proof.
  induction pre as [|[l0 n0] pre IH]; intros k rs1' j Hl Hn l n Hj.
  - destruct rs1'; [|discriminate]. cbn [app] in *.
    replace ((fix go (k : nat) (sch : list (string * nat)) (xs : list row) :=
        match sch, xs with
        | (l, n) :: t, x :: xs' => (l, (n, map (fun s => nth k s []) samples ++ [x])) :: go (S k) t xs'
        | _, _ => cols k sch samples
        end) k post []) with (cols k post samples) by (destruct post as [|[? ?] ?]; reflexivity).
    rewrite lookup_cols.
    destruct (nth_error_split _ _ Hj) as (a & b & Hab & Ha). rewrite Hab in *.
    rewrite index_of_nodup by auto. rewrite nth_error_app2 by lia.
    rewrite Nat.sub_diag. cbn. rewrite app_nil_r, Ha. reflexivity.
  - destruct rs1' as [|x xs]; [discriminate|]. cbn [app lookup].
    destruct j as [|j].
    + inversion Hj; subst. rewrite String.eqb_refl. rewrite Nat.add_0_r. reflexivity.
    + cbn [app nth_error] in Hj. destruct (String.eqb_spec l l0) as [->|Hd].
      * exfalso. simpl in Hn. inversion Hn; subst. apply H1.
        change l0 with (fst (l0, n)). apply in_map. eapply nth_error_In; eauto.
      * rewrite (IH (S k) xs j) with (n := n); auto.
        -- rewrite Nat.add_succ_r. reflexivity.
        -- simpl in Hn. inversion Hn; auto.
Qed.

Lemma reject_exact sch d samples pos pre l n post rs1 rs1' r rs2 :
  good sch -> R sch d (samples, pos) -> sch = pre ++ (l, n) :: post ->
  fit_all pre rs1 = Some rs1' -> fit n r = None -> length rs2 = length post ->
  exists d', appendLinked vzero d (rs1 ++ r :: rs2) = (d', Err ValueError) /\
    idx d' = idx d /\ links d' = links d /\
    forall j k m, nth_error sch j = Some (k, m) ->
      getField d' k = Ok (map (fun s => nth j s []) samples ++
                          if j <? length pre then [nth j rs1' []] else []).
Proof.
  intros (Hne & Hnd & He) (Hw & Ha & Hlen) Hsch Hf Hr Hl2. simpl in Ha, Hlen.
  unfold appendLinked. assert (Hlk : links d = map fst sch) by (apply (f_equal plinks) in Ha; exact Ha).
  assert (Hl1 : length rs1 = length pre).
  { clear -Hf. revert rs1' Hf. revert rs1. induction pre as [|[k m] t IH]; intros [|x xs] y H; simpl in *; try discriminate; auto.
    destruct (fit m x); [|discriminate]. destruct (fit_all t xs) eqn:E; [|discriminate]. f_equal; eauto. }
  assert (Hll : length (rs1 ++ r :: rs2) =? length (links d) = true).
  { apply Nat.eqb_eq. rewrite Hlk, map_length, Hsch, !app_length. simpl. lia. }
  rewrite Hll. destruct (append_all vzero d (links d) (rs1 ++ r :: rs2)) as [d' x] eqn:E.
  destruct (append_all_abs vzero _ _ _ _ _ Hw E) as (Hw' & Hl' & Hi' & Hp).
  rewrite Ha in Hp. cbn [rep pfields] in Hp. rewrite Hlk in Hp. 
  pose proof (padd_stop samples pre 0 [] l n post rs1 rs1' r rs2) as Hst.
  cbn [app map] in Hst. rewrite <- Hsch in Hst.
  rewrite Hst in Hp; auto. apply pair_equal_spec in Hp. destruct Hp as [Hp Hx].
  exists d'. subst x. split; auto. split; auto. split; auto.
  intros j k m Hj. rewrite getField_abs. unfold prows. rewrite <- Hp.
  rewrite Hsch in Hj, Hnd |- *.
  rewrite lookup_go with (n := m) (j := j); auto.
  rewrite (fit_all_length _ _ _ Hf). reflexivity.
Qed.

(** ** C03 *)

Lemma ascii_compare_trans a b c : Ascii.compare a b <> Gt -> Ascii.compare b c <> Gt ->
  Ascii.compare a c <> Gt /\ (Ascii.compare a c = Eq -> Ascii.compare a b = Eq /\ Ascii.compare b c = Eq).
Proof.
  unfold Ascii.compare. rewrite !N.compare_gt_iff, !N.compare_eq_iff. lia.
Qed.

Lemma string_compare_trans : forall a b c : string,
  String.compare a b <> Gt -> String.compare b c <> Gt -> String.compare a c <> Gt.
Proof.
  induction a as [|x a IH]; intros [|y b] [|z c]; simpl; try congruence.
  destruct (Ascii.compare x y) eqn:E1; destruct (Ascii.compare y z) eqn:E2;
    intros H1 H2; try congruence;
    pose proof (ascii_compare_trans x y z) as H; rewrite E1, E2 in H;
    (destruct H as [H3 H4]; [congruence|congruence|]);
    destruct (Ascii.compare x z) eqn:E3; try congruence; try (destruct (H4 eq_refl); congruence).
  eapply IH; eauto.
Qed.

Lemma leb_trans a b c : String.leb a b = true -> String.leb b c = true -> String.leb a c = true.
Proof.
  unfold String.leb. intros H1 H2.
  pose proof (string_compare_trans a b c).
  destruct (String.compare a b); destruct (String.compare b c); destruct (String.compare a c); try discriminate; auto;
  exfalso; apply H; congruence.
Qed.

Lemma leb_refl a : String.leb a a = true.
Proof. destruct (String.leb_total a a); auto. Qed.

Lemma max_label_max (fs : list (string * field V)) : forall k,
  String.leb k (max_label k fs) = true /\
  (forall l f, In (l, f) fs -> String.leb l (max_label k fs) = true) /\
  (max_label k fs = k \/ In (max_label k fs) (map fst fs)).
Proof.
  induction fs as [|[k' f'] t IH]; intro k; simpl.
  - rewrite leb_refl. tauto.
  - destruct (String.leb k' k) eqn:E.
    + destruct (IH k) as (H1 & H2 & H3). repeat split; auto.
      * intros l f [He|Hi]; eauto. inversion He; subst. eapply leb_trans; eauto.
      * tauto.
    + assert (Ek : String.leb k k' = true) by (destruct (String.leb_total k k'); congruence).
      destruct (IH k') as (H1 & H2 & H3). repeat split; auto.
      * eapply leb_trans; eauto.
      * intros l f [He|Hi]; eauto. inversion He; subst. auto.
      * destruct H3 as [->|H3]; auto.
Qed.

Lemma unlinked_length d : reachable d -> links d = [] -> fields d <> [] ->
  exists l rows, getField d l = Ok rows /\ getLength d = Ok (length rows) /\
    forall k rows', getField d k = Ok rows' -> String.leb k l = true.
Proof.
  intros Hre Hl Hne. apply reachable_wf in Hre. destruct Hre as [Hw _].
  unfold getLength. rewrite Hl. destruct (fields d) as [|[k f] t] eqn:Ef; [congruence|].
  destruct (max_label_max t k) as (H1 & H2 & H3). rewrite <- Ef in *.
  assert (Hin : In (max_label k t) (map fst (fields d))).
  { rewrite Ef. simpl. destruct H3 as [->|H3]; auto. }
  destruct (lookup (max_label k t) (fields d)) as [g|] eqn:Eg.
  2:{ apply lookup_None in Eg. tauto. }
  exists (max_label k t), (firstn (fmark g) (fbuf g)). unfold getField. rewrite Eg.
  split; auto. split.
  - rewrite (length_mark _ _ _ Hw Eg). reflexivity.
  - intros k' rows'. destruct (lookup k' (fields d)) as [g'|] eqn:Eg'; [|discriminate].
    intros _. apply lookup_In in Eg'. rewrite Ef in Eg'. destruct Eg' as [E|E]; eauto.
    inversion E; subst. exact H1.
Qed.

(** ** C04 *)

Lemma convert_exact d l (conv : V -> V) rows : reachable d -> getField d l = Ok rows ->
  exists d' pad, convertField d l conv = Ok d' /\
    getField d' l = Ok (map (map conv) (rows ++ pad)) /\
    (forall k, k <> l -> getField d' k = getField d k) /\
    links d' = links d /\ idx d' = idx d /\
    (forall f, lookup l (fields d) = Some f -> length (rows ++ pad) = length (fbuf f)).
Proof.
  intros Hre Hf. apply reachable_wf in Hre. destruct Hre as [Hw _].
  unfold getField in Hf. destruct (lookup l (fields d)) as [f|] eqn:E; [|discriminate].
  inversion Hf; subst rows. unfold convertField. rewrite E.
  exists (setField d l (fdim f) (map (map conv) (fbuf f))), (skipn (fmark f) (fbuf f)).
  rewrite firstn_skipn. split; auto. split; [|split; [|split; [|split]]]; auto.
  - unfold getField, setField. cbn. rewrite lookup_set_eq. cbn. rewrite firstn_all. reflexivity.
  - intros k Hk. unfold getField, setField. cbn. rewrite lookup_set_neq; auto.
  - intros g Hg. inversion Hg; reflexivity.
Qed.

(** The capacity of a buffer filled from empty: 0, 2, 6, 14, 30, ... *)
Lemma capacity_after_appends l n (rs : list row) : l <> ""%string ->
  (forall r, In r rs -> length r = n) ->
  exists j f, lookup l (fields (fst (run vzero empty_ds (OAddField l n :: map (OAppend l) rs)))) = Some f /\
    fmark f = length rs /\ fdim f = n /\
    (length (fbuf f) + 2 = 2 ^ (S j)) /\ length rs <= length (fbuf f) /\
    (0 < length rs -> 2 ^ j < length rs + 2).
Proof.
  intros Hl. cbn [run step].
  assert (Hgen : forall rs d f j, links d = [] -> lookup l (fields d) = Some f -> fdim f = n ->
     length (fbuf f) + 2 = 2 ^ (S j) -> fmark f <= length (fbuf f) ->
     (0 < fmark f -> 2 ^ j < fmark f + 2) -> (fmark f = 0 -> j = 0) ->
     (forall r, In r rs -> length r = n) ->
     exists j' f', lookup l (fields (fst (run vzero d (map (OAppend l) rs)))) = Some f' /\
       fmark f' = fmark f + length rs /\ fdim f' = n /\
       (length (fbuf f') + 2 = 2 ^ (S j')) /\ fmark f' <= length (fbuf f') /\
       (0 < fmark f' -> 2 ^ j' < fmark f' + 2)).
  { clear rs. induction rs as [|r rs IH]; intros d f j Hlk Hf Hd Hc Hm Hj Hj0 Hr.
    - exists j, f. cbn [map run fst length]. rewrite Nat.add_0_r. auto 10.
    - cbn [map run step]. unfold append. rewrite Hlk. cbn [existsb].
      unfold appendUnlinked. rewrite Hf.
      assert (Hfit : fit n r = Some r).
      { unfold fit. rewrite (Hr r) by (left; auto). rewrite Nat.eqb_refl. reflexivity. }
      assert (Hfin : forall d1 f1 j1, links d1 = [] -> lookup l (fields d1) = Some f1 -> fdim f1 = n ->
        length (fbuf f1) + 2 = 2 ^ (S j1) -> fmark f1 = fmark f -> fmark f < length (fbuf f1) ->
        2 ^ j1 < S (fmark f) + 2 ->
        exists j' f',
         lookup l (fields (fst (let '(d', x) :=
            (let '(d', x) := match lookup l (fields d1) with
              | Some f => if fmark f <? length (fbuf f)
                 then match fit (fdim f) r with
                      | Some r' => (with_fields d1 (set l (mkField (fdim f) (upd (fmark f) r' (fbuf f)) (S (fmark f))) (fields d1)), Ok tt)
                      | None => (d1, Err ValueError) end
                 else (d1, Err IndexError)
              | None => (d1, Err KeyError) end in (d', out_of (fun _ : unit => (OutUnit : out V)) x)) in
            let '(d2, xs) := run vzero d' (map (OAppend l) rs) in (d2, x :: xs)))) = Some f' /\
         fmark f' = fmark f + length (r :: rs) /\ fdim f' = n /\
         (length (fbuf f') + 2 = 2 ^ (S j')) /\ fmark f' <= length (fbuf f') /\
         (0 < fmark f' -> 2 ^ j' < fmark f' + 2)).
      { intros d1 f1 j1 H1 H2 H3 H4 H5 H6 H7. rewrite H2, H5.
        destruct (Nat.ltb_spec (fmark f) (length (fbuf f1))); [|lia].
        rewrite H3, Hfit.
        match goal with |- context [run vzero ?dd _] =>
          destruct (IH dd (mkField n (upd (fmark f) r (fbuf f1)) (S (fmark f))) j1)
            as (j' & f' & A1 & A2 & A3 & A4 & A5 & A6)
        end; auto.
        - cbn. apply lookup_set_eq.
        - cbn. rewrite upd_length. auto.
        - cbn. rewrite upd_length. lia.
        - cbn. discriminate.
        - intros; apply Hr; right; auto.
        - exists j', f'. match goal with |- context [run vzero ?dd ?l] => destruct (run vzero dd l) as [d2 xs] end.
          cbn in *. repeat split; auto. lia. }
      destruct (Nat.leb_spec (length (fbuf f)) (fmark f)) as [Hle|Hlt].
      + rewrite (resize_ds_nonempty vzero d l f Hl Hf).
        destruct (Nat.eq_dec (fmark f) 0) as [E0|E0].
        * apply (Hfin _ (resizeField vzero f) 1); auto.
          -- cbn. apply lookup_set_eq.
          -- cbn [fbuf resizeField]. rewrite np_resize_length. cbn. lia.
          -- cbn [fbuf resizeField]. rewrite np_resize_length. lia.
          -- cbn. lia.
        * apply (Hfin _ (resizeField vzero f) (S j)); auto.
          -- cbn. apply lookup_set_eq.
          -- cbn [fbuf resizeField]. rewrite np_resize_length. 
             change (2 ^ S (S j)) with (2 ^ (S j) + (2 ^ (S j) + 0)). lia.
          -- cbn [fbuf resizeField]. rewrite np_resize_length. lia.
          -- assert (length (fbuf f) = fmark f) by lia. lia.
      + apply (Hfin d f j); auto.
        destruct (Nat.eq_dec (fmark f) 0) as [E0|E0].
        * rewrite (Hj0 E0). cbn. lia.
        * specialize (Hj ltac:(lia)). lia. }
  intros Hr. destruct (Hgen rs (addField empty_ds l n) (mkField n [] 0) 0)
    as (j & f & H1 & H2 & H3 & H4 & H5 & H6); auto; try (cbn; lia).
  - cbn. rewrite String.eqb_refl. reflexivity.
  - exists j, f. destruct (run vzero (addField empty_ds l n) (map (OAppend l) rs)) as [d2 xs].
    cbn in *. repeat split; auto; lia.
Qed.

Lemma convert_length_after_appends l n (rs : list row) (conv : V -> V) : l <> ""%string ->
  (forall r, In r rs -> length r = n) -> rs <> [] ->
  exists d' rows j,
    convertField (fst (run vzero empty_ds (OAddField l n :: map (OAppend l) rs))) l conv = Ok d' /\
    getField d' l = Ok rows /\ length rows + 2 = 2 ^ (S j) /\
    2 ^ j < length rs + 2 <= 2 ^ (S j).
Proof.
  intros Hl Hr Hne. destruct (capacity_after_appends l n rs Hl Hr) as (j & f & H1 & H2 & H3 & H4 & H5 & H6).
  unfold convertField. rewrite H1.
  eexists _, (map (map conv) (fbuf f)), j. split; [reflexivity|].
  unfold getField, setField. cbn [fields with_fields]. rewrite lookup_set_eq. cbn [fmark fbuf].
  rewrite firstn_all. split; auto. rewrite map_length. split; auto.
  split; [apply H6; destruct rs; [congruence|simpl; lia]|lia].
Qed.

End Proofs.
