From Verif Require Import Base Dataset_Model Dataset_Proofs Batches_Model.

Section Proofs.
Context {V : Type}.
Notation row := (row V).
Notation ds := (ds V).

Lemma select_ok {A} (l : list A) p xs : select l p = Ok xs ->
  forall i k, nth_error p i = Some k -> nth_error xs i = nth_error l k /\ k < length l.
Proof.
  revert xs; induction p as [|j p IH]; intros xs H i k Hk; [destruct i; discriminate|].
  simpl in H. destruct (nth_error l j) as [x|] eqn:Ej; [|discriminate].
  destruct (select l p) as [ys|] eqn:Es; simpl in H; [|discriminate].
  inversion H; subst. destruct i as [|i]; simpl in *.
  - inversion Hk; subst. split; [auto|]. apply nth_error_Some. congruence.
  - eauto.
Qed.

Lemma select_map {A} (d : A) (l : list A) p :
  (forall i, In i p -> i < length l) -> select l p = Ok (map (fun i => nth i l d) p).
Proof.
  induction p as [|j p IH]; intro H; simpl; auto.
  rewrite (nth_error_nth' l d) by (apply H; left; auto).
  rewrite IH by (intros; apply H; right; auto). reflexivity.
Qed.

Lemma map_nth_seq {A} (d : A) (l : list A) : map (fun i => nth i l d) (seq 0 (length l)) = l.
Proof.
  induction l as [|x t IH]; simpl; auto. f_equal. rewrite <- seq_shift, map_map. exact IH.
Qed.

Lemma select_perm {A} (l : list A) p : Permutation p (seq 0 (length l)) ->
  exists xs, select l p = Ok xs /\ Permutation xs l.
Proof.
  intro H. destruct l as [|x0 l0] eqn:E.
  - simpl in H. apply Permutation_sym, Permutation_nil in H. subst. exists []. auto.
  - rewrite <- E in *. exists (map (fun i => nth i l x0) p). split.
    + apply select_map. intros i Hi. eapply Permutation_in in Hi; [|exact H].
      apply in_seq in Hi. lia.
    + rewrite H. rewrite map_nth_seq. reflexivity.
Qed.

(** ** Batch bounds *)

(** The blocks of a list: full blocks of [n], then the rest. *)
Definition bound_at (len n i : nat) : nat * nat := (i * n, Nat.min ((i + 1) * n) len).

Definition nblocks (len n : nat) : nat := if len mod n =? 0 then len / n else len / n + 1.

Lemma nblocks_spec len n : 0 < n -> 
  (len = 0 -> nblocks len n = 0) /\
  (0 < len -> 0 < nblocks len n /\ (nblocks len n - 1) * n < len <= nblocks len n * n).
Proof.
  intro Hn. unfold nblocks. pose proof (Nat.div_mod len n ltac:(lia)) as H.
  pose proof (Nat.mod_upper_bound len n ltac:(lia)) as H2.
  split; intro Hl.
  - subst. rewrite Nat.mod_0_l, Nat.div_0_l by lia. reflexivity.
  - destruct (Nat.eqb_spec (len mod n) 0); nia.
Qed.

Lemma combine_nth_error {A B} (l : list A) (l' : list B) : forall i,
  nth_error (combine l l') i
  = match nth_error l i, nth_error l' i with Some a, Some b => Some (a, b) | _, _ => None end.
Proof.
  revert l'; induction l as [|x l IH]; intros [|y l'] [|i]; simpl; auto.
  - destruct (nth_error l i); reflexivity.
Qed.

Lemma batch_bounds_eq len n : 0 < n ->
  batch_bounds len n = map (bound_at len n) (seq 0 (nblocks len n)).
Proof.
  intro Hn. unfold batch_bounds. fold (nblocks len n).
  destruct (nblocks_spec len n Hn) as [H0 H1]. apply nth_error_ext. intro i.
  rewrite combine_nth_error, !nth_error_map.
  destruct (Nat.lt_ge_cases i (nblocks len n)) as [Hi|Hi].
  - rewrite nth_error_seq by auto. simpl option_map.
    assert (Hlen : 0 < len) by (destruct len; [rewrite H0 in Hi by auto; lia|lia]).
    destruct (H1 Hlen) as [_ H2].
    destruct (Nat.eq_dec i (nblocks len n - 1)) as [E|E].
    + rewrite nth_error_app2 by (rewrite map_length, seq_length; lia).
      rewrite map_length, seq_length. replace (i - (nblocks len n - 1)) with 0 by lia. simpl.
      unfold bound_at. do 2 f_equal. subst i. rewrite Nat.min_r; [reflexivity|]. nia.
    + rewrite nth_error_app1 by (rewrite map_length, seq_length; lia).
      rewrite nth_error_map, nth_error_seq by lia. simpl. unfold bound_at. do 2 f_equal.
      rewrite Nat.min_l; [reflexivity|]. nia.
  - rewrite (proj2 (nth_error_None (seq 0 (nblocks len n)) i)) by (rewrite seq_length; lia). reflexivity.
Qed.

Lemma slice_block {A} (l : list A) a b c : a <= b -> b <= c ->
  slice a b l ++ slice b c l = slice a c l.
Proof.
  intros Ha Hb. unfold slice.
  revert a b c Ha Hb; induction l as [|x l IH]; intros a b c Ha Hb.
  - rewrite !firstn_nil, !skipn_nil. reflexivity.
  - destruct a as [|a]; destruct b as [|b]; destruct c as [|c]; try lia; simpl; auto.
    + f_equal. apply (IH 0 b c); lia.
    + apply IH; lia.
Qed.

Lemma slice_self {A} (l : list A) a : slice a a l = [].
Proof. unfold slice. apply skipn_all2. rewrite firstn_length. lia. Qed.

Lemma concat_blocks {A} (l : list A) n k len : 0 < n -> 
  concat (map (fun i => slice (i * n) (Nat.min ((i + 1) * n) len) l) (seq 0 k))
  = slice 0 (Nat.min (k * n) len) l.
Proof.
  intro Hn. induction k as [|k IH].
  - reflexivity.
  - rewrite seq_S, map_app, concat_app, IH. cbn [map concat]. rewrite app_nil_r.
    change (0 + k) with k.
    destruct (Nat.le_ge_cases (k * n) len) as [H|H].
    + rewrite (Nat.min_l (k * n)) by auto. rewrite slice_block by nia.
      f_equal. f_equal. lia.
    + rewrite (Nat.min_r (k * n)) by auto.
      replace (Nat.min ((k + 1) * n) len) with len by nia.
      replace (Nat.min (S k * n) len) with len by nia.
      unfold slice at 2. rewrite (skipn_all2 (firstn len l)) by (rewrite firstn_length; lia).
      apply app_nil_r.
Qed.

Definition block_shape {A} (n : nat) (bs : list (list A)) : Prop :=
  forall i b, nth_error bs i = Some b ->
    1 <= length b <= n /\ (S i < length bs -> length b = n).

Lemma batches_none (d : ds) label n rows len :
  getLength d = Ok len -> getField d label = Ok rows -> length rows = len -> 1 <= n ->
  exists bs, batches d label n None = Ok bs /\ concat bs = rows /\ block_shape n bs /\
    (forall p, Permutation p (seq 0 (length bs)) ->
       exists bs', batches d label n (Some p) = Ok bs' /\ Permutation bs' bs /\
       forall i k, nth_error p i = Some k -> nth_error bs' i = nth_error bs k).
Proof.
  intros HL HF Hlen Hn. unfold getField in HF.
  destruct (lookup label (fields d)) as [f|] eqn:Ef; [|discriminate].
  assert (Hr : firstn (fmark f) (fbuf f) = rows) by (inversion HF; auto). clear HF.
  assert (Hsl : forall i, slice (i * n) (Nat.min ((i+1)*n) len) (fbuf f)
                          = slice (i * n) (Nat.min ((i+1)*n) len) rows).
  { intro i. unfold slice. rewrite <- Hr. rewrite firstn_firstn_le; [reflexivity|].
    rewrite <- Hr, firstn_length in Hlen. lia. }
  set (bs := map (fun i => slice (i * n) (Nat.min ((i+1)*n) len) rows) (seq 0 (nblocks len n))).
  assert (Hmap : forall ks, map (fun ab => slice (fst ab) (snd ab) (fbuf f)) (map (bound_at len n) ks)
             = map (fun i => slice (i * n) (Nat.min ((i+1)*n) len) rows) ks).
  { intro ks. rewrite map_map. apply map_ext. intro i. simpl. apply Hsl. }
  assert (Hz : forall X (a b : X), (if n =? 0 then a else b) = b).
  { intros. destruct (Nat.eqb_spec n 0); [lia|reflexivity]. }
  assert (Hbs : length bs = nblocks len n) by (subst bs; rewrite map_length, seq_length; reflexivity).
  exists bs. split; [|split; [|split]].
  - unfold batches. rewrite HL. simpl rbind. rewrite Hz, batch_bounds_eq by lia. rewrite Ef.
    destruct (map (bound_at len n) (seq 0 (nblocks len n))) eqn:E.
    + subst bs. destruct (nblocks len n); [reflexivity|discriminate].
    + rewrite <- E, Hmap. reflexivity.
  - subst bs. rewrite concat_blocks by lia.
    destruct (nblocks_spec len n ltac:(lia)) as [H0 H1].
    destruct len as [|len'].
    + rewrite H0 by auto. simpl. destruct rows; [reflexivity|discriminate].
    + rewrite Nat.min_r by (destruct H1; lia). unfold slice. rewrite <- Hlen, firstn_all. reflexivity.
  - intros i b Hb. rewrite Hbs. subst bs. rewrite nth_error_map in Hb.
    destruct (Nat.lt_ge_cases i (nblocks len n)) as [Hi|Hi].
    2:{ rewrite (proj2 (nth_error_None _ _)) in Hb by (rewrite seq_length; lia). discriminate. }
    rewrite nth_error_seq in Hb by auto. simpl in Hb. inversion Hb; subst b. clear Hb.
    rewrite slice_length.
    destruct (nblocks_spec len n ltac:(lia)) as [H0 H1].
    assert (0 < len) by (destruct len; [rewrite H0 in Hi by auto; lia|lia]).
    destruct (H1 H) as [_ H2]. split; [nia|]. intro. nia.
  - intros p Hp. rewrite Hbs in Hp.
    assert (Hin : forall i, In i p -> i < nblocks len n).
    { intros i Hi. eapply Permutation_in in Hi; [|exact Hp]. apply in_seq in Hi. lia. }
    exists (map (fun i => slice (i * n) (Nat.min ((i+1)*n) len) rows) p). split; [|split].
    + unfold batches. rewrite HL. simpl rbind. rewrite Hz, batch_bounds_eq by lia.
      rewrite (select_map (0,0)) by (intros; rewrite map_length, seq_length; auto).
      simpl rbind. rewrite Ef.
      replace (map (fun i => nth i (map (bound_at len n) (seq 0 (nblocks len n))) (0, 0)) p)
        with (map (bound_at len n) p).
      * destruct (map (bound_at len n) p) eqn:E.
        -- destruct p; [reflexivity|discriminate].
        -- rewrite <- E, Hmap. reflexivity.
      * apply map_ext_in. intros i Hi. apply Hin in Hi.
        erewrite nth_error_nth; [reflexivity|].
        rewrite nth_error_map, nth_error_seq by auto. reflexivity.
    + subst bs. rewrite Hp. reflexivity.
    + intros i k Hk. subst bs. rewrite !nth_error_map, Hk. simpl.
      rewrite nth_error_seq; [reflexivity|]. apply Hin. eapply nth_error_In; eauto.
Qed.

Lemma randomBatches_not_random (sh1 sh2 : list nat -> list nat) (d : ds) label n :
  randomBatches sh1 d label n = randomBatches sh2 d label n /\
  (is_ok (getLength d) = true -> randomBatches sh1 d label n = batches d label n None).
Proof.
  unfold randomBatches. destruct (getLength d) eqn:E; simpl; split; auto; discriminate.
Qed.

(** ** Splitting *)

Lemma select_length {A} (l : list A) p xs : select l p = Ok xs -> length xs = length p.
Proof.
  revert xs; induction p as [|j p IH]; intros xs H; simpl in H.
  - inversion H; reflexivity.
  - destruct (nth_error l j); [|discriminate]. destruct (select l p) eqn:E; [|discriminate].
    simpl in H. inversion H; subst. simpl. f_equal. auto.
Qed.

Lemma supervised_of_arrays_ok n1 (r1 : list row) n2 r2 : length r1 = length r2 ->
  exists d, supervised_of_arrays n1 r1 n2 r2 = Ok d /\
    getField d "input" = Ok r1 /\ getField d "target" = Ok r2 /\
    getLength d = Ok (length r1) /\ idx d = 0%Z /\ links d = ["input"; "target"]%string.
Proof.
  intro H. unfold supervised_of_arrays.
  cbn. rewrite !firstn_all. rewrite Nat.eqb_refl, <- H, Nat.eqb_refl.
  cbn. eexists. split; [reflexivity|]. cbn. rewrite firstn_all, H, firstn_all. auto.
Qed.

Lemma combine_select {A B} (d1 : A) (d2 : B) (l1 : list A) (l2 : list B) p :
  length l1 = length l2 ->
  combine (map (fun i => nth i l1 d1) p) (map (fun i => nth i l2 d2) p)
  = map (fun i => nth i (combine l1 l2) (d1, d2)) p.
Proof.
  intro H. induction p as [|i p IH]; simpl; auto. rewrite IH, combine_nth by auto. reflexivity.
Qed.

Lemma split_ok (d : ds) perm num den inp tgt len :
  getLength d = Ok len -> getField d "input" = Ok inp -> getField d "target" = Ok tgt ->
  length inp = len -> length tgt = len -> Permutation perm (seq 0 len) ->
  exists l r li lt ri rt,
    splitWithProportion d perm num den = Ok (l, r) /\
    getField l "input" = Ok li /\ getField l "target" = Ok lt /\
    getField r "input" = Ok ri /\ getField r "target" = Ok rt /\
    length li = length lt /\ length ri = length rt /\
    getLength l = Ok (length li) /\ getLength r = Ok (length ri) /\
    Permutation (combine li lt ++ combine ri rt) (combine inp tgt) /\
    ((0 <= num <= Zpos den)%Z -> Z.of_nat (length li) = (Z.of_nat len * num / Zpos den)%Z).
Proof.
  intros HL HI HT Hi Ht Hp. unfold splitWithProportion. rewrite HL, HI, HT. simpl rbind.
  set (sep := Z.quot (Z.of_nat len * num) (Zpos den)).
  set (lp := py_take sep perm). set (rp := py_drop sep perm).
  assert (Hlr : lp ++ rp = perm) by apply firstn_skipn.
  assert (Hin : forall i, In i (lp ++ rp) -> i < len).
  { rewrite Hlr. intros i Hi'. eapply Permutation_in in Hi'; [|exact Hp]. apply in_seq in Hi'. lia. }
  assert (Hl : forall i, In i lp -> i < len) by (intros; apply Hin, in_or_app; auto).
  assert (Hr : forall i, In i rp -> i < len) by (intros; apply Hin, in_or_app; auto).
  set (I := fun p => map (fun i => nth i inp ([] : row)) p).
  set (T := fun p => map (fun i => nth i tgt ([] : row)) p).
  rewrite (select_map [] inp lp), (select_map [] tgt lp), (select_map [] inp rp), (select_map [] tgt rp)
    by (subst len; intros; auto; rewrite ?Ht; auto).
  fold (I lp) (T lp) (I rp) (T rp). simpl rbind.
  assert (HlenI : forall p, length (I p) = length p) by (intro; apply map_length).
  assert (HlenT : forall p, length (T p) = length p) by (intro; apply map_length).
  match goal with |- context [supervised_of_arrays ?a (I lp) ?b (T lp)] =>
    destruct (supervised_of_arrays_ok a (I lp) b (T lp)) as (l & El & L1 & L2 & L3 & _);
    [rewrite HlenI, HlenT; reflexivity|];
    destruct (supervised_of_arrays_ok a (I rp) b (T rp)) as (r & Er & R1 & R2 & R3 & _);
    [rewrite HlenI, HlenT; reflexivity|]
  end.
  rewrite El. simpl rbind. rewrite Er. simpl rbind.
  exists l, r, (I lp), (T lp), (I rp), (T rp).
  repeat (split; [solve [auto | rewrite HlenI, HlenT; reflexivity]|]). split.
  - unfold I, T. rewrite !combine_select by congruence. rewrite <- map_app, Hlr, Hp.
    replace len with (length (combine inp tgt)) by (rewrite combine_length; lia).
    rewrite map_nth_seq. reflexivity.
  - intros Hnum. rewrite HlenI. subst lp. unfold py_take, py_bound.
    assert (Hq : sep = (Z.of_nat len * num / Zpos den)%Z).
    { subst sep. apply Z.quot_div_nonneg; nia. }
    assert (Hb : (0 <= sep <= Z.of_nat len)%Z).
    { rewrite Hq. split.
      - apply Z.div_pos; nia.
      - apply Z.div_le_upper_bound; nia. }
    destruct (Z.leb_spec 0 sep); [|lia].
    rewrite firstn_length. apply Permutation_length in Hp. rewrite seq_length in Hp. lia.
Qed.

End Proofs.
