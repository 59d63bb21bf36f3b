From Verif Require Import Base Params_Model Params_Spec.

Section Proofs.
Context {V : Type}.
Notation heap := (heap V).
Implicit Types (h : heap) (w : view) (f : field) (a : astate V) (ids : list nat) (cs : list view).

Definition arr h k := nth k h [].
Definition inb h w := v_arr w < length h /\ v_off w + v_len w <= length (arr h (v_arr w)).
Definition disj w w' := v_arr w <> v_arr w' \/ v_off w + v_len w <= v_off w' \/ v_off w' + v_len w' <= v_off w.

Lemma nth_upd_eq {A} n (x d : A) l : n < length l -> nth n (upd n x l) d = x.
Proof. intro H. apply nth_error_nth. apply nth_error_upd_eq; auto. Qed.
Lemma nth_upd_neq {A} n m (x d : A) l : n <> m -> nth m (upd n x l) d = nth m l d.
Proof.
  revert n m. induction l as [|a l IH]; intros [|n] [|m] H; cbn; auto; try lia.
Qed.

Lemma read_length h w : inb h w -> length (read h w) = v_len w.
Proof. intros [_ H]. unfold read, arr in *. rewrite slice_length. lia. Qed.

Lemma skipn_skipn {A} x y (l : list A) : skipn x (skipn y l) = skipn (x + y) l.
Proof.
  apply nth_error_ext. intro i. rewrite !nth_error_skipn. f_equal. lia.
Qed.

(** replacing a block of a list *)
Definition splice_at (off : nat) (vals l : list V) := firstn off l ++ vals ++ skipn (off + length vals) l.
Lemma splice_length off vals l : off + length vals <= length l -> length (splice_at off vals l) = length l.
Proof. intro H. unfold splice_at. rewrite !app_length, firstn_length, skipn_length. lia. Qed.
Lemma slice_splice_same off vals l : off + length vals <= length l ->
  slice off (off + length vals) (splice_at off vals l) = vals.
Proof.
  intro H. unfold slice, splice_at. rewrite app_assoc. rewrite firstn_app.
  rewrite firstn_all2 by (rewrite app_length, firstn_length; lia).
  rewrite app_length, firstn_length.
  replace (off + length vals - (Nat.min off (length l) + length vals)) with 0 by lia. cbn [firstn]. rewrite app_nil_r.
  rewrite skipn_app, firstn_length. replace (off - Nat.min off (length l)) with 0 by lia.
  rewrite skipn_all2 by (rewrite firstn_length; lia). reflexivity.
Qed.
Lemma splice_nth off vals l i : off + length vals <= length l -> (i < off \/ off + length vals <= i) ->
  nth_error (splice_at off vals l) i = nth_error l i.
Proof.
  intros H Hi. unfold splice_at. destruct Hi as [Hi|Hi].
  - rewrite nth_error_app1 by (rewrite firstn_length; lia). rewrite nth_error_firstn by lia. reflexivity.
  - rewrite nth_error_app2 by (rewrite firstn_length; lia). rewrite firstn_length.
    rewrite nth_error_app2 by lia. rewrite nth_error_skipn. f_equal. lia.
Qed.
Lemma slice_ext (l m : list V) x y : length l = length m -> (forall i, x <= i < y -> nth_error l i = nth_error m i) ->
  slice x y l = slice x y m.
Proof.
  intros Hl H. unfold slice. apply nth_error_ext. intro i. rewrite !nth_error_skipn.
  destruct (Nat.lt_ge_cases (x + i) y) as [Hi|Hi].
  - rewrite !nth_error_firstn by auto. apply H. lia.
  - rewrite !(proj2 (nth_error_None _ _)); auto; rewrite firstn_length; lia.
Qed.

Lemma write_eq h w vals : write h w vals = upd (v_arr w) (splice_at (v_off w) vals (arr h (v_arr w))) h.
Proof. reflexivity. Qed.
Lemma write_heap_length h w vals : length (write h w vals) = length h.
Proof. apply upd_length. Qed.
Lemma write_arr_length h w vals k : inb h w -> length vals = v_len w -> length (arr (write h w vals) k) = length (arr h k).
Proof.
  intros [H1 H2] Hl. rewrite write_eq. unfold arr. destruct (Nat.eq_dec (v_arr w) k) as [<-|Hne].
  - rewrite nth_upd_eq by auto. apply splice_length. unfold arr in *. lia.
  - rewrite nth_upd_neq by auto. reflexivity.
Qed.
Lemma write_inb h w vals w' : inb h w -> length vals = v_len w -> inb h w' -> inb (write h w vals) w'.
Proof.
  intros H Hl [H1 H2]. split; [rewrite write_heap_length; auto|]. rewrite write_arr_length; auto.
Qed.
Lemma read_write_same h w vals : inb h w -> length vals = v_len w -> read (write h w vals) w = vals.
Proof.
  intros [H1 H2] Hl. unfold read. rewrite write_eq, nth_upd_eq by auto. rewrite <- Hl.
  apply slice_splice_same. unfold arr in *. lia.
Qed.
Lemma read_write_disj h w vals w' : inb h w -> length vals = v_len w -> disj w w' ->
  read (write h w vals) w' = read h w'.
Proof.
  intros [H1 H2] Hl Hd. unfold read. rewrite write_eq. destruct (Nat.eq_dec (v_arr w) (v_arr w')) as [E|Hne].
  - rewrite <- E, nth_upd_eq by auto. fold (arr h (v_arr w)). apply slice_ext.
    + apply splice_length. lia.
    + intros i Hi. apply splice_nth; [lia|]. destruct Hd as [Hd|Hd]; [congruence|]. lia.
  - rewrite nth_upd_neq by auto. reflexivity.
Qed.

Lemma alloc_old h vals w : v_arr w < length h -> read (h ++ [vals]) w = read h w.
Proof. intro H. unfold read. rewrite app_nth1 by auto. reflexivity. Qed.
Lemma alloc_arr_old h vals k : k < length h -> arr (h ++ [vals]) k = arr h k.
Proof. intro. unfold arr. apply app_nth1; auto. Qed.
Lemma alloc_arr_new h vals : arr (h ++ [vals]) (length h) = vals.
Proof. unfold arr. rewrite app_nth2 by lia. rewrite Nat.sub_diag. reflexivity. Qed.
Lemma alloc_inb h vals w : inb h w -> inb (h ++ [vals]) w.
Proof. intros [H1 H2]. split; [rewrite app_length; lia|]. rewrite alloc_arr_old; auto. Qed.

(** ** Consecutive views *)
Fixpoint layout (cs : list view) (k off : nat) (ids : list nat) (total : nat) : Prop :=
  match ids with
  | [] => off = total
  | i :: t => exists d, nth_error cs i = Some (mkview k off d) /\ layout cs k (off + d) t total
  end.

Lemma layout_le cs k ids total : forall off, layout cs k off ids total -> off <= total.
Proof.
  induction ids as [|i t IH]; intros off H; cbn in H; [lia|].
  destruct H as (d & _ & H). apply IH in H. lia.
Qed.

Lemma layout_in cs k ids total : forall off i, layout cs k off ids total -> In i ids ->
  exists o d, nth_error cs i = Some (mkview k o d) /\ off <= o /\ o + d <= total.
Proof.
  induction ids as [|j t IH]; intros off i H Hin; [destruct Hin|]. cbn in H.
  destruct H as (d & E & H). destruct Hin as [<-|Hin].
  - exists off, d. pose proof (layout_le _ _ _ _ _ H). split; [exact E|split; lia].
  - destruct (IH _ _ H Hin) as (o & d' & E' & H1 & H2). exists o, d'. split; [exact E'|split; lia].
Qed.

Lemma layout_disj cs k ids total : forall off, layout cs k off ids total -> NoDup ids ->
  forall i j w w', In i ids -> In j ids -> i <> j -> nth_error cs i = Some w -> nth_error cs j = Some w' -> disj w w'.
Proof.
  induction ids as [|x t IH]; intros off H Hn i j w w' Hi Hj Hne E E'; [destruct Hi|]. cbn in H.
  destruct H as (d & Ex & H). inversion Hn as [|? ? Hnx Hnt]; subst. destruct Hi as [<-|Hi]; destruct Hj as [<-|Hj]; try congruence.
  - rewrite Ex in E. injection E as <-. destruct (layout_in _ _ _ _ _ _ H Hj) as (o & d' & Ej & H1 & H2').
    rewrite Ej in E'. injection E' as <-. right; left. cbn. lia.
  - rewrite Ex in E'. injection E' as <-. destruct (layout_in _ _ _ _ _ _ H Hi) as (o & d' & Ej & H1 & H2').
    rewrite Ej in E. injection E as <-. right; right. cbn. lia.
  - exact (IH _ H Hnt i j w w' Hi Hj Hne E E').
Qed.

Lemma layout_ext cs cs' k ids total : forall off, (forall i, In i ids -> nth_error cs i = nth_error cs' i) ->
  layout cs k off ids total -> layout cs' k off ids total.
Proof.
  induction ids as [|i t IH]; intros off He H; cbn in *; auto. destruct H as (d & E & H).
  exists d. rewrite <- He by (left; auto). split; [exact E|apply IH; auto].
Qed.

Lemma slice_split (l : list V) (x y z : nat) : x <= y <= z -> slice x z l = slice x y l ++ slice y z l.
Proof.
  intro H. apply nth_error_ext. intro i. unfold slice.
  destruct (Nat.lt_ge_cases i (length (skipn x (firstn y l)))) as [Hi|Hi].
  - rewrite nth_error_app1 by auto. rewrite skipn_length, firstn_length in Hi.
    rewrite !nth_error_skipn, !nth_error_firstn by lia. reflexivity.
  - rewrite nth_error_app2 by auto. rewrite skipn_length, firstn_length in *. rewrite !nth_error_skipn.
    destruct (Nat.lt_ge_cases y (length l)) as [Hy|Hy].
    + f_equal. lia.
    + rewrite !(proj2 (nth_error_None _ _)); auto; rewrite firstn_length; lia.
Qed.

(** reading the whole array is reading the components one after the other *)
Lemma layout_read h cs k ids total : forall off, layout cs k off ids total ->
  slice off total (arr h k) = concat (map (fun i => read h (nth i cs (mkview 0 0 0))) ids).
Proof.
  induction ids as [|i t IH]; intros off H; cbn in H.
  - subst. unfold slice. cbn. apply skipn_all2. rewrite firstn_length. lia.
  - destruct H as (d & E & H). cbn [map concat]. rewrite <- (IH _ H).
    rewrite (nth_error_nth _ _ _ E). unfold read. cbn [v_off v_len v_arr]. fold (arr h k).
    apply slice_split. pose proof (layout_le _ _ _ _ _ H). lia.
Qed.

(** a new array content reaches the components as the abstract split says *)
Lemma layout_split h cs k total ids : length (arr h k) = total -> forall off vals,
  layout cs k off ids total -> NoDup ids -> length vals = length cs ->
  (forall i, In i ids -> length (nth i vals []) = v_len (nth i cs (mkview 0 0 0))) ->
  (forall j, j < length cs -> ~ In j ids -> read h (nth j cs (mkview 0 0 0)) = nth j vals []) ->
  forall j, j < length cs ->
    read h (nth j cs (mkview 0 0 0)) = nth j (a_split ids (skipn off (arr h k)) vals) [].
Proof.
  intro Hk. induction ids as [|i t IH]; intros off vals HL Hn Hlen Hd Hout j Hj.
  - cbn. apply Hout; auto.
  - cbn in HL. destruct HL as (d & E & HL). inversion Hn; subst. cbn [a_split].
    pose proof (nth_error_nth _ _ (mkview 0 0 0) E) as En.
    assert (Ed : length (nth i vals []) = d) by (rewrite Hd by (left; auto); rewrite En; reflexivity).
    rewrite Ed. rewrite skipn_skipn. replace (d + off) with (off + d) by lia.
    assert (Hi : i < length cs) by (apply nth_error_Some; congruence).
    pose proof (layout_le _ _ _ _ _ HL) as Hle.
    apply IH; auto.
    + rewrite upd_length. auto.
    + intros x Hx. rewrite nth_upd_neq by (intro; subst; contradiction). apply Hd. right; auto.
    + intros x Hx Hnx. destruct (Nat.eq_dec i x) as [<-|Hne].
      * rewrite nth_upd_eq by lia. rewrite En. unfold read. cbn [v_off v_len v_arr]. fold (arr h k).
        unfold slice. rewrite firstn_skipn_comm. reflexivity.
      * rewrite nth_upd_neq by auto. apply Hout; auto. intros [|]; auto.
Qed.

Lemma a_split_lengths ids : forall (p : list V) vals, 
  list_sum (map (fun i => length (nth i vals [])) ids) <= length p -> NoDup ids ->
  (forall i, In i ids -> i < length vals) ->
  length (a_split ids p vals) = length vals /\ forall j, length (nth j (a_split ids p vals) []) = length (nth j vals []).
Proof.
  induction ids as [|i t IH]; intros p vals Hs Hn Hi; cbn [a_split]; auto.
  inversion Hn; subst. cbn [map list_sum fold_right] in Hs.
  set (d := length (nth i vals [])) in *.
  assert (Hil : i < length vals) by (apply Hi; left; auto).
  assert (El : forall j, length (nth j (upd i (firstn d p) vals) []) = length (nth j vals [])).
  { intro j. destruct (Nat.eq_dec i j) as [<-|Hne].
    - rewrite nth_upd_eq by auto. rewrite firstn_length. fold d. lia.
    - rewrite nth_upd_neq by auto. reflexivity. }
  destruct (IH (skipn d p) (upd i (firstn d p) vals)) as [L1 L2]; auto.
  - rewrite skipn_length. erewrite map_ext; [|intro; apply El]. unfold list_sum in *. lia.
  - intros j Hj. rewrite upd_length. apply Hi. right; auto.
  - split; [rewrite L1; apply upd_length|]. intro j. rewrite L2. apply El.
Qed.

(** handing out slices creates a layout *)
Lemma distribute_layout k total ids : forall off cs, NoDup ids -> (forall i, In i ids -> i < length cs) ->
  off + list_sum (map (fun i => v_len (nth i cs (mkview 0 0 0))) ids) = total ->
  let cs' := distribute (mkview k 0 total) off ids cs in
  layout cs' k off ids total /\ length cs' = length cs /\
  (forall j, ~ In j ids -> nth_error cs' j = nth_error cs j) /\
  (forall j, v_len (nth j cs' (mkview 0 0 0)) = v_len (nth j cs (mkview 0 0 0))).
Proof.
  induction ids as [|i t IH]; intros off cs Hn Hi Hs; cbn [distribute].
  - cbn in *. split; [lia|auto].
  - inversion Hn; subst. cbn [map list_sum fold_right] in *.
    set (d := v_len (nth i cs (mkview 0 0 0))) in *.
    set (S' := fold_right Nat.add 0 (map (fun i0 => v_len (nth i0 cs (mkview 0 0 0))) t)) in *.
    assert (Hil : i < length cs) by (apply Hi; left; auto).
    assert (Esub : subview (mkview k 0 (off + (d + S'))) off d = mkview k off d).
    { unfold subview. cbn [v_arr v_off v_len]. f_equal; lia. }
    rewrite Esub.
    assert (El : forall j, v_len (nth j (upd i (mkview k off d) cs) (mkview 0 0 0)) = v_len (nth j cs (mkview 0 0 0))).
    { intro j. destruct (Nat.eq_dec i j) as [<-|Hne]; [rewrite nth_upd_eq by auto; reflexivity|rewrite nth_upd_neq by auto; reflexivity]. }
    destruct (IH (off + d) (upd i (mkview k off d) cs) H2) as (L1 & L2 & L3 & L4).
    + intros j Hj. rewrite upd_length. apply Hi. right; auto.
    + erewrite map_ext; [|intro; apply El]. unfold list_sum. fold S'. lia.
    + split; [|split; [|split]].
      * cbn. exists d. split; auto. rewrite L3 by auto. apply nth_error_upd_eq; auto.
      * rewrite L2. apply upd_length.
      * intros j Hj. rewrite L3 by (intro; apply Hj; right; auto). apply nth_error_upd_neq.
        intro; subst. apply Hj. left; auto.
      * intro j. rewrite L4. apply El.
Qed.

(** ** The refinement relation *)
Record RF (h : heap) (f : field) (a : astate V) : Prop := {
  r_len : length (f_comps f) = length (a_vals a);
  r_owned : f_owned f = a_owned a;
  r_olen : length (a_owned a) = length (a_vals a);
  r_inb : forall i, i < length (a_vals a) -> inb h (comp f i);
  r_val : forall i, i < length (a_vals a) -> read h (comp f i) = a_get a i;
  r_pos : forall i, i < length (a_vals a) -> a_get a i <> [];
  r_disj : forall i j, i < length (a_vals a) -> j < length (a_vals a) -> i <> j -> disj (comp f i) (comp f j);
  r_net : match a_order a with
          | None => f_net f = None
          | Some ids => f_order f = ids /\ NoDup ids /\ ids <> [] /\
              (forall i, In i ids -> i < length (a_vals a) /\ nth i (a_owned a) false = true) /\
              exists k total, f_net f = Some (mkview k 0 total) /\ k < length h /\ length (arr h k) = total /\
                layout (f_comps f) k 0 ids total /\
                forall i, i < length (a_vals a) -> ~ In i ids -> v_arr (comp f i) <> k
          end
}.

Lemma comp_nth_error f i : i < length (f_comps f) -> nth_error (f_comps f) i = Some (comp f i).
Proof. intro H. unfold comp. apply nth_error_nth'; auto. Qed.

Lemma RF_len h f a i : RF h f a -> i < length (a_vals a) -> length (a_get a i) = v_len (comp f i).
Proof. intros H Hi. rewrite <- (r_val _ _ _ H i Hi). apply read_length. apply H; auto. Qed.

Lemma RF_read_net h f a : RF h f a -> read_net (h, f) = a_net a.
Proof.
  intros H. pose proof (r_net _ _ _ H) as Hn. unfold read_net, a_net. cbn [fst snd].
  destruct (a_order a) as [ids|]; [|rewrite Hn; reflexivity].
  destruct Hn as (Ho & Hnd & Hne & Hi & k & total & En & Hk & Hl & HL & Hout).
  rewrite En. cbn [option_map]. f_equal. unfold read. cbn [v_off v_len v_arr Nat.add]. fold (arr h k).
  rewrite (layout_read h _ _ _ _ _ HL). f_equal. apply map_ext_in. intros i Hin.
  apply (r_val _ _ _ H i). apply Hi; auto.
Qed.

Lemma concat_length_sum {A} (l : list (list A)) : length (concat l) = list_sum (map (@length A) l).
Proof. induction l; cbn; auto. rewrite app_length. unfold list_sum in *. lia. Qed.

Lemma RF_total h f a ids k total : RF h f a -> NoDup ids -> (forall i, In i ids -> i < length (a_vals a)) ->
  layout (f_comps f) k 0 ids total -> length (concat (map (a_get a) ids)) = total.
Proof.
  intros H Hn Hi HL.
  assert (G : forall off, layout (f_comps f) k off ids total -> off + length (concat (map (a_get a) ids)) = total).
  { clear HL Hn. induction ids as [|i t IH]; intros off HL; cbn in HL; [cbn; lia|].
    destruct HL as (d & E & HL). cbn [map concat]. rewrite app_length.
    assert (Hil : i < length (a_vals a)) by (apply Hi; left; auto).
    rewrite (RF_len _ _ _ i H Hil). unfold comp. rewrite (nth_error_nth _ _ _ E). cbn [v_len].
    specialize (IH (fun j Hj => Hi j (or_intror Hj)) (off + d) HL). lia. }
  apply (G 0 HL).
Qed.

(** new contents [p] of the array behind the network's view *)
Lemma RF_newnet h f h' f' a ids k total p :
  RF h f a -> NoDup ids -> ids <> [] ->
  (forall i, In i ids -> i < length (a_vals a)) ->
  (forall i, In i ids -> nth i (a_owned a) false = true) ->
  f_order f' = ids -> f_owned f' = a_owned a -> f_net f' = Some (mkview k 0 total) ->
  length (f_comps f') = length (f_comps f) ->
  k < length h' -> arr h' k = p -> length p = total -> layout (f_comps f') k 0 ids total ->
  (forall i, In i ids -> v_len (comp f' i) = v_len (comp f i)) ->
  (forall i, i < length (a_vals a) -> ~ In i ids -> comp f' i = comp f i /\ inb h' (comp f i) /\
             v_arr (comp f i) <> k /\ read h' (comp f i) = read h (comp f i)) ->
  RF h' f' (mka (a_split ids p (a_vals a)) (a_owned a) (Some ids)).
Proof.
  intros H Hn Hne Hi Hown Eo Eow Enet Elen Hk Ep Hp HL Hlen Hout.
  assert (Hsum : list_sum (map (fun i => length (nth i (a_vals a) [])) ids) <= length p).
  { assert (G : forall l off, layout (f_comps f') k off l total -> incl l ids ->
        off + list_sum (map (fun i => length (nth i (a_vals a) [])) l) <= total).
    { induction l as [|i t IH]; intros off HL' Hinc; cbn in HL'; [cbn; lia|].
      destruct HL' as (d & E & HL'). cbn [map list_sum fold_right].
      assert (Hin : In i ids) by (apply Hinc; left; auto).
      pose proof (RF_len h f a i H (Hi i Hin)) as E1. unfold a_get in E1. rewrite E1, <- (Hlen i Hin).
      unfold comp. rewrite (nth_error_nth _ _ _ E). cbn [v_len].
      specialize (IH (off + d) HL' (fun x Hx => Hinc x (or_intror Hx))). unfold list_sum in IH. lia. }
    specialize (G ids 0 HL (fun x Hx => Hx)). lia. }
  destruct (a_split_lengths ids p (a_vals a) Hsum Hn Hi) as [L1 L2].
  assert (Hinb : forall i, i < length (a_vals a) -> inb h' (comp f' i)).
  { intros i Hil. destruct (in_dec Nat.eq_dec i ids) as [Hin|Hin].
    - destruct (layout_in _ _ _ _ _ _ HL Hin) as (o & d & E & H1 & H2).
      unfold comp. rewrite (nth_error_nth _ _ _ E). split; cbn [v_arr v_off v_len]; auto. rewrite Ep, Hp. auto.
    - destruct (Hout i Hil Hin) as (E & H1 & _). rewrite E. auto. }
  constructor; cbn [a_vals a_owned a_order].
  - rewrite L1, Elen. apply H.
  - exact Eow.
  - rewrite L1. apply H.
  - intros i Hil. rewrite L1 in Hil. auto.
  - intros i Hil. rewrite L1 in Hil. unfold a_get. cbn [a_vals].
    rewrite <- Ep at 1. replace (arr h' k) with (skipn 0 (arr h' k)) by reflexivity.
    apply layout_split with (total := total); auto.
    + rewrite Ep; auto.
    + rewrite Elen. symmetry. apply H.
    + intros j Hj. fold (comp f' j). rewrite (Hlen j Hj). apply (RF_len h f a j H (Hi j Hj)).
    + intros j Hj Hnj. rewrite Elen, (r_len _ _ _ H) in Hj. fold (comp f' j).
      destruct (Hout j Hj Hnj) as (E & _ & _ & R). rewrite E, R. apply H; auto.
    + rewrite Elen, (r_len _ _ _ H). auto.
  - intros i Hil E. rewrite L1 in Hil. apply (r_pos _ _ _ H i Hil). unfold a_get in *. cbn [a_vals] in E.
    apply length_zero_iff_nil. rewrite <- L2, E. reflexivity.
  - intros i j Hil Hjl Hij. rewrite L1 in Hil, Hjl.
    assert (Hfl : length (f_comps f') = length (a_vals a)) by (rewrite Elen; apply H).
    destruct (in_dec Nat.eq_dec i ids) as [Hin|Hin]; destruct (in_dec Nat.eq_dec j ids) as [Hjn|Hjn].
    + apply (layout_disj _ _ _ _ _ HL Hn i j _ _ Hin Hjn Hij); apply comp_nth_error; lia.
    + left. destruct (layout_in _ _ _ _ _ _ HL Hin) as (o & d & E & _). unfold comp at 1. rewrite (nth_error_nth _ _ _ E). cbn.
      destruct (Hout j Hjl Hjn) as (-> & _ & Hv & _). auto.
    + left. destruct (layout_in _ _ _ _ _ _ HL Hjn) as (o & d & E & _). unfold comp at 2. rewrite (nth_error_nth _ _ _ E). cbn.
      destruct (Hout i Hil Hin) as (-> & _ & Hv & _). auto.
    + destruct (Hout i Hil Hin) as (-> & _). destruct (Hout j Hjl Hjn) as (-> & _). apply H; auto.
  - split; auto. split; auto. split; auto. split.
    + intros i Hin. rewrite L1. auto.
    + exists k, total. split; auto. split; auto. split; [rewrite Ep; auto|]. split; auto.
      intros i Hil Hni. rewrite L1 in Hil. destruct (Hout i Hil Hni) as (-> & _ & Hv & _). auto.
Qed.

Lemma a_split_id ids : forall vals : list (list V), NoDup ids -> (forall i, In i ids -> i < length vals) ->
  a_split ids (concat (map (fun i => nth i vals []) ids)) vals = vals.
Proof.
  induction ids as [|i t IH]; intros vals Hn Hi; cbn [a_split map concat]; auto.
  inversion Hn; subst. rewrite skipn_app, Nat.sub_diag, skipn_all. cbn [skipn app].
  rewrite firstn_app, Nat.sub_diag, firstn_all. cbn [firstn]. rewrite app_nil_r.
  assert (Eu : upd i (nth i vals []) vals = vals).
  { apply nth_error_ext. intro j. destruct (Nat.eq_dec i j) as [<-|Hne].
    - rewrite nth_error_upd_eq by (apply Hi; left; auto). symmetry. apply nth_error_nth'. apply Hi; left; auto.
    - apply nth_error_upd_neq; auto. }
  rewrite Eu. apply IH; auto. intros; apply Hi; right; auto.
Qed.

Lemma RF_empty : RF [] empty_field a_empty.
Proof.
  constructor; cbn; try reflexivity; intros; lia.
Qed.

Lemma fold_upd_true ids : forall o j, (forall i, In i ids -> i < length o) ->
  length (fold_left (fun o i => upd i true o) ids o) = length o /\
  (In j ids -> nth j (fold_left (fun o i => upd i true o) ids o) false = true) /\
  (nth j o false = true -> nth j (fold_left (fun o i => upd i true o) ids o) false = true).
Proof.
  induction ids as [|i t IH]; intros o j Hi; cbn [fold_left]; [split; [auto|split; [intros []|auto]]|].
  destruct (IH (upd i true o) j) as (L & H1 & H2).
  { intros x Hx. rewrite upd_length. apply Hi; right; auto. }
  rewrite upd_length in L. split; auto.
  assert (Hpres : nth j (upd i true o) false = true -> nth j (fold_left (fun o i => upd i true o) t (upd i true o)) false = true) by auto.
  split.
  - intros [<-|Hj]; auto. apply Hpres. rewrite nth_upd_eq; auto. apply Hi; left; auto.
  - intro Ho. apply Hpres. destruct (Nat.eq_dec i j) as [<-|Hne]; [|rewrite nth_upd_neq; auto].
    rewrite nth_upd_eq; auto. apply Hi; left; auto.
Qed.

Definition rel (r : result (heap * field)) (r' : result (astate V)) : Prop :=
  match r, r' with
  | Ok (h, f), Ok a => RF h f a
  | Err e, Err e' => e = e'
  | _, _ => False
  end.

Lemma sim_step h f a o : RF h f a -> legal a o -> rel (fstep (h, f) o) (astep a o).
Proof.
  intros H Hl. destruct o as [v|ids|i g|g|p|i p]; cbn [fstep astep legal] in *.
  - (* new component *)
    cbn [alloc]. constructor; cbn [f_comps f_owned f_order f_net a_vals a_owned a_order].
    + rewrite !app_length, (r_len _ _ _ H). reflexivity.
    + rewrite (r_owned _ _ _ H). reflexivity.
    + rewrite !app_length, (r_olen _ _ _ H). reflexivity.
    + intros i Hi. rewrite app_length in Hi. cbn [length] in Hi. unfold comp. cbn [f_comps].
      destruct (Nat.lt_ge_cases i (length (a_vals a))) as [Hc|Hc].
      * rewrite app_nth1 by (rewrite (r_len _ _ _ H); auto). apply alloc_inb. apply H; auto.
      * rewrite app_nth2 by (rewrite (r_len _ _ _ H); auto). rewrite (r_len _ _ _ H).
        replace (i - length (a_vals a)) with 0 by lia. cbn. split; cbn [v_arr v_off v_len].
        -- rewrite app_length. cbn. lia.
        -- rewrite alloc_arr_new. lia.
    + intros i Hi. rewrite app_length in Hi. cbn [length] in Hi. unfold comp, a_get. cbn [f_comps a_vals].
      destruct (Nat.lt_ge_cases i (length (a_vals a))) as [Hc|Hc].
      * rewrite !app_nth1 by (rewrite ?(r_len _ _ _ H); auto).
        rewrite alloc_old; [apply (r_val _ _ _ H i Hc)|]. apply (r_inb _ _ _ H i Hc).
      * rewrite !app_nth2 by (rewrite ?(r_len _ _ _ H); auto). rewrite (r_len _ _ _ H).
        replace (i - length (a_vals a)) with 0 by lia. cbn [nth]. unfold read. cbn [v_arr v_off v_len Nat.add].
        fold (arr (h ++ [v]) (length h)). rewrite alloc_arr_new. unfold slice. rewrite firstn_all. reflexivity.
    + intros i Hi E. rewrite app_length in Hi. cbn [length] in Hi. unfold a_get in E. cbn [a_vals] in E.
      destruct (Nat.lt_ge_cases i (length (a_vals a))) as [Hc|Hc].
      * rewrite app_nth1 in E by auto. apply (r_pos _ _ _ H i Hc E).
      * rewrite app_nth2 in E by auto. replace (i - length (a_vals a)) with 0 in E by lia. cbn in E. auto.
    + assert (G : forall i j, i < length (a_vals a) -> length (a_vals a) <= j < length (a_vals a) + 1 ->
         v_arr (nth i (f_comps f ++ [mkview (length h) 0 (length v)]) (mkview 0 0 0)) <>
         v_arr (nth j (f_comps f ++ [mkview (length h) 0 (length v)]) (mkview 0 0 0))).
      { intros i j Hi Hj. rewrite app_nth1 by (rewrite (r_len _ _ _ H); auto).
        rewrite app_nth2 by (rewrite (r_len _ _ _ H); lia). rewrite (r_len _ _ _ H).
        replace (j - length (a_vals a)) with 0 by lia. cbn. pose proof (proj1 (r_inb _ _ _ H i Hi)). unfold comp in *. lia. }
      intros i j Hi Hj Hne. rewrite app_length in Hi, Hj. cbn [length] in Hi, Hj. unfold comp. cbn [f_comps].
      destruct (Nat.lt_ge_cases i (length (a_vals a))) as [Hc|Hc]; destruct (Nat.lt_ge_cases j (length (a_vals a))) as [Hd|Hd].
      * rewrite !app_nth1 by (rewrite (r_len _ _ _ H); auto). apply (r_disj _ _ _ H); auto.
      * left. apply G; lia.
      * left. intro E. symmetry in E. revert E. apply G; lia.
      * lia.
    + pose proof (r_net _ _ _ H) as Hn. destruct (a_order a) as [ids|]; auto.
      destruct Hn as (Ho & Hnd & Hne & Hi & k & total & En & Hk & Hkl & HL & Hout).
      split; auto. split; auto. split; auto. split.
      * intros i Hin. destruct (Hi i Hin) as [H1 H2]. rewrite app_length. split; [lia|].
        rewrite app_nth1; auto. rewrite (r_olen _ _ _ H). auto.
      * exists k, total. split; auto. rewrite app_length. split; [lia|]. rewrite alloc_arr_old by auto. split; auto. split.
        -- eapply layout_ext; [|exact HL]. intros i Hin. rewrite nth_error_app1; auto.
           rewrite (r_len _ _ _ H). apply Hi; auto.
        -- intros i Hil Hni. unfold comp. cbn [f_comps]. rewrite app_length in Hil. cbn [length] in Hil.
           destruct (Nat.lt_ge_cases i (length (a_vals a))) as [Hc|Hc].
           ++ rewrite app_nth1 by (rewrite (r_len _ _ _ H); auto). apply Hout; auto.
           ++ rewrite app_nth2 by (rewrite (r_len _ _ _ H); auto). rewrite (r_len _ _ _ H).
              replace (i - length (a_vals a)) with 0 by lia. cbn. lia.
  - (* sort *)
    destruct Hl as (Hne & Hnd & Hi & Hold).
    assert (Etmp : map (fun i => read h (comp f i)) ids = map (a_get a) ids).
    { apply map_ext_in. intros i Hin. apply (r_val _ _ _ H). auto. }
    rewrite Etmp. remember (concat (map (a_get a) ids)) as v eqn:Ev.
    destruct v as [|x0 v0].
    { exfalso. destruct ids as [|i ids]; [congruence|]. cbn [map concat] in Ev. symmetry in Ev.
      apply app_eq_nil in Ev. destruct Ev as [Ev _]. apply (r_pos _ _ _ H i); auto. apply Hi; left; auto. }
    rewrite Ev. set (v := concat (map (a_get a) ids)) in *. cbn [alloc rel].
    assert (Hsumv : list_sum (map (fun i => v_len (nth i (f_comps f) (mkview 0 0 0))) ids) = length v).
    { unfold v. rewrite concat_length_sum, map_map. f_equal. apply map_ext_in. intros i Hin.
      symmetry. apply (RF_len h f a i H). auto. }
    destruct (distribute_layout (length h) (length v) ids 0 (f_comps f) Hnd) as (L1 & L2 & L3 & L4).
    { intros i Hin. rewrite (r_len _ _ _ H). auto. }
    { cbn [Nat.add]. exact Hsumv. }
    set (cs' := distribute _ 0 ids (f_comps f)) in *.
    set (ow := fold_left (fun o i => upd i true o) ids (a_owned a)).
    assert (How : forall j, length ow = length (a_owned a) /\ (In j ids -> nth j ow false = true)).
    { intro j. destruct (fold_upd_true ids (a_owned a) j) as (A1 & A2 & _); auto.
      intros i Hin. rewrite (r_olen _ _ _ H). auto. }
    assert (Hsplit : a_split ids v (a_vals a) = a_vals a) by (apply a_split_id; auto).
    assert (G' : RF (h ++ [v]) (mkfield cs' ow ids (Some (mkview (length h) 0 (length v)))) (mka (a_vals a) ow (Some ids))).
    { pose proof (RF_newnet h (mkfield (f_comps f) ow (f_order f) (f_net f)) (h ++ [v])
        (mkfield cs' ow ids (Some (mkview (length h) 0 (length v)))) (mka (a_vals a) ow (a_order a)) ids (length h) (length v) v) as G2.
      cbn [a_vals a_owned f_comps f_owned f_order f_net] in G2. rewrite Hsplit in G2. apply G2; auto; clear G2.
      - destruct H as [A1 A2 A3 A4 A5 A6 A7 A8]. constructor; cbn [a_vals a_owned a_order f_comps f_owned f_order f_net]; auto.
        + rewrite (proj1 (How 0)); auto.
        + destruct (a_order a) as [old|] eqn:Eold; auto.
          destruct A8 as (Ho & Hnd' & Hne' & Hi' & Hex). split; auto. split; auto. split; auto. split; auto.
          intros i Hin. split; [apply Hi'; auto|]. apply (How i). apply (Hold old eq_refl); auto.
      - intros i Hin. apply (How i); auto.
      - rewrite app_length. cbn. lia.
      - apply alloc_arr_new.
      - intros i Hin. unfold comp. cbn [f_comps]. apply L4.
      - intros i Hil Hni.
        assert (Ecomp : comp (mkfield cs' ow ids (Some (mkview (length h) 0 (length v)))) i = comp f i).
        { unfold comp. cbn [f_comps]. pose proof (L3 i Hni) as E. 
          rewrite (nth_error_nth' (f_comps f) (mkview 0 0 0)) in E by (rewrite (r_len _ _ _ H); auto).
          apply nth_error_nth; auto. }
        split; [exact Ecomp|]. unfold comp at 1 2 3 4. cbn [f_comps]. fold (comp f i).
        pose proof (r_inb _ _ _ H i Hil) as Hb. split; [apply alloc_inb; auto|]. destruct Hb as [Hb _].
        split; [lia|]. apply alloc_old; auto. }
    rewrite (r_owned _ _ _ H). exact G'.
  - (* update through a component *)
    rewrite (r_len _ _ _ H). destruct (Nat.ltb_spec i (length (a_vals a))) as [Hi|Hi]; [|reflexivity].
    assert (Hb := r_inb _ _ _ H i Hi). assert (Hv := r_val _ _ _ H i Hi).
    assert (Hlw : length (g (read h (comp f i))) = v_len (comp f i)) by (rewrite Hl; apply read_length; auto).
    rewrite Hv in *. constructor; cbn [a_vals a_owned a_order]; rewrite ?upd_length; try apply H.
    + intros j Hj. apply write_inb; auto. apply H; auto.
    + intros j Hj. unfold a_get at 2. cbn [a_vals]. destruct (Nat.eq_dec i j) as [<-|Hne].
      * rewrite nth_upd_eq by auto. rewrite read_write_same; auto.
      * rewrite nth_upd_neq by auto. rewrite read_write_disj; auto; [apply H; auto|]. apply H; auto.
    + intros j Hj E. unfold a_get in E. cbn [a_vals] in E. destruct (Nat.eq_dec i j) as [<-|Hne].
      * rewrite nth_upd_eq in E by auto. apply (r_pos _ _ _ H i Hi). apply length_zero_iff_nil.
        rewrite <- (Hl (a_get a i)). unfold a_get. unfold a_get in E. rewrite E. reflexivity.
      * rewrite nth_upd_neq in E by auto. apply (r_pos _ _ _ H j Hj E).
    + pose proof (r_net _ _ _ H) as Hn. destruct (a_order a) as [ids|]; auto.
      destruct Hn as (Ho & Hnd & Hne & Hi' & k & total & En & Hk & Hkl & HL & Hout).
      split; auto. split; auto. split; auto. split; auto. exists k, total. rewrite write_heap_length.
      split; auto. split; auto. rewrite write_arr_length; auto.
  - (* update of the network's array *)
    pose proof (r_net _ _ _ H) as Hn. destruct (a_order a) as [ids|] eqn:Eo; [|rewrite Hn; reflexivity].
    destruct Hn as (Ho & Hnd & Hne & Hi & k & total & En & Hk & Hkl & HL & Hout).
    rewrite En. cbn [rel].
    assert (Er : read h (mkview k 0 total) = concat (map (a_get a) ids)).
    { pose proof (RF_read_net h f a H) as E. unfold read_net, a_net in E. cbn [fst snd] in E.
      rewrite En, Eo in E. cbn [option_map] in E. congruence. }
    rewrite Er. set (p := g _).
    assert (Hp : length p = total).
    { unfold p. rewrite Hl. eapply RF_total; eauto. intros; apply Hi; auto. }
    assert (Hb : inb h (mkview k 0 total)) by (split; cbn; auto; lia).
    assert (Earr : arr (write h (mkview k 0 total) p) k = p).
    { rewrite write_eq. cbn [v_arr v_off]. unfold arr at 1. rewrite nth_upd_eq by auto. unfold splice_at.
      rewrite firstn_O, skipn_all2 by lia. cbn. apply app_nil_r. }
    eapply RF_newnet with (k := k) (total := total); eauto.
    + intros; apply Hi; auto.
    + intros; apply Hi; auto.
    + apply H.
    + rewrite write_heap_length; auto.
    + intros j Hj Hnj. split; auto. split; [apply write_inb; auto; apply H; auto|].
      split; [apply Hout; auto|]. apply read_write_disj; auto. left. cbn. intro E. apply (Hout j Hj Hnj). auto.
  - (* new vector for the network *)
    pose proof (r_net _ _ _ H) as Hn. unfold a_net in Hl. destruct (a_order a) as [ids|] eqn:Eo; [|rewrite Hn; reflexivity].
    destruct Hn as (Ho & Hnd & Hne & Hi & k & total & En & Hk & Hkl & HL & Hout).
    rewrite En. cbn [alloc rel]. specialize (Hl _ eq_refl).
    assert (Hi1 : forall i, In i ids -> i < length (a_vals a)) by (intros; apply Hi; auto).
    assert (Hp : length p = total) by (rewrite Hl; eapply RF_total; eauto).
    rewrite Ho.
    assert (Hsumv : list_sum (map (fun i => v_len (nth i (f_comps f) (mkview 0 0 0))) ids) = length p).
    { rewrite Hl. rewrite concat_length_sum, map_map. f_equal. apply map_ext_in. intros i Hin.
      symmetry. apply (RF_len h f a i H). auto. }
    destruct (distribute_layout (length h) (length p) ids 0 (f_comps f) Hnd) as (L1 & L2 & L3 & L4).
    { intros i Hin. rewrite (r_len _ _ _ H). auto. }
    { cbn [Nat.add]. exact Hsumv. }
    eapply RF_newnet with (k := length h) (total := length p); eauto; cbn [f_order f_owned f_net f_comps].
    + intros; apply Hi; auto.
    + apply H.
    + rewrite app_length; cbn; lia.
    + apply alloc_arr_new.
    + intros i Hil Hni. pose proof (r_inb _ _ _ H i Hil) as Hb. split.
      * unfold comp. cbn [f_comps]. pose proof (L3 i Hni) as E.
        rewrite (nth_error_nth' (f_comps f) (mkview 0 0 0)) in E by (rewrite (r_len _ _ _ H); auto).
        apply nth_error_nth; auto.
      * split; [apply alloc_inb; auto|]. destruct Hb as [Hb _]. split; [lia|apply alloc_old; auto].
  - (* new array for one component *)
    rewrite (r_owned _ _ _ H). destruct (nth_error (a_owned a) i) as [[|]|] eqn:Eow; [reflexivity| |reflexivity].
    cbn [alloc rel].
    assert (Hil : i < length (a_vals a)) by (rewrite <- (r_olen _ _ _ H); apply nth_error_Some; congruence).
    set (f' := mkfield _ _ _ _).
    assert (Ec1 : comp f' i = mkview (length h) 0 (length p)).
    { unfold comp, f'. cbn [f_comps]. apply nth_upd_eq. rewrite (r_len _ _ _ H). auto. }
    assert (Ec2 : forall j, i <> j -> comp f' j = comp f j).
    { intros j Hne. unfold comp, f'. cbn [f_comps]. apply nth_upd_neq; auto. }
    constructor; cbn [a_vals a_owned a_order]; rewrite ?upd_length.
    + unfold f'. cbn [f_comps]. rewrite upd_length. apply H.
    + unfold f'. cbn [f_owned]. reflexivity.
    + apply H.
    + intros j Hj. destruct (Nat.eq_dec i j) as [<-|Hne].
      * rewrite Ec1. split; cbn [v_arr v_off v_len]; [rewrite app_length; cbn; lia|]. rewrite alloc_arr_new. lia.
      * rewrite Ec2 by auto. apply alloc_inb, H; auto.
    + intros j Hj. unfold a_get. cbn [a_vals]. destruct (Nat.eq_dec i j) as [<-|Hne].
      * rewrite Ec1, nth_upd_eq by auto. unfold read. cbn [v_arr v_off v_len Nat.add]. fold (arr (h ++ [p]) (length h)).
        rewrite alloc_arr_new. unfold slice. rewrite firstn_all. reflexivity.
      * rewrite Ec2, nth_upd_neq by auto. rewrite alloc_old; [apply H; auto|]. apply H; auto.
    + intros j Hj E. unfold a_get in E. cbn [a_vals] in E. destruct (Nat.eq_dec i j) as [<-|Hne].
      * rewrite nth_upd_eq in E by auto. auto.
      * rewrite nth_upd_neq in E by auto. apply (r_pos _ _ _ H j Hj E).
    + intros j1 j2 H1 H2 Hne. destruct (Nat.eq_dec i j1) as [<-|N1]; [|destruct (Nat.eq_dec i j2) as [<-|N2]].
      * rewrite Ec1, Ec2 by auto. left. cbn. pose proof (proj1 (r_inb _ _ _ H j2 H2)). lia.
      * rewrite Ec1, Ec2 by auto. left. cbn. pose proof (proj1 (r_inb _ _ _ H j1 H1)). lia.
      * rewrite !Ec2 by auto. apply H; auto.
    + pose proof (r_net _ _ _ H) as Hn. destruct (a_order a) as [ids|]; auto.
      destruct Hn as (Ho & Hnd & Hne & Hi & k & total & En & Hk & Hkl & HL & Hout).
      assert (Hni : ~ In i ids).
      { intro Hin. destruct (Hi i Hin) as [_ E]. rewrite (nth_error_nth _ _ _ Eow) in E. discriminate. }
      split; auto. split; auto. split; auto. split; auto. exists k, total. split; auto.
      rewrite app_length. split; [lia|]. rewrite alloc_arr_old by auto. split; auto. split.
      * eapply layout_ext; [|exact HL]. intros j Hj. unfold f'. cbn [f_comps]. symmetry. apply nth_error_upd_neq.
        intro; subst; auto.
      * intros j Hj Hnj. destruct (Nat.eq_dec i j) as [<-|N]; [rewrite Ec1; cbn; lia|rewrite Ec2 by auto; apply Hout; auto].
Qed.

Lemma sim_run l : forall h f a, RF h f a -> legal_run a l -> rel (frun (h, f) l) (arun a l).
Proof.
  induction l as [|o l IH]; intros h f a H Hl; cbn [frun arun]; auto. destruct Hl as [Hl Hr].
  pose proof (sim_step h f a o H Hl) as Hs.
  destruct (fstep (h, f) o) as [[h' f']|e]; destruct (astep a o) as [a'|e']; cbn in Hs; try contradiction; cbn [rbind]; auto.
Qed.
End Proofs.
