From Verif Require Import Base Dataset_Model Dataset_Spec Dataset_Proofs Dataset_Proofs2
  Batches_Model Sequential_Model Sequential_Spec.

Section Proofs.
Context {V : Type} (vzero : V).
Notation row := (row V).
Notation sample := (list row).
Notation sds := (sds V).

(** ** Start positions *)

Fixpoint starts (a : nat) (ss : list (list sample)) : list nat :=
  match ss with
  | [] => []
  | s :: t => a :: starts (a + length s) t
  end.

Lemma starts_length a ss : length (starts a ss) = length ss.
Proof. revert a; induction ss as [|s t IH]; intro a; simpl; auto. Qed.

Lemma starts_nth ss : forall a i, i < length ss ->
  nth_error (starts a ss) i = Some (a + before ss i).
Proof.
  induction ss as [|s t IH]; intros a i Hi; simpl in *; [lia|].
  destruct i as [|i]; simpl.
  - unfold before. simpl. f_equal. lia.
  - rewrite IH by lia. unfold before. simpl. rewrite app_length. f_equal. lia.
Qed.

Lemma starts_app ss x : forall a, starts a (ss ++ [x]) = starts a ss ++ [a + total ss].
Proof.
  unfold total. induction ss as [|s t IH]; intro a; simpl.
  - rewrite Nat.add_0_r. reflexivity.
  - rewrite IH, app_length. do 2 f_equal. f_equal. lia.
Qed.

Lemma starts_shift ss : forall a k, starts (a + k) ss = map (fun v => v + k) (starts a ss).
Proof.
  induction ss as [|s t IH]; intros a k; simpl; auto. f_equal.
  rewrite <- IH. f_equal. lia.
Qed.

Lemma starts_ge ss : forall a v, In v (starts a ss) -> a <= v.
Proof.
  induction ss as [|s t IH]; intros a v; simpl; [tauto|].
  intros [<-|H]; auto. apply IH in H. lia.
Qed.

Definition wfs (ss : list (list sample)) : Prop :=
  exists a z, ss = a ++ [z] /\ Forall (fun s => s <> []) a.

Lemma wfs_cons s t : wfs (s :: t) -> t <> [] -> s <> [] /\ wfs t.
Proof.
  intros (a & z & E & F) Ht. destruct a as [|s' a]; simpl in E; inversion E; subst.
  - congruence.
  - inversion F; subst. split; auto. exists a, z. auto.
Qed.

Lemma wfs_nonempty ss : wfs ss -> ss <> [].
Proof. intros (a & z & -> & _). destruct a; discriminate. Qed.

(** shifting the starts behind the removed sequence *)
Lemma starts_remove ss : wfs ss -> forall i a, i < length ss ->
  forall p q, p = a + before ss i -> q = p + length (nth i ss []) ->
  remove_nth i (map (fun v => if p <? v then v - (q - p) else v) (starts a ss))
  = starts a (remove_nth i ss).
Proof.
  intros Hw i. revert ss Hw. induction i as [|i IH]; intros ss Hw a Hi p q Hp Hq.
  - destruct ss as [|s t]; simpl in Hi; [lia|]. unfold remove_nth. simpl.
    unfold before in Hp. simpl in Hp, Hq.
    destruct (Nat.ltb_spec p a); [lia|].
    destruct t as [|s' t'].
    + reflexivity.
    + destruct (wfs_cons s (s' :: t') Hw) as [Hs _]; [discriminate|].
      assert (Hlen : 0 < length s) by (destruct s; [congruence|simpl; lia]).
      rewrite starts_shift, map_map. rewrite <- map_id. apply map_ext_in.
      intros v Hv. apply starts_ge in Hv.
      destruct (Nat.ltb_spec p (v + length s)); lia.
  - destruct ss as [|s t]; simpl in Hi; [lia|].
    destruct t as [|s' t']; [simpl in Hi; lia|].
    destruct (wfs_cons s (s' :: t') Hw) as [Hs Hw']; [discriminate|].
    change (remove_nth (S i) (s :: s' :: t')) with (s :: remove_nth i (s' :: t')).
    cbn [starts map].
    change (starts a (s :: remove_nth i (s' :: t')))
      with (a :: starts (a + length s) (remove_nth i (s' :: t'))).
    assert (Hb : before (s :: s' :: t') (S i) = length s + before (s' :: t') i)
      by (unfold before; simpl; rewrite app_length; lia).
    rewrite <- (IH (s' :: t') Hw' (a + length s) ltac:(simpl in *; lia) p q).
    + unfold remove_nth. cbn [firstn skipn app]. f_equal.
      destruct (Nat.ltb_spec p a); lia.
    + lia.
    + exact Hq.
Qed.

(** ** Concatenations *)

Lemma skipn_concat {A} (ls : list (list A)) i :
  skipn (length (concat (firstn i ls))) (concat ls) = concat (skipn i ls).
Proof.
  rewrite <- (firstn_skipn i ls) at 2. rewrite concat_app, skipn_app.
  rewrite skipn_all, Nat.sub_diag. reflexivity.
Qed.

Lemma firstn_concat {A} (ls : list (list A)) i :
  firstn (length (concat (firstn i ls))) (concat ls) = concat (firstn i ls).
Proof.
  rewrite <- (firstn_skipn i ls) at 2. rewrite concat_app, firstn_app.
  rewrite firstn_all, Nat.sub_diag. simpl. apply app_nil_r.
Qed.

Lemma firstn_S_nth {A} (l : list A) i x : nth_error l i = Some x ->
  firstn (S i) l = firstn i l ++ [x].
Proof.
  revert i; induction l as [|h t IH]; intros [|i] H; simpl in *; try discriminate.
  - inversion H; reflexivity.
  - f_equal. auto.
Qed.

Lemma before_S ss i (sq : list sample) : nth_error ss i = Some sq ->
  before ss (S i) = before ss i + length sq.
Proof.
  intro H. unfold before. rewrite (firstn_S_nth _ _ _ H), concat_app, app_length. simpl.
  rewrite app_nil_r. reflexivity.
Qed.

Lemma slice_concat ss i (sq : list sample) : nth_error ss i = Some sq ->
  slice (before ss i) (before ss (S i)) (concat ss) = sq.
Proof.
  intro H. unfold slice, before. rewrite firstn_concat, (firstn_S_nth _ _ _ H), concat_app.
  simpl. rewrite app_nil_r, skipn_app, skipn_all, Nat.sub_diag. reflexivity.
Qed.

Lemma slice_map {A B} (f : A -> B) a b l : slice a b (map f l) = map f (slice a b l).
Proof. unfold slice. rewrite firstn_map, skipn_map. reflexivity. Qed.

Lemma before_total (ss : list (list sample)) : before ss (length ss) = total ss.
Proof. unfold before, total. rewrite firstn_all. reflexivity. Qed.

(** ** The invariant *)

Definition RS (sch : list (string * nat)) (s : sds) (st : list (list sample) * nat) : Prop :=
  R sch (body s) (concat (fst st), snd st) /\
  wf (seqd s) /\
  abs (seqd s) = mkP [(seq_label, (1, map (fun n => [n]) (starts 0 (fst st))))] [] 0%Z /\
  wfs (fst st).

Lemma RS_seqs sch s st : RS sch s st -> seqs s = starts 0 (fst st).
Proof.
  intros (_ & _ & Ha & _). unfold seqs. rewrite getField_abs, Ha. simpl.
  generalize (starts 0 (fst st)). clear. induction l as [|x l IH]; simpl; congruence.
Qed.

Lemma RS_length sch s st : good sch -> RS sch s st -> getLength (body s) = Ok (total (fst st)).
Proof.
  intros Hg (HR & _). pose proof (sim_step vzero sch (body s) _ SLen Hg I HR) as H.
  cbn in H. destruct H as [_ H]. destruct (getLength (body s)); simpl in H; inversion H; reflexivity.
Qed.

Lemma push_seq_abs (s : sds) n rows :
  wf (seqd s) -> abs (seqd s) = mkP [(seq_label, (1, rows))] [] 0%Z ->
  body (push_seq s n) = body s /\ wf (seqd (push_seq s n)) /\
  abs (seqd (push_seq s n)) = mkP [(seq_label, (1, rows ++ [[n]]))] [] 0%Z.
Proof.
  intros Hw Ha. unfold push_seq. cbn [body seqd].
  destruct (appendUnlinked 0 (seqd s) seq_label [n]) as [d' x] eqn:E. cbn [fst].
  destruct (appendUnlinked_abs 0 _ _ _ _ _ Hw E) as (Hw' & Hl & Hi & Hp).
  rewrite Ha in Hp. cbn in Hp. destruct Hp as [_ Hp].
  split; auto. split; auto. apply abs_eq.
  - exact Hp.
  - rewrite Hl. apply (f_equal plinks) in Ha. exact Ha.
  - rewrite Hi. apply (f_equal pidx) in Ha. exact Ha.
Qed.

Lemma RS_init sch d : R sch d ([], 0) -> RS sch (init d) ([[]], 0).
Proof.
  intros HR. unfold init.
  destruct (push_seq_abs (mkSDS d (addField empty_ds seq_label 1) 0%Z) 0 []) as (H1 & H2 & H3).
  - cbn. split; [split|]; cbn.
    + repeat constructor. simpl. tauto.
    + intros l f [E|[]]. inversion E; subst. cbn. split; [discriminate|lia].
    + tauto.
  - reflexivity.
  - unfold RS. rewrite H1. cbn [body fst snd concat app]. split; auto. split; auto. split.
    + exact H3.
    + exists [], []. split; auto.
Qed.

Lemma clear_gen sch (s : sds) st rows : good sch -> R sch (body s) st -> wf (seqd s) ->
  abs (seqd s) = mkP [(seq_label, (1, rows))] [] 0%Z -> RS sch (clear_seq s) ([[]], 0).
Proof.
  intros Hg HR Hw Ha. unfold clear_seq.
  assert (Hc : wf (clear (seqd s) true) /\ abs (clear (seqd s) true) = mkP [(seq_label, (1, []))] [] 0%Z).
  { destruct (clear_abs (seqd s) true Hw) as [H1 H2]. split; auto. rewrite H2, Ha. reflexivity. }
  destruct Hc as [Hc1 Hc2].
  destruct (push_seq_abs (mkSDS (clear (body s) true) (clear (seqd s) true) 0%Z) 0 [] Hc1 Hc2) as (H1 & H2 & H3).
  unfold RS. rewrite H1. cbn [body fst snd concat app]. split; [|split; [|split]]; auto.
  2:{ exists [], []. split; auto. }
  (* clear True and clear False agree: all fields are linked *)
  destruct st as [samples pos].
  pose proof (sim_step vzero sch (body s) _ SClear Hg I HR) as H. cbn in H. destruct H as [H _].
  replace (clear (body s) true) with (clear (body s) false); auto.
  destruct HR as (Hwb & Hab & _). unfold clear.
  assert (Hk : map fst (fields (body s)) = links (body s)).
  { apply (f_equal (fun p => (map fst (pfields p), plinks p))) in Hab. cbn in Hab.
    apply pair_equal_spec in Hab. destruct Hab as [E1 E2].
    rewrite cols_keys in E1. unfold absfs in E1. rewrite map_map in E1. etransitivity; [exact E1|symmetry; exact E2]. }
  rewrite Hk. destruct (links (body s)); reflexivity.
Qed.

Lemma RS_clear sch s st : good sch -> RS sch s st -> RS sch (clear_seq s) ([[]], 0).
Proof. intros Hg (HR & Hw & Ha & Hss). eapply clear_gen; eauto. Qed.

(** ** Reading *)

Lemma RS_getField sch s st l j n : good sch -> RS sch s st -> nth_error sch j = Some (l, n) ->
  getField (body s) l = Ok (map (fun smp => nth j smp []) (concat (fst st))).
Proof.
  intros (_ & Hnd & _) ((Hw & Ha & _) & _) Hj. rewrite getField_abs, Ha. cbn [fst snd].
  rewrite prows_rep. destruct (nth_error_split _ _ Hj) as (a & b & -> & Hl).
  rewrite index_of_nodup by auto. rewrite Hl. reflexivity.
Qed.

Lemma mapM_ok {A B} (f : A -> result B) (g : A -> B) l :
  (forall x, In x l -> f x = Ok (g x)) -> mapM f l = Ok (map g l).
Proof.
  induction l as [|x l IH]; intro H; simpl; auto.
  rewrite H by (left; auto). simpl. rewrite IH by (intros; apply H; right; auto). reflexivity.
Qed.

Lemma mapM_err {A B} (f : A -> result B) e x l : f x = Err e -> mapM f (x :: l) = Err e.
Proof. intro H. simpl. rewrite H. reflexivity. Qed.

Lemma mapM_map {A B C} (f : B -> result C) (g : A -> B) l : mapM f (map g l) = mapM (fun x => f (g x)) l.
Proof. induction l as [|x l IH]; simpl; auto. rewrite IH. reflexivity. Qed.

Lemma RS_getSequenceField sch s st i l j n : good sch -> RS sch s st -> nth_error sch j = Some (l, n) ->
  getSequenceField s i l
  = match nth_error (fst st) i with
    | Some sq => Ok (map (fun smp => nth j smp []) sq)
    | None => Err IndexError
    end.
Proof.
  intros Hg HR Hj. unfold getSequenceField. rewrite (RS_seqs _ _ _ HR), starts_length.
  rewrite (RS_getField _ _ _ _ _ _ Hg HR Hj). set (ss := fst st).
  destruct (Nat.eqb_spec (length ss) (i + 1)) as [E|E].
  - simpl rbind. rewrite starts_nth by lia. cbn [Nat.add].
    destruct (nth_error ss i) as [sq|] eqn:En; [|apply nth_error_None in En; lia].
    rewrite skipn_map. unfold before. rewrite skipn_concat. 
    replace (skipn i ss) with [sq]; [simpl; rewrite app_nil_r; reflexivity|].
    destruct (nth_error_split _ _ En) as (a & b & Eab & Hl). rewrite Eab, app_length in E. simpl in E.
    assert (b = []) by (destruct b; [auto|simpl in E; lia]). subst b.
    rewrite Eab, skipn_app, <- Hl, skipn_all, Nat.sub_diag. reflexivity.
  - destruct (Nat.ltb_spec (length ss) (i + 1)) as [H|H].
    + rewrite (proj2 (nth_error_None _ _)) by lia. reflexivity.
    + simpl rbind. rewrite !starts_nth by lia. cbn [Nat.add].
      destruct (nth_error ss i) as [sq|] eqn:En; [|apply nth_error_None in En; lia].
      rewrite slice_map. rewrite Nat.add_1_r. rewrite (slice_concat _ _ _ En). reflexivity.
Qed.

Lemma links_sch sch s st : RS sch s st -> links (body s) = map fst sch.
Proof. intros ((_ & Ha & _) & _). apply (f_equal plinks) in Ha. exact Ha. Qed.

Lemma RS_getSequence sch s st i : good sch -> RS sch s st ->
  getSequence s i
  = match nth_error (fst st) i with
    | Some sq => Ok (columns (length sch) sq)
    | None => Err IndexError
    end.
Proof.
  intros Hg HR. unfold getSequence. rewrite (links_sch _ _ _ HR).
  assert (Hsch : map fst sch = map (fun j => fst (nth j sch (""%string, 0))) (seq 0 (length sch))).
  { rewrite <- (map_map (fun j => nth j sch (""%string, 0)) fst). f_equal.
    apply nth_error_ext. intro k. rewrite nth_error_map.
    destruct (Nat.lt_ge_cases k (length sch)) as [H|H].
    - rewrite nth_error_seq by auto. simpl. apply nth_error_nth'. auto.
    - rewrite !(proj2 (nth_error_None _ _)); auto; rewrite seq_length; auto. }
  rewrite Hsch, mapM_map.
  assert (Hcol : forall j, In j (seq 0 (length sch)) ->
     getSequenceField s i (fst (nth j sch (""%string, 0)))
     = match nth_error (fst st) i with
       | Some sq => Ok (map (fun smp => nth j smp []) sq)
       | None => Err IndexError end).
  { intros j Hj. apply in_seq in Hj.
    destruct (nth j sch (""%string, 0)) as [l n] eqn:E. cbn [fst].
    eapply RS_getSequenceField; eauto. rewrite (nth_error_nth' sch (""%string, 0)) by lia. rewrite E. reflexivity. }
  destruct (nth_error (fst st) i) as [sq|].
  - unfold columns. apply mapM_ok. exact Hcol.
  - destruct Hg as (Hne & _). destruct sch as [|kn t]; [congruence|].
    cbn [length seq]. apply mapM_err. apply Hcol. left. reflexivity.
Qed.

Lemma zip_star_columns w (sq : list sample) : 0 < w -> (forall smp, In smp sq -> length smp = w) ->
  zip_star (columns w sq) = sq.
Proof.
  intros Hw Hlen. unfold zip_star, columns. destruct w as [|w]; [lia|]. cbn [seq map].
  rewrite map_length.
  change (map (fun smp => nth 0 smp []) sq :: map (fun j => map (fun smp : sample => nth j smp []) sq) (seq 1 w))
    with (map (fun j => map (fun smp : sample => nth j smp []) sq) (seq 0 (S w))).
  induction sq as [|smp sq IH]; [reflexivity|].
  cbn [length zip_star_n].
  assert (Hex : existsb (fun l : list row => match l with [] => true | _ => false end)
    (map (fun j => map (fun smp0 : sample => nth j smp0 []) (smp :: sq)) (seq 0 (S w))) = false).
  { generalize (seq 0 (S w)). induction l; simpl; auto. }
  rewrite Hex. f_equal.
  - assert (Hf : forall ks, flat_map (fun l : list row => match l with [] => [] | x :: _ => [x] end)
        (map (fun j => map (fun smp0 : sample => nth j smp0 []) (smp :: sq)) ks)
        = map (fun j => nth j smp []) ks).
    { induction ks; simpl; f_equal; auto. }
    rewrite Hf. rewrite <- (Hlen smp) by (left; auto).
    clear. induction smp as [|x t IH]; simpl; auto. f_equal. rewrite <- seq_shift, map_map. exact IH.
  - rewrite map_map. cbn [map tl]. apply IH. intros; apply Hlen; right; auto.
Qed.

Lemma RS_iter sch s st : good sch -> RS sch s st -> iter_seqs s = Ok (fst st).
Proof.
  intros Hg HR. unfold iter_seqs, getNumSequences. rewrite (RS_seqs _ _ _ HR), starts_length.
  rewrite (mapM_ok _ (fun i => nth i (fst st) [])).
  - f_equal. clear. generalize (fst st). induction l as [|x t IH]; simpl; auto.
    f_equal. rewrite <- seq_shift, map_map. exact IH.
  - intros i Hi. apply in_seq in Hi. unfold getSequenceIterator.
    rewrite (RS_getSequence _ _ _ _ Hg HR).
    rewrite (nth_error_nth' (fst st) []) by lia. simpl. f_equal. apply zip_star_columns.
    + destruct Hg as (Hne & _). destruct sch; [congruence|simpl; lia].
    + intros smp Hs. destruct HR as ((_ & _ & Hlen) & _). apply Hlen. cbn.
      apply in_concat. exists (nth i (fst st) []). split; auto. apply nth_In. lia.
Qed.

(** ** Removing *)

Lemma fold_mod (g : field V -> field V) ls : NoDup ls -> forall fs : list (string * field V), NoDup (map fst fs) ->
  fold_left (fun fs k => match lookup k fs with Some f => set k (g f) fs | None => fs end) ls fs
  = map (fun kf => if existsb (String.eqb (fst kf)) ls then (fst kf, g (snd kf)) else kf) fs.
Proof.
  induction ls as [|l ls IH]; intros Hnd fs Hn.
  - cbn. symmetry. erewrite map_ext; [apply map_id|]. intros [k f]; reflexivity.
  - cbn [fold_left]. inversion Hnd; subst.
    assert (Hk : map fst (match lookup l fs with Some f => set l (g f) fs | None => fs end) = map fst fs).
    { destruct (lookup l fs) eqn:E; auto. apply set_keys_present. eapply lookup_keys; eauto. }
    rewrite IH by (auto; rewrite Hk; auto).
    destruct (lookup l fs) as [f|] eqn:E.
    + rewrite set_as_map by (auto; eapply lookup_keys; eauto).
      rewrite map_map. apply map_ext_in. intros [k h] Hin. simpl.
      destruct (String.eqb_spec k l) as [->|Hd]; simpl.
      * rewrite (lookup_nodup_In l h fs) in E by auto. inversion E; subst.
        destruct (existsb (String.eqb l) ls) eqn:Ee; auto.
        apply existsb_eqb_In in Ee. contradiction.
      * reflexivity.
    + apply map_ext_in. intros [k h] Hin. simpl.
      destruct (String.eqb_spec k l) as [->|Hd]; simpl; auto.
      apply lookup_None in E. exfalso. apply E.
      change l with (fst (l, h)). apply in_map; auto.
Qed.

Lemma firstn_cut {A} a b m (l : list A) : a <= b -> b <= m -> m <= length l ->
  firstn (m - (b - a)) (firstn a l ++ skipn b l) = firstn a (firstn m l) ++ skipn b (firstn m l).
Proof.
  intros Ha Hb Hm. rewrite firstn_app. rewrite !firstn_firstn, firstn_length.
  rewrite (Nat.min_l a m), (Nat.min_r _ a), (Nat.min_l a (length l)) by lia.
  f_equal. rewrite firstn_skipn_comm. f_equal. f_equal. lia.
Qed.

Lemma cut_abs a b samples : a <= b -> b <= length samples -> forall sch k (fs : list (string * field V)),
  absfs fs = cols k sch samples -> (forall l f, In (l, f) fs -> fmark f <= length (fbuf f)) ->
  absfs (map (fun kf => (fst kf, cut_field a b (snd kf))) fs)
  = cols k sch (firstn a samples ++ skipn b samples) /\
  (forall l f, In (l, f) (map (fun kf => (fst kf, cut_field a b (snd kf))) fs) -> fmark f <= length (fbuf f)).
Proof.
  intros Ha Hb. induction sch as [|[l n] t IH]; intros k fs Habs Hm.
  - destruct fs; [|discriminate]. simpl. split; [auto|tauto].
  - destruct fs as [|[l' f] fs]; [discriminate|]. cbn in Habs. inversion Habs as [[E1 E2 E3 E4]].
    subst l'. destruct (IH (S k) fs E4) as [H1 H2].
    { intros; eapply Hm; right; eauto. }
    assert (Hmf : fmark f <= length (fbuf f)) by (apply (Hm l); left; auto).
    assert (Hms : fmark f = length samples).
    { apply (f_equal (@length _)) in E3. rewrite map_length, firstn_length in E3. lia. }
    split.
    + cbn [map fst snd absfs cols]. unfold absfs in H1. rewrite H1. f_equal. f_equal.
      unfold absf, cut_field. cbn [fdim fmark fbuf]. rewrite E2. f_equal.
      rewrite firstn_cut by lia. rewrite E3, map_app, firstn_map, skipn_map. reflexivity.
    + intros l0 f0 [E|Hin]; eauto. inversion E; subst. cbn.
      rewrite app_length, firstn_length, skipn_length. lia.
Qed.

Lemma R_cut sch (d : ds V) samples pos a b : good sch -> R sch d (samples, pos) ->
  a <= b -> b <= length samples ->
  R sch (cut_links a b d) (firstn a samples ++ skipn b samples, pos).
Proof.
  intros (_ & Hnd & _) (Hw & Ha & Hlen) Hab Hb. cbn [fst snd] in *.
  pose proof (f_equal pfields Ha) as Hf. pose proof (f_equal plinks Ha) as Hl.
  pose proof (f_equal pidx Ha) as Hi. cbn in Hf, Hl, Hi.
  destruct Hw as [[Hn Hm] Hlk].
  assert (Hkeys : map fst (fields d) = map fst sch).
  { apply (f_equal (map fst)) in Hf. unfold absfs in Hf. rewrite map_fst_map, cols_keys in Hf. exact Hf. }
  assert (Hcut : fields (cut_links a b d) = map (fun kf => (fst kf, cut_field a b (snd kf))) (fields d)).
  { unfold cut_links. cbn [fields with_fields]. rewrite fold_mod by (auto; rewrite Hl; auto).
    apply map_ext_in. intros [k f] Hin. cbn [fst snd].
    rewrite (proj2 (existsb_eqb_In k (links d))); auto.
    rewrite Hl, <- Hkeys. change k with (fst (k, f)). apply in_map; auto. }
  destruct (cut_abs a b samples Hab Hb sch 0 (fields d) Hf) as [H1 H2].
  { intros; eapply Hm; eauto. }
  split; [|split].
  - split; [split|].
    + rewrite Hcut, map_map. exact Hn.
    + rewrite Hcut. intros l f Hin. split; [|eauto].
      apply in_map_iff in Hin. destruct Hin as ([k g] & E & Hin). inversion E; subst. apply Hm in Hin. tauto.
    + rewrite Hcut, map_map. exact Hlk.
  - unfold abs. rewrite Hcut, H1. cbn. rewrite Hl, Hi. reflexivity.
  - cbn. intros smp Hs. apply Hlen. apply in_app_or in Hs. destruct Hs as [Hs|Hs].
    + rewrite <- (firstn_skipn a samples). apply in_or_app; auto.
    + rewrite <- (firstn_skipn b samples). apply in_or_app; auto.
Qed.

Lemma remove_concat ss i (sq : list sample) : nth_error ss i = Some sq ->
  firstn (before ss i) (concat ss) ++ skipn (before ss (S i)) (concat ss) = concat (remove_nth i ss).
Proof.
  intro H. unfold before, remove_nth. rewrite firstn_concat, skipn_concat, concat_app. reflexivity.
Qed.

Lemma firstn_remove {A} i m (l : list A) : i < m -> m <= length l ->
  firstn (m - 1) (firstn i l ++ skipn (i + 1) l) = remove_nth i (firstn m l).
Proof.
  intros Hi Hm. unfold remove_nth. pose proof (firstn_cut i (i + 1) m l) as H.
  replace (m - (i + 1 - i)) with (m - 1) in H by lia. rewrite H by lia.
  rewrite Nat.add_1_r. reflexivity.
Qed.

Lemma drop_seq_abs f rows a b i : fmark f <= length (fbuf f) ->
  absf f = (1, map (fun n => [n]) rows) -> i < length rows ->
  absf (drop_seq a b i f)
  = (1, map (fun n => [n]) (remove_nth i (map (fun v => if a <? v then v - (b - a) else v) rows))) /\
  fmark (drop_seq a b i f) <= length (fbuf (drop_seq a b i f)).
Proof.
  intros Hm Ha Hi. unfold absf in Ha. inversion Ha as [[Hd Hr]].
  assert (Hmr : fmark f = length rows).
  { apply (f_equal (@length _)) in Hr. rewrite map_length, firstn_length in Hr. lia. }
  set (sh := map (fun iv : nat * list nat => let (j, r) := iv in
                if j <? fmark f then map (fun v => if a <? v then v - (b - a) else v) r else r)
              (combine (seq 0 (length (fbuf f))) (fbuf f))).
  assert (Hshl : length sh = length (fbuf f)).
  { subst sh. rewrite map_length, combine_length, seq_length. lia. }
  assert (Hsh : firstn (fmark f) sh = map (map (fun v => if a <? v then v - (b - a) else v)) (firstn (fmark f) (fbuf f))).
  { subst sh. apply nth_error_ext. intro j. destruct (Nat.lt_ge_cases j (fmark f)) as [Hj|Hj].
    - rewrite nth_error_map, !nth_error_firstn by auto. rewrite nth_error_map.
      assert (Hc : nth_error (combine (seq 0 (length (fbuf f))) (fbuf f)) j
                   = option_map (fun r => (j, r)) (nth_error (fbuf f) j)).
      { assert (Hj2 : j < length (fbuf f)) by lia. clear -Hj2.
        assert (Hgen : forall (l : list (list nat)) k m, j < length l -> m = k + j ->
           nth_error (combine (seq k (length l)) l) j = option_map (fun r => (m, r)) (nth_error l j)).
        { clear. induction j as [|j IH]; intros [|x l] k m H Hm; simpl in *; try lia.
          - f_equal. f_equal. lia.
          - apply IH; lia. }
        apply Hgen; auto. }
      rewrite Hc. destruct (nth_error (fbuf f) j); simpl; auto.
      destruct (Nat.ltb_spec j (fmark f)); [reflexivity|lia].
    - rewrite !(proj2 (nth_error_None _ _)); auto; rewrite ?map_length, firstn_length; lia. }
  split.
  - unfold absf, drop_seq. fold sh. cbn [fdim fmark fbuf]. rewrite Hd. f_equal.
    rewrite firstn_remove by lia. rewrite Hsh, Hr. unfold remove_nth.
    rewrite ?firstn_map, ?skipn_map, ?map_map, ?map_app, ?firstn_map, ?skipn_map, ?map_map.
    reflexivity.
  - unfold drop_seq. fold sh. cbn [fmark fbuf]. rewrite app_length, firstn_length, skipn_length. lia.
Qed.

Lemma wfs_remove ss i : wfs ss -> i < length ss -> remove_nth i ss <> [] -> wfs (remove_nth i ss).
Proof.
  intros (a & z & -> & F) Hi Hne. rewrite app_length in Hi. simpl in Hi.
  unfold remove_nth in *.
  destruct (Nat.eq_dec i (length a)) as [->|Hd].
  - rewrite firstn_app, Nat.sub_diag, firstn_all in *. simpl firstn in *. rewrite app_nil_r in *.
    rewrite skipn_all2 in * by (rewrite app_length; simpl; lia).
    rewrite app_nil_r in *. destruct (exists_last Hne) as (a' & z' & ->).
    exists a', z'. split; auto. apply Forall_app in F. tauto.
  - rewrite firstn_app, skipn_app in *. replace (i - length a) with 0 in * by lia.
    replace (S i - length a) with 0 in * by lia. simpl firstn. simpl skipn at 2.
    rewrite app_nil_r. rewrite app_assoc. eexists _, _. split; [reflexivity|].
    apply Forall_app. split.
    + rewrite <- (firstn_skipn i a) in F. apply Forall_app in F. tauto.
    + rewrite <- (firstn_skipn (S i) a) in F. apply Forall_app in F. tauto.
Qed.

Lemma total_zero ss : wfs ss -> total ss = 0 -> ss = [[]].
Proof.
  intros (a & z & -> & F) H. unfold total in H. rewrite concat_app, app_length in H. simpl in H.
  rewrite app_nil_r in H. destruct z; [|simpl in H; lia].
  destruct a as [|s a]; auto. inversion F; subst. destruct s; [congruence|simpl in H; lia].
Qed.

Lemma R_idx sch (d : ds V) samples pos pos' : R sch d (samples, pos) -> R sch (with_idx d (Z.of_nat pos')) (samples, pos').
Proof.
  intros (Hw & Ha & Hl). split; [exact Hw|]. split; [|exact Hl]. cbn [fst snd] in *.
  pose proof (f_equal pfields Ha) as E1. pose proof (f_equal plinks Ha) as E2. cbn [pfields plinks abs rep] in E1, E2.
  unfold abs, rep. cbn [fields links idx with_idx fst snd]. rewrite E1, E2. reflexivity.
Qed.

Lemma R_getLength sch (d : ds V) st : good sch -> R sch d st -> getLength d = Ok (length (fst st)).
Proof.
  intros Hg HR. destruct st as [samples pos]. pose proof (sim_step vzero sch d _ SLen Hg I HR) as H.
  cbn in H. destruct H as [_ H]. destruct (getLength d); simpl in H; inversion H; reflexivity.
Qed.

Lemma remove_nth_length {A} i (l : list A) : i < length l -> length (remove_nth i l) = length l - 1.
Proof. intro H. unfold remove_nth. rewrite app_length, firstn_length, skipn_length. lia. Qed.

Lemma remove_step sch (s : sds) ss pos i : good sch -> RS sch s (ss, pos) ->
  let '(s', x) := qstep vzero s (QRemove i) in
  let '(st', y) := aqstep sch (ss, pos) (QRemove i) in RS sch s' st' /\ x = y.
Proof.
  intros Hg HR. cbn [qstep aqstep]. unfold removeSequence, getNumSequences.
  pose proof (RS_seqs _ _ _ HR) as Hsq. cbn [fst] in Hsq. rewrite Hsq, starts_length.
  pose proof (RS_length _ _ _ Hg HR) as HL. cbn [fst] in HL.
  destruct (Nat.leb_spec (length ss) i) as [Hi|Hi]; [cbn; auto|].
  rewrite starts_nth by auto. rewrite HL. cbn [Nat.add].
  pose proof HR as (HRb & Hwq & Haq & Hws). cbn [fst snd] in *.
  pose proof (f_equal pfields Haq) as Hfq. cbn in Hfq.
  destruct (fields (seqd s)) as [|[kq fq] [|]] eqn:Efq; try discriminate.
  cbn in Hfq. injection Hfq as Ek Ed Er. subst kq.
  assert (Hlk : lookup seq_label [(seq_label, fq)] = Some fq) by reflexivity. rewrite Hlk.
  assert (Hmq : fmark fq <= length (fbuf fq)).
  { destruct Hwq as [[_ H] _]. apply (H seq_label). rewrite Efq. left; auto. }
  destruct (nth_error ss i) as [sq|] eqn:Esq; [|apply nth_error_None in Esq; lia].
  set (seqend := if i =? length ss - 1 then total ss
                 else match nth_error (starts 0 ss) (i + 1) with Some b => b | None => total ss end).
  assert (Hend : seqend = before ss (S i)).
  { subst seqend. destruct (Nat.eqb_spec i (length ss - 1)) as [E|E].
    - rewrite <- before_total. f_equal. lia.
    - rewrite Nat.add_1_r, starts_nth by lia. reflexivity. }
  pose proof (before_S _ _ _ Esq) as HbS.
  assert (Hbt : before ss (S i) <= total ss).
  { unfold before, total. rewrite <- (firstn_skipn (S i) ss) at 2. rewrite concat_app, app_length. lia. }
  assert (HRc : R sch (cut_links (before ss i) seqend (body s)) (concat (remove_nth i ss), pos)).
  { rewrite Hend, <- (remove_concat _ _ _ Esq). apply R_cut; auto; lia. }
  destruct (drop_seq_abs fq (starts 0 ss) (before ss i) seqend i Hmq) as [Hda Hdm].
  { unfold absf. rewrite Ed, Er. reflexivity. }
  { rewrite starts_length. auto. }
  rewrite (starts_remove ss Hws i 0 Hi) in Hda.
  2: reflexivity.
  2:{ rewrite Hend, HbS. rewrite (nth_error_nth _ _ [] Esq). reflexivity. }
  set (q1 := with_fields (seqd s) (set seq_label (drop_seq (before ss i) seqend i fq) [(seq_label, fq)])).
  assert (Hq1 : wf q1 /\ abs q1 = mkP [(seq_label, (1, map (fun n => [n]) (starts 0 (remove_nth i ss))))] [] 0%Z).
  { subst q1. cbn [set]. rewrite String.eqb_refl. split.
    - destruct Hwq as [Hq Hql]. split; [split|]; cbn.
      + repeat constructor. simpl; tauto.
      + intros l f [E|[]]. inversion E; subst. split; [discriminate|auto].
      + intros l Hl. apply Hql in Hl. rewrite Efq in Hl. exact Hl.
    - unfold abs. cbn [fields with_fields links idx absfs map fst snd]. rewrite Hda.
      pose proof (f_equal plinks Haq) as E1. pose proof (f_equal pidx Haq) as E2. cbn in E1, E2.
      rewrite E1, E2. reflexivity. }
  destruct Hq1 as [Hwq1 Haq1].
  pose proof (remove_nth_length i ss Hi) as Hrl.
  destruct (Nat.eqb_spec i (length ss - 1)) as [Elast|Elast].
  - (* last sequence *)
    pose proof (R_getLength _ _ _ Hg HRc) as HLc. cbn [fst] in HLc. rewrite HLc.
    destruct (remove_nth i ss) as [|r0 rt] eqn:Erm.
    + (* nothing left *)
      cbn [concat length]. cbn. split; auto.
      (* clear_seq of a state whose body satisfies R *)
      set (s1 := mkSDS (with_idx (cut_links (before ss i) seqend (body s)) 0%Z) q1 (Z.of_nat i - 1)%Z).
      assert (HRb1 : R sch (body s1) ([], 0)).
      { subst s1. cbn [body]. change 0%Z with (Z.of_nat 0). eapply R_idx. exact HRc. }
      eapply clear_gen; eauto.
    + (* other sequences remain; they are not empty *)
      rewrite <- Erm in *.
      assert (Hwr : wfs (remove_nth i ss)) by (apply wfs_remove; auto; rewrite Erm; discriminate).
      assert (Hall : Forall (fun s => s <> []) (remove_nth i ss)).
      { destruct Hws as (a & z & -> & F). rewrite app_length in Elast. simpl in Elast.
        assert (Ei : i = length a) by lia. rewrite Ei. unfold remove_nth.
        rewrite firstn_app, firstn_all, Nat.sub_diag. simpl firstn. rewrite app_nil_r.
        rewrite skipn_all2 by (rewrite app_length; simpl; lia). rewrite app_nil_r. auto. }
      assert (Htot : length (concat (remove_nth i ss)) <> 0).
      { rewrite Erm in *. inversion Hall; subst. simpl. rewrite app_length.
        destruct r0; [congruence|simpl; lia]. }
      destruct (Nat.eqb_spec (length (concat (remove_nth i ss))) 0); [contradiction|].
      destruct (Nat.eqb_spec (S i) (length ss)); [|lia].
      cbn [fst snd qout_of]. split; auto. unfold RS. cbn [body seqd fst snd].
      split; [|split; [|split]]; auto. unfold total. eapply R_idx; eauto.
  - (* an inner sequence *)
    assert (Hne : remove_nth i ss <> []).
    { intro E. rewrite E in Hrl. simpl in Hrl. lia. }
    assert (Hwr : wfs (remove_nth i ss)) by (apply wfs_remove; auto).
    set (s1 := mkSDS (cut_links (before ss i) seqend (body s)) q1 (Z.of_nat i)).
    assert (HR1 : RS sch s1 (remove_nth i ss, pos)).
    { split; [|split; [|split]]; auto. }
    rewrite (RS_seqs _ _ _ HR1). cbn [fst]. rewrite starts_nth by lia. cbn [Nat.add fst snd qout_of].
    destruct (Nat.eqb_spec (S i) (length ss)); [lia|].
    destruct (remove_nth i ss) as [|r0 rt] eqn:Erm; [congruence|]. rewrite <- Erm in *.
    split; auto. unfold RS. cbn [body seqd fst snd]. split; [|split; [|split]]; auto.
    eapply R_idx; eauto.
Qed.

End Proofs.
