(** Proofs about the buffer model of DataSet. *)
From Verif Require Import Base Dataset_Model Dataset_Spec.

Section Proofs.
Context {V : Type} (vzero : V).
Notation row := (row V).
Notation field := (field V).
Notation ds := (ds V).

(** ** Association lists *)

Lemma lookup_set_eq {A} l (f : A) fs : lookup l (set l f fs) = Some f.
Proof.
  induction fs as [|[k g] t IH]; simpl.
  - rewrite String.eqb_refl. reflexivity.
  - destruct (String.eqb_spec l k) as [->|Hn]; simpl.
    + rewrite String.eqb_refl. reflexivity.
    + destruct (String.eqb_spec l k); [contradiction|exact IH].
Qed.

Lemma lookup_set_neq {A} l k (f : A) fs : k <> l -> lookup k (set l f fs) = lookup k fs.
Proof.
  intro Hn. induction fs as [|[k' g] t IH]; simpl.
  - destruct (String.eqb_spec k l); [contradiction|reflexivity].
  - destruct (String.eqb_spec l k') as [->|H']; simpl.
    + destruct (String.eqb_spec k k'); [contradiction|reflexivity].
    + destruct (String.eqb_spec k k'); [reflexivity|exact IH].
Qed.

Lemma lookup_In {A} l (f : A) fs : lookup l fs = Some f -> In (l, f) fs.
Proof.
  induction fs as [|[k g] t IH]; simpl; [discriminate|].
  destruct (String.eqb_spec l k) as [->|Hn]; intro H.
  - inversion H; auto.
  - auto.
Qed.

Lemma In_set {A} l (f : A) fs kf : In kf (set l f fs) -> kf = (l, f) \/ In kf fs.
Proof.
  induction fs as [|[k g] t IH]; simpl.
  - intros [<-|[]]; auto.
  - destruct (String.eqb_spec l k) as [->|Hn]; simpl; intros [H|H]; auto.
    apply IH in H. tauto.
Qed.

Lemma set_keys_present {A} l (f : A) fs : In l (map fst fs) -> map fst (set l f fs) = map fst fs.
Proof.
  induction fs as [|[k g] t IH]; simpl; [tauto|].
  destruct (String.eqb_spec l k) as [->|Hn]; simpl; intros H; auto.
  f_equal. apply IH. destruct H; [congruence|auto].
Qed.

Lemma set_keys_absent {A} l (f : A) fs : ~ In l (map fst fs) -> set l f fs = fs ++ [(l, f)].
Proof.
  induction fs as [|[k g] t IH]; simpl; auto.
  destruct (String.eqb_spec l k) as [->|Hn]; simpl; intros H; [tauto|].
  f_equal. apply IH. tauto.
Qed.

Lemma lookup_None {A} l (fs : list (string * A)) : lookup l fs = None <-> ~ In l (map fst fs).
Proof.
  induction fs as [|[k g] t IH]; simpl; [tauto|].
  destruct (String.eqb_spec l k) as [->|Hn].
  - split; intro H; [discriminate|]. exfalso. auto.
  - rewrite IH. split; intro H; [intros [E|E]; [congruence|auto]|auto].
Qed.

Lemma lookup_keys {A} l (f : A) fs : lookup l fs = Some f -> In l (map fst fs).
Proof. intro H. apply lookup_In in H. change l with (fst (l, f)). apply in_map. exact H. Qed.

Lemma set_NoDup {A} l (f : A) fs : NoDup (map fst fs) -> NoDup (map fst (set l f fs)).
Proof.
  intro H. destruct (in_dec string_dec l (map fst fs)) as [Hi|Hi].
  - rewrite set_keys_present; auto.
  - rewrite set_keys_absent, map_app; auto. simpl.
    eapply (Permutation_NoDup (l := l :: map fst fs)).
    + apply Permutation_cons_append.
    + constructor; auto.
Qed.

Lemma lookup_map {A B} (g : A -> B) l (fs : list (string * A)) :
  lookup l (map (fun kf => (fst kf, g (snd kf))) fs) = option_map g (lookup l fs).
Proof.
  induction fs as [|[k f] t IH]; simpl; auto.
  destruct (String.eqb l k); auto.
Qed.

Lemma set_map {A B} (g : A -> B) l f (fs : list (string * A)) :
  map (fun kf => (fst kf, g (snd kf))) (set l f fs)
  = set l (g f) (map (fun kf => (fst kf, g (snd kf))) fs).
Proof.
  induction fs as [|[k h] t IH]; simpl; auto.
  destruct (String.eqb l k); simpl; [reflexivity|]. f_equal; auto.
Qed.

Lemma map_fst_map {A B} (g : A -> B) (fs : list (string * A)) :
  map fst (map (fun kf => (fst kf, g (snd kf))) fs) = map fst fs.
Proof. rewrite map_map. reflexivity. Qed.

Lemma set_same {A} l (f : A) fs : lookup l fs = Some f -> set l f fs = fs.
Proof.
  induction fs as [|[k g] t IH]; simpl; [discriminate|].
  destruct (String.eqb l k); intro H; [congruence|]. f_equal; auto.
Qed.

(** ** Growing a buffer *)

Lemma np_resize_length dim n (b : list row) : length (np_resize vzero dim n b) = n.
Proof.
  unfold np_resize. destruct b.
  - apply repeat_length.
  - rewrite map_length, seq_length. reflexivity.
Qed.

Lemma np_resize_firstn dim n k (b : list row) :
  k <= length b -> length b <= n -> firstn k (np_resize vzero dim n b) = firstn k b.
Proof.
  intros Hk Hn. unfold np_resize. destruct b as [|r0 b0] eqn:Hb.
  - simpl in Hk. assert (k = 0) by lia. subst. reflexivity.
  - rewrite <- Hb in *. clear Hb. apply nth_error_ext. intro i.
    destruct (Nat.lt_ge_cases i k) as [Hi|Hi].
    + rewrite !nth_error_firstn by auto.
      rewrite (nth_error_map_some _ _ _ i).
      * rewrite Nat.mod_small by lia. symmetry. apply nth_error_nth'. lia.
      * rewrite nth_error_seq by lia. reflexivity.
    + rewrite !(proj2 (nth_error_None _ _)); auto; rewrite firstn_length; lia.
Qed.

(** ** Abstraction *)

Definition absf (f : field) : nat * list row := (fdim f, firstn (fmark f) (fbuf f)).
Definition absfs (fs : list (string * field)) := map (fun kf => (fst kf, absf (snd kf))) fs.
Definition abs (d : ds) : pds V := mkP (absfs (fields d)) (links d) (idx d).

Definition wff (fs : list (string * field)) : Prop :=
  NoDup (map fst fs) /\
  forall l f, In (l, f) fs -> l <> ""%string /\ fmark f <= length (fbuf f).
Definition wf (d : ds) : Prop :=
  wff (fields d) /\ forall l, In l (links d) -> In l (map fst (fields d)).

Lemma wff_set l f fs :
  wff fs -> l <> ""%string -> fmark f <= length (fbuf f) -> wff (set l f fs).
Proof.
  intros [H1 H2] Hl Hf. split.
  - apply set_NoDup; auto.
  - intros l' f' Hin. apply In_set in Hin. destruct Hin as [E|Hin]; auto.
    inversion E; subst; auto.
Qed.

Lemma wff_lookup l f fs : wff fs -> lookup l fs = Some f -> l <> ""%string /\ fmark f <= length (fbuf f).
Proof. intros [_ H] Hl. apply H, lookup_In; auto. Qed.

Lemma set_keys_incl {A} l (f : A) fs k : In k (map fst fs) -> In k (map fst (set l f fs)).
Proof.
  intro H. destruct (in_dec string_dec l (map fst fs)) as [Hi|Hi].
  - rewrite set_keys_present; auto.
  - rewrite set_keys_absent, map_app; auto. apply in_or_app; auto.
Qed.

Lemma lookup_absfs l fs : lookup l (absfs fs) = option_map absf (lookup l fs).
Proof. apply lookup_map. Qed.

Lemma prows_abs d l : prows (abs d) l = option_map (fun f => firstn (fmark f) (fbuf f)) (lookup l (fields d)).
Proof. unfold prows. simpl. rewrite lookup_absfs. destruct (lookup l (fields d)); reflexivity. Qed.

Lemma getField_abs d l :
  getField d l = match prows (abs d) l with Some r => Ok r | None => Err KeyError end.
Proof. unfold getField. rewrite prows_abs. destruct (lookup l (fields d)); reflexivity. Qed.

Lemma max_label_fold l (fs : list (string * field)) :
  max_label l fs = fold_left (fun m kf => if String.leb (fst kf) m then m else fst kf) (absfs fs) l.
Proof. revert l; induction fs as [|[k f] t IH]; intro l; simpl; auto. Qed.

Lemma length_mark l f fs : wff fs -> lookup l fs = Some f ->
  length (firstn (fmark f) (fbuf f)) = fmark f.
Proof. intros H1 H2. destruct (wff_lookup _ _ _ H1 H2). rewrite firstn_length. lia. Qed.

Lemma getLength_abs d : wff (fields d) -> getLength d = plen (abs d).
Proof.
  intro Hw. unfold getLength, plen. simpl plinks.
  destruct (links d) as [|l ls].
  - simpl pfields. destruct (fields d) as [|[k f] t] eqn:Hf; [reflexivity|].
    cbn [absfs map fst]. fold (absfs t). rewrite <- Hf, max_label_fold, prows_abs.
    destruct (lookup _ (fields d)) as [g|] eqn:E; simpl; [|reflexivity].
    rewrite <- Hf in Hw. rewrite (length_mark _ _ _ Hw E). reflexivity.
  - rewrite prows_abs. destruct (lookup l (fields d)) as [g|] eqn:E; simpl; [|reflexivity].
    rewrite (length_mark _ _ _ Hw E). reflexivity.
Qed.

(** ** Appending *)

Lemma resize_ds_nonempty (d : ds) l f : l <> ""%string -> lookup l (fields d) = Some f ->
  resize_ds vzero d l = with_fields d (set l (resizeField vzero f) (fields d)).
Proof.
  intros Hl Hf. unfold resize_ds, resize_labels.
  destruct (String.eqb_spec l ""); [contradiction|]. simpl. rewrite Hf. reflexivity.
Qed.

Lemma appendUnlinked_abs d l r d' x :
  wf d -> appendUnlinked vzero d l r = (d', x) ->
  wf d' /\ links d' = links d /\ idx d' = idx d /\
  match padd1 (pfields (abs d)) l r with
  | Ok fs => x = Ok tt /\ pfields (abs d') = fs
  | Err e => x = Err e /\ pfields (abs d') = pfields (abs d)
  end.
Proof.
  intros [Hw Hlk] H. unfold appendUnlinked in H. unfold padd1. simpl pfields.
  rewrite lookup_absfs. destruct (lookup l (fields d)) as [f0|] eqn:E0.
  2:{ inversion H; subst. simpl. split; [split; auto|]. auto. }
  destruct (wff_lookup _ _ _ Hw E0) as [Hl Hm].
  set (d1 := if length (fbuf f0) <=? fmark f0 then resize_ds vzero d l else d) in H.
  assert (Hd1 : exists f, d1 = with_fields d (set l f (fields d)) /\
     fdim f = fdim f0 /\ fmark f = fmark f0 /\ fmark f < length (fbuf f) /\
     firstn (fmark f) (fbuf f) = firstn (fmark f0) (fbuf f0)).
  { subst d1. destruct (Nat.leb_spec (length (fbuf f0)) (fmark f0)).
    - exists (resizeField vzero f0). rewrite (resize_ds_nonempty _ _ _ Hl E0).
      unfold resizeField. cbn [fdim fbuf fmark].
      repeat split; auto.
      + rewrite np_resize_length. lia.
      + apply np_resize_firstn; lia.
    - exists f0. rewrite set_same by auto. destruct d; repeat split; auto. }
  destruct Hd1 as (f & Hd1 & Hdim & Hmk & Hlt & Hfst).
  rewrite Hd1 in H. cbn [fields with_fields] in H. rewrite lookup_set_eq in H.
  destruct (Nat.ltb_spec (fmark f) (length (fbuf f))); [|lia].
  simpl option_map. unfold absf. rewrite <- Hdim.
  assert (Hset2 : forall (g h : field) fs, set l g (set l h fs) = set l g fs).
  { intros g h fs. induction fs as [|[k q] t IH]; simpl.
    - rewrite String.eqb_refl. reflexivity.
    - destruct (String.eqb l k) eqn:Ek; simpl; rewrite Ek; [reflexivity|]. f_equal; auto. }
  destruct (fit (fdim f) r) as [r'|] eqn:Efit; inversion H; subst d' x; clear H.
  - cbn [fields links idx with_fields]. split; [split|split; [|split; [|split]]]; auto.
    + cbn [fields with_fields]. rewrite Hset2. apply wff_set; auto.
      cbn. rewrite upd_length. lia.
    + cbn [fields links with_fields]. intros k Hk. rewrite Hset2. apply set_keys_incl; auto.
    + unfold abs. cbn [fields pfields with_fields]. rewrite Hset2. unfold absfs.
      rewrite set_map. f_equal. unfold absf. cbn [fdim fmark fbuf].
      rewrite firstn_S_upd by lia. rewrite Hfst. reflexivity.
  - cbn [fields links idx with_fields]. split; [split|split; [|split; [|split]]]; auto.
    + cbn [fields with_fields]. apply wff_set; auto. lia.
    + cbn [fields links with_fields]. intros k Hk. apply set_keys_incl; auto.
    + unfold abs. cbn [fields pfields with_fields]. unfold absfs. rewrite set_map.
      apply set_same. rewrite lookup_map, E0. simpl. unfold absf.
      rewrite Hfst, Hdim. reflexivity.
Qed.

Lemma abs_eq d fs ls i : pfields (abs d) = fs -> links d = ls -> idx d = i -> abs d = mkP fs ls i.
Proof. unfold abs; simpl. congruence. Qed.

Lemma append_all_abs ls : forall d rs d' x,
  wf d -> append_all vzero d ls rs = (d', x) ->
  wf d' /\ links d' = links d /\ idx d' = idx d /\
  padd (pfields (abs d)) ls rs = (pfields (abs d'), x).
Proof.
  induction ls as [|l ls IH]; intros d rs d' x Hw H; simpl in H.
  - inversion H; subst. simpl. auto.
  - destruct rs as [|r rs]; [inversion H; subst; simpl; auto|].
    destruct (appendUnlinked vzero d l r) as [d1 x1] eqn:E1.
    destruct (appendUnlinked_abs _ _ _ _ _ Hw E1) as (Hw1 & Hl1 & Hi1 & Hp).
    cbn [padd]. destruct (padd1 (pfields (abs d)) l r) as [fs|e] eqn:Ep; destruct Hp as [-> Hp].
    + destruct (IH _ _ _ _ Hw1 H) as (Hw' & Hl' & Hi' & Hp'). rewrite <- Hp.
      split; [exact Hw'|]. split; [congruence|]. split; [congruence|exact Hp'].
    + inversion H; subst. split; [exact Hw1|]. repeat split; congruence.
Qed.

(** ** Clearing *)

Lemma existsb_eqb_In l ls : existsb (String.eqb l) ls = true <-> In l ls.
Proof.
  rewrite existsb_exists. split.
  - intros (k & Hk & E). apply String.eqb_eq in E. subst; auto.
  - intro H. exists l. split; auto. apply String.eqb_refl.
Qed.

Lemma lookup_nodup_In {A} l (f : A) fs : NoDup (map fst fs) -> In (l, f) fs -> lookup l fs = Some f.
Proof.
  induction fs as [|[k g] t IH]; simpl; [tauto|].
  intros Hn [E|Hin].
  - inversion E; subst. rewrite String.eqb_refl. reflexivity.
  - inversion Hn; subst. destruct (String.eqb_spec l k) as [->|]; auto.
    exfalso. apply H1. change k with (fst (k, f)). apply in_map; auto.
Qed.

Lemma clear1_keys k (fs : list (string * field)) :
  map fst (match lookup k fs with Some f => set k (mkField (fdim f) [] 0) fs | None => fs end)
  = map fst fs.
Proof.
  destruct (lookup k fs) eqn:E; auto. apply set_keys_present. eapply lookup_keys; eauto.
Qed.

Lemma set_as_map {A} l (f : A) fs : NoDup (map fst fs) -> In l (map fst fs) ->
  set l f fs = map (fun kg => if String.eqb (fst kg) l then (fst kg, f) else kg) fs.
Proof.
  induction fs as [|[k g] t IH]; simpl; [tauto|].
  intros Hn Hin. inversion Hn; subst. rewrite String.eqb_sym.
  destruct (String.eqb_spec k l) as [->|Hd]; simpl.
  - f_equal. symmetry. erewrite map_ext_in; [apply map_id|].
    intros [k' g'] Hk'. simpl. destruct (String.eqb_spec k' l) as [->|]; auto.
    exfalso. apply H1. change l with (fst (l, g')). apply in_map; auto.
  - f_equal. apply IH; auto. destruct Hin; [congruence|auto].
Qed.

Lemma clear_labels_map ls : forall fs : list (string * field), NoDup (map fst fs) ->
  clear_labels ls fs
  = map (fun kf => if existsb (String.eqb (fst kf)) ls
                   then (fst kf, mkField (fdim (snd kf)) [] 0) else kf) fs.
Proof.
  induction ls as [|l ls IH]; intros fs Hn.
  - cbn. symmetry. erewrite map_ext; [apply map_id|]. intros [k f]; reflexivity.
  - unfold clear_labels. cbn [fold_left].
    change (clear_labels ls (match lookup l fs with
       | Some f => set l (mkField (fdim f) [] 0) fs | None => fs end) =
       map (fun kf => if existsb (String.eqb (fst kf)) (l :: ls)
                      then (fst kf, mkField (fdim (snd kf)) [] 0) else kf) fs).
    rewrite IH by (rewrite clear1_keys; auto).
    destruct (lookup l fs) as [f|] eqn:E.
    + rewrite set_as_map by (auto; eapply lookup_keys; eauto).
      rewrite map_map. apply map_ext_in. intros [k g] Hin. simpl.
      destruct (String.eqb_spec k l) as [->|Hd]; simpl.
      * rewrite (lookup_nodup_In l g fs) in E by auto. inversion E; subst.
        destruct (existsb (String.eqb l) ls); reflexivity.
      * reflexivity.
    + apply map_ext_in. intros [k g] Hin. simpl.
      destruct (String.eqb_spec k l) as [->|Hd]; simpl; auto.
      apply lookup_None in E. exfalso. apply E.
      change l with (fst (l, g)). apply in_map; auto.
Qed.

Lemma clear_abs d u : wf d -> wf (clear d u) /\
  abs (clear d u) = fst (pstep (abs d) (OClear u)).
Proof.
  intros [[Hn Hw] Hl]. unfold clear.
  set (keys := match links d with [] => map fst (fields d)
               | _ :: _ => if u then map fst (fields d) else links d end).
  assert (Hk : map fst (clear_labels keys (fields d)) = map fst (fields d)).
  { rewrite clear_labels_map by auto. rewrite map_map. apply map_ext.
    intros [k f]; simpl. destruct (existsb _ keys); reflexivity. }
  assert (E : match links d with [] => map fst (fields d)
               | s :: l => if u then map fst (fields d) else s :: l end = keys).
  { subst keys. destruct (links d); reflexivity. }
  split.
  - unfold wf, wff. cbn [fields links]. rewrite E, Hk. split; [split; [auto|]|auto].
    intros l f H. split.
    + rewrite clear_labels_map in H by auto. apply in_map_iff in H.
      destruct H as ([k g] & E2 & Hin). simpl in E2. apply Hw in Hin.
      destruct (existsb _ keys); inversion E2; subst; tauto.
    + rewrite clear_labels_map in H by auto. apply in_map_iff in H.
      destruct H as ([k g] & E2 & Hin). simpl in E2. apply Hw in Hin.
      destruct (existsb _ keys); inversion E2; subst; simpl; [lia|tauto].
  - cbn [pstep fst]. simpl pfields. simpl plinks. unfold abs. cbn [fields links idx].
    f_equal. rewrite E.
    replace (map fst (absfs (fields d))) with (map fst (fields d))
      by (unfold absfs; rewrite map_fst_map; reflexivity).
    rewrite E. clearbody keys.
    unfold pclear, absfs. rewrite clear_labels_map by auto. rewrite !map_map.
    apply map_ext. intros [k f]; cbn [fst snd].
    destruct (existsb _ keys); reflexivity.
Qed.

(** ** Reading samples *)

Lemma pick_read d n i ls : wff (fields d) ->
  (forall l, In l ls -> exists rows, prows (abs d) l = Some rows /\ length rows = n) ->
  i < n ->
  exists rs, pick (abs d) i ls = Some rs /\ read_links d (Z.of_nat i) ls = Ok rs.
Proof.
  intros Hw. induction ls as [|l ls IH]; intros Hs Hi; simpl.
  - exists []. auto.
  - destruct (Hs l) as (rows & Hr & Hlen); [left; auto|].
    destruct IH as (rs & H1 & H2); auto. { intros; apply Hs; right; auto. }
    rewrite Hr. destruct (nth_error rows i) as [r|] eqn:En.
    2:{ apply nth_error_None in En. lia. }
    exists (r :: rs). rewrite H1. split; auto.
    rewrite prows_abs in Hr. destruct (lookup l (fields d)) as [f|]; [|discriminate].
    simpl in Hr. inversion Hr; subst rows. clear Hr.
    unfold py_nth. destruct (Z.leb_spec 0 (Z.of_nat i)); [|lia].
    rewrite Nat2Z.id.
    rewrite firstn_length in Hlen. rewrite nth_error_firstn in En by lia.
    rewrite En, H2. reflexivity.
Qed.

Lemma pick_beyond (p : pds V) n i l ls : 
  (forall k, In k (l :: ls) -> exists rows, prows p k = Some rows /\ length rows = n) ->
  n <= i -> pick p i (l :: ls) = None.
Proof.
  intros Hs Hi. simpl. destruct (Hs l) as (rows & Hr & Hlen); [left; auto|].
  rewrite Hr. rewrite (proj2 (nth_error_None rows i)) by lia. reflexivity.
Qed.

Lemma pick_ext (p q : pds V) i ls : pfields p = pfields q -> pick p i ls = pick q i ls.
Proof.
  intro H. induction ls as [|l ls IH]; simpl; auto.
  unfold prows. rewrite H, IH. reflexivity.
Qed.

Lemma wf_with_idx d i : wf d -> wf (with_idx d i).
Proof. exact (fun H => H). Qed.

Lemma getLinked_abs d oi : wf d -> op_ok (abs d) (OGetLinked oi) ->
  forall d' x, getLinked d oi = (d', x) ->
  wf d' /\ pstep (abs d) (OGetLinked oi) = (abs d', out_of OutRows x).
Proof.
  intros Hwf [[n Hs] Hi] d' x H. unfold getLinked in H.
  cbn [pstep]. simpl plinks. simpl plinks in Hs. simpl pidx in *.
  destruct (links d) as [|l ls] eqn:El.
  { inversion H; subst. auto. }
  set (i := match oi with Some i0 => i0 | None => idx d end) in *.
  replace (getLength (with_idx d (i + 1)%Z)) with (getLength d) in H by reflexivity.
  rewrite getLength_abs in H by apply Hwf.
  unfold plen in H. simpl plinks in H. rewrite El in H.
  destruct (Hs l) as (rows & Hr & Hlen); [left; auto|].
  rewrite Hr in H. cbn [links with_idx] in H. rewrite El in H.
  assert (Hres : (d', x) = (with_idx d (i + 1)%Z,
     match pick (abs d) (Z.to_nat i) (l :: ls) with Some rs => Ok rs | None => Err IndexError end)).
  { destruct (Z.leb_spec (Z.of_nat (length rows)) i) as [Hge|Hlt].
    - inversion H; subst d' x. rewrite (pick_beyond _ n); auto. lia.
    - destruct (pick_read (with_idx d (i + 1)%Z) n (Z.to_nat i) (l :: ls)) as (rs & H1 & H2).
      + apply Hwf.
      + exact Hs.
      + lia.
      + rewrite Z2Nat.id in H2 by lia. rewrite H2 in H. inversion H; subst.
        rewrite (pick_ext (abs d) (abs (with_idx d (i + 1)%Z))) by reflexivity.
        rewrite H1. reflexivity. }
  apply pair_equal_spec in Hres. destruct Hres as [-> ->]. split; [exact Hwf|].
  apply pair_equal_spec. split.
  - unfold abs. cbn [fields links idx with_idx]. rewrite El. reflexivity.
  - match goal with |- match ?x with _ => _ end = _ =>
      replace x with (pick (abs d) (Z.to_nat i) (l :: ls)) by (apply pick_ext; reflexivity)
    end.
    destruct (pick (abs d) (Z.to_nat i) (l :: ls)); reflexivity.
Qed.

(** ** Linking *)

Lemma unlink_fold ls : forall cur : list string,
  fold_left (fun cur l => if existsb (String.eqb l) cur then remove_first l cur else cur) ls cur
  = fold_left (fun cur l => remove_first l cur) ls cur.
Proof.
  induction ls as [|l ls IH]; intro cur; simpl; auto.
  rewrite IH. f_equal. destruct (existsb (String.eqb l) cur) eqn:E; auto.
  clear -E. induction cur as [|k t IHt]; simpl in *; auto.
  apply orb_false_elim in E. destruct E as [E1 E2]. rewrite E1. f_equal; auto.
Qed.

Lemma remove_first_incl l ls k : In k (remove_first l ls) -> In k ls.
Proof.
  induction ls as [|h t IH]; simpl; auto.
  destruct (String.eqb l h); simpl; auto. intros [E|H]; auto.
Qed.

Lemma unlink_incl ls : forall cur k,
  In k (fold_left (fun cur l => remove_first l cur) ls cur) -> In k cur.
Proof.
  induction ls as [|l ls IH]; intros cur k H; simpl in H; auto.
  apply IH in H. eapply remove_first_incl; eauto.
Qed.

Lemma check_links_ok (d : ds) len ls x : check_links d len ls = Ok x ->
  forall l, In l ls -> In l (map fst (fields d)).
Proof.
  induction ls as [|k t IH]; simpl; [tauto|].
  unfold getField at 1. destruct (lookup k (fields d)) as [f|] eqn:E; simpl; [|discriminate].
  destruct (_ =? len); [|discriminate]. intros H l [<-|Hl]; auto.
  eapply lookup_keys; eauto.
Qed.

Lemma link_step d ls : wf d ->
  let '(d', x) := step vzero d (OLink ls) in
  wf d' /\ pstep (abs d) (OLink ls) = (abs d', x).
Proof.
  intro Hw. cbn [step]. unfold linkFields. destruct ls as [|l ls].
  { split; auto. }
  rewrite (getField_abs d l). cbn [pstep].
  destruct (prows (abs d) l) as [r0|] eqn:E0; simpl rbind; [|split; auto].
  assert (Hc : forall ks,
    (fix go (ks : list string) : pds V * out V :=
       match ks with
       | [] => (mkP (pfields (abs d)) (l :: ls) (pidx (abs d)), OutUnit)
       | k :: t => match prows (abs d) k with
                   | None => (abs d, OutErr KeyError)
                   | Some r => if length r =? length r0 then go t
                               else (abs d, OutErr OutOfSyncError)
                   end
       end) ks
    = match check_links d (length r0) ks with
      | Ok _ => (abs (with_links d (l :: ls)), OutUnit)
      | Err e => (abs d, OutErr e)
      end).
  { induction ks as [|k t IH]; simpl.
    - reflexivity.
    - rewrite (getField_abs d k). destruct (prows (abs d) k) as [r|] eqn:Er; simpl; auto.
      destruct (length r =? length r0); auto. }
  rewrite Hc. clear Hc.
  simpl check_links. rewrite (getField_abs d l), E0. simpl rbind. rewrite Nat.eqb_refl.
  destruct (check_links d (length r0) ls) as [u|e] eqn:Ec; simpl.
  - split; [|reflexivity]. destruct Hw as [Hw1 Hw2]. split; auto.
    cbn [links with_links fields]. intros k [<-|Hk].
    + rewrite prows_abs in E0. destruct (lookup l (fields d)) eqn:El; [|discriminate].
      eapply lookup_keys; eauto.
    + eapply check_links_ok; eauto.
  - split; auto.
Qed.

(** ** One call *)

Lemma step_refines d o : wf d -> op_ok (abs d) o ->
  let '(d', x) := step vzero d o in wf d' /\ pstep (abs d) o = (abs d', x).
Proof.
  intros Hw Hok. destruct o as [l n|l n rows|ls|ls|l r|rs|i|l| | | |u].
  - cbn. split.
    + destruct Hw as [H1 H2]. split.
      * apply wff_set; auto.
      * cbn. intros k Hk. apply set_keys_incl; auto.
    + unfold abs, addField, absfs. cbn. rewrite set_map. reflexivity.
  - cbn. split.
    + destruct Hw as [H1 H2]. split.
      * apply wff_set; auto.
      * cbn. intros k Hk. apply set_keys_incl; auto.
    + unfold abs, setField, absfs. cbn. rewrite set_map.
      replace (absf (mkField n rows (length rows))) with (n, rows); [reflexivity|].
      unfold absf. cbn. rewrite firstn_all. reflexivity.
  - apply link_step; auto.
  - cbn. split.
    + destruct Hw as [H1 H2]. split; [destruct ls; exact H1|].
      destruct ls as [ls|]; cbn; [|tauto]. intros k Hk. rewrite unlink_fold in Hk.
      apply unlink_incl in Hk. auto.
    + destruct ls as [ls|]; cbn; auto. rewrite unlink_fold. reflexivity.
  - cbn [step]. unfold append. cbn [pstep]. simpl plinks.
    destruct (existsb (String.eqb l) (links d)); [split; auto|].
    destruct (appendUnlinked vzero d l r) as [d' x] eqn:E.
    destruct (appendUnlinked_abs _ _ _ _ _ Hw E) as (Hw' & Hl & Hi & Hp).
    split; auto. destruct (padd1 (pfields (abs d)) l r) as [fs|e]; destruct Hp as [-> Hp]; cbn.
    + f_equal. rewrite <- Hp, <- Hl, <- Hi. reflexivity.
    + f_equal. destruct d, d'; unfold abs in *; simpl in *; congruence.
  - cbn [step]. unfold appendLinked. cbn [pstep]. simpl plinks.
    destruct (length rs =? length (links d)); [|split; auto].
    destruct (append_all vzero d (links d) rs) as [d' x] eqn:E.
    destruct (append_all_abs _ _ _ _ _ Hw E) as (Hw' & Hl & Hi & Hp).
    split; auto. rewrite Hp. apply pair_equal_spec. split.
    + rewrite <- Hl. simpl pidx. rewrite <- Hi. reflexivity.
    + destruct x; reflexivity.
  - cbn [step]. destruct (getLinked d i) as [d' x] eqn:E.
    exact (getLinked_abs d i Hw Hok d' x E).
  - cbn. split; auto. f_equal. rewrite getField_abs.
    change (mkP (absfs (fields d)) (links d) (idx d)) with (abs d).
    destruct (prows (abs d) l); reflexivity.
  - cbn. split; auto. f_equal. rewrite getLength_abs by apply Hw.
    destruct (plen (abs d)); reflexivity.
  - cbn. split; auto. f_equal. unfold endOfData. rewrite getLength_abs by apply Hw.
    destruct (plen (abs d)); reflexivity.
  - cbn. split; auto.
  - cbn [step]. destruct (clear_abs d u Hw) as [H1 H2]. split; auto.
    rewrite H2. reflexivity.
Qed.

Lemma run_refines os : forall d, wf d -> session_ok (abs d) os ->
  wf (fst (run vzero d os)) /\
  prun (abs d) os = (abs (fst (run vzero d os)), snd (run vzero d os)).
Proof.
  induction os as [|o os IH]; intros d Hw Hs.
  - simpl. auto.
  - destruct Hs as [Ho Hs]. pose proof (step_refines d o Hw Ho) as H.
    cbn [run prun]. destruct (step vzero d o) as [d1 x] eqn:E1.
    destruct H as [Hw1 Hp]. rewrite Hp in Hs |- *. simpl in Hs.
    destruct (IH d1 Hw1 Hs) as [Hw2 Hr]. rewrite Hr.
    destruct (run vzero d1 os) as [d2 xs]. simpl in *. auto.
Qed.

Lemma wf_empty : wf empty_ds.
Proof. split; [split; [constructor|]|]; simpl; tauto. Qed.

Lemma run_refines_empty os : session_ok (V := V) pempty os ->
  snd (run vzero empty_ds os) = snd (prun pempty os) /\
  forall l, getField (fst (run vzero empty_ds os)) l
            = match prows (fst (prun pempty os)) l with Some r => Ok r | None => Err KeyError end.
Proof.
  intro H. destruct (run_refines os empty_ds wf_empty H) as [Hw Hr].
  change (abs empty_ds) with (pempty (V := V)) in Hr. rewrite Hr. split; auto.
  intro l. apply getField_abs.
Qed.

End Proofs.
