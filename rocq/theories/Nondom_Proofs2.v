(** C33, C34: the implementations compute fronts; sorting and selection. *)
From Coq Require Import QArith.
From Verif Require Import Base StableSort Nondom_Model Nondom_Proofs.
Local Open Scope nat_scope.

Section Impl.
Context {A : Type} (eq_dec : forall x y : A, {x = y} + {x <> y}).
Context (ord : list A -> list A) (Hord : forall l, Permutation (ord l) l).
Context (ordn : list nat -> list nat) (Hordn : forall l, Permutation (ordn l) l).

Lemma ord_In x l : In x (ord l) <-> In x l.
Proof. split; apply Permutation_in; [|symmetry]; apply Hord. Qed.
Lemma ordn_In x l : In x (ordn l) <-> In x l.
Proof. split; apply Permutation_in; [|symmetry]; apply Hordn. Qed.

Lemma is_front_iff (d d' : A -> A -> Prop) items R : (forall x y, In x items -> In y items -> (d x y <-> d' x y)) ->
  is_front d items R -> is_front d' items R.
Proof.
  intros E (N & I & An & C). split; [auto|split; [auto|split]].
  - intros x y Hx Hy Hne Hd. apply (An x y Hx Hy Hne). apply E; auto.
  - intros x Hx. destruct (C x Hx) as [H|(y & Hy & Hd)]; auto. right. exists y. split; auto. apply E; auto.
Qed.
Lemma front_nonempty (d : A -> A -> Prop) items R : is_front d items R -> items <> [] -> R <> [].
Proof.
  intros (_ & _ & _ & C) Hn. destruct items as [|a items]; [contradiction|]. intros ->.
  destruct (C a (or_introl eq_refl)) as [[]|(y & [] & _)].
Qed.

(** *** the pairwise version *)
Lemma good_iff (q : bool) dim (a b : list Z) :
  forallb (fun k => if q then negb (kth b k <=? kth a k)%Z else negb (kth b k <? kth a k)%Z) (seq 0 dim) = true <-> dominates q dim a b.
Proof.
  rewrite forallb_forall. unfold dominates, all_below, all_atmost, kth. split.
  - intro H. destruct q; intros k Hk; specialize (H k); cbv beta in H; rewrite in_seq in H;
      rewrite negb_true_iff, ?Z.leb_gt, ?Z.ltb_ge in H; lia.
  - intros H k Hk. rewrite in_seq in Hk. destruct q; specialize (H k ltac:(lia)); rewrite negb_true_iff, ?Z.leb_gt, ?Z.ltb_ge; lia.
Qed.
Lemma dominations_In (key : A -> list Z) q dim items i j : In (i, j) (dominations key q dim items) <-> In i items /\ In j items /\ dominates q dim (key i) (key j).
Proof.
  unfold dominations. rewrite in_flat_map. split.
  - intros (i' & Hi & H). apply in_flat_map in H. destruct H as (j' & Hj & H).
    destruct (forallb _ _) eqn:E; [|destruct H]. destruct H as [H|[]]. injection H as -> ->. apply good_iff in E. auto.
  - intros (Hi & Hj & H). exists i. split; auto. apply in_flat_map. exists j. split; auto. apply good_iff in H. rewrite H. left; auto.
Qed.
Lemma pair_mem_In p l : pair_mem eq_dec p l = true <-> In p l.
Proof.
  unfold pair_mem. rewrite existsb_exists. split.
  - intros ([a b] & Hin & H). apply andb_true_iff in H. destruct p as [c d]. cbn in H. destruct (eq_dec c a), (eq_dec d b); destruct H; try discriminate. congruence.
  - intro H. exists p. split; auto. destruct (eq_dec (fst p) (fst p)), (eq_dec (snd p) (snd p)); try contradiction. auto.
Qed.
Lemma fast_front (key : A -> list Z) q dim items : items <> [] -> (forall x, In x items -> length (key x) = dim) ->
  exists R, front_fast eq_dec ord key q items = Ok R /\ is_front (fun a b => dominates q dim (key a) (key b)) items R.
Proof.
  intros Hn Hd. destruct items as [|i0 items]; [contradiction|]. cbn [front_fast]. rewrite (Hd i0) by (left; auto).
  set (its := i0 :: items) in *. eexists. split; [reflexivity|].
  assert (Hin : forall x, In x (ord (to_set eq_dec its)) <-> In x its) by (intro x; rewrite ord_In; apply to_set_In).
  apply (is_front_ext _ (ord (to_set eq_dec its))); auto.
  apply (is_front_iff (fun a b => pair_mem eq_dec (a, b) (dominations key q dim its) = true)).
  - intros x y Hx Hy. rewrite pair_mem_In, dominations_In. rewrite Hin in Hx, Hy. tauto.
  - apply (loop_front eq_dec ord Hord).
    + intros a b c. rewrite !pair_mem_In, !dominations_In. intros (Ha & _ & H1) (_ & Hc & H2). split; auto. split; auto. eapply dominates_trans; eauto.
    + eapply Permutation_NoDup; [symmetry; apply Hord|]. apply to_set_NoDup.
Qed.

(** *** the array version *)
Lemma ndom_iff q dim x p r : negb (ndom q dim x p r) = true <-> dominates q dim (nth p x []) (nth r x []).
Proof.
  unfold ndom, dominates, all_below, all_atmost, kth. rewrite negb_true_iff. split.
  - intro H. assert (G : forall k, k < dim -> (if q then (nth k (nth r x []) 0 <=? nth k (nth p x []) 0)%Z else (nth k (nth r x []) 0 <? nth k (nth p x []) 0)%Z) = false).
    { intros k Hk. match goal with |- ?b = false => destruct b eqn:E end; auto.
      assert (T : existsb (fun k => if q then (nth k (nth r x []) 0 <=? nth k (nth p x []) 0)%Z else (nth k (nth r x []) 0 <? nth k (nth p x []) 0)%Z) (seq 0 dim) = true).
      { apply existsb_exists. exists k. split; [apply in_seq; lia|auto]. }
      congruence. }
    destruct q; intros k Hk; specialize (G k Hk); cbv beta in G; rewrite ?Z.leb_gt, ?Z.ltb_ge in G; lia.
  - intro H. match goal with |- ?b = false => destruct b eqn:E end; auto. apply existsb_exists in E. destruct E as (k & Hk & E).
    apply in_seq in Hk. destruct q; specialize (H k ltac:(lia)); [apply Z.leb_le in E|apply Z.ltb_lt in E]; lia.
Qed.
Definition pick (items : list A) (R : list nat) : list A :=
  flat_map (fun i => match nth_error items i with Some a => [a] | None => [] end) R.
Lemma pick_In items R x : In x (pick items R) <-> exists i, In i R /\ nth_error items i = Some x.
Proof.
  unfold pick. rewrite in_flat_map. split; intros (i & Hi & H); exists i; split; auto.
  - destruct (nth_error items i); [destruct H as [->|[]]; auto|destruct H].
  - rewrite H. left; auto.
Qed.
Lemma index_front (dom : A -> A -> Prop) (domi : nat -> nat -> bool) items R :
  (forall i j x y, nth_error items i = Some x -> nth_error items j = Some y -> (domi i j = true <-> dom x y)) ->
  is_front (fun i j => domi i j = true) (seq 0 (length items)) R ->
  is_front dom items (to_set eq_dec (pick items (ordn R))).
Proof.
  intros E (N & I & An & C).
  assert (Hp : forall x, In x (to_set eq_dec (pick items (ordn R))) <-> exists i, In i R /\ nth_error items i = Some x).
  { intro x. rewrite to_set_In, pick_In. split; intros (i & Hi & H); exists i; split; auto; apply ordn_In; auto. }
  split; [apply to_set_NoDup|split; [|split]].
  - intros x Hx. apply Hp in Hx. destruct Hx as (i & _ & H). eapply nth_error_In; eauto.
  - intros x y Hx Hy Hne Hd. apply Hp in Hx. apply Hp in Hy. destruct Hx as (i & Hi & Ei), Hy as (j & Hj & Ej).
    apply (An i j Hi Hj); [intros ->; congruence|]. apply (E i j x y); auto.
  - intros x Hx. apply In_nth_error in Hx. destruct Hx as (i & Ei).
    assert (Hi : In i (seq 0 (length items))) by (apply in_seq; split; [lia|]; cbn; apply nth_error_Some; congruence).
    destruct (C i Hi) as [H|(j & Hj & Hd)].
    + left. apply Hp. eauto.
    + assert (Hjl : j < length items) by (apply I in Hj; apply in_seq in Hj; lia).
      destruct (nth_error items j) as [y|] eqn:Ej; [|apply nth_error_None in Ej; lia].
      right. exists y. split; [apply Hp; eauto|]. apply (E j i y x); auto.
Qed.
Lemma arr_front (key : A -> list Z) q dim items : (forall x, In x items -> length (key x) = dim) ->
  exists R, front_arr eq_dec ordn key q items = Ok R /\ is_front (fun a b => dominates q dim (key a) (key b)) items R.
Proof.
  intros Hd. unfold front_arr. eexists. split; [reflexivity|]. fold (pick items).
  destruct items as [|i0 items].
  { assert (E0 : ordn [] = []) by (apply Permutation_nil, Permutation_sym, Hordn). cbn. rewrite E0. cbn.
    split; [apply NoDup_nil|split; [intros ? []|split; [intros ? ? []|intros ? []]]]. }
  set (its := i0 :: items) in *. assert (Ed : length (hd [] (map key its)) = dim) by (apply Hd; left; auto). rewrite Ed.
  apply (index_front _ (fun j i => negb (ndom q dim (map key its) j i))).
  - intros i j x y Hi Hj. rewrite ndom_iff.
    rewrite (nth_indep _ [] (key x)), (nth_indep _ [] (key x)) by (rewrite map_length; apply nth_error_Some; congruence).
    rewrite !map_nth. rewrite (nth_error_nth _ _ _ Hi), (nth_error_nth _ _ _ Hj). tauto.
  - apply (loop_front Nat.eq_dec ordn Hordn); [|apply seq_NoDup]. intros a b c. rewrite !ndom_iff. apply dominates_trans.
Qed.

(** *** divide and conquer *)
Lemma merge_front (dom : A -> A -> Prop) (P : A -> Prop) base limit : (forall a b c, dom a b -> dom b c -> dom a c) -> 1 <= limit ->
  (forall items, items <> [] -> (forall x, In x items -> P x) -> exists R, base items = Ok R /\ is_front dom items R) ->
  forall fuel items, length items < fuel -> items <> [] -> (forall x, In x items -> P x) ->
  exists R, front_merge ord limit false base fuel items = Ok R /\ is_front dom items R.
Proof.
  intros Ht Hl Hb. induction fuel as [|fuel IH]; intros items Hf Hn HP; [lia|]. cbn [front_merge].
  destruct (Nat.ltb_spec limit (length items)) as [Hlt|_]; [|apply Hb; auto].
  set (l := length items) in *.
  assert (Hh : 1 <= l / 2 /\ l / 2 < l).
  { split; [apply Nat.div_le_lower_bound; lia|apply Nat.div_lt; lia]. }
  destruct (IH (firstn (l / 2) items)) as (R1 & E1 & F1).
  { rewrite firstn_length. lia. }
  { destruct items; [contradiction|]. destruct (l / 2); [lia|discriminate]. }
  { intros x Hx. apply HP. rewrite <- (firstn_skipn (l / 2)). apply in_or_app. auto. }
  destruct (IH (skipn (l / 2) items)) as (R2 & E2 & F2).
  { rewrite skipn_length. lia. }
  { intro E. assert (length (skipn (l / 2) items) = 0) by (rewrite E; auto). rewrite skipn_length in H. lia. }
  { intros x Hx. apply HP. rewrite <- (firstn_skipn (l / 2)). apply in_or_app. auto. }
  rewrite E1. cbn [rbind]. rewrite E2. cbn [rbind].
  assert (HPp : forall x, In x (ord R1 ++ ord R2) <-> In x R1 \/ In x R2) by (intro x; rewrite in_app_iff, !ord_In; tauto).
  assert (Hne : ord R1 ++ ord R2 <> []).
  { assert (R1 <> []). { apply (front_nonempty dom (firstn (l / 2) items)); auto. destruct items; [contradiction|]. destruct (l / 2); [lia|discriminate]. }
    intro E. destruct R1 as [|r R1']; [contradiction|]. assert (In r []) as []. rewrite <- E. apply HPp. left. left. auto. }
  assert (HQ : forall x, In x (ord R1 ++ ord R2) -> P x).
  { intros x Hx. apply HPp in Hx. apply HP. rewrite <- (firstn_skipn (l / 2) items). apply in_or_app.
    destruct Hx as [Hx|Hx]; [left; apply F1; auto|right; apply F2; auto]. }
  destruct ((l / 3 <=? length R1) || (l / 3 <=? length R2)) eqn:Ec.
  - destruct (Hb _ Hne HQ) as (R & E & F). exists R. split; auto.
    rewrite <- (firstn_skipn (l / 2) items). eapply is_front_merge; eauto.
  - apply orb_false_iff in Ec. destruct Ec as [Ea Eb]. apply Nat.leb_gt in Ea, Eb.
    assert (Hlen : length (ord R1 ++ ord R2) < fuel).
    { rewrite app_length, !(Permutation_length (Hord _)). pose proof (Nat.mul_div_le l 3). lia. }
    destruct (IH _ Hlen Hne HQ) as (R & E & F). exists R. split; auto.
    rewrite <- (firstn_skipn (l / 2) items). eapply is_front_merge; eauto.
Qed.
Lemma ndf_merge (key : A -> list Z) q dim items : items <> [] -> (forall x, In x items -> length (key x) = dim) ->
  exists R, non_dominated_front_merge eq_dec ord key q items = Ok R /\ is_front (fun a b => dominates q dim (key a) (key b)) items R.
Proof.
  intros Hn Hd. apply (merge_front _ (fun x => length (key x) = dim)); auto; [intros a b c; apply dominates_trans|lia|].
  intros; apply fast_front; auto.
Qed.
Lemma ndf_arr py3 (key : A -> list Z) q dim items : (py3 = false \/ length items <= 100) -> (forall x, In x items -> length (key x) = dim) ->
  exists R, non_dominated_front eq_dec ord ordn py3 key q items = Ok R /\ is_front (fun a b => dominates q dim (key a) (key b)) items R.
Proof.
  intros Hp Hd. unfold non_dominated_front. destruct (Nat.leb_spec (length items) 100) as [Hl|Hl].
  - cbn [front_merge]. destruct (Nat.ltb_spec 100 (length items)); [lia|]. apply arr_front; auto.
  - destruct Hp as [->|]; [|lia].
    apply (merge_front _ (fun x => length (key x) = dim)); auto; [intros a b c; apply dominates_trans|lia| |].
    + intros its _ Hq. apply arr_front; auto.
    + intros ->. cbn in Hl. lia.
Qed.

(** ** Sorting into fronts *)
(** [layered dom items fs]: each member of fs is a front of what the members before it left over *)
Inductive layered (dom : A -> A -> Prop) : list A -> list (list A) -> Prop :=
| layered_nil items : (forall x, ~ In x items) -> layered dom items []
| layered_cons items f rest fs : is_front dom items f -> f <> [] -> (forall x, In x rest <-> In x items /\ ~ In x f) ->
    layered dom rest fs -> layered dom items (f :: fs).

Lemma filter_shorter {X} (f : X -> bool) l x : In x l -> f x = false -> length (filter f l) < length l.
Proof.
  assert (G : forall l, length (filter f l) <= length l) by (induction l0 as [|a l0 IH]; cbn; auto; destruct (f a); cbn; lia).
  induction l as [|a l IH]; intros Hin Hf; [destruct Hin|]. cbn. destruct Hin as [->|Hin].
  - rewrite Hf. specialize (G l). lia.
  - specialize (IH Hin Hf). destruct (f a); cbn; lia.
Qed.
Lemma sort_layered (dom : A -> A -> Prop) (P : list A -> Prop) front :
  (forall items, P items -> forall items', incl items' items -> length items' <= length items -> P items') ->
  (forall items, items <> [] -> P items -> exists R, front items = Ok R /\ is_front dom items R) ->
  forall fuel items, length items <= fuel -> P items -> exists fs, sort_fronts eq_dec ord front fuel items = Ok fs /\ layered dom items fs.
Proof.
  intros Hmono Hfr. induction fuel as [|fuel IH]; intros items Hf HP.
  - destruct items; [|cbn in Hf; lia]. exists []. split; auto. constructor. intros x [].
  - destruct items as [|a items]; [exists []; split; auto; constructor; intros x []|].
    set (its := a :: items) in *. change (sort_fronts eq_dec ord front (S fuel) its) with
      (let! f := front (ord its) in let! fs := sort_fronts eq_dec ord front fuel (set_minus eq_dec its f) in Ok (f :: fs)).
    destruct (Hfr (ord its)) as (R & E & F).
    { intro Eo. pose proof (Hord its) as Ho. rewrite Eo in Ho. apply Permutation_nil in Ho. discriminate. }
    { apply (Hmono its HP); [intros x; apply ord_In|]. rewrite (Permutation_length (Hord its)). auto. }
    rewrite E. cbn [rbind].
    assert (F' : is_front dom its R) by (apply (is_front_ext dom (ord its)); [intro; apply ord_In|auto]).
    assert (HR : R <> []) by (apply (front_nonempty dom its); auto; discriminate).
    destruct (IH (set_minus eq_dec its R)) as (fs & E2 & L).
    { destruct R as [|r R']; [contradiction|]. assert (length (set_minus eq_dec its (r :: R')) < length its); [|lia].
      apply (filter_shorter _ _ r).
      - apply F'. left; auto.
      - rewrite negb_false_iff. apply mem_In. left; auto. }
    { apply (Hmono its HP).
      - intros x Hx. apply set_minus_In in Hx. tauto.
      - unfold set_minus. clear. induction its as [|b l IH]; cbn; auto. destruct (negb _); cbn; lia. }
    rewrite E2. cbn [rbind]. exists (R :: fs). split; auto.
    apply (layered_cons dom its R (set_minus eq_dec its R)); auto. intro x. apply set_minus_In.
Qed.
Lemma layered_ext dom items items' fs : (forall x, In x items <-> In x items') -> layered dom items fs -> layered dom items' fs.
Proof.
  intros E H. destruct H as [items H|items f rest fs F Hne Hr L].
  - constructor. intros x Hx. apply E in Hx. apply (H x). auto.
  - apply (layered_cons dom items' f rest); auto; [eapply is_front_ext; eauto|]. intro x. rewrite Hr, E. tauto.
Qed.
Lemma layered_concat dom items fs : layered dom items fs -> NoDup (List.concat fs) /\ forall x, In x (List.concat fs) <-> In x items.
Proof.
  induction 1 as [items H|items f rest fs (N & I & An & C) Hne Hr L [IHN IHI]]; cbn [List.concat].
  - split; [constructor|]. intro x. cbn. specialize (H x). tauto.
  - split.
    + apply NoDup_disj; auto. intros x Hx Hc. apply IHI, Hr in Hc. tauto.
    + intro x. rewrite in_app_iff, IHI, Hr. destruct (in_dec eq_dec x f) as [Hx|Hx]; [|tauto]. specialize (I x Hx). tauto.
Qed.
(** an item dominated by y (for a strict relation) is in a later front than y *)
Lemma layered_rank (dom : A -> A -> Prop) items fs : (forall a b c, dom a b -> dom b c -> dom a c) -> (forall a, ~ dom a a) ->
  layered dom items fs -> forall i j fi fj x y, nth_error fs i = Some fi -> nth_error fs j = Some fj -> In y fi -> In x fj -> dom y x -> i < j.
Proof.
  intros Ht Hi L. induction L as [items H|items f rest fs F Hne Hr L IH]; intros i j fi fj x y Ei Ej Hy Hx Hd.
  - destruct i; discriminate.
  - assert (Hall : forall k g z, nth_error (f :: fs) k = Some g -> In z g -> In z items).
    { intros k g z Ek Hz. assert (L' : layered dom items (f :: fs)) by (eapply layered_cons; eauto).
      apply (proj2 (layered_concat _ _ _ L')). apply in_concat. exists g. split; auto. eapply nth_error_In; eauto. }
    destruct j as [|j].
    + cbn in Ej. injection Ej as <-. apply (is_front_exact dom items f Ht Hi F) in Hx. destruct Hx as [_ Hx]. destruct (Hx y); eauto.
    + destruct i as [|i]; [lia|]. cbn in Ei, Ej. specialize (IH i j fi fj x y Ei Ej Hy Hx Hd). lia.
Qed.

(** ** Selection *)
Lemma NoDup_app_l {X} (l r : list X) : NoDup (l ++ r) -> NoDup l.
Proof. induction l; cbn; intro H; [constructor|]. inversion H; subst. constructor; auto. rewrite in_app_iff in H2. tauto. Qed.
Lemma NoDup_app_r {X} (l r : list X) : NoDup (l ++ r) -> NoDup r.
Proof. induction l; cbn; intro H; auto. inversion H; subst; auto. Qed.
Lemma NoDup_app_disj {X} (l r : list X) x : NoDup (l ++ r) -> In x l -> ~ In x r.
Proof. induction l; cbn; intros H Hx; [destruct Hx|]. inversion H; subst. rewrite in_app_iff in H2. destruct Hx as [->|Hx]; [tauto|auto]. Qed.
Lemma union_length l r : NoDup (l ++ r) -> set_union eq_dec l r = l ++ r.
Proof.
  intro H. unfold set_union. f_equal. unfold set_minus.
  assert (G : forall r', incl r' r -> filter (fun y => negb (mem eq_dec y l)) r' = r').
  { induction r' as [|a r' IH]; intro Hi; auto. cbn. assert (~ In a l).
    { intro Ha. apply (NoDup_app_disj l r a H Ha). apply Hi. left; auto. }
    destruct (mem eq_dec a l) eqn:E; [apply mem_In in E; contradiction|]. cbn. f_equal. apply IH. intros x Hx. apply Hi. right; auto. }
  apply G. intros x; auto.
Qed.

Lemma select_spec (cut : list A -> result (list A)) survivors : (forall f r, cut f = Ok r -> Permutation r f) ->
  forall fs acc ind, NoDup (acc ++ List.concat fs) -> (Z.of_nat (length acc) <= Z.max 0 survivors)%Z ->
  select_fronts eq_dec cut survivors fs acc = Ok ind ->
  NoDup ind /\ incl acc ind /\ incl ind (acc ++ List.concat fs) /\
  Z.of_nat (length ind) = Z.min (Z.max 0 survivors) (Z.of_nat (length acc + length (List.concat fs))) /\
  (forall pre f post x y, fs = pre ++ f :: post -> In y f -> ~ In y ind -> In x (List.concat post) -> ~ In x ind).
Proof.
  intro Hcut. induction fs as [|f fs IH]; intros acc ind Hn Hl E.
  - cbn in E. injection E as <-. cbn [List.concat] in *. rewrite app_nil_r in *. split; [auto|split; [intro; auto|split; [intro; auto|split]]].
    + cbn. lia.
    + intros pre g post x y Es. destruct pre; discriminate.
  - cbn [select_fronts] in E. cbn [List.concat] in *. rewrite app_assoc in Hn.
    destruct (Z.ltb_spec 0 (survivors - Z.of_nat (length acc))) as [Hr|Hr].
    2:{ injection E as <-. split; [eapply NoDup_app_l, NoDup_app_l; eauto|]. split; [intro; auto|].
        split; [intros x Hx; apply in_or_app; auto|]. split; [rewrite app_length; lia|].
        intros pre g post x y Es Hy Hny Hx Hxa. rewrite <- app_assoc in Hn. apply (NoDup_app_disj _ _ x Hn Hxa).
        rewrite in_app_iff. destruct pre as [|p pre]; cbn in Es; injection Es as -> ->; auto.
        right. rewrite concat_app. cbn. rewrite !in_app_iff. auto. }
    destruct (Z.ltb_spec (survivors - Z.of_nat (length acc)) (Z.of_nat (length f))) as [Hc|Hc].
    + destruct (cut f) as [sorted|] eqn:Ec; [|discriminate]. cbn [rbind] in E. pose proof (Hcut _ _ Ec) as Hp.
      set (r := Z.to_nat (survivors - Z.of_nat (length acc))) in *. set (part := firstn r sorted) in *.
      assert (Hpart : forall x, In x part -> In x f).
      { intros x Hx. apply (Permutation_in _ Hp). unfold part in Hx. rewrite <- (firstn_skipn r sorted). apply in_or_app. auto. }
      assert (HnP : NoDup (acc ++ part)).
      { apply NoDup_app_l in Hn. apply NoDup_disj.
        - eapply NoDup_app_l; eauto.
        - apply NoDup_app_r in Hn. apply (Permutation_NoDup (Permutation_sym Hp)) in Hn. unfold part.
          rewrite <- (firstn_skipn r sorted) in Hn. eapply NoDup_app_l; eauto.
        - intros x Hx Hxp. apply (NoDup_app_disj _ _ x Hn Hx). auto. }
      rewrite union_length in E by auto.
      assert (Hlp : length part = r).
      { unfold part. rewrite firstn_length, (Permutation_length Hp). lia. }
      assert (HnA : NoDup ((acc ++ part) ++ List.concat fs)).
      { apply NoDup_disj; [auto|eapply NoDup_app_r; eauto|]. intros x Hx. apply (NoDup_app_disj _ _ x Hn).
        rewrite in_app_iff in *. destruct Hx; auto. }
      assert (HlA : Z.of_nat (length (acc ++ part)) = survivors) by (rewrite app_length; lia).
      destruct (IH _ _ HnA ltac:(lia) E) as (N & I1 & I2 & Ln & Or).
      assert (Hsame : incl ind (acc ++ part)) by (apply NoDup_length_incl; auto; lia).
      split; [auto|split; [|split; [|split]]].
      * intros x Hx. apply I1. apply in_or_app; auto.
      * intros x Hx. apply Hsame in Hx. rewrite in_app_iff in *. destruct Hx; [auto|]. right. apply in_or_app. auto.
      * rewrite Ln. rewrite !app_length in *. lia.
      * intros pre g post x y Es Hy Hny Hx Hxi.
        apply Hsame in Hxi. apply (NoDup_app_disj _ _ x HnA Hxi).
        destruct pre as [|p pre]; cbn in Es; injection Es as -> ->; auto. rewrite concat_app. cbn. rewrite !in_app_iff. auto.
    + assert (HnP : NoDup (acc ++ f)) by (eapply NoDup_app_l; eauto). rewrite union_length in E by auto.
      destruct (IH _ _ Hn ltac:(rewrite app_length; lia) E) as (N & I1 & I2 & Ln & Or).
      split; [auto|split; [|split; [|split]]].
      * intros x Hx. apply I1. apply in_or_app; auto.
      * rewrite app_assoc. auto.
      * rewrite Ln. rewrite !app_length. lia.
      * intros pre g post x y Es Hy Hny Hx.
        destruct pre as [|p pre]; cbn in Es; injection Es as <- ->.
        -- destruct Hny. apply I1. apply in_or_app. auto.
        -- eapply Or; eauto.
Qed.
End Impl.
