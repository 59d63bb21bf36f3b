From Verif Require Import Base Params_Model Params_Spec Params_Proofs NestedParams_Model NestedParams_Spec NestedParams_Proofs.

Section Proofs.
Context {V : Type}.
Notation heap := (heap V).

(** all views in a tree *)
Fixpoint vs (t : ptree) : list view :=
  match t with PLeaf _ w => [w] | PNet _ ow _ kids => match ow with Some w => [w] | None => [] end ++ flat_map vs kids end.
Definition inv (s : state V) : Prop :=
  (forall t, In t (snd s) -> linked t /\ t_owned t = false) /\
  (forall t v, In t (snd s) -> In v (vs t) -> inb (fst s) v) /\
  pw (all_leaves (snd s)).

Lemma leaves_vs t : incl (leaves t) (vs t).
Proof.
  induction t as [o w|o ow s kids IH] using ptree_ind'; [apply incl_refl|]. intros v Hv. cbn [leaves vs] in *.
  apply in_or_app. right. apply in_flat_map in Hv. destruct Hv as (k & Hk & Hv). apply in_flat_map. exists k. split; auto. apply IH; auto.
Qed.
Lemma view_vs t w : t_view t = Some w -> In w (vs t).
Proof. destruct t as [o w'|o ow s kids]; cbn; intro H; [injection H as ->; left; auto|]. subst. left. auto. Qed.

Lemma vs_within t : linked t -> fully t -> 0 < t_dim t -> forall v, In v (vs t) ->
  v_arr v = v_arr (kv t) /\ v_off (kv t) <= v_off v /\ v_off v + v_len v <= v_off (kv t) + v_len (kv t).
Proof.
  induction t as [o w|o ow s kids IH] using ptree_ind'; intros L F D v Hv.
  - destruct Hv as [<-|[]]. cbn. auto.
  - apply linked_net in L. apply fully_net in F. destruct L as (L1 & L0 & L2). destruct F as [-> F]. specialize (L2 eq_refl).
    unfold t_dim in D. cbn [t_view] in D. destruct ow as [w|]; [|lia]. unfold kv at 1 2 3 4. cbn [t_view].
    cbn [vs] in Hv. destruct Hv as [<-|Hv]; [auto|]. apply in_flat_map in Hv. destruct Hv as (k & Hk & Hv).
    destruct (L1 k Hk) as (Lk & _ & Dk). destruct (IH k Hk Lk (F k Hk) Dk v Hv) as (A & B & C).
    destruct (tiles_in _ _ _ _ (kv k) L2) as (X & Y & Z); [apply in_map; auto|]. rewrite A, X. split; auto. lia.
Qed.

(** ** Positions *)
Lemma upd_split {A} (l : list A) i t x : nth_error l i = Some t -> exists l1 l2, l = l1 ++ t :: l2 /\ upd i x l = l1 ++ x :: l2 /\ length l1 = i.
Proof.
  revert i. induction l as [|a l IH]; intros [|i] H; cbn in H; try discriminate.
  - injection H as ->. exists [], l. auto.
  - destruct (IH i H) as (l1 & l2 & -> & E & N). exists (a :: l1), l2. cbn. rewrite E, N. auto.
Qed.
Lemma upd_same {A} (l : list A) i t : nth_error l i = Some t -> upd i t l = l.
Proof. intro H. destruct (upd_split l i t t H) as (l1 & l2 & -> & E & _). exact E. Qed.

Lemma get_leaves p : forall t x, get p t = Some x -> exists pre post, leaves t = pre ++ leaves x ++ post /\ forall y, leaves (put p y t) = pre ++ leaves y ++ post.
Proof.
  induction p as [|i q IH]; intros t x H; cbn [get put] in *.
  - injection H as ->. exists [], []. cbn. rewrite app_nil_r. split; [auto|]. intro y. rewrite app_nil_r. auto.
  - destruct t as [|o w s kids]; [discriminate|]. destruct (nth_error kids i) as [k|] eqn:E; [|discriminate].
    destruct (IH k x H) as (pre & post & A & B). destruct (upd_split kids i k k E) as (l1 & l2 & Ek & _ & N).
    exists (flat_map leaves l1 ++ pre), (post ++ flat_map leaves l2). cbn [leaves]. split.
    + rewrite Ek, flat_map_app. cbn [flat_map]. rewrite A, <- !app_assoc. reflexivity.
    + intro y. destruct (upd_split kids i k (put q y k) E) as (m1 & m2 & Em & Eu & M). rewrite Eu. rewrite Em in Ek.
      assert (Q : m1 = l1 /\ m2 = l2).
      { assert (Q1 : m1 = l1) by (apply (f_equal (firstn i)) in Ek; rewrite !firstn_app in Ek; rewrite M, N, Nat.sub_diag in Ek; cbn in Ek; rewrite !app_nil_r in Ek; rewrite !firstn_all2 in Ek by lia; auto).
        split; [auto|]. subst m1. apply app_inv_head in Ek. injection Ek as ->. auto. }
      destruct Q as [-> ->]. rewrite flat_map_app. cbn [flat_map]. rewrite B, <- !app_assoc. reflexivity.
Qed.
Lemma put_get p : forall t x, get p t = Some x -> put p x t = t.
Proof.
  induction p as [|i q IH]; intros t x H; cbn [get put] in *; [injection H as ->; auto|].
  destruct t as [|o w s kids]; [discriminate|]. destruct (nth_error kids i) as [k|] eqn:E; [|discriminate]. rewrite (IH k x H), (upd_same _ _ _ E). reflexivity.
Qed.
Lemma get_linked p : forall t x, linked t -> get p t = Some x -> linked x /\ (p <> [] -> t_owned x = true /\ 0 < t_dim x).
Proof.
  induction p as [|i q IH]; intros t x L H; cbn [get] in H; [injection H as <-; split; [auto|intro C; destruct C; auto]|].
  destruct t as [|o w s kids]; [discriminate|]. destruct (nth_error kids i) as [k|] eqn:E; [|discriminate].
  apply linked_net in L. destruct L as (L1 & _). apply nth_error_In in E. destruct (L1 k E) as (Lk & Ok & Dk).
  destruct (IH k x Lk H) as [A B]. split; auto. intros _. destruct q; [cbn in H; injection H as <-; auto|apply B; discriminate].
Qed.
Lemma get_vs p : forall t x, get p t = Some x -> incl (vs x) (vs t).
Proof.
  induction p as [|i q IH]; intros t x H; cbn [get] in H; [injection H as ->; apply incl_refl|].
  destruct t as [|o w s kids]; [discriminate|]. destruct (nth_error kids i) as [k|] eqn:E; [|discriminate].
  intros v Hv. cbn [vs]. apply in_or_app. right. apply in_flat_map. exists k. split; [eapply nth_error_In; eauto|]. apply (IH k x H). auto.
Qed.
Lemma put_keeps p : forall t x y, get p t = Some x -> t_view y = t_view x -> t_owned y = t_owned x -> t_view (put p y t) = t_view t /\ t_owned (put p y t) = t_owned t.
Proof.
  intros t x y H V1 O1. destruct p as [|i q]; cbn [get put] in *; [injection H as ->; auto|].
  destruct t as [|o w s kids]; [auto|]. destruct (nth_error kids i) as [k|]; auto.
Qed.
Lemma in_upd {A} i (x : A) l y : In y (upd i x l) -> y = x \/ In y l.
Proof. revert i. induction l as [|a l IH]; intros [|i] H; cbn in *; auto; destruct H as [H|H]; auto. destruct (IH _ H); auto. Qed.
Lemma map_upd {A B} (f : A -> B) i x l : map f (upd i x l) = upd i (f x) (map f l).
Proof. revert i. induction l as [|a l IH]; intros [|i]; cbn; auto. rewrite IH. auto. Qed.

Lemma put_linked p : forall t x y, linked t -> get p t = Some x -> linked y -> (p <> [] -> t_view y = t_view x /\ t_owned y = t_owned x) -> linked (put p y t).
Proof.
  induction p as [|i q IH]; intros t x y L H Ly Hp; cbn [get put] in *; [auto|].
  destruct t as [|o w s kids]; [auto|]. destruct (nth_error kids i) as [k|] eqn:E; [|auto].
  apply linked_net in L. destruct L as (L1 & L0 & L2). destruct (L1 k (nth_error_In _ _ E)) as (Lk & Ok & Dk).
  destruct (Hp ltac:(discriminate)) as [V1 O1]. destruct (put_keeps q k x y H V1 O1) as [V2 O2].
  apply linked_net. split; [|split].
  - intros k' Hk'. apply in_upd in Hk'. destruct Hk' as [->|Hk']; [|auto]. split; [apply (IH k x y); auto|]. rewrite O2. unfold t_dim. rewrite V2. auto.
  - intros Hw Hn. apply (L0 Hw). apply length_zero_iff_nil. rewrite <- (upd_length i (put q y k)). rewrite Hn. reflexivity.
  - intro Hs. specialize (L2 Hs). destruct w as [w|].
    + rewrite map_upd. replace (kv (put q y k)) with (kv k) by (unfold kv; rewrite V2; auto). rewrite upd_same; [auto|]. apply map_nth_error. auto.
    + subst kids. destruct i; discriminate.
Qed.
Lemma put_vs p : forall t x y v, get p t = Some x -> In v (vs (put p y t)) -> In v (vs t) \/ In v (vs y).
Proof.
  induction p as [|i q IH]; intros t x y v H Hv; cbn [get put] in *; [auto|].
  destruct t as [|o w s kids]; [auto|]. destruct (nth_error kids i) as [k|] eqn:E; [|auto].
  cbn [vs] in *. apply in_app_or in Hv. destruct Hv as [Hv|Hv]; [left; apply in_or_app; auto|].
  apply in_flat_map in Hv. destruct Hv as (k' & Hk & Hv). apply in_upd in Hk. destruct Hk as [->|Hk].
  - destruct (IH k x y v H Hv) as [G|G]; [|auto]. left. apply in_or_app. right. apply in_flat_map. exists k. split; [eapply nth_error_In; eauto|auto].
  - left. apply in_or_app. right. apply in_flat_map. exists k'. auto.
Qed.

(** ** Lists of values *)
Lemma concat_inj {A} : forall (l m : list (list A)), map (@length A) l = map (@length A) m -> concat l = concat m -> l = m.
Proof.
  induction l as [|a l IH]; intros [|b m] H E; try discriminate; auto. cbn in *. injection H as H1 H2.
  assert (a = b /\ concat l = concat m) as [-> E'].
  { clear IH H2. revert b H1 E. induction a as [|x a IHa]; intros [|y b] H1 E; try discriminate; auto. cbn in *. injection E as -> E. injection H1 as H1. destruct (IHa b H1 E) as [-> ->]. auto. }
  rewrite (IH m); auto.
Qed.
Lemma reads_eq (h h' : heap) L L' w : tiles_v w L' -> map v_len L' = map v_len L -> read h' w = concat (map (read h) L) ->
  (forall v, In v L -> inb h v) -> (forall v, In v L' -> inb h' v) -> map (read h') L' = map (read h) L.
Proof.
  intros T El Er I1 I2. apply concat_inj.
  - rewrite !map_map. transitivity (map v_len L'); [apply map_ext_in; intros v Hv; apply read_length; auto|].
    rewrite El. apply map_ext_in. intros v Hv. symmetry. apply read_length; auto.
  - rewrite <- (tiles_v_read h' w L' T). exact Er.
Qed.
Lemma read_tree h t : linked t -> fully t -> 0 < t_dim t -> t_read h t = concat (map (read h) (leaves t)) :> list V.
Proof.
  intros L F D. destruct (kv_dim t D) as [E _]. unfold t_read. rewrite E. apply tiles_v_read. apply leaves_tile; auto.
Qed.
Lemma read_kids (h : heap) kids : (forall k, In k kids -> linked k /\ t_owned k = true /\ 0 < t_dim k) -> (forall k, In k kids -> fully k) ->
  concat (map (t_read h) kids) = concat (map (read h) (flat_map leaves kids)).
Proof.
  intros L F. induction kids as [|k r IH]; [reflexivity|]. cbn [map concat flat_map]. rewrite map_app, concat_app, (IH (fun x Hx => L x (or_intror Hx)) (fun x Hx => F x (or_intror Hx))).
  f_equal. destruct (L k (or_introl eq_refl)) as (A & _ & B). apply read_tree; auto. apply F. left. auto.
Qed.
Lemma filter_dim kids : (forall k, In k kids -> linked k /\ t_owned k = true /\ 0 < t_dim k) -> filter (fun k => negb (t_dim k =? 0)) kids = kids.
Proof.
  induction kids as [|k r IH]; intro L; cbn [filter]; [auto|]. destruct (L k (or_introl eq_refl)) as (_ & _ & D).
  destruct (Nat.eqb_spec (t_dim k) 0); [lia|]. cbn. f_equal. apply IH. intros; apply L; right; auto.
Qed.
Lemma kids_in_vs k kids o ow s v : In k kids -> In v (vs k) -> In v (vs (PNet o ow s kids)).
Proof. intros H Hv. cbn [vs]. apply in_or_app. right. apply in_flat_map. eauto. Qed.
Lemma t_read_length (h : heap) t : (forall v, In v (vs t) -> inb h v) -> length (t_read h t) = t_dim t.
Proof. intro H. unfold t_read, t_dim. destruct (t_view t) as [w|] eqn:E; [|auto]. apply read_length. apply H. apply view_vs. auto. Qed.
Lemma kids_length (h : heap) kids : (forall k v, In k kids -> In v (vs k) -> inb h v) -> length (concat (map (t_read h) kids)) = list_sum (map t_dim kids).
Proof.
  induction kids as [|k r IH]; intro H; [reflexivity|]. cbn [map concat]. rewrite app_length, IH by (intros; eapply H; [right; eauto|auto]).
  change (list_sum (t_dim k :: map t_dim r)) with (t_dim k + list_sum (map t_dim r)). f_equal. apply t_read_length. intros v Hv. eapply H; [left; auto|auto].
Qed.

(** ** What sorting does to a root *)
Lemma sort_ok (h : heap) t h' t' : linked t -> (forall v, In v (vs t) -> inb h v) -> inner_sorted t -> sort_node h t = (h', t', None) ->
  (h' = h /\ t' = t /\ (exists o w kids, t = PNet o w true kids)) \/
  (exists o w, t = PNet o w false [] /\ h' = h /\ t' = PNet o None true []) \/
  (t_owned t = false /\ exists c, h' = h ++ [c]) /\
   linked t' /\ fully t' /\ t_owned t' = false /\ map (read h') (leaves t') = map (read h) (leaves t) /\ map v_len (leaves t') = map v_len (leaves t) /\
   (forall v, In v (vs t') -> v_arr v = length h /\ inb h' v).
Proof.
  intros L I S H. destruct t as [o w|o ow s kids]; [discriminate|]. cbn [sort_node] in H. cbn [inner_sorted] in S. pose proof (proj1 (linked_net _ _ _ _) L) as (L1 & L0 & L2).
  destruct s; [injection H as <- <-; left; eauto 10|]. rewrite (filter_dim _ L1) in H.
  assert (Il : forall k v, In k kids -> In v (vs k) -> inb h v) by (intros k v Hk Hv; apply I; eapply kids_in_vs; eauto).
  pose proof (kids_length h kids Il) as Hlen. pose proof (read_kids h kids L1 S) as Hrd. destruct (concat (map (t_read h) kids)) as [|c0 cs] eqn:E.
  - right. left. injection H as <- <-. destruct kids as [|k r]; [eauto|]. destruct (L1 k (or_introl eq_refl)) as (_ & _ & D). change (0 = t_dim k + list_sum (map t_dim r)) in Hlen. lia.
  - right. right. set (c := c0 :: cs) in *. cbn [alloc] in H. destruct o; [discriminate|].
    set (w' := mkview (length h) 0 (length c)) in *.
    destruct (distribute_ok w' kids (fun k _ => set_node_ok k) L1 S 0) as (kids' & E1 & A & B & C & G & N); [exact (eq_sym Hlen)|]. rewrite E1 in H. injection H as <- <-.
    assert (Lt : linked (PNet false (Some w') true kids')).
    { apply linked_net. split; [auto|]. split.
      - intros _ ->. destruct kids; [discriminate|discriminate].
      - intros _. cbn in C. exact C. }
    assert (Ft : fully (PNet false (Some w') true kids')) by (apply fully_net; auto).
    assert (Dt : 0 < t_dim (PNet false (Some w') true kids')) by (cbn; lia).
    assert (Hv : forall v, In v (vs (PNet false (Some w') true kids')) -> v_arr v = length h /\ inb (h ++ [c]) v).
    { intros v Hv. destruct (vs_within _ Lt Ft Dt v Hv) as (X & Y & Z). unfold kv in *. cbn [t_view] in *. cbn [w' v_arr v_off v_len] in *.
      split; [auto|]. split; [rewrite app_length, X; cbn; lia|]. rewrite X, alloc_arr_new. lia. }
    split; [eauto|]. split; [auto|]. split; [auto|]. split; [auto|]. split; [|split].
    + apply (reads_eq h (h ++ [c]) (leaves (PNet false ow false kids)) _ w').
      * apply (leaves_tile _ Lt Ft Dt).
      * exact G.
      * cbn [leaves]. rewrite <- Hrd. unfold read. cbn [v_off v_len v_arr w']. change (nth (length h) (h ++ [c]) []) with (arr (h ++ [c]) (length h)). rewrite alloc_arr_new. unfold slice. cbn. rewrite firstn_all. reflexivity.
      * intros v Hin. apply I. apply leaves_vs. auto.
      * intros v Hin. apply Hv. apply leaves_vs. auto.
    + exact G.
    + exact Hv.
Qed.

Lemma assign_ok (h : heap) t p h' t' : linked t -> fully t -> p <> [] -> length p = t_dim t -> assign_node h t p = (h', t', None) ->
  t_owned t = false /\ h' = h ++ [p] /\ linked t' /\ fully t' /\ t_owned t' = false /\ t_read h' t' = p /\ concat (map (read h') (leaves t')) = p /\ map v_len (leaves t') = map v_len (leaves t) /\
  (forall v, In v (vs t') -> v_arr v = length h /\ inb h' v).
Proof.
  intros L F Hp Hl H. unfold assign_node in H. destruct (t_owned t) eqn:O; [discriminate|]. split; [auto|]. cbn [alloc] in H.
  set (w' := mkview (length h) 0 (length p)) in *. assert (0 < length p) by (destruct p; [destruct Hp; auto|cbn; lia]).
  assert (Rw : read (h ++ [p]) w' = p).
  { unfold read. cbn [v_off v_len v_arr w']. change (nth (length h) (h ++ [p]) []) with (arr (h ++ [p]) (length h)). rewrite alloc_arr_new. unfold slice. cbn. apply firstn_all. }
  assert (K : forall t', t_view t' = Some w' -> linked t' -> fully t' -> t_read (h ++ [p]) t' = p /\ concat (map (read (h ++ [p])) (leaves t')) = p /\ forall v, In v (vs t') -> v_arr v = length h /\ inb (h ++ [p]) v).
  { intros t1 V1 L1 F1. assert (D1 : 0 < t_dim t1) by (unfold t_dim; rewrite V1; cbn; lia). split; [unfold t_read; rewrite V1; auto|]. split.
    - rewrite <- (read_tree (h ++ [p]) t1 L1 F1 D1). unfold t_read. rewrite V1. auto.
    - intros v Hv. destruct (vs_within _ L1 F1 D1 v Hv) as (X & Y & Z). unfold kv in *. rewrite V1 in *. cbn [w' v_arr v_off v_len] in *.
      split; [auto|]. split; [rewrite app_length, X; cbn; lia|]. rewrite X, alloc_arr_new. lia. }
  destruct t as [o w|o ow s kids]; cbn in O; subst o.
  - injection H as <- <-. destruct (K (PLeaf false w') eq_refl) as (A & B & C); [cbn; lia|exact Logic.I|]. repeat (split; [auto; cbn; lia|]). split; [cbn in *; rewrite Hl; reflexivity|auto].
  - apply linked_net in L. apply fully_net in F. destruct L as (L1 & L0 & L2). destruct F as [-> F]. specialize (L2 eq_refl).
    unfold t_dim in Hl. cbn [t_view] in Hl. destruct ow as [w0|]; [|lia].
    destruct (distribute_ok w' kids (fun k _ => set_node_ok k) L1 F 0) as (kids' & E1 & A & B & C & G & N).
    { cbn. rewrite Hl. apply (kids_sum w0); auto. }
    rewrite E1 in H. injection H as <- <-.
    assert (Lt : linked (PNet false (Some w') true kids')).
    { apply linked_net. split; [auto|]. split.
      - intros _ ->. destruct kids; [apply L0; [discriminate|auto]|discriminate].
      - intros _. cbn in C. exact C. }
    assert (Ft : fully (PNet false (Some w') true kids')) by (apply fully_net; auto).
    destruct (K (PNet false (Some w') true kids') eq_refl Lt Ft) as (X & Y & Z). split; [auto|]. split; [auto|]. split; [auto|]. split; [auto|]. split; [auto|]. split; [auto|]. split; [exact G|auto].
Qed.
End Proofs.
