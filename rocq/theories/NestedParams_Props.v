(** C60: the parameters of networks inside networks. *)
From Verif Require Import Base Params_Model Params_Spec Params_Proofs NestedParams_Model NestedParams_Spec NestedParams_Proofs NestedParams_Proofs2.

Section Props.
Context {V : Type}.
Notation heap := (heap V).

Lemma pw_leaves t : linked t -> fully t -> pw (leaves t).
Proof.
  intros L F. destruct (Nat.eq_dec (t_dim t) 0) as [E|E].
  - destruct t as [o w|o ow s kids]; [repeat constructor|]. apply linked_net in L. apply fully_net in F. destruct L as (L1 & L0 & L2). destruct F as [-> F]. specialize (L2 eq_refl).
    destruct kids as [|k r]; [constructor|]. destruct ow as [w|]; [|discriminate]. pose proof (kids_sum _ _ L2 L1) as S. destruct (L1 k (or_introl eq_refl)) as (_ & _ & D).
    change (t_dim k + list_sum (map t_dim r) = v_len w) in S. cbn in E. lia.
  - eapply tiles_pw. apply leaves_tile; auto. lia.
Qed.
Lemma flat_upd rs i t t' : nth_error rs i = Some t -> exists pre post, all_leaves rs = pre ++ leaves t ++ post /\ all_leaves (upd i t' rs) = pre ++ leaves t' ++ post /\
  incl (pre ++ post) (all_leaves rs).
Proof.
  intro H. destruct (upd_split rs i t t' H) as (l1 & l2 & E & Eu & _). exists (flat_map leaves l1), (flat_map leaves l2). unfold all_leaves. rewrite Eu.
  assert (E0 : flat_map leaves rs = flat_map leaves l1 ++ leaves t ++ flat_map leaves l2) by (rewrite E, flat_map_app; reflexivity).
  split; [exact E0|]. rewrite flat_map_app. split; [reflexivity|]. rewrite E0. intros v Hv. apply in_app_or in Hv. rewrite !in_app_iff. tauto.
Qed.
Lemma leaf_inb (h : heap) rs v : inv (h, rs) -> In v (all_leaves rs) -> inb h v.
Proof. intros (_ & I & _) Hv. apply in_flat_map in Hv. destruct Hv as (t & Ht & Hv). apply (I t); auto. apply leaves_vs. auto. Qed.

(** a root replaced by a tree of views of a fresh array *)
Lemma replace_root (h : heap) rs i t t' c : inv (h, rs) -> nth_error rs i = Some t -> linked t' -> fully t' -> t_owned t' = false ->
  (forall v, In v (vs t') -> v_arr v = length h /\ inb (h ++ [c]) v) -> inv (h ++ [c], upd i t' rs).
Proof.
  intros I Hi L F O Hv. pose proof I as (I1 & I2 & I3). split; [|split]; cbn [fst snd] in *.
  - intros x Hx. apply in_upd in Hx. destruct Hx as [->|Hx]; auto.
  - intros x v Hx Hin. apply in_upd in Hx. destruct Hx as [->|Hx]; [apply Hv; auto|]. apply alloc_inb. apply (I2 x); auto.
  - destruct (flat_upd rs i t t' Hi) as (pre & post & E1 & E2 & Hincl). rewrite E2. rewrite E1 in I3.
    apply pw_app in I3. destruct I3 as (P1 & P2 & P3). apply pw_app in P2. destruct P2 as (P4 & P5 & P6).
    assert (Old : forall v, In v (pre ++ post) -> v_arr v < length h) by (intros v Hin; apply (leaf_inb h rs v I); auto).
    assert (New : forall v, In v (leaves t') -> v_arr v = length h) by (intros v Hin; apply Hv; apply leaves_vs; auto).
    apply pw_app. split; [auto|]. split.
    + apply pw_app. split; [apply pw_leaves; auto|]. split; auto. intros x y Hx Hy. left. rewrite (New x Hx). specialize (Old y ltac:(apply in_or_app; auto)). lia.
    + intros x y Hx Hy. apply in_app_or in Hy. destruct Hy as [Hy|Hy].
      * left. rewrite (New y Hy). specialize (Old x ltac:(apply in_or_app; auto)). lia.
      * apply P3; auto. apply in_or_app. auto.
Qed.

Lemma node_root (s : state V) i p t : node s i p = Some t -> exists r, nth_error (snd s) i = Some r /\ get p r = Some t.
Proof. unfold node. destruct (nth_error (snd s) i) as [r|]; [eauto|discriminate]. Qed.
Lemma put_node_same (s : state V) i p t : node s i p = Some t -> put_node s i p t = snd s.
Proof. intro H. destruct (node_root _ _ _ _ H) as (r & E & G). unfold put_node. rewrite E, (put_get _ _ _ G). apply upd_same. auto. Qed.
Lemma node_facts (h : heap) rs i p t : inv (h, rs) -> node (h, rs) i p = Some t -> linked t /\ (p <> [] -> t_owned t = true /\ 0 < t_dim t) /\ (p = [] -> t_owned t = false) /\ forall v, In v (vs t) -> inb h v.
Proof.
  intros (I1 & I2 & I3) H. destruct (node_root _ _ _ _ H) as (r & E & G). cbn [fst snd] in *. pose proof (nth_error_In _ _ E) as Hin.
  destruct (I1 r Hin) as [Lr Or]. destruct (get_linked _ _ _ Lr G) as [A B]. split; [auto|]. split; [auto|]. split.
  - intros ->. cbn in G. injection G as <-. auto.
  - intros v Hv. apply (I2 r v Hin). apply (get_vs _ _ _ G). auto.
Qed.

Lemma sort_cases (h : heap) rs i p s' : inv (h, rs) -> legal_op (h, rs) (NSort i p) -> nstep (h, rs) (NSort i p) = (s', None) ->
  exists t, node (h, rs) i p = Some t /\
  ((s' = (h, rs) /\ exists o w kids, t = PNet o w true kids) \/
   (p = [] /\ t = PNet false None false [] /\ s' = (h, upd i (PNet false None true []) rs)) \/
   (p = [] /\ exists c t', s' = (h ++ [c], upd i t' rs) /\ linked t' /\ fully t' /\ t_owned t' = false /\ map (read (h ++ [c])) (leaves t') = map (read h) (leaves t) /\ map v_len (leaves t') = map v_len (leaves t) /\
     (forall v, In v (vs t') -> v_arr v = length h /\ inb (h ++ [c]) v))).
Proof.
  intros I Hl H. cbn [nstep legal_op] in *. destruct (node (h, rs) i p) as [t|] eqn:N; [|discriminate]. exists t. split; [auto|].
  destruct (node_facts _ _ _ _ _ I N) as (L & Op & Or & Iv). destruct (sort_node h t) as [[h' t'] e] eqn:E. injection H as <- ->.
  destruct (sort_ok h t h' t' L Iv (Hl t eq_refl) E) as [(-> & -> & X)|[(o & w & -> & -> & ->)|((O & c & ->) & A & B & C & D & F & G)]].
  - left. split; [|auto]. rewrite (put_node_same _ _ _ _ N). reflexivity.
  - right. left. assert (w = None).
    { destruct w as [w|]; [|auto]. apply linked_net in L. destruct L as (_ & L0 & _). destruct (L0 ltac:(discriminate) eq_refl). }
    subst w. assert (p = []) as ->. { destruct p; [auto|]. destruct (Op ltac:(discriminate)) as [_ D]. cbn in D. lia. }
    specialize (Or eq_refl). cbn in Or. subst o. split; [auto|]. split; [auto|]. destruct (node_root _ _ _ _ N) as (r & Er & Gr). unfold put_node. cbn [snd] in *. rewrite Er. reflexivity.
  - right. right. assert (p = []) as ->. { destruct p; [auto|]. destruct (Op ltac:(discriminate)) as [Y _]. congruence. }
    split; [auto|]. exists c, t'. split; [|auto 10]. destruct (node_root _ _ _ _ N) as (r & Er & Gr). unfold put_node. cbn [snd] in *. rewrite Er. reflexivity.
Qed.

Lemma set_cases (h : heap) rs i p v s' : inv (h, rs) -> legal_op (h, rs) (NSet i p v) -> nstep (h, rs) (NSet i p v) = (s', None) ->
  p = [] /\ exists t t', nth_error rs i = Some t /\ s' = (h ++ [v], upd i t' rs) /\ linked t' /\ fully t' /\ t_owned t' = false /\ t_read (h ++ [v]) t' = v /\
    concat (map (read (h ++ [v])) (leaves t')) = v /\ map v_len (leaves t') = map v_len (leaves t) /\ (forall w, In w (vs t') -> v_arr w = length h /\ inb (h ++ [v]) w).
Proof.
  intros I Hl H. cbn [nstep legal_op] in *. destruct (node (h, rs) i p) as [t|] eqn:N; [|discriminate].
  destruct (node_facts _ _ _ _ _ I N) as (L & Op & Or & Iv). destruct Hl as [Hv Hl]. destruct (Hl t eq_refl) as [F Len].
  destruct (assign_node h t v) as [[h' t'] e] eqn:E. injection H as <- ->.
  destruct (assign_ok h t v h' t' L F Hv Len E) as (O & -> & A & B & C & D & G & J & M).
  assert (p = []) as ->. { destruct p; [auto|]. destruct (Op ltac:(discriminate)) as [Y _]. congruence. }
  split; [auto|]. destruct (node_root _ _ _ _ N) as (r & Er & Gr). cbn in Gr. injection Gr as ->. exists t, t'. cbn [snd] in Er. split; [auto|]. split; [|auto 12].
  unfold put_node. cbn [snd]. rewrite Er. reflexivity.
Qed.

Lemma own_leaves c : leaves (own c) = leaves c /\ t_view (own c) = t_view c /\ vs (own c) = vs c /\ (linked c -> linked (own c)) /\ (0 < t_dim c -> t_owned (own c) = true).
Proof.
  unfold own. destruct (Nat.eqb_spec (t_dim c) 0) as [E|E].
  - repeat split; auto. lia.
  - destruct c; cbn; auto 10.
Qed.

Lemma gone_perm rs j c : nth_error rs j = Some c -> Permutation (all_leaves rs) (leaves c ++ all_leaves (upd j gone rs)).
Proof.
  intro H. destruct (flat_upd rs j c gone H) as (pre & post & -> & -> & _). cbn [leaves gone flat_map app]. rewrite Permutation_app_swap_app. reflexivity.
Qed.

Lemma add_cases (h : heap) rs i p j s' : inv (h, rs) -> legal_op (h, rs) (NAdd i p j) -> nstep (h, rs) (NAdd i p j) = (s', None) ->
  inv s' /\ fst s' = h /\ Permutation (all_leaves (snd s')) (all_leaves rs).
Proof.
  intros I Hl H. cbn [nstep legal_op] in *. destruct (node (h, rs) i p) as [t|] eqn:N; [|discriminate].
  destruct (nth_error rs j) as [c|] eqn:Ec; [|discriminate]. destruct (Nat.eqb_spec i j) as [Eij|Eij]; [discriminate|].
  destruct t as [|o w s kids]; [discriminate|]. cbn [add_node] in H. injection H as <-. cbn [fst snd].
  destruct (node_facts _ _ _ _ _ I N) as (L & Op & Or & Iv). specialize (Hl c Ec).
  destruct (node_root _ _ _ _ N) as (r & Er & Gr). unfold put_node. cbn [snd] in *. rewrite Er.
  destruct (own_leaves c) as (C1 & C2 & C3 & C4 & C5). pose proof I as (I1 & I2 & I3). cbn [fst snd] in *.
  destruct (I1 c (nth_error_In _ _ Ec)) as [Lc _]. destruct (I1 r (nth_error_In _ _ Er)) as [Lr Orr].
  set (y := PNet o w false (kids ++ [own c])).
  assert (Ly : linked y).
  { apply linked_net in L. destruct L as (L1 & L0 & L2). apply linked_net. split; [|split].
    - intros k Hk. apply in_app_or in Hk. destruct Hk as [Hk|[<-|[]]]; auto. split; [auto|]. split; [auto|]. unfold t_dim. rewrite C2. exact Hl.
    - intros _ Hn. destruct kids; discriminate.
    - discriminate. }
  assert (Lp : linked (put p y r)) by (apply (put_linked p r (PNet o w s kids) y); auto).
  assert (Op' : t_owned (put p y r) = false) by (destruct (put_keeps p r (PNet o w s kids) y Gr eq_refl eq_refl) as [_ ->]; auto).
  assert (Pm : Permutation (all_leaves (upd j gone (upd i (put p y r) rs))) (all_leaves rs)).
  { assert (Ec' : nth_error (upd i (put p y r) rs) j = Some c) by (rewrite nth_error_upd_neq; auto).
    apply (Permutation_app_inv_l (leaves c)). rewrite <- (gone_perm _ _ _ Ec').
    destruct (flat_upd rs i r (put p y r) Er) as (pre & post & E1 & E2 & _). destruct (get_leaves p r _ Gr) as (a & b & G1 & G2).
    rewrite E1, E2, G1, G2. cbn [leaves y]. rewrite flat_map_app. cbn [flat_map]. rewrite app_nil_r, C1, <- !app_assoc.
    rewrite (app_assoc pre), (app_assoc (pre ++ a)), (app_assoc pre a), (app_assoc (pre ++ a)). rewrite Permutation_app_swap_app. reflexivity. }
  split; [|split; [auto|exact Pm]]. split; [|split]; cbn [fst snd].
  - intros x Hx. apply in_upd in Hx. destruct Hx as [->|Hx]; [split; [cbn; repeat split; auto; try discriminate; intros X; destruct X; auto|auto]|].
    apply in_upd in Hx. destruct Hx as [->|Hx]; auto.
  - intros x v Hx Hv. apply in_upd in Hx. destruct Hx as [->|Hx]; [destruct Hv|].
    apply in_upd in Hx. destruct Hx as [->|Hx]; [|apply (I2 x); auto].
    destruct (put_vs p r _ y v Gr Hv) as [Hv'|Hv']; [apply (I2 r); auto; eapply nth_error_In; eauto|].
    unfold y in Hv'. cbn [vs] in Hv'. rewrite flat_map_app in Hv'. cbn [flat_map] in Hv'. rewrite app_nil_r, C3, app_assoc in Hv'. apply in_app_or in Hv'. destruct Hv' as [Hv'|Hv'].
    + apply Iv. exact Hv'.
    + apply (I2 c); auto. eapply nth_error_In; eauto.
  - eapply pw_perm; [apply Permutation_sym; exact Pm|exact I3].
Qed.

Theorem step_inv (s : state V) o s' : inv s -> legal_op s o -> nstep s o = (s', None) -> inv s'.
Proof.
  destruct s as [h rs]. intros I Hl H. destruct o as [v| |i p j|i p|i p v|i p g].
  - cbn [nstep alloc] in H. injection H as <-. pose proof I as (I1 & I2 & I3). cbn [fst snd legal_op] in *. split; [|split]; cbn [fst snd].
    + intros t Ht. apply in_app_or in Ht. destruct Ht as [Ht|[<-|[]]]; [auto|]. split; [|auto]. cbn. destruct v; [destruct Hl; auto|cbn; lia].
    + intros t w Ht Hw. apply in_app_or in Ht. destruct Ht as [Ht|[<-|[]]]; [apply alloc_inb; eauto|]. destruct Hw as [<-|[]]. split; [rewrite app_length; cbn; lia|]. cbn [v_arr]. rewrite alloc_arr_new. cbn. lia.
    + unfold all_leaves. rewrite flat_map_app. cbn. apply pw_app. split; [auto|]. split; [repeat constructor|]. intros x y Hx [<-|[]]. left. cbn. destruct (leaf_inb h rs x I Hx) as [Hb _]. lia.
  - cbn [nstep] in H. injection H as <-. pose proof I as (I1 & I2 & I3). cbn [fst snd] in *. split; [|split]; cbn [fst snd].
    + intros t Ht. apply in_app_or in Ht. destruct Ht as [Ht|[<-|[]]]; [auto|]. split; [|auto]. cbn. repeat split; auto; try discriminate.
    + intros t w Ht Hw. apply in_app_or in Ht. destruct Ht as [Ht|[<-|[]]]; [eauto|]. destruct Hw.
    + unfold all_leaves. rewrite flat_map_app. cbn. rewrite app_nil_r. auto.
  - eapply add_cases; eauto.
  - destruct (sort_cases h rs i p s' I Hl H) as (t & N & [(-> & _)|[(-> & -> & ->)|(-> & c & t' & -> & A & B & C & D & E & F)]]); [auto| |].
    + destruct (node_root _ _ _ _ N) as (r & Er & Gr). cbn in Gr. injection Gr as ->. cbn [snd] in Er. pose proof I as (I1 & I2 & I3). cbn [fst snd] in *. split; [|split]; cbn [fst snd].
      * intros t Ht. apply in_upd in Ht. destruct Ht as [->|Ht]; [|auto]. split; [|auto]. cbn. repeat split; auto.
      * intros t w Ht Hw. apply in_upd in Ht. destruct Ht as [->|Ht]; [destruct Hw|eauto].
      * destruct (flat_upd rs i _ (PNet false None true []) Er) as (pre & post & E1 & E2 & _). rewrite E2. rewrite E1 in I3. exact I3.
    + destruct (node_root _ _ _ _ N) as (r & Er & Gr). cbn in Gr. injection Gr as ->. eapply replace_root; eauto.
  - destruct (set_cases h rs i p v s' I Hl H) as (-> & t & t' & Er & -> & A & B & C & D & E & F & G). eapply replace_root; eauto.
  - cbn [nstep] in H. destruct (node (h, rs) i p) as [t|] eqn:N; [|discriminate]. destruct (t_view t) as [w|] eqn:Ew; [|discriminate]. injection H as <-.
    destruct (node_facts _ _ _ _ _ I N) as (_ & _ & _ & Iv). pose proof (Iv w (view_vs t w Ew)) as Iw. destruct I as (I1 & I2 & I3). cbn [fst snd legal_op] in *. split; [auto|]. split; [|auto].
    cbn [fst snd]. intros x v Hx Hv. apply write_inb; [auto| |eauto]. rewrite Hl. apply read_length. auto.
Qed.

Definition nstart : state V := ([], []).
Definition reachable (s : state V) : Prop := exists ops, legal_session nstart ops /\ nrun nstart ops = Some s.
Lemma reach_inv s : reachable s -> inv s.
Proof.
  intros (ops & Hl & Hr).
  assert (G : forall ops s0, inv s0 -> legal_session s0 ops -> nrun s0 ops = Some s -> inv s).
  { clear. induction ops as [|o ops IH]; intros s0 I Hl Hr; cbn in *; [injection Hr as <-; auto|]. destruct Hl as [H1 H2]. destruct (nstep s0 o) as [s1 [x|]] eqn:E; [discriminate|].
    apply (IH s1); auto. eapply step_inv; eauto. }
  apply (G ops nstart); auto. split; [intros t []|]. split; [intros t v []|constructor].
Qed.

(** ** The theorems *)
(** The vector of a sorted network, at every depth, is what its containers hold. *)
Theorem C60_consistent (h : heap) rs i p o w kids : reachable (h, rs) -> node (h, rs) i p = Some (PNet o w true kids) ->
  t_read h (PNet o w true kids) = concat (map (t_read h) kids).
Proof.
  intros R N. apply reach_inv in R. destruct (node_facts _ _ _ _ _ R N) as (L & _ & _ & _). apply linked_net in L. destruct L as (L1 & L0 & L2). specialize (L2 eq_refl).
  unfold t_read at 1. cbn [t_view]. destruct w as [w|]; [|subst kids; reflexivity]. rewrite (tiles_v_read h w _ L2), map_map. f_equal. apply map_ext_in. intros k Hk.
  destruct (L1 k Hk) as (_ & _ & D). destruct (kv_dim k D) as [E _]. unfold t_read. rewrite E. reflexivity.
Qed.
Theorem C60_vector (h : heap) rs i p t : reachable (h, rs) -> node (h, rs) i p = Some t -> fully t ->
  t_read h t = concat (map (read h) (leaves t)).
Proof.
  intros R N F. apply reach_inv in R. destruct (node_facts _ _ _ _ _ R N) as (L & _ & _ & Iv). destruct (Nat.eq_dec (t_dim t) 0) as [E|E]; [|apply read_tree; auto; lia].
  destruct t as [o w|o ow s kids]; [cbn in L, E; lia|]. pose proof (t_read_length h _ Iv) as Ln. rewrite E in Ln. apply length_zero_iff_nil in Ln. rewrite Ln.
  apply linked_net in L. apply fully_net in F. destruct L as (L1 & L0 & L2). destruct F as [-> F]. specialize (L2 eq_refl).
  destruct kids as [|k r]; [reflexivity|]. destruct ow as [w|]; [|discriminate]. pose proof (kids_sum _ _ L2 L1) as S. destruct (L1 k (or_introl eq_refl)) as (_ & _ & D).
  change (t_dim k + list_sum (map t_dim r) = v_len w) in S. cbn in E. lia.
Qed.

Lemma map_read_alloc (h : heap) c l : (forall v, In v l -> inb h v) -> map (read (h ++ [c])) l = map (read h) l.
Proof. intro H. apply map_ext_in. intros v Hv. apply alloc_old. apply H. auto. Qed.

(** Sorting a network whose inner networks are sorted never fails, changes no parameter
    and makes the network's vector the concatenation of all of them. *)
Theorem C60_sort (h : heap) rs i o w s kids : reachable (h, rs) -> nth_error rs i = Some (PNet o w s kids) -> (forall k, In k kids -> fully k) ->
  exists s', nstep (h, rs) (NSort i []) = (s', None) /\ values s' = values (h, rs) /\
  exists t', nth_error (snd s') i = Some t' /\ fully t' /\ t_read (fst s') t' = concat (map (read h) (leaves (PNet o w s kids))).
Proof.
  intros R Er F. pose proof (reach_inv _ R) as I.
  assert (N : node (h, rs) i [] = Some (PNet o w s kids)) by (unfold node; cbn [snd]; rewrite Er; reflexivity).
  destruct (node_facts _ _ _ _ _ I N) as (L & _ & Or & Iv). specialize (Or eq_refl). cbn in Or. subst o.
  assert (Hs : exists s', nstep (h, rs) (NSort i []) = (s', None)).
  { cbn [nstep]. rewrite N. cbn [sort_node]. destruct s; [eexists; reflexivity|]. destruct (concat _) as [|c0 cs] eqn:E; [eexists; reflexivity|]. cbn [alloc].
    pose proof (proj1 (linked_net _ _ _ _) L) as (L1 & L0 & L2). rewrite (filter_dim _ L1) in E.
    assert (Hlen : length (c0 :: cs) = list_sum (map t_dim kids)) by (rewrite <- E; apply kids_length; intros k v Hk Hv; apply Iv; eapply kids_in_vs; eauto).
    destruct (distribute_ok (mkview (length h) 0 (length (c0 :: cs))) kids (fun k _ => set_node_ok k) L1 F 0) as (kids' & E1 & _); [exact (eq_sym Hlen)|].
    rewrite E1. eexists. reflexivity. }
  destruct Hs as [s' Hs]. exists s'. split; [auto|].
  assert (Hl : legal_op (h, rs) (NSort i [])). { cbn [legal_op]. rewrite N. intros t Ht. injection Ht as <-. exact F. }
  assert (R' : reachable s').
  { destruct R as (ops & H1 & H2). exists (ops ++ [NSort i []]).
    assert (G : forall l a, legal_session a l -> nrun a l = Some (h, rs) -> legal_session a (l ++ [NSort i []]) /\ nrun a (l ++ [NSort i []]) = Some s').
    { clear -Hl Hs. induction l as [|x l IH]; intros a A B; cbn [app legal_session nrun] in *.
      - injection B as ->. rewrite Hs. auto.
      - destruct A as [A1 A2]. destruct (nstep a x) as [a' [e|]]; [discriminate|]. destruct (IH a' A2 B). auto. }
    apply G; auto. }
  destruct (sort_cases h rs i [] s' I Hl Hs) as (t & N' & C). rewrite N in N'. injection N' as <-.
  destruct C as [(-> & o1 & w1 & k1 & Et)|[(_ & Et & ->)|(_ & c & t' & -> & A & B & C & D & E & G)]].
  - injection Et as X1 X2 X3 X4. subst s. split; [auto|]. eexists. split; [exact Er|]. split; [apply fully_net; auto|]. apply (C60_vector h rs i []); auto. apply fully_net. auto.
  - injection Et as -> -> ->. split.
    + unfold values. cbn [fst snd]. destruct (flat_upd rs i _ (PNet false None true []) Er) as (pre & post & -> & -> & _). reflexivity.
    + eexists. cbn [snd]. rewrite nth_error_upd_eq by (apply nth_error_Some; congruence). split; [reflexivity|]. split; [cbn; auto|]. reflexivity.
  - split.
    + unfold values. cbn [fst snd]. destruct (flat_upd rs i _ t' Er) as (pre & post & E1 & -> & Hi). rewrite E1. rewrite !map_app, D.
      rewrite !map_read_alloc by (intros v Hv; apply (leaf_inb h rs v I), Hi, in_or_app; auto). reflexivity.
    + exists t'. cbn [fst snd]. assert (En : nth_error (upd i t' rs) i = Some t') by (apply nth_error_upd_eq; apply nth_error_Some; congruence). split; [auto|]. split; [auto|].
      rewrite <- D. apply (C60_vector _ (upd i t' rs) i []); auto. unfold node. cbn [snd]. rewrite En. reflexivity.
Qed.

(** Adding a component or a sorted network moves its parameters, unchanged. *)
Theorem C60_add s i p j s' : reachable s -> legal_op s (NAdd i p j) -> nstep s (NAdd i p j) = (s', None) -> Permutation (values s') (values s).
Proof.
  destruct s as [h rs]. intros R Hl H. destruct (add_cases h rs i p j s' (reach_inv _ R) Hl H) as (_ & E & P). unfold values. rewrite E. cbn [fst snd]. apply Permutation_map. exact P.
Qed.

(** Setting the vector of a sorted network gives every component, at every depth, its
    part, and touches nothing else. *)
Theorem C60_set (h : heap) rs i t v : reachable (h, rs) -> nth_error rs i = Some t -> fully t -> v <> [] -> length v = t_dim t ->
  exists h' t', nstep (h, rs) (NSet i [] v) = ((h', upd i t' rs), None) /\ fully t' /\ t_read h' t' = v /\
    concat (map (read h') (leaves t')) = v /\ map v_len (leaves t') = map v_len (leaves t) /\
    forall j x, j <> i -> nth_error rs j = Some x -> map (read h') (leaves x) = map (read h) (leaves x).
Proof.
  intros R Er F Hv Hlen. pose proof (reach_inv _ R) as I.
  assert (N : node (h, rs) i [] = Some t) by (unfold node; cbn [snd]; rewrite Er; reflexivity).
  destruct (node_facts _ _ _ _ _ I N) as (L & _ & Or & Iv). specialize (Or eq_refl).
  assert (Hs : exists s', nstep (h, rs) (NSet i [] v) = (s', None)).
  { cbn [nstep]. rewrite N. unfold assign_node. rewrite Or. cbn [alloc]. destruct t as [o w|o ow s kids]; [eexists; reflexivity|].
    apply linked_net in L. apply fully_net in F. destruct L as (L1 & L0 & L2). destruct F as [-> F]. specialize (L2 eq_refl).
    unfold t_dim in Hlen. cbn [t_view] in Hlen. destruct ow as [w0|]; [|destruct v; [destruct Hv; auto|discriminate]].
    destruct (distribute_ok (mkview (length h) 0 (length v)) kids (fun k _ => set_node_ok k) L1 F 0) as (kids' & E1 & _).
    { cbn. rewrite Hlen. apply (kids_sum w0); auto. }
    rewrite E1. eexists. reflexivity. }
  destruct Hs as [s' Hs]. destruct (set_cases h rs i [] v s' I) as (_ & t0 & t' & Er' & -> & A & B & C & D & E & G & J); auto.
  { cbn [legal_op]. split; [auto|]. rewrite N. intros x Hx. injection Hx as <-. auto. }
  rewrite Er in Er'. injection Er' as <-. exists (h ++ [v]), t'. repeat (split; [auto|]). intros j x Hj Hx. apply map_read_alloc. intros w Hw. apply (leaf_inb h rs w I). apply in_flat_map. exists x. split; [eapply nth_error_In; eauto|auto].
Qed.

Lemma tiles_disj a off l fin u : tiles a off l fin -> off < fin -> 0 < v_len u -> (forall v, In v l -> disj v u) -> v_arr u <> a \/ v_off u + v_len u <= off \/ fin <= v_off u.
Proof.
  intros T Hf Hu Hd. destruct (Nat.eq_dec (v_arr u) a) as [Ea|Ea]; [|auto]. right.
  destruct (Nat.le_gt_cases (v_off u + v_len u) off) as [|H1]; [auto|]. right. destruct (Nat.le_gt_cases fin (v_off u)) as [|H2]; [auto|]. exfalso.
  assert (Hlen := tiles_len _ _ _ _ T).
  destruct (tiles_cover _ _ _ _ (Nat.max off (v_off u)) T) as (v & Hv & Hk).
  { lia. }
  destruct (tiles_in _ _ _ _ _ T Hv) as (X & Y & Z). destruct (Hd v Hv) as [D|[D|D]]; [congruence|lia|lia].
Qed.

(** An update in place of the vector of any sorted network, at any depth, changes the
    components below it accordingly and no other component. *)
Theorem C60_write (h : heap) rs i p t g : reachable (h, rs) -> node (h, rs) i p = Some t -> fully t -> 0 < t_dim t -> (forall l, length (g l) = length l) ->
  exists h', nstep (h, rs) (NWrite i p g) = ((h', rs), None) /\ t_read h' t = g (t_read h t) /\
  exists pre post, all_leaves rs = pre ++ leaves t ++ post /\
    map (read h') pre = map (read h) pre /\ map (read h') post = map (read h) post /\
    concat (map (read h') (leaves t)) = g (concat (map (read h) (leaves t))).
Proof.
  intros R N F D Hg. pose proof (reach_inv _ R) as I. destruct (node_facts _ _ _ _ _ I N) as (L & _ & _ & Iv). destruct (kv_dim t D) as [Ev El].
  assert (Iw : inb h (kv t)) by (apply Iv, view_vs; auto).
  assert (Lg : length (g (read h (kv t))) = v_len (kv t)) by (rewrite Hg; apply read_length; auto).
  set (h' := write h (kv t) (g (read h (kv t)))). exists h'. cbn [nstep]. rewrite N, Ev. split; [reflexivity|].
  assert (Er : t_read h' t = g (t_read h t)) by (unfold t_read; rewrite Ev; apply read_write_same; auto). split; [exact Er|].
  destruct (node_root _ _ _ _ N) as (r & Err & Gr). cbn [snd] in Err. destruct (flat_upd rs i r r Err) as (pre & post & E1 & _ & _). destruct (get_leaves p r t Gr) as (a & b & E2 & _).
  exists (pre ++ a), (b ++ post). assert (Eall : all_leaves rs = (pre ++ a) ++ leaves t ++ b ++ post) by (rewrite E1, E2, <- !app_assoc; reflexivity).
  split; [exact Eall|]. pose proof I as (I1 & I2 & I3). cbn [fst snd] in *. rewrite Eall in I3. apply pw_app in I3. destruct I3 as (_ & P2 & P3). apply pw_app in P2. destruct P2 as (_ & _ & P6).
  assert (Pos : forall v, In v (all_leaves rs) -> 0 < v_len v).
  { intros v Hv. apply in_flat_map in Hv. destruct Hv as (x & Hx & Hv). destruct (I1 x Hx) as [Lx _]. clear -Lx Hv. induction x as [o w|o ow s kids IH] using ptree_ind'; [destruct Hv as [<-|[]]; exact Lx|].
    cbn [leaves] in Hv. apply in_flat_map in Hv. destruct Hv as (k & Hk & Hv). apply linked_net in Lx. destruct Lx as (L1 & _). apply (IH k Hk); auto. apply L1. auto. }
  assert (Un : forall v, In v (all_leaves rs) -> (forall u, In u (leaves t) -> disj u v) -> read h' v = read h v).
  { intros v Hv Hd. apply read_write_disj; auto. destruct (tiles_disj _ _ _ _ v (leaves_tile t L F D) ltac:(lia) (Pos v Hv) Hd) as [X|[X|X]]; unfold disj; auto. }
  split; [|split].
  - apply map_ext_in. intros v Hv. apply Un; [rewrite Eall; apply in_or_app; auto|]. intros u Hu. apply disj_sym. apply P3; auto. apply in_or_app. auto.
  - apply map_ext_in. intros v Hv. apply Un; [rewrite Eall; apply in_or_app; right; apply in_or_app; auto|]. intros u Hu. apply P6; auto.
  - rewrite <- (read_tree h' t L F D), <- (read_tree h t L F D). exact Er.
Qed.

(** Inner networks can neither be given a vector of their own nor be sorted again. *)
Theorem C60_inner_rejects (h : heap) rs i p t : reachable (h, rs) -> node (h, rs) i p = Some t -> p <> [] ->
  (forall v, snd (nstep (h, rs) (NSet i p v)) = Some AssertionError) /\
  (forall o w kids, t = PNet o w false kids -> inner_sorted t -> snd (nstep (h, rs) (NSort i p)) = Some AssertionError).
Proof.
  intros R N Hp. pose proof (reach_inv _ R) as I. destruct (node_facts _ _ _ _ _ I N) as (L & Op & _ & Iv). destruct (Op Hp) as [O D]. split.
  - intro v. cbn [nstep]. rewrite N. unfold assign_node. rewrite O. reflexivity.
  - intros o w kids -> Hs. cbn [nstep]. rewrite N. destruct (sort_node h (PNet o w false kids)) as [[h' t'] [e|]] eqn:E.
    + cbn [sort_node] in E. cbn in O. subst o. destruct (concat _) in E; [discriminate|]. cbn [alloc] in E. injection E as <- <- <-. reflexivity.
    + exfalso. destruct (sort_ok h _ h' t' L Iv Hs E) as [(_ & _ & o' & w' & k' & X)|[(o' & w' & X & _)|((X & _) & _)]]; [discriminate| |congruence].
      injection X as -> -> ->. apply linked_net in L. destruct L as (_ & L0 & _). destruct w'; [apply L0; [discriminate|auto]|cbn in D; lia].
Qed.
End Props.

(** ** Concrete sessions *)
Definition mk_inner : list (nop nat) := [NLeaf [1; 2]; NLeaf [3]; NNet; NAdd 2 [] 0; NAdd 2 [] 1; NSort 2 []].
Definition mk_outer : list (nop nat) := mk_inner ++ [NLeaf [4]; NNet; NAdd 4 [] 3; NAdd 4 [] 2; NSort 4 []].
Definition at_path (s : state nat) (i : nat) (p : list nat) : list nat := match node s i p with Some t => t_read (fst s) t | None => [] end.
Example C60_nonvacuous :
  exists s, nrun nstart mk_outer = Some s /\ reachable s /\ values s = [[4]; [1; 2]; [3]] /\
  at_path s 4 [] = [4; 1; 2; 3] /\ at_path s 4 [1] = [1; 2; 3] /\ at_path s 4 [1; 1] = [3] /\
  (exists t, node s 4 [1] = Some t /\ fully t /\ t_dim t = 3) /\
  option_map (fun s' => (values s', at_path s' 4 [])) (nrun s [NWrite 4 [1] (map (fun x => 10 * x))]) = Some ([[4]; [10; 20]; [30]], [4; 10; 20; 30]) /\
  option_map (fun s' => (values s', at_path s' 4 [1])) (nrun s [NSet 4 [] [9; 8; 7; 6]; NWrite 4 [] (map S)]) = Some ([[10]; [9; 8]; [7]], [9; 8; 7]).
Proof.
  assert (Hr : exists s, nrun nstart mk_outer = Some s) by (eexists; vm_compute; reflexivity). destruct Hr as [s Hr]. exists s. split; [exact Hr|].
  vm_compute in Hr. injection Hr as <-. split; [|vm_compute; repeat split; auto; eexists; repeat split].
  exists mk_outer. split; [|vm_compute; reflexivity]. vm_compute. repeat split; auto; try discriminate;
    intros c H; repeat match goal with H : context[match ?x with _ => _ end] |- _ => destruct x end; try discriminate; injection H as <-; cbn; auto; try lia;
    try (intros k Hk; repeat (destruct Hk as [<-|Hk]; [cbn; auto|]); destruct Hk).
Qed.

(** An inner network that was not sorted when it was added is left out of the outer
    network's parameters, and stays out although both are sorted in the end. *)
Definition late : list (nop nat) := [NLeaf [1; 2]; NNet; NAdd 1 [] 0; NLeaf [4]; NNet; NAdd 3 [] 2; NAdd 3 [] 1; NSort 3 []].
Theorem C60_unsorted_inner_refuted : exists s s',
  nrun nstart late = Some s /\ at_path s 3 [] = [4] /\ In [1; 2] (values s) /\
  nrun s [NSort 3 [1]; NSort 3 []] = Some s' /\ at_path s' 3 [1] = [1; 2] /\ at_path s' 3 [] = [4] /\
  (exists t, node s' 3 [] = Some t /\ fully t).
Proof.
  eexists. eexists. split; [vm_compute; reflexivity|]. split; [vm_compute; reflexivity|]. split; [vm_compute; auto|]. split; [vm_compute; reflexivity|].
  split; [vm_compute; reflexivity|]. split; [vm_compute; reflexivity|]. eexists. split; [vm_compute; reflexivity|]. vm_compute. repeat split.
Qed.
(** If it is sorted between, sorting the outer network fails. *)
Theorem C60_late_sort_refuted : exists s,
  nrun nstart [NLeaf [1; 2]; NNet; NAdd 1 [] 0; NLeaf [4]; NNet; NAdd 3 [] 2; NAdd 3 [] 1; NSort 3 [1]] = Some s /\
  snd (nstep s (NSort 3 [])) = Some AssertionError.
Proof. eexists. split; vm_compute; reflexivity. Qed.
(** Sorting an inner network again after it has got another component raises, and leaves
    it cut off: its vector no longer follows the outer network's. *)
Theorem C60_inner_resort_refuted : exists s s1 s2,
  nrun nstart (mk_outer ++ [NLeaf [5]; NAdd 4 [1] 5]) = Some s /\
  nstep s (NSort 4 [1]) = (s1, Some AssertionError) /\
  nrun s1 [NWrite 4 [] (map (fun x => 10 * x))] = Some s2 /\
  at_path s2 4 [] = [40; 10; 20; 30] /\ at_path s2 4 [1; 0] = [10; 20] /\ at_path s2 4 [1] = [1; 2; 3; 5].
Proof. eexists. eexists. eexists. repeat split; vm_compute; reflexivity. Qed.

Print Assumptions C60_consistent.
Print Assumptions C60_vector.
Print Assumptions C60_sort.
Print Assumptions C60_add.
Print Assumptions C60_set.
Print Assumptions C60_write.
Print Assumptions C60_inner_rejects.
Print Assumptions C60_unsorted_inner_refuted.
Print Assumptions C60_late_sort_refuted.
Print Assumptions C60_inner_resort_refuted.
