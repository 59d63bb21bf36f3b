(** C33, C34: fronts and non-dominated sorting. *)
From Coq Require Import QArith.
From Verif Require Import Base StableSort Nondom_Model.
Local Open Scope nat_scope.

(** ** What a front is *)
Section Spec.
Context {A : Type}.
(** R is a front of [items] for the domination relation [dom]: part of the items, no two
    members compare, and every item outside is dominated by a member. *)
Definition is_front (dom : A -> A -> Prop) (items R : list A) : Prop :=
  NoDup R /\ incl R items /\
  (forall x y, In x R -> In y R -> x <> y -> ~ dom x y) /\
  (forall x, In x items -> In x R \/ exists y, In y R /\ dom y x).

Definition all_below (dim : nat) (a b : list Z) : Prop := forall k, k < dim -> (nth k a 0 < nth k b 0)%Z.
Definition all_atmost (dim : nat) (a b : list Z) : Prop := forall k, k < dim -> (nth k a 0 <= nth k b 0)%Z.
Definition dominates (allowequality : bool) (dim : nat) (a b : list Z) : Prop :=
  if allowequality then all_below dim a b else all_atmost dim a b.

Lemma dominates_trans q dim a b c : dominates q dim a b -> dominates q dim b c -> dominates q dim a c.
Proof. destruct q; intros H1 H2 k Hk; specialize (H1 k Hk); specialize (H2 k Hk); lia. Qed.
Lemma dominates_irrefl dim a : 0 < dim -> ~ dominates true dim a a.
Proof. intros Hd H. specialize (H 0 Hd). lia. Qed.

Lemma is_front_ext dom items items' R : (forall x, In x items <-> In x items') -> is_front dom items R -> is_front dom items' R.
Proof.
  intros E (H1 & H2 & H3 & H4). split; [auto|split; [|split; auto]].
  - intros x Hx. apply E. auto.
  - intros x Hx. apply H4, E. auto.
Qed.
Lemma is_front_merge (dom : A -> A -> Prop) l1 l2 R1 R2 P R : (forall a b c, dom a b -> dom b c -> dom a c) ->
  is_front dom l1 R1 -> is_front dom l2 R2 -> (forall x, In x P <-> In x R1 \/ In x R2) -> is_front dom P R -> is_front dom (l1 ++ l2) R.
Proof.
  intros Ht (_ & I1 & _ & C1) (_ & I2 & _ & C2) HP (N & I & An & C). split; [auto|split; [|split; auto]].
  - intros x Hx. apply I, HP in Hx. apply in_or_app. destruct Hx; [left|right]; auto.
  - assert (G : forall x y, In y P -> dom y x -> exists z, In z R /\ dom z x).
    { intros x y Hy Hd. destruct (C y Hy) as [H|(z & Hz & Hd')]; [eauto|]. exists z. split; auto. eapply Ht; eauto. }
    intros x Hx. apply in_app_or in Hx. destruct Hx as [Hx|Hx].
    + destruct (C1 x Hx) as [H|(y & Hy & Hd)]; [apply C, HP; auto|]. right. apply (G x y); auto. apply HP; auto.
    + destruct (C2 x Hx) as [H|(y & Hy & Hd)]; [apply C, HP; auto|]. right. apply (G x y); auto. apply HP; auto.
Qed.
(** For an irreflexive relation the front is the set of undominated items. *)
Lemma is_front_exact (dom : A -> A -> Prop) items R : (forall a b c, dom a b -> dom b c -> dom a c) -> (forall a, ~ dom a a) ->
  is_front dom items R -> forall x, In x R <-> In x items /\ forall y, In y items -> ~ dom y x.
Proof.
  intros Ht Hi (N & I & An & C) x. split.
  - intro Hx. split; [auto|]. intros y Hy Hd. destruct (C y Hy) as [HyR|(z & Hz & Hzy)].
    + destruct (Hi x). assert (y <> x -> False) as G by (intro Hne; apply (An y x); auto). 
      exfalso. apply G. intros ->. apply (Hi x). auto.
    + assert (Hzx : dom z x) by (eapply Ht; eauto). apply (An z x); auto. intros ->. apply (Hi x). auto.
  - intros [Hx Hn]. destruct (C x Hx) as [H|(y & Hy & Hd)]; [auto|]. exfalso. apply (Hn y); auto.
Qed.
End Spec.

(** ** Sets *)
Section Sets.
Context {X : Type} (eq_dec : forall x y : X, {x = y} + {x <> y}).
Lemma mem_In x l : mem eq_dec x l = true <-> In x l.
Proof. unfold mem. destruct (in_dec eq_dec x l); intuition congruence. Qed.
Lemma set_add_In x y l : In y (set_add eq_dec x l) <-> y = x \/ In y l.
Proof.
  unfold set_add. destruct (in_dec eq_dec x l); [|rewrite in_app_iff; cbn]; intuition; subst; auto.
Qed.
Lemma NoDup_snoc (l : list X) x : NoDup l -> ~ In x l -> NoDup (l ++ [x]).
Proof. intros H Hx. apply (Permutation_NoDup (l := x :: l)); [apply Permutation_cons_append|constructor; auto]. Qed.
Lemma set_add_NoDup x l : NoDup l -> NoDup (set_add eq_dec x l).
Proof. intro H. unfold set_add. destruct (in_dec eq_dec x l); auto. apply NoDup_snoc; auto. Qed.
Lemma set_remove_In x y l : In y (set_remove eq_dec x l) <-> In y l /\ y <> x.
Proof. unfold set_remove. rewrite filter_In. destruct (eq_dec y x); intuition congruence. Qed.
Lemma set_remove_NoDup x l : NoDup l -> NoDup (set_remove eq_dec x l).
Proof. apply NoDup_filter. Qed.
Lemma set_minus_In y l r : In y (set_minus eq_dec l r) <-> In y l /\ ~ In y r.
Proof.
  unfold set_minus. rewrite filter_In. rewrite negb_true_iff. rewrite <- (mem_In y r). destruct (mem eq_dec y r); intuition congruence.
Qed.
Lemma set_union_In y l r : In y (set_union eq_dec l r) <-> In y l \/ In y r.
Proof.
  unfold set_union. rewrite in_app_iff, set_minus_In. destruct (in_dec eq_dec y l); intuition.
Qed.
Lemma NoDup_disj (l r : list X) : NoDup l -> NoDup r -> (forall x, In x l -> ~ In x r) -> NoDup (l ++ r).
Proof.
  induction l as [|a l IH]; intros Hl Hr H; auto. inversion Hl; subst. cbn. constructor.
  - rewrite in_app_iff. intros [G|G]; [auto|]. apply (H a); auto. left; auto.
  - apply IH; auto. intros x Hx. apply H. right; auto.
Qed.
Lemma set_union_NoDup l r : NoDup l -> NoDup r -> NoDup (set_union eq_dec l r).
Proof.
  intros Hl Hr. apply NoDup_disj; auto.
  - apply NoDup_filter. auto.
  - intros x Hx. rewrite set_minus_In. tauto.
Qed.
Lemma to_set_spec l : forall s, NoDup s -> NoDup (fold_left (fun s x => set_add eq_dec x s) l s) /\
  forall x, In x (fold_left (fun s x => set_add eq_dec x s) l s) <-> In x s \/ In x l.
Proof.
  induction l as [|a l IH]; intros s Hs; cbn [fold_left]; [split; [auto|intro; cbn; intuition]|].
  destruct (IH _ (set_add_NoDup a s Hs)) as [A B]. split; auto. intro x. rewrite B, set_add_In. cbn. intuition.
Qed.
Lemma to_set_NoDup l : NoDup (to_set eq_dec l).
Proof. apply (to_set_spec l []). constructor. Qed.
Lemma to_set_In x l : In x (to_set eq_dec l) <-> In x l.
Proof. unfold to_set. rewrite (proj2 (to_set_spec l [] (NoDup_nil _)) x). cbn. intuition. Qed.

(** ** The loop *)
Context (ord : list X -> list X) (Hord : forall l, Permutation (ord l) l).
Context (dom : X -> X -> bool) (trans : forall a b c, dom a b = true -> dom b c = true -> dom a c = true).

Lemma inner_stop i snap : forall res, (exists j, In j snap /\ j <> i /\ dom j i = true) ->
  (forall k, In k snap -> k <> i -> dom k i = false -> dom i k = false) ->
  front_inner eq_dec dom i snap res = set_remove eq_dec i res.
Proof.
  induction snap as [|k snap IH]; intros res (j & Hj & Hne & Hd) H; [destruct Hj|]. cbn [front_inner].
  assert (Hrec : j <> k -> (exists j, In j snap /\ j <> i /\ dom j i = true)) by (intro; exists j; destruct Hj; [congruence|auto]).
  destruct (eq_dec i k) as [->|Hik].
  - apply IH; [apply Hrec; auto|]. intros; apply H; auto. right; auto.
  - destruct (dom k i) eqn:Eki; auto.
    rewrite (H k) by (auto; left; auto). apply IH; [apply Hrec; intros ->; congruence|]. intros; apply H; auto. right; auto.
Qed.
Lemma inner_run i snap : forall res, (forall k, In k snap -> k <> i -> dom k i = false) -> NoDup res ->
  NoDup (front_inner eq_dec dom i snap res) /\
  forall x, In x (front_inner eq_dec dom i snap res) <-> In x res /\ ~ (In x snap /\ x <> i /\ dom i x = true).
Proof.
  induction snap as [|k snap IH]; intros res H Hn; cbn [front_inner]; [split; [auto|cbn; intuition]|].
  assert (H' : forall k, In k snap -> k <> i -> dom k i = false) by (intros; apply H; auto; right; auto).
  destruct (eq_dec i k) as [->|Hik].
  - destruct (IH res H' Hn) as [N E]. split; auto. intro x. rewrite E. cbn. intuition congruence.
  - rewrite (H k) by (auto; left; auto). destruct (dom i k) eqn:Eik.
    + destruct (IH _ H' (set_remove_NoDup k res Hn)) as [N E]. split; auto. intro x. rewrite E, set_remove_In. cbn.
      split; intros [A B].
      * split; [tauto|]. intros [[->|C] D]; tauto.
      * split; [split; [tauto|]|].
        -- intros ->. apply B. auto.
        -- intros [C D]. apply B. auto.
    + destruct (IH res H' Hn) as [N E]. split; auto. intro x. rewrite E. cbn. intuition congruence.
Qed.

Lemma loop_step done res i : ~ In i done -> is_front (fun a b => dom a b = true) done res ->
  let res' := set_add eq_dec i res in
  is_front (fun a b => dom a b = true) (done ++ [i]) (front_inner eq_dec dom i (ord res') res').
Proof.
  intros Hi (N & I & An & C) res'.
  assert (Hir : ~ In i res) by auto.
  assert (Hr' : forall x, In x res' <-> x = i \/ In x res) by (intro; apply set_add_In).
  assert (Hs : forall x, In x (ord res') <-> x = i \/ In x res).
  { intro x. rewrite <- Hr'. split; apply Permutation_in; [|symmetry]; apply Hord. }
  destruct (existsb (fun j => dom j i) res) eqn:Ex.
  - apply existsb_exists in Ex. destruct Ex as (j & Hj & Hd).
    assert (Hji : j <> i) by congruence.
    assert (Hnd : forall x, In x (front_inner eq_dec dom i (ord res') res') <-> In x res).
    { intro x. rewrite inner_stop.
      - rewrite set_remove_In, Hr'. split; [tauto|]. intro Hx. split; auto. congruence.
      - exists j. rewrite Hs. auto.
      - intros k Hk Hne Hki. rewrite Hs in Hk. destruct Hk as [|Hk]; [contradiction|].
        destruct (dom i k) eqn:Eik; auto. exfalso. destruct (eq_dec j k) as [->|Hjk]; [congruence|].
        apply (An j k Hj Hk Hjk). apply (trans j i k); auto. }
    split; [|split; [|split]].
    + rewrite inner_stop.
      * apply set_remove_NoDup, set_add_NoDup. auto.
      * exists j. rewrite Hs. auto.
      * intros k Hk Hne Hki. rewrite Hs in Hk. destruct Hk as [|Hk]; [contradiction|].
        destruct (dom i k) eqn:Eik; auto. exfalso. destruct (eq_dec j k) as [->|Hjk]; [congruence|].
        apply (An j k Hj Hk Hjk). apply (trans j i k); auto.
    + intros x Hx. apply Hnd in Hx. apply in_or_app. auto.
    + intros x y Hx Hy. apply Hnd in Hx. apply Hnd in Hy. auto.
    + intros x Hx. apply in_app_or in Hx. destruct Hx as [Hx|[<-|[]]].
      * destruct (C x Hx) as [H|(y & Hy & Hd')]; [left; apply Hnd; auto|]. right. exists y. rewrite Hnd. auto.
      * right. exists j. rewrite Hnd. auto.
  - assert (Hno : forall j, In j res -> dom j i = false).
    { intros j Hj. destruct (dom j i) eqn:E; auto. assert (existsb (fun j => dom j i) res = true) by (apply existsb_exists; eauto). congruence. }
    destruct (inner_run i (ord res') res') as [N' E'].
    { intros k Hk Hne. rewrite Hs in Hk. destruct Hk; [contradiction|auto]. }
    { apply set_add_NoDup. auto. }
    assert (Hnew : forall x, In x (front_inner eq_dec dom i (ord res') res') <-> x = i \/ (In x res /\ dom i x = false)).
    { intro x. rewrite E', Hr', Hs. destruct (eq_dec x i) as [->|Hx]; [intuition|].
      destruct (dom i x); intuition congruence. }
    split; [auto|split; [|split]].
    + intros x Hx. apply Hnew in Hx. apply in_or_app. cbn. destruct Hx as [->|[Hx _]]; auto.
    + intros x y Hx Hy Hne. apply Hnew in Hx. apply Hnew in Hy.
      destruct Hx as [->|[Hx Dx]], Hy as [->|[Hy Dy]]; try congruence; try (rewrite Hno; congruence). apply An; auto.
    + intros x Hx. apply in_app_or in Hx. destruct Hx as [Hx|[<-|[]]]; [|left; apply Hnew; auto].
      assert (G : forall y, In y res -> In y (front_inner eq_dec dom i (ord res') res') \/ dom i y = true).
      { intros y Hy. destruct (dom i y) eqn:Ey; auto. left. apply Hnew. auto. }
      assert (Hin : In i (front_inner eq_dec dom i (ord res') res')) by (apply Hnew; auto).
      destruct (C x Hx) as [H|(y & Hy & Hd)].
      * destruct (G x H); [auto|]. right. eauto.
      * destruct (G y Hy); right; [eauto|]. exists i. split; auto. eapply trans; eauto.
Qed.
Lemma loop_front items : NoDup items -> is_front (fun a b => dom a b = true) items (front_loop eq_dec ord dom items).
Proof.
  intro Hn. unfold front_loop.
  assert (G : forall todo done res, items = done ++ todo -> is_front (fun a b => dom a b = true) done res ->
    is_front (fun a b => dom a b = true) items (fold_left (fun res i => let res' := set_add eq_dec i res in front_inner eq_dec dom i (ord res') res') todo res)).
  { induction todo as [|i todo IH]; intros done res E H; cbn [fold_left].
    - rewrite app_nil_r in E. subst. auto.
    - apply (IH (done ++ [i])); [rewrite <- app_assoc; auto|]. apply loop_step; auto.
      rewrite E in Hn. apply NoDup_remove_2 in Hn. rewrite in_app_iff in Hn. tauto. }
  apply (G items []); auto. split; [apply NoDup_nil|split; [intros x []|split; [intros x y []|intros x []]]].
Qed.
End Sets.
