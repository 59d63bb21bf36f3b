From Verif Require Import Base Params_Model Params_Spec Params_Proofs NestedParams_Model NestedParams_Spec.

Section Proofs.
Context {V : Type}.
Notation heap := (heap V).

Lemma ptree_ind' (Q : ptree -> Prop) : (forall o w, Q (PLeaf o w)) ->
  (forall o w s kids, (forall k, In k kids -> Q k) -> Q (PNet o w s kids)) -> forall t, Q t.
Proof.
  intros H1 H2. fix IH 1. intros [o w|o w s kids]; [apply H1|]. apply H2.
  induction kids as [|k r IHr]; [intros k []|]. intros k' [<-|Hin]; [apply IH|apply IHr; exact Hin].
Qed.

Definition kv (t : ptree) : view := match t_view t with Some w => w | None => mkview 0 0 0 end.
(** views one after the other from off to fin in one array *)
Fixpoint tiles (a off : nat) (l : list view) (fin : nat) : Prop :=
  match l with
  | [] => off = fin
  | v :: r => v_arr v = a /\ v_off v = off /\ tiles a (off + v_len v) r fin
  end.
Definition tiles_v (w : view) (l : list view) : Prop := tiles (v_arr w) (v_off w) l (v_off w + v_len w).

Lemma tiles_app a l : forall off m fin, tiles a off (l ++ m) fin <-> exists mid, tiles a off l mid /\ tiles a mid m fin.
Proof.
  induction l as [|v l IH]; intros off m fin; cbn [app tiles].
  - split; [intro H; exists off; auto|]. intros (mid & -> & H). exact H.
  - rewrite IH. split.
    + intros (A & B & mid & C & D). exists mid. auto.
    + intros (mid & (A & B & C) & D). eauto.
Qed.
Lemma tiles_len a l : forall off fin, tiles a off l fin -> fin = off + list_sum (map v_len l).
Proof. induction l as [|v l IH]; intros off fin H; cbn [tiles map] in *; [cbn; lia|]. destruct H as (_ & _ & H). apply IH in H. change (list_sum (v_len v :: map v_len l)) with (v_len v + list_sum (map v_len l)). lia. Qed.
Lemma tiles_in a l : forall off fin v, tiles a off l fin -> In v l -> v_arr v = a /\ off <= v_off v /\ v_off v + v_len v <= fin.
Proof.
  induction l as [|u l IH]; intros off fin v H Hin; cbn in *; [destruct Hin|]. destruct H as (A & B & C). destruct Hin as [->|Hin].
  - apply tiles_len in C. split; [auto|]. lia.
  - destruct (IH _ _ _ C Hin) as (X & Y & Z). split; [auto|lia].
Qed.
Lemma tiles_cover a l : forall off fin k, tiles a off l fin -> off <= k < fin -> exists v, In v l /\ v_off v <= k < v_off v + v_len v.
Proof.
  induction l as [|u l IH]; intros off fin k H Hk; cbn in *; [lia|]. destruct H as (A & B & C).
  destruct (Nat.lt_ge_cases k (off + v_len u)) as [Hl|Hl]; [exists u; split; [auto|lia]|].
  destruct (IH _ _ k C) as (v & Hv & Hi); [lia|]. exists v. auto.
Qed.
Lemma tiles_read (h : heap) a l : forall off fin, tiles a off l fin -> slice off fin (arr h a) = concat (map (read h) l).
Proof.
  induction l as [|v l IH]; intros off fin H; cbn in H.
  - subst. unfold slice. cbn. apply skipn_all2. rewrite firstn_length. lia.
  - destruct H as (A & B & C). cbn [map concat]. rewrite <- (IH _ _ C). unfold read. rewrite A, B. apply slice_split. apply tiles_len in C. lia.
Qed.
Lemma tiles_v_read (h : heap) w l : tiles_v w l -> read h w = concat (map (read h) l).
Proof. intro H. rewrite <- (tiles_read h _ _ _ _ H). reflexivity. Qed.

(** ** Pairwise disjoint *)
Definition pw (l : list view) : Prop := ForallOrdPairs disj l.
Lemma disj_sym v w : disj v w -> disj w v.
Proof. unfold disj. intros [H|[H|H]]; auto. Qed.
Lemma pw_app l m : pw (l ++ m) <-> pw l /\ pw m /\ forall x y, In x l -> In y m -> disj x y.
Proof.
  induction l as [|a l IH]; cbn [app].
  - split; [intro H; split; [constructor|split; [auto|intros x y []]]|tauto].
  - split.
    + intro H. inversion H as [|? ? A B]; subst. apply IH in B. destruct B as (B1 & B2 & B3). rewrite Forall_app in A. destruct A as [A1 A2].
      split; [constructor; auto|]. split; auto. intros x y [<-|Hx] Hy; [rewrite Forall_forall in A2; auto|auto].
    + intros (H1 & H2 & H3). inversion H1 as [|? ? A B]; subst. constructor.
      * apply Forall_app. split; auto. apply Forall_forall. intros y Hy. apply H3; [left|]; auto.
      * apply IH. split; auto. split; auto. intros x y Hx Hy. apply H3; [right|]; auto.
Qed.
Lemma pw_perm l m : Permutation l m -> pw l -> pw m.
Proof.
  induction 1 as [|x l m Hp IH|x y l|l m n H1 IH1 H2 IH2]; auto.
  - intro H. inversion H as [|? ? A B]; subst. constructor; [|apply IH; auto]. apply Forall_forall. intros y Hy. rewrite Forall_forall in A. apply A. eapply Permutation_in; [apply Permutation_sym|]; eauto.
  - intro H. inversion H as [|? ? A B]; subst. inversion B as [|? ? C D]; subst. inversion A as [|? ? E F]; subst.
    constructor; [constructor; auto using disj_sym|constructor; auto].
Qed.
Lemma tiles_pw a l : forall off fin, tiles a off l fin -> pw l.
Proof.
  induction l as [|v l IH]; intros off fin H; [constructor|]. cbn in H. destruct H as (A & B & C). constructor; [|eapply IH; eauto].
  apply Forall_forall. intros u Hu. destruct (tiles_in _ _ _ _ _ C Hu) as (X & Y & Z). right. left. lia.
Qed.

(** ** Trees in order *)
Fixpoint linked (t : ptree) : Prop :=
  match t with
  | PLeaf _ w => 0 < v_len w
  | PNet _ ow s kids =>
      fold_right (fun k P => (linked k /\ t_owned k = true /\ 0 < t_dim k) /\ P) True kids /\
      (ow <> None -> kids <> []) /\
      (s = true -> match ow with Some w => tiles_v w (map kv kids) | None => kids = [] end)
  end.
Lemma fold_all {A} (Q : A -> Prop) l : fold_right (fun k P => Q k /\ P) True l <-> forall k, In k l -> Q k.
Proof.
  induction l as [|a l IH]; cbn; [split; [intros _ k []|auto]|]. rewrite IH. split.
  - intros [H1 H2] k [<-|Hk]; auto.
  - intro H. split; [apply H; left; auto|intros k Hk; apply H; right; auto].
Qed.
Lemma linked_net o ow s kids : linked (PNet o ow s kids) <->
  (forall k, In k kids -> linked k /\ t_owned k = true /\ 0 < t_dim k) /\ (ow <> None -> kids <> []) /\
  (s = true -> match ow with Some w => tiles_v w (map kv kids) | None => kids = [] end).
Proof. cbn [linked]. rewrite fold_all. reflexivity. Qed.
Lemma fully_net o ow s kids : fully (PNet o ow s kids) <-> s = true /\ forall k, In k kids -> fully k.
Proof. cbn [fully]. rewrite fold_all. reflexivity. Qed.
Lemma kv_dim t : 0 < t_dim t -> t_view t = Some (kv t) /\ v_len (kv t) = t_dim t.
Proof. unfold t_dim, kv. destruct (t_view t); auto. lia. Qed.

(** the components of a tree that is sorted throughout tile its view *)
Lemma leaves_tile t : linked t -> fully t -> 0 < t_dim t -> tiles_v (kv t) (leaves t).
Proof.
  induction t as [o w|o ow s kids IH] using ptree_ind'; intros L F D.
  - cbn [leaves]. unfold tiles_v. cbn. auto.
  - apply linked_net in L. apply fully_net in F. destruct L as (L1 & L0 & L2). destruct F as [-> F]. specialize (L2 eq_refl).
    unfold t_dim in D. cbn [t_view] in D. destruct ow as [w|]; [|lia]. unfold kv. cbn [t_view]. cbn [leaves]. unfold tiles_v in *.
    clear D L0. revert L2. generalize (v_off w) at 1 3. generalize (v_off w + v_len w). generalize (v_arr w). intros a fin off.
    revert off. induction kids as [|k r IHr]; intros off H; cbn [map flat_map tiles] in *; auto. destruct H as (A & B & C).
    destruct (L1 k (or_introl eq_refl)) as (Lk & _ & Dk). apply tiles_app.
    exists (off + v_len (kv k)). split.
    + pose proof (IH k (or_introl eq_refl) Lk (F k (or_introl eq_refl)) Dk) as T. unfold tiles_v in T. rewrite A, B in T. exact T.
    + apply IHr; auto; intros; [apply IH|apply L1|apply F]; try right; auto.
Qed.

(** the same components with the same lengths *)
Definition same (t t' : ptree) : Prop := map v_len (leaves t') = map v_len (leaves t) /\ t_owned t' = t_owned t.

Lemma set_node_net w0 ow s kids : set_node (PNet true ow s kids) w0 =
  let '(kids', e) := distribute_kids w0 0 kids in (PNet true (Some w0) s kids', e).
Proof.
  cbn [set_node]. match goal with |- (let '(_, _) := ?F 0 kids in _) = _ => set (g := F) end.
  assert (E : forall l i, g i l = distribute_kids w0 i l).
  { induction l as [|k r IHr]; intro i; [reflexivity|]. cbn [distribute_kids]. cbn. destruct (t_dim k =? 0).
    - fold g. rewrite IHr. reflexivity.
    - fold g. destruct (set_node k _) as [k' [x|]]; auto. rewrite IHr. reflexivity. }
  rewrite E. reflexivity.
Qed.

Definition set_ok (t : ptree) : Prop := forall w, linked t -> fully t -> t_owned t = true -> 0 < t_dim t -> v_len w = t_dim t ->
  exists t', set_node t w = (t', None) /\ t_view t' = Some w /\ linked t' /\ fully t' /\ same t t'.

Lemma distribute_ok w : forall kids, (forall k, In k kids -> set_ok k) ->
  (forall k, In k kids -> linked k /\ t_owned k = true /\ 0 < t_dim k) -> (forall k, In k kids -> fully k) ->
  forall index, index + list_sum (map t_dim kids) = v_len w ->
  exists kids', distribute_kids w index kids = (kids', None) /\ (forall k, In k kids' -> linked k /\ t_owned k = true /\ 0 < t_dim k) /\ (forall k, In k kids' -> fully k) /\
    tiles (v_arr w) (v_off w + index) (map kv kids') (v_off w + v_len w) /\
    map v_len (flat_map leaves kids') = map v_len (flat_map leaves kids) /\ length kids' = length kids.
Proof.
  induction kids as [|k r IH]; intros Hs L F index Hi; cbn [distribute_kids].
  - exists []. split; [reflexivity|]. split; [intros k []|]. split; [intros k []|]. cbn in *. split; [lia|auto].
  - destruct (L k (or_introl eq_refl)) as (Lk & Ok & Dk). cbn [map list_sum fold_right] in Hi. change (fold_right Nat.add 0) with list_sum in Hi.
    destruct (Nat.eqb_spec (t_dim k) 0) as [E|_]; [lia|].
    assert (Esub : subview w index (t_dim k) = mkview (v_arr w) (v_off w + index) (t_dim k)) by (unfold subview; f_equal; lia).
    destruct (Hs k (or_introl eq_refl) (subview w index (t_dim k)) Lk (F k (or_introl eq_refl)) Ok Dk) as (k' & E1 & V1 & L1 & F1 & S1 & O1); [rewrite Esub; reflexivity|].
    destruct (IH (fun k H => Hs k (or_intror H)) (fun k H => L k (or_intror H)) (fun k H => F k (or_intror H)) (index + t_dim k)) as (r' & E2 & L2 & F2 & T2 & S2 & N2); [lia|].
    rewrite E1, E2. exists (k' :: r').
    assert (Ek : kv k' = mkview (v_arr w) (v_off w + index) (t_dim k)) by (unfold kv; rewrite V1; exact Esub).
    assert (Dk' : t_dim k' = t_dim k) by (unfold t_dim at 1; rewrite V1, Esub; reflexivity).
    split; [reflexivity|]. split; [|split; [|split; [|split]]].
    + intros x [<-|Hx]; [|auto]. rewrite Dk', O1. auto.
    + intros x [<-|Hx]; auto.
    + cbn [map tiles]. rewrite Ek. cbn. split; auto. split; auto. rewrite <- Nat.add_assoc. exact T2.
    + cbn [flat_map]. rewrite !map_app, S1, S2. reflexivity.
    + cbn. rewrite N2. reflexivity.
Qed.

Lemma kids_sum w kids : tiles_v w (map kv kids) -> (forall k, In k kids -> linked k /\ t_owned k = true /\ 0 < t_dim k) -> list_sum (map t_dim kids) = v_len w.
Proof.
  intros T L. apply tiles_len in T. assert (E : map v_len (map kv kids) = map t_dim kids).
  { rewrite map_map. apply map_ext_in. intros k Hk. apply kv_dim. apply L. auto. }
  rewrite E in T. lia.
Qed.

Lemma set_node_ok t : set_ok t.
Proof.
  induction t as [o w0|o ow s kids IH] using ptree_ind'; intros w L F O D E.
  - cbn in O. subst o. exists (PLeaf true w). cbn [set_node]. repeat split; cbn; auto; rewrite ?E; auto.
  - cbn in O. subst o. rewrite set_node_net. apply linked_net in L. apply fully_net in F. destruct L as (L1 & L0 & L2). destruct F as [-> F]. specialize (L2 eq_refl).
    unfold t_dim in D, E. cbn [t_view] in D, E. destruct ow as [w0|]; [|lia].
    destruct (distribute_ok w kids IH L1 F 0) as (kids' & E1 & A & B & C & G & Nn).
    { rewrite E. apply (kids_sum w0); auto. }
    rewrite E1. rewrite Nat.add_0_r in C. eexists. split; [reflexivity|]. split; [reflexivity|]. split; [|split; [|split]].
    + apply linked_net. split; [exact A|]. split; [|auto]. intros _ ->. destruct kids; [apply L0; [discriminate|reflexivity]|discriminate].
    + apply fully_net. auto.
    + exact G.
    + reflexivity.
Qed.
End Proofs.
