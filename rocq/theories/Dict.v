(** Python dictionaries with natural number keys, in insertion order. *)
From Verif Require Import Base.

Section Dict.
Context {V : Type}.
Definition dict := list (nat * V).
(** d.get(k) *)
Fixpoint dget (k : nat) (d : dict) : option V :=
  match d with
  | [] => None
  | (k', v) :: t => if k =? k' then Some v else dget k t
  end.
(** d[k] = v : an existing key keeps its position *)
Fixpoint dset (k : nat) (v : V) (d : dict) : dict :=
  match d with
  | [] => [(k, v)]
  | (k', v') :: t => if k =? k' then (k, v) :: t else (k', v') :: dset k v t
  end.
(** del d[k] *)
Definition ddel (k : nat) (d : dict) : dict := filter (fun e => negb (k =? fst e)) d.
Definition dkeys (d : dict) : list nat := map fst d.

Lemma dget_dset k v d k' : dget k' (dset k v d) = if k' =? k then Some v else dget k' d.
Proof.
  induction d as [|[a b] d IH]; cbn [dset dget].
  - destruct (k' =? k); reflexivity.
  - destruct (Nat.eqb_spec k a) as [->|Hne]; cbn [dget].
    + destruct (Nat.eqb_spec k' a); reflexivity.
    + rewrite IH. destruct (Nat.eqb_spec k' a) as [->|]; auto.
      destruct (Nat.eqb_spec a k); auto. congruence.
Qed.
Lemma dget_ddel k d k' : dget k' (ddel k d) = if k' =? k then None else dget k' d.
Proof.
  unfold ddel. induction d as [|[a b] d IH]; cbn [filter dget fst].
  - destruct (k' =? k); reflexivity.
  - destruct (Nat.eqb_spec k a) as [->|Hne]; cbn [negb dget].
    + rewrite IH. destruct (Nat.eqb_spec k' a); auto.
    + rewrite IH. destruct (Nat.eqb_spec k' a) as [->|]; auto.
      destruct (Nat.eqb_spec a k); auto. congruence.
Qed.
Lemma dget_keys k d : (exists v, dget k d = Some v) <-> In k (dkeys d).
Proof.
  induction d as [|[a b] d IH]; cbn [dget dkeys map In fst].
  - split; [intros [v H]; discriminate|intros []].
  - destruct (Nat.eqb_spec k a) as [->|Hne].
    + split; eauto.
    + rewrite IH. unfold dkeys. split; auto. intros [H|H]; auto. congruence.
Qed.
Lemma dget_none k d : dget k d = None <-> ~ In k (dkeys d).
Proof.
  rewrite <- dget_keys. destruct (dget k d); split; try congruence.
  - intro H. exfalso. apply H. eauto.
  - intros _ [v H]. discriminate.
Qed.
Lemma dget_In k v d : dget k d = Some v -> In (k, v) d.
Proof.
  induction d as [|[a b] d IH]; cbn [dget]; [discriminate|].
  destruct (Nat.eqb_spec k a) as [->|]; intro H; [injection H as ->; left|right]; auto.
Qed.
Lemma In_dget k v d : NoDup (dkeys d) -> In (k, v) d -> dget k d = Some v.
Proof.
  induction d as [|[a b] d IH]; cbn [dget dkeys map fst]; intros Hn H; [destruct H|].
  inversion Hn; subst. destruct H as [H|H].
  - injection H as -> ->. rewrite Nat.eqb_refl. reflexivity.
  - destruct (Nat.eqb_spec k a) as [->|]; auto.
    exfalso. apply H2. change (In (fst (a, v)) (map fst d)). apply in_map; auto.
Qed.
Lemma dkeys_dset_in k v d : In k (dkeys d) -> dkeys (dset k v d) = dkeys d.
Proof.
  induction d as [|[a b] d IH]; cbn [dset dkeys map fst]; intro H; [destruct H|].
  destruct (Nat.eqb_spec k a) as [->|Hne]; [reflexivity|]. cbn [map fst]. f_equal. apply IH.
  destruct H; auto. congruence.
Qed.
Lemma dkeys_dset_new k v d : ~ In k (dkeys d) -> dkeys (dset k v d) = dkeys d ++ [k].
Proof.
  induction d as [|[a b] d IH]; cbn [dset dkeys map fst app]; intro H; auto.
  destruct (Nat.eqb_spec k a) as [->|Hne]; [exfalso; apply H; left; auto|]. cbn [map fst]. f_equal. apply IH.
  intro; apply H; right; auto.
Qed.
Lemma dset_nodup k v d : NoDup (dkeys d) -> NoDup (dkeys (dset k v d)).
Proof.
  intro H. destruct (in_dec Nat.eq_dec k (dkeys d)) as [Hi|Hi].
  - rewrite dkeys_dset_in; auto.
  - rewrite dkeys_dset_new; auto. rewrite <- (rev_involutive (_ ++ [k])), rev_app_distr. apply NoDup_rev. simpl.
    constructor; [rewrite <- in_rev; auto|apply NoDup_rev; auto].
Qed.
Lemma dkeys_ddel k d : dkeys (ddel k d) = filter (fun x => negb (k =? x)) (dkeys d).
Proof.
  unfold ddel, dkeys. induction d as [|[a b] d IH]; cbn [filter map fst]; auto.
  destruct (k =? a); cbn [negb map fst]; rewrite IH; reflexivity.
Qed.
Lemma ddel_nodup k d : NoDup (dkeys d) -> NoDup (dkeys (ddel k d)).
Proof. rewrite dkeys_ddel. apply NoDup_filter. Qed.
Lemma dict_nil d : (forall k, dget k d = None) -> d = [].
Proof. destruct d as [|[a b] d]; auto. intro H. specialize (H a). cbn in H. rewrite Nat.eqb_refl in H. discriminate. Qed.
End Dict.
Arguments dict : clear implicits.
