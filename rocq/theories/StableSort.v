(** Python's stable sort (list.sort / sorted with a key) and its specification. *)
From Verif Require Import Base.

Section Sort.
Context {A : Type} (leb : A -> A -> bool).
Fixpoint insert (x : A) (l : list A) : list A :=
  match l with
  | [] => [x]
  | y :: t => if leb x y then x :: y :: t else y :: insert x t
  end.
Definition isort (l : list A) : list A := fold_right insert [] l.

Lemma insert_perm x l : Permutation (insert x l) (x :: l).
Proof.
  induction l as [|y l IH]; simpl; auto. destruct (leb x y); auto.
  rewrite IH. constructor.
Qed.
Lemma isort_perm l : Permutation (isort l) l.
Proof. induction l as [|x l IH]; simpl; auto. rewrite insert_perm. auto. Qed.
Lemma isort_In x l : In x (isort l) <-> In x l.
Proof. split; apply Permutation_in; [|symmetry]; apply isort_perm. Qed.
Lemma isort_length l : length (isort l) = length l.
Proof. apply Permutation_length, isort_perm. Qed.

Definition le x y := leb x y = true.
Context (total : forall x y, leb x y = true \/ leb y x = true).
Context (trans : forall x y z, leb x y = true -> leb y z = true -> leb x z = true).

Lemma insert_sorted x l : StronglySorted le l -> StronglySorted le (insert x l).
Proof.
  induction 1 as [|y l Hs IH Hf]; simpl; [repeat constructor|].
  destruct (leb x y) eqn:E.
  - constructor; [constructor; auto|]. constructor; auto.
    eapply Forall_impl; [|exact Hf]. intros z Hz. eapply trans; eauto.
  - constructor; auto. assert (Hyx : le y x) by (destruct (total x y); [congruence|auto]).
    apply Forall_forall. intros z Hz. apply (Permutation_in _ (insert_perm x l)) in Hz.
    rewrite Forall_forall in Hf. destruct Hz as [<-|Hz]; auto.
Qed.
Lemma isort_sorted l : StronglySorted le (isort l).
Proof. induction l; simpl; [constructor|apply insert_sorted; auto]. Qed.

(** stability: elements that compare equal keep their order *)
Lemma insert_stable x l z : StronglySorted le l ->
  filter (fun y => leb z y && leb y z) (insert x l) = filter (fun y => leb z y && leb y z) (x :: l).
Proof.
  induction 1 as [|y l Hs IH Hf]; [reflexivity|]. cbn [insert].
  destruct (leb x y) eqn:E; [reflexivity|]. cbn [filter] in *.
  destruct (leb z y && leb y z) eqn:Ey; destruct (leb z x && leb x z) eqn:Ex; rewrite IH; auto.
  apply andb_true_iff in Ey, Ex. destruct Ey as [E1 E2], Ex as [E3 E4].
  rewrite (trans x z y) in E; congruence.
Qed.
Lemma isort_stable l z :
  filter (fun y => leb z y && leb y z) (isort l) = filter (fun y => leb z y && leb y z) l.
Proof.
  induction l as [|x l IH]; [reflexivity|]. cbn [isort fold_right].
  rewrite insert_stable by apply isort_sorted. cbn [filter]. fold (isort l). rewrite IH. reflexivity.
Qed.

Lemma sorted_unique l : forall m, (forall x y, In x l -> In y l -> leb x y = true -> leb y x = true -> x = y) ->
  StronglySorted le l -> StronglySorted le m -> Permutation l m -> l = m.
Proof.
  induction l as [|a l IH]; intros m Ha Hl Hm Hp.
  - apply Permutation_nil in Hp. auto.
  - destruct m as [|b m]; [symmetry in Hp; apply Permutation_nil in Hp; discriminate|].
    inversion Hl as [|? ? Hsl Hfl]; inversion Hm as [|? ? Hsm Hfm]; subst.
    rewrite Forall_forall in Hfl, Hfm.
    assert (E : a = b).
    { assert (Hb : In b (a :: l)) by (eapply Permutation_in; [symmetry; exact Hp|left; auto]).
      assert (Hal : In a (b :: m)) by (eapply Permutation_in; [exact Hp|left; auto]).
      destruct Hb as [Hb|Hb]; auto. destruct Hal as [Hal|Hal]; auto.
      apply Ha; simpl; auto. - apply Hfl; auto. - apply Hfm; auto. }
    subst b. f_equal. apply IH; auto.
    + intros; apply Ha; simpl; auto.
    + eapply Permutation_cons_inv; eauto.
Qed.

Lemma isort_canonical l m : Permutation l m ->
  (forall x y, In x l -> In y l -> leb x y = true -> leb y x = true -> x = y) -> isort l = isort m.
Proof.
  intros Hp Ha. apply sorted_unique; try apply isort_sorted.
  - intros x y Hx Hy. apply Ha; apply isort_In; auto.
  - rewrite !isort_perm. auto.
Qed.
Lemma isort_id l : StronglySorted le l -> isort l = l.
Proof.
  induction 1 as [|x l Hs IH Hf]; simpl; auto. rewrite IH. destruct l as [|y l]; auto.
  simpl. inversion Hf as [|? ? Hy]; subst. unfold le in Hy. rewrite Hy. reflexivity.
Qed.
End Sort.

(** sort by a numeric key *)
Definition nat_key_leb {A} (key : A -> nat) (x y : A) : bool := key x <=? key y.
Lemma nat_key_total {A} (key : A -> nat) x y : nat_key_leb key x y = true \/ nat_key_leb key y x = true.
Proof. unfold nat_key_leb. rewrite !Nat.leb_le. lia. Qed.
Lemma nat_key_trans {A} (key : A -> nat) x y z :
  nat_key_leb key x y = true -> nat_key_leb key y z = true -> nat_key_leb key x z = true.
Proof. unfold nat_key_leb. rewrite !Nat.leb_le. lia. Qed.
Definition Z_key_leb {A} (key : A -> Z) (x y : A) : bool := (key x <=? key y)%Z.
Lemma Z_key_total {A} (key : A -> Z) x y : Z_key_leb key x y = true \/ Z_key_leb key y x = true.
Proof. unfold Z_key_leb. rewrite !Z.leb_le. lia. Qed.
Lemma Z_key_trans {A} (key : A -> Z) x y z :
  Z_key_leb key x y = true -> Z_key_leb key y z = true -> Z_key_leb key x z = true.
Proof. unfold Z_key_leb. rewrite !Z.leb_le. lia. Qed.
