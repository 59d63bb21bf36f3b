(** Shared vocabulary: exceptions as values, list helpers.
    Nothing in this file models a particular piece of pybrain; the exception
    constructors name the Python exception classes that the modelled code can
    raise. *)
From Coq Require Export List Arith ZArith Lia Bool Permutation Sorted String.
Export ListNotations.
(* [String] shadows list operations; restore them *)
Notation length := List.length.
Notation concat := List.concat.
Open Scope nat_scope.
Open Scope list_scope.

(** Python exception classes raised by the modelled code. *)
Inductive exn : Type :=
| IndexError | KeyError | ValueError | TypeError | AttributeError
| AssertionError | ZeroDivisionError | NotImplementedError
| OutOfSyncError          (* datasets/dataset.py:13 *)
| NoLinkedFieldsError     (* datasets/dataset.py:16 *)
| EmptySequenceError      (* datasets/sequential.py:11 *)
| NetworkConstructionError (* structure/networks/network.py *)
| PlainException          (* raise Exception(...) *)
| DivergenceError         (* utilities.py, raised by optimizer.py:242 *)
| OutOfFuel               (* the model's loop bound was exhausted; never a Python exception *).

Inductive result (A : Type) : Type :=
| Ok (a : A)
| Err (e : exn).
Arguments Ok {A} a.
Arguments Err {A} e.

Definition rbind {A B} (r : result A) (f : A -> result B) : result B :=
  match r with Ok a => f a | Err e => Err e end.
Notation "'let!' x ':=' r 'in' b" := (rbind r (fun x => b))
  (at level 200, x name, r at level 100, b at level 200, right associativity).

Definition is_ok {A} (r : result A) : bool :=
  match r with Ok _ => true | Err _ => false end.

(** Replace position [n] of [l]; out of range positions leave [l] unchanged. *)
Fixpoint upd {A} (n : nat) (x : A) (l : list A) : list A :=
  match l, n with
  | [], _ => []
  | _ :: t, 0 => x :: t
  | h :: t, S n' => h :: upd n' x t
  end.

(** Python [l[a:b]] for non-negative [a], [b]. *)
Definition slice {A} (a b : nat) (l : list A) : list A := skipn a (firstn b l).

(** Python list/array access with a possibly negative index. *)
Definition py_nth {A} (l : list A) (i : Z) : option A :=
  if (0 <=? i)%Z then nth_error l (Z.to_nat i)
  else if (Z.of_nat (length l) + i <? 0)%Z then None
  else nth_error l (Z.to_nat (Z.of_nat (length l) + i)).

(** ** Lemmas *)

Lemma upd_length {A} n (x : A) l : length (upd n x l) = length l.
Proof. revert n; induction l as [|h t IH]; intros [|n]; simpl; auto. Qed.

Lemma nth_error_upd_eq {A} n (x : A) l :
  n < length l -> nth_error (upd n x l) n = Some x.
Proof.
  revert n; induction l as [|h t IH]; intros [|n] H; simpl in *; try lia; auto.
  apply IH; lia.
Qed.

Lemma nth_error_upd_neq {A} n m (x : A) l :
  n <> m -> nth_error (upd n x l) m = nth_error l m.
Proof.
  revert n m; induction l as [|h t IH]; intros [|n] [|m] H; simpl in *; auto; try lia.
Qed.

Lemma firstn_upd {A} n k (x : A) l :
  k <= n -> firstn k (upd n x l) = firstn k l.
Proof.
  revert n k; induction l as [|h t IH]; intros [|n] [|k] H; simpl; auto; try lia.
  f_equal. apply IH. lia.
Qed.

Lemma firstn_S_upd {A} n (x : A) l :
  n < length l -> firstn (S n) (upd n x l) = firstn n l ++ [x].
Proof.
  revert n; induction l as [|h t IH]; intros [|n] H; simpl in *; try lia; auto.
  f_equal. apply IH. lia.
Qed.

Lemma slice_length {A} a b (l : list A) :
  length (slice a b l) = Nat.min b (length l) - a.
Proof. unfold slice. rewrite skipn_length, firstn_length. lia. Qed.

Lemma nth_error_ext {A} (l l' : list A) :
  (forall i, nth_error l i = nth_error l' i) -> l = l'.
Proof.
  revert l'; induction l as [|h t IH]; intros [|h' t'] H; auto.
  - specialize (H 0); discriminate.
  - specialize (H 0); discriminate.
  - pose proof (H 0) as H0; simpl in H0; inversion H0; subst.
    f_equal. apply IH. intro i. apply (H (S i)).
Qed.

Lemma nth_error_firstn {A} n i (l : list A) :
  i < n -> nth_error (firstn n l) i = nth_error l i.
Proof.
  revert n i; induction l as [|h t IH]; intros [|n] [|i] H; simpl; auto; try lia.
  apply IH; lia.
Qed.

Lemma nth_error_skipn {A} n i (l : list A) :
  nth_error (skipn n l) i = nth_error l (n + i).
Proof.
  revert n; induction l as [|h t IH]; intros [|n]; simpl; auto.
  destruct i; reflexivity.
Qed.

Lemma nth_error_seq a n i : i < n -> nth_error (seq a n) i = Some (a + i).
Proof.
  revert a i; induction n as [|n IH]; intros a [|i] H; simpl; try lia.
  - f_equal; lia.
  - rewrite IH by lia. f_equal; lia.
Qed.

Lemma nth_error_map_some {A B} (f : A -> B) l i x :
  nth_error l i = Some x -> nth_error (map f l) i = Some (f x).
Proof. intro H. rewrite nth_error_map, H. reflexivity. Qed.

Lemma nth_error_repeat_lt {A} (x : A) n i : i < n -> nth_error (repeat x n) i = Some x.
Proof. revert i; induction n; intros [|i] H; simpl; try lia; auto. apply IHn; lia. Qed.

Lemma firstn_firstn_le {A} a b (l : list A) : a <= b -> firstn a (firstn b l) = firstn a l.
Proof. intros H. rewrite firstn_firstn, Nat.min_l; auto. Qed.
