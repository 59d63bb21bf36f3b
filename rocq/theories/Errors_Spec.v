(** What the error measures ought to be: the (importance weighted) squared errors of the outputs of a module
    that was reset before every sequence, summed over all components of all targets. *)
From Coq Require Import QArith.
From Verif Require Import Base Dataset_Model Dataset_Spec Sequential_Model Sequential_Spec.
Local Open Scope Q_scope.
Notation qrow := (list Q).
Notation qsample := (list (list Q)).

Definition total {A} (f : A -> Q) (l : list A) : Q := fold_right (fun a s => f a + s) 0 l.

Definition s_input (smp : qsample) : qrow := nth 0 smp [].
Definition s_target (smp : qsample) : qrow := nth 1 smp [].
Definition s_weight (imp : bool) (smp : qsample) (i : nat) : Q := if imp then nth i (nth 2 smp []) 0 else 1.

Section Spec.
Context {M : Type} (mreset : M -> M) (activate : M -> qrow -> M * qrow) (imp : bool) (outdim : nat).
(** the outputs of a module fed with inputs one after the other *)
Fixpoint outputs (m : M) (xs : list qrow) : list qrow :=
  match xs with [] => [] | x :: r => snd (activate m x) :: outputs (fst (activate m x)) r end.
Definition answers (m : M) (sq : list qsample) : list qrow := outputs (mreset m) (map s_input sq).

Definition sample_error (p : qsample * qrow) : Q :=
  total (fun i => s_weight imp (fst p) i * (nth i (s_target (fst p)) 0 - nth i (snd p) 0) ^ 2) (seq 0 outdim).
Definition sample_weight (smp : qsample) : Q := total (s_weight imp smp) (seq 0 outdim).
Definition total_error (m : M) (ss : list (list qsample)) : Q :=
  total (fun sq => total sample_error (combine sq (answers m sq))) ss.
Definition total_weight (ss : list (list qsample)) : Q := total (total sample_weight) ss.

(** a reset makes the module forget; a module without memory has nothing to forget *)
Definition resettable : Prop := forall m m' xs, outputs (mreset m) xs = outputs (mreset m') xs.
Definition memoryless : Prop := forall m m' x, snd (activate m x) = snd (activate m' x).
Definition out_ok : Prop := forall m x, length (snd (activate m x)) = outdim.
End Spec.

(** a dataset after any session of its methods, and the sequences in it *)
Definition schema (imp : bool) (indim outdim : nat) : list (string * nat) :=
  [("input", indim); ("target", outdim)]%string ++ if imp then [("importance"%string, outdim)] else [].
Definition built (imp : bool) (indim outdim : nat) (s : sds Q) (ss : list (list qsample)) : Prop :=
  exists os, Forall (Sequential_Spec.qclean (schema imp indim outdim)) os /\
    s = fst (qrun 0 (init (fst (run 0 empty_ds (schema_ops (schema imp indim outdim))))) os) /\ iter_seqs s = Ok ss.

(** the first of the largest entries *)
Definition winner (l : list Q) (k : nat) : Prop :=
  (k < length l)%nat /\ (forall j, (j < length l)%nat -> nth j l 0 <= nth k l 0) /\ forall j, (j < k)%nat -> nth j l 0 < nth k l 0.
(** the position of the last sample of sequence i, counted over all sequences *)
Definition end_of (ss : list (list qsample)) (i : nat) : Z := (Z.of_nat (length (concat (firstn (S i) ss))) - 1)%Z.
(** the component-wise sum of some rows *)
Definition column_sums (outdim : nat) (ys : list qrow) : qrow := map (fun i => total (fun y => nth i y 0) ys) (seq 0 outdim).
