(** Specification of SequentialDataSet: a list of sequences of samples plus a
    marker counting samples from the very beginning. *)
From Verif Require Import Base Dataset_Model Dataset_Spec Sequential_Model.

Section Spec.
Context {V : Type}.
Notation row := (row V).
Notation sample := (list row).

Definition total (ss : list (list sample)) : nat := length (concat ss).

(** number of samples before sequence [i] *)
Definition before (ss : list (list sample)) (i : nat) : nat := length (concat (firstn i ss)).

(** the sequence in which position [pos] lies (the last one if past the end) *)
Fixpoint seq_at (ss : list (list sample)) (pos : nat) : nat :=
  match ss with
  | [] | [_] => 0
  | s :: t => if pos <? length s then 0 else S (seq_at t (pos - length s))
  end.

Fixpoint add_to_last (ss : list (list sample)) (smp : sample) : list (list sample) :=
  match ss with
  | [] => [[smp]]
  | [s] => [s ++ [smp]]
  | s :: t => s :: add_to_last t smp
  end.

Definition remove_nth {A} (i : nat) (l : list A) : list A := firstn i l ++ skipn (S i) l.

(** the columns of a sequence, one per field *)
Definition columns (width : nat) (sq : list sample) : list (list row) :=
  map (fun j => map (fun smp => nth j smp []) sq) (seq 0 width).

Definition aqstep (sch : list (string * nat)) (st : list (list sample) * nat) (o : qop V)
  : (list (list sample) * nat) * qout V :=
  let '(ss, pos) := st in
  match o with
  | QNew => if total ss =? 0 then (st, QUnit)
            else match rev ss with
                 | [] :: _ => (st, QErr EmptySequenceError)
                 | _ => ((ss ++ [[]], pos), QUnit)
                 end
  | QAdd rs => if length rs =? length sch then
                 match fit_all sch rs with
                 | Some smp => ((add_to_last ss smp, pos), QUnit)
                 | None => (st, QErr ValueError)
                 end
               else (st, QErr AssertionError)
  | QRemove i =>
      if length ss <=? i then (st, QErr IndexError)
      else let ss' := remove_nth i ss in
           match ss' with
           | [] => (([[]], 0), QUnit)
           | _ => ((ss', if S i =? length ss then total ss' else before ss' i), QUnit)
           end
  | QGoto i => if i <? length ss then ((ss, before ss i), QUnit) else (st, QErr IndexError)
  | QClear => (([[]], 0), QUnit)
  | QNum => (st, QNat (length ss))
  | QSeqLen i => (st, match nth_error ss i with
                      | Some sq => QInt (Z.of_nat (length sq)) | None => QErr IndexError end)
  | QGetSeq i => (st, match nth_error ss i with
                      | Some sq => QCols (columns (length sch) sq) | None => QErr IndexError end)
  | QIter => (st, QSeqs ss)
  | QLen => (st, QNat (total ss))
  | QCurrent => (st, QInt (Z.of_nat (seq_at ss pos)))
  | QEndOfSeq i => (st, if length ss <=? i then QErr IndexError
                        else if S i =? length ss then QBool (pos =? total ss)
                        else QBool (before ss (S i) <=? pos))
  | QSample oi => let i := match oi with None => pos | Some i => i end in
                  ((ss, S i), match nth_error (concat ss) i with
                              | Some smp => QRows smp | None => QErr IndexError end)
  | QReset => ((ss, 0), QUnit)
  end.

Fixpoint aqrun (sch : list (string * nat)) (st : list (list sample) * nat) (os : list (qop V))
  : (list (list sample) * nat) * list (qout V) :=
  match os with
  | [] => (st, [])
  | o :: t => let '(s1, x) := aqstep sch st o in
              let '(s2, xs) := aqrun sch s1 t in (s2, x :: xs)
  end.

(** Samples that are refused are refused by their first field (see C02). *)
Definition qclean (sch : list (string * nat)) (o : qop V) : Prop :=
  match o with QAdd rs => clean sch (SAdd rs) | _ => True end.

(** elements of [l] at the positions satisfying [p], counting from [k] *)
Fixpoint choose {A} (p : nat -> bool) (k : nat) (l : list A) : list A :=
  match l with
  | [] => []
  | x :: t => if p k then x :: choose p (S k) t else choose p (S k) t
  end.

(** a data set without samples still has one, empty, sequence *)
Definition or_one (ss : list (list sample)) := match ss with [] => [[]] | _ => ss end.

End Spec.
