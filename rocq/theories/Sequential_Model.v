(** Model of pybrain/datasets/sequential.py (class SequentialDataSet).

    The linked fields are a [ds V]; the field 'sequence_index', whose entries are
    row numbers, is kept beside it as a [ds nat] with that single field (in the
    code it is one more, unlinked field of the same dictionary; numpy stores its
    entries as floats, which are used as indices after truncation).
    Sequence numbers given by the caller are non-negative. *)
From Verif Require Import Base Dataset_Model Batches_Model.

Section Sequential.
Context {V : Type} (vzero : V).
Notation row := (row V).
Notation ds := (ds V).

Record sds := mkSDS { body : ds; seqd : Dataset_Model.ds nat; currentSeq : Z }.

Definition seq_label : string := "sequence_index".

(** [ravel(self.getField('sequence_index'))], e.g. sequential.py:42 *)
Definition seqs (s : sds) : list nat :=
  match getField (seqd s) seq_label with
  | Ok rows => concat rows
  | Err _ => []
  end.

(** self._appendUnlinked('sequence_index', n) *)
Definition push_seq (s : sds) (n : nat) : sds :=
  mkSDS (body s) (fst (appendUnlinked 0 (seqd s) seq_label [n])) (currentSeq s).

(** sequential.py:21-26 for the linked fields of [d]; SupervisedDataSet.__init__
    has already built and linked them (see [schema_ops] in Dataset_Spec.v). *)
Definition init (d : ds) : sds :=
  push_seq (mkSDS d (addField empty_ds seq_label 1) 0%Z) 0.

(** sequential.py:28-37 *)
Definition newSequence (s : sds) : sds * result unit :=
  match getLength (body s) with
  | Err e => (s, Err e)
  | Ok length =>
      if length =? 0 then (s, Ok tt)
      else match py_nth (seqs s) (-1)%Z with
           | None => (s, Err IndexError)
           | Some q => if q =? length then (s, Err EmptySequenceError)
                       else (push_seq s length, Ok tt)
           end
  end.

(** SupervisedDataSet.addSample, supervised.py:46-48 *)
Definition addSample (s : sds) (rs : list row) : sds * result unit :=
  let '(d, x) := appendLinked vzero (body s) rs in (mkSDS d (seqd s) (currentSeq s), x).

(** SupervisedDataSet.getSample, supervised.py:50-52 *)
Definition getSample (s : sds) (i : option Z) : sds * result (list row) :=
  let '(d, x) := getLinked (body s) i in (mkSDS d (seqd s) (currentSeq s), x).

(** sequential.py:39-49 *)
Definition getSequenceField (s : sds) (index : nat) (field : string) : result (list row) :=
  let sq := seqs s in
  if length sq =? index + 1 then
    let! rows := getField (body s) field in
    match nth_error sq index with
    | Some a => Ok (skipn a rows)
    | None => Err IndexError
    end
  else if length sq <? index + 1 then Err IndexError
  else let! rows := getField (body s) field in
       match nth_error sq index, nth_error sq (index + 1) with
       | Some a, Some b => Ok (slice a b rows)
       | _, _ => Err IndexError
       end.

Fixpoint mapM {A B} (f : A -> result B) (l : list A) : result (list B) :=
  match l with
  | [] => Ok []
  | x :: t => let! y := f x in let! ys := mapM f t in Ok (y :: ys)
  end.

(** sequential.py:51-56 *)
Definition getSequence (s : sds) (index : nat) : result (list (list row)) :=
  mapM (getSequenceField s index) (links (body s)).

(** Python's zip of several lists: the i-th elements, up to the shortest list. *)
Fixpoint zip_star_n {A} (n : nat) (ls : list (list A)) : list (list A) :=
  match n with
  | 0 => []
  | S k => if existsb (fun l => match l with [] => true | _ => false end) ls then []
           else flat_map (fun l => match l with x :: _ => [x] | [] => [] end) ls
                :: zip_star_n k (map (@tl A) ls)
  end.
Definition zip_star {A} (ls : list (list A)) : list (list A) :=
  match ls with
  | [] => []
  | l :: _ => zip_star_n (length l) ls
  end.

(** sequential.py:58-63 *)
Definition getSequenceIterator (s : sds) (index : nat) : result (list (list row)) :=
  let! cs := getSequence s index in Ok (zip_star cs).

(** sequential.py:65-78 *)
Definition endOfSequence (s : sds) (index : nat) : result bool :=
  let sq := seqs s in
  if length sq =? index + 1 then endOfData (body s)
  else if length sq <? index + 1 then Err IndexError
  else match nth_error sq (index + 1) with
       | Some b => Ok (Z.of_nat b <=? idx (body s))%Z
       | None => Err IndexError
       end.

(** sequential.py:80-85 *)
Definition gotoSequence (s : sds) (index : nat) : sds * result unit :=
  match nth_error (seqs s) index with
  | Some a => (mkSDS (with_idx (body s) (Z.of_nat a)) (seqd s) (currentSeq s), Ok tt)
  | None => (s, Err IndexError)
  end.

(** sequential.py:87-90 *)
Definition getCurrentSequence (s : sds) : Z :=
  let sq := seqs s in
  (Z.of_nat (length sq)
   - Z.of_nat (length (filter (fun q => idx (body s) <? Z.of_nat q)%Z sq)) - 1)%Z.

(** sequential.py:92-95 *)
Definition getNumSequences (s : sds) : nat := length (seqs s).

(** sequential.py:97-108 *)
Definition getSequenceLength (s : sds) (index : nat) : result Z :=
  let sq := seqs s in
  if length sq =? index + 1 then
    let! len := getLength (body s) in
    match nth_error sq index with
    | Some a => Ok (Z.of_nat len - Z.of_nat a)%Z
    | None => Err IndexError
    end
  else if length sq <? index + 1 then Err IndexError
  else match nth_error sq index, nth_error sq (index + 1) with
       | Some a, Some b => Ok (Z.of_nat b - Z.of_nat a)%Z
       | _, _ => Err IndexError
       end.

(** sequential.py:160-163 *)
Definition clear_seq (s : sds) : sds :=
  push_seq (mkSDS (clear (body s) true) (clear (seqd s) true) 0%Z) 0.

(** sequential.py:128-132: cut rows [a..b) out of the buffers of the linked fields. *)
Definition cut_field (a b : nat) (f : field V) : field V :=
  mkField (fdim f) (firstn a (fbuf f) ++ skipn b (fbuf f)) (fmark f - (b - a)).
Definition cut_links (a b : nat) (d : ds) : ds :=
  with_fields d (fold_left (fun fs k => match lookup k fs with
                                        | Some f => set k (cut_field a b f) fs
                                        | None => fs
                                        end) (links d) (fields d)).

(** sequential.py:135-141: shift the later entries, then delete entry [index]. *)
Definition drop_seq (a b index : nat) (f : field nat) : field nat :=
  let shifted := map (fun iv => match iv with
                       (i, r) => if i <? fmark f
                                 then map (fun v => if a <? v then v - (b - a) else v) r
                                 else r end)
                     (combine (seq 0 (length (fbuf f))) (fbuf f)) in
  mkField (fdim f) (firstn index shifted ++ skipn (index + 1) shifted) (fmark f - 1).

(** sequential.py:110-157 *)
Definition removeSequence (s : sds) (index : nat) : sds * result unit :=
  if getNumSequences s <=? index then (s, Err IndexError) else
  let sequences := seqs s in
  match nth_error sequences index, getLength (body s), lookup seq_label (fields (seqd s)) with
  | Some seqstart, Ok len, Some sf =>
      let last := index =? getNumSequences s - 1 in
      let seqend := if last then len
                    else match nth_error sequences (index + 1) with Some b => b | None => len end in
      let d1 := cut_links seqstart seqend (body s) in
      let q1 := with_fields (seqd s) (set seq_label (drop_seq seqstart seqend index sf) (fields (seqd s))) in
      if last then
        match getLength d1 with
        | Ok n => let s1 := mkSDS (with_idx d1 (Z.of_nat n)) q1 (Z.of_nat index - 1)%Z in
                  if n =? 0 then (clear_seq s1, Ok tt) else (s1, Ok tt)
        | Err e => (mkSDS d1 q1 (Z.of_nat index - 1)%Z, Err e)
        end
      else
        let s1 := mkSDS d1 q1 (Z.of_nat index) in
        match nth_error (seqs s1) index with
        | Some a => (mkSDS (with_idx d1 (Z.of_nat a)) q1 (Z.of_nat index), Ok tt)
        | None => (s1, Err IndexError)
        end
  | _, Err e, _ => (s, Err e)
  | _, _, _ => (s, Err KeyError)
  end.

(** sequential.py:165-169, consumed completely *)
Definition iter_seqs (s : sds) : result (list (list (list row))) :=
  mapM (getSequenceIterator s) (seq 0 (getNumSequences s)).

(** The loop body of sequential.py:202-211 for one sequence. *)
Definition add_sequence (s : sds) (smps : list (list row)) : sds * result unit :=
  match newSequence s with
  | (s1, Err e) => (s1, Err e)
  | (s1, Ok _) =>
      fold_left (fun acc sp => match acc with
                               | (s2, Ok _) => addSample s2 sp
                               | (s2, Err e) => (s2, Err e)
                               end) smps (s1, Ok tt)
  end.

(** sequential.py:191-212.  [leftIndices] is the result of random.sample.
    A copied SequentialDataSet shares nothing with the original and is cleared. *)
Definition splitWithProportion_seq (s : sds) (leftIndices : list nat) : result (sds * sds) :=
  let leftDs := clear_seq s in
  let rightDs := leftDs in
  let! all := iter_seqs s in
  let '(_, l, r, x) :=
    fold_left (fun acc sq => match acc with
                 | (index, l, r, Ok _) =>
                     if existsb (Nat.eqb index) leftIndices
                     then let '(l', y) := add_sequence l sq in (S index, l', r, y)
                     else let '(r', y) := add_sequence r sq in (S index, l, r', y)
                 | _ => acc
                 end) all (0, leftDs, rightDs, Ok tt) in
  match x with Ok _ => Ok (l, r) | Err e => Err e end.

(** ** Client sessions *)
Inductive qop :=
| QNew | QAdd (rs : list row) | QRemove (i : nat) | QGoto (i : nat) | QClear
| QNum | QSeqLen (i : nat) | QGetSeq (i : nat) | QIter | QLen | QCurrent | QEndOfSeq (i : nat)
| QSample (i : option nat) | QReset.

Inductive qout :=
| QUnit | QNat (n : nat) | QInt (z : Z) | QBool (b : bool) | QRows (r : list row)
| QCols (r : list (list row)) | QSeqs (r : list (list (list row))) | QErr (e : exn).

Definition qout_of {A} (f : A -> qout) (r : result A) : qout :=
  match r with Ok a => f a | Err e => QErr e end.

Definition qstep (s : sds) (o : qop) : sds * qout :=
  let eff (p : sds * result unit) := (fst p, qout_of (fun _ => QUnit) (snd p)) in
  match o with
  | QNew => eff (newSequence s)
  | QAdd rs => eff (addSample s rs)
  | QRemove i => eff (removeSequence s i)
  | QGoto i => eff (gotoSequence s i)
  | QClear => (clear_seq s, QUnit)
  | QNum => (s, QNat (getNumSequences s))
  | QSeqLen i => (s, qout_of QInt (getSequenceLength s i))
  | QGetSeq i => (s, qout_of QCols (getSequence s i))
  | QIter => (s, qout_of QSeqs (iter_seqs s))
  | QLen => (s, qout_of QNat (getLength (body s)))
  | QCurrent => (s, QInt (getCurrentSequence s))
  | QEndOfSeq i => (s, qout_of QBool (endOfSequence s i))
  | QSample i => let '(s', x) := getSample s (option_map Z.of_nat i) in (s', qout_of QRows x)
  | QReset => (mkSDS (reset (body s)) (seqd s) (currentSeq s), QUnit)
  end.

Fixpoint qrun (s : sds) (os : list qop) : sds * list qout :=
  match os with
  | [] => (s, [])
  | o :: t => let '(s1, x) := qstep s o in
              let '(s2, xs) := qrun s1 t in (s2, x :: xs)
  end.

End Sequential.

Arguments sds V : clear implicits.
Arguments qop V : clear implicits.
Arguments qout V : clear implicits.
