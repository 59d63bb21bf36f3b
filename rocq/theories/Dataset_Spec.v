(** Specification of a data set without buffers: a field is its list of rows.
    This is what the documentation of DataSet describes; it shares no helper
    with the model except the association-list access and the row-fitting rule
    of numpy ([fit]: same width, or a single value that is broadcast). *)
From Verif Require Import Base Dataset_Model.

Section Spec.
Context {V : Type}.
Notation row := (row V).

(** label -> (number of columns, rows) *)
Record pds := mkP { pfields : list (string * (nat * list row));
                    plinks : list string; pidx : Z }.
Definition pempty : pds := mkP [] [] 0%Z.

Definition prows (p : pds) (l : string) : option (list row) :=
  option_map snd (lookup l (pfields p)).

Definition padd1 (fs : list (string * (nat * list row))) (l : string) (r : row)
  : result (list (string * (nat * list row))) :=
  match lookup l fs with
  | None => Err KeyError
  | Some (n, rows) => match fit n r with
                      | Some r' => Ok (set l (n, rows ++ [r']) fs)
                      | None => Err ValueError
                      end
  end.

(** Append one row to each label, left to right; stops at the first refusal and
    keeps what was appended before it. *)
Fixpoint padd (fs : list (string * (nat * list row))) (ls : list string) (rs : list row)
  : list (string * (nat * list row)) * result unit :=
  match ls, rs with
  | l :: ls', r :: rs' => match padd1 fs l r with
                          | Ok fs' => padd fs' ls' rs'
                          | Err e => (fs, Err e)
                          end
  | _, _ => (fs, Ok tt)
  end.

(** length of the first linked field, or, without links, of the field with the
    greatest label (the documented "longest field" is C03). *)
Definition plen (p : pds) : result nat :=
  match plinks p with
  | l :: _ => match prows p l with Some rs => Ok (length rs) | None => Err KeyError end
  | [] => match pfields p with
          | [] => Ok 0
          | (k, _) :: t =>
              match prows p (fold_left (fun m kf => if String.leb (fst kf) m then m else fst kf) t k) with
              | Some rs => Ok (length rs)
              | None => Err KeyError
              end
          end
  end.

(** the rows with number [i] of the given fields *)
Fixpoint pick (p : pds) (i : nat) (ls : list string) : option (list row) :=
  match ls with
  | [] => Some []
  | l :: t => match prows p l with
              | None => None
              | Some rows => match nth_error rows i, pick p i t with
                             | Some r, Some rs => Some (r :: rs)
                             | _, _ => None
                             end
              end
  end.

(** zero rows for the given labels *)
Definition pclear (ls : list string) (fs : list (string * (nat * list row))) :=
  map (fun kf => if existsb (String.eqb (fst kf)) ls then (fst kf, (fst (snd kf), [])) else kf) fs.

Definition pstep (p : pds) (o : op V) : pds * out V :=
  match o with
  | OAddField l n => (mkP (set l (n, []) (pfields p)) (plinks p) (pidx p), OutUnit)
  | OSetField l n rows => (mkP (set l (n, rows) (pfields p)) (plinks p) (pidx p), OutUnit)
  | OLink [] => (p, OutErr IndexError)
  | OLink (l :: ls) =>
      match prows p l with
      | None => (p, OutErr KeyError)
      | Some r0 =>
          (fix go (ks : list string) :=
             match ks with
             | [] => (mkP (pfields p) (l :: ls) (pidx p), OutUnit)
             | k :: t => match prows p k with
                         | None => (p, OutErr KeyError)
                         | Some r => if length r =? length r0 then go t
                                     else (p, OutErr OutOfSyncError)
                         end
             end) ls
      end
  | OUnlink None => (mkP (pfields p) [] (pidx p), OutUnit)
  | OUnlink (Some ls) =>
      (mkP (pfields p) (fold_left (fun cur l => remove_first l cur) ls (plinks p)) (pidx p), OutUnit)
  | OAppend l r =>
      if existsb (String.eqb l) (plinks p) then (p, OutErr OutOfSyncError)
      else match padd1 (pfields p) l r with
           | Ok fs => (mkP fs (plinks p) (pidx p), OutUnit)
           | Err e => (p, OutErr e)
           end
  | OAppendLinked rs =>
      if length rs =? length (plinks p) then
        let '(fs, x) := padd (pfields p) (plinks p) rs in
        (mkP fs (plinks p) (pidx p), match x with Ok _ => OutUnit | Err e => OutErr e end)
      else (p, OutErr AssertionError)
  | OGetLinked oi =>
      match plinks p with
      | [] => (p, OutErr NoLinkedFieldsError)
      | _ =>
          let i := match oi with None => pidx p | Some i => i end in
          (mkP (pfields p) (plinks p) (i + 1)%Z,
           match pick p (Z.to_nat i) (plinks p) with
           | Some rs => OutRows rs
           | None => OutErr IndexError
           end)
      end
  | OGetField l => (p, match prows p l with Some r => OutRows r | None => OutErr KeyError end)
  | OLen => (p, match plen p with Ok n => OutNat n | Err e => OutErr e end)
  | OEndOfData => (p, match plen p with
                      | Ok n => OutBool (pidx p =? Z.of_nat n)%Z
                      | Err e => OutErr e end)
  | OReset => (mkP (pfields p) (plinks p) 0%Z, OutUnit)
  | OClear u =>
      (mkP (pclear (match plinks p with [] => map fst (pfields p)
                    | ls => if u then map fst (pfields p) else ls end) (pfields p))
           (plinks p) 0%Z, OutUnit)
  end.

Fixpoint prun (p : pds) (os : list (op V)) : pds * list (out V) :=
  match os with
  | [] => (p, [])
  | o :: t => let '(p1, x) := pstep p o in
              let '(p2, xs) := prun p1 t in (p2, x :: xs)
  end.

(** All linked fields exist and have the same number of rows. *)
Definition synced (p : pds) : Prop :=
  exists n, forall l, In l (plinks p) -> exists rows, prows p l = Some rows /\ length rows = n.

(** A call is in the domain of the specification: labels are not empty strings,
    and samples are only read while the linked fields have equal lengths and at
    a non-negative position (see C01_negative_index_refuted). *)
Definition op_ok (p : pds) (o : op V) : Prop :=
  match o with
  | OAddField l _ | OSetField l _ _ => l <> ""%string
  | OGetLinked oi => synced p /\ (0 <= match oi with None => pidx p | Some i => i end)%Z
  | _ => True
  end.

Fixpoint session_ok (p : pds) (os : list (op V)) : Prop :=
  match os with
  | [] => True
  | o :: t => op_ok p o /\ session_ok (fst (pstep p o)) t
  end.

(** ** Second layer: a dataset whose linked fields are fixed is a list of samples. *)

(** Sessions on a dataset with a fixed link list. *)
Inductive sop :=
| SAdd (rs : list row)            (* appendLinked / addSample *)
| SGet (i : option nat)           (* getLinked / getSample *)
| SField (l : string)
| SLen | SEnd | SReset
| SClear.

Definition sop_op (o : sop) : op V :=
  match o with
  | SAdd rs => OAppendLinked rs
  | SGet None => OGetLinked None
  | SGet (Some i) => OGetLinked (Some (Z.of_nat i))
  | SField l => OGetField l
  | SLen => OLen
  | SEnd => OEndOfData
  | SReset => OReset
  | SClear => OClear false
  end.

(** Position of a label in the schema. *)
Fixpoint index_of (l : string) (sch : list (string * nat)) : option nat :=
  match sch with
  | [] => None
  | (k, _) :: t => if String.eqb l k then Some 0 else option_map S (index_of l t)
  end.

(** Fit every row of a sample; [None] if some row does not fit. *)
Fixpoint fit_all (sch : list (string * nat)) (rs : list row) : option (list row) :=
  match sch, rs with
  | [], [] => Some []
  | (_, n) :: sch', r :: rs' =>
      match fit n r, fit_all sch' rs' with
      | Some r', Some t => Some (r' :: t)
      | _, _ => None
      end
  | _, _ => None
  end.

(** The abstract machine: samples in order of insertion and a read marker. *)
Definition sstep (sch : list (string * nat)) (s : list (list row) * nat) (o : sop)
  : (list (list row) * nat) * out V :=
  let '(samples, pos) := s in
  match o with
  | SAdd rs => if length rs =? length sch then
                 match fit_all sch rs with
                 | Some rs' => ((samples ++ [rs'], pos), OutUnit)
                 | None => ((samples, pos), OutErr ValueError)
                 end
               else ((samples, pos), OutErr AssertionError)
  | SGet oi => let i := match oi with None => pos | Some i => i end in
               ((samples, S i), match nth_error samples i with
                                | Some smp => OutRows smp
                                | None => OutErr IndexError end)
  | SField l => (s, match index_of l sch with
                    | Some k => OutRows (map (fun smp => nth k smp []) samples)
                    | None => OutErr KeyError end)
  | SLen => (s, OutNat (length samples))
  | SEnd => (s, OutBool (pos =? length samples))
  | SReset => ((samples, 0), OutUnit)
  | SClear => (([], 0), OutUnit)
  end.

Fixpoint srun (sch : list (string * nat)) (s : list (list row) * nat) (os : list sop)
  : (list (list row) * nat) * list (out V) :=
  match os with
  | [] => (s, [])
  | o :: t => let '(s1, x) := sstep sch s o in
              let '(s2, xs) := srun sch s1 t in (s2, x :: xs)
  end.

(** A sample is refused as a whole or not at all: its first row is the one that
    does not fit, or the number of rows is wrong, or everything fits (C02). *)
Definition clean (sch : list (string * nat)) (o : sop) : Prop :=
  match o with
  | SAdd rs => length rs <> length sch \/ fit_all sch rs <> None \/
               (match sch, rs with (_, n) :: _, r :: _ => fit n r = None | _, _ => False end)
  | _ => True
  end.

(** The dataset with the given fields, all linked, as SupervisedDataSet.__init__
    builds it for scalar dimensions (supervised.py:23-34). *)
Definition schema_ops (sch : list (string * nat)) : list (op V) :=
  map (fun kn => OAddField (fst kn) (snd kn)) sch ++ [OLink (map fst sch)].

End Spec.

Arguments pds V : clear implicits.
Arguments sop V : clear implicits.
