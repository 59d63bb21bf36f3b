(** Model of pybrain/datasets/dataset.py (class DataSet) and of the part of
    pybrain/datasets/supervised.py that adds nothing but fixed field names.

    Simplifications, valid for the whole file:
    - a field is a two-dimensional array; rows are lists of an opaque value type
      [V] ([vzero] is the 0. that numpy puts into fresh rows); element types and
      casts are not modelled;
    - a dictionary is an association list with unique keys;
    - the lists handed to [linkFields] are copied (the code keeps the caller's list);
    - [vectorformat] only changes the presentation of rows, see C12. *)
From Verif Require Import Base.

Section Dataset.
Context {V : Type} (vzero : V).

Notation row := (list V).

(** A field: [data[label]] with all its spare rows and [endmarker[label]].
    dataset.py:26-27, 107-113. *)
Record field := mkField { fdim : nat; fbuf : list row; fmark : nat }.

(** A DataSet.  dataset.py:25-29.  [idx] is [self.index]; an integer, because
    getLinked(-3) sets it to -2. *)
Record ds := mkDS { fields : list (string * field); links : list string; idx : Z }.

Definition empty_ds : ds := mkDS [] [] 0%Z.

Fixpoint lookup {A} (l : string) (fs : list (string * A)) : option A :=
  match fs with
  | [] => None
  | (k, f) :: t => if String.eqb l k then Some f else lookup l t
  end.

(** [d[l] = f]: overwrite in place or insert at the end. *)
Fixpoint set {A} (l : string) (f : A) (fs : list (string * A)) : list (string * A) :=
  match fs with
  | [] => [(l, f)]
  | (k, g) :: t => if String.eqb l k then (k, f) :: t else (k, g) :: set l f t
  end.

Definition with_fields (d : ds) fs := mkDS fs (links d) (idx d).
Definition with_links (d : ds) ls := mkDS (fields d) ls (idx d).
Definition with_idx (d : ds) i := mkDS (fields d) (links d) i.

(** dataset.py:107-113 *)
Definition addField (d : ds) (l : string) (dim : nat) : ds :=
  with_fields d (set l (mkField dim [] 0) (fields d)).

(** dataset.py:115-119; the array has [dim] columns and the rows [rows]. *)
Definition setField (d : ds) (l : string) (dim : nat) (rows : list row) : ds :=
  with_fields d (set l (mkField dim rows (length rows)) (fields d)).

(** dataset.py:240-251 ([__getitem__] is the same, lines 43-45). *)
Definition getField (d : ds) (l : string) : result (list row) :=
  match lookup l (fields d) with
  | Some f => Ok (firstn (fmark f) (fbuf f))
  | None => Err KeyError
  end.

(** The loop of linkFields, dataset.py:125-127. *)
Fixpoint check_links (d : ds) (len : nat) (ls : list string) : result unit :=
  match ls with
  | [] => Ok tt
  | l :: t => let! rows := getField d l in
              if length rows =? len then check_links d len t else Err OutOfSyncError
  end.

(** dataset.py:121-128 *)
Definition linkFields (d : ds) (ls : list string) : result ds :=
  match ls with
  | [] => Err IndexError
  | l :: _ => let! rows := getField d l in
              let! _ := check_links d (length rows) ls in
              Ok (with_links d ls)
  end.

(** Python's list.remove for an element known to be present (first occurrence). *)
Fixpoint remove_first (l : string) (ls : list string) : list string :=
  match ls with
  | [] => []
  | k :: t => if String.eqb l k then t else k :: remove_first l t
  end.

(** dataset.py:130-142.  [link] and [self.link] are the same list object, so
    the membership test sees the removals already made. *)
Definition unlinkFields (d : ds) (ls : option (list string)) : ds :=
  match ls with
  | None => with_links d []
  | Some ls =>
      with_links d (fold_left (fun cur l => if existsb (String.eqb l) cur
                                            then remove_first l cur else cur)
                              ls (links d))
  end.

(** Python's max() of the dictionary keys. *)
Fixpoint max_label (l : string) (fs : list (string * field)) : string :=
  match fs with
  | [] => l
  | (k, _) :: t => max_label (if String.leb k l then l else k) t
  end.

(** dataset.py:158-170 *)
Definition getLength (d : ds) : result nat :=
  match links d with
  | [] => match fields d with
          | [] => Ok 0
          | (k, _) :: t =>
              match lookup (max_label k t) (fields d) with
              | Some f => Ok (fmark f)
              | None => Err KeyError
              end
          end
  | l :: _ => match lookup l (fields d) with
              | Some f => Ok (fmark f)
              | None => Err KeyError
              end
  end.

(** numpy.resize of an array of rows to [n] rows: rows are repeated cyclically,
    an empty array becomes zeros.  Called at dataset.py:188. *)
Definition np_resize (dim n : nat) (b : list row) : list row :=
  match b with
  | [] => repeat (repeat vzero dim) n
  | _ => map (fun i => nth (i mod length b) b []) (seq 0 n)
  end.

(** dataset.py:183-188 *)
Definition resizeField (f : field) : field :=
  mkField (fdim f) (np_resize (fdim f) ((length (fbuf f) + 1) * 2) (fbuf f)) (fmark f).

(** dataset.py:172-181.  An empty label counts as "no label given". *)
Definition resize_labels (d : ds) (l : string) : list string :=
  if negb (String.eqb l "") then [l]
  else match links d with
       | [] => map fst (fields d)
       | ls => ls
       end.

Definition resize_ds (d : ds) (l : string) : ds :=
  with_fields d
    (fold_left (fun fs k => match lookup k fs with
                            | Some f => set k (resizeField f) fs
                            | None => fs
                            end) (resize_labels d l) (fields d)).

(** numpy's broadcasting of [row] into a row of [dim] columns, dataset.py:198. *)
Definition fit (dim : nat) (r : row) : option row :=
  if length r =? dim then Some r
  else match r with
       | [x] => Some (repeat x dim)
       | _ => None
       end.

(** dataset.py:190-199.  The state is returned also when an exception is raised,
    because the buffer may already have been enlarged. *)
Definition appendUnlinked (d : ds) (l : string) (r : row) : ds * result unit :=
  match lookup l (fields d) with
  | None => (d, Err KeyError)
  | Some f0 =>
      let d1 := if length (fbuf f0) <=? fmark f0 then resize_ds d l else d in
      match lookup l (fields d1) with
      | None => (d1, Err KeyError)
      | Some f =>
          if fmark f <? length (fbuf f) then
            match fit (fdim f) r with
            | Some r' =>
                (with_fields d1
                   (set l (mkField (fdim f) (upd (fmark f) r' (fbuf f)) (S (fmark f)))
                        (fields d1)), Ok tt)
            | None => (d1, Err ValueError)
            end
          else (d1, Err IndexError)
      end
  end.

(** dataset.py:201-210 *)
Definition append (d : ds) (l : string) (r : row) : ds * result unit :=
  if existsb (String.eqb l) (links d) then (d, Err OutOfSyncError)
  else appendUnlinked d l r.

(** The loop of appendLinked, dataset.py:215-216. *)
Fixpoint append_all (d : ds) (ls : list string) (rs : list row) : ds * result unit :=
  match ls, rs with
  | l :: ls', r :: rs' =>
      match appendUnlinked d l r with
      | (d', Ok _) => append_all d' ls' rs'
      | (d', Err e) => (d', Err e)
      end
  | _, _ => (d, Ok tt)
  end.

(** dataset.py:212-216 (SupervisedDataSet.addSample, supervised.py:46-48). *)
Definition appendLinked (d : ds) (rs : list row) : ds * result unit :=
  if length rs =? length (links d) then append_all d (links d) rs
  else (d, Err AssertionError).

(** [self.data[l][index] for l in self.link], dataset.py:238. *)
Fixpoint read_links (d : ds) (i : Z) (ls : list string) : result (list row) :=
  match ls with
  | [] => Ok []
  | l :: t => match lookup l (fields d) with
              | None => Err KeyError
              | Some f => match py_nth (fbuf f) i with
                          | None => Err IndexError
                          | Some r => let! rs := read_links d i t in Ok (r :: rs)
                          end
              end
  end.

(** dataset.py:218-238 (SupervisedDataSet.getSample, supervised.py:50-52). *)
Definition getLinked (d : ds) (oi : option Z) : ds * result (list row) :=
  match links d with
  | [] => (d, Err NoLinkedFieldsError)
  | _ =>
      let i := match oi with None => idx d | Some i => i end in
      let d' := with_idx d (i + 1)%Z in
      match getLength d' with
      | Err e => (d', Err e)
      | Ok n => if (Z.of_nat n <=? i)%Z then (d', Err IndexError)
                else (d', read_links d' i (links d'))
      end
  end.

(** dataset.py:261-266, with [conv] the element-wise type conversion. *)
Definition convertField (d : ds) (l : string) (conv : V -> V) : result ds :=
  match lookup l (fields d) with
  | None => Err KeyError
  | Some f => Ok (setField d l (fdim f) (map (map conv) (fbuf f)))
  end.

(** dataset.py:268-270 *)
Definition endOfData (d : ds) : result bool :=
  let! n := getLength d in Ok (idx d =? Z.of_nat n)%Z.

(** dataset.py:272-274 *)
Definition reset (d : ds) : ds := with_idx d 0%Z.

(** The loop of clear, dataset.py:288-293. *)
Definition clear_labels (ls : list string) (fs : list (string * field)) :=
  fold_left (fun fs k => match lookup k fs with
                         | Some f => set k (mkField (fdim f) [] 0) fs
                         | None => fs
                         end) ls fs.

(** dataset.py:276-293.  A linked label that does not exist would raise a
    KeyError; [linkFields] refuses such labels and no call removes a field. *)
Definition clear (d : ds) (unlinked : bool) : ds :=
  let keys := match links d with
              | [] => map fst (fields d)
              | ls => if unlinked then map fst (fields d) else ls
              end in
  mkDS (clear_labels keys (fields d)) (links d) 0%Z.

(** The generator [__iter__], dataset.py:47-50, consumed completely without any
    other call in between.  [fuel] bounds the number of samples produced. *)
Fixpoint iter_loop (fuel : nat) (d : ds) : result (list (list row)) :=
  match fuel with
  | 0 => Err OutOfFuel
  | S k => let! stop := endOfData d in
           if stop then Ok []
           else match getLinked d None with
                | (d', Ok s) => let! ss := iter_loop k d' in Ok (s :: ss)
                | (_, Err e) => Err e
                end
  end.
Definition iter (fuel : nat) (d : ds) : result (list (list row)) :=
  iter_loop fuel (reset d).

(** ** A client session: one call per step. *)
Inductive op :=
| OAddField (l : string) (dim : nat)
| OSetField (l : string) (dim : nat) (rows : list row)
| OLink (ls : list string)
| OUnlink (ls : option (list string))
| OAppend (l : string) (r : row)
| OAppendLinked (rs : list row)
| OGetLinked (i : option Z)
| OGetField (l : string)
| OLen
| OEndOfData
| OReset
| OClear (unlinked : bool).

Inductive out :=
| OutUnit
| OutRows (r : list row)
| OutNat (n : nat)
| OutBool (b : bool)
| OutErr (e : exn).

Definition out_of {A} (f : A -> out) (r : result A) : out :=
  match r with Ok a => f a | Err e => OutErr e end.

Definition step (d : ds) (o : op) : ds * out :=
  match o with
  | OAddField l n => (addField d l n, OutUnit)
  | OSetField l n rows => (setField d l n rows, OutUnit)
  | OLink ls => match linkFields d ls with
                | Ok d' => (d', OutUnit)
                | Err e => (d, OutErr e)
                end
  | OUnlink ls => (unlinkFields d ls, OutUnit)
  | OAppend l r => let '(d', x) := append d l r in (d', out_of (fun _ => OutUnit) x)
  | OAppendLinked rs => let '(d', x) := appendLinked d rs in (d', out_of (fun _ => OutUnit) x)
  | OGetLinked i => let '(d', x) := getLinked d i in (d', out_of OutRows x)
  | OGetField l => (d, out_of OutRows (getField d l))
  | OLen => (d, out_of OutNat (getLength d))
  | OEndOfData => (d, out_of OutBool (endOfData d))
  | OReset => (reset d, OutUnit)
  | OClear u => (clear d u, OutUnit)
  end.

Fixpoint run (d : ds) (os : list op) : ds * list out :=
  match os with
  | [] => (d, [])
  | o :: t => let '(d1, x) := step d o in
              let '(d2, xs) := run d1 t in (d2, x :: xs)
  end.

End Dataset.

Notation row V := (list V) (only parsing).
Arguments field V : clear implicits.
Arguments ds V : clear implicits.
Arguments op V : clear implicits.
Arguments out V : clear implicits.
