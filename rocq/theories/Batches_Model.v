(** Model of DataSet.batches / randomBatches (dataset.py:331-363),
    DataSet.copy (dataset.py:313-329, supervised.py:40-44) and
    SupervisedDataSet construction and splitting (supervised.py:17-38, 105-118). *)
From Verif Require Import Base Dataset_Model.

Section Batches.
Context {V : Type}.
Notation row := (row V).
Notation ds := (ds V).

(** [indexes[i] for i in permutation], dataset.py:355 (non-negative entries). *)
Fixpoint select {A} (l : list A) (p : list nat) : result (list A) :=
  match p with
  | [] => Ok []
  | i :: t => match nth_error l i with
              | None => Err IndexError
              | Some x => let! xs := select l t in Ok (x :: xs)
              end
  end.

(** (start, stop) pairs, dataset.py:340-351.  zip stops at the shorter list:
    there are [number] starts and [number - 1] + 1 stops. *)
Definition batch_bounds (len n : nat) : list (nat * nat) :=
  let full := len / n in
  let rest := len mod n in
  let number := if rest =? 0 then full else full + 1 in
  combine (map (fun i => i * n) (seq 0 number))
          (map (fun i => (i + 1) * n) (seq 0 (number - 1)) ++ [len]).

(** dataset.py:331-358, the list of all arrays the generator yields.  [n = 0]
    raises in divmod.  The slice is taken from the whole buffer [self.data]. *)
Definition batches (d : ds) (label : string) (n : nat) (perm : option (list nat))
  : result (list (list row)) :=
  let! len := getLength d in
  if n =? 0 then Err ZeroDivisionError else
  let! idxs := match perm with
               | None => Ok (batch_bounds len n)
               | Some p => select (batch_bounds len n) p
               end in
  match idxs with
  | [] => Ok []                      (* the loop body is never entered *)
  | _ => match lookup label (fields d) with
         | None => Err KeyError
         | Some f => Ok (map (fun ab => slice (fst ab) (snd ab) (fbuf f)) idxs)
         end
  end.

(** dataset.py:360-363.  [shuffle] is the random generator's in-place shuffle of
    the list it is given; its return value, None, is what reaches [batches]. *)
Definition randomBatches (shuffle : list nat -> list nat) (d : ds) (label : string) (n : nat)
  : result (list (list row)) :=
  let! len := getLength d in
  let shuffled := shuffle (seq 0 len) in
  let permutation : option (list nat) := None in
  batches d label n permutation.

(** SupervisedDataSet(inp, target) for two arrays, supervised.py:27-34.  The
    dimensions [indim], [outdim] are those of the fields. *)
Definition supervised_of_arrays (indim : nat) (inp : list row) (outdim : nat) (target : list row)
  : result ds :=
  let d := setField (setField empty_ds "input" indim inp) "target" outdim target in
  let! d := linkFields d ["input"; "target"]%string in
  Ok (with_idx d 0%Z).

(** Python's [l[:k]] and [l[k:]] for any integer [k]. *)
Definition py_bound (len : nat) (k : Z) : nat :=
  if (0 <=? k)%Z then Z.to_nat k else Z.to_nat (Z.of_nat len + k).
Definition py_take {A} (k : Z) (l : list A) := firstn (py_bound (length l) k) l.
Definition py_drop {A} (k : Z) (l : list A) := skipn (py_bound (length l) k) l.

(** supervised.py:105-118.  [perm] is what random.permutation(len(self)) returns;
    the proportion is the fraction [num/den]; [int] truncates towards zero. *)
Definition splitWithProportion (d : ds) (perm : list nat) (num : Z) (den : positive)
  : result (ds * ds) :=
  let! len := getLength d in
  let separator := Z.quot (Z.of_nat len * num) (Zpos den) in
  let leftIndicies := py_take separator perm in
  let rightIndicies := py_drop separator perm in
  let! inp := getField d "input" in
  let! tgt := getField d "target" in
  let dim l := match lookup l (fields d) with Some f => fdim f | None => 0 end in
  let! li := select inp leftIndicies in
  let! lt := select tgt leftIndicies in
  let! l := supervised_of_arrays (dim "input"%string) li (dim "target"%string) lt in
  let! ri := select inp rightIndicies in
  let! rt := select tgt rightIndicies in
  let! r := supervised_of_arrays (dim "input"%string) ri (dim "target"%string) rt in
  Ok (l, r).

(** ** Copying *)

(** A data set object with its class (does it inherit SupervisedDataSet.__reduce__?)
    and its vector format, dataset.py:35, 56-78. *)
Inductive cls := PlainDataSet | SupervisedClass.
Inductive vformat := VNone | V1d | V2d | VList.
Record obj := mkObj { ocls : cls; ovf : vformat; obody : ds }.

(** What the class's constructor produces before the state is put in: marker 0,
    format 'none' (dataset.py:25-35; supervised.py:22, 34), then for a plain
    DataSet the creator sets the format (dataset.py:314-317).
    copy.deepcopy then updates the object's dictionary with deep copies of
    data, link and endmarker (dataset.py:319-323), dataset.py:326-329. *)
Definition copy (o : obj) : obj :=
  let vf := match ocls o with PlainDataSet => ovf o | SupervisedClass => VNone end in
  mkObj (ocls o) vf (mkDS (fields (obody o)) (links (obody o)) 0%Z).

End Batches.

Arguments obj V : clear implicits.
