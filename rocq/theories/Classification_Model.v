(** Model of pybrain/datasets/classification.py (class ClassificationDataSet) and
    of pybrain/tools/datasettools.py:11-42.  Values are integers: the class labels
    are, and nothing below computes with the inputs. *)
From Verif Require Import Base Dataset_Model Batches_Model Sequential_Model.

(** The dataset and the attribute nClasses.  The attribute outdim always equals the
    number of columns of 'target' (supervised.py:54-63). *)
Record cds := mkC { cb : ds Z; nClasses : Z }.

Definition dimension (d : ds Z) (l : string) : result nat :=
  match lookup l (fields d) with Some f => Ok (fdim f) | None => Err KeyError end.

(** classification.py:12-33 for [inp] and [target] given as arrays with [n] and [m]
    columns (class_labels, a list of names, is not modelled). *)
Definition classification_of_arrays (n m : nat) (inp tgt : list (list Z)) (nb : Z) : result cds :=
  let d0 := setField (setField empty_ds "input" n inp) "target" m tgt in
  let! d1 := linkFields d0 ["input"; "target"]%string in
  let d2 := addField d1 "class" 1 in
  let! d3 := convertField d2 "target" (fun z => z) in
  let! t := getField d3 "target" in
  let! m' := dimension d3 "target" in
  Ok (mkC (setField d3 "class" m' t) nb).

(** classification.py:100-112.  Only [self] is changed, and only if nothing is raised. *)
Definition assignClasses (c : cds) : result cds :=
  let! cl := getField (cb c) "class" in
  let! tg := getField (cb c) "target" in
  let! od := dimension (cb c) "target" in
  let! d := (if length cl <? length tg
             then if 1 <? od then Err IndexError else Ok (setField (cb c) "class" od tg)
             else Ok (cb c)) in
  if (nClasses c <=? 0)%Z then
    let! cl' := getField d "class" in
    Ok (mkC d (Z.of_nat (length (nodup Z.eq_dec (concat cl')))))
  else Ok (mkC d (nClasses c)).

(** classification.py:114-121; the second component is classHist, indexed by class. *)
Definition calculateStatistics (c : cds) : result (cds * list nat) :=
  let! c1 := assignClasses c in
  let! cl := getField (cb c1) "class" in
  Ok (c1, map (fun k => length (filter (Z.eqb (Z.of_nat k)) (concat cl)))
              (seq 0 (Z.to_nat (nClasses c1)))).

(** newtarg[i, int(oldtarg[i])] = bounds[1], classification.py:143-144; a negative
    column index counts from the end. *)
Definition encode (n : nat) (lo hi : Z) (old : list Z) : result (list Z) :=
  match old with
  | [t] => let j := (if t <? 0 then t + Z.of_nat n else t)%Z in
           if (0 <=? j)%Z && (j <? Z.of_nat n)%Z
           then Ok (upd (Z.to_nat j) hi (repeat lo n)) else Err IndexError
  | _ => Err TypeError
  end.

(** classification.py:130-148 *)
Definition convertToOneOfMany (c : cds) (lo hi : Z) : cds * result unit :=
  match dimension (cb c) "target" with
  | Err e => (c, Err e)
  | Ok od =>
      if negb (od =? 1) then (c, Ok tt) else
      let r := if (nClasses c <=? 0)%Z
               then (let! p := calculateStatistics c in Ok (fst p)) else Ok c in
      match r with
      | Err e => (c, Err e)
      | Ok c1 =>
          match getField (cb c1) "target", getLength (cb c1) with
          | Ok old, Ok len =>
              if length old <? len then (c1, Err IndexError) else
              match mapM (encode (Z.to_nat (nClasses c1)) lo hi) (firstn len old) with
              | Err e => (c1, Err e)
              | Ok new =>
                  (mkC (setField (setField (cb c1) "target" (Z.to_nat (nClasses c1)) new)
                                 "class" od old) (nClasses c1), Ok tt)
              end
          | Err e, _ => (c1, Err e)
          | _, Err e => (c1, Err e)
          end
      end
  end.

(** classification.py:150-154 *)
Definition convertToClassNb (c : cds) : result cds :=
  let! cl := getField (cb c) "class" in
  let! d := dimension (cb c) "class" in
  Ok (mkC (setField (cb c) "target" d cl) (nClasses c)).

(** SupervisedDataSet.addSample, supervised.py:46-48 *)
Definition addSampleC (c : cds) (rs : list (list Z)) : cds * result unit :=
  let '(d, x) := appendLinked 0%Z (cb c) rs in (mkC d (nClasses c), x).

(** where(self['class'] == cls) resp. != for a column of classes,
    classification.py:166-167; a class array with several columns would give one
    index per matching column, which is not modelled. *)
Definition where_class (p : Z -> bool) (cl : list (list Z)) : list nat :=
  flat_map (fun ir => match snd ir with
                      | [z] => if p z then [fst ir] else []
                      | _ => []
                      end) (combine (seq 0 (length cl)) cl).

(** The loop of classification.py:177-181 for one of the two results. *)
Fixpoint split_fields (src : ds Z) (ix : list nat) (ls : list string) (dst : ds Z) : result (ds Z) :=
  match ls with
  | [] => Ok dst
  | l :: t =>
      match lookup l (fields src) with
      | None => split_fields src ix t dst         (* hasField fails: not in splitThis *)
      | Some f =>
          let! rows := getField src l in
          let! sel := select rows ix in
          split_fields src ix t (setField dst l (fdim f) sel)
      end
  end.

Definition split_labels : list string := ["input"; "target"; "class"; "importance"; "aux"]%string.

(** classification.py:162-184 *)
Definition splitByClass (c : cds) (cls : Z) : result (cds * cds) :=
  let! cl := getField (cb c) "class" in
  let left := where_class (fun z => z =? cls)%Z cl in
  let right := where_class (fun z => negb (z =? cls))%Z cl in
  let blank := clear (cb c) false in
  let! l := split_fields (cb c) left split_labels blank in
  let! r := split_fields (cb c) right split_labels blank in
  let! lc := assignClasses (mkC l (nClasses c)) in
  let! rc := assignClasses (mkC r (nClasses c)) in
  Ok (lc, rc).

(** ** datasettools.py *)

(** The windows of one sequence, datasettools.py:31-34: [k] runs over
    range(winsize, length, winsize).  [fuel] is at least the number of windows. *)
Fixpoint windows_from (fuel k w : nat) (inp tgt : list (list Z)) : result (list (list (list Z))) :=
  match fuel with
  | 0 => Err OutOfFuel
  | S n =>
      if length inp <=? k then Ok []
      else match nth_error tgt (k - 1) with
           | None => Err IndexError
           | Some t => let! rest := windows_from n (k + w) w inp tgt in
                       Ok ([concat (slice (k - w) k inp); t] :: rest)
           end
  end.

(** datasettools.py:11-42 for NewClass = SupervisedDataSet; the samples are added to
    the new dataset in the order of the result.  [w] is a positive int. *)
Definition timeWindows (s : sds Z) (w : nat) : result (ds Z) :=
  if w =? 0 then Err ValueError else
  let! indim := dimension (body s) "input" in
  let! outdim := dimension (body s) "target" in
  let! inp := getField (body s) "input" in
  let! tgt := getField (body s) "target" in
  let! mark := match lookup seq_label (fields (seqd s)) with
               | Some f => Ok (fmark f) | None => Err KeyError end in
  let si := seqs s ++ [mark] in
  let! d0 := linkFields (addField (addField empty_ds "input" (indim * w)) "target" outdim)
                        ["input"; "target"]%string in
  let! wins := mapM (fun i => match nth_error si i, nth_error si (i + 1) with
                              | Some a, Some b => windows_from (S (length inp)) w w (slice a b inp) (slice a b tgt)
                              | _, _ => Err IndexError
                              end) (seq 0 (getNumSequences s)) in
  let '(d, x) := fold_left (fun acc smp => match acc with
                              | (d, Ok _) => appendLinked 0%Z d smp
                              | (d, Err e) => (d, Err e)
                              end) (concat wins) (d0, Ok tt) in
  match x with Ok _ => Ok d | Err e => Err e end.
