(** Model of small tools: tools/svmdata.py (reading sparse and raw data), tools/aptativeresampling.py, tools/filehandling.py
    (choosing file names) and tools/kwargsprocessor.py.

    Lines are given already split and their numbers read; values are rationals (reals for the resampler, whose medians are
    arguments); strings are lists of character codes; the order of os.listdir is an argument. *)
From Verif Require Import Base.
From Coq Require Import QArith Reals.
Local Open Scope nat_scope.

(** ** svmdata.py *)
(** 80-89 *)
Fixpoint features (feat : list Q) (nextidx : Z) (l : list (Z * Q)) : list Q :=
  match l with
  | [] => feat
  | (idx, val) :: rest => features (feat ++ repeat 0%Q (Z.to_nat (idx - nextidx)) ++ [val]) (idx + 1) rest
  end.
(** a line: its label and its features; a blank one has neither *)
Definition svmline : Type := option (Q * list (Z * Q)).
Record svm := { sv_nCls : nat; sv_nSamples : nat; sv_hist : list (Q * nat); sv_input : list (list Q); sv_target : list Q }.
(** 9-17 *)
Definition newSvm : svm := {| sv_nCls := 0; sv_nSamples := 0; sv_hist := []; sv_input := []; sv_target := [] |}.
(** 71-95: the rows, the labels and nFeatMax *)
Fixpoint readLines (x : list (list Q)) (y : list Q) (nFeatMax : nat) (l : list svmline) : result (list (list Q) * list Q * nat) :=
  match l with
  | [] => Ok (x, y, nFeatMax)
  | None :: _ => Err IndexError
  | Some (label, fs) :: rest =>
      let feat := features [] 1 fs in
      readLines (x ++ [feat]) (y ++ [label]) (if nFeatMax <? length feat then length feat else nFeatMax) rest
  end.
(** 97-99 *)
Definition padded (n : nat) (xi : list Q) : list Q := xi ++ repeat 0%Q (n - length xi).
(** 41-43: self.classHist[class_] = flat_labels.count(class_) *)
Definition countQ (l : list Q) (c : Q) : nat := length (filter (fun v => Qeq_bool v c) l).
Fixpoint hist_get (h : list (Q * nat)) (c : Q) : option nat := match h with [] => None | (k, n) :: r => if Qeq_bool k c then Some n else hist_get r c end.
Definition hist_set (h : list (Q * nat)) (c : Q) (n : nat) : list (Q * nat) := (c, n) :: filter (fun e => negb (Qeq_bool (fst e) c)) h.
(** 32-43; the fields are replaced, the histogram is added to *)
Definition setDataFields (s : svm) (x : list (list Q)) (y : list Q) : result svm :=
  match x with
  | [] => Err PlainException
  | _ => Ok {| sv_nCls := sv_nCls s; sv_nSamples := sv_nSamples s; sv_hist := fold_left (fun h c => hist_set h c (countQ y c)) y (sv_hist s); sv_input := x; sv_target := y |}
  end.
(** 64-101 *)
Definition loadSVMdata (s : svm) (l : list svmline) : result svm :=
  let! r := readLines [] [] 0 l in
  let '(x, y, n) := r in
  setDataFields {| sv_nCls := sv_nCls s; sv_nSamples := sv_nSamples s + length l; sv_hist := sv_hist s; sv_input := sv_input s; sv_target := sv_target s |} (map (padded n) x) y.
(** 114-117: the first entry that is not zero *)
Fixpoint firstOn (i : nat) (targline : list Z) : option nat := match targline with [] => None | v :: r => if Z.eqb v 0 then firstOn (i + 1) r else Some i end.
(** 110-121: label is a variable of the function, so that of the line before stays; after the last line readline gives '' *)
Fixpoint rawLabels (label : option nat) (targets : list (list Z)) (n : nat) : result (list nat) :=
  match n with
  | 0 => Ok []
  | S k =>
      let label' := match firstOn 0 (hd [] targets) with Some i => Some i | None => label end in
      match label' with
      | None => Err PlainException (* UnboundLocalError *)
      | Some i => let! r := rawLabels label' (tl targets) k in Ok (i :: r)
      end
  end.

(** ** aptativeresampling.py *)
Record resampler := { rs_recents : list (option R); rs_over : R; rs_evals : nat }.
Section Resampler.
  Context (batchsize : nat) (update_factor threshold : R) (max_resampling : option R).
  (** 12-21 *)
  Definition newResampler : resampler := {| rs_recents := repeat None batchsize; rs_over := 1%R; rs_evals := 0 |}.
  (** 35: the recent values that lie strictly between the two *)
  Fixpoint rankChanges (res alt : R) (l : list (option R)) : result nat :=
    match l with
    | [] => Ok 0
    | None :: _ => Err TypeError
    | Some x :: r => let! n := rankChanges res alt r in Ok (if Rlt_dec ((x - res) * (x - alt)) 0 then n + 1 else n)
    end.
  (** 33-41 *)
  Definition adaptResampling (s : resampler) (res alt : R) : result R :=
    let! rc := rankChanges res alt (tl (rs_recents s)) in
    if Rle_dec (threshold * (INR batchsize - 1)) (INR rc) then
      let o := (rs_over s * update_factor)%R in
      match max_resampling with
      | Some m => Ok (if Rlt_dec m o then m else o)
      | None => Ok o
      end
    else if rc =? 0 then Ok (Rmax (rs_over s / update_factor) 1)
    else Ok (rs_over s).
  Definition setAt {A} (l : list A) (i : nat) (x : A) : list A := if i <? length l then firstn i l ++ [x] ++ skipn (S i) l else l.
  (** 23-31; [res] and [alt]: the medians of the first and of the second sample *)
  Definition resample (s : resampler) (res alt : R) : result (R * resampler) :=
    if batchsize =? 0 then Err ZeroDivisionError
    else
      let i := rs_evals s mod batchsize in
      if (i =? 0) && negb (rs_evals s =? 0) then
        let! o := adaptResampling s res alt in
        let r := (1 / 2 * res + 1 / 2 * alt)%R in
        Ok (r, {| rs_recents := setAt (rs_recents s) i (Some r); rs_over := o; rs_evals := rs_evals s + 1 |})
      else Ok (res, {| rs_recents := setAt (rs_recents s) i (Some res); rs_over := rs_over s; rs_evals := rs_evals s + 1 |}).
  (** the calls one after the other *)
  Fixpoint resamples (s : resampler) (l : list (R * R)) : result (list R * resampler) :=
    match l with
    | [] => Ok ([], s)
    | (res, alt) :: rest => let! a := resample s res alt in let! b := resamples (snd a) rest in Ok (fst a :: fst b, snd b)
    end.
End Resampler.

(** ** filehandling.py *)
Definition str : Type := list nat.
Definition str_eqb (a b : str) : bool := if list_eq_dec Nat.eq_dec a b then true else false.
(** f[-n:] and f[:-n]; -0 is 0 *)
Definition from_end (n : nat) (f : str) : str := if n =? 0 then f else skipn (length f - n) f.
Definition until_end (n : nat) (f : str) : str := if n =? 0 then [] else firstn (length f - n) f.
(** 8-16 *)
Definition getAllFilesIn (allfiles : list str) (tag extension : str) : list str :=
  flat_map (fun f => if str_eqb (from_end (length extension) f) extension && str_eqb (firstn (length tag) f) tag then [until_end (length extension) f] else []) allfiles.
(** s.find(rs) >= 0 *)
Fixpoint found (s rs : str) : bool :=
  str_eqb (firstn (length rs) s) rs || match s with [] => false | _ :: s' => found s' rs end.
(** 19-39 *)
Definition selectSome (strings required : list str) (requireAll : bool) : list str :=
  match required with
  | [] => strings
  | _ => filter (fun s => if requireAll then forallb (found s) required else existsb (found s) required) strings
  end.

(** ** kwargsprocessor.py *)
Section Kwargs.
  Context {V : Type}.
  Record kwdsc := { kw_name : str; kw_private : bool; kw_default : option V; kw_mandatory : bool }.
  (** the code of the underscore *)
  Definition underscore : nat := 95.
  Definition attrname (d : kwdsc) : str := if kw_private d then underscore :: kw_name d else kw_name d.
  Definition put_attr (obj : str -> option V) (n : str) (v : V) : str -> option V := fun m => if str_eqb m n then Some v else obj m.
  (** 5-15, 28-47 *)
  Definition kw_add (kwargs : str -> option V) (obj : str -> option V) (d : kwdsc) : result (str -> option V) :=
    if kw_mandatory d && match kw_default d with Some _ => true | None => false end then Err AssertionError
    else match kwargs (kw_name d) with
         | Some v => Ok (put_attr obj (attrname d) v)
         | None => match kw_default d with
                   | Some v => Ok (put_attr obj (attrname d) v)
                   | None => if kw_mandatory d then Err KeyError else Ok obj
                   end
         end.
  Fixpoint kw_process (kwargs obj : str -> option V) (l : list kwdsc) : result (str -> option V) :=
    match l with [] => Ok obj | d :: rest => let! o := kw_add kwargs obj d in kw_process kwargs o rest end.
End Kwargs.
Arguments kwdsc V : clear implicits.
