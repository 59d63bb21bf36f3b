(** Model of functions of pybrain/utilities.py. *)
From Verif Require Import Base.
From Coq Require Import NArith QArith.
Open Scope nat_scope.

(** ** Gray code *)

(** utilities.py:352-354, for a non-negative argument *)
Definition int2gray (i : N) : N := N.lxor i (N.shiftr i 1).

(** utilities.py:357-367.  The loop runs i = size-1, ..., 0; [bi] is unbound before
    the first round, where it is assigned (i == size - 1). *)
Fixpoint gray_loop (g : N) (size i : nat) (bi res : N) : N :=
  match i with
  | 0 => res
  | S k =>
      let gi := (N.shiftr g (N.of_nat k) mod 2)%N in
      let bi' := if k =? size - 1 then gi else N.lxor bi gi in
      gray_loop g size k bi' (res + bi' * 2 ^ N.of_nat k)%N
  end.
Definition gray2int (g : N) (size : nat) : N := gray_loop g size size 0%N 0%N.

(** ** iterCombinations, utilities.py:78-87 (the list of everything yielded).
    The recursion is on tup[:-1], so it is written on the reversed tuple. *)
Fixpoint iterC_rev (tup : list nat) : list (list nat) :=
  match tup with
  | [] => []
  | [n] => map (fun i => [i]) (seq 0 n)
  | n :: t => flat_map (fun prefix => map (fun i => prefix ++ [i]) (seq 0 n)) (iterC_rev t)
  end.
Definition iterCombinations (tup : list nat) : list (list nat) := iterC_rev (rev tup).

(** ** Triangular matrices.  A matrix is the list of its rows. *)
Section Triu.
Context {V : Type} (vzero : V).

(** numpy's assignment res[i:i+len(vals)] = vals, inside the array *)
Definition splice (i : nat) (vals l : list V) : list V :=
  firstn i l ++ vals ++ skipn (i + length vals) l.

(** The loop of triu2flat, utilities.py:562-564; [row] counts up to dim. *)
Fixpoint triu_loop (m : list (list V)) (dim row n index : nat) (res : list V) : list V :=
  match n with
  | 0 => res
  | S k => triu_loop m dim (S row) k (index + (dim - row))
             (splice index (skipn row (nth row m [])) res)
  end.
(** utilities.py:556-565 for a matrix with dim rows (dim*(dim+1)/2 is an integer). *)
Definition triu2flat (m : list (list V)) : list V :=
  let dim := length m in
  triu_loop m dim 0 dim 0 (repeat vzero (dim * (dim + 1) / 2)).

(** utilities.py:568-575.  Row [row] of the zero matrix gets a[index:index+dim-row]
    from column [row] on; numpy refuses a slice of another length. *)
Fixpoint flat_loop (a : list V) (dim row n index : nat) (res : list (list V)) : result (list (list V)) :=
  match n with
  | 0 => Ok res
  | S k =>
      let vals := slice index (index + (dim - row)) a in
      if length vals =? dim - row then
        flat_loop a dim (S row) k (index + (dim - row))
          (upd row (splice row vals (nth row res [])) res)
      else Err ValueError
  end.
Definition flat2triu (a : list V) (dim : nat) : result (list (list V)) :=
  flat_loop a dim 0 dim 0 (repeat (repeat vzero dim) dim).
End Triu.

(** ** Sets as lists without repetitions *)
Section Sets.
Context {A : Type} (eqb : A -> A -> bool).
Definition mem (x : A) (l : list A) : bool := existsb (eqb x) l.
Definition add_new (l : list A) (x : A) : list A := if mem x l then l else l ++ [x].
(** set.update *)
Definition union (l m : list A) : list A := fold_left add_new m l.
(** set(l) *)
Definition set_of (l : list A) : list A := union [] l.
(** a.intersection(b) *)
Definition inter (l m : list A) : list A := filter (fun x => mem x m) l.
(** a.difference(b) *)
Definition diff (l m : list A) : list A := filter (fun x => negb (mem x m)) l.
(** a.issubset(b) *)
Definition subset (l m : list A) : bool := forallb (fun x => mem x m) l.

(** The while loop of flood, utilities.py:471-481.  [rel]: None, Some (Ok set) or
    Some (Err _) for an empty list passed by the caller, which is not turned into a
    set (line 467) and has no method issubset.  [fuel] bounds the rounds. *)
Fixpoint flood_loop (fuel : nat) (step : A -> list A) (full : option (list A))
    (rel : option (result (list A))) (flooded change : list A) : result (list A) :=
  match fuel with
  | 0 => Err OutOfFuel
  | S n =>
      match change with
      | [] => Ok flooded
      | _ =>
          let new := fold_left (fun acc m => union acc (match full with
                                             | None => step m
                                             | Some f => inter f (step m) end)) change [] in
          let change' := diff new flooded in
          let flooded' := union flooded change' in
          match rel with
          | Some (Err e) => Err e
          | Some (Ok r) => if subset r flooded' then Ok flooded'
                           else flood_loop n step full rel flooded' change'
          | None => flood_loop n step full rel flooded' change'
          end
      end
  end.

(** utilities.py:454-482.  The order of the result is that of a set: irrelevant. *)
Definition flood (fuel : nat) (step : A -> list A) (fullSet : option (list A)) (initSet : list A)
    (relevant : option (list A)) : result (list A) :=
  let flooded := match fullSet with
                 | None => set_of initSet
                 | Some f => inter (set_of f) (set_of initSet) end in
  let rel := match relevant with
             | None => match fullSet with None => None | Some f => Some (Ok (set_of f)) end
             | Some [] => Some (Err AttributeError)
             | Some r => Some (Ok (set_of r)) end in
  flood_loop fuel step (option_map set_of fullSet) rel flooded flooded.
End Sets.

(** ** Drawing an index *)

Definition Qsum (l : list Q) : Q := fold_right Qplus 0%Q l.

(** The loop of drawIndex, utilities.py:47-50. *)
Fixpoint draw_loop (i : nat) (s r : Q) (probs : list Q) : option nat :=
  match probs with
  | [] => None
  | p :: t => let s' := (s + p)%Q in
              if negb (Qle_bool s' r) then Some i else draw_loop (S i) s' r t
  end.

(** utilities.py:35-51.  [r] is the value of random(), [c] the index drawn by
    choice.  Probabilities are exact rationals. *)
Definition drawIndex (probs : list Q) (tolerant : bool) (r : Q) (c : nat) : result nat :=
  let s := Qsum probs in
  let ok := negb (Qle_bool (100001 # 100000) s) && negb (Qle_bool s (99999 # 100000)) in
  let! probs' := (if ok then Ok probs
                  else if tolerant then
                    if Qeq_bool s 0 then Err ZeroDivisionError
                    else Ok (map (fun p => p / s)%Q probs)
                  else Err ValueError) in
  match draw_loop 0 0%Q r probs' with
  | Some i => Ok i
  | None => match probs' with [] => Err IndexError | _ => Ok c end
  end.

(** utilities.py:693-696, for integer values; max of an empty list raises. *)
Definition all_argmax (x : list Z) : result (list nat) :=
  match x with
  | [] => Err ValueError
  | v :: t => let m := fold_left Z.max t v in
              Ok (map fst (filter (fun iv => (snd iv =? m)%Z) (combine (seq 0 (length x)) x)))
  end.

(** utilities.py:683-690; [c] is the position drawn by choice in the list of maxima. *)
Definition r_argmax (v : list Z) (c : nat) : result nat :=
  if length v =? 1 then Ok 0
  else let! l := all_argmax v in
       match nth_error l c with Some i => Ok i | None => Err IndexError end.

(** utilities.py:484-493 *)
Fixpoint crossproduct {A} (ss : list (list A)) (row : list A) : result (list (list A)) :=
  match ss with
  | [] => Err IndexError
  | [s] => Ok (map (fun i => row ++ [i]) s)
  | s :: t =>
      match s with
      | [] => Err TypeError               (* reduce() of an empty sequence *)
      | _ => fold_left (fun acc i => let! l := acc in
                                     let! r := crossproduct t (row ++ [i]) in Ok (l ++ r)) s (Ok [])
      end
  end.

(** utilities.py:496-503, non-negative indices *)
Definition permute {A} (arr : list A) (permutation : list nat) : result (list A) :=
  fold_right (fun i acc => let! l := acc in
                match nth_error arr i with Some x => Ok (x :: l) | None => Err IndexError end)
             (Ok []) permutation.
