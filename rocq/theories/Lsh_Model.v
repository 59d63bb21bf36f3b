(** Model of locality sensitive hashing (supervised/knn/lsh/minhash.py and nearoptimal.py).

    Arrays handed to MinHash are lists of integers, stored ones lists of booleans.  Coordinates in MultiDimHash are exact rationals; the side
    length of the cubes, the squared radius, the balls of the grid and the projection, which __init__ computes with square roots,
    logarithms and random numbers, are parameters.  Logging and the C version of the search for a ball are left out. *)
From Verif Require Import Base StableSort.
From Coq Require Import QArith Qround.
Local Open Scope nat_scope.

(** defaultdict(lambda: []) : looking up a missing key gives the empty list *)
Section Table.
Context {K V : Type} (eqb : K -> K -> bool).
Definition table := list (K * list V).
Fixpoint tget (h : K) (t : table) : list V :=
  match t with [] => [] | (h', l) :: t' => if eqb h h' then l else tget h t' end.
(** store the list of a key *)
Fixpoint tset (h : K) (l : list V) (t : table) : table :=
  match t with [] => [(h, l)] | (h', l') :: t' => if eqb h h' then (h, l) :: t' else (h', l') :: tset h l t' end.
End Table.
(** l[:k] *)
Definition prefix {A} (k : Z) (l : list A) : list A := firstn (if (k <? 0)%Z then Z.to_nat (Z.of_nat (length l) + k) else Z.to_nat k) l.
Fixpoint mapR {A B} (f : A -> result B) (l : list A) : result (list B) :=
  match l with [] => Ok [] | x :: t => let! y := f x in let! ys := mapR f t in Ok (y :: ys) end.

(** ** minhash.py *)
Definition list_nat_eqb (a b : list nat) : bool := if list_eq_dec Nat.eq_dec a b then true else false.
(** minhash.py:17-30 *)
Definition permute (p : list nat) (arr : list Z) : result (list Z) :=
  if length arr =? length p then mapR (fun i => match nth_error arr i with Some x => Ok x | None => Err IndexError end) p else Err AssertionError.
(** minhash.py:33-49 *)
Definition to_bool (a : list Z) : list bool := map (fun x => negb (x =? 0)%Z) a.
Definition of_bool (a : list bool) : list Z := map (fun b : bool => if b then 1%Z else 0%Z) a.
Fixpoint agree (a b : list bool) : nat :=
  match a, b with x :: a', y :: b' => (if Bool.eqb x y then 1 else 0) + agree a' b' | _, _ => 0 end.
Definition jacardCoefficient (a b : list bool) : result Q :=
  if length a =? length b then match length a with 0 => Err ZeroDivisionError | S n => Ok (inject_Z (Z.of_nat (agree a b)) / inject_Z (Z.of_nat (S n)))%Q end
  else Err ValueError.
(** minhash.py:82-87; the name i is unbound for an empty array *)
Fixpoint first1 (i : nat) (l : list Z) : nat := match l with [] => i | x :: t => if (x =? 1)%Z then i else first1 (S i) t end.
Definition firstOne (l : list Z) : result nat := match l with [] => Err PlainException | _ => Ok (first1 0 l) end.
Section MinHash.
Context {S : Type}.
(** minhash.py:71-80 *)
Record minhash := { mh_dim : nat; mh_perms : list (list nat); mh_buckets : @table (list nat) (list bool * S) }.
Definition mh_new dim perms : minhash := {| mh_dim := dim; mh_perms := perms; mh_buckets := [] |}.
(** minhash.py:95-106, with _checkItem of 89-93 *)
Definition mh_hash (m : minhash) (item : list Z) : result (list nat) :=
  if length item =? mh_dim m then mapR (fun p => let! q := permute p item in firstOne q) (mh_perms m) else Err ValueError.
(** minhash.py:108-115: the item is turned into booleans first; True == 1 *)
Definition mh_put (m : minhash) (item : list Z) (s : S) : result minhash :=
  if length item =? mh_dim m then
    let b := to_bool item in
    let! h := mh_hash m (of_bool b) in
    Ok {| mh_dim := mh_dim m; mh_perms := mh_perms m; mh_buckets := tset list_nat_eqb h (tget list_nat_eqb h (mh_buckets m) ++ [(b, s)]) (mh_buckets m) |}
  else Err ValueError.
(** minhash.py:118-129: the bucket itself is sorted, in place *)
Definition mh_knn (m : minhash) (item : list Z) (k : Z) : result (list (list bool * S) * minhash) :=
  if length item =? mh_dim m then
    let! h := mh_hash m item in
    let! keyed := mapR (fun x => let! j := jacardCoefficient (fst x) (to_bool item) in Ok (j, x)) (tget list_nat_eqb h (mh_buckets m)) in
    let c := map snd (isort (fun x y => Qle_bool (fst y) (fst x)) keyed) in
    Ok (prefix k c, {| mh_dim := mh_dim m; mh_perms := mh_perms m; mh_buckets := tset list_nat_eqb h c (mh_buckets m) |})
  else Err ValueError.
End MinHash.
Arguments minhash : clear implicits.

(** ** nearoptimal.py *)
Definition list_Z_eqb (a b : list Z) : bool := if list_eq_dec Z.eq_dec a b then true else false.
Definition ball_eqb (a b : list Z * option nat) : bool :=
  list_Z_eqb (fst a) (fst b) && match snd a, snd b with None, None => true | Some i, Some j => i =? j | _, _ => false end.
Definition qsum (l : list Q) : Q := fold_right Qplus 0%Q l.
(** dot(d.T, d) of the difference of two vectors of one size *)
Fixpoint sqdist (a b : list Q) : Q := match a, b with x :: a', y :: b' => ((x - y) * (x - y) + sqdist a' b')%Q | _, _ => 0%Q end.
Section MultiDim.
Context {S : Type}.
(** nearoptimal.py:47-99; projection None is the scalar 1 *)
Record multihash := { md_dim : nat; md_offset : Q; md_r2 : Q; md_grid : list (list Q); md_proj : option (list (list Q)); md_balls : @table (list Z * option nat) (list Q * S) }.
(** nearoptimal.py:101-115: divmod of floats *)
Definition findHypercube (m : multihash) (p : list Q) : list Z * list Q :=
  (map (fun x => Qfloor (x / md_offset m)) p, map (fun x => x - md_offset m * inject_Z (Qfloor (x / md_offset m)))%Q p).
(** nearoptimal.py:117-122 *)
Fixpoint localBall (r2 : Q) (i : nat) (grid : list (list Q)) (p : list Q) : option nat :=
  match grid with [] => None | b :: t => if Qle_bool (sqdist p b) r2 then Some i else localBall r2 (1 + i) t p end.
(** nearoptimal.py:159-162 *)
Definition findBall (m : multihash) (p : list Q) : list Z * option nat :=
  let '(c, r) := findHypercube m p in (c, localBall (md_r2 m) 0 (md_grid m) r).
(** dot(projection, point): the last axis of the matrix has to fit *)
Definition dot_proj (pr : option (list (list Q))) (p : list Q) : result (list Q) :=
  match pr with
  | None => Ok p
  | Some rows => mapR (fun row => if length row =? length p then Ok (qsum (map (fun e => fst e * snd e)%Q (combine row p))) else Err ValueError) rows
  end.
(** nearoptimal.py:164-169 *)
Definition md_insert (m : multihash) (p : list Q) (s : S) : result multihash :=
  let! p' := dot_proj (md_proj m) p in
  let h := findBall m p' in
  Ok {| md_dim := md_dim m; md_offset := md_offset m; md_r2 := md_r2 m; md_grid := md_grid m; md_proj := md_proj m; md_balls := tset ball_eqb h (tget ball_eqb h (md_balls m) ++ [(p', s)]) (md_balls m) |}.
(** nearoptimal.py:171-192; heapq.nlargest is sorted(..., reverse=True)[:k], and empty for k <= 0.  The query is not projected. *)
Definition md_knn (m : multihash) (p : list Q) (k : Z) : list (list Q * S) :=
  firstn (Z.to_nat k) (isort (fun x y => Qle_bool (sqdist p (fst x)) (sqdist p (fst y))) (tget ball_eqb (findBall m p) (md_balls m))).
End MultiDim.
Arguments multihash : clear implicits.
