(** Model of clustering and reduction of data: structure/modules/kohonen.py, auxiliary/kmeans.py kinit, tools/ibp.py leftordered and generateIBP,
    auxiliary/pca.py makeCentered, the choice of the components in pca, and reduceDim.

    Numbers are exact reals.  Random draws are arguments.  norm(x) ** 2 is the sum of the squares.  numpy before 1.12: slices take floats and cut them off.
    minimum_position is the first of the least in row-major order.  The eigenvalues and eigenvectors are arguments; the eigenvalues are real
    (those of a covariance matrix are).
    Not modelled: kmeans2 of scipy, pPca, the error that Module.backward passes on (the map passes on none), testIBP, floats. *)
From Coq Require Import Reals.
From Verif Require Import Base StableSort Functions_Model LinearFA_Model.
Local Open Scope R_scope.

(** norm(a - b) ** 2 *)
Definition sqdist (a b : vec) : R := rsum (map (fun x => x ^ 2) (vsub a b)).

(** ** KohonenMap *)
(** kohonen.py:29-36: neurons and difference by their coordinates below nNeurons *)
Record som : Type := { s_neurons : nat -> nat -> vec; s_diff : nat -> nat -> vec; s_winner : nat * nat; s_neighbours : R }.
Section Kohonen.
Context (N dim : nat).      (* nNeurons, nInput *)
(** 18-42 with the random neurons *)
Definition newSom (neurons : nat -> nat -> vec) : som :=
  {| s_neurons := neurons; s_diff := fun _ _ => repeat 0 dim; s_winner := (0, 0)%nat; s_neighbours := INR N |}.
Definition places : list (nat * nat) := list_prod (seq 0 N) (seq 0 N).
(** scipy.ndimage.minimum_position *)
Definition minimum_position (f : nat * nat -> R) : result (nat * nat) :=
  match places with
  | [] => Err ValueError
  | p :: ps => Ok (fold_left (fun b p => if Rlt_dec (f p) (f b) then p else b) ps p)
  end.
(** 45-53 *)
Definition kforward (full : bool) (inbuf outbuf : vec) (s : som) : result (som * vec) :=
  let diff := fun i j => vsub (s_neurons s i j) inbuf in
  let error := fun p : nat * nat => rsum (map (fun x => x ^ 2) (diff (fst p) (snd p))) in
  let! w := minimum_position error in
  Ok ({| s_neurons := s_neurons s; s_diff := diff; s_winner := w; s_neighbours := s_neighbours s |},
      if full then outbuf else [INR (fst w); INR (snd w)]).
(** 61-66: whether i is in [tl, br) *)
Definition inNeighbours (n : Z) (w i : nat) : bool :=
  ((Z.max 0 (Z.of_nat w - n) <=? Z.of_nat i) && (Z.of_nat i <? Z.min (Z.of_nat w + n + 1) (Z.of_nat N + 1)))%Z%bool.
(** 69-70 *)
Definition tempm (w : nat * nat) (i j : nat) : R :=
  let t := 1 - (Rabs (INR i - INR (fst w)) + Rabs (INR j - INR (snd w))) / INR N in if Rlt_dec t 0 then 0 else t.
(** 56-76 *)
Definition kbackward (s : som) : som :=
  let n := Int_part (s_neighbours s) in
  let w := s_winner s in
  {| s_neurons := fun i j =>
       if (inNeighbours n (fst w) i && inNeighbours n (snd w) j)%bool
       then vsub (s_neurons s i j) (map (fun x => 1 / 100 * x * tempm w i j) (s_diff s i j)) else s_neurons s i j;
     s_diff := s_diff s; s_winner := w; s_neighbours := s_neighbours s * (9999 / 10000) |}.
(** one round of training with an input; the output buffer was zeros *)
Definition kround (full : bool) (s : som) (x : vec) : result som :=
  let! r := kforward full x (repeat 0 (if full then N * N else 2)%nat) s in Ok (kbackward (fst r)).
Fixpoint ktrain (full : bool) (s : som) (xs : list vec) : result som :=
  match xs with [] => Ok s | x :: xs => let! s := kround full s x in ktrain full s xs end.
End Kohonen.

(** ** kinit *)
Section Kmeans.
Context (X : list vec).
(** kmeans.py:33-34 *)
Definition dsum (D : list R) (i : nat) : R := rsum (map (fun j => Rmin (nth j D 0) (sqdist (nth j X []) (nth i X []))) (seq 0 (length X))).
(** 29-37; -1 for no index is None *)
Definition bestOf (D : list R) : R * option nat :=
  fold_left (fun best i =>
      if Rlt_dec (fst best) 0 then (dsum D i, Some i)
      else if Rlt_dec (dsum D i) (fst best) then (dsum D i, Some i) else best) (seq 0 (length X)) (- 1, None).
(** 28-40 one round; X[-1] is the last *)
Definition kstep (DC : list R * list vec) : list R * list vec :=
  let '(D, centers) := DC in
  let c := match snd (bestOf D) with Some i => nth i X [] | None => last X [] end in
  (map (fun j => Rmin (nth j D 0) (sqdist (nth j X []) c)) (seq 0 (length X)), centers ++ [c]).
(** 25-26 *)
Definition kfirst (draw : nat) : list R * list vec :=
  let c := nth (draw mod length X) X [] in (map (fun x => sqdist x c) X, [c]).
(** 20-42 *)
Definition kinit (k draw : nat) : result (list vec) :=
  match X with [] => Err ValueError | _ => Ok (snd (Nat.iter (k - 1) kstep (kfirst draw))) end.
End Kmeans.

(** ** Indian buffet *)
(** M.T for a matrix of w columns *)
Definition transposed (w : nat) (M : list (list bool)) : list (list bool) := map (fun j => map (fun r => nth j r false) M) (seq 0 w).
(** tuples are compared one entry after the other *)
Fixpoint tuple_leb (a b : list bool) : bool :=
  match a, b with
  | [], _ => true
  | _ :: _, [] => false
  | x :: a, y :: b => if Bool.eqb x y then tuple_leb a b else negb x
  end.
(** ibp.py:10-14; h rows, w columns *)
Definition leftordered (h w : nat) (M : list (list bool)) : list (list bool) := transposed h (rev (isort tuple_leb (transposed w M))).
(** 22-27 *)
Definition lambda (customers : nat) (alpha : R) : R := alpha * rsum (map (fun i => 1 / INR i) (seq 1 customers)).
Definition maxdishes (customers : nat) (alpha : R) : nat := S (Z.to_nat (Int_part (lambda customers alpha + sqrt (lambda customers alpha) * 2))).
Record buffet : Type := { b_res : list (list bool); b_stick : R; b_skipped : nat; b_i : nat }.
(** 35-41; res by columns *)
Definition dish (reduced : R) (b : buffet) (d : R * vec) : buffet :=
  let stick := b_stick b * fst d in
  let taken := map (fun u => if Rlt_dec u (stick * reduced) then true else false) (snd d) in
  if existsb (fun t => t) taken
  then {| b_res := upd (b_i b - b_skipped b) taken (b_res b); b_stick := stick; b_skipped := b_skipped b; b_i := S (b_i b) |}
  else {| b_res := b_res b; b_stick := stick; b_skipped := S (b_skipped b); b_i := S (b_i b) |}.
(** 17-43 by columns; draws: for every dish nu_i and a number for every customer *)
Definition generateIBP (customers : nat) (reduced : R) (draws : list (R * vec)) : list (list bool) :=
  let n := length draws in
  let b := fold_left (dish reduced) draws {| b_res := repeat (repeat false customers) n; b_stick := 1; b_skipped := 0; b_i := 0 |} in
  firstn (n - b_skipped b) (b_res b).

(** ** principal components *)
(** pca.py:30-35; d columns *)
Definition mean (d : nat) (data : list vec) : vec := map (fun j => rsum (map (fun r => nth j r 0) data) / INR (length data)) (seq 0 d).
Definition makeCentered (d : nat) (data : list vec) : list vec := map (fun r => vsub r (mean d data)) data.
(** (val, ind) tuples *)
Definition pair_leb (a b : R * nat) : bool :=
  if Rlt_dec (fst a) (fst b) then true else if Rlt_dec (fst b) (fst a) then false else (snd a <=? snd b)%nat.
(** 44-45, 58-65; l[:-0] is empty *)
Definition components (dim : nat) (eigval : list R) : result (list nat) :=
  if (length eigval <? dim)%nat then Err AssertionError
  else
    let sorted := isort pair_leb (combine eigval (seq 0 (length eigval))) in
    let kept := if (dim =? 0)%nat then sorted else skipn (length eigval - dim) sorted in
    Ok (rev (isort Nat.leb (map snd kept))).
(** 16-27, 67 with pca: eigvec.take(indexes, 1).T; eigvec by columns *)
Definition reduceDim (d dim : nat) (eig : list vec -> list R * list vec) (data : list vec) : result (list vec) :=
  let '(vals, vecs) := eig (makeCentered d data) in
  let! ix := components dim vals in
  Ok (map (fun r => map (fun i => rdot (nth i vecs []) r) ix) (makeCentered d data)).
