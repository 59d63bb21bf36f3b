(** Model of tools/rankingfunctions.py.  Fitnesses are integers (only their order matters for
    ranks); the rescaled rankings are exact rationals, with [None] for numpy's nan (0/0). *)
From Coq Require Import QArith Qround.
From Verif Require Import Base StableSort.
Local Open Scope nat_scope.

(** tuple comparison of (fitness, index) pairs *)
Definition pair_leb (a b : Z * nat) : bool :=
  (fst a <? fst b)%Z || ((fst a =? fst b)%Z && (snd a <=? snd b)).
(** rankingfunctions.py:10-22 rankedFitness *)
Definition rankedFitness (R : list Z) : list nat :=
  let l := isort pair_leb (combine R (seq 0 (length R))) in
  fold_left (fun res p => upd (snd (snd p)) (fst p) res) (combine (seq 0 (length l)) l) (repeat 0 (length R)).

(** x / y elementwise; only 0/0 occurs with y = 0 *)
Definition ndiv (x y : Q) : option Q := if Qeq_bool y 0 then None else Some (x / y)%Q.
Definition qmax (l : list Q) : Q := match l with [] => 0%Q | a :: t => fold_left (fun m x => if Qle_bool m x then x else m) t a end.
Definition nq (n : nat) : Q := inject_Z (Z.of_nat n).

(** rankingfunctions.py:40-43 RankingFunction.__call__; max([]) raises ValueError *)
Definition ranking_call (R : list Z) : result (list (option Q)) :=
  let res := map nq (rankedFitness R) in
  match res with [] => Err ValueError | _ => Ok (map (fun x => ndiv x (qmax res)) res) end.

(** rankingfunctions.py:46-62 TournamentSelection: [opponents i] are the indices drawn for the
    i-th tournament; the inner while loop makes every one differ from i *)
Definition argmax_from (best : nat) (bv : Z) (start : nat) (l : list Z) : nat :=
  fst (fst (fold_left (fun s v => let '(b, bv, k) := s in if (bv <? v)%Z then (k, v, S k) else (b, bv, S k)) l (best, bv, start))).
Definition argmax (l : list Z) : nat := match l with [] => 0 | a :: t => argmax_from 0 a 1 t end.
Definition tournament (R : list Z) (opponents : nat -> list nat) : list nat :=
  fold_left (fun res i =>
    let fits := map (fun x => nth x R 0%Z) (i :: opponents i) in
    let w := argmax fits in upd w (S (nth w res 0)) res) (seq 0 (length R)) (repeat 0 (length R)).

(** rankingfunctions.py:103-117 TopSelection *)
Definition cutoff (n : nat) (topFraction : Q) : Q := (nq n * (1 - topFraction))%Q.
Definition top_selection (topFraction : Q) (R : list Z) : list Q :=
  map (fun r => if Qle_bool (cutoff (length R) topFraction) (nq r) then 1%Q else 0%Q) (rankedFitness R).
(** rankingfunctions.py:120-137 TopLinearRanking *)
Definition top_linear_raw (topFraction : Q) (R : list Z) : list Q :=
  map (fun r => if Qle_bool (cutoff (length R) topFraction) (nq r) then (nq r - cutoff (length R) topFraction)%Q else 0%Q) (rankedFitness R).
Definition top_linear (topFraction : Q) (R : list Z) : result (list (option Q)) :=
  let res := top_linear_raw topFraction R in
  match res with [] => Err ValueError | _ => Ok (map (fun x => ndiv x (qmax res)) res) end.
(** rankingfunctions.py:147-163 BilinearRanking; [floor_div]: Python 2's / on ints *)
Definition bilinear_raw (floor_div : bool) (factor : Q) (R : list Z) : list Q :=
  let ranks := rankedFitness R in
  let t := if floor_div then nq (4 * length ranks / 5) else (nq (4 * length ranks) / 5)%Q in
  map (fun r => if negb (Qle_bool t (nq r)) then nq r else (nq r + (nq r - t) * factor)%Q) ranks.
Definition bilinear (floor_div : bool) (factor : Q) (R : list Z) : result (list (option Q)) :=
  let res := bilinear_raw floor_div factor R in
  match res with [] => Err ValueError | _ => Ok (map (fun x => ndiv x (qmax res)) res) end.
