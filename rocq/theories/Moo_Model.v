(** Model of the multi-objective benchmark functions (rl/environments/functions/multiobjective.py) and of the Lennard-Jones
    clusters (rl/environments/functions/lennardjones.py).

    Numbers are reals.  A function of two arguments takes a pair, that of six a list of six; arrays are taken to have the declared
    xdim, except for Lennard-Jones.  Two atoms at the same place have an infinite
    value in numpy; here the inverse of zero is some real number.  Kursawe's function, the objectives of Osyczka and Kundu's
    and Tanaka's and _exampleConfig are not modelled. *)
From Verif Require Import Base.
From Coq Require Import Reals.
Local Open Scope R_scope.

Definition sumR (l : list R) : R := fold_right Rplus 0 l.
Definition negv (l : list R) : list R := map Ropp l.

(** ** The functions *)
(** 45-46 *)
Definition sch (x : R) : list R := negv [x ^ 2; (x - 2) ^ 2].
(** 53-56 *)
Definition fon (x : list R) : list R :=
  negv [1 - exp (- sumR (map (fun v => (v - 1 / sqrt 3) ^ 2) x)); 1 - exp (- sumR (map (fun v => (v + 1 / sqrt 3) ^ 2) x))].
(** 63-72, 131-147 *)
Definition polB1 (x : R * R) : R := 1 / 2 * sin (fst x) - 2 * cos (fst x) + sin (snd x) - 3 / 2 * cos (snd x).
Definition polB2 (x : R * R) : R := 3 / 2 * sin (fst x) - cos (fst x) + 2 * sin (snd x) - 1 / 2 * cos (snd x).
Definition polA1 : R := 1 / 2 * sin 1 - 2 * cos 1 + sin 2 - 3 / 2 * cos 2.
Definition polA2 : R := 3 / 2 * sin 1 - cos 1 + 2 * sin 2 - 1 / 2 * cos 2.
Definition pol (x : R * R) : list R := negv [1 + (polA1 - polB1 x) ^ 2 + (polA2 - polB2 x) ^ 2; (fst x + 3) ^ 2 + (snd x + 1) ^ 2].
(** 89-97, 115-126 *)
Definition deb (x : R * R) : list R := negv [fst x; (1 + snd x) / fst x].
(** 169-171 *)
Definition srn (x : R * R) : list R := negv [2 + (fst x - 2) ^ 2 + (snd x - 1) ^ 2; 9 * fst x - (snd x - 1) ^ 2].
(** 253-255 *)
Definition bnh (x : R * R) : list R := negv [4 * fst x ^ 2 + 4 * snd x ^ 2; (fst x - 5) ^ 2 + (snd x - 5) ^ 2].

(** ** Constraints *)
Definition nonnegb (r : R) : bool := if Rle_dec 0 r then true else false.
(** 109-114 *)
Definition debG (x : R * R) : bool * list R :=
  let g1 := snd x + 9 * fst x - 6 in let g2 := - snd x + 9 * fst x - 1 in
  if nonnegb g1 && nonnegb g2 then (true, [0; 0]) else (false, [g1; g2]).
(** 159-164 *)
Definition srnG (x : R * R) : bool * list R :=
  let g1 := 225 - (snd x ^ 2 + fst x ^ 2) in let g2 := 3 * snd x - fst x - 10 in
  if nonnegb g1 && nonnegb g2 then (true, [0; 0]) else (false, [g1; g2]).
(** 187-196 *)
Definition osyG (x : list R) : bool * list R :=
  let v k := nth k x 0 in
  let g1 := v 0%nat + v 1%nat - 2 in
  let g2 := 6 - v 0%nat - v 1%nat in
  let g3 := 2 - v 1%nat + v 0%nat in
  let g4 := 1 - v 0%nat + 3 * v 1%nat in
  let g5 := 4 - (v 2%nat - 3) ^ 2 - v 3%nat in
  let g6 := (v 4%nat - 3) ^ 2 + v 5%nat - 4 in
  if nonnegb g1 && nonnegb g2 && nonnegb g3 && nonnegb g4 && nonnegb g5 && nonnegb g6 then (true, [0; 0]) else (false, [g1; g2; g3; g4; g5; g6]).
(** 215-224 *)
Definition tnkG (x : R * R) : bool * list R :=
  let A := if Req_EM_T (snd x) 0 then PI / 2 else atan (fst x / snd x) in
  let g1 := snd x ^ 2 + fst x ^ 2 - 1 - 1 / 10 * cos (16 * A) in let g2 := 1 / 2 - (fst x - 1 / 2) ^ 2 - (snd x - 1 / 2) ^ 2 in
  if nonnegb g1 && nonnegb g2 then (true, [0; 0]) else (false, [g1; g2]).
(** 243-248 *)
Definition bnhG (x : R * R) : bool * list R :=
  let g1 := 25 - (fst x - 5) ^ 2 - snd x ^ 2 in let g2 := (fst x - 8) ^ 2 + (snd x + 3) ^ 2 - 77 / 10 in
  if nonnegb g1 && nonnegb g2 then (true, [0; 0]) else (false, [g1; g2]).
(** xbound: 89-91, 104-106, 238-240 *)
Definition debBound : list (R * R) := [(1 / 10, 1); (0, 5)].
Definition bnhBound : list (R * R) := [(0, 5); (0, 3)].

(** ** The attributes feasible and violation: 16-27, 103, 116-123 *)
(** those of the class MultiObjectiveFunction *)
Record classattr := { k_feasible : option bool; k_violation : option (list R) }.
(** those of an instance; the outer option: whether the instance has the attribute itself *)
Record instance := { i_feasible : option (option bool); i_violation : option (option (list R)) }.
Definition class0 : classattr := {| k_feasible := None; k_violation := None |}.
Definition newPlain : instance := {| i_feasible := None; i_violation := None |}.
Definition newConst : instance := {| i_feasible := Some None; i_violation := None |}.
(** 116-123: what a call of a constrained function does besides its value *)
Definition callConst {X} (g : X -> bool * list R) (x : X) : instance * classattr :=
  let (ok, viol) := g x in ({| i_feasible := Some (Some ok); i_violation := Some (Some viol) |}, {| k_feasible := Some ok; k_violation := Some viol |}).
(** 21-27 *)
Definition outfeasible (k : classattr) (i : instance) : option bool := match i_feasible i with Some b => b | None => k_feasible k end.
Definition outviolation (k : classattr) (i : instance) : option (list R) := match i_violation i with Some v => v | None => k_violation k end.

(** ** lennardjones.py *)
Definition point : Type := R * R * R.
(** 15 *)
Fixpoint triples (n : nat) (x : list R) : list point :=
  match n, x with
  | S k, a :: b :: c :: rest => (a, b, c) :: triples k rest
  | _, _ => []
  end.
(** 16: one entry of the matrix of distances *)
Definition distance (p q : nat * point) : R :=
  let '(i, (a, b, c)) := p in let '(j, (a', b', c')) := q in
  sqrt (sumR [(a' - a) ^ 2; (b' - b) ^ 2; (c' - c) ^ 2]) + (if Nat.eqb i j then 1 else 0).
(** 17 *)
Definition entry (p q : nat * point) : R := let d := distance p q in / d ^ 12 - / d ^ 6.
Definition matrix_sum (l : list (nat * point)) : R := sumR (flat_map (fun p => map (entry p) l) l).
(** 13-17 *)
Definition lj (xdim : nat) (x : list R) : result R :=
  let N := Nat.div xdim 3 in
  if Nat.eqb (length x) (N * 3) then Ok (2 * matrix_sum (combine (seq 0 N) (triples N x))) else Err ValueError.
(** 34-37, 29-32 *)
Definition known (N : nat) : option R := match N with 0%nat | 1%nat => Some 0 | 2%nat => Some (-1) | 3%nat => Some (-3) | 4%nat => Some (-6) | _ => None end.
Definition desired (N : nat) : option R := match known N with Some v => Some (v + 1 / 100000) | None => None end.
