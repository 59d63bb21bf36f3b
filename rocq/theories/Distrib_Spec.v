(** What C68 says about the optimizers that adapt a search distribution, apart from the model's helpers: ranks by counting,
    normalised rank based utilities, the natural evolution strategies as machines on (center, scales) that see the draws directly,
    convex combinations, positive definite matrices. *)
From Coq Require Import Reals.
From Verif Require Import Base.
Local Open Scope R_scope.

Fixpoint total (n : nat) (f : nat -> R) : R := match n with O => 0 | S k => total k f + f k end.
Definition at_ (v : list R) (i : nat) : R := nth i v 0.

(** [j] comes before [i]: worse, or equal and earlier *)
Definition before (e : nat -> R) (j i : nat) : bool :=
  if Rlt_dec (e j) (e i) then true else if Rlt_dec (e i) (e j) then false else Nat.ltb j i.
Definition rank (n : nat) (e : nat -> R) (i : nat) : nat := length (filter (fun j => before e j i) (seq 0 n)).
(** utility of the individual with rank r of n (0 is the worst) *)
Definition hansen_raw (n r : nat) : R := Rmax 0 (ln (INR n / 2 + 1) - ln (INR n - INR r)).
Definition utility (n : nat) (baseline : bool) (e : nat -> R) (i : nat) : R :=
  hansen_raw n (rank n e i) / total n (hansen_raw n) - (if baseline then 1 / INR n else 0).

(** ** one generation of the separable strategy: center and scales after seeing draws z_k with fitness e_k *)
Definition sep_center (rate : R) (n : nat) (u : nat -> R) (c s : nat -> R) (z : nat -> nat -> R) (i : nat) : R :=
  c i + rate * s i * total n (fun k => u k * z k i).
Definition sep_scale (rate : R) (n : nat) (u : nat -> R) (s : nat -> R) (z : nat -> nat -> R) (i : nat) : R :=
  s i * exp (rate / 2 * total n (fun k => u k * (z k i ^ 2 - 1))).

(** two evaluators that order all evaluations in the same way *)
Definition same_order (f g : nat -> list R -> R) : Prop := forall i x j y, f i x < f j y <-> g i x < g j y.

(** w is a vector of n weights that sum to 1 *)
Definition weights_ok (n : nat) (w : nat -> R) : Prop := (forall i, (i < n)%nat -> 0 <= w i) /\ total n w = 1.

(** ** matrices, by their entries *)
Definition symmetric (n : nat) (m : nat -> nat -> R) : Prop := forall i j, (i < n)%nat -> (j < n)%nat -> m i j = m j i.
Definition quad (n : nat) (m : nat -> nat -> R) (x : nat -> R) : R := total n (fun i => total n (fun j => x i * m i j * x j)).
Definition posdef (n : nat) (m : nat -> nat -> R) : Prop := forall x, (exists i, (i < n)%nat /\ x i <> 0) -> 0 < quad n m x.
Definition mprod (n : nat) (a b : nat -> nat -> R) (i j : nat) : R := total n (fun k => a i k * b k j).
Definition ident (i j : nat) : R := if Nat.eqb i j then 1 else 0.
Definition meq (n : nat) (a b : nat -> nat -> R) : Prop := forall i j, (i < n)%nat -> (j < n)%nat -> a i j = b i j.
Definition entry (m : list (list R)) (i j : nat) : R := nth j (nth i m []) 0.
(** what numpy promises of eig: unit columns b_k with C b_k = e_k b_k *)
Definition eig_contract (n : nat) (C : nat -> nat -> R) (e : nat -> R) (b : nat -> nat -> R) : Prop :=
  (forall i k, (i < n)%nat -> (k < n)%nat -> total n (fun j => C i j * b j k) = e k * b i k) /\
  (forall k, (k < n)%nat -> total n (fun j => b j k ^ 2) = 1).
Definition orthogonal_columns (n : nat) (b : nat -> nat -> R) : Prop :=
  forall k l, (k < n)%nat -> (l < n)%nat -> total n (fun j => b j k * b j l) = ident k l.
(** rows orthogonal too: for square matrices this follows, but is stated to avoid the detour *)
Definition orthogonal_rows (n : nat) (b : nat -> nat -> R) : Prop :=
  forall i j, (i < n)%nat -> (j < n)%nat -> total n (fun k => b i k * b j k) = ident i j.

(** ** natural evolution strategies as machines: (center, scales, evaluations made); [g] is to be maximised *)
Definition sep_points (dim : nat) (c s : list R) (z : list R) : list R := map (fun i => at_ c i + at_ s i * at_ z i) (seq 0 dim).
Definition sep_gen (dim n : nat) (rateC rateS : R) (baseline : bool) (g : nat -> list R -> R) (st : list R * list R * nat) (draws : list (list R))
  : list R * list R * nat :=
  let '(c, s, m) := st in
  let z k i := at_ (nth k draws []) i in
  let e k := g (m + k)%nat (sep_points dim c s (nth k draws [])) in
  let u := utility n baseline e in
  (map (sep_center rateC n u (at_ c) (at_ s) z) (seq 0 dim), map (sep_scale rateS n u (at_ s) z) (seq 0 dim), (m + n)%nat).
Definition sep_run (dim n : nat) (rateC rateS : R) (baseline : bool) (g : nat -> list R -> R) (batches : list (list (list R))) (st : list R * list R * nat) :=
  fold_left (sep_gen dim n rateC rateS baseline g) batches st.
(** a batch: n draws of length dim *)
Definition batch_ok (dim n : nat) (draws : list (list R)) : Prop := length draws = n /\ Forall (fun z => length z = dim) draws.

(** the affine map x -> a x + b, by coordinates *)
Definition aff (dim : nat) (a b : nat -> R) (x : list R) : list R := map (fun i => a i * at_ x i + b i) (seq 0 dim).

(** ** exponential strategy: (center, square root of the covariance, evaluations made) *)
Definition exp_point (dim : nat) (c : list R) (A : list (list R)) (z : list R) : list R :=
  map (fun i => at_ c i + total dim (fun j => entry A i j * at_ z j)) (seq 0 dim).
Definition trace (n : nat) (m : nat -> nat -> R) : R := total n (fun i => m i i).
Definition exp_grad (n : nat) (u : nat -> R) (z : nat -> nat -> R) (i j : nat) : R := total n (fun k => u k * (z k i * z k j - ident i j)).
Definition exp_dA (dim : nat) (rateS rateC : R) (G : nat -> nat -> R) (i j : nat) : R :=
  / 2 * (rateS * (trace dim G / INR dim) * ident i j + rateC * (G i j - trace dim G / INR dim * ident i j)).
Definition matrix (n : nat) (f : nat -> nat -> R) : list (list R) := map (fun i => map (f i) (seq 0 n)) (seq 0 n).
Definition exp_gen (expm : list (list R) -> list (list R)) (dim n : nat) (rateM rateS rateC : R) (baseline : bool) (g : nat -> list R -> R)
  (st : list R * list (list R) * nat) (draws : list (list R)) : list R * list (list R) * nat :=
  let '(c, A, m) := st in
  let z k i := at_ (nth k draws []) i in
  let e k := g (m + k)%nat (exp_point dim c A (nth k draws [])) in
  let u := utility n baseline e in
  let dz j := total n (fun k => u k * z k j) in
  (map (fun i => at_ c i + rateM * total dim (fun j => entry A i j * dz j)) (seq 0 dim),
   matrix dim (mprod dim (entry A) (entry (expm (matrix dim (exp_dA dim rateS rateC (exp_grad n u z)))))), (m + n)%nat).
Definition exp_run expm (dim n : nat) (rateM rateS rateC : R) (baseline : bool) (g : nat -> list R -> R) (batches : list (list (list R)))
  (st : list R * list (list R) * nat) := fold_left (exp_gen expm dim n rateM rateS rateC baseline g) batches st.
(** what a matrix exponential satisfies, and a log-determinant *)
Definition expm_ok (n : nat) (expm : list (list R) -> list (list R)) : Prop :=
  forall M, meq n (mprod n (entry (expm (matrix n (fun i j => - entry M i j)))) (entry (expm M))) ident.
Definition logdet_ok (n : nat) (expm : list (list R) -> list (list R)) (ld : list (list R) -> R) : Prop :=
  ld (matrix n ident) = 0 /\
  forall A B M, meq n (mprod n (entry B) (entry A)) ident ->
    ld (matrix n (mprod n (entry A) (entry (expm M)))) = ld A + trace n (entry M).
