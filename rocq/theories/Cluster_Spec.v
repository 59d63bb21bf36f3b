(** C81: what is expected of clustering and reduction. *)
From Coq Require Import Reals.
From Verif Require Import Base Functions_Model LinearFA_Model Cluster_Model.
Local Open Scope R_scope.

(** earlier in row-major order *)
Definition earlier (p q : nat * nat) : Prop := (fst p < fst q)%nat \/ fst p = fst q /\ (snd p < snd q)%nat.
Definition onGrid (N : nat) (p : nat * nat) : Prop := (fst p < N /\ snd p < N)%nat.
(** the first of the nearest *)
Definition nearest (N : nat) (d : nat -> nat -> R) (w : nat * nat) : Prop :=
  onGrid N w /\ forall i j, onGrid N (i, j) -> d (fst w) (snd w) <= d i j /\ (earlier (i, j) w -> d (fst w) (snd w) < d i j).
(** steps between two places *)
Definition apart (i j : nat) : nat := (i - j + (j - i))%nat.

(** the distance to the nearest of some centers, the sum of these over the data *)
Definition toNearest (cs : list vec) (x : vec) : R := match cs with [] => 0 | c :: cs => fold_left (fun m c => Rmin m (sqdist x c)) cs (sqdist x c) end.
Definition potential (X cs : list vec) : R := rsum (map (toNearest cs) X).

(** the binary number of a column, the first entry most significant *)
Definition value (col : list bool) : nat := fold_left (fun v b => 2 * v + (if b : bool then 1 else 0))%nat col 0%nat.

(** the dishes with the chances of being taken: products of the stick breaks *)
Fixpoint dishes (reduced stick : R) (draws : list (R * vec)) : list (list bool) :=
  match draws with
  | [] => []
  | (nu, us) :: draws => map (fun u => if Rlt_dec u (stick * nu * reduced) then true else false) us :: dishes reduced (stick * nu) draws
  end.
Definition columns (w : nat) (M : list (list bool)) : list (list bool) := map (fun j => map (fun r => nth j r false) M) (seq 0 w).
