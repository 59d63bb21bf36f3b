(** What the players of the board games are meant to do, stated on the boards alone. *)
From Coq Require Import Reals.
From Verif Require Import Base Games_Model Games_Spec Capture_Model Capture_Spec.

(** p is an empty point *)
Definition free (s : size) (b : board) (p : pos) : Prop := on_board s p /\ b p = Empty.
(** a stone of colour c at p captures; commits suicide *)
Definition captures (n : Z) (b : board) (c : color) (p : pos) : Prop := some_dead (square n) (placed b p c) (opp c).
Definition suicidal (n : Z) (b : board) (c : color) (p : pos) : Prop :=
  ~ alive (square n) (placed b p c) p /\ ~ captures n b c p.
(** choosing with equal chances among the points satisfying P: of N draws each point is chosen by exactly one *)
Definition equal_chances {X} (P : X -> Prop) (draw : nat -> result X) : Prop :=
  exists N, (0 < N)%nat /\ (forall i, exists p, draw i = Ok p /\ P p) /\
    (forall p, P p -> exists i, (i < N)%nat /\ draw i = Ok p) /\
    (forall i j, (i < N)%nat -> (j < N)%nat -> draw i = draw j -> i = j) /\
    (forall i, draw (i + N)%nat = draw i).
Definition color_eqb (x y : color) : bool := match x, y with Black, Black | White, White => true | _, _ => false end.
(** the board with the colours exchanged *)
Definition flip (b : board) : board := fun p => match b p with Stone c => Stone (opp c) | x => x end.
(** number of the point p when the rows are read one after the other *)
Definition number (s : size) (p : pos) : nat := Z.to_nat (fst p * snd s + snd p).
(** the interval of [0, 1) in which a draw picks number k, for probabilities ps *)
Definition picks (ps : list R) (r : R) (k : nat) : Prop :=
  (k < length ps)%nat /\ (fold_right Rplus 0 (firstn k ps) <= r < fold_right Rplus 0 (firstn (S k) ps))%R.
