(** What five in a row, a full board and a capture are; no reference to the search code. *)
From Verif Require Import Base Games_Model.
Local Open Scope Z_scope.

Definition on_board (s : size) (p : pos) : Prop := 0 <= fst p < fst s /\ 0 <= snd p < snd s.
(** the eight unit directions *)
Definition direction (d : pos) : Prop := -1 <= fst d <= 1 /\ -1 <= snd d <= 1 /\ d <> (0, 0).
Definition shift (p d : pos) (k : Z) : pos := (fst p + k * fst d, snd p + k * snd d).
(** five consecutive stones of colour c somewhere on the board *)
Definition five (s : size) (b : board) (c : color) : Prop :=
  exists q d, direction d /\ forall k, 0 <= k <= 4 -> on_board s (shift q d k) /\ b (shift q d k) = Stone c.
Definition full (s : size) (b : board) : Prop := forall p, on_board s p -> b p <> Empty.
(** the board after colour c has been put at p *)
Definition placed (b : board) (p : pos) (c : color) : board := fun q => if pos_eqb q p then Stone c else b q.
(** q is one of two opponent stones flanked by p and an own stone *)
Definition captured_by (s : size) (b : board) (c : color) (p q : pos) : Prop :=
  exists d, direction d /\
    on_board s (shift p d 1) /\ b (shift p d 1) = Stone (opp c) /\
    on_board s (shift p d 2) /\ b (shift p d 2) = Stone (opp c) /\
    on_board s (shift p d 3) /\ b (shift p d 3) = Stone c /\
    (q = shift p d 1 \/ q = shift p d 2).
(** number of occupied points *)
Definition occupied (s : size) (b : board) : Z :=
  Z.of_nat (length (filter (fun p => match b p with Empty => false | _ => true end)
    (list_prod (map Z.of_nat (seq 0 (Z.to_nat (fst s)))) (map Z.of_nat (seq 0 (Z.to_nat (snd s))))))).
