(** Groups, liberties and captures of Go, stated on the board alone. *)
From Verif Require Import Base Games_Model Games_Spec.
From Coq Require Import Relations.
Local Open Scope Z_scope.

(** horizontally or vertically adjacent points *)
Definition adj (p q : pos) : Prop := Z.abs (fst p - fst q) + Z.abs (snd p - snd q) = 1.
(** p and q are adjacent stones of one colour *)
Definition linked (s : size) (b : board) (p q : pos) : Prop :=
  on_board s p /\ on_board s q /\ adj p q /\ exists c, b p = Stone c /\ b q = Stone c.
(** connected stones *)
Definition conn (s : size) (b : board) : pos -> pos -> Prop := clos_refl_trans pos (linked s b).
(** e is a liberty of the group of p *)
Definition liberty (s : size) (b : board) (p e : pos) : Prop :=
  on_board s e /\ b e = Empty /\ exists q, conn s b p q /\ adj q e.
Definition alive (s : size) (b : board) (p : pos) : Prop := exists e, liberty s b p e.
(** some stone of colour c has no liberty left *)
Definition some_dead (s : size) (b : board) (c : color) : Prop :=
  exists q, on_board s q /\ b q = Stone c /\ ~ alive s b q.
