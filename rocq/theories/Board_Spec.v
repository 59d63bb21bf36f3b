(** Specification of C71: what a unit that swipes over a grid computes, symmetries of the grid, convolution of a padded board. *)
From Verif Require Import Base RingOps Net_Model.

Section Spec.
Context {K : Type} {Ops : RingOps K}.
(** a matrix stored row by row, times a vector *)
Definition lin (cols : nat) (W x : vec (K := K)) (i : nat) : K := sumn cols (fun j => rmul (W (i * cols + j)) (x j)).
(** a swipe is given by its bits: in dimension d it goes down if bit d is set, up otherwise *)
Definition edge (dims u : list nat) (s d : nat) : bool := if Nat.testbit s d then nth d u 0 =? nth d dims 0 - 1 else nth d u 0 =? 0.
(** where it comes from in dimension d *)
Definition origin (u : list nat) (s d : nat) : list nat := upd d (if Nat.testbit s d then nth d u 0 + 1 else nth d u 0 - 1) u.
Record sweep_weights := { sw_in : vec (K := K); sw_hid : nat -> bool -> vec (K := K); sw_border : nat -> list nat -> vec (K := K); sw_out : vec (K := K); sw_direct : vec (K := K) }.
(** the values H of the hidden units for the inputs x: the input at the place, and for every dimension the unit the swipe comes from, or the border *)
Definition sweep (dims : list nat) (nin nhout : nat) (W : sweep_weights) (g : vec -> vec) (x : list nat -> vec) (H : list nat -> nat -> vec) : Prop :=
  forall u s, Forall2 lt u dims -> s < 2 ^ length dims -> forall j, j < nhout ->
  H u s j = g (fun i => radd (lin nin (sw_in W) (x u) i)
                (sumn (length dims) (fun d => if edge dims u s d then sw_border W d u i else lin nhout (sw_hid W d (Nat.testbit s d)) (H (origin u s d) s) i))) j.
(** the output at a place: all swipes over that place *)
Definition collect (dims : list nat) (nin nhout : nat) (W : sweep_weights) (h : K -> K) (x : list nat -> vec) (H : list nat -> nat -> vec) (u : list nat) (k : nat) : K :=
  h (radd (sumn (2 ^ length dims) (fun s => lin nhout (sw_out W) (H u s) k)) (lin nin (sw_direct W) (x u) k)).
End Spec.
(** symmetries of a grid: dimensions of equal size are exchanged by pi, then some are reflected *)
Definition symmetry (dims : list nat) (pi : nat -> nat) : Prop :=
  (forall d, d < length dims -> pi d < length dims /\ nth (pi d) dims 0 = nth d dims 0) /\
  (forall d e, d < length dims -> e < length dims -> pi d = pi e -> d = e).
Definition moved (dims : list nat) (pi : nat -> nat) (flip : nat -> bool) (u : list nat) : list nat :=
  map (fun d => if flip d then nth d dims 0 - 1 - nth (pi d) u 0 else nth (pi d) u 0) (seq 0 (length dims)).
(** views on a flat layer do not overlap *)
Definition disjoint_views (dims : list nat) (size : nat) (off : list nat -> nat) : Prop :=
  forall u v i j, Forall2 lt u dims -> Forall2 lt v dims -> i < size -> j < size -> off u + i = off v + j -> u = v.
Section Conv.
Context {K : Type} {Ops : RingOps K}.
(** a board with a border of x fields in front and as many as are needed behind; two values for each field *)
Definition framed (boardSize x : nat) (board bias : vec (K := K)) (r c ch : nat) : K :=
  if (x <=? r) && (r <? x + boardSize) && (x <=? c) && (c <? x + boardSize) then board (((r - x) * boardSize + (c - x)) * 2 + ch) else bias ch.
(** one field of the result: features of the window that starts there, rows k of the window have weights of their own *)
Definition convolved (inputdim convSize features : nat) (Wk : nat -> vec (K := K)) (Wo : vec (K := K)) (th sg : K -> K) (field : nat -> nat -> nat -> K) (i j : nat) : K :=
  sg (sumn features (fun f => rmul (Wo f) (th (sumn convSize (fun k => sumn convSize (fun l => sumn inputdim (fun ch =>
      rmul (Wk k ((f * convSize + l) * inputdim + ch)) (field (i + k) (j + l) ch)))))))).
End Conv.
