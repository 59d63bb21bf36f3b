(** Spec for C89: the flexible cube. *)
From Verif Require Import Base Flex_Model.
From Coq Require Import Reals.
Local Open Scope nat_scope.

(** the vertices of a cube by their three coordinates 0 or 1; an edge joins two that differ in exactly one *)
Definition vertex (x y z : nat) : nat := 4 * x + 2 * y + z.
Definition edge (a b : nat) : Prop := exists x y z, x <= 1 /\ y <= 1 /\ z <= 1 /\
  (x = 0 /\ a = vertex 0 y z /\ b = vertex 1 y z \/ y = 0 /\ a = vertex x 0 z /\ b = vertex x 1 z \/ z = 0 /\ a = vertex x y 0 /\ b = vertex x y 1).

(** the cubes that can be reached by acting and resetting (with any starting height: RollingUpTask changes it) *)
Inductive reached : cube -> Prop :=
| reached_new : reached newCube
| reached_reset h s : reached s -> reached (cubeReset h s)
| reached_act a s : reached s -> reached (cubePerform s a).
(** the cube in the middle of a step, before the floor is looked at, has this momentum *)
Definition momentum (v : mat) (axis : nat) : R := (v 0%nat axis + v 1%nat axis + v 2%nat axis + v 3%nat axis + v 4%nat axis + v 5%nat axis + v 6%nat axis + v 7%nat axis)%R.
(** where the centre of the eight vertices is *)
Definition middle (p : mat) (axis : nat) : R := (momentum p axis / 8)%R.
(** a cube with the given lengths wanted for its edges, the springs across being left *)
Definition wanting (s : cube) (a : list R) : cube :=
  {| c_pos := c_pos s; c_vel := c_vel s; c_spring := act (normAct a) (c_spring s); c_dif := c_dif s; c_dist := c_dist s; c_center := c_center s; c_step := c_step s; c_action := normAct a |}.
