(** Model of the flexible cube: rl/environments/flexcube/environment.py, parts of sensors.py, and tasks.py without the target tasks.

    Numbers are exact reals.  Positions and velocities are functions of the vertex (0..7) and the axis (0..2); the 64 x 1 matrices
    of the code are functions of the two vertices.  Actions have twelve entries, one for each edge.  Rendering and the sockets
    are not modelled; the sensors' copies are taken at the time they are read. *)
From Verif Require Import Base.
From Coq Require Import Reals.
Local Open Scope nat_scope.

Definition mat : Type := nat -> nat -> R.
Definition total (l : list R) : R := fold_right Rplus 0%R l.
(** a sum over the eight vertices *)
Definition over8 (f : nat -> R) : R := total (map f (seq 0 8)).
(** numpy's clip *)
Definition clipR (x lo hi : R) : R := Rmin (Rmax x lo) hi.

(** ** environment.py *)
Record cube := { c_pos : nat -> nat -> R; c_vel : nat -> nat -> R; c_spring : nat -> nat -> R; c_dif : nat -> nat -> nat -> R; c_dist : nat -> nat -> R; c_center : nat -> R; c_step : nat; c_action : list R }.
(** 69-70: the loops' i, j and k of a vertex *)
Definition ijk (c : nat) : nat * nat * nat := (c / 4, (c / 2) mod 2, c mod 2).
Definition adiff (a b : nat) : nat := (a - b) + (b - a).
(** 47-63 *)
Definition setEdges : list (nat * nat) :=
  flat_map (fun c1 => flat_map (fun c2 =>
    let '(i, j, k) := ijk c1 in
    let '(i2, j2, k2) := ijk c2 in
    if (adiff i i2 + adiff j j2 + adiff k k2 =? 1) && (i <=? i2) && (j <=? j2) && (k <=? k2) then [(c1, c2)] else []) (seq 0 8)) (seq 0 8).
(** 71 *)
Definition corner (height : R) (c axis : nat) : R :=
  let '(i, j, k) := ijk c in
  (match axis with
   | 0 => INR i * 20 - 20 / 2
   | 1 => INR j * 20 - 20 / 2 + height
   | _ => INR k * 20 - 20 / 2
   end)%R.
(** 76, 151 *)
Definition difM (p : mat) (i j axis : nat) : R := (p i axis - p j axis)%R.
(** 77, 152 *)
Definition distM (p : mat) (i j : nat) : R := sqrt (difM p i j 0 ^ 2 + difM p i j 1 ^ 2 + difM p i j 2 ^ 2).
(** 65-80: the centre of gravity and the time count are left as they are *)
Definition cubeReset (height : R) (s : cube) : cube :=
  let p := corner height in
  {| c_pos := p; c_vel := fun _ _ => 0%R; c_spring := distM p; c_dif := difM p; c_dist := distM p; c_center := c_center s; c_step := 0; c_action := repeat 20%R 12 |}.
(** 103-104: minAkt and maxAkt *)
Definition normAct (a : list R) : list R := map (fun x => clipR x (20 * (7 / 10)) (20 * (13 / 10))) a.
Definition put2 (m : mat) (i j : nat) (x : R) : mat := fun i' j' => if (i' =? i) && (j' =? j) then x else m i' j'.
(** 106-111 *)
Fixpoint actFrom (count : nat) (es : list (nat * nat)) (a : list R) (m : mat) : mat :=
  match es with
  | [] => m
  | (i, j) :: rest => actFrom (count + 1) rest a (put2 (put2 m i j (nth count a 0%R)) j i (nth count a 0%R))
  end.
Definition act (a : list R) (m : mat) : mat := actFrom 0 setEdges a m.
(** 22, 27-28, 30 *)
Definition gravity (axis : nat) : R := if axis =? 1 then (-100)%R else 0%R.
(** 116-125: what the spring between i and j adds to the velocity of i *)
Definition spring_pull (s : cube) (i j axis : nat) : R :=
  (c_dif s i j axis / (c_dist s i j + / 10000000000) * ((c_spring s i j - c_dist s i j) * 60 * (2 / 100)))%R.
(** 129-136 *)
Definition pulled (s : cube) (i axis : nat) : R :=
  let v := (c_vel s i axis + over8 (fun j => spring_pull s i j axis) + gravity axis * (2 / 100))%R in
  (v - v * (4 / 10) * (2 / 100))%R.
(** 139 *)
Definition moved (s : cube) (i axis : nat) : R := (c_pos s i axis + 2 / 100 * pulled s i axis)%R.
(** 141-145 *)
Definition below (s : cube) (i : nat) : bool := if Rlt_dec (moved s i 1) 0 then true else false.
Definition landedPos (s : cube) (i axis : nat) : R := if below s i && (axis =? 1) then 0%R else moved s i axis.
Definition landedVel (s : cube) (i axis : nat) : R := if below s i then (if axis =? 1 then (- pulled s i axis)%R else 0%R) else pulled s i axis.
(** 113-152 *)
Definition euler (s : cube) : cube :=
  {| c_pos := landedPos s; c_vel := landedVel s; c_spring := c_spring s; c_dif := difM (landedPos s); c_dist := distM (landedPos s);
     c_center := fun axis => (over8 (fun i => landedPos s i axis) / 8)%R; c_step := c_step s; c_action := c_action s |}.
(** 86-91 *)
Definition cubePerform (s : cube) (a : list R) : cube :=
  let a' := normAct a in
  let e := euler {| c_pos := c_pos s; c_vel := c_vel s; c_spring := act a' (c_spring s); c_dif := c_dif s; c_dist := c_dist s; c_center := c_center s; c_step := c_step s; c_action := a' |} in
  {| c_pos := c_pos e; c_vel := c_vel e; c_spring := c_spring e; c_dif := c_dif e; c_dist := c_dist e; c_center := c_center e; c_step := c_step e + 1; c_action := c_action e |}.
(** 12-41: a new cube; before it the centre of gravity is zero *)
Definition newCube : cube :=
  let z := {| c_pos := fun _ _ => 1%R; c_vel := fun _ _ => 0%R; c_spring := fun _ _ => 1%R; c_dif := fun _ _ _ => 0%R; c_dist := fun _ _ => 0%R; c_center := fun _ => 0%R; c_step := 0; c_action := [] |} in
  let r := cubeReset 10 z in
  euler {| c_pos := c_pos r; c_vel := c_vel r; c_spring := act (repeat 20%R 12) (c_spring r); c_dif := c_dif r; c_dist := c_dist r; c_center := c_center r; c_step := 0; c_action := c_action r |}.

(** ** sensors.py *)
(** 44 *)
Definition sensorEdges : list nat := [1; 2; 4; 11; 13; 19; 22; 31; 37; 38; 47; 55].
(** 58-62, 65-69 *)
Definition edgesReal (s : cube) : list R := map (fun e : nat => (c_dist s (e / 8)%nat (e mod 8)%nat / 30)%R) sensorEdges.
Definition edgesSum (s : cube) : R := (total (map (fun e : nat => c_dist s (e / 8)%nat (e mod 8)%nat) sensorEdges) - 240)%R.
(** 79-83, 86-90 *)
Definition contact (s : cube) (i : nat) : R := clipR (1 - c_pos s i 1) 0 1.
Definition minHeight (s : cube) : R := fold_right Rmin (c_pos s 0 1) (map (fun i => c_pos s i 1) (seq 1 7)).
(** 93-97 with 49-50 *)
Definition distToOrigin (s : cube) : R := (sqrt (c_center s 0 ^ 2 + 0 ^ 2 + c_center s 2 ^ 2) * (125 / 100000))%R.

(** ** tasks.py *)
(** 38, 79 *)
Definition span : R := ((13 / 10 - 7 / 10) * 20)%R.
Definition scaled (x : R) : R := ((x + 1) / 2 * span + 7 / 10 * 20)%R.
(** 79-83: the action handed to the environment, which the task remembers *)
Definition taskAction (maxSpeed : R) (old a : list R) : list R := map (fun e => clipR (scaled (snd e)) (fst e - maxSpeed) (fst e + maxSpeed)) (combine old a).
(** 71-73 *)
Definition pain (edges : list R) : R := total (map (fun e => ((clipR e 1 4 - 1) ^ 2)%R) edges).
(** 47-50, 118-121 *)
Definition growReward (raw : R) (edges : list R) : R := (raw - pain edges)%R.
Definition walkReward (epiStep epiLen : nat) (raw : R) (edges : list R) : R := if epiStep <? epiLen then (- pain edges)%R else (raw * 800 - pain edges)%R.
(** 189-199: the reward and maxReward *)
Definition jumpReward (epiStep epiLen : nat) (maxReward raw : R) (edges : list R) : R * R :=
  if epiStep <? epiLen then ((- pain edges)%R, if Rlt_dec maxReward raw then raw else maxReward) else ((maxReward - pain edges)%R, maxReward).
(** an episode of steps (epiStep counts from 1), each with a height and edge lengths *)
Fixpoint jumpRun (epiStep epiLen : nat) (maxReward : R) (l : list (R * list R)) : list R :=
  match l with [] => [] | (raw, es) :: r => let x := jumpReward epiStep epiLen maxReward raw es in fst x :: jumpRun (epiStep + 1) epiLen (snd x) r end.
