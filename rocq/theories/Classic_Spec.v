(** Independent description of the classic control tasks. *)
From Coq Require Import Reals.
From Verif Require Import Base Functions_Model Classic_Model.
Local Open Scope R_scope.

(** a run of actions *)
Fixpoint acts {S} (k : cfg S) (t : task S) (l : list Z) : result (task S) :=
  match l with [] => Ok t | a :: l => let! t := performAction k t a in acts k t l end.
(** the three phases an episode can be in after n actions *)
Inductive phase {S} (k : cfg S) (n : nat) (t : task S) : Prop :=
| Running : t_done t = 0%nat -> t_steps t = n -> (n < k_max k)%nat -> (n <> 0%nat -> snd (k_reward k (t_state t)) = false) -> phase k n t
| Reached : (t_steps t <= n)%nat -> (0 < t_steps t < k_max k)%nat -> snd (k_reward k (t_state t)) = true -> t_done t = (1 + (n - t_steps t))%nat ->
    t_r t = Some (fst (k_reward k (t_state t))) -> phase k n t
| TimeUp : (k_max k <= n)%nat -> t_steps t = k_max k -> t_done t = (5 + (n - k_max k))%nat -> t_r t = Some (fst (k_reward k (t_state t))) -> phase k n t.

(** two arms, theta1 from the vertical, theta2 relative to the first arm: the equations of motion *)
Definition free_arms (x : arms) (torque a1 a2 : R) : Prop :=
  d1 x * a1 + d2 x * a2 - m2 * l1 * lc2 * sin (th2 x) * (2 * th1' x * th2' x + th2' x ^ 2) +
    (m1 * lc1 + m2 * l1) * g * sin (th1 x) + m2 * lc2 * g * sin (th1 x + th2 x) = 0 /\
  d2 x * a1 + (m2 * lc2 ^ 2 + I2) * a2 + m2 * l1 * lc2 * sin (th2 x) * th1' x ^ 2 + m2 * lc2 * g * sin (th1 x + th2 x) = torque.
(** the height of the tip above the hinge, both arms of length 1 *)
Definition tip (x : arms) : R := - cos (th1 x) - cos (th1 x + th2 x).
Definition arms_ok (x : arms) : Prop := Rabs (th1 x) <= PI /\ Rabs (th2 x) <= PI /\ Rabs (th1' x) <= 4 * PI /\ Rabs (th2' x) <= 9 * PI.
Definition arms_mirror (x : arms) : arms := Arms (- th1 x) (- th2 x) (- th1' x) (- th2' x).

Definition car_ok (s : R * R) : Prop := - (14 / 10) <= fst s <= 52 / 100 /\ Rabs (snd s) <= 7 / 100.
Definition ship_ok (x : ship) : Prop := -180 <= hd x <= 180 /\ -180 <= hd' x <= 180 /\ -10 <= sp x <= 40.
