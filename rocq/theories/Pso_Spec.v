(** What a particle swarm does, stated without the optimizer's helpers. *)
From Verif Require Import Base RingOps Pso_Model.

(** a strict weak order, such as < on numbers *)
Definition strict_weak {F} (ltb : F -> F -> bool) : Prop :=
  (forall a, ltb a a = false) /\ (forall a b c, ltb a b = true -> ltb b c = true -> ltb a c = true) /\
  (forall a b c, ltb a b = false -> ltb b c = false -> ltb a c = false).
(** "a is preferred to b": smaller when minimizing, larger when maximizing *)
Definition preferred {F} (ltb : F -> F -> bool) (minimize : bool) (a b : F) : Prop :=
  (minimize = true /\ ltb a b = true) \/ (minimize = false /\ ltb b a = true).
(** index k is the first of the best among the first n values of a sequence *)
Definition first_best {F} (ltb : F -> F -> bool) (minimize : bool) (v : nat -> option F) (n k : nat) : Prop :=
  k < n /\ exists b, v k = Some b /\
    (forall j, j < n -> exists a, v j = Some a /\ ~ preferred ltb minimize a b) /\
    (forall j, j < k -> exists a, v j = Some a /\ preferred ltb minimize b a).

Section Linear.
Context {K : Type} {Ops : RingOps K}.
Local Open Scope r_scope.
Definition plus (x y : list K) : list K := map (fun ab => fst ab + snd ab) (combine x y).
(** a linear map between spaces of dimension m and m' *)
Definition linear (m m' : nat) (L : list K -> list K) : Prop :=
  (forall x, length x = m -> length (L x) = m') /\
  (forall x y, length x = m -> length y = m -> L (plus x y) = plus (L x) (L y)) /\
  (forall c x, length x = m -> L (map (fun a => c * a) x) = map (fun a => c * a) (L x)).
(** an affine map: a linear one followed by a shift *)
Definition affine (m m' : nat) (phi : list K -> list K) : Prop :=
  exists L b, linear m m' L /\ length b = m' /\ forall x, length x = m -> phi x = plus (L x) b.
(** the equation a . x = c *)
Definition on_plane (a : list K) (c : K) (x : list K) : Prop := suml (combine a x) (fun ab => fst ab * snd ab) = c.
End Linear.
