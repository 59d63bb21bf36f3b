(** What linear value estimation is meant to compute. *)
From Verif Require Import Base ModelBased_Model.
From Coq Require Import QArith.
Local Open Scope nat_scope.

(** x solves the d linear equations A x = b *)
Definition solves (d : nat) (A : mat) (x b : nat -> Q) : Prop := forall i, i < d -> (sigma d (fun j => ent A i j * x j) == b i)%Q.
(** a least-squares solver: a system with a solution is solved *)
Definition solver (d : nat) (lstsq : mat -> vec -> vec) : Prop :=
  forall A b, rows A = d -> length b = d -> (exists x, solves d A x (at_ b)) -> length (lstsq A b) = d /\ solves d A (at_ (lstsq A b)) (at_ b).
(** the system has at most one solution *)
Definition unique (d : nat) (A : mat) : Prop := forall x, solves d A x (fun _ => 0%Q) -> forall i, i < d -> (x i == 0)%Q.

(** the value that weights give a state *)
Definition weighed (fMap : mat) (numF : nat) (w : nat -> Q) (s : nat) : Q := sigma numF (fun f => w f * ent fMap f s)%Q.
(** the statistics of all transitions from a state in [from] to a state in [to]:
    feature i of the start times the (discounted) change of feature j, feature i of the start times the reward *)
Definition among (ss : list nat) (s : nat) : Q := if existsb (Nat.eqb s) ss then 1%Q else 0%Q.
Definition stat (n : nat) (T : mat) (fMap : mat) (g : Q) (from to : list nat) (i j : nat) : Q :=
  sigma n (fun s => sigma n (fun t => among from s * among to t * (ent T s t * (ent fMap i s * (ent fMap j s - g * ent fMap j t)))))%Q.
Definition resid (n : nat) (T : mat) (R : vec) (fMap : mat) (from to : list nat) (i : nat) : Q :=
  sigma n (fun s => sigma n (fun t => among from s * among to t * (ent T s t * (ent fMap i s * at_ R t))))%Q.
(** the values of doing a in s and following the policy afterwards *)
Definition q_bellman (n : nat) (Ts : list mat) (R : nat -> Q) (g : Q) (p : mat) (q : nat -> nat -> Q) : Prop :=
  forall s a, s < n -> a < length Ts ->
    (q s a == sigma n (fun t => ent (nth a Ts []) s t * (R t + g * sigma (length Ts) (fun b => ent p t b * q t b))))%Q.
(** as many features as states, and none of them is redundant *)
Definition complete (n : nat) (fMap : mat) : Prop :=
  rows fMap = n /\ (forall i, i < n -> length (nth i fMap []) = n) /\
  forall w, (forall s, s < n -> (weighed fMap n w s == 0)%Q) -> forall f, f < n -> (w f == 0)%Q.
