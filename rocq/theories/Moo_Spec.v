(** Spec for C86: Pareto sets and pair energies. *)
From Verif Require Import Base Moo_Model.
From Coq Require Import Reals.
Local Open Scope R_scope.

(** all the objectives at least as high, and not all the same *)
Definition dominates (u v : list R) : Prop := Forall2 (fun a b => b <= a) u v /\ u <> v.
(** the points of the domain whose values no other point of the domain dominates *)
Definition pareto {X} (dom : X -> Prop) (f : X -> list R) (x : X) : Prop := dom x /\ forall y, dom y -> ~ dominates (f y) (f x).
(** within bounds *)
Definition inside (b : list (R * R)) (x : R * R) : Prop := Forall2 (fun b v => fst b <= v <= snd b) b [fst x; snd x].

(** the energy of two atoms at distance d, and of all of them *)
Definition apart (p q : point) : R := let '(a, b, c) := p in let '(a', b', c') := q in sqrt ((a - a') ^ 2 + (b - b') ^ 2 + (c - c') ^ 2).
Definition pair_energy (p q : point) : R := 4 * (/ apart p q ^ 12 - / apart p q ^ 6).
Fixpoint energy (l : list point) : R := match l with [] => 0 | p :: rest => sumR (map (pair_energy p) rest) + energy rest end.
Definition moved (v p : point) : point := let '(a, b, c) := p in let '(a', b', c') := v in (a + a', b + b', c + c').
Fixpoint flat (l : list point) : list R := match l with [] => [] | (a, b, c) :: rest => a :: b :: c :: flat rest end.
