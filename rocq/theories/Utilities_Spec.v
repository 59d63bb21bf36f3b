(** Specification vocabulary for pybrain/utilities.py. *)
From Verif Require Import Base.
From Coq Require Import QArith.
Open Scope nat_scope.

(** Lexicographic order on tuples of the same length. *)
Inductive lex : list nat -> list nat -> Prop :=
| lex_lt : forall a b l m, a < b -> length l = length m -> lex (a :: l) (b :: m)
| lex_eq : forall a l m, lex l m -> lex (a :: l) (a :: m).

(** [x] can be reached from [init] by steps that stay in [P]. *)
Inductive reach {A} (step : A -> list A) (P : A -> Prop) (init : list A) : A -> Prop :=
| reach_init : forall x, In x init -> P x -> reach step P init x
| reach_step : forall x y, reach step P init x -> In y (step x) -> P y -> reach step P init y.

(** square, with nothing below the diagonal *)
Definition upper_triangular {V} (vzero : V) (dim : nat) (m : list (list V)) : Prop :=
  length m = dim /\
  forall i row, nth_error m i = Some row ->
    length row = dim /\ forall j, j < i -> nth_error row j = Some vzero.

(** sum of the first [i] entries *)
Fixpoint cumul (l : list Q) (i : nat) : Q :=
  match i, l with
  | S k, p :: t => (p + cumul t k)%Q
  | _, _ => 0%Q
  end.
