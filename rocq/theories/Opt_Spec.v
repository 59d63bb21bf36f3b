(** What a user of a black-box optimizer asks for, independently of how it is arranged inside. *)
From Verif Require Import Base Opt_Model.
From Coq Require Import QArith.
Local Open Scope Z_scope.

(** v is at least as good as w for someone who minimizes (true) or maximizes (false) *)
Definition as_good (minimize : bool) (v w : Q) : Prop := if minimize then (v <= w)%Q else (w <= v)%Q.
(** the element of a log that has to be reported: no earlier one is better, every later one is worse *)
Definition champion {X} (minimize : bool) (log : list (X * Q)) (x : X) (v : Q) : Prop :=
  exists pre post, log = pre ++ (x, v) :: post /\
    (forall y w, In (y, w) pre -> as_good minimize v w) /\ (forall y w, In (y, w) post -> ~ as_good minimize w v).
(** a log of evaluations of f, the first of which is call number n of the evaluator *)
Definition log_of {X} (f : evaluator X) (n : Z) (log : list (X * Q)) : Prop :=
  forall k x v, nth_error log k = Some (x, v) -> exists q, f (n + Z.of_nat k) x = Val q /\ (q == v)%Q.

(** a history of configuring an optimizer *)
Inductive op (X : Type) : Type :=
  | SetMin (flag : bool)
  | SetEval (f : evaluator X) (fe : option fitev) (x0 : X) (init : prog X unit).
Arguments SetMin {X} flag.
Arguments SetEval {X} f fe x0 init.
Definition exec {X} (o : opt X) (c : op X) : opt X :=
  match c with SetMin b => setMinimize o b | SetEval f fe x0 init => fst (fst (setEvaluator o f fe x0 init)) end.
Definition fresh {X} (mmin mmax store : bool) (d : option Q) (maxE : option Z) (batch : Z) (maxS : option Z) : opt X :=
  {| o_mustMin := mmin; o_mustMax := mmax; o_min := None; o_opposed := false; o_eval := None; o_desired := d; o_maxEval := maxE; o_batch := batch;
     o_maxSteps := maxS; o_nEval := 0; o_nSteps := 0; o_bestE := None; o_best := None; o_init := None; o_store := store; o_allX := []; o_allE := [] |}.
(** the direction, the evaluator and the desired value the user has asked for *)
Definition wanted_dir {X} (d : option bool) (c : op X) : option bool :=
  match c with
  | SetMin b => Some b
  | SetEval _ fe _ _ => match d with Some b => Some b | None => Some (match fe with Some e => fe_min e | None => false end) end
  end.
Definition wanted_eval {X} (e : option (evaluator X)) (c : op X) : option (evaluator X) :=
  match c with SetMin _ => e | SetEval f _ _ _ => Some f end.
Definition wanted_desired {X} (d : option Q) (c : op X) : option Q :=
  match c with SetMin _ => d | SetEval _ fe _ _ => match d, fe with None, Some e => fe_desired e | _, _ => d end end.
Definition evals {X} (l : list (op X)) : nat := length (filter (fun c => match c with SetEval _ _ _ _ => true | _ => false end) l).
