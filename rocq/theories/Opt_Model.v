(** Model of optimization/optimizer.py (BlackBoxOptimizer) for scalar fitness values.

    X is the type of evaluables.  An evaluator may be noisy: its result depends on the number of
    evaluations done so far as well as on the evaluable; [Bad] is nan or inf.  What a concrete
    algorithm does in _additionalInit or _learnStep is a program that asks for evaluations one
    after the other and may use the results ([prog]); it may also raise.  Not modelled:
    vector-valued fitnesses, constraints, wrapping of arrays, listeners. *)
From Verif Require Import Base.
From Coq Require Import QArith.
Local Open Scope Z_scope.

Inductive evalres : Type := Val (q : Q) | Bad.
Definition evaluator (X : Type) : Type := Z -> X -> evalres.
(** rl/environments/functions/transformations.py:15-33 oppositeFunction *)
Definition neg_res (r : evalres) : evalres := match r with Val q => Val (- q)%Q | Bad => Bad end.
Definition oppositeFunction {X} (f : evaluator X) : evaluator X := fun i x => neg_res (f i x).

Section Opt.
  Context {X : Type}.
  Record opt : Type := {
    o_mustMin : bool; o_mustMax : bool;      (* class attributes of the algorithm *)
    o_min : option bool; o_opposed : bool;   (* __minimize, _wasOpposed *)
    o_eval : option (evaluator X);
    o_desired : option Q; o_maxEval : option Z; o_batch : Z; o_maxSteps : option Z;
    o_nEval : Z; o_nSteps : Z;
    o_bestE : option Q; o_best : option X; o_init : option X;
    o_store : bool;                          (* storeAllEvaluated and storeAllEvaluations *)
    o_allX : list X; o_allE : list Q }.

  Definition set_dir (o : opt) (mn : option bool) (op : bool) (ev : option (evaluator X)) (d : option Q) : opt :=
    {| o_mustMin := o_mustMin o; o_mustMax := o_mustMax o; o_min := mn; o_opposed := op; o_eval := ev; o_desired := d;
       o_maxEval := o_maxEval o; o_batch := o_batch o; o_maxSteps := o_maxSteps o; o_nEval := o_nEval o; o_nSteps := o_nSteps o;
       o_bestE := o_bestE o; o_best := o_best o; o_init := o_init o; o_store := o_store o; o_allX := o_allX o; o_allE := o_allE o |}.
  Definition set_best (o : opt) (e : option Q) (x : option X) : opt :=
    {| o_mustMin := o_mustMin o; o_mustMax := o_mustMax o; o_min := o_min o; o_opposed := o_opposed o; o_eval := o_eval o; o_desired := o_desired o;
       o_maxEval := o_maxEval o; o_batch := o_batch o; o_maxSteps := o_maxSteps o; o_nEval := o_nEval o; o_nSteps := o_nSteps o;
       o_bestE := e; o_best := x; o_init := o_init o; o_store := o_store o; o_allX := o_allX o; o_allE := o_allE o |}.
  Definition set_init (o : opt) (x : X) : opt :=
    {| o_mustMin := o_mustMin o; o_mustMax := o_mustMax o; o_min := o_min o; o_opposed := o_opposed o; o_eval := o_eval o; o_desired := o_desired o;
       o_maxEval := o_maxEval o; o_batch := o_batch o; o_maxSteps := o_maxSteps o; o_nEval := o_nEval o; o_nSteps := o_nSteps o;
       o_bestE := o_bestE o; o_best := o_best o; o_init := Some x; o_store := o_store o; o_allX := o_allX o; o_allE := o_allE o |}.
  Definition set_steps (o : opt) (m : option Z) (n : Z) : opt :=
    {| o_mustMin := o_mustMin o; o_mustMax := o_mustMax o; o_min := o_min o; o_opposed := o_opposed o; o_eval := o_eval o; o_desired := o_desired o;
       o_maxEval := o_maxEval o; o_batch := o_batch o; o_maxSteps := m; o_nEval := o_nEval o; o_nSteps := n;
       o_bestE := o_bestE o; o_best := o_best o; o_init := o_init o; o_store := o_store o; o_allX := o_allX o; o_allE := o_allE o |}.
  Definition count_eval (o : opt) (x : X) (user : Q) : opt :=
    {| o_mustMin := o_mustMin o; o_mustMax := o_mustMax o; o_min := o_min o; o_opposed := o_opposed o; o_eval := o_eval o; o_desired := o_desired o;
       o_maxEval := o_maxEval o; o_batch := o_batch o; o_maxSteps := o_maxSteps o; o_nEval := o_nEval o + 1; o_nSteps := o_nSteps o;
       o_bestE := o_bestE o; o_best := o_best o; o_init := o_init o; o_store := o_store o;
       o_allX := if o_store o then o_allX o ++ [x] else o_allX o; o_allE := if o_store o then o_allE o ++ [user] else o_allE o |}.

  (** optimizer.py:158-161 _flipDirection *)
  Definition flip_desired (d : option Q) : option Q := match d with Some q => Some (- q)%Q | None => None end.
  Definition flipDirection (o : opt) : opt :=
    set_dir o (o_min o) (o_opposed o) (match o_eval o with Some f => Some (oppositeFunction f) | None => None end) (flip_desired (o_desired o)).
  (** optimizer.py:97-113 _setMinimize *)
  Definition setMinimize (o : opt) (flag : bool) : opt :=
    let opp := if flag then o_mustMax o else o_mustMin o in
    let mn := if opp then negb flag else flag in
    let o1 := match o_eval o with
              | Some _ => if Bool.eqb opp (o_opposed o) then o else flipDirection o
              | None => o
              end in
    set_dir o1 (Some mn) opp (o_eval o1) (o_desired o1).

  (** the programs of concrete algorithms *)
  Inductive prog (S : Type) : Type :=
    | Ret (s : S)
    | Fail (e : exn)
    | Ev (x : X) (k : Q -> prog S).
  Arguments Ret {S} s.
  Arguments Fail {S} e.
  Arguments Ev {S} x k.

  Definition qle (a b : Q) : bool := Qle_bool a b.
  Definition user_value (o : opt) (v : Q) : Q := if o_opposed o then (- v)%Q else v.
  Definition minimizing (o : opt) : bool := match o_min o with Some true => true | _ => false end.
  (** optimizer.py:225-281 _oneEvaluation, for scalar results without constraints *)
  Definition oneEvaluation (o : opt) (x : X) : result (opt * Q) :=
    match o_eval o with
    | None => Err TypeError
    | Some f =>
        match f (o_nEval o) x with
        | Bad => Err DivergenceError
        | Val v =>
            let better := match o_bestE o with
                          | None => true
                          | Some b => (o_nEval o =? 0) || (if minimizing o then qle v b else qle b v)
                          end in
            let o1 := if better then set_best o (Some v) (Some x) else o in
            Ok (count_eval o1 x (user_value o v), v)
        end
    end.
  (** runs a program; the last component is the list of evaluations made *)
  Fixpoint run {S} (p : prog S) (o : opt) : opt * result S * list (X * Q) :=
    match p with
    | Ret s => (o, Ok s, [])
    | Fail e => (o, Err e, [])
    | Ev x k =>
        match oneEvaluation o x with
        | Err e => (o, Err e, [])
        | Ok (o', v) => let '(o2, r, l) := run (k v) o' in (o2, r, (x, v) :: l)
        end
    end.

  (** the defaults a FitnessEvaluator provides: desiredValue and toBeMinimized *)
  Record fitev : Type := { fe_desired : option Q; fe_min : bool }.
  (** optimizer.py:118-156 setEvaluator with an evaluable given; init is _additionalInit *)
  Definition setEvaluator {S} (o : opt) (f : evaluator X) (fe : option fitev) (x0 : X) (init : prog S) : opt * result S * list (X * Q) :=
    let o1 := match fe with
              | None => o
              | Some d =>
                  let o' := match o_desired o with None => set_dir o (o_min o) (o_opposed o) (o_eval o) (fe_desired d) | Some _ => o end in
                  match o_min o' with None => setMinimize o' (fe_min d) | Some _ => o' end
              end in
    let o2 := match o_min o1 with None => setMinimize o1 false | Some _ => o1 end in
    let o3 := set_dir o2 (o_min o2) (o_opposed o2) (Some f) (o_desired o2) in
    let o4 := if o_opposed o3 then flipDirection o3 else o3 in
    let o5 := set_best (set_init o4 x0) None (o_best o4) in
    let '(o6, r, l) := run init o5 in
    match r with
    | Ok s => (set_best o6 (o_bestE o6) (o_init o6), Ok s, l)
    | Err e => (o6, Err e, l)
    end.

  (** optimizer.py:216-223 _bestFound *)
  Definition bestFound (o : opt) : option X * option Q :=
    (o_best o, match o_bestE o with Some v => Some (user_value o v) | None => None end).
  (** optimizer.py:283-292 _stoppingCriterion *)
  Definition budget_reached (o : opt) : bool := match o_maxEval o with Some m => m <? o_nEval o + o_batch o | None => false end.
  Definition desired_reached (o : opt) : bool :=
    match o_desired o, o_bestE o with
    | Some d, Some b => if minimizing o then qle b d else qle d b
    | _, _ => false
    end.
  Definition steps_reached (o : opt) : bool := match o_maxSteps o with Some m => m <? o_nSteps o | None => false end.
  Definition stoppingCriterion (o : opt) : bool := budget_reached o || desired_reached o || steps_reached o.

  Inductive why : Type := Stopped | Broke (e : exn) | Raised (e : exn) | FuelOut.
  (** optimizer.py:199-209 the loop of learn; [step s o] is _learnStep in algorithm state s *)
  Fixpoint loop {S} (fuel : nat) (step : S -> opt -> prog S) (s : S) (o : opt) : opt * S * why * list (X * Q) :=
    if stoppingCriterion o then (o, s, Stopped, [])
    else match fuel with
         | O => (o, s, FuelOut, [])
         | Datatypes.S fuel' =>
             match run (step s o) o with
             | (o', Ok s', l) => let '(o2, s2, w, l2) := loop fuel' step s' (set_steps o' (o_maxSteps o') (o_nSteps o' + 1)) in (o2, s2, w, l ++ l2)
             | (o', Err e, l) =>
                 match e with
                 | DivergenceError | ValueError => (o', s, Broke e, l)
                 | _ => (o', s, Raised e, l)
                 end
             end
         end.
  (** optimizer.py:194-210 learn *)
  Definition learn {S} (fuel : nat) (additional : option Z) (step : S -> opt -> prog S) (s : S) (o : opt) : opt * S * why * list (X * Q) :=
    let o1 := match additional with Some n => set_steps o (Some (o_nSteps o + n - 1)) (o_nSteps o) | None => o end in
    loop fuel step s o1.
End Opt.
Arguments opt : clear implicits.
Arguments prog : clear implicits.
Arguments Ret {X S} s.
Arguments Fail {X S} e.
Arguments Ev {X S} x k.

(** Programs that evaluate a list of candidates in turn. *)
Fixpoint evaluate_all {X S} (l : list X) (k : list Q -> prog X S) : prog X S :=
  match l with [] => k [] | x :: l' => Ev x (fun v => evaluate_all l' (fun vs => k (v :: vs))) end.
(** hillclimber.py:13-14 and randomsearch.py:9-10 _additionalInit *)
Definition hill_init {X} (x0 : X) : prog X unit := Ev x0 (fun _ => Ret tt).
(** hillclimber.py:22-25 _learnStep, not noisy; mut is the result of mutate in step s *)
Definition hill_step {X} (mut : nat -> X -> X) (s : nat) (o : opt X) : prog X nat :=
  match o_best o with Some x => Ev (mut s x) (fun _ => Ret (S s)) | None => Fail AttributeError end.
(** es.py:22-29 _additionalInit: the start point and its mutations *)
Definition es_init {X} (x0 : X) (mutants : list X) : prog X unit := evaluate_all (x0 :: mutants) (fun _ => Ret tt).
(** es.py:43-60 _learnStep: when noisy the mu parents are evaluated again before the offspring *)
Definition es_step {X} (noisy : bool) (parents offspring : list X) : prog X unit :=
  evaluate_all (if noisy then parents ++ offspring else offspring) (fun _ => Ret tt).
(** es.py:31-36 _popsize, es.py:70-75 batchSize *)
Definition es_popsize (elitism : bool) (mu lambda : Z) : Z := if elitism then mu + lambda else lambda.
Definition es_batch (noisy elitism : bool) (mu lambda : Z) : Z := if noisy then es_popsize elitism mu lambda else lambda.
(** hillclimber.py:43-58 StochasticHillClimber._learnStep (not noisy), challenger and the accepting draw given *)
Definition shc_step {X} (o : opt X) (challenger : X) (accept : bool) : result (opt X) :=
  let! r := oneEvaluation o challenger in
  let '(o', v) := r in
  match o_bestE o' with
  | Some b => if (if minimizing o' then negb (qle v b) else negb (qle b v)) && accept then Ok (set_best o' (Some v) (Some challenger)) else Ok o'
  | None => Ok o'
  end.
