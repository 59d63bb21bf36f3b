(** Memetic search: topology search interleaved with local search.

    pybrain/optimization/memetic/memetic.py         MemeticSearch
    pybrain/optimization/memetic/inversememetic.py  InverseMemeticSearch
    pybrain/optimization/randomsearch.py            WeightMaskGuessing
    pybrain/optimization/hillclimber.py             HillClimber (as the outer and the local search)
    pybrain/optimization/optimizer.py               TopologyOptimizer, and of BlackBoxOptimizer what they use

    The start is an array (or a parameter container), so the individuals are
    MaskedParameters around one shared container (Masked_Model.v); the evaluator
    sees the parameters of that container.  Exceptions keep the state reached:
    [Div] is DivergenceError, [Assert] the AssertionError of memetic.py:44.
    [mutate] and [topologyMutate] are class attributes that [switchMutations]
    exchanges for the whole process: [swapped].
    Simplifications: rationals; evaluatorIsNoisy is False; localSearch is HillClimber without further
    arguments; random mutations are functions of a counter. *)
From Verif Require Import Base Masked_Model Opt_Model.
From Coq Require Import QArith.
Import ListNotations.
Local Open Scope nat_scope.

Record msettings := {
  f_eval : nat -> list Q -> evalres;          (* the evaluator, by number of evaluations so far *)
  topo : nat -> masked -> masked;             (* MaskedParameters.topologyMutate *)
  wmut : nat -> masked -> masked;             (* MaskedParameters.mutate *)
  noise : nat -> list Q;                      (* ParameterContainer.mutate of the local search *)
  rnd : nat -> masked -> masked;              (* MaskedParameters.randomize *)
  s_min : bool; s_desired : option Q; s_maxEval : option nat; s_maxSteps : option nat; localSteps : nat }.

(** [log] is every completed evaluation, newest first: the individual, the parameters the
    evaluator saw, and the result. *)
Record mstate := { pc : list Q; swapped : bool; numE : nat; bestV : option Q; bestO : masked; tick : nat;
                   log : list (masked * list Q * Q) }.

Inductive out (A : Type) := Done (s : mstate) (a : A) | Div (s : mstate) | Assert (s : mstate).
Arguments Done {A} s a. Arguments Div {A} s. Arguments Assert {A} s.

Definition setPc (p : list Q) (s : mstate) : mstate :=
  {| pc := p; swapped := swapped s; numE := numE s; bestV := bestV s; bestO := bestO s; tick := tick s; log := log s |}.
Definition ticked (s : mstate) : mstate :=
  {| pc := pc s; swapped := swapped s; numE := numE s; bestV := bestV s; bestO := bestO s; tick := S (tick s); log := log s |}.

(** memetic.py:17-22 *)
Definition switchMutations (s : mstate) : mstate :=
  {| pc := pc s; swapped := negb (swapped s); numE := numE s; bestV := bestV s; bestO := bestO s; tick := tick s; log := log s |}.

(** optimizer.py:244-247 *)
Definition improves (mn : bool) (q : Q) (best : option Q) : bool :=
  match best with None => true | Some b => if mn then Qle_bool q b else Qle_bool b q end.

(** optimizer.py:225-281 BlackBoxOptimizer._oneEvaluation of the individual [o] *)
Definition blackBoxEval (c : msettings) (o : masked) (s : mstate) : out Q :=
  match f_eval c (numE s) (pc s) with
  | Bad => Div s
  | Val q =>
      let better := (numE s =? 0) || improves (s_min c) q (bestV s) in
      Done {| pc := pc s; swapped := swapped s; numE := S (numE s);
              bestV := if better then Some q else bestV s; bestO := if better then o else bestO s;
              tick := tick s; log := (o, pc s, q) :: log s |} q
  end.

(** memetic.py:33-35 [f]: sets the unmasked parameters (and the container) and
    evaluates.  [evaluable] is changed in place, hence returned. *)
Definition localEval (c : msettings) (o : masked) (x : list Q) (s : mstate) : out (masked * Q) :=
  match setParameters o x with
  | Err _ => Div s
  | Ok o' =>
      match blackBoxEval c o' (setPc (applyMask o') s) with
      | Done s' q => Done s' (o', q)
      | Div s' => Div s'
      | Assert s' => Assert s'
      end
  end.

(** The criterion the local search stops by (optimizer.py:283-292, batchSize 1). *)
Definition reached (c : msettings) (best : option Q) : bool :=
  match s_desired c, best with Some d, Some b => if s_min c then Qle_bool b d else Qle_bool d b | _, _ => false end.
Definition localStop (c : msettings) (n : nat) (bestq : Q) : bool := (localSteps c <? n + 1) || reached c (Some bestq).

Definition addNoise (x d : list Q) : list Q := map (fun e => (fst e + snd e)%Q) (combine x d).

(** hillclimber.py:22-25 within optimizer.py:199-210 for the local search: it has
    made [n] evaluations, its best point is [bx] with value [bq].  A divergence
    inside the loop only ends it. *)
Fixpoint localLoop (fuel : nat) (c : msettings) (o : masked) (bx : list Q) (bq : Q) (n : nat) (s : mstate) : mstate * Q :=
  if localStop c n bq then (s, bq)
  else match fuel with
       | O => (s, bq)
       | S fuel' =>
           let x := addNoise bx (noise c (tick s)) in
           match localEval c o x (ticked s) with
           | Div s' | Assert s' => (s', bq)
           | Done s' (o', q) =>
               if improves (s_min c) q (Some bq) then localLoop fuel' c o' x q (S n) s' else localLoop fuel' c o' bx bq (S n) s'
           end
       end.

(** memetic.py:24-48 MemeticSearch._oneEvaluation *)
Definition memeticEval (c : msettings) (o : masked) (s : mstate) : out Q :=
  if numE s =? 0 then blackBoxEval c o s
  else
    let s1 := switchMutations s in
    let x0 := visible o in
    match localEval c o x0 s1 with
    | Div s' => Div s'
    | Assert s' => Assert s'
    | Done s2 (o1, q0) =>
        if 1 <? localSteps c then
          let (s3, q) := localLoop (localSteps c) c o1 x0 q0 1 s2 in
          Done (switchMutations s3) q
        else Assert s2
    end.

(** What [x.mutate()] does to a MaskedParameters at the moment; it applies the
    mask to the shared container at its end. *)
Definition callMutate (c : msettings) (o : masked) (s : mstate) : masked * mstate :=
  let o' := if swapped s then topo c (tick s) o else wmut c (tick s) o in
  (o', setPc (applyMask o') (ticked s)).

(** hillclimber.py:16-25, with MemeticSearch._oneEvaluation *)
Definition hillStep (c : msettings) (s : mstate) : out unit :=
  let (challenger, s1) := callMutate c (bestO s) s in
  match memeticEval c challenger s1 with
  | Done s2 _ => Done s2 tt
  | Div s2 => Div s2
  | Assert s2 => Assert s2
  end.

Definition bracket (f : mstate -> out unit) (s : mstate) : out unit :=
  match f (switchMutations s) with
  | Done s' _ => Done (switchMutations s') tt
  | Div s' => Div s'
  | Assert s' => Assert s'
  end.

(** memetic.py:50-53 and inversememetic.py:9-12 *)
Definition memeticStep (c : msettings) : mstate -> out unit := bracket (hillStep c).
Definition inverseStep (c : msettings) : mstate -> out unit := bracket (memeticStep c).

(** randomsearch.py:12-15 (WeightMaskGuessing): a new start is randomized. *)
Definition guessStep (c : msettings) (init : masked) (s : mstate) : out unit :=
  let o := rnd c (tick s) init in
  match blackBoxEval c o (setPc (applyMask o) (ticked s)) with
  | Done s' _ => Done s' tt
  | Div s' => Div s'
  | Assert s' => Assert s'
  end.

(** optimizer.py:283-292 for an algorithm with the given batch size
    (memetic.py:61-62: localSteps). *)
Definition stop (c : msettings) (batch steps : nat) (s : mstate) : bool :=
  match s_maxEval c with Some m => m <? numE s + batch | None => false end || reached c (bestV s) ||
  match s_maxSteps c with Some m => m <? steps | None => false end.

(** optimizer.py:199-210 *)
Inductive ending := Stopped | Broke | Raised | FuelOut.
Fixpoint loop (fuel : nat) (c : msettings) (batch : nat) (step : mstate -> out unit) (steps : nat) (s : mstate) : mstate * ending :=
  if stop c batch steps s then (s, Stopped)
  else match fuel with
       | O => (s, FuelOut)
       | S fuel' =>
           match step s with
           | Done s' _ => loop fuel' c batch step (S steps) s'
           | Div s' => (s', Broke)
           | Assert s' => (s', Raised)
           end
       end.

(** optimizer.py:334-343 and maskedparameters.py:29-36: whatever the start array
    of length n holds, the individual is created with a random mask and random
    parameters.  optimizer.py:153-156, hillclimber.py:13-14. *)
Definition startState (sw : bool) (o : masked) : mstate :=
  {| pc := applyMask o; swapped := sw; numE := 0; bestV := None; bestO := o; tick := 0; log := [] |}.
Definition initIndividual (start : list Q) (bits : list bool) (drop : list nat) (vals : list Q) : masked :=
  create (length start) None bits drop vals.

Inductive algo := Memetic | Inverse | Guess.
Definition stepOf (a : algo) (c : msettings) (init : masked) : mstate -> out unit :=
  match a with Memetic => memeticStep c | Inverse => inverseStep c | Guess => guessStep c init end.
Definition batchOf (a : algo) (c : msettings) : nat := match a with Guess => 1 | _ => localSteps c end.

(** A whole session: construction with an evaluator and the start individual,
    then learn(). None: the first evaluation diverged. *)
Definition session (fuel : nat) (a : algo) (c : msettings) (sw : bool) (init : masked) : option (mstate * ending) :=
  match blackBoxEval c init (startState sw init) with
  | Done s _ => Some (loop fuel c (batchOf a c) (stepOf a c init) 0 {| pc := pc s; swapped := swapped s; numE := numE s; bestV := bestV s; bestO := init; tick := tick s; log := log s |})
  | _ => None
  end.

(** optimizer.py:216-223 _bestFound for a wrapped array, maskedparameters.py:51-52
    (returnZeros is True): the parameters of the shared container. *)
Definition reported (s : mstate) : list Q * option Q := (pc s, bestV s).
