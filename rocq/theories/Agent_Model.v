(** Model of the logging agents (rl/agents/logging.py, learning.py) and of the experiments that drive them
    (rl/experiments/experiment.py, episodic.py, queued.py) as sequences of calls on the agent.

    The history is the ReinforcementDataSet (datasets/reinforcement.py:8-29): a sequential data set (Sequential_Model.v) with the linked
    fields state, action and reward.  What the module and the explorer answer (learning.py:45-56) is an argument of the call of
    getAction, so is the reward; observations and actions are arrays, which are never None. *)
From Verif Require Import Base Dataset_Model Dataset_Spec Sequential_Model.

Section Agent.
Context {V : Type} (vzero : V).
Notation row := (row V).

Definition rl_schema (indim outdim : nat) : list (string * nat) := [("state"%string, indim); ("action"%string, outdim); ("reward"%string, 1)].

Record agent := mkAgent { lastobs : option row; lastaction : option row; lastreward : option V; history : sds V; logging : bool }.

(** logging.py:23-31 *)
Definition new_agent (indim outdim : nat) : agent :=
  mkAgent None None None (init (fst (run vzero empty_ds (schema_ops (rl_schema indim outdim))))) true.

Inductive call :=
| IntegrateObservation (obs : row)
| GetAction (answer : row)
| GiveReward (r : V)
| NewEpisode
| Reset
| SetLogging (b : bool)      (* agent.logging = b *)
| RemoveSequence (i : nat)   (* agent.history.removeSequence(i) *)
| ReadHistory.               (* the sequences of agent.history *)
Inductive answer := Done | Episodes (e : list (list (list row))) | Raised (e : exn).

Definition is_none {A} (o : option A) : bool := match o with None => true | Some _ => false end.
Definition of_result (r : result unit) : answer := match r with Ok _ => Done | Err e => Raised e end.

Definition step (a : agent) (c : call) : agent * answer :=
  match c with
  | IntegrateObservation obs => (mkAgent (Some obs) None None (history a) (logging a), Done)          (* logging.py:34-39 *)
  | GetAction act =>                                                                                (* logging.py:42-46, learning.py:45-56 *)
      if is_none (lastobs a) then (a, Raised AssertionError) else
      if negb (is_none (lastaction a)) then (a, Raised AssertionError) else
      if negb (is_none (lastreward a)) then (a, Raised AssertionError) else
      (mkAgent (lastobs a) (Some act) (lastreward a) (history a) (logging a), Done)
  | GiveReward r =>                                                                                 (* logging.py:51-62 *)
      match lastobs a, lastaction a with
      | Some o, Some act =>
          if negb (is_none (lastreward a)) then (a, Raised AssertionError) else
          if logging a then
            let '(h, x) := addSample vzero (history a) [o; act; [r]] in
            (mkAgent (lastobs a) (lastaction a) (Some r) h (logging a), of_result x)
          else (mkAgent (lastobs a) (lastaction a) (Some r) (history a) (logging a), Done)
      | _, _ => (a, Raised AssertionError)
      end
  | NewEpisode =>                                                                                   (* logging.py:65-68, learning.py:58-68 *)
      if logging a then
        let '(h, x) := newSequence (history a) in (mkAgent (lastobs a) (lastaction a) (lastreward a) h (logging a), of_result x)
      else (a, Done)
  | Reset => (mkAgent None None None (clear_seq (history a)) (logging a), Done)                      (* logging.py:71-77 *)
  | SetLogging b => (mkAgent (lastobs a) (lastaction a) (lastreward a) (history a) b, Done)
  | RemoveSequence i =>
      let '(h, x) := removeSequence (history a) i in (mkAgent (lastobs a) (lastaction a) (lastreward a) h (logging a), of_result x)
  | ReadHistory => (a, match iter_seqs (history a) with Ok e => Episodes e | Err e => Raised e end)
  end.
Fixpoint steps (a : agent) (cs : list call) : agent * list answer :=
  match cs with
  | [] => (a, [])
  | c :: t => let '(a1, x) := step a c in let '(a2, xs) := steps a1 t in (a2, x :: xs)
  end.

(** what happened in one interaction of agent and task *)
Definition triple : Type := row * row * V.
(** experiment.py:21-31 *)
Definition oneInteraction (t : triple) : list call :=
  let '(o, a, r) := t in [IntegrateObservation o; GetAction a; GiveReward r].
(** episodic.py:29-46: one list of interactions for each episode *)
Definition doEpisodes (eps : list (list triple)) : list call :=
  flat_map (fun ep => NewEpisode :: flat_map oneInteraction ep) eps.
(** queued.py:28-33 and 35-41; the learner may look at the history where it is read *)
Definition fillQueue (eps : list (list triple)) : list call := Reset :: doEpisodes eps.
Definition stepQueueLoop (ep : list triple) : list call := ReadHistory :: RemoveSequence 0 :: doEpisodes [ep].
(** queued.py:13-25 *)
Definition queued_run (queue : list (list triple)) (cycles : list (list triple)) : list call :=
  fillQueue queue ++ flat_map stepQueueLoop cycles.
End Agent.
