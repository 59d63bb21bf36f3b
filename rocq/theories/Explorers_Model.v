(** Model of exploration with discrete actions and of neuro-fitted Q-learning: rl/explorers/discrete (egreedy.py, boltzmann.py, discretesde.py, discrete.py),
    rl/explorers/explorer.py, rl/learners/valuebased/valuebased.py, rl/learners/valuebased/interface.py (ActionValueTable, ActionValueNetwork),
    rl/learners/valuebased/nfq.py, the methods explore and newEpisode of rl/learners/learner.py and getAction of rl/agents/learning.py.

    Numbers are exact reals.  Random draws are arguments: u for random.random, i for randint and random.choice, noise for randn.
    A state is anything; the table reads a row number from it, the network an array.  The network is a function of its parameters and its
    input, because a feed-forward network is reset before every activation (C17-C22).  How the trainer fits the network to a data set is a function
    (C26-C28).  numpy would read a negative row or action from the end; they are natural numbers here.
    Not modelled: float rounding, modules of other classes. *)
From Coq Require Import Reals.
From Verif Require Import Base Functions_Model LinearFA_Model Players_Model.
Local Open Scope R_scope.

(** numpy.random.randint(n) *)
Definition randint (n i : nat) : result nat := if (n =? 0)%nat then Err ValueError else Ok (i mod n)%nat.
(** utilities.py:382-386 *)
Definition one_to_n (val maxval : nat) : result vec := if (val <? maxval)%nat then Ok (upd val 1 (repeat 0 maxval)) else Err IndexError.
(** numpy argmax: the first of the greatest *)
Definition argmax (v : vec) : result nat := match where_eq (vmax v) 0 v with k :: _ => Ok k | [] => Err ValueError end.
Fixpoint mapM {A B} (f : A -> result B) (l : list A) : result (list B) :=
  match l with [] => Ok [] | x :: l => let! y := f x in let! ys := mapM f l in Ok (y :: ys) end.

Section Explorers.
Context {St : Type} (rowOf : St -> nat) (inputOf : St -> vec) (net : vec -> vec -> R).

(** ** action values *)
(** interface.py:29-39 ActionValueTable, 66-76 ActionValueNetwork *)
Inductive module := TableM (rows cols : nat) (params : vec) | NetM (n : nat) (params : vec).
Definition numActions (m : module) : nat := match m with TableM _ c _ => c | NetM n _ => n end.
(** 93-94 *)
Definition netValue (n : nat) (p : vec) (s : St) (a : nat) : result R :=
  let! hot := one_to_n a n in Ok (net p (inputOf s ++ hot)).
(** 58-59, 88-91 *)
Definition getActionValues (m : module) (s : St) : result vec :=
  match m with
  | TableM rows cols p => if (rowOf s <? rows)%nat then Ok (firstn cols (skipn (rowOf s * cols) p)) else Err IndexError
  | NetM n p => mapM (netValue n p s) (seq 0 n)
  end.
(** 51-56, 84-86 *)
Definition getMaxAction (m : module) (s : St) (i : nat) : result nat :=
  let! values := getActionValues m s in
  match m with
  | TableM _ _ _ => match values with [] => Err ValueError | _ => choice (where_eq (vmax values) 0 values) i end
  | NetM _ _ => argmax values
  end.
(** parametercontainer.py:88-89 mutate, with mutationStd = 0.01 as set by discretesde.py:55-62 *)
Definition mutated (m : module) (noise : vec) : module :=
  match m with
  | TableM r c p => TableM r c (vadd p (vscale (1 / 100) noise))
  | NetM n p => NetM n (vadd p (vscale (1 / 100) noise))
  end.

(** ** explorers *)
(** egreedy.py:15-18, boltzmann.py:16-20, discretesde.py:18-23; [SDE copy]: the explorerModule; every explorer also has its module (discrete.py:13) *)
Inductive explorer := EGreedy (epsilon decay : R) | Boltzmann (tau decay : R) | SDE (copy : option module).
Definition newEGreedy (epsilon decay : R) : explorer := EGreedy epsilon decay.
Definition newBoltzmann (tau decay : R) : explorer := Boltzmann tau decay.
Definition newSDE (epsilon decay : R) : explorer := SDE None.
(** discrete.py:18-22, discretesde.py:25-29 *)
Definition setModule (x : explorer) (m : module) : explorer := match x with SDE _ => SDE (Some m) | _ => x end.
(** explorer.py:35-40 with the _forwardImplementation of egreedy.py:20-32, boltzmann.py:31-43, discretesde.py:42-49; m is the explorer's module *)
Definition explore (m : option module) (x : explorer) (s : St) (action : nat) (u : R) (i : nat) : result (nat * explorer) :=
  match x with
  | EGreedy epsilon decay =>
      match m with
      | None => Err AssertionError
      | Some m =>
          let! a := if Rlt_dec u epsilon then randint (numActions m) i else Ok action in
          Ok (a, EGreedy (epsilon * decay) decay)
      end
  | Boltzmann tau decay =>
      match m with
      | None => Err AssertionError
      | Some m =>
          let! values := getActionValues m s in
          let! a := drawGibbs values tau u i in
          Ok (a, Boltzmann (tau * decay) decay)
      end
  | SDE copy =>
      match m, copy with
      | Some m, Some c =>
          let! a := if Rlt_dec u (1 / 1000) then randint (numActions m) i else getMaxAction c s i in
          Ok (a, x)
      | _, _ => Err AttributeError
      end
  end.
(** discretesde.py:51-62; the other explorers do nothing (explorer.py:43-45) *)
Definition explorerNewEpisode (m : option module) (x : explorer) (noise : vec) : result explorer :=
  match x with
  | SDE _ => match m with Some m => Ok (SDE (Some (mutated m noise))) | None => Ok (SDE None) end
  | _ => Ok x
  end.

(** ** a learning agent in the course of time *)
(** its module, which the learner changes, and the explorer that has this module *)
Record agent := { ag_module : module; ag_explorer : explorer }.
Inductive event :=
| Act (s : St) (tie : nat) (u : R) (i : nat)       (* getAction while learning; tie: the draw of the module itself *)
| ActGreedy (s : St) (tie : nat)                   (* getAction with learning = False *)
| Learn (p : vec)                                  (* the learner leaves these parameters in the module *)
| NewEpisode (noise : vec).
Definition setParams (m : module) (p : vec) : module := match m with TableM r c _ => TableM r c p | NetM n _ => NetM n p end.
(** agents/learning.py:45-68, learner.py:31-36, 48-51 *)
Definition agentStep (g : agent) (e : event) : result (option nat * agent) :=
  match e with
  | Act s tie u i =>
      let! a := getMaxAction (ag_module g) s tie in
      let! ax := explore (Some (ag_module g)) (ag_explorer g) s a u i in
      Ok (Some (fst ax), {| ag_module := ag_module g; ag_explorer := snd ax |})
  | ActGreedy s tie => let! a := getMaxAction (ag_module g) s tie in Ok (Some a, g)
  | Learn p => Ok (None, {| ag_module := setParams (ag_module g) p; ag_explorer := ag_explorer g |})
  | NewEpisode noise =>
      let! x := explorerNewEpisode (Some (ag_module g)) (ag_explorer g) noise in
      Ok (None, {| ag_module := ag_module g; ag_explorer := x |})
  end.
(** the actions of a sequence of events, with the agent after them *)
Fixpoint agentRun (g : agent) (es : list event) : result (list nat * agent) :=
  match es with
  | [] => Ok ([], g)
  | e :: es =>
      let! ag := agentStep g e in
      let! r := agentRun (snd ag) es in
      Ok ((match fst ag with Some a => [a] | None => [] end) ++ fst r, snd r)
  end.
(** learning.py:12-27 with valuebased.py:23-27: the explorer is told the module *)
Definition newAgent (m : module) (x : explorer) : agent := {| ag_module := m; ag_explorer := setModule x m |}.

(** ** neuro-fitted Q-learning *)
Section NFQ.
Context (gamma : R) (n : nat) (p : vec).
Definition experience : Type := St * nat * R.
(** nfq.py:30-37 one sample *)
Definition nfqSample (last : experience) (s : St) : result (vec * R) :=
  let '(s_, a_, r_) := last in
  let! q := netValue n p s_ a_ in
  let! hot := one_to_n a_ n in
  let! values := getActionValues (NetM n p) s in
  match values with
  | [] => Err ValueError
  | _ => Ok (inputOf s_ ++ hot, q + 1 / 2 * (r_ + gamma * vmax values - q))
  end.
(** 22-40 *)
Fixpoint nfqSeq (last : option experience) (seq : list experience) : result (list (vec * R)) :=
  match seq with
  | [] => Ok []
  | (s, a, r) :: seq =>
      match last with
      | None => nfqSeq (Some (s, a, r)) seq
      | Some l => let! x := nfqSample l s in let! xs := nfqSeq (Some (s, a, r)) seq in Ok (x :: xs)
      end
  end.
Fixpoint nfqSamples (seqs : list (list experience)) : result (list (vec * R)) :=
  match seqs with
  | [] => Ok []
  | q :: seqs => let! xs := nfqSeq None q in let! ys := nfqSamples seqs in Ok (xs ++ ys)
  end.
End NFQ.
(** 18-44 learn; the new parameters are those that the trainer finds.  datasets/supervised.py:105-118 and backprop.py:211-218: the samples are split three to one *)
Definition nfqLearn (fit : list (vec * R) -> vec -> vec) (gamma : R) (n : nat) (seqs : list (list experience)) (p : vec) : result vec :=
  let! samples := nfqSamples gamma n p seqs in
  let separator := (length samples * 3 / 4)%nat in
  if ((0 <? separator) && (0 <? length samples - separator))%nat%bool then Ok (fit samples p) else Err ValueError.
End Explorers.

(** ** learner, explorer and module tied together *)
(** Modules and explorers are objects, named by numbers.  A module with no parameters counts as false (parametercontainer.py:48-49), an explorer never does. *)
Section Wiring.
Context (truth : nat -> bool).
Record learner := { l_module : option nat; l_explorer : option nat }.
(** what the explorers know: their module *)
Definition told : Type := nat -> option nat.
Inductive wire := SetModule (m : nat) | SetExplorer (e : option nat).
(** valuebased.py:19-45; an assignment that raises has already replaced the explorer *)
Definition rewire (l : learner) (t : told) (w : wire) : learner * told * result unit :=
  match w with
  | SetModule m =>
      let t := match l_explorer l with Some e => fun x => if (x =? e)%nat then Some m else t x | None => t end in
      ({| l_module := Some m; l_explorer := l_explorer l |}, t, Ok tt)
  | SetExplorer e =>
      let l := {| l_module := l_module l; l_explorer := e |} in
      match l_module l with
      | Some m =>
          if truth m then
            match e with Some e => (l, fun x => if (x =? e)%nat then Some m else t x, Ok tt) | None => (l, t, Err AttributeError) end
          else (l, t, Ok tt)
      | None => (l, t, Ok tt)
      end
  end.
Fixpoint rewires (l : learner) (t : told) (ws : list wire) : learner * told :=
  match ws with [] => (l, t) | w :: ws => let '(l, t, _) := rewire l t w in rewires l t ws end.
(** a new learner has a new explorer *)
Definition newLearner (e : nat) : learner := {| l_module := None; l_explorer := Some e |}.
End Wiring.
