(** Model of reinforcement learning with linear function approximation: the learners of
    rl/learners/valuebased/linearfa.py and the agent of rl/agents/linearfa.py (with logging.py, which it extends).

    Numbers are exact reals.  Random draws are arguments: the ties of r_argmax, and the action that drawIndex picks (C52).
    Observations have num_features entries and actions are below num_actions (otherwise numpy raises).
    scipy's pinv2 is an argument.  An agent's history is its list of episodes (C07, C43), the last one open.
    Attributes that only some learners have (traces, matrices, second weights) are kept for all of them.
    Not modelled: the print of learn, subclasses that the user writes. *)
From Coq Require Import Reals.
From Verif Require Import Base Functions_Model.
Local Open Scope R_scope.
Notation vec := (list R).
Notation mat := (list (list R)).

(** ** arrays *)
Definition vscale (c : R) (v : vec) : vec := map (fun x => c * x) v.
Definition mscale (c : R) (m : mat) : mat := map (vscale c) m.
Definition vadd (a b : vec) : vec := rzip Rplus a b.
Definition vsub (a b : vec) : vec := rzip Rminus a b.
Fixpoint mzip (f : vec -> vec -> vec) (a b : mat) : mat :=
  match a, b with x :: a', y :: b' => f x y :: mzip f a' b' | _, _ => [] end.
Definition madd (a b : mat) : mat := mzip vadd a b.
Definition zeros (n : nat) : vec := repeat 0 n.
Definition zeros2 (n m : nat) : mat := repeat (zeros m) n.
Definition addrow (i : nat) (v : vec) (m : mat) : mat := upd i (vadd (nth i m []) v) m.   (* m[i] += v *)
Definition outer (u v : vec) : mat := map (fun x => vscale x v) u.
Definition ravel (m : mat) : vec := concat m.
Definition reshape (n k : nat) (v : vec) : mat := map (fun i => firstn k (skipn (i * k) v)) (seq 0 n).
Definition mat_vec (m : mat) (v : vec) : vec := map (fun row => rdot row v) m.
(** 17-18 *)
Definition rv_dot (x y : mat) : R := rdot (ravel x) (ravel y).
(** max of an array *)
Definition vmax (v : vec) : R := match v with [] => 0 | x :: l => fold_left Rmax l x end.
(** utilities.py:685-691 *)
Fixpoint where_eq (m : R) (i : nat) (l : vec) : list nat :=
  match l with [] => [] | x :: t => if Req_EM_T x m then i :: where_eq m (S i) t else where_eq m (S i) t end.
Definition r_argmax (v : vec) (draw : nat) : nat :=
  let best := where_eq (vmax v) 0 v in nth (draw mod length best) best 0%nat.

(** ** policies *)
(** 59-62 *)
Definition qValues (th : mat) (s : vec) : vec := mat_vec th s.
(** 64-70 *)
Definition greedyPolicy (nact : nat) (th : mat) (s : vec) (draw : nat) : vec := upd (r_argmax (qValues th s) draw) 1 (zeros nact).
(** 76-85 *)
Definition clip (lo hi x : R) : R := Rmin hi (Rmax lo x).
Definition boltzmannProbs (q : vec) (temperature : R) (draw : nat) : vec :=
  let tmp :=
    if Req_EM_T temperature 0 then upd (r_argmax q draw) 1 (zeros (length q))
    else let t := map (fun x => x / temperature) q in
         let m := vmax t in
         map (fun x => exp (clip (-20) 0 (x - m))) t in
  let total := rsum tmp in map (fun x => x / total) tmp.

(** ** learners *)
Inductive algo := Q_LinFA | QLambda_LinFA | SARSALambda_LinFA | LSTDQLambda | LSPI | GQLambda.
(** 40, 134, 180 *)
Definition passNextAction (al : algo) : bool := match al with SARSALambda_LinFA | LSPI => true | _ => false end.

Record params := mkParams {
  num_actions : nat; num_features : nat;
  rewardDiscount : R; lambda : R; learningRateDecay : R; sec_learningRate : R;
  exploring : bool; explorationReward : R; lazyInversions : option nat;
  pinv2 : mat -> mat }.
Record learner := mkLearner {
  theta : mat; etraces : mat; learningRate : R; callcount : nat;
  mA : mat; vb : vec; sec_weights : mat; untouched : list bool; count : nat }.

Section Learner.
Context (p : params).
Notation n := (num_actions p).
Notation m := (num_features p).
Notation gamma := (rewardDiscount p).

(** 92-96, 116-119 *)
Definition newEpisode (l : learner) : learner :=
  let c := S (callcount l) in
  mkLearner (theta l) (zeros2 n m)
    (learningRate l * ((learningRateDecay p + INR c) / (learningRateDecay p + INR c + 1)))
    c (mA l) (vb l) (sec_weights l) (untouched l) (count l).
(** 87-90 *)
Definition reset (l : learner) : learner :=
  newEpisode (mkLearner (theta l) (etraces l) (learningRate l) 0 (mA l) (vb l) (sec_weights l) (untouched l) (count l)).
(** 42-54, 146-149, 184-193, 225-226: the initial weights, matrix and vector are zero or random *)
Definition new_learner (theta0 : mat) (rate0 : R) (A0 : mat) (b0 : vec) : learner :=
  reset (mkLearner theta0 [] rate0 0 A0 b0 (zeros2 n m) (repeat true (n * m)) 0).

(** the weights, traces and so on after an update *)
Definition with_theta (l : learner) (th : mat) : learner :=
  mkLearner th (etraces l) (learningRate l) (callcount l) (mA l) (vb l) (sec_weights l) (untouched l) (count l).
Definition with_etraces (l : learner) (e : mat) : learner :=
  mkLearner (theta l) e (learningRate l) (callcount l) (mA l) (vb l) (sec_weights l) (untouched l) (count l).
Definition with_system (l : learner) (A : mat) (b : vec) : learner :=
  mkLearner (theta l) (etraces l) (learningRate l) (callcount l) A b (sec_weights l) (untouched l) (count l).

(** 121-123 *)
Definition updateEtraces (l : learner) (s : vec) (a : nat) (responsibility : R) : learner :=
  with_etraces l (addrow a s (mscale (gamma * lambda p * responsibility) (etraces l))).
(** 104, 128 *)
Definition td_max (l : learner) (s : vec) (a : nat) (r : R) (s' : vec) : R :=
  r + gamma * vmax (qValues (theta l) s') - rdot (nth a (theta l) []) s.
(** 102-108 *)
Definition update_q (l : learner) (s : vec) (a : nat) (r : R) (s' : vec) : learner :=
  with_theta l (addrow a (vscale (learningRate l * td_max l s a r s') s) (theta l)).
(** 125-129 *)
Definition update_qlambda (l : learner) (s : vec) (a : nat) (r : R) (s' : vec) : learner :=
  let l1 := updateEtraces l s a 1 in
  with_theta l1 (madd (theta l1) (mscale (learningRate l1 * td_max l1 s a r s') (etraces l1))).
(** 136-140 *)
Definition update_sarsa (l : learner) (s : vec) (a : nat) (r : R) (s' : vec) (a' : nat) : learner :=
  let td_error := r + gamma * rdot (nth a' (theta l) []) s' - rdot (nth a (theta l) []) s in
  let l1 := updateEtraces l s a 1 in
  with_theta l1 (madd (theta l1) (mscale (learningRate l1 * td_error) (etraces l1))).
(** 159-160, 246-247 *)
Definition phi_of (a : nat) (s : vec) : mat := addrow a s (zeros2 n m).
(** 151-166 with the greedy policy *)
Definition update_lstdq (l : learner) (s : vec) (a : nat) (r : R) (s' : vec) (draw : nat) : learner :=
  let l1 := updateEtraces l s a 1 in
  let phi := phi_of a s in
  let phi_n := outer (greedyPolicy n (theta l1) s' draw) s' in
  let e := ravel (etraces l1) in
  let A := madd (mA l1) (outer e (vsub (ravel phi) (vscale gamma (ravel phi_n)))) in
  let b := vadd (vb l1) (vscale r e) in
  with_theta (with_system l1 A b) (reshape n m (mat_vec (pinv2 p A) b)).
(** 195-217 *)
Definition is_zero (x : R) : bool := if Req_EM_T x 0 then true else false.
Fixpoint band (a b : list bool) : list bool := match a, b with x :: a', y :: b' => (x && y) :: band a' b' | _, _ => [] end.
Definition update_lspi (l : learner) (s : vec) (a : nat) (r : R) (s' : vec) (a' : nat) : learner :=
  let phi := ravel (phi_of a s) in
  let phi_n := ravel (phi_of a' s') in
  let A := madd (mA l) (outer phi (vsub phi (vscale gamma phi_n))) in
  let b := vadd (vb l) (vscale r phi) in
  let due := match lazyInversions p with None => true | Some k => (count l mod k =? 0)%nat end in
  let u := if due && exploring p then band (untouched l) (map is_zero phi) else untouched l in
  let bonus := if exploring p then vadd b (map (fun t : bool => if t then explorationReward p else 0) u) else b in
  mkLearner (if due then reshape n m (mat_vec (pinv2 p A) bonus) else theta l)
    (etraces l) (learningRate l) (callcount l) A b (sec_weights l) u (S (count l)).
(** 228-249; the policies' answers: learned policy and behaviour policy in s, learned policy in s' *)
Definition update_gq (l : learner) (s : vec) (a : nat) (r : R) (s' : vec) (pi_s beh_s pi_n : vec) (outcome : option R) : learner :=
  let responsibility := nth a pi_s 0 / nth a beh_s 0 in
  let l1 := updateEtraces l s a responsibility in
  let phi_bar := outer pi_n s' in
  let td0 := r + gamma * rv_dot (theta l1) phi_bar - rdot (nth a (theta l1) []) s in
  let td_error := match outcome with None => td0 | Some o => td0 + (1 - gamma) * o end in
  let e := etraces l1 in
  let th := madd (theta l1) (mscale (learningRate l1)
              (madd (mscale td_error e) (mscale (- (gamma * (1 - lambda p) * rv_dot (sec_weights l1) e)) phi_bar))) in
  let phi := phi_of a s in
  let w := madd (sec_weights l1) (mscale (learningRate l1 * sec_learningRate p)
              (madd (mscale td_error e) (mscale (- rv_dot (sec_weights l1) phi) phi))) in
  mkLearner th e (learningRate l1) (callcount l1) (mA l1) (vb l1) w (untouched l1) (count l1).

(** a call with or without the next action; [beh] answers for the behaviour policy, draws break the ties of the greedy policy.
    With one argument too few, or a number in the place of a policy, Python raises TypeError. *)
Definition updateWeights (al : algo) (beh : vec -> vec) (draw draw' : nat) (l : learner)
    (s : vec) (a : nat) (r : R) (s' : vec) (next : option nat) : result learner :=
  match al, next with
  | Q_LinFA, None => Ok (update_q l s a r s')
  | QLambda_LinFA, None => Ok (update_qlambda l s a r s')
  | SARSALambda_LinFA, Some a' => Ok (update_sarsa l s a r s' a')
  | LSTDQLambda, None => Ok (update_lstdq l s a r s' draw)
  | LSPI, Some a' => Ok (update_lspi l s a r s' a')
  | GQLambda, None => Ok (update_gq l s a r s' (greedyPolicy n (theta l) s draw) (beh s) (greedyPolicy n (theta l) s' draw') None)
  | _, _ => Err TypeError
  end.
End Learner.

(** ** rl/agents/linearfa.py *)
Record flags := mkFlags { learning : bool; greedy : bool; epsilonGreedy : bool; logging : bool; batchMode : bool }.
Record settings := mkSettings { init_exploration : R; exploration_decay : R; init_temperature : R; temperature_decay : R }.
Definition step : Type := vec * nat * R.
Record agent := mkAgent {
  ln : learner; lastobs : option vec; lastaction : option nat; lastreward : option R;
  oaro : option (vec * option nat * option R * vec);
  temperature : R; expl_proportion : R; history : list (list step); fl : flags }.
Inductive call :=
| IntegrateObservation (obs : vec) (draws : nat * nat * nat)
| GetAction (drawn : nat) (draws : nat * nat * nat)
| GiveReward (r : R)
| NewEpisode
| Reset
| Learn (draws : nat -> nat * nat * nat)
| SetFlags (f : flags).

Section Agent.
Context (al : algo) (p : params) (st : settings).

(** 32-39 *)
Definition actionProbs (x : agent) (s : vec) (draw : nat) : vec :=
  let th := theta (ln x) in
  let n := num_actions p in
  if greedy (fl x) then greedyPolicy n th s draw
  else if epsilonGreedy (fl x) then
    map (fun q => q * (1 - expl_proportion x) + expl_proportion x / INR n) (greedyPolicy n th s draw)
  else boltzmannProbs (qValues th s) (temperature x) draw.

Definition with_ln (x : agent) (l : learner) : agent :=
  mkAgent l (lastobs x) (lastaction x) (lastreward x) (oaro x) (temperature x) (expl_proportion x) (history x) (fl x).
Definition with_last (x : agent) (o : option vec) (a : option nat) (r : option R) : agent :=
  mkAgent (ln x) o a r (oaro x) (temperature x) (expl_proportion x) (history x) (fl x).
Definition with_oaro (x : agent) (o : option (vec * option nat * option R * vec)) : agent :=
  mkAgent (ln x) (lastobs x) (lastaction x) (lastreward x) o (temperature x) (expl_proportion x) (history x) (fl x).
Definition with_history (x : agent) (h : list (list step)) : agent :=
  mkAgent (ln x) (lastobs x) (lastaction x) (lastreward x) (oaro x) (temperature x) (expl_proportion x) h (fl x).

(** the learner is called with what the agent remembers; None in the place of a number raises *)
Definition call_learner (x : agent) (draws : nat * nat * nat) (s : vec) (a : option nat) (r : option R) (s' : vec) (next : option nat) : result agent :=
  let '(d1, d2, d3) := draws in
  match a, r with
  | Some a, Some r =>
      let! l := updateWeights p al (fun s => actionProbs x s d3) d1 d2 (ln x) s a r s' next in Ok (with_ln x l)
  | _, _ => Err TypeError
  end.
Definition online (x : agent) : bool := learning (fl x) && negb (batchMode (fl x)).
(** 41-46 *)
Definition getAction (x : agent) (drawn : nat) (draws : nat * nat * nat) : result agent :=
  match lastobs x with
  | None => Err TypeError
  | Some o =>
      let x1 := with_last x (lastobs x) (Some drawn) (lastreward x) in
      match oaro x1 with
      | Some (s, a, r, s') =>
          if online x1 then let! x2 := call_learner x1 draws s a r s' (Some drawn) in Ok (with_oaro x2 None) else Ok x1
      | None => Ok x1
      end
  end.
(** 48-54 *)
Definition integrateObservation (x : agent) (obs : vec) (draws : nat * nat * nat) : result agent :=
  let! x1 :=
    match lastobs x with
    | Some o =>
        if online x then
          if passNextAction al then Ok (with_oaro x (Some (o, lastaction x, lastreward x, obs)))
          else call_learner x draws o (lastaction x) (lastreward x) obs None
        else Ok x
    | None => Ok x
    end in
  Ok (with_last x1 (Some obs) None None).
(** logging.py:51-62 *)
Fixpoint into_last {A} (l : list (list A)) (x : A) : list (list A) :=
  match l with [] => [[x]] | [e] => [e ++ [x]] | e :: t => e :: into_last t x end.
Definition giveReward (x : agent) (r : R) : result agent :=
  match lastobs x, lastaction x, lastreward x with
  | Some o, Some a, None =>
      let x1 := with_last x (Some o) (Some a) (Some r) in
      Ok (if logging (fl x) then with_history x1 (into_last (history x) (o, a, r)) else x1)
  | _, _, _ => Err AssertionError
  end.
(** 64-73; newSequence refuses to open a sequence after an empty one, unless nothing at all was recorded *)
Definition newSequence (h : list (list step)) : result (list (list step)) :=
  if forallb (fun e => match e with [] => true | _ => false end) h then Ok h
  else match last h [] with [] => Err EmptySequenceError | _ => Ok (h ++ [[]]) end.
Definition agent_newEpisode (x : agent) : result agent :=
  let! x1 := if logging (fl x) then let! h := newSequence (history x) in Ok (with_history x h) else Ok x in
  if online x1 then Ok (with_ln x1 (newEpisode p (ln x1)))
  else Ok (mkAgent (newEpisode p (ln x1)) (lastobs x1) (lastaction x1) (lastreward x1) (oaro x1)
             (temperature x1 * temperature_decay st) (expl_proportion x1 * exploration_decay st) (history x1) (fl x1)).
(** 56-62, logging.py:71-77 *)
Definition agent_reset (x : agent) : result agent :=
  agent_newEpisode (mkAgent (reset p (ln x)) None None None None (init_temperature st) (init_exploration st) [[]] (fl x)).
(** 26-30 *)
Definition new_agent (l : learner) (f : flags) : result agent :=
  agent_reset (mkAgent l None None None None 0 0 [[]] f).
(** 76-89 *)
Fixpoint learn_seq (k : nat) (draws : nat -> nat * nat * nat) (sq : list step) (x : agent) : result (nat * agent) :=
  match sq with
  | [] => Ok (k, x)
  | (obs, a, r) :: rest =>
      let! kx := match lastobs x with
                 | None => Ok (k, x)
                 | Some o => let! x1 := call_learner x (draws k) o (lastaction x) (lastreward x) obs None in Ok (S k, x1)
                 end in
      learn_seq (fst kx) draws rest (with_last (snd kx) (Some obs) (Some a) (Some r))
  end.
Fixpoint learn_seqs (k : nat) (draws : nat -> nat * nat * nat) (h : list (list step)) (x : agent) : result agent :=
  match h with
  | [] => Ok x
  | sq :: rest =>
      let! kx := learn_seq k draws sq x in
      learn_seqs (fst kx) draws rest (with_ln (snd kx) (newEpisode p (ln (snd kx))))
  end.
Definition learn (x : agent) (draws : nat -> nat * nat * nat) : result agent :=
  if negb (learning (fl x)) then Ok x
  else if negb (batchMode (fl x)) then Ok x
  else learn_seqs 0 draws (history x) x.

Definition agent_step (x : agent) (c : call) : result agent :=
  match c with
  | IntegrateObservation obs d => integrateObservation x obs d
  | GetAction a d => getAction x a d
  | GiveReward r => giveReward x r
  | NewEpisode => agent_newEpisode x
  | Reset => agent_reset x
  | Learn d => learn x d
  | SetFlags f => Ok (mkAgent (ln x) (lastobs x) (lastaction x) (lastreward x) (oaro x) (temperature x) (expl_proportion x) (history x) f)
  end.
Fixpoint agent_run (x : agent) (cs : list call) : result agent :=
  match cs with [] => Ok x | c :: t => let! y := agent_step x c in agent_run y t end.
End Agent.

(** experiment.py:21-31, episodic.py:29-46: an interaction is what was seen, what was drawn, and the reward *)
Definition interaction : Type := step * (nat * nat * nat) * (nat * nat * nat).
Definition oneInteraction (i : interaction) : list call :=
  let '((o, a, r), d, d') := i in [IntegrateObservation o d; GetAction a d'; GiveReward r].
Definition doEpisodes (eps : list (list interaction)) : list call :=
  flat_map (fun ep => NewEpisode :: flat_map oneInteraction ep) eps.
