(** Specification of C66: learning with linear function approximation. *)
From Coq Require Import Reals.
From Verif Require Import Base Functions_Model LinearFA_Model.
Local Open Scope R_scope.

(** an array of n rows of m entries, and its entries *)
Definition shape (n m : nat) (M : mat) : Prop := length M = n /\ Forall (fun r => length r = m) M.
Definition ent (M : mat) (i j : nat) : R := nth j (nth i M []) 0.
(** the value of an action in a state: the inner product of the action's weights and the state's features *)
Definition value (th : mat) (s : vec) (a : nat) : R := rdot (nth a th []) s.
Definition sq_norm (s : vec) : R := rsum (map (fun x => x * x) s).
(** the feature vector of the k-th of m states, when the features are a table *)
Definition indicator (m k : nat) : vec := map (fun j => if (j =? k)%nat then 1 else 0) (seq 0 m).
(** v is the greatest value of an action in state s *)
Definition greatest (th : mat) (n : nat) (s : vec) (v : R) : Prop :=
  (exists b, (b < n)%nat /\ value th s b = v) /\ forall b, (b < n)%nat -> value th s b <= v.
Definition distribution (n : nat) (q : vec) : Prop := length q = n /\ Forall (fun x => 0 <= x) q /\ rsum q = 1.

(** ** eligibility traces: each visited pair decays with every later visit *)
Record visit := mkVisit { v_state : vec; v_action : nat; v_resp : R }.
Fixpoint rprod (l : list R) : R := match l with [] => 1 | x :: t => x * rprod t end.
Definition trace (c : R) (vs : list visit) (a j : nat) : R :=
  rsum (map (fun i => let v := nth i vs (mkVisit [] 0 0) in
                      rprod (map (fun u => c * v_resp u) (skipn (S i) vs)) *
                      (if (v_action v =? a)%nat then nth j (v_state v) 0 else 0)) (seq 0 (length vs))).

(** ** what a learner is told: the start of an episode, or a transition *)
Inductive event :=
| Start
| Transition (s : vec) (a : nat) (r : R) (s' : vec) (next : option nat) (draws : nat * nat * nat).
Definition is_transition (e : event) : bool := match e with Start => false | _ => true end.
Section Events.
Context (al : algo) (p : params) (beh : learner -> vec -> nat -> vec).
Definition tell (l : learner) (e : event) : result learner :=
  match e with
  | Start => Ok (newEpisode p l)
  | Transition s a r s' next (d1, d2, d3) => updateWeights p al (fun s => beh l s d3) d1 d2 l s a r s' next
  end.
Fixpoint tell_all (l : learner) (es : list event) : result learner :=
  match es with [] => Ok l | e :: t => let! l1 := tell l e in tell_all l1 t end.
End Events.

(** the transition between one step and the next one of the same stream *)
Definition link (pass : bool) (prev : option step) (i : interaction) : list event :=
  let '((o, a, r), d, d') := i in
  match prev with
  | None => []
  | Some (po, pa, pr) => [Transition po pa pr o (if pass then Some a else None) (if pass then d' else d)]
  end.
Fixpoint links (pass : bool) (prev : option step) (l : list interaction) : list event :=
  match l with [] => [] | i :: t => link pass prev i ++ links pass (Some (fst (fst i))) t end.
Definition last_step (prev : option step) (l : list interaction) : option step :=
  match rev l with [] => prev | i :: _ => Some (fst (fst i)) end.
(** the agent's stream: the episodes one after the other, the first step of an episode linked to the last step of the one before *)
Fixpoint stream (pass : bool) (prev : option step) (eps : list (list interaction)) : list event :=
  match eps with [] => [] | ep :: t => Start :: links pass prev ep ++ stream pass (last_step prev ep) t end.
(** what one would expect: only steps of the same episode are linked *)
Definition separate (pass : bool) (eps : list (list interaction)) : list event :=
  flat_map (fun ep => Start :: links pass None ep) eps.
(** batch learning: the steps recorded, with the draws made for each *)
Fixpoint replay (k : nat) (draws : nat -> nat * nat * nat) (prev : option step) (l : list step) : list event * nat :=
  match l with
  | [] => ([], k)
  | (o, a, r) :: t =>
      match prev with
      | None => replay k draws (Some (o, a, r)) t
      | Some (po, pa, pr) =>
          let '(es, k') := replay (S k) draws (Some (o, a, r)) t in (Transition po pa pr o None (draws k) :: es, k')
      end
  end.
Definition final (prev : option step) (l : list step) : option step := match rev l with [] => prev | x :: _ => Some x end.
Fixpoint replays (k : nat) (draws : nat -> nat * nat * nat) (prev : option step) (h : list (list step)) : list event :=
  match h with
  | [] => []
  | sq :: t => let '(es, k') := replay k draws prev sq in es ++ Start :: replays k' draws (final prev sq) t
  end.

(** how much a learner trusts the past: the importance of the action taken, for GQLambda; 1 for the others *)
Definition responsibility (al : algo) (p : params) (beh : learner -> vec -> nat -> vec) (l : learner) (s : vec) (a d1 d3 : nat) : R :=
  match al with
  | GQLambda => nth a (greedyPolicy (num_actions p) (theta l) s d1) 0 / nth a (beh l s d3) 0
  | _ => 1
  end.
Fixpoint visits (al : algo) (p : params) (beh : learner -> vec -> nat -> vec) (l : learner) (es : list event) : list visit :=
  match es with
  | [] => []
  | e :: t =>
      let rest := match tell al p beh l e with Ok l1 => visits al p beh l1 t | Err _ => [] end in
      match e with
      | Start => rest
      | Transition s a _ _ _ (d1, _, d3) => mkVisit s a (responsibility al p beh l s a d1 d3) :: rest
      end
  end.
Definition has_traces (al : algo) : bool := match al with Q_LinFA | LSPI => false | _ => true end.
(** states have the right number of features, actions exist *)
Definition in_range (p : params) (e : event) : Prop :=
  match e with
  | Start => True
  | Transition s a _ s' next _ =>
      length s = num_features p /\ (a < num_actions p)%nat /\ length s' = num_features p /\
      match next with Some b => (b < num_actions p)%nat | None => True end
  end.
(** the weights satisfy the Bellman equation for what was observed: what the state and action are worth is the reward plus
    the discounted worth of the next state *)
Definition solved (p : params) (th : mat) (e : event) : Prop :=
  match e with
  | Start => True
  | Transition s a r s' (Some b) _ => value th s a = r + rewardDiscount p * value th s' b
  | Transition s a r s' None _ => exists v, greatest th (num_actions p) s' v /\ value th s a = r + rewardDiscount p * v
  end.
(** the same for the greedy action that LSTDQLambda picks in the next state *)
Fixpoint solved_greedy (p : params) (beh : learner -> vec -> nat -> vec) (th : mat) (l : learner) (es : list event) : Prop :=
  match es with
  | [] => True
  | e :: t =>
      match e with
      | Start => True
      | Transition s a r s' _ (d1, _, _) => value th s a = r + rewardDiscount p * value th s' (r_argmax (qValues (theta l) s') d1)
      end /\
      match tell LSTDQLambda p beh l e with Ok l1 => solved_greedy p beh th l1 t | Err _ => True end
  end.
(** pinv inverts the matrix A of size k, when it can be inverted *)
Definition injective (k : nat) (A : mat) : Prop := forall x y, length x = k -> length y = k -> mat_vec A x = mat_vec A y -> x = y.
Definition left_inverse (k : nat) (B A : mat) : Prop := forall x, length x = k -> mat_vec B (mat_vec A x) = x.
Definition good_pinv (pinv : mat -> mat) (k : nat) : Prop := forall A, shape k k A -> injective k A -> left_inverse k (pinv A) A.

(** ** the agent *)
(** what the agent remembers is one whole step, or nothing *)
Definition remembers (x : agent) (prev : option step) : Prop :=
  match prev with
  | None => lastobs x = None /\ lastaction x = None /\ lastreward x = None
  | Some (o, a, r) => lastobs x = Some o /\ lastaction x = Some a /\ lastreward x = Some r
  end.
(** the probabilities with which an agent with these flags, temperature and proportion of exploration acts *)
Definition behaviour (p : params) (f : flags) (temp expl : R) (l : learner) (s : vec) (d : nat) : vec :=
  actionProbs p (mkAgent l None None None None temp expl [[]] f) s d.
Definition steps_of (ep : list interaction) : list step := map (fun i => fst (fst i)) ep.
Definition starts (es : list event) : nat := length (filter (fun e => negb (is_transition e)) es).
Definition new_episodes (cs : list call) : nat := length (filter (fun c => match c with NewEpisode => true | _ => false end) cs).
(** calls for a task with m states, n actions and rewards of size at most b *)
Definition valid_call (n m : nat) (b : R) (c : call) : Prop :=
  match c with
  | IntegrateObservation o _ => exists k, (k < m)%nat /\ o = indicator m k
  | GetAction a _ => (a < n)%nat
  | GiveReward r => Rabs r <= b
  | _ => True
  end.
(** the inner product of two arrays of n rows *)
Definition inner (n : nat) (A B : mat) : R := rsum (map (fun i => rdot (nth i A []) (nth i B [])) (seq 0 n)).
(** some transition had a feature other than zero, for this action *)
Definition touched (es : list event) (i c : nat) : Prop :=
  exists s r s' next d, In (Transition s i r s' next d) es /\ nth c s 0 <> 0.
