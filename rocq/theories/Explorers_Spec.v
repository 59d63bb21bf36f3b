(** What exploring agents and neuro-fitted Q-learning are meant to do. *)
From Coq Require Import Reals.
From Verif Require Import Base Explorers_Model.
Local Open Scope R_scope.

Section Spec.
Context {St : Type} (rowOf : St -> nat) (inputOf : St -> list R) (net : list R -> list R -> R).
(** 1 at place a, 0 elsewhere *)
Definition hot (n a : nat) : list R := map (fun k => if (k =? a)%nat then 1 else 0) (seq 0 n).
(** the value of action a in state s *)
Definition netWorth (n : nat) (p : list R) (s : St) (a : nat) : R := net p (inputOf s ++ hot n a).
Definition worth (m : module) (s : St) (a : nat) : R :=
  match m with TableM _ cols p => nth (rowOf s * cols + a) p 0 | NetM n p => netWorth n p s a end.
(** the module can be asked for s *)
Definition fit_for (m : module) (s : St) : Prop :=
  match m with TableM rows cols p => (rowOf s < rows)%nat /\ length p = (rows * cols)%nat /\ (0 < cols)%nat | NetM n p => (0 < n)%nat end.
(** a is an action with the greatest value *)
Definition best (m : module) (s : St) (a : nat) : Prop :=
  (a < numActions m)%nat /\ forall b, (b < numActions m)%nat -> worth m s b <= worth m s a.

(** the parameters of the module after some events *)
Definition paramsOf (m : module) : list R := match m with TableM _ _ p => p | NetM _ p => p end.
Definition learned (p0 : list R) (es : list (@event St)) : list R := fold_left (fun p e => match e with Learn q => q | _ => p end) es p0.
(** how many actions were taken while learning *)
Definition explored (es : list (@event St)) : nat := length (filter (fun e => match e with Act _ _ _ _ => true | _ => false end) es).
(** the parameters frozen at the start of the current episode: the learned ones disturbed by the noise *)
Definition frozen (p0 : list R) (es : list (@event St)) : list R :=
  snd (fold_left (fun pc e => match e with
                              | Learn q => (q, snd pc)
                              | NewEpisode noise => (fst pc, map (fun xz => fst xz + snd xz / 100) (combine (fst pc) noise))
                              | _ => pc
                              end) es (p0, p0)).

(** the greatest of f 0 ... f (n-1) *)
Definition maxover (f : nat -> R) (n : nat) : R := fold_right Rmax (f 0%nat) (map f (seq 1 (n - 1))).
(** the transitions of an episode: each experience with the one after it *)
Definition pairs {A} (q : list A) : list (A * A) := combine q (tl q).
Definition transitions (seqs : list (list (@experience St))) := flat_map pairs seqs.
(** half way from the present value to reward plus discounted value of the next state *)
Definition halfway (gamma : R) (n : nat) (p : list R) (t : @experience St * @experience St) : list R * R :=
  let '(s, a, r, (s', _, _)) := t in
  (inputOf s ++ hot n a, (netWorth n p s a + (r + gamma * maxover (netWorth n p s') n)) / 2).
(** episodes that differ at most in the last action and the last reward *)
Definition same_but_end (q q' : list (@experience St)) : Prop :=
  q = q' \/ exists l s a r a' r', q = l ++ [(s, a, r)] /\ q' = l ++ [(s, a', r')].
(** every action has been tried in every state that was reached from another one *)
Definition covered (n : nat) (seqs : list (list (@experience St))) : Prop :=
  forall x s' a' r' b, In (x, (s', a', r')) (transitions seqs) -> (b < n)%nat -> exists r y, In (s', b, r, y) (transitions seqs).
(** the optimality equation on the transitions *)
Definition bellman (gamma : R) (n : nat) (seqs : list (list (@experience St))) (v : St -> nat -> R) : Prop :=
  forall s a r s' a' r', In (s, a, r, (s', a', r')) (transitions seqs) -> v s a = r + gamma * maxover (v s') n.
End Spec.
