(** Model of optimization/populationbased/pso.py (ParticleSwarmOptimizer).

    Positions are lists over any ring; fitness values any type with a comparison; the start positions and the
    two uniform draws per particle and step are arguments.  Particles are referred to by their number.
    A position is an array that is moved in place, and `best(...).position` is that array itself.
    Not modelled: the bookkeeping of the optimizer (C29), the drawing of the start positions. *)
From Verif Require Import Base RingOps.

Section Pso.
Context {K : Type} {Ops : RingOps K} {F : Type} (ltb : F -> F -> bool).
Local Open Scope r_scope.
Notation vec := (list K).
Fixpoint vzip (f : K -> K -> K) (a b : vec) : vec := match a, b with x :: a', y :: b' => f x y :: vzip f a' b' | _, _ => [] end.
Definition vscale (c : K) (a : vec) : vec := map (rmul c) a.

(** pso.py:106-118 Particle; None stands for infinity or -infinity, which no fitness value attains *)
Record particle := { position : vec; velocity : vec; bestPosition : vec; fitness : option F; bestFitness : option F }.
Definition new_particle (start : vec) : particle :=
  {| position := start; velocity := map (fun _ => 0) start; bestPosition := map (fun _ => 0) start; fitness := None; bestFitness := None |}.
(** the comparison picked by self.minimize *)
Definition better (minimize : bool) (a b : F) : bool := if minimize then ltb a b else ltb b a.
(** pso.py:120-125 *)
Definition setFitness (minimize : bool) (value : F) (p : particle) : particle :=
  if match bestFitness p with None => true | Some b => better minimize value b end
  then {| position := position p; velocity := velocity p; bestPosition := position p; fitness := Some value; bestFitness := Some value |}
  else {| position := position p; velocity := velocity p; bestPosition := bestPosition p; fitness := Some value; bestFitness := bestFitness p |}.
(** pso.py:132-133 *)
Definition move (p : particle) : particle :=
  {| position := vzip radd (position p) (velocity p); velocity := velocity p; bestPosition := bestPosition p; fitness := fitness p; bestFitness := bestFitness p |}.

(** pso.py:10-16; the neighbours of particle i among n *)
Definition fullyConnected (n i : nat) : list nat := seq 0 n.
Definition ring (n i : nat) : list nat := [nth i (seq 1 (n - 1) ++ [0%nat]) 0%nat; nth i ((n - 1)%nat :: seq 0 (n - 1)) 0%nat].

(** pso.py:77-81: Python's min and max return the first best *)
Definition fit_of (ps : list particle) (i : nat) : option F := match nth_error ps i with Some p => fitness p | None => None end.
Definition prefer (minimize : bool) (ps : list particle) (b i : nat) : nat :=
  match fit_of ps i, fit_of ps b with Some x, Some y => if better minimize x y then i else b | _, _ => b end.
Definition best (minimize : bool) (ps : list particle) (l : list nat) : result nat :=
  match l with [] => Err ValueError | i :: r => Ok (fold_left (prefer minimize ps) r i) end.

Section Step.
Context (memory sociality inertia : K) (minimize : bool) (neighbours : nat -> list nat).
(** pso.py:87-99 for one particle: the positions are read when it is its turn *)
Definition turn (i : nat) (draw : K * K) (ps : list particle) : result (list particle) :=
  match nth_error ps i with
  | None => Ok ps
  | Some p =>
      let! b := best minimize ps (neighbours i) in
      match nth_error ps b with
      | None => Err IndexError
      | Some q =>
          let diff_social := vscale (sociality * fst draw) (vzip rsub (position q) (position p)) in
          let diff_memory := vscale (memory * snd draw) (vzip rsub (bestPosition p) (position p)) in
          let v := vzip radd (map (fun a => a * inertia) (velocity p)) (vzip radd diff_memory diff_social) in
          Ok (upd i (move {| position := position p; velocity := v; bestPosition := bestPosition p; fitness := fitness p; bestFitness := bestFitness p |}) ps)
      end
  end.
Fixpoint turns (i : nat) (draws : list (K * K)) (ps : list particle) : result (list particle) :=
  match draws with
  | [] => Ok ps
  | d :: r => let! ps' := turn i d ps in turns (S i) r ps'
  end.
(** pso.py:83-99; f is the evaluator, one pair of draws for every particle *)
Definition learnStep (f : vec -> F) (draws : list (K * K)) (ps : list particle) : result (list particle) :=
  turns 0 draws (map (fun p => setFitness minimize (f (position p)) p) ps).
Fixpoint steps (f : vec -> F) (drawss : list (list (K * K))) (ps : list particle) : result (list particle) :=
  match drawss with
  | [] => Ok ps
  | d :: r => let! ps' := learnStep f d ps in steps f r ps'
  end.
End Step.
Definition swarm (starts : list vec) : list particle := map new_particle starts.
End Pso.
Arguments particle K F : clear implicits.
