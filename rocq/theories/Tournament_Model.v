(** Model of tournaments (rl/experiments/tournament.py).

    Agents are natural numbers (their identity).  The game is any machine: an initial state, a test for the end, the winner
    (a colour, or the string 'draw'), the effect and the legality of a move (player's colour, action).  What an agent answers
    is any function of the agent, its colour, the state of the game and the number of answers given so far by all agents,
    which covers agents with memory and random agents.  A game that never ends is cut by the fuel. *)
From Verif Require Import Base Dict.
From Coq Require Import QArith.
Local Open Scope nat_scope.

Inductive outcome := Color (c : Z) | Draw.

Definition pair_eqb (p q : nat * nat) : bool := (fst p =? fst q) && (snd p =? snd q).
(** dictionaries with pairs of agents as keys *)
Definition pdict := list ((nat * nat) * list nat).
Fixpoint pget (k : nat * nat) (d : pdict) : option (list nat) :=
  match d with [] => None | (k', v) :: t => if pair_eqb k k' then Some v else pget k t end.
Fixpoint pset (k : nat * nat) (v : list nat) (d : pdict) : pdict :=
  match d with [] => [(k, v)] | (k', v') :: t => if pair_eqb k k' then (k, v) :: t else (k', v') :: pset k v t end.

(** tournament.py:23-27 *)
Record tournament := { results : pdict; rounds : nat; numGames : nat; calls : nat }.
Definition fresh (calls : nat) : tournament := {| results := []; rounds := 0; numGames := 0; calls := calls |}.

(** tournament.py:29-36 *)
Definition produceAllPairs (agents : list nat) : list (nat * nat) :=
  flat_map (fun a => flat_map (fun b => if a =? b then [] else [(a, b)]) agents) agents.

Section Game.
  Context {G M : Type} (g0 : G) (over : G -> bool) (winner : G -> option outcome) (perform : G -> Z -> M -> G) (legal : G -> Z -> M -> bool).
  Context (startcolor : Z) (forcedLegality : bool) (getAction : nat -> Z -> G -> nat -> M) (fuel : nat).

  (** tournament.py:54-61: the first answer is [act]; after 51 illegal answers the game is given up *)
  Fixpoint redraw (left : nat) (p : nat) (c : Z) (g : G) (k : nat) (act : M) : result (M * nat) :=
    if legal g c act then Ok (act, k) else
    match left with
    | 0 => Err PlainException
    | S l => redraw l p c g (k + 1) (getAction p c g k)
    end.
  (** tournament.py:48-63; p is the player to move, q the other one *)
  Fixpoint game_loop (fuel : nat) (p : nat) (c : Z) (q : nat) (k : nat) (g : G) : result (G * nat) :=
    if over g then Ok (g, k) else
    match fuel with
    | 0 => Err OutOfFuel
    | S f =>
        let act := getAction p c g k in
        let! mv := if forcedLegality then redraw 50 p c g (k + 1) act else Ok (act, k + 1) in
        game_loop f q (- c) p (snd mv) (perform g c (fst mv))
    end.
  (** tournament.py:38-71 *)
  Definition oneGame (t : tournament) (p1 p2 : nat) : result tournament :=
    let! e := game_loop fuel p1 startcolor p2 (calls t) g0 in
    let old := match pget (p1, p2) (results t) with Some l => l | None => [] end in
    let w := match winner (fst e) with Some (Color c) => if Z.eqb c startcolor then p1 else p2 | _ => p2 end in
    Ok {| results := pset (p1, p2) (old ++ [w]) (results t); rounds := rounds t; numGames := numGames t + 1; calls := snd e |}.
  Fixpoint play_pairs (t : tournament) (ps : list (nat * nat)) : result tournament :=
    match ps with [] => Ok t | (p1, p2) :: rest => let! t' := oneGame t p1 p2 in play_pairs t' rest end.
  (** tournament.py:73-79 *)
  Fixpoint organize (t : tournament) (agents : list nat) (repeat : nat) : result tournament :=
    match repeat with
    | 0 => Ok t
    | S r =>
        let! t' := play_pairs {| results := results t; rounds := rounds t + 1; numGames := numGames t; calls := calls t |} (produceAllPairs agents) in
        organize t' agents r
    end.
End Game.

Section Elo.
  (** pow10 x is 10 ** x; elo is the attribute of that name, if the agent has one *)
  Context (pow10 : Q -> Q) (startingscore k : Q).
  (** tournament.py:85-90 *)
  Definition initial_elos (elo : nat -> option Q) (agents : list nat) : @dict Q :=
    fold_left (fun d a => dset a (match elo a with Some e => e | None => startingscore end) d) agents [].
  (** tournament.py:92-93: every agent with every later one *)
  Fixpoint elo_pairs (agents : list nat) : list (nat * nat) :=
    match agents with [] => [] | a :: t => map (fun b => (a, b)) t ++ elo_pairs t end.
  (** tournament.py:95-101; no recorded result is the draw *)
  Definition score (a1 : nat) (outcomes : list nat) : Q :=
    fold_left (fun s r => if r =? a1 then (s + 1)%Q else s) outcomes 0%Q.
  (** tournament.py:96-106 *)
  Definition elo_step (res : pdict) (d : @dict Q) (p : nat * nat) : result (@dict Q) :=
    let (a1, a2) := p in
    match pget (a1, a2) res, pget (a2, a1) res with
    | Some o1, Some o2 =>
        match dget a1 d, dget a2 d with
        | Some e1, Some e2 =>
            let outcomes := o1 ++ o2 in
            let s := score a1 outcomes in
            let est := (inject_Z (Z.of_nat (length outcomes)) / (1 + pow10 ((e2 - e1) / 400)))%Q in
            let delta := (k * (s - est))%Q in
            let d1 := dset a1 (e1 + delta)%Q d in
            match dget a2 d1 with Some e2' => Ok (dset a2 (e2' - delta)%Q d1) | None => Err KeyError end
        | _, _ => Err KeyError
        end
    | _, _ => Err KeyError
    end.
  Fixpoint elo_loop (res : pdict) (d : @dict Q) (ps : list (nat * nat)) : result (@dict Q) :=
    match ps with [] => Ok d | p :: rest => let! d' := elo_step res d p in elo_loop res d' rest end.
  (** tournament.py:81-109; the result also becomes the agents' elo attribute *)
  Definition eloScore (elo : nat -> option Q) (agents : list nat) (res : pdict) : result (@dict Q) :=
    elo_loop res (initial_elos elo agents) (elo_pairs agents).
  Definition elo_attribute (elo : nat -> option Q) (d : @dict Q) : nat -> option Q :=
    fun a => match dget a d with Some e => Some e | None => elo a end.
End Elo.
