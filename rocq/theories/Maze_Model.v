(** Model of the mazes (rl/environments/mazes/maze.py, polarmaze.py), of the tasks on them (tasks/mdp.py, tasks/maze.py,
    tasks/pomdp.py, tasks/tmaze.py, tasks/maze4x3.py), of tasks/tiger.py and of the accumulation of rewards in
    rl/environments/episodic.py.

    Coordinates are integers and the table is read as numpy reads it: a negative index counts from the end.  The outcome of
    random() is a rational, that of choice(l) a number taken modulo the length of l; both are arguments. *)
From Verif Require Import Base.
From Coq Require Import QArith.
Local Open Scope nat_scope.

Definition pos : Type := Z * Z.
Definition pos_eqb (p q : pos) : bool := Z.eqb (fst p) (fst q) && Z.eqb (snd p) (snd q).
Definition is_goal (g : option pos) (p : pos) : bool := match g with Some q => pos_eqb p q | None => false end.
Definition qlt (x y : Q) : bool := negb (Qle_bool y x).

(** maze.py:28-49; [mz_dir] is polarmaze.py's perseusDir (unused by Maze) *)
Record maze := {
  mz_table : list (list bool);   (* true = wall *)
  mz_goal : option pos;
  mz_init : list pos;
  mz_pos : pos;
  mz_bang : bool;
  mz_dir : nat;
  mz_stochAction : Q;
  mz_stochObs : Q }.

(** self.mazeTable[p] *)
Definition table_at (t : list (list bool)) (p : pos) : result bool :=
  match py_nth t (fst p) with
  | None => Err IndexError
  | Some row => match py_nth row (snd p) with Some b => Ok b | None => Err IndexError end
  end.

(** maze.py:37-43 *)
Definition allActions : list pos := [(1, 0)%Z; (0, 1)%Z; (-1, 0)%Z; (0, -1)%Z].

(** maze.py:65-72 *)
Fixpoint free_row (i j : Z) (row : list bool) : list pos :=
  match row with
  | [] => []
  | p :: rest => if p then free_row i (j + 1) rest else (i, j) :: free_row i (j + 1) rest
  end.
Fixpoint free_rows (i : Z) (t : list (list bool)) : list pos :=
  match t with [] => [] | row :: rest => free_row i 0 row ++ free_rows (i + 1) rest end.
Definition freePos (t : list (list bool)) : list pos := free_rows 0 t.

(** list.remove *)
Fixpoint remove_first (p : pos) (l : list pos) : result (list pos) :=
  match l with
  | [] => Err ValueError
  | x :: rest => if pos_eqb x p then Ok rest else let! r := remove_first p rest in Ok (x :: r)
  end.

(** choice(l) *)
Definition choose (l : list pos) (d : nat) : result pos :=
  match l with [] => Err IndexError | x :: _ => Ok (nth (d mod length l) l x) end.

Definition with_pos (m : maze) (p : pos) (b : bool) : maze :=
  {| mz_table := mz_table m; mz_goal := mz_goal m; mz_init := mz_init m; mz_pos := p; mz_bang := b; mz_dir := mz_dir m;
     mz_stochAction := mz_stochAction m; mz_stochObs := mz_stochObs m |}.
Definition with_dir (m : maze) (d : nat) : maze :=
  {| mz_table := mz_table m; mz_goal := mz_goal m; mz_init := mz_init m; mz_pos := mz_pos m; mz_bang := mz_bang m; mz_dir := d;
     mz_stochAction := mz_stochAction m; mz_stochObs := mz_stochObs m |}.
Definition with_goal (m : maze) (g : pos) : maze :=
  {| mz_table := mz_table m; mz_goal := Some g; mz_init := mz_init m; mz_pos := mz_pos m; mz_bang := mz_bang m; mz_dir := mz_dir m;
     mz_stochAction := mz_stochAction m; mz_stochObs := mz_stochObs m |}.

(** maze.py:60-63; d is the draw *)
Definition reset (m : maze) (d : nat) : result maze :=
  let! p := choose (mz_init m) d in Ok (with_pos m p false).

(** maze.py:51-58 *)
Definition mkMaze (t : list (list bool)) (goal : option pos) (init : option (list pos)) (sA sO : Q) (d : nat) : result maze :=
  let! ip := match init with
             | Some l => Ok l
             | None => match goal with Some g => remove_first g (freePos t) | None => Err ValueError end
             end in
  reset {| mz_table := t; mz_goal := goal; mz_init := ip; mz_pos := (0, 0)%Z; mz_bang := false; mz_dir := 0;
           mz_stochAction := sA; mz_stochObs := sO |} d.

(** maze.py:74-76 *)
Definition moveInDir (p d : pos) : pos := (fst p + fst d, snd p + snd d)%Z.

(** maze.py:79-81 / polarmaze.py:29-31: the action after the noise; [n] alternatives, u and d the draws *)
Definition noisy_action (m : maze) (n : nat) (action : Z) (u : Q) (d : nat) : Z :=
  if qlt 0 (mz_stochAction m) && qlt u (mz_stochAction m) then Z.of_nat (d mod n) else action.

(** maze.py:82-87 *)
Definition try_move (m : maze) (dir : pos) : result maze :=
  let tmp := moveInDir (mz_pos m) dir in
  let! wall := table_at (mz_table m) tmp in
  if wall then Ok (with_pos m (mz_pos m) true) else Ok (with_pos m tmp false).

(** maze.py:78-87 *)
Definition performAction (m : maze) (action : Z) (u : Q) (d : nat) : result maze :=
  match py_nth allActions (noisy_action m 4 action u d) with
  | None => Err IndexError
  | Some dir => try_move m dir
  end.

(** maze.py:89-97; us are the draws *)
Fixpoint sense (m : maze) (dirs : list pos) : result (list bool) :=
  match dirs with
  | [] => Ok []
  | a :: rest => let! w := table_at (mz_table m) (moveInDir (mz_pos m) a) in let! ws := sense m rest in Ok (w :: ws)
  end.
Fixpoint flip_noise (s : Q) (us : nat -> Q) (k : nat) (obs : list bool) : list bool :=
  match obs with [] => [] | o :: rest => (if qlt (us k) s then negb o else o) :: flip_noise s us (k + 1) rest end.
Definition getSensors (m : maze) (us : nat -> Q) : result (list bool) :=
  let! obs := sense m allActions in
  Ok (if qlt 0 (mz_stochObs m) then flip_noise (mz_stochObs m) us 0 obs else obs).

(** ** polarmaze.py *)
(** 24-26 *)
Definition polar_reset (m : maze) (d d2 : nat) : result maze :=
  let! m' := reset m d in Ok (with_dir m' (d2 mod 4)).
(** 28-45; the five actions are numbered 0..4 and allActions[action] is action itself, counted from the end if negative *)
Definition polar_performAction (m : maze) (action : Z) (u : Q) (d : nat) : result maze :=
  match py_nth [0; 1; 2; 3; 4] (noisy_action m 5 action u d) with
  | None => Err IndexError
  | Some act =>
      let m0 := with_pos m (mz_pos m) false in
      match act with
      | 1 => match nth_error allActions (mz_dir m) with Some dir => try_move m0 dir | None => Err IndexError end
      | 3 => Ok (with_dir m0 ((mz_dir m + 1) mod 4))
      | 4 => Ok (with_dir m0 ((mz_dir m + 3) mod 4))       (* (dir - 1) % 4 *)
      | 2 => Ok (with_dir m0 ((mz_dir m + 2) mod 4))
      | _ => Ok m0
      end
  end.
(** 47-52 *)
Definition polar_getSensors (m : maze) (us : nat -> Q) : result (list bool) :=
  let! obs := getSensors m us in Ok (skipn (mz_dir m) obs ++ firstn (mz_dir m) obs).

(** ** tasks/mdp.py *)
(** 11-18; d is the draw of the reset *)
Definition mdp_getReward (m : maze) (d : nat) : result (Q * maze) :=
  if is_goal (mz_goal m) (mz_pos m) then let! m' := reset m d in Ok (1%Q, m') else Ok (0%Q, m).
(** 27-32; shape[0] is the number of rows *)
Definition mdp_getObservation (m : maze) : Z := (fst (mz_pos m) * Z.of_nat (length (mz_table m)) + snd (mz_pos m))%Z.

(** ** tasks/maze.py, pomdp.py, episodic.py *)
Record task := {
  tk_env : maze;
  tk_steps : nat;            (* pomdp.py:28,39,52 *)
  tk_samples : nat;          (* episodic.py:19 *)
  tk_cum : Q;                (* episodic.py:16 *)
  tk_discount : option Q;
  tk_maxSteps : option nat;
  tk_bangPenalty : Q;
  tk_defaultPenalty : Q;
  tk_finalReward : Q }.
Definition with_env (t : task) (m : maze) : task :=
  {| tk_env := m; tk_steps := tk_steps t; tk_samples := tk_samples t; tk_cum := tk_cum t; tk_discount := tk_discount t; tk_maxSteps := tk_maxSteps t;
     tk_bangPenalty := tk_bangPenalty t; tk_defaultPenalty := tk_defaultPenalty t; tk_finalReward := tk_finalReward t |}.

Fixpoint qpower (q : Q) (n : nat) : Q := match n with O => 1%Q | S k => (q * qpower q k)%Q end.

(** pomdp.py:38-40, episodic.py:27-33 *)
Definition task_reset (t : task) (d : nat) : result task :=
  let! m := reset (tk_env t) d in
  Ok {| tk_env := m; tk_steps := 0; tk_samples := 0; tk_cum := 0%Q; tk_discount := tk_discount t; tk_maxSteps := tk_maxSteps t;
        tk_bangPenalty := tk_bangPenalty t; tk_defaultPenalty := tk_defaultPenalty t; tk_finalReward := tk_finalReward t |}.

(** tasks/maze.py:36-42: the reward, and the task after the call (it may move the agent in a subclass) *)
Definition maze_getReward (t : task) : Q * task :=
  ((if is_goal (mz_goal (tk_env t)) (mz_pos (tk_env t)) then tk_finalReward t
    else if mz_bang (tk_env t) then tk_bangPenalty t else tk_defaultPenalty t), t).

(** tasks/maze.py:44-45, pomdp.py:42-45 *)
Definition maze_isFinished (t : task) : bool :=
  is_goal (mz_goal (tk_env t)) (mz_pos (tk_env t)) ||
  match tk_maxSteps t with Some n => n <=? tk_steps t | None => false end.

Section Episodic.
  (** the task's getReward *)
  Context (getReward : task -> Q * task).
  (** episodic.py:45-51; a discount of 0 is as none *)
  Definition addReward (t : task) : task :=
    let (r, t') := getReward t in
    let c := match tk_discount t with
             | Some g => if Qeq_bool g 0 then r else (qpower g (tk_samples t) * r)%Q
             | None => r
             end in
    {| tk_env := tk_env t'; tk_steps := tk_steps t'; tk_samples := tk_samples t'; tk_cum := (tk_cum t' + c)%Q; tk_discount := tk_discount t'; tk_maxSteps := tk_maxSteps t';
       tk_bangPenalty := tk_bangPenalty t'; tk_defaultPenalty := tk_defaultPenalty t'; tk_finalReward := tk_finalReward t' |}.
  (** pomdp.py:47-53 with an integer action, episodic.py:39-43, task.py:31-35 without limits *)
  Definition task_performAction (t : task) (action : Z) (u : Q) (d : nat) : result task :=
    let! m := performAction (tk_env t) action u d in
    Ok (addReward {| tk_env := m; tk_steps := tk_steps t + 1; tk_samples := tk_samples t + 1; tk_cum := tk_cum t; tk_discount := tk_discount t; tk_maxSteps := tk_maxSteps t;
                     tk_bangPenalty := tk_bangPenalty t; tk_defaultPenalty := tk_defaultPenalty t; tk_finalReward := tk_finalReward t |}).
  (** experiments/experiment.py:21-31 _oneInteraction: what the agent is given for its action *)
  Definition interaction (t : task) (action : Z) (u : Q) (d : nat) : result (Q * task) :=
    let! t' := task_performAction t action u d in Ok (getReward t').
End Episodic.

(** ** tasks/tmaze.py *)
(** 31-36: the transposed list of columns *)
Definition tmaze_columns (len : nat) : list (list bool) :=
  [[true; true; true; true; true]] ++ repeat [true; true; false; true; true] len ++ [[true; false; false; false; true]] ++ [[true; true; true; true; true]].
Definition transpose5 (cols : list (list bool)) : list (list bool) :=
  map (fun i => map (fun c => nth i c true) cols) [0; 1; 2; 3; 4].
(** 28-46 with the class's parameters; the goal is None until reset chooses it; d is Maze.reset's draw, up that of goUp *)
Definition tmaze_set_goal (len : nat) (t : task) (up : bool) : task :=
  with_env t (with_goal (tk_env t) ((if up then 3 else 1)%Z, Z.of_nat (len + 1))).
Definition tmaze_reset (len : nat) (t : task) (d : nat) (up : bool) : result task :=
  let! t' := task_reset t d in Ok (tmaze_set_goal len t' up).
Definition tmaze (len : nat) (d : nat) (up : bool) : result task :=
  let! m := mkMaze (transpose5 (tmaze_columns len)) None (Some [(2, 1)%Z]) 0 0 d in
  tmaze_reset len {| tk_env := m; tk_steps := 0; tk_samples := 0; tk_cum := 0%Q; tk_discount := Some (98 # 100)%Q; tk_maxSteps := None;
                     tk_bangPenalty := (-1 # 10)%Q; tk_defaultPenalty := 0%Q; tk_finalReward := 4%Q |} d up.
(** 61-67 *)
Definition tmaze_getReward (len : nat) (t : task) : Q * task :=
  let m := tk_env t in
  match mz_goal m with
  | Some g =>
      if Z.eqb (snd (mz_pos m)) (Z.of_nat (len + 1)) && Z.eqb (Z.abs (fst (mz_pos m) - fst g)) 2
      then (tk_bangPenalty t, with_env t (with_pos m g (mz_bang m)))
      else maze_getReward t
  | None => maze_getReward t   (* abs(p - None) would raise; reset sets the goal *)
  end.

(** ** tasks/maze4x3.py:40-49: the actions among which a perturbed move is drawn ([action - a % 4] is action - (a % 4)) *)
Definition maze4x3_poss (action : Z) : list Z :=
  filter (fun a => negb (Z.eqb (action - a mod 4) 2)) [0; 1; 2; 3]%Z.

(** ** tasks/tiger.py *)
Record tiger := { tg_left : bool; tg_done : bool; tg_next : Q; tg_steps : nat; tg_cum : Q }.
(** 25-30 *)
Definition tiger_reset (left : bool) : tiger := {| tg_left := left; tg_done := false; tg_next := (-1)%Q; tg_steps := 0; tg_cum := 0%Q |}.
(** 32-40 *)
Definition tiger_performAction (t : tiger) (action : Z) : tiger :=
  if Z.eqb action 0
  then {| tg_left := tg_left t; tg_done := tg_done t; tg_next := tg_next t; tg_steps := tg_steps t + 1; tg_cum := tg_cum t |}
  else {| tg_left := tg_left t; tg_done := true;
          tg_next := if (Z.eqb action 1 && tg_left t) || (Z.eqb action 2 && negb (tg_left t)) then (-100)%Q else 10%Q;
          tg_steps := tg_steps t + 1; tg_cum := tg_cum t |}.
(** 42-50 *)
Definition tiger_getObservation (stochObs : Q) (t : tiger) (u : Q) : list Q :=
  let obs := if tg_left t then [1%Q; 0%Q] else [0%Q; 1%Q] in
  if qlt u stochObs then map (fun x => 1 - x)%Q obs else obs.
