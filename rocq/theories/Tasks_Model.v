(** Model of the remaining maze tasks: rl/environments/mazes/tasks/shuttle.py, cheesemaze.py, maze4x3.py, maze89state.py,
    the trivial maze of tasks/maze.py, and of the drawing of a maze (maze.py:99-113).  The mazes are those of Maze_Model.

    The classes are taken with their own attributes (setArgs is not used).  The outcomes of random() and choice() are
    arguments. *)
From Verif Require Import Base Maze_Model.
From Coq Require Import QArith.
Local Open Scope nat_scope.

Local Notation W := true (only parsing).
Local Notation o := false (only parsing).

(** ** maze.py:99-113 *)
Inductive ink := Goal_ink | Agent_ink | Wall_ink | Free_ink.
(** 104-111 for the cell (r, c) *)
Definition draw_cell (m : maze) (r c : Z) (p : bool) : ink :=
  if is_goal (mz_goal m) (r, c) then Goal_ink
  else if pos_eqb (r, c) (mz_pos m) then Agent_ink
  else if p then Wall_ink else Free_ink.
(** 103: enumerate(row) *)
Fixpoint draw_row (m : maze) (r c : Z) (row : list bool) : list ink :=
  match row with [] => [] | p :: rest => draw_cell m r c p :: draw_row m r (c + 1) rest end.
(** 102: enumerate(self.mazeTable) *)
Fixpoint draw_rows (m : maze) (r : Z) (t : list (list bool)) : list (list ink) :=
  match t with [] => [] | row :: rest => draw_row m r 0 row :: draw_rows m (r + 1) rest end.
(** 102: the lines from the top; the last row of the table is first *)
Definition draw (m : maze) : list (list ink) := rev (draw_rows m 0 (mz_table m)).

(** ** tasks/maze.py:51-62 *)
Definition trivial_table : list (list bool) := [repeat W 5; [W; o; o; o; W]; repeat W 5].

(** ** tasks/shuttle.py *)
(** 28-32 *)
Definition shuttle_table : list (list bool) := [repeat W 7; [W; o; o; o; o; o; W]; repeat W 7].
Definition shuttle_goal : pos := (1, 5)%Z.
(** 38-40; POMDPTask.reset, EpisodicTask.reset and PolarMaze.reset with the draws d and d2 *)
Definition shuttle_reset (t : task) (d d2 : nat) : result task :=
  let! m := polar_reset (tk_env t) d d2 in
  Ok {| tk_env := with_dir m 1; tk_steps := 0; tk_samples := 0; tk_cum := 0%Q; tk_discount := tk_discount t; tk_maxSteps := tk_maxSteps t;
        tk_bangPenalty := tk_bangPenalty t; tk_defaultPenalty := tk_defaultPenalty t; tk_finalReward := tk_finalReward t |}.
(** 18-34, tasks/maze.py:29-34; the direction drawn by the first reset is overwritten by the second *)
Definition shuttle (d d2 : nat) : result task :=
  let! m := mkMaze shuttle_table (Some shuttle_goal) (Some [(1, 1)%Z]) 0 0 d in
  shuttle_reset {| tk_env := m; tk_steps := 0; tk_samples := 0; tk_cum := 0%Q; tk_discount := Some (95 # 100)%Q; tk_maxSteps := None;
                   tk_bangPenalty := (-3)%Q; tk_defaultPenalty := 0%Q; tk_finalReward := 10%Q |} d d2.
(** self.env.initPos[0] *)
Definition at_init0 (m : maze) : result bool :=
  match mz_init m with [] => Err IndexError | p :: _ => Ok (pos_eqb (mz_pos m) p) end.
(** zeros(n) with a 1 at i *)
Definition one_in (n i : nat) : result (list Q) :=
  if i <? n then Ok (repeat 0%Q i ++ [1%Q] ++ repeat 0%Q (n - i - 1)) else Err IndexError.
(** 42-56; u is the draw of random() *)
Definition shuttle_getObservation (m : maze) (u : Q) : result (list Q) :=
  if is_goal (mz_goal m) (mz_pos m) then one_in 5 4
  else
    let! i := at_init0 m in
    if i then one_in 5 0
    else if Z.eqb (snd (mz_pos m)) 3 then
      if qlt (7 # 10) u then one_in 5 (mz_dir m) else one_in 5 ((mz_dir m + 2) mod 4)
    else one_in 5 ((mz_dir m + 2) mod 4).
(** the environment is free of noise: its draws are not looked at *)
Definition env_act (m : maze) (a : Z) : result maze := polar_performAction m a 0 0.
(** 89-90 *)
Definition shuttle_turn (m : maze) : result maze := env_act m 2.
(** 84-87 *)
Definition shuttle_backup (m : maze) : result maze :=
  let! a := env_act m 2 in let! b := env_act a 1 in env_act b 2.
(** 92-97 *)
Definition shuttle_forward (m : maze) : result maze :=
  let old := mz_pos m in
  let! a := env_act m 2 in
  let! i := if is_goal (mz_goal a) (mz_pos a) then Ok true else at_init0 a in
  if i then Ok (with_pos a old true) else Ok a.
(** 60-82; r is the draw *)
Definition shuttle_move (m : maze) (action : Z) (r : Q) : result maze :=
  if Z.eqb action 2 then shuttle_turn m
  else if Z.eqb action 1 then shuttle_forward m
  else if Z.eqb (snd (mz_pos m)) 3 then
    if qlt r (1 # 10) then shuttle_turn m else if qlt r (9 # 10) then shuttle_backup m else Ok m
  else if (Z.eqb (snd (mz_pos m)) 2 && (mz_dir m =? 3)) || (Z.eqb (snd (mz_pos m)) 4 && (mz_dir m =? 1)) then
    if qlt r (3 # 10) then shuttle_turn m else if qlt r (6 # 10) then shuttle_backup m else Ok m
  else if qlt r (7 # 10) then shuttle_backup m else Ok m.
(** 58-82 *)
Definition shuttle_performAction (t : task) (action : Z) (r : Q) : result task :=
  let! m := shuttle_move (tk_env t) action r in
  Ok {| tk_env := m; tk_steps := tk_steps t + 1; tk_samples := tk_samples t; tk_cum := tk_cum t; tk_discount := tk_discount t; tk_maxSteps := tk_maxSteps t;
        tk_bangPenalty := tk_bangPenalty t; tk_defaultPenalty := tk_defaultPenalty t; tk_finalReward := tk_finalReward t |}.

(** ** tasks/cheesemaze.py *)
(** 20-25 *)
Definition cheese_table : list (list bool) :=
  [repeat W 7; [W; o; W; o; W; o; W]; [W; o; W; o; W; o; W]; [W; o; o; o; o; o; W]; repeat W 7].
Definition cheese_goal : pos := (1, 3)%Z.
Definition walls (obs : list bool) : nat := length (filter (fun b => b) obs).
(** 27-46; us are the draws of the sensors *)
Definition cheese_getObservation (m : maze) (us : nat -> Q) : result (list Q) :=
  let! obs := getSensors m us in
  if is_goal (mz_goal m) (mz_pos m) then one_in 7 6
  else if walls obs =? 3 then one_in 7 0
  else if walls obs =? 1 then one_in 7 5
  else
    match obs with
    | [n; e; s; w] =>
        if Bool.eqb n e then one_in 7 1
        else if Bool.eqb n w then one_in 7 2
        else if Bool.eqb n s then (if n then one_in 7 3 else one_in 7 4)
        else Ok (repeat 0%Q 7)
    | _ => Err IndexError
    end.
Definition cheese (d : nat) : result maze := mkMaze cheese_table (Some cheese_goal) None 0 0 d.

(** ** tasks/maze4x3.py *)
(** 29-34 *)
Definition four_table : list (list bool) :=
  [repeat W 6; [W; o; o; o; o; W]; [W; o; W; o; o; W]; [W; o; o; o; o; W]; repeat W 6].
Definition four_goal : pos := (3, 4)%Z.
Definition four_init : list pos := [(1, 1); (1, 2); (1, 3); (2, 1); (3, 1); (3, 2); (2, 3); (3, 3); (1, 4)]%Z.
Record four := { fo_task : task; fo_bad : bool; fo_minReward : Q }.
(** 36-38 *)
Definition four_reset (f : four) (d : nat) : result four :=
  let! t := task_reset (fo_task f) d in Ok {| fo_task := t; fo_bad := false; fo_minReward := fo_minReward f |}.
Definition qmin (x y : Q) : Q := if qlt y x then y else x.
(** 18-34 with tasks/maze.py:29-34: the constructor replaces the class's minReward *)
Definition mkFour (d : nat) : result four :=
  let! m := mkMaze four_table (Some four_goal) (Some four_init) (1 # 10) 0 d in
  let bang := (-4 # 100)%Q in
  let default := (-4 # 100)%Q in
  four_reset {| fo_task := {| tk_env := m; tk_steps := 0; tk_samples := 0; tk_cum := 0%Q; tk_discount := Some (95 # 100)%Q; tk_maxSteps := None;
                              tk_bangPenalty := bang; tk_defaultPenalty := default; tk_finalReward := 1%Q |};
                fo_bad := false; fo_minReward := qmin bang default |} d.
(** 50-54 *)
Definition four_getReward (bad : bool) (minReward : Q) (t : task) : Q * task :=
  if bad then (minReward, t) else maze_getReward t.
(** 40-48; u1, c1 are the draws of the task, u, d those of the maze *)
Definition four_performAction (f : four) (action : Z) (u1 : Q) (c1 : nat) (u : Q) (d : nat) : result four :=
  let poss := maze4x3_poss action in
  let! act :=
    if qlt u1 (mz_stochAction (tk_env (fo_task f)) * inject_Z (Z.of_nat (length poss)))
    then match poss with [] => Err IndexError | p :: _ => Ok (nth (c1 mod length poss) poss p) end
    else Ok action in
  let! t := task_performAction (four_getReward (fo_bad f) (fo_minReward f)) (fo_task f) act u d in
  Ok {| fo_task := t; fo_bad := fo_bad f; fo_minReward := fo_minReward f |}.
Definition b2q (b : bool) : Q := if b then 1%Q else 0%Q.
(** 56-64 *)
Definition four_getObservation (m : maze) (us : nat -> Q) : result (list Q) :=
  let! all := getSensors m us in
  match nth_error all 3, nth_error all 1 with
  | Some w, Some e => Ok [b2q w; b2q e; b2q (w && e); b2q (negb w && negb e)]
  | _, _ => Err IndexError
  end.

(** ** tasks/maze89state.py:20-30 *)
Definition eightynine_table : list (list bool) :=
  [repeat W 9;
   [W; W; o; o; o; o; o; W; W];
   [W; o; o; W; o; W; o; o; W];
   [W; W; o; W; o; W; o; W; W];
   [W; o; o; W; o; W; o; o; W];
   [W; W; o; o; o; o; o; W; W];
   repeat W 9].
Definition eightynine_goal : pos := (2, 7)%Z.
Definition eightynine (d d2 : nat) : result maze :=
  let! m := mkMaze eightynine_table (Some eightynine_goal) None (1 # 10) (1 # 10) d in polar_reset m d d2.
