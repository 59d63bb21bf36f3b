(** Spec for C84: the remaining maze tasks. *)
From Verif Require Import Base Maze_Model Maze_Props Tasks_Model.
From Coq Require Import QArith.
Local Open Scope nat_scope.

(** a vector of n entries with a 1 at i and 0 elsewhere *)
Definition hot (n i : nat) (l : list Q) : Prop :=
  i < n /\ length l = n /\ forall j, nth j l 0%Q = if j =? i then 1%Q else 0%Q.

(** ** The corridor of the shuttle: columns 1 to 5; 1 is the old station, 5 the new one. *)
Definition column (t : task) : Z := snd (mz_pos (tk_env t)).
Definition facing_new (t : task) : Prop := mz_dir (tk_env t) = 1.
Definition facing_old (t : task) : Prop := mz_dir (tk_env t) = 3.
Definition banged (t : task) : bool := mz_bang (tk_env t).
Definition in_corridor (t : task) : Prop :=
  fst (mz_pos (tk_env t)) = 1%Z /\ (1 <= column t <= 5)%Z /\ (facing_new t \/ facing_old t).
(** what can happen to the ship *)
Definition turned (t t' : task) : Prop :=
  column t' = column t /\ (facing_new t <-> facing_old t') /\ (facing_old t <-> facing_new t').
Definition same_facing (t t' : task) : Prop := (facing_new t <-> facing_new t') /\ (facing_old t <-> facing_old t').
Definition backed (t t' : task) : Prop :=
  same_facing t t' /\
  (facing_new t -> column t' = Z.max 1 (column t - 1)) /\ (facing_old t -> column t' = Z.min 5 (column t + 1)).
Definition idle (t t' : task) : Prop := same_facing t t' /\ column t' = column t /\ banged t' = banged t.
(** which of the three a Backup does, and with which draws: probability of a turn, and of a turn or a backing *)
Definition chances (t : task) (turn back : Q) : Prop :=
  (column t = 3%Z /\ turn = (1 # 10)%Q /\ back = (9 # 10)%Q) \/
  (((column t = 2%Z /\ facing_old t) \/ (column t = 4%Z /\ facing_new t)) /\ turn = (3 # 10)%Q /\ back = (6 # 10)%Q) \/
  ((column t = 1%Z \/ column t = 5%Z \/ (column t = 2%Z /\ facing_new t) \/ (column t = 4%Z /\ facing_old t)) /\ turn = 0%Q /\ back = (7 # 10)%Q).
Fixpoint fly (t : task) (acts : list (Z * Q)) : result task :=
  match acts with [] => Ok t | (a, r) :: rest => let! t' := shuttle_performAction t a r in fly t' rest end.
(** the task after a reset and any actions *)
Definition flown (acts : list (Z * Q)) (t : task) : Prop :=
  exists d d2 t0, shuttle d d2 = Ok t0 /\ fly t0 acts = Ok t.

(** ** Drawing: the first line is the row with the largest number; what is drawn for a cell *)
Definition drawn (m : maze) (r c : nat) : option ink :=
  match nth_error (draw m) (length (mz_table m) - 1 - r) with Some line => nth_error line c | None => None end.
(** the direction d as it is seen on the drawing: to the right, up *)
Definition on_screen (d : nat) : option (Z * Z) :=
  match d with 0 => Some (0, 1)%Z | 1 => Some (1, 0)%Z | 2 => Some (0, -1)%Z | 3 => Some (-1, 0)%Z | _ => None end.
Definition clockwise (v : Z * Z) : Z * Z := (snd v, - fst v)%Z.

(** ** A memoryless agent in the cheese maze *)
Fixpoint memoryless (policy : list Q -> Z) (n : nat) (m : maze) : result maze :=
  match n with
  | 0 => Ok m
  | S k =>
      let! obs := cheese_getObservation m (fun _ => 0%Q) in
      let! m' := performAction m (policy obs) 0 0 in
      memoryless policy k m'
  end.

(** ** Walks without noise *)
Fixpoint walk (ap : maze -> Z -> result maze) (m : maze) (acts : list Z) : result maze :=
  match acts with [] => Ok m | a :: rest => let! m' := ap m a in walk ap m' rest end.
Definition calm (m : maze) (a : Z) : result maze := performAction m a 1 0.
Definition calm_polar (m : maze) (a : Z) : result maze := polar_performAction m a 1 0.
Definition standing (table : list (list bool)) (goal : pos) (s so : Q) (p : pos) (d : nat) : maze :=
  {| mz_table := table; mz_goal := Some goal; mz_init := [p]; mz_pos := p; mz_bang := false; mz_dir := d; mz_stochAction := s; mz_stochObs := so |}.

(** ** The 4x3 maze: whatever is done after a reset *)
Fixpoint four_run (f : four) (acts : list (nat * Q * nat * Q * nat)) : result four :=
  match acts with
  | [] => Ok f
  | (a, u1, c1, u, d) :: rest => let! f' := four_performAction f (Z.of_nat a) u1 c1 u d in four_run f' rest
  end.
