(** Model of rl/environments/classic (mountaincar.py, acrobot.py, xor.py), rl/environments/simple (environment.py, tasks.py) and rl/environments/shipsteer
    (shipsteer.py without rendering, northwardtask.py).

    Numbers are exact reals; random draws are arguments.  An attribute that need not exist yet is an option.
    Not modelled: the network connection and threads of the ship's viewer, renderers. *)
From Coq Require Import Reals.
From Verif Require Import Base Functions_Model.
Local Open Scope R_scope.

(** ** MountainCar and AcrobotTask: what the two have in common *)
Section Classic.
Context {S : Type}.
Record cfg : Type := { k_init : S; k_do : Z -> S -> result S; k_reward : S -> R * bool; k_max : nat; k_resetOnSuccess : bool }.
Record task : Type := { t_state : S; t_steps : nat; t_episode : nat; t_done : nat; t_r : option R; t_cum : R }.
Variable k : cfg.
(** mountaincar.py:43-44, 61-68, acrobot.py:71-72, 84-92: cumreward stays *)
Definition reset (t : task) : task :=
  {| t_state := k_init k; t_steps := 0; t_episode := t_episode t + 1; t_done := 0; t_r := t_r t; t_cum := t_cum t |}.
(** mountaincar.py:38-41, acrobot.py:56-58 *)
Definition new : task := {| t_state := k_init k; t_steps := 0; t_episode := 1; t_done := 0; t_r := None; t_cum := 0 |}.
(** mountaincar.py:78-99, acrobot.py:94-124: r, f for the number of steps *)
Definition judge (steps : nat) (s : S) : R * nat :=
  let '(r, goal) := k_reward k s in
  let f := if goal then 1%nat else 0%nat in
  (r, if (k_max k <=? steps)%nat then 5%nat else f).
(** mountaincar.py:50-56, acrobot.py:63-69 *)
Definition performAction (t : task) (a : Z) : result task :=
  if (0 <? t_done t)%nat then
    Ok {| t_state := t_state t; t_steps := t_steps t; t_episode := t_episode t; t_done := t_done t + 1; t_r := t_r t; t_cum := t_cum t |}
  else
    let! s := k_do k a (t_state t) in
    let steps := (t_steps t + 1)%nat in
    let '(r, f) := judge steps s in
    Ok {| t_state := s; t_steps := steps; t_episode := t_episode t; t_done := f; t_r := Some r; t_cum := t_cum t + r |}.
(** mountaincar.py:58-59, acrobot.py:74-75: AttributeError before the first action *)
Definition getReward (t : task) : result R := match t_r t with Some r => Ok r | None => Err AttributeError end.
(** mountaincar.py:70-75, acrobot.py:77-82 *)
Definition isFinished (t : task) : bool * task :=
  if (3 <=? t_done t)%nat && k_resetOnSuccess k then (false, reset t) else ((3 <=? t_done t)%nat, t).
(** episodic.py:64-66 the loop of f, the module's actions given by a function of the observed state and its memory *)
Fixpoint runLoop {W} (module : W -> S -> W * Z) (fuel : nat) (w : W) (t : task) : result (W * task) :=
  match fuel with
  | O => Err OutOfFuel
  | Datatypes.S fuel =>
      let '(fin, t) := isFinished t in
      if fin then Ok (w, t)
      else let '(w, a) := module w (t_state t) in let! t := performAction t a in runLoop module fuel w t
  end.
End Classic.
Arguments cfg : clear implicits.
Arguments task : clear implicits.

(** action_list[a] *)
Definition action_list : list R := [-1; 0; 1].
Definition lookup (a : Z) : result R := match py_nth action_list a with Some f => Ok f | None => Err IndexError end.

(** *** mountaincar.py *)
Definition ltb (x y : R) : bool := if Rlt_dec x y then true else false.
Definition leb (x y : R) : bool := if Rle_dec x y then true else false.
(** 101-135 *)
Definition carDo (a : Z) (s : R * R) : result (R * R) :=
  let! force := lookup a in
  let '(position, speed) := s in
  let speedt1 := speed + 1 / 1000 * force + - (25 / 10000) * cos (3 * position) in
  let speedt1 := if ltb speedt1 (- (7 / 100)) then - (7 / 100) else if ltb (7 / 100) speedt1 then 7 / 100 else speedt1 in
  let post1 := position + speedt1 in
  if leb post1 (- (14 / 10)) then Ok (- (14 / 10), 0) else Ok (post1, speedt1).
Definition car (resetOnSuccess : bool) : cfg (R * R) :=
  {| k_init := (- (1 / 2), 0); k_do := carDo; k_reward := fun s => if leb (45 / 100) (fst s) then (1, true) else (0, false);
     k_max := 999; k_resetOnSuccess := resetOnSuccess |}.
(** 46-48 *)
Definition carObservation (s : R * R) : list R := [fst s; snd s * 100; 1].

(** *** acrobot.py *)
Record arms : Type := Arms { th1 : R; th2 : R; th1' : R; th2' : R }.
Definition m1 : R := 1.  Definition m2 : R := 1.  Definition l1 : R := 1.  Definition lc1 : R := 1 / 2.  Definition lc2 : R := 1 / 2.
Definition I1 : R := 1.  Definition I2 : R := 1.  Definition g : R := 98 / 10.  Definition delta_t : R := 5 / 100.
Definition bound (x m : R) : R := let x := if ltb x (- m) then - m else x in if ltb m x then m else x.
(** 134-142 *)
Definition d1 (x : arms) : R := m1 * lc1 ^ 2 + m2 * (l1 ^ 2 + lc2 ^ 2 + 2 * l1 * lc2 * cos (th2 x)) + I1 + I2.
Definition d2 (x : arms) : R := m2 * (lc2 ^ 2 + l1 * lc2 * cos (th2 x)) + I2.
Definition phi2 (x : arms) : R := m2 * lc2 * g * cos (th1 x + th2 x - PI / 2).
Definition phi1 (x : arms) : R :=
  - m2 * l1 * lc2 * th2' x * sin (th2 x) * (th2' x - 2 * th1' x) + (m1 * lc1 + m2 * l1) * g * cos (th1 x - PI / 2) + phi2 x.
Definition accel2 (torque : R) (x : arms) : R :=
  (torque + phi1 x * (d2 x / d1 x) - m2 * l1 * lc2 * th1' x * th1' x * sin (th2 x) - phi2 x) / (m2 * lc2 ^ 2 + I2 - d2 x * d2 x / d1 x).
Definition accel1 (torque : R) (x : arms) : R := - (d2 x * accel2 torque x + phi1 x) / d1 x.
(** 133-161 one round of the loop *)
Definition substep (torque : R) (x : arms) : arms :=
  let a1 := accel1 torque x in
  let a2 := accel2 torque x in
  let w1 := bound (th1' x + a1 * delta_t) (4 * PI) in
  let w2 := bound (th2' x + a2 * delta_t) (9 * PI) in
  Arms (th1 x + w1 * delta_t) (th2 x + w2 * delta_t) w1 w2.
(** 168-175 *)
Definition wrap (t : R) : R := if ltb t (- PI) then t + 2 * PI else if ltb PI t then t - 2 * PI else t.
(** 126-179 *)
Definition armsDo (a : Z) (x : arms) : result arms :=
  let! torque := lookup a in
  let x := Nat.iter 4 (substep torque) x in
  Ok (Arms (wrap (th1 x)) (wrap (th2 x)) (th1' x) (th2' x)).
(** 94-124 *)
Definition armsReward (easy_rewards : bool) (target : R) (x : arms) : R * bool :=
  let y1 := 0 - cos (th1 x) in
  let y2 := y1 - cos (th2 x) in
  let goal := 0 + target in
  if leb goal y2 then ((if easy_rewards then 10 * y2 else 1), true) else ((if easy_rewards then y2 else 0), false).
Definition acrobot (easy_rewards : bool) (target : R) (resetOnSuccess : bool) : cfg arms :=
  {| k_init := Arms 0 0 0 0; k_do := armsDo; k_reward := armsReward easy_rewards target; k_max := 999; k_resetOnSuccess := resetOnSuccess |}.
(** 60-61 *)
Definition armsObservation (x : arms) : list R := map (fun v => v / PI) [th1 x; th2 x; th1' x; th2' x; PI].
(** 191-214 SingleArmSwinger: the state is put back after every action *)
Definition swinger : cfg arms :=
  {| k_init := Arms PI 0 0 0; k_do := armsDo; k_reward := armsReward false (195 / 100); k_max := 99; k_resetOnSuccess := false |}.
Definition refix (t : task arms) : task arms :=
  {| t_state := Arms PI (th2 (t_state t)) 0 (th2' (t_state t)); t_steps := t_steps t; t_episode := t_episode t; t_done := t_done t;
     t_r := t_r t; t_cum := t_cum t |}.
Definition swing (t : task arms) (a : Z) : result (task arms) := let! t := performAction swinger t a in Ok (refix t).

(** ** xor.py *)
(** the first two entries of the observation; (self._counter/2)%2 is a float where / divides truly *)
Inductive num : Type := Int (z : Z) | Float.    (* the value of a float is never used *)
Record xor : Type := { x_r : Z; x_counter : Z; x_state : Z; x_obs : option (num * num); x_cum : Z }.
Record xcfg : Type := { x_random : bool; x_and : bool; x_truediv : bool; x_cutoff : Z }.
Definition half (truediv : bool) (z : Z) : num := if truediv then Float else Int ((z / 2) mod 2).
(** 25-31; b1, b2 are the random bits.  An array has one type of entries *)
Definition bits (c : xcfg) (z : Z) : num * num := if x_truediv c then (Float, half true z) else (Int (z mod 2), half false z).
Definition xorObserve (c : xcfg) (b1 b2 : bool) (t : xor) : xor :=
  {| x_r := x_r t; x_counter := x_counter t + 1; x_state := x_state t;
     x_obs := Some (if x_random c then (Int (Z.b2z b1), Int (Z.b2z b2)) else bits c (x_counter t)); x_cum := x_cum t |}.
(** 33-35: operators on floats raise TypeError *)
Definition target (c : xcfg) (o : option (num * num)) : result Z :=
  match o with
  | None => Err AttributeError
  | Some (Int a, Int b) => Ok (if x_and c then Z.land a b else Z.lxor a b)
  | Some _ => Err TypeError
  end.
(** 42-46; flip says whether random() < stochasticity *)
Definition xorReward (flip : bool) (t : xor) : Z := if flip then - x_r t else x_r t.
Definition addReward (flip : bool) (t : xor) : xor :=
  {| x_r := x_r t; x_counter := x_counter t; x_state := x_state t; x_obs := x_obs t; x_cum := x_cum t + xorReward flip t |}.
(** 33-40 *)
Definition xorPerform (c : xcfg) (flip : bool) (action : Z) (t : xor) : result xor :=
  let! z := target c (x_obs t) in
  Ok (addReward flip {| x_r := (if action =? z then 1 else -1)%Z; x_counter := x_counter t; x_state := x_state t; x_obs := x_obs t; x_cum := x_cum t |}).
(** 66-78 XORChainTask *)
Definition chainObserve (c : xcfg) (t : xor) : xor :=
  {| x_r := x_r t; x_counter := x_counter t; x_state := x_state t; x_obs := Some (bits c (x_state t)); x_cum := x_cum t |}.
Definition chainPerform (c : xcfg) (flip : bool) (action : Z) (t : xor) : result xor :=
  let! z := target c (x_obs t) in
  let '(r, s) := (if action =? z then (-1 + 2 * Z.b2z (x_cutoff c <=? x_state t), Z.min (x_state t + 1) 3) else (-1, 0))%Z in
  Ok (addReward flip {| x_r := r; x_counter := x_counter t; x_state := s; x_obs := x_obs t; x_cum := x_cum t |}).
Definition xorNew : xor := {| x_r := 0; x_counter := 0; x_state := 0; x_obs := None; x_cum := 0 |}.

(** ** simple: SimpleEnvironment and MinimizeTask *)
Record simple : Type := { s_dim : nat; s_state : list R; s_action : list R; s_updated : bool; s_noise : bool }.
(** environment.py:36-40 *)
Definition s_reset (e : simple) : simple :=
  {| s_dim := s_dim e; s_state := repeat 2 (s_dim e); s_action := repeat 0 (s_dim e); s_updated := true; s_noise := s_noise e |}.
(** 28-31: self.state is a list by then, and += appends the entries of the array to it; eps are the random numbers *)
Definition s_update (eps : list R) (e : simple) : simple :=
  let st := rzip (fun s a => s + 1 / 10 * a) (s_state e) (s_action e) in
  {| s_dim := s_dim e; s_state := if s_noise e then st ++ eps else st; s_action := s_action e; s_updated := s_updated e; s_noise := s_noise e |}.
(** 19-22 *)
Definition s_getSensors (eps : list R) (e : simple) : list R * simple :=
  let e := if s_updated e then e else s_update eps e in (s_state e, e).
(** 24-26 *)
Definition s_perform (a : list R) (e : simple) : simple :=
  {| s_dim := s_dim e; s_state := s_state e; s_action := a; s_updated := false; s_noise := s_noise e |}.
(** tasks.py *)
Record mtask : Type := { m_env : simple; m_t : nat; m_state : list R; m_action : list R; m_cum : R }.
(** tasks.py:34-38 (without sensor limits) *)
Definition m_reward (t : mtask) : R := - rsum (map (fun v => v ^ 2) (rzip (fun s a => s + 1 / 10 * a) (m_state t) (m_action t))).
(** tasks.py:26-28 *)
Definition m_observe (eps : list R) (t : mtask) : list R * mtask :=
  let '(v, e) := s_getSensors eps (m_env t) in (v, {| m_env := e; m_t := m_t t; m_state := v; m_action := m_action t; m_cum := m_cum t |}).
(** tasks.py:30-32; episodic.py:39-51: the reward is added before self.action is set *)
Definition m_perform (a : list R) (t : mtask) : mtask :=
  let t := {| m_env := s_perform a (m_env t); m_t := m_t t; m_state := m_state t; m_action := m_action t; m_cum := m_cum t |} in
  {| m_env := m_env t; m_t := m_t t; m_state := m_state t; m_action := a; m_cum := m_cum t + m_reward t |}.
(** tasks.py:18-24: N is 15 *)
Definition m_finished (t : mtask) : bool * mtask :=
  if (15 <=? m_t t)%nat
  then (true, {| m_env := m_env t; m_t := 0; m_state := m_state t; m_action := m_action t; m_cum := m_cum t |})
  else (false, {| m_env := m_env t; m_t := m_t t + 1; m_state := m_state t; m_action := m_action t; m_cum := m_cum t |}).
(** tasks.py:14-16; episodic.py:27-33 *)
Definition m_reset (t : mtask) : mtask :=
  {| m_env := s_reset (m_env t); m_t := 0; m_state := m_state t; m_action := m_action t; m_cum := 0 |}.
Definition m_new (dim : nat) (noise : bool) : mtask :=
  {| m_env := s_reset {| s_dim := dim; s_state := []; s_action := []; s_updated := true; s_noise := noise |}; m_t := 0;
     m_state := repeat 0 dim; m_action := repeat 0 dim; m_cum := 0 |}.

(** ** shipsteer *)
Record ship : Type := Ship { hd : R; hd' : R; sp : R }.
Definition clip (x lo hi : R) : R := Rmin (Rmax x lo) hi.
(** shipsteer.py:43-65; mass and I are 1000, dt is 4; r0, r1, r2 are the random numbers *)
Definition shipStep (thrust rudder r0 r1 r2 : R) (x : ship) : ship :=
  let thrust := clip thrust (-1) 2 in
  let rudder := clip rudder (-90) 90 in
  let drag := 5 * hd x + (rudder ^ 2 + r0) in
  let force := 30 * thrust - 2 * sp x - 2 / 100 * sp x * drag + r1 * 3 in
  let v := clip (sp x + 4 * force / 1000) (-10) 40 in
  let torque := - v * (rudder + hd x + 1 * hd' x + r2 * 10) in
  let hdot := clip (hd' x + torque / 1000) (-180) 180 in
  let h := hd x + (hdot + hd' x) / 2 in
  let h := if ltb 180 h then h - 360 else if ltb h (-180) then h + 360 else h in
  Ship h hdot v.
(** shipsteer.py:71-75, u in [0, 1] *)
Definition shipStart (u : R) : ship := Ship (-30 + u * 60) 0 0.
(** northwardtask.py:22-28, task.py:60-73: normalised actions *)
Definition shipAct (a1 a2 r0 r1 r2 : R) (x : ship) : ship :=
  shipStep (clip ((a1 + 1) / 2 * (2 - -1) + -1) (-1) 2) (clip ((a2 + 1) / 2 * (90 - -90) + -90) (-90) 90) r0 r1 r2 x.
(** northwardtask.py:28, 44-48; maxsteps is that of the constructor *)
Definition rewardscale (maxsteps : Z) : R := 100 / IZR maxsteps / 40.
Definition shipReward (maxsteps : Z) (x : ship) : R := if ltb (Rabs (hd x)) 5 then sp x * rewardscale maxsteps else 0.
(** northwardtask.py:30-52: the episode's loop; the actions and random numbers of a step are given by its number and state *)
Fixpoint shipRun (maxsteps N t : Z) (pol : Z -> ship -> (R * R) * (R * R * R)) (fuel : nat) (x : ship) (cum : R) : result (ship * Z * R) :=
  match fuel with
  | O => Err OutOfFuel
  | S fuel =>
      if (N <=? t)%Z then Ok (x, t, cum)
      else
        let '((a1, a2), (r0, r1, r2)) := pol t x in
        let x := shipAct a1 a2 r0 r1 r2 x in
        shipRun maxsteps N (t + 1) pol fuel x (cum + shipReward maxsteps x)
  end.
