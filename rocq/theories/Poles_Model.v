(** Model of rl/environments/cartpole: CartPoleEnvironment and CartPoleLinEnvironment (cartpole.py), DoublePoleEnvironment (doublepole.py),
    NonMarkovPoleEnvironment (nonmarkovpole.py), NonMarkovDoublePoleEnvironment (nonmarkovdoublepole.py) and the tasks of balancetask.py, with the
    parts of rl/environments/task.py and episodic.py they run through (default settings: clipping on, discount None).

    Numbers are exact reals.  matplotlib.mlab.rk4 is the classical Runge-Kutta step.  Random draws are arguments.  A state of the simulation is the
    tuple (theta, theta', s, s').  4 / 3 of cartpole.py:87 is an argument: true division gives 4/3, division of integers 1.
    Not modelled: rendering and delays, the compiled version (fast_version). *)
From Coq Require Import Reals.
From Verif Require Import Base Functions_Model.
Local Open Scope R_scope.

Definition gtb (x y : R) : bool := if Rlt_dec y x then true else false.
Definition ltb (x y : R) : bool := if Rlt_dec x y then true else false.

(** ** cartpole.py *)
Record state : Type := St { th : R; th' : R; po : R; po' : R }.
Record phys : Type := { c_g : R; c_l : R; c_mp : R; c_mc : R; c_dt : R }.
(** 22-27, 31-34 *)
Definition pole (l : R) : phys := {| c_g := 981 / 100; c_l := l; c_mp := 1 / 10; c_mc := 1; c_dt := 2 / 100 |}.
Definition pole1 : phys := pole (1 / 2).

(** 74-90 *)
Definition denom (q : R) (c : phys) (theta : R) : R := q * c_l c * (c_mc c + c_mp c) - c_mp c * c_l c * cos theta ^ 2.
Definition derivs (q : R) (c : phys) (F : R) (x : state) : state :=
  let sin_theta := sin (th x) in
  let cos_theta := cos (th x) in
  let u_ := (c_g c * sin_theta * (c_mc c + c_mp c) - (F + c_mp c * c_l c * th' x ^ 2 * sin_theta) * cos_theta) / denom q c (th x) in
  let v_ := (F - c_mp c * c_l c * (u_ * cos_theta - th' x ^ 2 * sin_theta)) / (c_mc c + c_mp c) in
  St (th' x) u_ (po' x) v_.

(** matplotlib.mlab.rk4 for the times [0, h] *)
Definition axpy (a : R) (x y : state) : state := St (a * th x + th y) (a * th' x + th' y) (a * po x + po y) (a * po' x + po' y).
Definition rk4 (f : state -> state) (h : R) (y : state) : state :=
  let k1 := f y in
  let k2 := f (axpy (h / 2) k1 y) in
  let k3 := f (axpy (h / 2) k2 y) in
  let k4 := f (axpy h k3 y) in
  axpy (h / 6) (axpy 2 k3 (axpy 2 k2 (axpy 1 k1 k4))) y.
(** 49-61 *)
Definition step (q : R) (c : phys) (F : R) (x : state) : state := rk4 (derivs q c F) (c_dt c) x.
(** 63-72; u1, u2 are the numbers in [0, 1] behind random.uniform *)
Definition uniform (lo hi u : R) : R := lo + u * (hi - lo).
Definition start (randomInitialization : bool) (u1 u2 : R) : state :=
  if randomInitialization then St (uniform (-2 / 10) (2 / 10) u1) 0 (uniform (-5 / 10) (5 / 10) u2) 0 else St (-2 / 10) 0 (2 / 10) 0.

(** 107-123 CartPoleLinEnvironment: the mean of the next state; self.sensors * self.A is a product row * matrix *)
Definition linA (nu tau : R) : list (list R) := [[1; tau; 0; 0]; [nu * tau; 1; 0; 0]; [0; 0; 1; tau]; [0; 0; 0; 1]].
Definition linb (nu tau : R) : list R := [0; nu * tau / (980665 / 100000); 0; tau].
Definition rowmul (x : list R) (A : list (list R)) : list R :=
  map (fun j => rdot x (map (fun row => nth j row 0) A)) (seq 0 (length (hd [] A))).
Definition linmean (nu tau : R) (a : R) (x : list R) : list R := rzip Rplus (rowmul x (linA nu tau)) (map (Rmult a) (linb nu tau)).
(** LinearizedBalanceTask, balancetask.py:191-211 *)
Definition linReward (x : list R) (a : R) : R := rdot (map (fun v => v ^ 2) x) [12; 1 / 4; 125 / 100; 1] + a ^ 2 * (1 / 100).
Definition linFinished (N t : Z) (x : list R) : bool :=
  gtb (Rabs (nth 0 x 0)) (5235988 / 10000000) || gtb (Rabs (nth 2 x 0)) (15 / 10) || (N <=? t)%Z.

(** ** the four environments *)
Inductive env : Type :=
| Single (nonMarkov : bool) (c : phys) (x : state)
| Double (nonMarkov : bool) (x1 x2 : state) (sensors : list R).    (* sensors is the attribute; p1 and p2 have their own *)
(** doublepole.py:13-18 *)
Definition pole2 : phys := {| c_g := 981 / 100; c_l := 5 / 100; c_mp := 1 / 100; c_mc := 1; c_dt := 2 / 100 |}.
(** cartpole.py:20, nonmarkovpole.py:9, nonmarkovdoublepole.py:10; doublepole.py:11 writes ooutdim, so that outdim of environment.py:18 stays *)
Definition outdim (e : env) : nat := match e with Single false _ _ => 4 | Single true _ _ => 2 | Double false _ _ _ => 0 | Double true _ _ _ => 3 end.
(** doublepole.py:20-29 *)
Definition seen (x1 x2 : state) : list R := [th x1; th' x1; th x2; th' x2; po x2; po' x2].
(** cartpole.py:41-47, doublepole.py:20-29, nonmarkovpole.py:11-18, nonmarkovdoublepole.py:12-19: the value, and the environment afterwards *)
Definition getSensors (e : env) : list R * env :=
  match e with
  | Single false _ x => ([th x; th' x; po x; po' x], e)
  | Single true _ x => ([th x; po x], e)
  | Double false x1 x2 _ => (seen x1 x2, Double false x1 x2 (seen x1 x2))
  | Double true x1 x2 _ => let tmp := seen x1 x2 in ([nth 0 tmp 0; nth 2 tmp 0; nth 4 tmp 0], Double true x1 x2 tmp)
  end.
(** cartpole.py:92-94, doublepole.py:50-52, nonmarkovdoublepole.py:21-23 *)
Definition sensorsOf (x : state) : list R := [th x; th' x; po x; po' x].
Definition getPoleAngles (e : env) : list R :=
  match e with
  | Single _ _ x => [nth 0 (sensorsOf x) 0]
  | Double false _ _ s => [nth 0 s 0; nth 2 s 0]
  | Double true _ _ s => [nth 0 s 0; nth 1 s 0]
  end.
(** cartpole.py:96-98, nonmarkovpole.py:20-22, doublepole.py:46-48, nonmarkovdoublepole.py:25-27 *)
Definition getCartPosition (e : env) : R :=
  match e with
  | Single false _ x => nth 2 (sensorsOf x) 0
  | Single true _ x => nth 1 (sensorsOf x) 0
  | Double false _ _ s => nth 4 s 0
  | Double true _ _ s => nth 2 s 0
  end.
(** cartpole.py:49-57, doublepole.py:40-44 *)
Definition e_perform (F : R) (e : env) : env :=
  match e with
  | Single m c x => Single m c (step (4 / 3) c F x)
  | Double m x1 x2 s => Double m (step (4 / 3) pole1 F x1) (step (4 / 3) pole2 F x2) s
  end.
(** cartpole.py:63-72, doublepole.py:31-38; two draws for each pole *)
Definition e_reset (d : R * R * (R * R)) (e : env) : env :=
  let '(u1, u2, (u3, u4)) := d in
  match e with
  | Single m c _ => Single m c (start true u1 u2)
  | Double m _ _ _ =>
      let x1 := start true u1 u2 in
      let x2 := start true u3 u4 in
      let x2 := St (th x2) (th' x2) (po x1) (po' x1) in
      snd (getSensors (Double m x1 x2 []))
  end.

(** ** the tasks of balancetask.py *)
Inductive kind : Type := Balance | JustBalance | EasyBalance | Discrete | NoHelp | Pomdp | Rbf | DoubleRbf.
Definition limit : Type := option (R * R).
Record task : Type := { t_kind : kind; t_N : Z; t_t : Z; t_env : env; t_cum : R; t_samples : nat; t_limits : list limit }.
Definition isNonMarkov (e : env) : bool := match e with Single m _ _ => m | Double m _ _ _ => m end.
(** 28-33, 121, 173 *)
Definition limitsFor (k : kind) (e : env) : list limit :=
  match k with
  | Balance | JustBalance | EasyBalance =>
      Some (-3, 3) :: map (fun i => if isNonMarkov e && Nat.even i then None else Some (- PI, PI)) (seq 1 (outdim e - 1))
  | Pomdp => repeat None 2
  | _ => repeat None (outdim e)
  end.
(** 15-37, 109-124, 161-176, 252-255 *)
Definition newTask (k : kind) (e : env) (maxsteps : Z) : task :=
  {| t_kind := k; t_N := maxsteps; t_t := 0; t_env := e; t_cum := 0; t_samples := 0; t_limits := limitsFor k e |}.
Definition with_env (T : task) (e : env) : task :=
  {| t_kind := t_kind T; t_N := t_N T; t_t := t_t T; t_env := e; t_cum := t_cum T; t_samples := t_samples T; t_limits := t_limits T |}.
(** 39-41; episodic.py:27-33 *)
Definition t_reset (d : R * R * (R * R)) (T : task) : task :=
  {| t_kind := t_kind T; t_N := t_N T; t_t := 0; t_env := e_reset d (t_env T); t_cum := 0; t_samples := 0; t_limits := t_limits T |}.
(** 71-72 *)
Definition setMaxLength (n : Z) (T : task) : task :=
  {| t_kind := t_kind T; t_N := n; t_t := t_t T; t_env := t_env T; t_cum := t_cum T; t_samples := t_samples T; t_limits := t_limits T |}.

Definition maxl (l : list R) : R := match l with [] => 0 | x :: l => fold_left Rmax l x end.
Definition minl (l : list R) : R := match l with [] => 0 | x :: l => fold_left Rmin l x end.
Definition angles (e : env) : list R := map Rabs (getPoleAngles e).
(** 47-57, 229-234 *)
Definition isFinished (T : task) : bool :=
  match t_kind T with
  | Rbf | DoubleRbf => gtb (maxl (angles (t_env T))) (16 / 10) || (t_N T <=? t_t T)%Z
  | _ => gtb (maxl (angles (t_env T))) (7 / 10) || gtb (Rabs (getCartPosition (t_env T))) (24 / 10) || (t_N T <=? t_t T)%Z
  end.
(** 59-69, 77-86, 92-101, 137-146, 150-157, 221-227 *)
Definition reward (k : kind) (left : Z) (e : env) : R :=
  let a := angles e in
  let s := Rabs (getCartPosition e) in
  let lost := gtb (maxl a) (7 / 10) || gtb (Rabs s) (24 / 10) in
  match k with
  | Balance => if ltb (minl a) (5 / 100) && ltb (Rabs s) (5 / 100) then 0 else if lost then -2 * IZR left else -1
  | JustBalance => if ltb (minl a) (5 / 100) then 0 else if lost then -2 * IZR left else -1
  | EasyBalance => if ltb (minl a) (5 / 100) && ltb (Rabs s) (5 / 100) then 0 else if lost then -2 * IZR left else - Rabs s / 2
  | Discrete | Pomdp => if ltb (minl a) (5 / 100) then 1 else if lost then -1 * IZR left else 0
  | NoHelp => if lost then -1 * IZR left else 0
  | Rbf | DoubleRbf => if gtb (maxl a) (16 / 10) then -1 else 0
  end.
Definition getReward (T : task) : R := reward (t_kind T) (t_N T - t_t T) (t_env T).

(** task.py:60-73 for the limits [(-50, 50)] *)
Definition clip (x lo hi : R) : R := Rmin (Rmax x lo) hi.
Definition denormalize (a : list R) : result R :=
  match a with [a] => Ok (clip ((a + 1) / 2 * (50 - (-50)) + (-50)) (-50) 50) | _ => Err AssertionError end.
(** 133-135: numActions is 3 *)
Definition isDiscrete (k : kind) : bool := match k with Balance | JustBalance | EasyBalance => false | _ => true end.
Definition force (k : kind) (a : list R) : result R := denormalize (if isDiscrete k then map (fun x => x - 1) a else a).
(** 43-45, 133-135; task.py:30-34, episodic.py:39-51 *)
Definition performAction (T : task) (a : list R) : result task :=
  let! F := force (t_kind T) a in
  let T := {| t_kind := t_kind T; t_N := t_N T; t_t := t_t T + 1; t_env := e_perform F (t_env T); t_cum := t_cum T;
              t_samples := S (t_samples T); t_limits := t_limits T |} in
  Ok {| t_kind := t_kind T; t_N := t_N T; t_t := t_t T; t_env := t_env T; t_cum := t_cum T + getReward T;
        t_samples := t_samples T; t_limits := t_limits T |}.

(** task.py:47-58 *)
Definition normalize1 (l : limit) (s : R) : R := match l with None => s | Some (lo, hi) => (s - lo) / (hi - lo) * 2 - 1 end.
Definition normalize (ls : list limit) (v : list R) : result (list R) :=
  if negb (length ls =? length v)%nat then Err AssertionError else Ok (map (fun p => normalize1 (fst p) (snd p)) (combine ls v)).
(** 219, 250: the rows of crossproduct *)
Definition centers1 : list (list R) := flat_map (fun a => map (fun b => [a; b]) [1; 0; -1]) [- PI / 4; 0; PI / 4].
Definition centers2 : list (list R) := flat_map (fun a => map (fun b => a ++ b) centers1) centers1.
(** 236-240; subtracting arrays of different lengths raises ValueError *)
Definition rbf (centers : list (list R)) (v : list R) : result (list R) :=
  let sensors := firstn (length v - 2) v in
  if (length sensors =? length (hd [] centers))%nat
  then Ok (1 :: map (fun c => exp (- (norm (rzip Rminus c sensors)) ^ 2 / 2)) centers)
  else Err ValueError.
(** task.py:36-41, 126-131, 182-188, 236-240 *)
Definition getObservation (T : task) : result (list R * task) :=
  let '(v, e) := getSensors (t_env T) in
  let T' := with_env T e in
  match t_kind T with
  | Pomdp =>
      match nth_error v 0, nth_error v 2 with
      | Some a, Some b => let! o := normalize (t_limits T) [a; b] in Ok (o, T')
      | _, _ => Err IndexError
      end
  | Rbf => let! o := rbf centers1 v in Ok (o, T')
  | DoubleRbf => let! o := rbf centers2 v in Ok (o, T')
  | _ => match t_limits T with [] => Ok (v, T') | _ => let! o := normalize (t_limits T) v in Ok (o, T') end
  end.

(** episodic.py:64-66: the loop of EpisodicTask.f for a module; w is the module's memory *)
Section Run.
Context {W : Type}.
Variable module : W -> list R -> W * list R.
Fixpoint runLoop (fuel : nat) (w : W) (T : task) : result (W * task) :=
  match fuel with
  | O => Err OutOfFuel
  | S fuel =>
      if isFinished T then Ok (w, T)
      else
        let! oT := getObservation T in
        let '(w, a) := module w (fst oT) in
        let! T := performAction (snd oT) a in
        runLoop fuel w T
  end.
Definition episode (fuel : nat) (d : R * R * (R * R)) (w : W) (T : task) : result (W * task) := runLoop fuel w (t_reset d T).
End Run.
