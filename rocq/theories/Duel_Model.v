(** Model of rl/environments/twoplayergames/tasks: CaptureGameTask (capturetask.py), GomokuTask (gomokutask.py), PenteTask (pentetask.py),
    HandicapCaptureTask (handicaptask.py), RelativeCaptureTask (relativetask.py), RelativeGomokuTask (relativegomokutask.py), with the parts of
    rl/environments/episodic.py (EpisodicTask) and rl/experiments (Experiment._oneInteraction, EpisodicExperiment.doEpisodes) they run through.

    The game is given by its rules: the state after reset, the effect of performAction, the winner and movesDone.  Colours are 1 (black) and -1 (white);
    the winner 0 stands for the string DRAW.  Players are functions of the state of the world outside the game (their own state and the random
    numbers), the game and their attribute color; they may raise.  newEpisode, integrateObservation and giveReward do not act on the game (Agent and
    the players leave them empty or reset a module, which getAction does as well).
    Numbers are exact rationals; int() of one rounds towards 0.
    For the handicap and the relative tasks the games are given by their results.
    Not modelled: verbose output, the choice and wrapping of the opponent in the constructors, setArgs. *)
From Coq Require Import QArith Qround.
From Verif Require Import Base Dict.

(** ** CaptureGameTask, GomokuTask, PenteTask *)
Record rules (G A : Type) : Type := {
  r_reset : G; r_move : G -> Z -> A -> result G; r_winner : G -> option Z; r_moves : G -> Z }.
Arguments r_reset {G A}. Arguments r_move {G A}. Arguments r_winner {G A}. Arguments r_moves {G A}.
Definition BLACK : Z := 1%Z.
(** the attributes of the task; k_draws tells GomokuTask (and PenteTask, which inherits everything but the constructor) from CaptureGameTask *)
Record tcfg : Type := {
  k_alternate : bool; k_reward : Q; k_coeff : Q; k_min : Z; k_max : Z; k_discount : option Q; k_draws : bool; k_average : nat; k_batch : nat }.

Section Task.
Context {G A W : Type}.
Definition player : Type := W -> G -> Z -> result (A * W).
Record task : Type := { t_g : G; t_w : W; t_color : Z; t_switched : bool; t_cum : Q; t_samples : nat }.
Variable R : rules G A.
Variable k : tcfg.
Variables opponent agent : player.

Definition over (g : G) : bool := match r_winner R g with Some _ => true | None => false end.
(** capturetask.py:56-62 isFinished *)
Definition isFinished (t : task) : bool * task :=
  let res := over (t_g t) in
  (res, if res && k_alternate k && negb (t_switched t)
        then {| t_g := t_g t; t_w := t_w t; t_color := - t_color t; t_switched := true; t_cum := t_cum t; t_samples := t_samples t |}
        else t).
(** capturetask.py:64-77 getReward; gomokutask.py:66-67 adds the draw *)
Definition getReward (t : task) : result (Q * task) :=
  let '(fin, t) := isFinished t in
  if negb fin then Ok (0%Q, t)
  else match r_winner R (t_g t) with
       | None => Ok (0%Q, t)
       | Some w =>
           let win := negb (w =? t_color t)%Z in
           if k_draws k && (w =? 0)%Z then Ok (0%Q, t)
           else if (k_max k - k_min k =? 0)%Z then Err ZeroDivisionError
           else
             let res := (k_reward k - k_coeff k * inject_Z (r_moves R (t_g t) - k_min k) / inject_Z (k_max k - k_min k))%Q in
             let res := if win then res else (- res)%Q in
             let res := if k_alternate k && t_switched t then (- res)%Q else res in
             Ok (res, t)
       end.
(** episodic.py:39-51 EpisodicTask.performAction, addReward ("if self.discount": 0 counts as none) *)
Definition perform (t : task) (c : Z) (a : A) : result task :=
  let! g := r_move R (t_g t) c a in
  let t := {| t_g := g; t_w := t_w t; t_color := t_color t; t_switched := t_switched t; t_cum := t_cum t; t_samples := S (t_samples t) |} in
  let! rt := getReward t in
  let '(r, t) := rt in
  let d := match k_discount k with Some d => if Qeq_bool d 0 then 1%Q else Qpower d (Z.of_nat (t_samples t)) | None => 1%Q end in
  Ok {| t_g := t_g t; t_w := t_w t; t_color := t_color t; t_switched := t_switched t; t_cum := (t_cum t + d * r)%Q; t_samples := t_samples t |}.
Definition with_w (t : task) (w : W) : task :=
  {| t_g := t_g t; t_w := w; t_color := t_color t; t_switched := t_switched t; t_cum := t_cum t; t_samples := t_samples t |}.
Definition opponentMove (t : task) : result task :=
  let! aw := opponent (t_w t) (t_g t) (t_color t) in
  perform (with_w t (snd aw)) (t_color t) (fst aw).
(** capturetask.py:49-54 reset (episodic.py:27-33) *)
Definition t_reset (t : task) : result task :=
  let t := {| t_g := r_reset R; t_w := t_w t; t_color := t_color t; t_switched := false; t_cum := 0; t_samples := 0 |} in
  if (t_color t =? BLACK)%Z then opponentMove t else Ok t.
(** capturetask.py:79-82 performAction *)
Definition performAction (t : task) (c : Z) (a : A) : result task :=
  let! t := perform t c a in
  let '(fin, t) := isFinished t in
  if negb fin then opponentMove t else Ok t.
(** experiment.py:22-31 _oneInteraction for an agent of colour c *)
Definition oneInteraction (c : Z) (t : task) : result task :=
  let! aw := agent (t_w t) (t_g t) c in
  let! t := performAction (with_w t (snd aw)) c (fst aw) in
  let! rt := getReward t in Ok (snd rt).
(** experiments/episodic.py:36-46 the loop of doEpisodes *)
Fixpoint interactions (fuel : nat) (c : Z) (t : task) : result task :=
  match fuel with
  | O => Err OutOfFuel
  | S fuel => let '(fin, t) := isFinished t in
              if fin then Ok t else let! t := oneInteraction c t in interactions fuel c t
  end.
Definition doEpisode (fuel : nat) (c : Z) (t : task) : result task :=
  let! t := t_reset t in interactions fuel c t.
(** episodic.py:57-73 EpisodicTask.f for an agent *)
Fixpoint episodes (fuel : nat) (c : Z) (n : nat) (r : Q) (t : task) : result (Q * task) :=
  match n with
  | O => Ok (r, t)
  | S n => let! t := doEpisode fuel c t in episodes fuel c n (r + t_cum t)%Q t
  end.
Definition episodic_f (fuel : nat) (c : Z) (t : task) : result (Q * task) :=
  let! rt := episodes fuel c (k_batch k) 0 t in
  if k_batch k =? 0 then Err ZeroDivisionError else Ok ((fst rt / inject_Z (Z.of_nat (k_batch k)))%Q, snd rt).
(** capturetask.py:84-100 f: the agent takes the other colour before every evaluation *)
Fixpoint evaluations (fuel : nat) (n : nat) (res : Q) (t : task) : result (Q * task) :=
  match n with
  | O => Ok (res, t)
  | S n => let! xt := episodic_f fuel (- t_color t) t in evaluations fuel n (res + fst xt)%Q (snd xt)
  end.
Definition task_f (fuel : nat) (t : task) : result (Q * task) :=
  let! rt := evaluations fuel (k_average k) 0 t in
  if k_average k =? 0 then Err ZeroDivisionError else Ok ((fst rt / inject_Z (Z.of_nat (k_average k)))%Q, snd rt).
End Task.
Arguments task : clear implicits.
Arguments player : clear implicits.

(** ** HandicapCaptureTask *)
(** results[h] = [wins, total, moves until wins, moves until losses] *)
Record hres : Type := { h_w : Z; h_t : Z; h_wm : Z; h_lm : Z }.
Definition hzero : hres := {| h_w := 0; h_t := 0; h_wm := 0; h_lm := 0 |}.
Record hcfg : Type := { hc_games : nat; hc_evals : Z; hc_top : Z }.
(** handicaptask.py:35 maxHandicaps *)
Definition maxHandicaps (size : Z) : Z := ((size - 2) * 2 + (size - 4) * 2)%Z.
Definition hget (d : dict hres) (h : Z) : result hres :=
  if (h <? 0)%Z then Err KeyError else match dget (Z.to_nat h) d with Some r => Ok r | None => Err KeyError end.
(** handicaptask.py:37-47 winProp *)
Definition winProp1 (r : hres) : Q :=
  if (0 <? h_t r)%Z then
    let half := (inject_Z (h_t r) / 2)%Q in
    let res := ((inject_Z (h_w r) - half) / half)%Q in
    let res := if (0 <? h_wm r)%Z then (res + (1 # 10) / inject_Z (h_t r * h_wm r))%Q else res in
    if (0 <? h_lm r)%Z then (res - 1 / inject_Z (h_t r * h_lm r))%Q else res
  else 0%Q.
Definition winProp (d : dict hres) (h : Z) : result Q := let! r := hget d h in Ok (winProp1 r).
Definition Qlt_bool (x y : Q) : bool := negb (Qle_bool y x).
(** handicaptask.py:49-59 goUp, goDown *)
Definition goUp (c : hcfg) (d : dict hres) (h : Z) : result bool :=
  let! r := hget d h in Ok ((hc_evals c <=? h_t r)%Z && Qlt_bool (6 # 10) (winProp1 r)).
Definition goDown (c : hcfg) (d : dict hres) (h : Z) : result bool :=
  let! r := hget d h in Ok ((hc_evals c <=? h_t r)%Z && Qlt_bool (winProp1 r) (- (6 # 10))).
(** handicaptask.py:61-62 bestHandicap *)
Definition bestHandicap (d : dict hres) : Z := (Z.of_nat (fold_left Nat.max (dkeys d) 0%nat) - 1)%Z.
(** handicaptask.py:64-70 fluctuating *)
Definition fluctuating (c : hcfg) (d : dict hres) : result bool :=
  let high := bestHandicap d in
  if (0 <? high)%Z then
    let! a := hget d high in
    if (2 * hc_evals c <=? h_t a)%Z then
      let! b := hget d (high - 1) in
      if (2 * hc_evals c <=? h_t b)%Z then
        let! u := goUp c d (high - 1) in
        if u then goDown c d high else Ok false
      else Ok false
    else Ok false
  else Ok false.
(** handicaptask.py:72-76 stable *)
Definition stable (c : hcfg) (d : dict hres) (h : Z) : result bool :=
  let! f := fluctuating c d in
  if f then Ok true else
  let! r := hget d h in
  let! u := goUp c d h in
  let! w := goDown c d h in
  Ok ((2 * hc_evals c <=? h_t r)%Z && ((negb u && negb w) || (u && (hc_top c <=? h)%Z) || (w && (h =? 0)%Z))).
(** handicaptask.py:78-86 addResult *)
Definition addResult (d : dict hres) (h : Z) (win : bool) (moves : Z) : result (dict hres) :=
  let k1 := S (Z.to_nat h) in
  let d := match dget k1 d with None => dset k1 hzero d | Some _ => d end in
  let! r := hget d h in
  Ok (dset (Z.to_nat h)
        (if win then {| h_w := h_w r + 1; h_t := h_t r + 1; h_wm := h_wm r + moves; h_lm := h_lm r |}
         else {| h_w := h_w r; h_t := h_t r + 1; h_wm := h_wm r; h_lm := h_lm r + moves |}) d).
(** handicaptask.py:98-111 the loop of f.  play i h is game number i, at handicap h: did the player win, and movesDone.
    The list of (handicap, win, moves) of the games played is kept for the statements only. *)
Fixpoint hloop (c : hcfg) (play : nat -> Z -> result (bool * Z)) (todo games : nat) (cur : Z) (d : dict hres) (log : list (Z * bool * Z))
  : result (dict hres * Z * list (Z * bool * Z)) :=
  match todo with
  | O => Ok (d, cur, log)
  | S todo =>
      let! s := stable c d cur in
      if s then Ok (d, cur, log) else
      let! wm := play games cur in
      let! d := addResult d cur (fst wm) (snd wm) in
      let! u := goUp c d cur in
      let log := log ++ [(cur, fst wm, snd wm)] in
      if u && (cur <? hc_top c)%Z then hloop c play todo (S games) (cur + 1) d log
      else
        let! w := goDown c d cur in
        if w && (1 <? cur)%Z then hloop c play todo (S games) (cur - 1) d log
        else hloop c play todo (S games) cur d log
  end.
(** handicaptask.py:113-118 the value returned *)
Definition hscore (c : hcfg) (d : dict hres) : result Q :=
  let high := bestHandicap d in
  let! f := fluctuating c d in
  if negb f then let! p := winProp d high in Ok (inject_Z high + p)%Q
  else let! p := winProp d high in let! q := winProp d (high - 1) in Ok (inject_Z high - (1 # 2) + (p + q) / 2)%Q.
(** handicaptask.py:88-118 reset, f *)
Definition handicap_f (c : hcfg) (play : nat -> Z -> result (bool * Z)) : result (Q * list (Z * bool * Z)) :=
  let! s := hloop c play (hc_games c) 0 0 [(0%nat, hzero)] [] in
  let '(d, _, log) := s in
  let! v := hscore c d in Ok (v, log).

(** ** RelativeCaptureTask and RelativeGomokuTask *)
Definition pos : Type := Z * Z.
(** relativetask.py:119-127 _fixedStartingPos *)
Definition zspan (a b : Z) : list Z := map (fun i => (a + Z.of_nat i)%Z) (seq 0 (Z.to_nat (b - a))).
Definition fixedStartingPos (size : Z) : list pos :=
  if (size <? 3)%Z then []
  else flat_map (fun x => map (fun y => (x, y)) (zspan x ((size + 1) / 2)%Z)) (zspan 1 ((size + 1) / 2)%Z).
Definition Qtrunc (q : Q) : Z := if Qle_bool 0 q then Qfloor q else Qceiling q.
(** which players: networks wrapped into ModuleDecidingPlayer, players with the attribute randomPartMoves, others *)
Inductive kind : Type := Networks | Randomised | Fixed.
Record rcfg : Type := {
  rc_size : Z; rc_games : nat; rc_prop : Q; rc_minT : Q; rc_maxT : Q; rc_coeff : Q; rc_min : Z; rc_max : Z; rc_kind : kind; rc_warm : Q }.
(** relativetask.py:44-48 cases *)
Definition cases (c : rcfg) : Z :=
  if Qlt_bool 0 (rc_prop c) then Qtrunc (inject_Z (Z.of_nat (length (fixedStartingPos (rc_size c)))) / rc_prop c) else 1%Z.
Definition nonpreset (c : rcfg) : Z := Qtrunc (inject_Z (cases c) * (1 - rc_prop c)).
(** a game: its number, the stone set first, what the players were last told (None: nothing), its weight and its result *)
Record rgame : Type := { ga_i : nat; ga_start : option pos; ga_knob : option Q; ga_coeff : Q; ga_res : Q }.
(** temp, what the players were last told, score, coeffSum; the games played are kept for the statements only *)
Record rstate : Type := { rs_temp : Q; rs_knob : option Q; rs_score : Q; rs_sum : Q; rs_log : list rgame }.
(** relativetask.py:91-117 _globalWarming, _setTemperature; rc_warm is the factor (1.5, in RelativeGomokuTask 1.2) *)
Definition globalWarming (c : rcfg) (s : rstate) : rstate :=
  let temp := if Qeq_bool (rs_temp s) 0 then 2 # 100 else (rs_temp s * rc_warm c)%Q in
  let put t k := {| rs_temp := t; rs_knob := k; rs_score := rs_score s; rs_sum := rs_sum s; rs_log := rs_log s |} in
  if Qlt_bool (rc_maxT c) temp then put temp (rs_knob s)
  else match rc_kind c with
       | Networks => put temp (Some temp)
       | Randomised => put temp (Some (temp / (temp + 1))%Q)
       | Fixed => put (rc_minT c) (rs_knob s)
       end.
(** relativetask.py:129-146 _oneGame: the winner is compared with black, the colour of player *)
Definition gameResult (c : rcfg) (wm : Z * Z) : result Q :=
  if (rc_max c - rc_min c =? 0)%Z then Err ZeroDivisionError
  else let res := (1 - rc_coeff c * inject_Z (snd wm - rc_min c) / inject_Z (rc_max c - rc_min c))%Q in
       Ok (if (fst wm =? BLACK)%Z then res else (- res)%Q).
(** one game with the given weight *)
Definition scored (c : rcfg) (play : nat -> option pos -> option Q -> Z * Z) (i : nat) (preset : option pos) (coeff : Q) (s : rstate) : result rstate :=
  let! res := gameResult c (play i preset (rs_knob s)) in
  Ok {| rs_temp := rs_temp s; rs_knob := rs_knob s; rs_score := (rs_score s + coeff * res)%Q; rs_sum := (rs_sum s + coeff)%Q;
        rs_log := rs_log s ++ [{| ga_i := i; ga_start := preset; ga_knob := rs_knob s; ga_coeff := coeff; ga_res := res |}] |}.
(** relativetask.py:71-87 the body of the loop, for game i *)
Definition relStep (c : rcfg) (play : nat -> option pos -> option Q -> Z * Z) (i : nat) (s : rstate) : result rstate :=
  let n := cases c in let np := nonpreset c in let iz := Z.of_nat i in
  let coeff := (1 / (10 * rs_temp s + 1))%Q in
  let after (s : rstate) : result rstate :=
    if (n =? 1)%Z then Ok (globalWarming c s)
    else if (n =? 0)%Z then Err ZeroDivisionError
    else if (iz mod n =? 0)%Z && (0 <? iz)%Z then Ok (globalWarming c s) else Ok s in
  if (1 <? n)%Z then
    if (np <=? iz mod n)%Z then
      match nth_error (fixedStartingPos (rc_size c)) (Z.to_nat ((iz - np) mod n)) with
      | None => Err IndexError
      | Some p => let! s := scored c play i (Some p) coeff s in after s
      end
    else if (iz <? n)%Z then
      if i =? 0 then let! s := scored c play i None (coeff * inject_Z np)%Q s in after s
      else Ok s
    else let! s := scored c play i None coeff s in after s
  else let! s := scored c play i None coeff s in after s.
Fixpoint relLoop (step : nat -> rstate -> result rstate) (i n : nat) (s : rstate) : result rstate :=
  match n with O => Ok s | S n => let! s := step i s in relLoop step (S i) n s end.
Definition relStart (c : rcfg) : rstate :=
  {| rs_temp := rc_minT c; rs_knob := match rc_kind c with Networks => Some (rc_minT c) | _ => None end; rs_score := 0; rs_sum := 0; rs_log := [] |}.
Definition relValue (s : rstate) : result Q := if Qeq_bool (rs_sum s) 0 then Err ZeroDivisionError else Ok (rs_score s / rs_sum s)%Q.
(** relativetask.py:52-89 __call__ *)
Definition relative_call (c : rcfg) (play : nat -> option pos -> option Q -> Z * Z) : result (Q * rstate) :=
  let! s := relLoop (relStep c play) 0 (rc_games c) (relStart c) in
  let! v := relValue s in Ok (v, s).
(** relativegomokutask.py:45-70 __call__ *)
Definition relGomokuStep (c : rcfg) (play : nat -> option pos -> option Q -> Z * Z) (i : nat) (s : rstate) : result rstate :=
  let coeff := (1 / (10 * rs_temp s + 1))%Q in
  let! s := scored c play i None coeff s in
  Ok (if 0 <? i then globalWarming c s else s).
Definition relative_gomoku_call (c : rcfg) (play : nat -> option pos -> option Q -> Z * Z) : result (Q * rstate) :=
  let! s := relLoop (relGomokuStep c play) 0 (rc_games c) (relStart c) in
  let! v := relValue s in Ok (v, s).
