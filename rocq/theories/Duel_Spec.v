(** What the tasks for two-player games are meant to compute, stated on the games alone. *)
From Coq Require Import QArith.
From Verif Require Import Base Duel_Model.

(** ** one game between two players, black first, until there is a winner *)
Section Game.
Context {G A W : Type}.
Variable R : rules G A.
Variables opponent agent : player G A W.
(** game me g w turn n g' w': from g, with turn to move, the agent playing colour me, n moves lead to the decided g' *)
Inductive game (me : Z) : G -> W -> Z -> nat -> G -> W -> Prop :=
  | game_over g w turn x : r_winner R g = Some x -> game me g w turn 0 g w
  | game_move g w turn a w1 g1 n g2 w2 :
      r_winner R g = None ->
      (if Z.eq_dec turn me then agent w g turn else opponent w g turn) = Ok (a, w1) ->
      r_move R g turn a = Ok g1 -> game me g1 w1 (- turn) n g2 w2 -> game me g w turn (S n) g2 w2.

Variable k : tcfg.
(** what a decided game is worth to the player of colour me *)
Definition payoff (me : Z) (g : G) : Q :=
  match r_winner R g with
  | None => 0
  | Some x =>
      if Z.eq_dec x 0 then 0%Q
      else
        let v := (k_reward k - k_coeff k * inject_Z (r_moves R g - k_min k) / inject_Z (k_max k - k_min k))%Q in
        if Z.eq_dec x me then v else (- v)%Q
  end.
Definition discounted (n : nat) (x : Q) : Q :=
  match k_discount k with Some d => if Qeq_dec d 0 then x else (Qpower d (Z.of_nat n) * x)%Q | None => x end.
(** m games, the opponent starting with colour c; each is recorded with the agent's colour, its length and its end *)
Inductive series : nat -> Z -> W -> list (Z * nat * G) -> Z -> W -> Prop :=
  | series_nil c w : series 0 c w [] c w
  | series_cons m c w n g w1 l c' w' :
      game (- c) (r_reset R) w BLACK n g w1 ->
      series m (if k_alternate k then - c else c)%Z w1 l c' w' -> series (S m) c w (((- c)%Z, n, g) :: l) c' w'.
Definition total (l : list (Z * nat * G)) : Q := fold_right (fun e s => (discounted (snd (fst e)) (payoff (fst (fst e)) (snd e)) + s)%Q) 0%Q l.
End Game.

(** ** the ladder of handicaps *)
Definition glog : Type := list (Z * bool * Z).
Definition e_h (e : Z * bool * Z) : Z := fst (fst e).
Definition e_win (e : Z * bool * Z) : bool := snd (fst e).
Definition e_mv (e : Z * bool * Z) : Z := snd e.
Definition zcount {X} (f : X -> bool) (l : list X) : Z := Z.of_nat (length (filter f l)).
Definition zsum {X} (f : X -> Z) (l : list X) : Z := fold_right (fun x s => f x + s)%Z 0%Z l.
(** the games at handicap h: wins, games, moves in the games won, moves in the games lost *)
Definition wins (l : glog) (h : Z) : Z := zcount (fun e => (e_h e =? h)%Z && e_win e) l.
Definition plays (l : glog) (h : Z) : Z := zcount (fun e => (e_h e =? h)%Z) l.
Definition wmoves (l : glog) (h : Z) : Z := zsum (fun e => if (e_h e =? h)%Z && e_win e then e_mv e else 0%Z) l.
Definition lmoves (l : glog) (h : Z) : Z := zsum (fun e => if (e_h e =? h)%Z && negb (e_win e) then e_mv e else 0%Z) l.
(** the rate at handicap h: from -1 (all lost) to 1 (all won), a bonus for quick wins and a larger malus for quick losses *)
Definition rate (l : glog) (h : Z) : Q :=
  if Z_le_dec (plays l h) 0 then 0%Q
  else (2 * inject_Z (wins l h) / inject_Z (plays l h) - 1
        + (if Z_lt_dec 0 (wmoves l h) then 1 / (10 * inject_Z (plays l h) * inject_Z (wmoves l h)) else 0)
        - (if Z_lt_dec 0 (lmoves l h) then 1 / (inject_Z (plays l h) * inject_Z (lmoves l h)) else 0))%Q.
Definition up (ev : Z) (l : glog) (h : Z) : Prop := (ev <= plays l h)%Z /\ (6 # 10 < rate l h)%Q.
Definition down (ev : Z) (l : glog) (h : Z) : Prop := (ev <= plays l h)%Z /\ (rate l h < - (6 # 10))%Q.
Definition top_played (l : glog) : Z := fold_right (fun e m => Z.max (e_h e) m) (-1)%Z l.
Definition unsettled (ev : Z) (l : glog) : Prop :=
  let b := top_played l in (0 < b)%Z /\ (2 * ev <= plays l b)%Z /\ (2 * ev <= plays l (b - 1))%Z /\ up ev l (b - 1) /\ down ev l b.
(** no more games are needed *)
Definition settled (ev top : Z) (l : glog) (h : Z) : Prop :=
  unsettled ev l \/ ((2 * ev <= plays l h)%Z /\ ((~ up ev l h /\ ~ down ev l h) \/ (up ev l h /\ (top <= h)%Z) \/ (down ev l h /\ h = 0%Z))).
(** the handicap of the next game *)
Definition next (ev top : Z) (l : glog) (h h' : Z) : Prop :=
  (up ev l h /\ (h < top)%Z /\ h' = (h + 1)%Z) \/
  (~ (up ev l h /\ (h < top)%Z) /\ down ev l h /\ (1 < h)%Z /\ h' = (h - 1)%Z) \/
  (~ (up ev l h /\ (h < top)%Z) /\ ~ (down ev l h /\ (1 < h)%Z) /\ h' = h).
(** ladder l h: the games of l were played at the handicaps the rule prescribes, none after it was settled, and h is next *)
Inductive ladder (ev top : Z) (play : nat -> Z -> result (bool * Z)) : glog -> Z -> Prop :=
  | ladder_start : ladder ev top play [] 0
  | ladder_game l h w m h' : ladder ev top play l h -> ~ settled ev top l h -> play (length l) h = Ok (w, m) ->
      next ev top (l ++ [(h, w, m)]) h h' -> ladder ev top play (l ++ [(h, w, m)]) h'.
Definition ladder_score (ev : Z) (l : glog) (v : Q) : Prop :=
  let b := top_played l in
  (~ unsettled ev l /\ v == inject_Z b + rate l b) \/
  (unsettled ev l /\ v == inject_Z b - (1 # 2) + (rate l b + rate l (b - 1)) / 2)%Q.

(** ** which games a relative evaluation plays: n cases of which np from the empty board *)
Definition planned (n np : Z) (starts : list (Z * Z)) (i : nat) : list (nat * option (Z * Z)) :=
  let r := (Z.of_nat i mod n)%Z in
  if Z_le_dec np r then [(i, nth_error starts (Z.to_nat (r - np)))]
  else if Nat.eq_dec i 0 then [(i, None)]
  else if Z_lt_dec (Z.of_nat i) n then [] else [(i, None)].

(** the temperature after so many increases *)
Fixpoint heat (c : rcfg) (j : nat) : Q :=
  match j with
  | O => rc_minT c
  | S j => let t := if Qeq_dec (heat c j) 0 then 2 # 100 else (heat c j * rc_warm c)%Q in
           match rc_kind c with
           | Fixed => if Qlt_le_dec (rc_maxT c) t then t else rc_minT c
           | _ => t
           end
  end.
(** what the players were told at temperature t *)
Definition told (c : rcfg) (t : Q) : Q := match rc_kind c with Randomised => (t / (t + 1))%Q | _ => t end.
(** a game as it should be: weight w at the temperature of j increases, the players told an earlier temperature that was allowed *)
Definition proper (c : rcfg) (play : nat -> option (Z * Z) -> option Q -> Z * Z) (w : Q) (j : nat) (e : rgame) : Prop :=
  ga_coeff e == w / (10 * heat c j + 1) /\
  (ga_knob e = None \/ exists j' x, (j' <= j)%nat /\ ga_knob e = Some x /\ x == told c (heat c j') /\ (heat c j' <= rc_maxT c \/ j' = 0%nat)%Q) /\
  let r := play (ga_i e) (ga_start e) (ga_knob e) in
  ga_res e == (if Z.eq_dec (fst r) 1 then 1 else - (1)) * (1 - rc_coeff c * inject_Z (snd r - rc_min c) / inject_Z (rc_max c - rc_min c)).
Definition qsum (f : rgame -> Q) (l : list rgame) : Q := fold_right (fun e s => (f e + s)%Q) 0%Q l.
