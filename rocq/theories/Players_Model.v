(** Model of the players of rl/environments/twoplayergames: capturegameplayers (randomplayer.py, nonsuicide.py, killing.py, moduledecision.py),
    gomokuplayers (randomplayer.py, killing.py, moduledecision.py), playToTheEnd of the two games, and drawGibbs of utilities.py.

    Random numbers are arguments: i for random.choice (the i-th element, counted cyclically), r for random.random.
    getAction returns [self.color, position]; only the position is kept.  The module is a function of its input, because it is reset before every
    activation.  Numbers are exact reals.
    Not modelled: the client of an external player (clientwrapper.py), the print statements of _legalizeIt. *)
From Coq Require Import Reals.
From Verif Require Import Base Games_Model Capture_Model Duel_Model Functions_Model LinearFA_Model.
Notation vec := (list R).

(** random.choice: IndexError for an empty sequence *)
Definition choice {A} (l : list A) (i : nat) : result A :=
  match nth_error l (i mod length l) with Some x => Ok x | None => Err IndexError end.

(** ** the players that follow a rule *)
(** capturegameplayers/randomplayer.py:11-12 *)
Definition randomCapture (n : Z) (g : cgame) (i : nat) : result Games_Model.pos := choice (c_getLegals n g) i.
(** nonsuicide.py:10-15 *)
Definition nonSuicide (n : Z) (g : cgame) (c : color) (i : nat) : result Games_Model.pos :=
  let! p := getAcceptable n g c in
  if 0 <? length p then choice p i else randomCapture n g i.
(** capturegameplayers/killing.py:11-16 *)
Definition killing (n : Z) (g : cgame) (c : color) (i : nat) : result Games_Model.pos :=
  let! p := getKilling n g c in
  if 0 <? length p then choice p i else nonSuicide n g c i.
(** gomokuplayers/randomplayer.py:11-12 *)
Definition randomGomoku (s : size) (b : board) (i : nat) : result Games_Model.pos := choice (getLegals s b) i.
(** gomokuplayers/killing.py:10-15 *)
Definition killingGomoku (s : size) (b : board) (c : color) (i : nat) : result Games_Model.pos :=
  let p := gomoku_killing s b c in
  if 0 <? length p then choice p i else randomGomoku s b i.

(** ** drawGibbs *)
Local Open Scope R_scope.
(** utilities.py:45-51 the end of drawIndex; the probabilities handed over by drawGibbs sum to 1, so that its test passes *)
Fixpoint drawLoop (ps : vec) (s r : R) (k : nat) : option nat :=
  match ps with
  | [] => None
  | p :: ps => if Rlt_dec r (s + p) then Some k else drawLoop ps (s + p) r (S k)
  end.
Definition drawReal (ps : vec) (r : R) (i : nat) : result nat :=
  match drawLoop ps 0 r 0 with Some k => Ok k | None => choice (seq 0 (length ps)) i end.
(** utilities.py:65-74 *)
Definition gibbsProbs (vals : vec) (T : R) : vec :=
  let temp := map (fun v => v / T) vals in
  let m := vmax temp in
  let temp := map (fun v => v + (20 - m)) temp in
  let temp := map (fun v => if Rlt_dec v (-20) then -20 else v) temp in
  let temp := map exp temp in
  let total := rsum temp in map (fun v => v / total) temp.
(** utilities.py:54-75 *)
Definition drawGibbs (vals : vec) (T : R) (r : R) (i : nat) : result nat :=
  match vals with
  | [] => Err ValueError
  | _ => if Req_EM_T T 0 then choice (where_eq (vmax vals) 0 vals) i else drawReal (gibbsProbs vals T) r i
  end.

(** ** ModuleDecidingPlayer *)
(** capturegame.py:55-64, gomoku.py:65-74 getBoardArray: two entries per position, in the order of _iterPos *)
Definition boardArray (s : size) (b : board) : vec :=
  flat_map (fun p => match b p with Stone White => [1; 0] | Stone Black => [0; 1] | _ => [0; 0] end) (iterPos s).
(** moduledecision.py:33-37: the entries at even and odd places exchanged *)
Fixpoint inverted (v : vec) : vec := match v with x :: y :: v => y :: x :: inverted v | _ => v end.
(** moduledecision.py:30-37 *)
Definition moduleInput (s : size) (b : board) (c : color) : vec :=
  match c with Black => boardArray s b | White => inverted (boardArray s b) end.
(** moduledecision.py:61-65; w is size for the capture game and size[0] for Gomoku *)
Definition indexToPos (w : Z) (k : nat) : Games_Model.pos := (Z.of_nat k / w, Z.of_nat k mod w)%Z.
Definition posToIndex (w : Z) (p : Games_Model.pos) : Z := (fst p * w + snd p)%Z.
(** moduledecision.py:54-56 *)
Fixpoint copyLegals (w : Z) (a vals : vec) (legals : list Games_Model.pos) : result vec :=
  match legals with
  | [] => Ok vals
  | p :: legals =>
      let k := posToIndex w p in
      if (k <? Z.of_nat (length a))%Z then copyLegals w a (upd (Z.to_nat k) (nth (Z.to_nat k) a 0) vals) legals else Err IndexError
  end.
(** moduledecision.py:44-59 _legalizeIt *)
Definition legalizeIt (w : Z) (legals : list Games_Model.pos) (T : R) (a : vec) (r : R) (i : nat) : result Games_Model.pos :=
  match a with
  | [] => Err ValueError
  | _ =>
      if Forall_dec (fun x => 0 <= x) (fun x => Rle_dec 0 x) a then
        let! vals := copyLegals w a (repeat (-100 * (1 + T)) (length a)) legals in
        let! k := drawGibbs vals T r i in
        let drawn := indexToPos w k in
        if pmem drawn legals then Ok drawn else Err AssertionError
      else Err PlainException
  end.
(** moduledecision.py:22-39 __init__ and getAction *)
Definition temperatureOf (greedySelection : bool) (temperature : R) : R := if greedySelection then 0 else temperature.
Definition modulePlayer (w : Z) (s : size) (module : vec -> vec) (T : R) (b : board) (c : color) (r : R) (i : nat) : result Games_Model.pos :=
  legalizeIt w (getLegals s b) T (module (moduleInput s b c)) r i.
Definition moduleCapture (n : Z) module (T : R) (g : cgame) (c : color) (r : R) (i : nat) : result Games_Model.pos :=
  modulePlayer n (square n) module T (c_b g) c r i.
Definition moduleGomoku (s : size) module (T : R) (b : board) (c : color) (r : R) (i : nat) : result Games_Model.pos :=
  modulePlayer (fst s) s module T b c r i.

(** ** playToTheEnd *)
(** capturegame.py:254-264, gomoku.py:142-152; the colours c1 and c2 are the attributes of the players *)
Section Play.
Context {G A W : Type}.
Variable R : rules G A.
Variables (c1 c2 : Z) (p1 p2 : player G A W).
Fixpoint playLoop (fuel : nat) (second : bool) (g : G) (w : W) : result (G * W) :=
  match fuel with
  | O => Err OutOfFuel
  | S fuel =>
      if over R g then Ok (g, w)
      else
        let! aw := (if second then p2 w g c2 else p1 w g c1) in
        let! g := r_move R g (if second then c2 else c1) (fst aw) in
        playLoop fuel (negb second) g (snd aw)
  end.
Definition playToTheEnd (fuel : nat) (g : G) (w : W) : result (G * W) :=
  if (c1 =? - c2)%Z then playLoop fuel false g w else Err AssertionError.
End Play.
(** the capture game, with the option suicideenabled, as rules *)
Definition colour (z : Z) : color := if (z =? 1)%Z then Black else White.
Definition captureRules (n : Z) (suicideenabled : bool) : rules cgame cmove := {|
  r_reset := capture_reset;
  r_move := fun g c a => let! r := doMove n suicideenabled g (colour c) a in Ok (fst r);
  r_winner := fun g => match c_winner g with Winner Black => Some 1%Z | Winner White => Some (-1)%Z | _ => None end;
  r_moves := c_moves |}.
Definition gomokuRules (s : size) : rules Games_Model.game Games_Model.pos := {|
  r_reset := gomoku_reset;
  r_move := fun g c a => let '(g', r) := gomoku_move s g (colour c) a in let! _ := r in Ok g';
  r_winner := fun g => match g_winner g with Winner Black => Some 1%Z | Winner White => Some (-1)%Z | Draw => Some 0%Z | Undecided => None end;
  r_moves := g_moves |}.
