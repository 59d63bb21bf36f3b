(** Model of rl/environments/twoplayergames: gomoku.py and pente.py.

    A board is a function from positions (pairs of integers) to cells; the dictionary b of the
    code has exactly the in-range positions as keys, so a lookup outside raises KeyError where
    the code does not test the range first.  Cell [Mark] is the 'x' or 'y' written by the
    winning (or losing) move. *)
From Verif Require Import Base.
Local Open Scope Z_scope.

Inductive color : Type := Black | White.
Definition opp (c : color) : color := match c with Black => White | White => Black end.
Inductive cell : Type := Empty | Stone (c : color) | Mark.
Definition cell_eqb (x y : cell) : bool :=
  match x, y with
  | Empty, Empty => true | Mark, Mark => true
  | Stone Black, Stone Black => true | Stone White, Stone White => true
  | _, _ => false
  end.
Definition pos : Type := Z * Z.
Definition pos_eqb (p q : pos) : bool := (fst p =? fst q) && (snd p =? snd q).
Definition board : Type := pos -> cell.
Definition bset (b : board) (p : pos) (x : cell) : board := fun q => if pos_eqb q p then x else b q.
(** the winner attribute *)
Inductive outcome : Type := Undecided | Winner (c : color) | Draw.

(** gomoku.py: size = (rows, columns) *)
Definition size : Type := Z * Z.
Definition in_range (s : size) (p : pos) : bool := (0 <=? fst p) && (fst p <? fst s) && (0 <=? snd p) && (snd p <? snd s).
Definition zrange (n : Z) : list Z := map Z.of_nat (seq 0 (Z.to_nat n)).
(** gomoku.py:25-29 _iterPos *)
Definition iterPos (s : size) : list pos := list_prod (zrange (fst s)) (zrange (snd s)).

Definition dirs : list pos := [(0, 1); (1, 0); (1, 1); (1, -1)].
Definition step (p d : pos) (i : Z) : pos := (fst p + fst d * i, snd p + snd d * i).
(** gomoku.py:39-55 _fiveRow: the inner loop for one direction and sign *)
Fixpoint run (f : Z -> bool) (i : Z) (n : nat) : Z :=
  match n with
  | O => 0
  | S n' => if f i then 1 + run f (i + 1) n' else 0
  end.
Definition same (s : size) (b : board) (c : color) (q : pos) : bool := in_range s q && cell_eqb (b q) (Stone c).
Definition found (s : size) (b : board) (c : color) (p d : pos) : Z :=
  1 + run (fun i => same s b c (step p d (- i))) 1 4 + run (fun i => same s b c (step p d i)) 1 4.
Definition fiveRow (s : size) (b : board) (c : color) (p : pos) : bool :=
  existsb (fun d => 5 <=? found s b c p d) dirs.

Record game : Type := { g_b : board; g_moves : Z; g_winner : outcome }.
(** gomoku.py:31-37 reset *)
Definition gomoku_reset : game := {| g_b := fun _ => Empty; g_moves := 0; g_winner := Undecided |}.
(** gomoku.py:76-77 isLegal: b[pos] raises KeyError outside the board *)
Definition isLegal (s : size) (b : board) (p : pos) : result bool :=
  if in_range s p then Ok (cell_eqb (b p) Empty) else Err KeyError.
(** gomoku.py:79-94 doMove; the counter is incremented before anything can fail *)
Definition gomoku_move (s : size) (g : game) (c : color) (p : pos) : game * result bool :=
  let m := g_moves g + 1 in
  match isLegal s (g_b g) p with
  | Err e => ({| g_b := g_b g; g_moves := m; g_winner := g_winner g |}, Err e)
  | Ok false => ({| g_b := g_b g; g_moves := m; g_winner := g_winner g |}, Ok false)
  | Ok true =>
      if fiveRow s (g_b g) c p then ({| g_b := bset (g_b g) p Mark; g_moves := m; g_winner := Winner c |}, Ok true)
      else ({| g_b := bset (g_b g) p (Stone c); g_moves := m;
               g_winner := if m =? fst s * snd s then Draw else g_winner g |}, Ok true)
  end.
(** gomoku.py:134-136 getLegals and :138-140 getKilling *)
Definition getLegals (s : size) (b : board) : list pos := filter (fun p => cell_eqb (b p) Empty) (iterPos s).
Definition gomoku_killing (s : size) (b : board) (c : color) : list pos := filter (fun p => fiveRow s b c p) (getLegals s b).

(** pente.py:31-48 _killsWhich, one direction and sign *)
Definition kill_ray (s : size) (b : board) (c : color) (p d : pos) (sg : Z) : list pos :=
  let q1 := step p d (1 * sg) in let q2 := step p d (2 * sg) in let q3 := step p d (3 * sg) in
  if negb (in_range s q1) then []
  else if negb (cell_eqb (b q1) (Stone (opp c))) then []
  else if negb (in_range s q2) then []
  else if negb (cell_eqb (b q2) (Stone (opp c))) then []
  else if negb (in_range s q3) then []
  else if cell_eqb (b q3) (Stone c) then [q1; q2] else [].
Definition killsWhich (s : size) (b : board) (c : color) (p : pos) : list pos :=
  flat_map (fun d => flat_map (fun sg => kill_ray s b c p d sg) [-1; 1]) dirs.

Record pente : Type := { p_game : game; p_pairs : color -> Z }.
Definition pairs_add (f : color -> Z) (c : color) (n : Z) : color -> Z :=
  fun c' => match c, c' with Black, Black | White, White => f c' + n | _, _ => f c' end.
Definition clear (b : board) (l : list pos) : board := fold_left (fun b q => bset b q Empty) l b.
(** pente.py:74-81 _setStone *)
Definition pente_set (s : size) (b : board) (pairs : color -> Z) (c : color) (p : pos) (tokill : list pos) : board * (color -> Z) :=
  (clear (bset b p (Stone c)) tokill, pairs_add pairs c (Z.of_nat (length tokill) / 2)).
(** pente.py:15-20 reset: startcolor is Black, the centre gets a white stone *)
Definition pente_reset (s : size) : pente :=
  let b0 : board := fun _ => Empty in
  let ctr := (fst s / 2, snd s / 2) in
  let r := pente_set s b0 (fun _ => 0) White ctr (killsWhich s b0 White ctr) in
  {| p_game := {| g_b := fst r; g_moves := 1; g_winner := Undecided |}; p_pairs := snd r |}.
(** pente.py:50-72 doMove; len(tokill) is even, so / is exact *)
Definition pente_move (s : size) (g : pente) (c : color) (p : pos) : pente * result bool :=
  let b := g_b (p_game g) in
  let m := g_moves (p_game g) + 1 in
  let same_state := {| p_game := {| g_b := b; g_moves := m; g_winner := g_winner (p_game g) |}; p_pairs := p_pairs g |} in
  let won := {| p_game := {| g_b := bset b p Mark; g_moves := m; g_winner := Winner c |}; p_pairs := p_pairs g |} in
  match isLegal s b p with
  | Err e => (same_state, Err e)
  | Ok false => (same_state, Ok false)
  | Ok true =>
      if fiveRow s b c p then (won, Ok true)
      else
        let tokill := killsWhich s b c p in
        if 5 <=? p_pairs g c + Z.of_nat (length tokill) / 2 then (won, Ok true)
        else
          let r := pente_set s b (p_pairs g) c p tokill in
          ({| p_game := {| g_b := fst r; g_moves := m;
                           g_winner := if m =? fst s * snd s + 2 * (snd r Black + snd r White) then Draw else g_winner (p_game g) |};
              p_pairs := snd r |}, Ok true)
  end.
