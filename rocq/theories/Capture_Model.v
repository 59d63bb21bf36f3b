(** Model of rl/environments/twoplayergames/capturegame.py (CaptureGame).

    Dictionaries are functions to option (a lookup of an absent key raises KeyError, del of an
    absent key too); only lookups, updates and counts are observable.  Sets of positions are
    duplicate-free lists.  The board is n by n. *)
From Verif Require Import Base Games_Model.
Local Open Scope Z_scope.

Definition pmem (p : pos) (s : list pos) : bool := existsb (pos_eqb p) s.
(** set.update and set.difference_update([p]) *)
Definition sunion (s t : list pos) : list pos := fold_left (fun s p => if pmem p s then s else s ++ [p]) t s.
Definition sdiff1 (s : list pos) (p : pos) : list pos := filter (fun q => negb (pos_eqb q p)) s.

Record cgame : Type := {
  c_b : board; c_groups : pos -> option Z; c_libs : Z -> option (list pos); c_moves : Z; c_winner : outcome }.
Definition square (n : Z) : size := (n, n).
(** capturegame.py:35-45 reset *)
Definition capture_reset : cgame :=
  {| c_b := fun _ => Empty; c_groups := fun _ => None; c_libs := fun _ => None; c_moves := 0; c_winner := Undecided |}.
(** capturegame.py:122-129 _neighbors *)
Definition neighbors (n : Z) (p : pos) : list pos :=
  (if snd p <? n - 1 then [(fst p, snd p + 1)] else []) ++
  (if 0 <? snd p then [(fst p, snd p - 1)] else []) ++
  (if fst p <? n - 1 then [(fst p + 1, snd p)] else []) ++
  (if 0 <? fst p then [(fst p - 1, snd p)] else []).

Definition oget {A} (o : option A) : result A := match o with Some x => Ok x | None => Err KeyError end.
Definition gset (f : pos -> option Z) (p : pos) (g : Z) : pos -> option Z := fun q => if pos_eqb q p then Some g else f q.
Definition lset (f : Z -> option (list pos)) (g : Z) (o : option (list pos)) : Z -> option (list pos) := fun h => if h =? g then o else f h.
(** "for p in groups: if groups[p] == oldg: groups[p] = newg" *)
Definition relabel (f : pos -> option Z) (oldg newg : Z) : pos -> option Z :=
  fun q => match f q with Some h => if h =? oldg then Some newg else Some h | None => None end.

(** the loop variables of _setStone: merge, groups, liberties *)
Definition sst : Type := bool * (pos -> option Z) * (Z -> option (list pos)).
(** capturegame.py:139-161 the body of the loop over the neighbours, on the updated board b *)
Definition set_step (b : board) (c : color) (p : pos) (freen : list pos) (st : sst) (n : pos) : result sst :=
  let '(merge, G, L) := st in
  if cell_eqb (b n) (Stone (opp c)) then
    let! g := oget (G n) in
    let! s := oget (L g) in
    Ok (merge, G, lset L g (Some (sdiff1 s p)))
  else if cell_eqb (b n) (Stone c) then
    if merge then
      let! newg := oget (G p) in
      let! oldg := oget (G n) in
      if newg =? oldg then
        let! s := oget (L newg) in
        Ok (merge, G, lset L newg (Some (sdiff1 s p)))
      else
        let G' := relabel G oldg newg in
        let! s := oget (L newg) in
        let! t := oget (L oldg) in
        Ok (merge, G', lset (lset L newg (Some (sdiff1 (sunion s t) p))) oldg None)
    else
      let! g := oget (G p) in
      let! _ := oget (L g) in
      let L1 := lset L g None in
      let! h := oget (G n) in
      let G' := gset G p h in
      let! s := oget (L1 h) in
      Ok (true, G', lset L1 h (Some (sdiff1 (sunion s freen) p)))
  else Ok st.
Fixpoint set_loop (b : board) (c : color) (p : pos) (freen : list pos) (ns : list pos) (st : sst) : result sst :=
  match ns with
  | [] => Ok st
  | n :: ns' => let! st' := set_step b c p freen st n in set_loop b c p freen ns' st'
  end.
(** capturegame.py:131-161 _setStone *)
Definition setStone (n : Z) (g : cgame) (c : color) (p : pos) : result cgame :=
  let b := bset (c_b g) p (Stone c) in
  let own := n * fst p + snd p in
  let freen := filter (fun q => cell_eqb (b q) Empty) (neighbors n p) in
  let! st := set_loop b c p freen (neighbors n p) (false, gset (c_groups g) p own, lset (c_libs g) own (Some (sunion [] freen))) in
  Ok {| c_b := b; c_groups := snd (fst st); c_libs := snd st; c_moves := c_moves g; c_winner := c_winner g |}.

(** len(self.liberties[self.groups[n]]) *)
Definition libcount (g : cgame) (q : pos) : result Z :=
  let! h := oget (c_groups g q) in let! s := oget (c_libs g h) in Ok (Z.of_nat (length s)).
(** capturegame.py:182-188 _capture *)
Fixpoint capture_loop (g : cgame) (c : color) (ns : list pos) : result bool :=
  match ns with
  | [] => Ok false
  | q :: ns' =>
      if cell_eqb (c_b g q) (Stone (opp c)) then
        let! k := libcount g q in if k =? 1 then Ok true else capture_loop g c ns'
      else capture_loop g c ns'
  end.
Definition capture (n : Z) (g : cgame) (c : color) (p : pos) : result bool := capture_loop g c (neighbors n p).
(** capturegame.py:163-180 _suicide: the second loop *)
Fixpoint extra_loop (g : cgame) (c : color) (ns : list pos) : result bool :=
  match ns with
  | [] => Ok false
  | q :: ns' =>
      if cell_eqb (c_b g q) (Stone c) then
        let! k := libcount g q in if 1 <? k then Ok true else extra_loop g c ns'
      else extra_loop g c ns'
  end.
Definition suicide (n : Z) (g : cgame) (c : color) (p : pos) : result bool :=
  if existsb (fun q => cell_eqb (c_b g q) Empty) (neighbors n p) then Ok false
  else
    let! e := extra_loop g c (neighbors n p) in
    if e then Ok false else
    let! k := capture n g c p in
    Ok (negb k).
(** capturegame.py:66-73 isLegal *)
Definition c_isLegal (n : Z) (suicideenabled : bool) (g : cgame) (c : color) (p : pos) : result bool :=
  if negb (in_range (square n) p) then Ok false
  else if negb (cell_eqb (c_b g p) Empty) then Ok false
  else if suicideenabled then Ok true
  else let! s := suicide n g c p in Ok (negb s).

Inductive cmove : Type := Resign | Put (p : pos).
Definition with_moves (g : cgame) (m : Z) : cgame :=
  {| c_b := c_b g; c_groups := c_groups g; c_libs := c_libs g; c_moves := m; c_winner := c_winner g |}.
Definition ended (g : cgame) (b : board) (w : color) : cgame :=
  {| c_b := b; c_groups := c_groups g; c_libs := c_libs g; c_moves := c_moves g; c_winner := Winner w |}.
(** capturegame.py:75-95 doMove *)
Definition doMove (n : Z) (suicideenabled : bool) (g0 : cgame) (c : color) (m : cmove) : result (cgame * bool) :=
  let g := with_moves g0 (c_moves g0 + 1) in
  match m with
  | Resign => Ok (ended g (c_b g) (opp c), true)
  | Put p =>
      let! l := c_isLegal n suicideenabled g c p in
      if negb l then Ok (g, false)
      else
        let! s := suicide n g c p in
        if s then
          if suicideenabled then Ok (ended g (bset (c_b g) p Mark) (opp c), true) else Err AssertionError
        else
          let! k := capture n g c p in
          if k then Ok (ended g (bset (c_b g) p Mark) c, true)
          else let! g' := setStone n g c p in Ok (g', true)
  end.
(** capturegame.py:190-201 getLiberties, getGroupSize (None on an empty point) *)
Definition getLiberties (g : cgame) (p : pos) : result (option Z) :=
  match c_b g p with Empty => Ok None | _ => let! k := libcount g p in Ok (Some k) end.
Definition getGroupSize (n : Z) (g : cgame) (p : pos) : result (option Z) :=
  match c_b g p with
  | Empty => Ok None
  | _ => let! h := oget (c_groups g p) in
         Ok (Some (Z.of_nat (length (filter (fun q => match c_groups g q with Some k => k =? h | None => false end) (iterPos (square n))))))
  end.
(** capturegame.py:203-213 getLegals, getAcceptable, getKilling *)
Definition c_getLegals (n : Z) (g : cgame) : list pos := getLegals (square n) (c_b g).
Fixpoint filterM (f : pos -> result bool) (l : list pos) : result (list pos) :=
  match l with
  | [] => Ok []
  | x :: l' => let! k := f x in let! r := filterM f l' in Ok (if k then x :: r else r)
  end.
Definition getAcceptable (n : Z) (g : cgame) (c : color) : result (list pos) :=
  filterM (fun p => let! s := suicide n g c p in Ok (negb s)) (c_getLegals n g).
Definition getKilling (n : Z) (g : cgame) (c : color) : result (list pos) :=
  let! l := getAcceptable n g c in filterM (fun p => capture n g c p) l.
(** capturegame.py:229-236 giveHandicap, the positions of the iterator given *)
Fixpoint giveHandicap (n : Z) (suicideenabled : bool) (g : cgame) (c : color) (ps : list pos) : result cgame :=
  match ps with
  | [] => Ok g
  | p :: ps' =>
      let! l := c_isLegal n suicideenabled g c p in
      if l then let! g' := setStone n g c p in giveHandicap n suicideenabled g' c ps'
      else giveHandicap n suicideenabled g c ps'
  end.
