(** Model of what the multi-dimensional networks are put together from: structure/moduleslice.py and the slices of structure/connections/connection.py,
    structure/modules/mdrnnlayer.py (sizes and the views on the parameters), structure/networks/mdrnn.py (sizes, swipes, the permutation connections),
    utilities.py permuteToBlocks, permuteToBlocks2d and permuteToBlocks3d, and the buffers of the layers of structure/modules/gate.py.

    Divisions of integers are exact floors; [j_true] is permuteToBlocks2d's index where / divides truly.
    Arrays are lists.  Indices that numpy would read from the end do not occur.
    Not modelled: the compiled networks of arac which compute an MdrnnLayer; names. *)
From Coq Require Import QArith Reals.
From Verif Require Import Base Utilities_Model Layers_R.
Local Open Scope nat_scope.

(** ** slices of modules *)
(** a module, or a slice of one: what Connection and ModuleSlice read of it *)
Inductive modul : Type :=
| Base (indim outdim : Z)
| Slice (bindim boutdim inOffset outOffset indim outdim : Z).
Definition m_in (m : modul) : Z := match m with Base i _ => i | Slice _ _ _ _ i _ => i end.
Definition m_out (m : modul) : Z := match m with Base _ o => o | Slice _ _ _ _ _ o => o end.
Definition or_else (x : option Z) (d : Z) : Z := match x with Some x => x | None => d end.
(** moduleslice.py:11-38; line 16 reads base.inSliceFrom, which a ModuleSlice does not have *)
Definition newSlice (base : modul) (inFrom : Z) (inTo : option Z) (outFrom : Z) (outTo : option Z) : result modul :=
  match base with
  | Slice _ _ _ _ _ _ => Err AttributeError
  | Base i o =>
      let indim := (or_else inTo i - inFrom)%Z in
      let outdim := (or_else outTo o - outFrom)%Z in
      if ((0 <=? inFrom) && (0 <=? outFrom) && (indim + outdim <? i + o))%Z%bool
      then Ok (Slice i o inFrom outFrom indim outdim) else Err AssertionError
  end.
(** connection.py:16-54: the parts of the buffers of the two base modules *)
Record conn : Type := { c_inFrom : Z; c_inTo : Z; c_outFrom : Z; c_outTo : Z }.
Definition newConn (inmod outmod : modul) (inFrom : Z) (inTo : option Z) (outFrom : Z) (outTo : option Z) : conn :=
  let f := match inmod with Slice _ _ _ off _ _ => off | Base _ _ => 0%Z end in
  let t := match outmod with Slice _ _ off _ _ _ => off | Base _ _ => 0%Z end in
  {| c_inFrom := inFrom + f; c_inTo := or_else inTo (m_out inmod) + f; c_outFrom := outFrom + t; c_outTo := or_else outTo (m_in outmod) + t |}.
Definition c_in (c : conn) : Z := c_inTo c - c_inFrom c.
Definition c_out (c : conn) : Z := c_outTo c - c_outFrom c.

(** ** MdrnnLayer *)
Definition prod (l : list nat) : nat := fold_right Nat.mul 1 l.
Record layer : Type := { y_timedim : nat; y_shape : list nat; y_hidden : nat; y_outsize : nat; y_block : list nat }.
(** 77, 81-84 *)
Definition mkLayer (timedim : nat) (shape : list nat) (hidden outsize : nat) (blockshape : option (list nat)) : layer :=
  {| y_timedim := timedim; y_shape := shape; y_hidden := hidden; y_outsize := outsize;
     y_block := match blockshape with Some b => b | None => repeat 1 timedim end |}.
Definition y_indim (y : layer) : nat := prod (y_shape y).
Definition y_blocksize (y : layer) : nat := prod (y_block y).
Definition y_length (y : layer) : nat := y_indim y / y_blocksize y.
Definition y_outdim (y : layer) : nat := y_length y * y_outsize y.
(** 91-108 *)
Definition num_in (y : layer) : nat := y_blocksize y * y_hidden y * (3 + y_timedim y).
Definition num_rec (y : layer) : nat := y_outsize y * y_hidden y * (3 + y_timedim y).
Definition num_out (y : layer) : nat := y_outsize y * y_hidden y.
Definition num_bias (y : layer) : nat := (3 + y_timedim y) * y_hidden y + y_outsize y.
Definition num_params (y : layer) : nat := num_in y + y_timedim y * num_rec y + num_out y + num_bias y.
(** l[a:b] *)
Definition slice {A} (a b : nat) (l : list A) : list A := firstn (b - a) (skipn a l).
(** 34-53 *)
Definition inParams {A} (y : layer) (p : list A) : list A := slice 0 (num_in y) p.
Definition predParams {A} (y : layer) (p : list A) : list (list A) :=
  let rest := skipn (num_in y) p in map (fun i => slice (i * num_rec y) ((i + 1) * num_rec y) rest) (seq 0 (y_timedim y)).
Definition outParams {A} (y : layer) (p : list A) : list A :=
  let offset := num_in y + num_rec y in slice offset (offset + num_out y) p.
Definition biasParams {A} (y : layer) (p : list A) : list A :=
  let offset := num_in y + num_rec y + num_out y in slice offset (offset + num_bias y) p.

(** ** _Mdrnn and _MultiDirectionalMdrnn *)
(** mdrnn.py:97-111: identity[axises].flatten(); a direction - (true) turns its axis round; axes without a direction stay *)
Fixpoint swipe (shape : list nat) (dirs : list bool) : list nat :=
  match shape with
  | [] => [0]
  | s :: shape =>
      let '(d, dirs) := match dirs with [] => (false, []) | d :: dirs => (d, dirs) end in
      let sub := swipe shape dirs in
      flat_map (fun i => map (fun j => i * prod shape + j) sub) (if d then rev (seq 0 s) else seq 0 s)
  end.
(** 92-112 *)
Definition permsForSwiping (timedim : nat) (shape block : list nat) : result (list (list nat)) :=
  let length_ := prod shape / prod block in
  let blocks := map (fun p => fst p / snd p) (combine shape block) in
  if negb (prod blocks =? length_) then Err ValueError                       (* identity.shape = *)
  else
    let! ds := crossproduct (repeat [false; true] timedim) [] in
    if length blocks <? timedim then Err IndexError                          (* too many indices *)
    else Ok (map (swipe blocks) ds).
(** permutation.py:16-28: the check of the sizes *)
Definition permConn (perm : list nat) (blocksize indim outdim : nat) : result (list nat * nat) :=
  if negb (indim =? outdim) then Err ValueError else if negb (length perm * blocksize =? indim) then Err ValueError else Ok (perm, blocksize).
(** permutation.py:30-34 on the blocks *)
Definition permForward {A} (c : list nat * nat) (blocks : list A) : result (list A) := permute blocks (fst c).
(** mdrnn.py:54-71: for every swipe the connection to the layer and the one back; l is the layer *)
Definition swipeConns (perms : list (list nat)) (y : layer) (indim blocksize : nat) : result (list ((list nat * nat) * (list nat * nat))) :=
  fold_right (fun p acc =>
      let! acc := acc in
      let! i := permConn p blocksize indim (y_indim y) in
      let! pinv := permute (seq 0 (length p)) p in
      let! o := permConn pinv (y_outsize y) (y_outdim y) (y_length y * y_outsize y) in
      Ok ((i, o) :: acc)) (Ok []) perms.
(** 24-41 with the swipes of [perms]; without a blockshape reduce() gets None *)
Definition newMdrnn (multi : bool) (timedim : nat) (shape : list nat) (hidden outsize : nat) (blockshape : option (list nat)) :
    result (list ((list nat * nat) * (list nat * nat))) :=
  match blockshape with
  | None => Err TypeError
  | Some b =>
      let y := mkLayer timedim shape hidden outsize (Some b) in
      let! perms := if multi then permsForSwiping timedim shape b else Ok [seq 0 (y_length y)] in
      swipeConns perms y (prod shape) (prod b)
  end.

(** ** permuteToBlocks *)
(** utilities.py:545-551 *)
Definition j_floor (width bh bw i : nat) : nat :=
  let blockx := (i mod width) / bw in
  let blocky := i / width / bh in
  let blockoffset := blocky * width / bw + blockx in
  let blockoffset := blockoffset * (bw * bh) in
  blockoffset + (i / width) mod bh * bw + i mod bw.
(** 540-553: new[j] = arr[i] *)
Definition scatter {A} (zero : A) (j : nat -> nat) (arr : list A) : result (list A) :=
  fold_left (fun acc i => let! new := acc in
     match nth_error arr i with
     | Some x => if j i <? length new then Ok (firstn (j i) new ++ x :: skipn (S (j i)) new) else Err IndexError
     | None => Err IndexError
     end) (seq 0 (length arr)) (Ok (repeat zero (length arr))).
Definition toBlocks2d {A} (zero : A) (width bh bw : nat) (arr : list A) : result (list A) := scatter zero (j_floor width bh bw) arr.
(** 532-537 *)
Definition toBlocks3d {A} (zero : A) (height width bd bh bw : nat) (arr : list A) : result (list A) :=
  let! arr := toBlocks2d zero width bh bw arr in toBlocks2d zero (height * width) bd (bw * bh) arr.
(** 506-529: shape and blockshape *)
Definition permuteToBlocks {A} (zero : A) (shape block : list nat) (arr : list A) : result (list A) :=
  match block with
  | [] | [_] => Err ValueError
  | [bh; bw] => match shape with [_; w] => toBlocks2d zero w bh bw arr | _ => Err ValueError end
  | [bd; bh; bw] => match shape with [_; h; w] => toBlocks3d zero h w bd bh bw arr | _ => Err ValueError end
  | _ => Err NotImplementedError
  end.
(** the same index where / divides truly; numpy cuts it off *)
Definition qmod (x : Q) (m : Z) : Q := (x - inject_Z (Qnum x / Zpos (Qden x) / m * m))%Q.
Definition j_true (width bh bw i : Z) : Z :=
  let blockx := (inject_Z (i mod width) / inject_Z bw)%Q in
  let blocky := (inject_Z i / inject_Z width / inject_Z bh)%Q in
  let blockoffset := (blocky * inject_Z width / inject_Z bw + blockx)%Q in
  let blockoffset := (blockoffset * inject_Z (bw * bh))%Q in
  let j := (blockoffset + qmod (inject_Z i / inject_Z width) bh * inject_Z bw + inject_Z (i mod bw))%Q in
  (Qnum j / Zpos (Qden j))%Z.

(** ** the layers of gate.py by themselves *)
Inductive gate : Type := Mult | Gate | DoubleGate | Switch.
(** what _forwardImplementation adds to the output buffer; v and w are the halves of the input (Switch has no halves: w is not used) *)
Definition gateOut (k : gate) (v w : list R) : list R :=
  let zip f := map (fun p => f (fst p) (snd p)) (combine v w) in
  match k with
  | Mult => zip Rmult
  | Gate => zip (fun a b => (sigmoid a * b)%R)
  | DoubleGate => zip (fun a b => (sigmoid a * b)%R) ++ zip (fun a b => ((1 - sigmoid a) * b)%R)
  | Switch => map sigmoid v ++ map (fun a => (1 - sigmoid a)%R) v
  end.
Definition addv (a b : list R) : list R := map (fun p => (fst p + snd p)%R) (combine a b).
(** module.py:119-124 with 20-21, 40-41, 63-66, 89-91: the output buffer is not cleared *)
Definition activate (k : gate) (buf : list R) (x : list R * list R) : list R := addv buf (gateOut k (fst x) (snd x)).
Definition outdim (k : gate) (n : nat) : nat := match k with Mult | Gate => n | DoubleGate | Switch => 2 * n end.
(** module.py:84-89 *)
Definition resetBuf (k : gate) (n : nat) : list R := repeat 0%R (outdim k n).
