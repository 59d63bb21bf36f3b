(** Model of structure/networks/borderswiping.py, of the plain part of networks/custom/capturegame.py (componentclass other than MDLSTMLayer) and of
    networks/custom/convboard.py, and of the function these networks and those of swiping.py and convolutional.py compute.

    The connections of swiping.py and convolutional.py are those of Arch_Model.  Here the meshes of inputs and outputs are views on a flat layer
    (modulemesh.py:31-42), as in multidimensional.py and capturegame.py.
    What a network computes is given by the equations of its modules: the input buffer of a module is the sum of what its connections deliver, its
    output buffer is the function of the layer of it.  That one forward pass through the sorted modules yields a solution of these equations is C17 and C18.
    Parameters of mothers are an argument (they start random); names, predefined mothers other than those of the borders, networks read from XML, MDLSTM components and
    the unfinished parts of CaptureGameNetwork (combinputs, which raises AttributeError for componentOutdim of a layer) are left out. *)
From Coq Require Import QArith.
From Verif Require Import Base RingOps Net_Model Arch_Model.
From Verif Require Utilities_Model.
Close Scope Q_scope.

(** ** connections between buffers: a full connection with the parameters of its mother, or the identity *)
Record gconn (B Mo : Type) := { g_in : B; g_out : B; g_mother : option Mo; g_inslice : nat * nat; g_outslice : nat * nat }.
Arguments g_in {B Mo}. Arguments g_out {B Mo}. Arguments g_mother {B Mo}. Arguments g_inslice {B Mo}. Arguments g_outslice {B Mo}.
Section Flow.
Context {K : Type} {Ops : RingOps K} {B Mo : Type} (beq : B -> B -> bool) (w : Mo -> vec (K := K)).
(** connection.py:79-98, full.py:17-19, identity.py:14-15: what a connection adds to position i of the input buffer of its target *)
Definition deliver (c : gconn B Mo) (V : B -> vec (K := K)) (i : nat) : K :=
  if (fst (g_outslice c) <=? i) && (i <? snd (g_outslice c)) then
    let o := i - fst (g_outslice c) in let indim := snd (g_inslice c) - fst (g_inslice c) in
    match g_mother c with
    | Some m => sumn indim (fun j => rmul (w m (o * indim + j)) (V (g_in c) (fst (g_inslice c) + j)))
    | None => V (g_in c) (fst (g_inslice c) + o)
    end
  else r0.
Definition received (cs : list (gconn B Mo)) (V : B -> vec (K := K)) (b : B) : vec := fun i => suml cs (fun c => if beq (g_out c) b then deliver c V i else r0).
End Flow.

(** ** borderswiping.py *)
(** utilities.py:242-245 *)
Definition tupleRemoveItem (tup : list nat) (index : nat) : list nat := firstn index tup ++ skipn (S index) tup.
(** borderswiping.py:83-92 *)
Definition canonicForm (symdims : bool) (dims tup : list nat) (dim : nat) : list nat :=
  if symdims then map (fun p => Nat.min (fst p - 1 - snd p) (snd p)) (combine (tupleRemoveItem dims dim) tup) else tup.
Inductive bwmother := BSwipe (m : smother) | BSimple | BBord (dim : nat) (t : list nat) | BPre (k : nat) | BDirect.
Definition bdict := list (list nat * bwmother).
Definition tup_eqb (a b : list nat) : bool := if list_eq_dec Nat.eq_dec a b then true else false.
Fixpoint bget (t : list nat) (d : bdict) : option bwmother := match d with [] => None | (k, m) :: r => if tup_eqb t k then Some m else bget t r end.
(** borderswiping.py:49-60: the mothers of one dimension, added to those already there *)
Definition addBorders (symdims : bool) (dims : list nat) (dim : nat) (d : bdict) : bdict :=
  let d1 := match dims, bget [] d with [_], None => d ++ [([], BBord dim [])] | _, _ => d end in
  fold_left (fun tmp t => if tup_eqb t (canonicForm symdims dims t dim) then match bget t tmp with None => tmp ++ [(t, BBord dim t)] | Some _ => tmp end else tmp)
            (Utilities_Model.iterCombinations (tupleRemoveItem dims dim)) d1.
(** borderswiping.py:41-60; pre: predefined['bordconns'] *)
Definition bordconns (symdims : bool) (dims : list nat) (pre : nat -> bdict) (dim : nat) : bdict :=
  match dim with
  | O => addBorders symdims dims 0 (pre O)
  | S _ => addBorders symdims dims dim (if symdims then addBorders symdims dims 0 (pre O) else pre dim)
  end.
(** borderswiping.py:66-70; a missing key raises KeyError *)
Definition bconn (simple symdims : bool) (dims : list nat) (pre : nat -> bdict) (dim : nat) (unit : list nat) : result bwmother :=
  if simple then Ok BSimple
  else match bget (canonicForm symdims dims (tupleRemoveItem unit dim) dim) (bordconns symdims dims pre dim) with Some m => Ok m | None => Err KeyError end.
Inductive bbuf := PIn | POut | PHid (u : list nat) (swipe : nat) | PBias.
Definition bbuf_eqb (a b : bbuf) : bool :=
  match a, b with PIn, PIn | POut, POut | PBias, PBias => true | PHid u s, PHid u' s' => tup_eqb u u' && (s =? s') | _, _ => false end.
Definition bufOf (m : smod) : bbuf := match m with SIn _ => PIn | SOut _ => POut | SHid u s => PHid u s end.
Definition sconn_of (c : aconn smod smother) : gconn bbuf bwmother :=
  {| g_in := bufOf (a_in c); g_out := bufOf (a_out c); g_mother := Some (BSwipe (a_mother c)); g_inslice := a_inslice c; g_outslice := a_outslice c |}.
Definition conns_of {M Mo} (ops : list (aop M Mo)) : list (aconn M Mo) := flat_map (fun o => match o with AConn c => [c] | AMod _ => [] end) ops.
(** borderswiping.py:72-81 *)
Definition hunits (dims : list nat) (dim : nat) (unit : list nat) : list nat :=
  let swipes := seq 0 (2 ^ length dims) in
  (if nth dim unit 0 =? 0 then filter (fun s => (s / 2 ^ dim) mod 2 =? 0) swipes else []) ++
  (if nth dim unit 0 =? nth dim dims 0 - 1 then filter (fun s => (s / 2 ^ dim) mod 2 =? 1) swipes else []).
Fixpoint rconcat {A} (l : list (result (list A))) : result (list A) :=
  match l with [] => Ok [] | r :: t => let! x := r in let! y := rconcat t in Ok (x ++ y) end.
Definition bborder (simple symdims : bool) (z : ssizes) (dims : list nat) (pre : nat -> bdict) : result (list (gconn bbuf bwmother)) :=
  rconcat (flat_map (fun dim => map (fun unit =>
    let! m := bconn simple symdims dims pre dim unit in
    Ok (map (fun s => {| g_in := PBias; g_out := PHid unit s; g_mother := Some m; g_inslice := (0, 1); g_outslice := (0, s_hin z) |}) (hunits dims dim unit)))
    (Utilities_Model.iterCombinations dims)) (seq 0 (length dims))).
(** borderswiping.py:33-81 *)
Definition borderswiping (simple symdims : bool) (z : ssizes) (dims : list nat) (pre : nat -> bdict) : result (list (gconn bbuf bwmother)) :=
  let! ops := swiping symdims true z dims in
  let! bs := bborder simple symdims z dims pre in
  Ok (map sconn_of (conns_of ops) ++ bs).
(** capturegame.py:92-96, 105-109 *)
Definition directlink (z : ssizes) (dims : list nat) : list (gconn bbuf bwmother) :=
  map (fun u => {| g_in := PIn; g_out := POut; g_mother := Some BDirect; g_inslice := (s_inoff z u, s_inoff z u + s_in z); g_outslice := (s_outoff z u, s_outoff z u + s_out z) |})
      (Utilities_Model.iterCombinations dims).
(** capturegame.py:54-96 without MDLSTM cells and combined inputs; without the direct link it is BorderSwipingNetwork *)
Definition capturenet (direct simple symdims : bool) (z : ssizes) (dims : list nat) (pre : nat -> bdict) : result (list (gconn bbuf bwmother)) :=
  let! cs := borderswiping simple symdims z dims pre in Ok (cs ++ (if direct then directlink z dims else [])).
(** swiping.py alone *)
Definition swipingnet (symdims symdirs : bool) (z : ssizes) (dims : list nat) : result (list (gconn bbuf bwmother)) :=
  let! ops := swiping symdims symdirs z dims in Ok (map sconn_of (conns_of ops)).
(** the equations: g is the function of a hidden layer, h that of the output layer, position by position; the input layer is linear, biasunit.py:17-18 *)
Section Solve.
Context {K : Type} {Ops : RingOps K} (w : bwmother -> vec (K := K)) (g : vec (K := K) -> vec (K := K)) (h : K -> K).
Definition solves (z : ssizes) (dims : list nat) (cs : list (gconn bbuf bwmother)) (X : vec) (V : bbuf -> vec) : Prop :=
  V PIn = X /\ V PBias 0 = r1 /\ (forall u s j, Forall2 lt u dims -> s < 2 ^ length dims -> j < s_hout z -> V (PHid u s) j = g (received bbuf_eqb w cs V (PHid u s)) j)
  /\ forall i, V POut i = h (received bbuf_eqb w cs V POut i).
End Solve.

(** modulemesh.py:34-45: where the slice of a unit begins; size: of every slice *)
Fixpoint indexOf (t : list nat) (l : list (list nat)) : nat := match l with [] => 0 | k :: r => if tup_eqb t k then 0 else S (indexOf t r) end.
Definition viewOffset (dims : list nat) (size : nat) (u : list nat) : nat := size * indexOf u (Utilities_Model.iterCombinations dims).

(** ** weights for new borders: borderswiping.py:94-105, utilities.py:402-439, for a tuple that is no key *)
Fixpoint decrementAny (tup : list nat) : list (list nat) :=
  match tup with [] => [] | x :: t => (match x with O => [] | S y => [y :: t] end) ++ map (cons x) (decrementAny t) end.
(** the steps are made in whole sets; nothing seen is met again, because every step decreases the sum *)
Fixpoint reachable (fuel : nat) (start destinations : list (list nat)) : list (list nat * nat) :=
  match fuel, start, destinations with
  | O, _, _ | _, [], _ | _, _, [] => []
  | S fuel, _, _ =>
    let new := nodup (list_eq_dec Nat.eq_dec) (flat_map decrementAny start) in
    let isdest := fun s => existsb (tup_eqb s) destinations in
    let found := filter isdest new in
    map (fun s => (s, 1)) found ++
    map (fun kd => (fst kd, snd kd + 1)) (reachable fuel (filter (fun s => negb (isdest s)) new) (filter (fun s => negb (existsb (tup_eqb s) found)) destinations))
  end.
Fixpoint qget (t : list nat) (d : list (list nat * (nat -> Q))) : nat -> Q := match d with [] => fun _ => 0%Q | (k, p) :: r => if tup_eqb t k then p else qget t r end.
Definition qsum {A} (f : A -> Q) (l : list A) : Q := fold_right (fun a s => (f a + s)%Q) 0%Q l.
Definition extrapolateBorderAt (t : list nat) (known : list (list nat * (nat -> Q))) : option (nat -> Q) :=
  let closest := reachable (S (list_sum t)) [t] (map fst known) in
  match closest with
  | [] => None
  | _ => Some (fun i => qsum (fun c => qget (fst c) known i / inject_Z (Z.of_nat (snd c))) closest / qsum (fun c => 1 / inject_Z (Z.of_nat (snd c))) closest)%Q
  end.

(** ** convboard.py and convolutional.py *)
Inductive cbuf := CIn | CPad | CHid | COut | CBias.
Definition cbuf_eqb (a b : cbuf) : bool := match a, b with CIn, CIn | CPad, CPad | CHid, CHid | COut, COut | CBias, CBias => true | _, _ => false end.
(** the mothers: those of convolutional.py, and the weights of the bias (None) *)
Definition conv_of (inb : cbuf) (c : aconn nat cmother) : gconn cbuf (option cmother) :=
  let b := fun m => match m with O => inb | 1 => CHid | _ => COut end in
  {| g_in := b (a_in c); g_out := b (a_out c); g_mother := Some (Some (a_mother c)); g_inslice := a_inslice c; g_outslice := a_outslice c |}.
(** convolutional.py:20-54 *)
Definition convnet (inputdim insize convSize features : nat) : result (list (gconn cbuf (option cmother))) :=
  let! ops := convolutional inputdim insize convSize features in Ok (map (conv_of CIn) (conns_of ops)).
(** convboard.py:26-30 *)
Definition padding (convSize : nat) : nat := convSize / 2.
Definition paddedSize (boardSize convSize : nat) : nat := boardSize + 2 * padding convSize - (if convSize mod 2 =? 0 then 1 else 0).
(** convboard.py:39-45 *)
Definition padded_xs (boardSize convSize : nat) : list nat :=
  let x := padding convSize in let insize := paddedSize boardSize convSize in
  let from := if convSize mod 2 =? 0 then insize - x + 1 else insize - x in
  seq 0 x ++ seq from (insize - from).
Definition paddable (boardSize convSize : nat) : list (nat * nat) :=
  let xs := padded_xs boardSize convSize in
  list_prod (seq 0 (paddedSize boardSize convSize)) xs ++ list_prod xs (seq (padding convSize) boardSize).
(** convboard.py:20-58; without padding crossproduct adds up no lists (utilities.py:490); moduleslice.py:38 for a board of one field *)
Definition convboard (boardSize convSize features : nat) : result (list (gconn cbuf (option cmother))) :=
  let inputdim := 2 in let x := padding convSize in let insize := paddedSize boardSize convSize in
  let bias := map (fun ij => {| g_in := CBias; g_out := CPad; g_mother := Some None; g_inslice := (0, 1);
                                g_outslice := ((fst ij * insize + snd ij) * inputdim, (fst ij * insize + snd ij + 1) * inputdim) |}) (paddable boardSize convSize) in
  let rows := map (fun i => {| g_in := CIn; g_out := CPad; g_mother := None; g_inslice := (i * boardSize * inputdim, (i + 1) * boardSize * inputdim);
                               g_outslice := (((i + x) * insize + x) * inputdim, ((i + x) * insize + x + boardSize) * inputdim) |}) (seq 0 boardSize) in
  if convSize <=? 1 then Err TypeError else if boardSize =? 1 then Err AssertionError else
  let! ops := convolutional inputdim insize convSize features in
  Ok (bias ++ rows ++ map (conv_of CPad) (conns_of ops)).
Section CSolve.
Context {K : Type} {Ops : RingOps K} (w : option cmother -> vec (K := K)) (th sg : K -> K).
Definition csolves (padded : bool) (cs : list (gconn cbuf (option cmother))) (X : vec) (V : cbuf -> vec) : Prop :=
  V CIn = X /\ V CBias 0 = r1 /\ (padded = true -> forall i, V CPad i = received cbuf_eqb w cs V CPad i)
  /\ (forall i, V CHid i = th (received cbuf_eqb w cs V CHid i)) /\ forall i, V COut i = sg (received cbuf_eqb w cs V COut i).
End CSolve.
