(** Model of the functions that generate network architectures: tools/shortcuts.py (buildNetwork), structure/networks/bidirectional.py,
    swiping.py and convolutional.py, with structure/moduleslice.py and modulemesh.py as far as they are needed.

    A construction is the list of calls of addModule and addConnection it makes, to be run by the network of Topo_Model.  The class of a
    layer is given by its buffer sizes and its number of parameters as functions of its size.  The generated names, which decide ties
    in the order, are a parameter.  The fast (arac) networks and predefined weights are left out. *)
From Verif Require Import Base Dict StableSort Topo_Model.
From Verif Require Utilities_Model.

(** ** The number of parameters of a sorted network, network.py:80-93, 230-232: modules, own weights of connections, shared weights *)
Definition paramdim (mp : nat -> nat) (cp : conn -> nat) (extra : nat) (s : list nat * dict (list conn)) : nat :=
  list_sum (map (fun c => match c with CMod m => mp m | CConn c => cp c end) (containers s)) + extra.

(** ** tools/shortcuts.py *)
Record lclass := { k_in : nat -> nat; k_out : nat -> nat; k_par : nat -> nat; k_lstm : bool }.
Definition plain : lclass := {| k_in := fun n => n; k_out := fun n => n; k_par := fun _ => 0; k_lstm := false |}.
(** modules/lstm.py:36-61 *)
Definition lstm (peepholes : bool) : lclass := {| k_in := fun n => 4 * n; k_out := fun n => n; k_par := fun n => if peepholes then 3 * n else 0; k_lstm := true |}.
Record options := { o_bias : bool; o_outputbias : bool; o_hidden : lclass; o_out : lclass }.
(** the modules: 0 the input, 1 the output, 2 the bias unit, 3 + i hidden layer i *)
Section Build.
Variable cname : nat -> nat -> nat.
Definition full u v : conn := mkconn u v (cname u v).
(** shortcuts.py:71-106, for the names used there; exit() of line 105 is an exception, n['hidden0'] of line 106 is None without hidden layers *)
Definition buildNetwork (o : options) (layers : list nat) : result (list nop * list conn) :=
  if length layers <? 2 then Err PlainException
  else
    let nh := length layers - 2 in
    let ops :=
      [AddModule 0; AddModule 1] ++
      (if o_bias o then AddModule 2 :: (if o_outputbias o then [AddConnection (full 2 1)] else []) else []) ++
      flat_map (fun i => AddModule (3 + i) :: (if o_bias o then [AddConnection (full 2 (3 + i))] else [])) (seq 0 nh) ++
      map (fun i => AddConnection (full (3 + i) (3 + (i + 1)))) (seq 0 (length layers - 3)) ++
      (if length layers =? 2 then [AddConnection (full 0 1)] else [AddConnection (full 0 3); AddConnection (full (3 + (length layers - 3)) 1)]) in
    if k_lstm (o_hidden o) then
      if 3 <? length layers then Err PlainException
      else if nh =? 0 then Err AttributeError
      else Ok (ops, [full 3 3])
    else Ok (ops, []).
End Build.
(** sizes of the buffers and parameters of the modules, shortcuts.py:72-86 *)
Definition size_in (o : options) (layers : list nat) (m : nat) : nat :=
  match m with 0 => nth 0 layers 0 | 1 => k_in (o_out o) (last layers 0) | 2 => 0 | S (S (S i)) => k_in (o_hidden o) (nth (1 + i) layers 0) end.
Definition size_out (o : options) (layers : list nat) (m : nat) : nat :=
  match m with 0 => nth 0 layers 0 | 1 => k_out (o_out o) (last layers 0) | 2 => 1 | S (S (S i)) => k_out (o_hidden o) (nth (1 + i) layers 0) end.
Definition mod_par (o : options) (layers : list nat) (m : nat) : nat :=
  match m with 0 => 0 | 1 => k_par (o_out o) (last layers 0) | 2 => 0 | S (S (S i)) => k_par (o_hidden o) (nth (1 + i) layers 0) end.
(** connections/full.py:13-15 *)
Definition conn_par (o : options) (layers : list nat) (c : conn) : nat := size_out o layers (c_in c) * size_in o layers (c_out c).
(** the recurrent connections are part of the parameters too, recurrent.py:29-34 *)
Definition build_paramdim (o : options) (layers : list nat) (rec : list conn) s : nat :=
  paramdim (mod_par o layers) (conn_par o layers) (list_sum (map (conn_par o layers) rec)) s.

(** ** Networks of shared connections *)
Section Shared.
Context {M Mo : Type} (mo_eqb : Mo -> Mo -> bool).
(** a SharedFullConnection: the modules, the mother, and the slices of the buffers (from, to) on both sides *)
Record aconn := { a_in : M; a_out : M; a_mother : Mo; a_inslice : nat * nat; a_outslice : nat * nat }.
Inductive aop := AMod (m : M) | AConn (c : aconn).
(** what reaches the network: the identity of the module, the name of the mother as name of the connection (shared.py:50-51) *)
Definition lower (enc : M -> nat) (nm : Mo -> nat) (o : aop) : nop :=
  match o with AMod m => AddModule (enc m) | AConn c => AddConnection (mkconn (enc (a_in c)) (enc (a_out c)) (nm (a_mother c))) end.
(** network.py:133-136 *)
Fixpoint mothers (ops : list aop) (acc : list Mo) : list Mo :=
  match ops with
  | [] => acc
  | AMod _ :: t => mothers t acc
  | AConn c :: t => mothers t (if existsb (mo_eqb (a_mother c)) acc then acc else acc ++ [a_mother c])
  end.
End Shared.
Arguments aop : clear implicits.
Arguments aconn : clear implicits.

(** ** structure/networks/bidirectional.py *)
Inductive bmod := BIn (i : nat) | BOut (i : nat) | BHid (d i : nat).
(** kind 0: input, 1: output, 2: in time; false: forward, true: backward *)
Definition bmother : Type := nat * bool.
Definition bm_eqb (a b : bmother) : bool := (fst a =? fst b) && Bool.eqb (snd a) (snd b).
Record bsizes := { b_in : nat; b_out : nat; b_hin : nat; b_hout : nat }.
Definition bmother_size (z : bsizes) (m : bmother) : nat :=
  match fst m with 0 => b_in z * b_hin z | 1 => b_out z * b_hout z | _ => b_hin z * b_hout z end.
(** bidirectional.py:65-75 *)
Definition bdir (symmetric : bool) (kind : nat) (backward : bool) : bmother := (kind, if symmetric then false else backward).
(** bidirectional.py:80-90 *)
Definition bconns (sym : bool) (z : bsizes) (n i : nat) : list (aop bmod bmother) :=
  let ins := (b_in z * i, b_in z * (i + 1)) in let outs := (b_out z * i, b_out z * (i + 1)) in
  let hi := (0, b_hin z) in let ho := (0, b_hout z) in
  [AConn {| a_in := BIn i; a_out := BHid 0 i; a_mother := bdir sym 0 false; a_inslice := ins; a_outslice := hi |};
   AConn {| a_in := BIn i; a_out := BHid 1 i; a_mother := bdir sym 0 true; a_inslice := ins; a_outslice := hi |};
   AConn {| a_in := BHid 0 i; a_out := BOut i; a_mother := bdir sym 1 false; a_inslice := ho; a_outslice := outs |};
   AConn {| a_in := BHid 1 i; a_out := BOut i; a_mother := bdir sym 1 true; a_inslice := ho; a_outslice := outs |}] ++
  (if 0 <? i then [AConn {| a_in := BHid 0 (i - 1); a_out := BHid 0 i; a_mother := bdir sym 2 false; a_inslice := ho; a_outslice := hi |}] else []) ++
  (if i <? n - 1 then [AConn {| a_in := BHid 1 (i + 1); a_out := BHid 1 i; a_mother := bdir sym 2 true; a_inslice := ho; a_outslice := hi |}] else []).
(** bidirectional.py:44-90.  modulemesh.py:38 and moduleslice.py:38: the sequence has more than one component and the slices are not empty;
    shared.py:23: no mother is empty *)
Definition bidirectional (sym : bool) (z : bsizes) (n : nat) : result (list (aop bmod bmother)) :=
  if (n <=? 1) || (b_in z * b_hin z =? 0) || (b_out z * b_hout z =? 0) || (b_hin z * b_hout z =? 0) then Err AssertionError
  else Ok (map (fun i => AMod (BIn i)) (seq 0 n) ++ map (fun i => AMod (BOut i)) (seq 0 n) ++
           map (fun i => AMod (BHid 0 i)) (seq 0 n) ++ map (fun i => AMod (BHid 1 i)) (seq 0 n) ++
           flat_map (bconns sym z n) (seq 0 n)).

(** ** structure/networks/swiping.py *)
Inductive smod := SIn (u : list nat) | SOut (u : list nat) | SHid (u : list nat) (swipe : nat).
Inductive smother := MIn | MOut | MHid (d : nat) (dir : option bool).
Definition sm_eqb (a b : smother) : bool :=
  match a, b with
  | MIn, MIn | MOut, MOut => true
  | MHid d o, MHid d' o' => (d =? d') && match o, o' with None, None => true | Some x, Some y => Bool.eqb x y | _, _ => false end
  | _, _ => false
  end.
(** sizes of the components of the meshes, and where the components of views lie in their layers *)
Record ssizes := { s_in : nat; s_out : nat; s_hin : nat; s_hout : nat; s_inoff : list nat -> nat; s_outoff : list nat -> nat }.
Definition smother_size (z : ssizes) (m : smother) : nat :=
  match m with MIn => s_in z * s_hin z | MOut => s_out z * s_hout z | MHid _ _ => s_hin z * s_hout z end.
(** swiping.py:77-90, 104-110: the mother of the connections along a dimension *)
Definition hconn (symdims symdirs : bool) (d : nat) (dir : bool) : smother := MHid (if symdims then 0 else d) (if symdirs then None else Some dir).
(** swiping.py:104-109, 116-117: where the swipe comes from; up: towards higher coordinates *)
Definition up (swipe d : nat) : bool := (swipe / 2 ^ d) mod 2 =? 0.
Definition previous (dims u : list nat) (swipe d : nat) : option (list nat) :=
  let c := nth d u 0 in
  if up swipe d then (if c =? 0 then None else Some (upd d (c - 1) u))
  else (if c + 1 <? nth d dims 0 then Some (upd d (c + 1) u) else None).
(** swiping.py:93-118 *)
Definition sconns (symdims symdirs : bool) (z : ssizes) (dims : list nat) (u : list nat) (swipe : nat) : list (aop smod smother) :=
  [AConn {| a_in := SIn u; a_out := SHid u swipe; a_mother := MIn; a_inslice := (s_inoff z u, s_inoff z u + s_in z); a_outslice := (0, s_hin z) |};
   AConn {| a_in := SHid u swipe; a_out := SOut u; a_mother := MOut; a_inslice := (0, s_hout z); a_outslice := (s_outoff z u, s_outoff z u + s_out z) |}] ++
  flat_map (fun d => match previous dims u swipe d with
                     | Some p => [AConn {| a_in := SHid p swipe; a_out := SHid u swipe; a_mother := hconn symdims symdirs d (up swipe d); a_inslice := (0, s_hout z); a_outslice := (0, s_hin z) |}]
                     | None => [] end) (seq 0 (length dims)).
(** swiping.py:45-118; min(()) of no dimensions raises *)
Definition swiping (symdims symdirs : bool) (z : ssizes) (dims : list nat) : result (list (aop smod smother)) :=
  let units := Utilities_Model.iterCombinations dims in
  let swipes := 2 ^ length dims in
  match dims with
  | [] => Err ValueError
  | _ =>
    if negb (forallb (fun d => 1 <? d) dims) || (s_in z * s_hin z =? 0) || (s_out z * s_hout z =? 0) || (s_hin z * s_hout z =? 0) then Err AssertionError
    else Ok (map (fun u => AMod (SIn u)) units ++ map (fun u => AMod (SOut u)) units ++
             flat_map (fun u => map (fun s => AMod (SHid u s)) (seq 0 swipes)) units ++
             flat_map (fun u => flat_map (sconns symdims symdirs z dims u) (seq 0 swipes)) units)
  end.

(** ** structure/networks/convolutional.py, for convSize <= insize; 0: input, 1: hidden, 2: output *)
Definition cmother := option nat.       (* the row of the window, or the output weights *)
Definition cm_eqb (a b : cmother) : bool := match a, b with None, None => true | Some i, Some j => i =? j | _, _ => false end.
Definition cmother_size (inputdim convSize features : nat) (m : cmother) : nat := match m with None => features | Some _ => convSize * features * inputdim end.
(** convolutional.py:44-54 *)
Definition cconns (inputdim insize convSize features i j : nat) : list (aop nat cmother) :=
  let outdim := insize - convSize + 1 in
  let offset := i * outdim + j in
  let hs := (offset * features, (offset + 1) * features) in
  AConn {| a_in := 1; a_out := 2; a_mother := None; a_inslice := hs; a_outslice := (offset, offset + 1) |} ::
  map (fun k => let off := insize * (i + k) + j in
       AConn {| a_in := 0; a_out := 1; a_mother := Some k; a_inslice := (off * inputdim, off * inputdim + convSize * inputdim); a_outslice := hs |}) (seq 0 convSize).
(** convolutional.py:20-54; moduleslice.py:38 for the slices of the hidden and of the input layer *)
Definition convolutional (inputdim insize convSize features : nat) : result (list (aop nat cmother)) :=
  let outdim := insize - convSize + 1 in
  if (0 <? convSize) && (convSize * features * inputdim =? 0) || (features =? 0) then Err AssertionError
  else if negb (features + features <? 2 * (outdim * outdim * features)) then Err AssertionError
  else if (0 <? convSize) && negb (inputdim * insize * insize + convSize * inputdim <? 2 * (inputdim * insize * insize)) then Err AssertionError
  else Ok (map AMod [0; 1; 2] ++ flat_map (fun i => flat_map (fun j => cconns inputdim insize convSize features i j) (seq 0 outdim)) (seq 0 outdim)).
