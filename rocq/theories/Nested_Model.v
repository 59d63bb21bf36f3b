(** Model of feed-forward networks that contain feed-forward networks as modules
    (structure/networks/network.py, feedforward.py, structure/modules/module.py): Network
    is a Module, so addModule accepts a network, and forward, backward and reset recurse.

    A module is named by its path from the outermost network (innermost number first).
    Feed-forward networks never move their offset, so every buffer is its row 0.  The
    sorted order of every network, its connections and its input and output modules are
    given, as in Net_Model; inner networks have been sorted before they were added (see
    NestedParams_Model for what happens to the parameters otherwise). *)
From Verif Require Import Base RingOps Net_Model.

Section Nested.
Context {K : Type} {Ops : RingOps K}.
Notation vec := (@vec K).

Inductive tmod :=
| TLayer (l : @layer K)
| TNet (mods : nat -> tmod) (sorted : list nat) (conns : nat -> list conn) (inm outm : list nat).

Definition path := list nat.
Definition peqb (p q : path) : bool := if list_eq_dec Nat.eq_dec p q then true else false.
Definition tbufs := path -> @mbuf K.
Definition tderivs := path -> nat -> vec.
Definition tset (B : tbufs) (p : path) (x : mbuf) : tbufs := fun q => if peqb q p then x else B q.

(** network.py:246-254: indim and outdim of a network are the sums over its modules *)
Fixpoint t_in (t : tmod) : nat :=
  match t with
  | TLayer l => l_in l
  | TNet mods _ _ inm _ => fold_right (fun m a => t_in (mods m) + a) 0 inm
  end.
Fixpoint t_out (t : tmod) : nat :=
  match t with
  | TLayer l => l_out l
  | TNet mods _ _ _ outm => fold_right (fun m a => t_out (mods m) + a) 0 outm
  end.

(** feedforward.py:23-27 and 41-45 *)
Fixpoint tload_in (dim : nat -> nat) (p : path) (ms : list nat) (index : nat) (x : vec) (B : tbufs) : tbufs :=
  match ms with
  | [] => B
  | m :: t => let y := B (m :: p) in
              tload_in dim p t (index + dim m) x (tset B (m :: p) (mkbuf (bslice x index) (b_out y) (b_ine y) (b_oute y)))
  end.
Fixpoint tload_err (dim : nat -> nat) (p : path) (ms : list nat) (index : nat) (e : vec) (B : tbufs) : tbufs :=
  match ms with
  | [] => B
  | m :: t => let y := B (m :: p) in
              tload_err dim p t (index + dim m) e (tset B (m :: p) (mkbuf (b_in y) (b_out y) (b_ine y) (bslice e index)))
  end.

(** connection.py:68-93 for a connection of the network at p *)
Definition tconn_forward (P : path -> nat -> vec) (p : path) (c : conn) (B : tbufs) : tbufs :=
  let y := op_fwd (c_kind c) (c_indim c) (c_outdim c) (P p (c_par c)) (bslice (b_out (B (c_in c :: p))) (c_inFrom c)) in
  let x := B (c_out c :: p) in
  tset B (c_out c :: p) (mkbuf (badd (b_in x) (c_outFrom c) (c_outTo c) y) (b_out x) (b_ine x) (b_oute x)).
Definition tdadd (D : tderivs) (p : path) (k : nat) (v : vec) : tderivs :=
  fun q k' => if peqb q p then (if k' =? k then fun i => radd (D q k' i) (v i) else D q k') else D q k'.
Definition tconn_backward (P : path -> nat -> vec) (p : path) (c : conn) (s : tbufs * tderivs) : tbufs * tderivs :=
  let '(B, D) := s in
  let e := bslice (b_ine (B (c_out c :: p))) (c_outFrom c) in
  let y := op_bwd (c_kind c) (c_indim c) (c_outdim c) (P p (c_par c)) e in
  let x := B (c_in c :: p) in
  let g := op_der (c_kind c) (c_indim c) (c_outdim c) e (bslice (b_out x) (c_inFrom c)) in
  (tset B (c_in c :: p) (mkbuf (b_in x) (b_out x) (b_ine x) (badd (b_oute x) (c_inFrom c) (c_inTo c) y)),
   tdadd D p (c_par c) g).

(** module.py:72-75 (forward), feedforward.py:21-37 (_forwardImplementation of a network) *)
Fixpoint t_forward (P : path -> nat -> vec) (t : tmod) (p : path) (B : tbufs) : tbufs :=
  match t with
  | TLayer l => let x := B p in tset B p (mkbuf (b_in x) (l_fwd l (b_in x) (b_out x)) (b_ine x) (b_oute x))
  | TNet mods sorted conns inm outm =>
      let B1 := tload_in (fun m => t_in (mods m)) p inm 0 (b_in (B p)) B in
      let B2 := fold_left (fun B m => fold_left (fun B c => tconn_forward P p c B) (conns m) (t_forward P (mods m) (m :: p) B)) sorted B1 in
      let x := B2 p in
      tset B2 p (mkbuf (b_in x) (gather (fun m => t_out (mods m)) (fun m => b_out (B2 (m :: p))) outm) (b_ine x) (b_oute x))
  end.

(** module.py:77-82 (backward), feedforward.py:39-55 *)
Fixpoint t_backward (P : path -> nat -> vec) (t : tmod) (p : path) (s : tbufs * tderivs) : tbufs * tderivs :=
  match t with
  | TLayer l => let x := fst s p in
                (tset (fst s) p (mkbuf (b_in x) (b_out x) (l_bwd l (b_oute x) (b_ine x) (b_out x) (b_in x)) (b_oute x)), snd s)
  | TNet mods sorted conns inm outm =>
      let B1 := tload_err (fun m => t_out (mods m)) p outm 0 (b_oute (fst s p)) (fst s) in
      let s2 := fold_left (fun s m => t_backward P (mods m) (m :: p) (fold_left (fun s c => tconn_backward P p c s) (conns m) s)) (rev sorted) (B1, snd s) in
      let x := fst s2 p in
      (tset (fst s2) p (mkbuf (b_in x) (b_out x) (gather (fun m => t_in (mods m)) (fun m => b_ine (fst s2 (m :: p))) inm) (b_oute x)), snd s2)
  end.

(** network.py:146-150: reset recurses, so every buffer at every depth is zero *)
Definition treset : tbufs := fun _ => zbuf.
(** feedforward.py:16-19, module.py:119-124 on the outermost network *)
Definition t_activate (P : path -> nat -> vec) (t : tmod) (x : vec) : tbufs * vec :=
  let B := t_forward P t [] (tset treset [] (mkbuf x zvec zvec zvec)) in
  (B, b_out (B [])).
(** module.py:126-131 *)
Definition t_backActivate (P : path -> nat -> vec) (t : tmod) (s : tbufs * tderivs) (e : vec) : (tbufs * tderivs) * vec :=
  let x := fst s [] in
  let s' := t_backward P t [] (tset (fst s) [] (mkbuf (b_in x) (b_out x) (b_ine x) e), snd s) in
  (s', b_ine (fst s' [])).
End Nested.
