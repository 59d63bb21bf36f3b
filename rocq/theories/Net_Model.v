(** Model of the forward and backward passes: structure/modules/module.py, the neuron
    layers, structure/connections/*.py, networks/feedforward.py, networks/recurrent.py.

    Numbers are an abstract commutative ring.  An array of length n is a function on
    indices that is only looked at below n; slices outside an array (which numpy would
    cut) are excluded by the well-formedness hypothesis of the theorems.  Module buffers
    are indexed by module and time offset, as in the code.  The network's own buffers,
    which are overwritten completely by every call, are the arguments and results.
    Modules with a memory of their own are in Lstm_Model and Mdlstm_Model, networks nested
    as modules in Nested_Model; state dependent exploration is not modelled. *)
From Verif Require Import Base RingOps.

Section Net.
Context {K : Type} {Ops : RingOps K}.
Local Open Scope r_scope.
Local Open Scope nat_scope.

Definition vec := nat -> K.
Definition zvec : vec := fun _ => r0.

(** A module: [l_fwd inbuf outbuf] is outbuf after _forwardImplementation,
    [l_bwd outerr inerr outbuf inbuf] is inerr after _backwardImplementation. *)
Record layer := mklayer {
  l_in : nat; l_out : nat;
  l_fwd : vec -> vec -> vec;
  l_bwd : vec -> vec -> vec -> vec -> vec }.

(** modules/linearlayer.py:6-13 *)
Definition linear_layer (n : nat) : layer :=
  mklayer n n (fun i _ => i) (fun e _ _ _ => e).
(** modules/biasunit.py:7-16 (its backward is Module's, which does nothing) *)
Definition bias_unit : layer := mklayer 0 1 (fun _ _ _ => r1) (fun _ ine _ _ => ine).
(** modules/sigmoidlayer.py:7-14, tanhlayer.py:8-15: an elementwise function whose
    derivative is computed from the output *)
Definition elem_layer (n : nat) (f : K -> K) (h : K -> K) : layer :=
  mklayer n n (fun i _ k => f (i k)) (fun e _ o _ k => rmul (h (o k)) (e k)).
(** modules/gate.py:12-24 *)
Definition multiplication_layer (n : nat) : layer :=
  mklayer (2 * n) n
    (fun i o k => radd (o k) (rmul (i k) (i (n + k))))
    (fun e ine _ i k => radd (ine k) (if k <? n then rmul (i (n + k)) (e k) else rmul (i (k - n)) (e (k - n)))).
(** modules/gate.py:27-50, with the squashing function and its derivative as arguments *)
Definition gate_layer (n : nat) (sg sg' : K -> K) : layer :=
  mklayer (2 * n) n
    (fun i o k => radd (o k) (rmul (sg (i k)) (i (n + k))))
    (fun e ine _ i k => radd (ine k) (if k <? n then rmul (rmul (sg' (i k)) (i (n + k))) (e k)
                                      else rmul (sg (i (k - n))) (e (k - n)))).
(** modules/gate.py:53-84 *)
Definition double_gate_layer (n : nat) (sg sg' : K -> K) : layer :=
  mklayer (2 * n) (2 * n)
    (fun i o k => radd (o k) (if k <? n then rmul (sg (i k)) (i (n + k))
                              else rmul (rsub r1 (sg (i (k - n)))) (i k)))
    (fun e ine _ i k =>
       if k <? n then rsub (radd (ine k) (rmul (rmul (sg' (i k)) (i (n + k))) (e k)))
                           (rmul (rmul (sg' (i k)) (i (n + k))) (e (n + k)))
       else radd (radd (ine k) (rmul (sg (i (k - n))) (e (k - n)))) (rmul (rsub r1 (sg (i (k - n)))) (e k))).
(** modules/gate.py:87-103 *)
Definition switch_layer (n : nat) (sg sg' : K -> K) : layer :=
  mklayer n (2 * n)
    (fun i o k => radd (o k) (if k <? n then sg (i k) else rsub r1 (sg (i (k - n)))))
    (fun e ine _ i k => rsub (radd (ine k) (rmul (sg' (i k)) (e k))) (rmul (sg' (i k)) (e (n + k)))).

(** ** Connections *)
Inductive ckind :=
| CFull                                  (* connections/full.py:10-27; also SharedFullConnection, shared.py:64-71 *)
| CIdentity                              (* connections/identity.py:6-20 *)
| CLinear                                (* connections/linear.py:8-29 *)
| CFullNotSelf                           (* connections/fullnotself.py:7-31 *)
| CPerm (perm : list nat) (bs : nat)     (* connections/permutation.py:13-42 *).

(** A shared connection has the parameter container of its mother, so several
    connections may have the same [c_par]. *)
Record conn := mkconn {
  c_in : nat; c_out : nat;
  c_inFrom : nat; c_inTo : nat; c_outFrom : nat; c_outTo : nat;
  c_kind : ckind; c_par : nat }.
Definition c_indim (c : conn) := c_inTo c - c_inFrom c.   (* connection.py:55-56 *)
Definition c_outdim (c : conn) := c_outTo c - c_outFrom c.

Definition delta (i j : nat) : K := if i =? j then r1 else r0.

(** what _forwardImplementation adds to outbuf *)
Definition op_fwd (k : ckind) (indim outdim : nat) (p x : vec) : vec :=
  match k with
  | CFull => fun i => sumn indim (fun j => rmul (p (i * indim + j)) (x j))
  | CIdentity => x
  | CLinear => fun i => rmul (x i) (p i)
  | CFullNotSelf => fun i => sumn indim (fun j => rmul (rmul (p (i * indim + j)) (rsub r1 (delta i j))) (x j))
  | CPerm perm bs => fun i => x (nth (i / bs) perm 0 * bs + i mod bs)
  end.
(** what _backwardImplementation adds to inerr; utilities.permute(range(n), perm) is
    perm itself, so PermutationConnection uses the same permutation in both directions *)
Definition op_bwd (k : ckind) (indim outdim : nat) (p e : vec) : vec :=
  match k with
  | CFull => fun j => sumn outdim (fun i => rmul (p (i * indim + j)) (e i))
  | CIdentity => e
  | CLinear => fun i => rmul (e i) (p i)
  | CFullNotSelf => fun j => sumn outdim (fun i => rmul (rmul (p (i * indim + j)) (rsub r1 (delta i j))) (e i))
  | CPerm perm bs => fun i => e (nth (i / bs) perm 0 * bs + i mod bs)
  end.
(** what _backwardImplementation adds to derivs: outer(inbuf, outerr).T.flatten() *)
Definition op_der (k : ckind) (indim outdim : nat) (e x : vec) : vec :=
  match k with
  | CFull | CFullNotSelf => fun q => rmul (x (q mod indim)) (e (q / indim))
  | CIdentity | CLinear | CPerm _ _ => zvec
  end.

(** ** Buffers *)
Record mbuf := mkbuf { b_in : vec; b_out : vec; b_ine : vec; b_oute : vec }.
Definition zbuf : mbuf := mkbuf zvec zvec zvec zvec.
Definition bufs := nat -> nat -> mbuf.
Definition bset (b : bufs) (m o : nat) (x : mbuf) : bufs :=
  fun m' o' => if (m' =? m) && (o' =? o) then x else b m' o'.

(** buf[from:to] += v (nothing is added elsewhere) *)
Definition badd (buf : vec) (from to : nat) (v : vec) : vec :=
  fun i => radd (buf i) (if (from <=? i) && (i <? to) then v (i - from) else r0).
Definition bslice (buf : vec) (from : nat) : vec := fun i => buf (from + i).

(** module.py:62-72 *)
Definition mod_forward (L : nat -> layer) (m o : nat) (b : bufs) : bufs :=
  let x := b m o in
  bset b m o (mkbuf (b_in x) (l_fwd (L m) (b_in x) (b_out x)) (b_ine x) (b_oute x)).
Definition mod_backward (L : nat -> layer) (m o : nat) (b : bufs) : bufs :=
  let x := b m o in
  bset b m o (mkbuf (b_in x) (b_out x) (l_bwd (L m) (b_oute x) (b_ine x) (b_out x) (b_in x)) (b_oute x)).

(** connection.py:70-80 *)
Definition conn_forward (P : nat -> vec) (c : conn) (io oo : nat) (b : bufs) : bufs :=
  let y := op_fwd (c_kind c) (c_indim c) (c_outdim c) (P (c_par c)) (bslice (b_out (b (c_in c) io)) (c_inFrom c)) in
  let x := b (c_out c) oo in
  bset b (c_out c) oo (mkbuf (badd (b_in x) (c_outFrom c) (c_outTo c) y) (b_out x) (b_ine x) (b_oute x)).

Definition derivs := nat -> vec.
Definition dadd (d : derivs) (k : nat) (v : vec) : derivs :=
  fun k' => if k' =? k then (fun i => radd (d k' i) (v i)) else d k'.
(** connection.py:83-97 *)
Definition conn_backward (P : nat -> vec) (c : conn) (io oo : nat) (s : bufs * derivs) : bufs * derivs :=
  let '(b, d) := s in
  let e := bslice (b_ine (b (c_out c) oo)) (c_outFrom c) in
  let y := op_bwd (c_kind c) (c_indim c) (c_outdim c) (P (c_par c)) e in
  let x := b (c_in c) io in
  let g := op_der (c_kind c) (c_indim c) (c_outdim c) e (bslice (b_out x) (c_inFrom c)) in
  (bset b (c_in c) io (mkbuf (b_in x) (b_out x) (b_ine x) (badd (b_oute x) (c_inFrom c) (c_inTo c) y)),
   dadd d (c_par c) g).

(** ** Networks *)
Record net := mknet {
  n_layer : nat -> layer;
  n_sorted : list nat;               (* modulesSorted *)
  n_conns : nat -> list conn;        (* connections[m] *)
  n_rec : list conn;                 (* recurrentConns; empty for feed-forward networks *)
  n_inmods : list nat; n_outmods : list nat }.

(** the loops over inmodules / outmodules with their running index *)
Fixpoint load_in (L : nat -> layer) (o : nat) (ms : list nat) (index : nat) (x : vec) (b : bufs) : bufs :=
  match ms with
  | [] => b
  | m :: t =>
      let y := b m o in
      load_in L o t (index + l_in (L m)) x (bset b m o (mkbuf (bslice x index) (b_out y) (b_ine y) (b_oute y)))
  end.
Fixpoint load_err (L : nat -> layer) (o : nat) (ms : list nat) (index : nat) (e : vec) (b : bufs) : bufs :=
  match ms with
  | [] => b
  | m :: t =>
      let y := b m o in
      load_err L o t (index + l_out (L m)) e (bset b m o (mkbuf (b_in y) (b_out y) (b_ine y) (bslice e index)))
  end.
Fixpoint gather (dim : nat -> nat) (get : nat -> vec) (ms : list nat) : vec :=
  match ms with
  | [] => zvec
  | m :: t => fun i => if i <? dim m then get m i else gather dim get t (i - dim m)
  end.

(** feedforward.py:30-33 and recurrent.py:107-110 *)
Definition forward_modules (N : net) (P : nat -> vec) (o : nat) (b : bufs) : bufs :=
  fold_left (fun b m => fold_left (fun b c => conn_forward P c o o b) (n_conns N m) (mod_forward (n_layer N) m o b))
            (n_sorted N) b.
(** feedforward.py:48-51 and recurrent.py:137-141 *)
Definition backward_modules (N : net) (P : nat -> vec) (o : nat) (s : bufs * derivs) : bufs * derivs :=
  fold_left (fun s m =>
      let s' := fold_left (fun s c => conn_backward P c o o s) (n_conns N m) s in
      (mod_backward (n_layer N) m o (fst s'), snd s'))
    (rev (n_sorted N)) s.

Definition outputs (N : net) (o : nat) (b : bufs) : vec :=
  gather (fun m => l_out (n_layer N m)) (fun m => b_out (b m o)) (n_outmods N).
Definition inputerrors (N : net) (o : nat) (b : bufs) : vec :=
  gather (fun m => l_in (n_layer N m)) (fun m => b_ine (b m o)) (n_inmods N).

(** network.py:136-140: reset zeroes every buffer of every module *)
Definition reset_bufs : bufs := fun _ _ => zbuf.

(** feedforward.py:18-39 *)
Definition ff_forward (N : net) (P : nat -> vec) (b : bufs) (x : vec) : bufs :=
  forward_modules N P 0 (load_in (n_layer N) 0 (n_inmods N) 0 x b).
Definition ff_activate (N : net) (P : nat -> vec) (s : bufs * derivs) (x : vec) : (bufs * derivs) * vec :=
  let b := ff_forward N P reset_bufs x in
  ((b, snd s), outputs N 0 b).
(** module.py:128-133, feedforward.py:41-57 *)
Definition ff_backActivate (N : net) (P : nat -> vec) (s : bufs * derivs) (e : vec) : (bufs * derivs) * vec :=
  let s' := backward_modules N P 0 (load_err (n_layer N) 0 (n_outmods N) 0 e (fst s), snd s) in
  (s', inputerrors N 0 (fst s')).

(** ** Recurrent networks *)
Record rstate := mkr { r_b : bufs; r_d : derivs; r_offset : nat; r_maxoffset : nat; r_len : nat }.

(** module.py:50-60: the first rows are kept, the new ones are zero *)
Definition grow (len : nat) (b : bufs) : bufs := fun m o => if o <? len then b m o else zbuf.

(** recurrent.py:52-80, 89-127 with forget=False *)
Definition rec_activate (N : net) (P : nat -> vec) (s : rstate) (x : vec) : rstate * vec :=
  let '(b0, len) := if r_offset s + 1 <? r_len s then (r_b s, r_len s)
                    else (grow (r_len s) (r_b s), 2 * r_len s) in
  let o := r_offset s in
  let b1 := load_in (n_layer N) o (n_inmods N) 0 x b0 in
  let b2 := if 0 <? o then fold_left (fun b c => conn_forward P c (o - 1) o b) (n_rec N) b1 else b1 in
  let b3 := forward_modules N P o b2 in
  (mkr b3 (r_d s) (o + 1) (Nat.max (o + 1) (r_maxoffset s)) len, outputs N o b3).

(** recurrent.py:62-67, 82-87, 129-146; a call without a pending time step (offset 0)
    would address the last row of the buffers and is not modelled *)
Definition rec_backActivate (N : net) (P : nat -> vec) (s : rstate) (e : vec) : rstate * vec :=
  let o := r_offset s - 1 in
  let b1 := load_err (n_layer N) o (n_outmods N) 0 e (r_b s) in
  let s1 := if o =? r_maxoffset s then (b1, r_d s)
            else fold_left (fun s c => conn_backward P c o (o + 1) s) (n_rec N) (b1, r_d s) in
  let s2 := backward_modules N P o s1 in
  (mkr (fst s2) (snd s2) o (r_maxoffset s) (r_len s), inputerrors N o (fst s2)).

(** network.py:136-140, module.py:74-79: lengths and maxoffset stay *)
Definition rec_reset (s : rstate) : rstate := mkr reset_bufs (r_d s) 0 (r_maxoffset s) (r_len s).

(** module.py:81-96 for items = -1 *)
Definition shift1 (len : nat) (b : bufs) : bufs :=
  fun m o => if o + 1 <? len then b m (o + 1) else if o <? len then zbuf else b m o.
(** recurrent.py:52-60, 69-75, 89-127 with forget=True *)
Definition rec_activate_forget (N : net) (P : nat -> vec) (s : rstate) (x : vec) : rstate * vec :=
  let '(b0, len) := if r_offset s + 1 <? r_len s then (r_b s, r_len s)
                    else (grow (r_len s) (r_b s), 2 * r_len s) in
  let o := r_offset s + 1 in
  let b1 := load_in (n_layer N) o (n_inmods N) 0 x b0 in
  let b2 := if 0 <? o then fold_left (fun b c => conn_forward P c (o - 1) o b) (n_rec N) b1 else b1 in
  let b3 := forward_modules N P o b2 in
  let b4 := shift1 len b3 in
  let o' := r_offset s + 1 - 1 in
  (mkr b4 (r_d s) (r_offset s) (Nat.max (r_offset s) (r_maxoffset s)) len, outputs N o' b4).

Fixpoint run_acts (act : rstate -> vec -> rstate * vec) (s : rstate) (xs : list vec) : rstate * list vec :=
  match xs with
  | [] => (s, [])
  | x :: t => let '(s1, y) := act s x in let '(s2, ys) := run_acts act s1 t in (s2, y :: ys)
  end.
End Net.
