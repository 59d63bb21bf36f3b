(** structure/modules/lstm.py: the LSTM layer with and without peepholes, run over a
    sequence the way a recurrent network runs its modules.
    Rows of buffers are functions of the offset, vectors are functions of the index.
    The statements of one call that write different parts of row [offset] are gathered
    into one row update: inside a call, only rows offset-1 and offset+1 are read besides
    the values just written.  Buffers are as long as needed: RecurrentNetwork._forward
    grows all of them until offset+1 is a valid row (networks/recurrent.py:63-69).
    The transfer functions f, g, h and their primes are parameters. *)
From Coq Require Import Ring.
From Verif Require Import Base RingOps Net_Model.

(** assignment to one row of a buffer *)
Definition fupd {A} (b : nat -> A) (o : nat) (a : A) : nat -> A := fun o' => if o' =? o then a else b o'.

Section Lstm.
Context {K : Type} {Ops : RingOps K}.
Notation vec := (@vec K).
Local Open Scope r_scope.
Context (f fprime g gprime h hprime : K -> K).

(** row [offset] of the buffers written by the forward pass (lstm.py:42-50) *)
Record frow := { ingate : vec; outgate : vec; forgetgate : vec; ingatex : vec; outgatex : vec; forgetgatex : vec; state : vec }.
(** row [offset] of the buffers written by the backward pass (lstm.py:51-54) *)
Record erow := { ingateError : vec; outgateError : vec; forgetgateError : vec; stateError : vec }.
Record lstm := { frows : nat -> frow; erows : nat -> erow; lderivs : vec; maxoffset : nat }.

Definition zrow : frow := Build_frow zvec zvec zvec zvec zvec zvec zvec.
Definition zerow : erow := Build_erow zvec zvec zvec zvec.

(** Module.reset, module.py:84-89: all buffers are zeroed; maxoffset is not touched, and
    neither are the derivatives *)
Definition lstm_reset (st : lstm) : lstm := Build_lstm (fun _ => zrow) (fun _ => zerow) (lderivs st) (maxoffset st).

(** lstm.py:78-80 *)
Definition isLastTimestep (st : lstm) (offset : nat) : bool := maxoffset st =? offset.

Context (dim : nat) (peepholes : bool).

(** lstm.py:82-112; p are the 3*dim peephole parameters (63-68) *)
Definition lstm_forward (p : vec) (offset : nat) (inbuf : vec) (st : lstm) : lstm * vec :=
  let mo := max (offset + 1)%nat (maxoffset st) in
  let cellx := fun i => inbuf (dim * 2 + i)%nat in
  let prev := state (frows st (offset - 1)%nat) in
  let peep := peepholes && (0 <? offset)%nat in
  let igx := fun i => if peep then inbuf i + p i * prev i else inbuf i in
  let fgx := fun i => if peep then inbuf (dim + i)%nat + p (dim + i)%nat * prev i else inbuf (dim + i)%nat in
  let ig := fun i => f (igx i) in
  let fg := fun i => f (fgx i) in
  let s := fun i => if (0 <? offset)%nat then ig i * g (cellx i) + fg i * prev i else ig i * g (cellx i) in
  let ogx := fun i => if peepholes then inbuf (dim * 3 + i)%nat + p (dim * 2 + i)%nat * s i else inbuf (dim * 3 + i)%nat in
  let og := fun i => f (ogx i) in
  (Build_lstm (fupd (frows st) offset (Build_frow ig og fg igx ogx fgx s)) (erows st) (lderivs st) mo,
   fun i => og i * h (s i)).

(** lstm.py:114-143: the new layer state and the row of input errors *)
Definition lstm_backward (p : vec) (offset : nat) (outerr inbuf : vec) (st : lstm) : lstm * vec :=
  let row := frows st offset in
  let prev := state (frows st (offset - 1)%nat) in
  let next := erows st (offset + 1)%nat in
  let cellx := fun i => inbuf (dim * 2 + i)%nat in
  let oge := fun i => fprime (outgatex row i) * outerr i * h (state row i) in
  let se0 := fun i => outerr i * outgate row i * hprime (state row i) in
  let se1 := fun i =>
    if isLastTimestep st offset then se0 i
    else let a := se0 i + stateError next i * forgetgate (frows st (offset + 1)%nat) i in
         if peepholes then a + ingateError next i * p i + forgetgateError next i * p (dim + i)%nat else a in
  let se := fun i => if peepholes then se1 i + oge i * p (dim * 2 + i)%nat else se1 i in
  let cellError := fun i => ingate row i * gprime (cellx i) * se i in
  let fge := fun i => if (0 <? offset)%nat then fprime (forgetgatex row i) * se i * prev i
                      else forgetgateError (erows st offset) i in
  let ige := fun i => fprime (ingatex row i) * se i * g (cellx i) in
  let d := fun q =>
    if negb peepholes then lderivs st q
    else if (q <? dim)%nat then (if (0 <? offset)%nat then lderivs st q + ige q * prev q else lderivs st q)
    else if (q <? dim * 2)%nat then
      (if (0 <? offset)%nat then lderivs st q + fge (q - dim)%nat * prev (q - dim)%nat else lderivs st q)
    else if (q <? dim * 3)%nat then lderivs st q + oge (q - dim * 2)%nat * state row (q - dim * 2)%nat
    else lderivs st q in
  (Build_lstm (frows st) (fupd (erows st) offset (Build_erow ige oge fge se)) d (maxoffset st),
   fun j => if (j <? dim)%nat then ige j else if (j <? dim * 2)%nat then fge (j - dim)%nat
            else if (j <? dim * 3)%nat then cellError (j - dim * 2)%nat else oge (j - dim * 3)%nat).

(** the calls of RecurrentNetwork: forward at offsets 0, 1, .., T-1 (recurrent.py:63-109)
    with the rows X of the layer's input buffer; the outputs are the rows of its output
    buffer *)
Fixpoint lstm_forwards (p : vec) (X : nat -> vec) (T : nat) (st : lstm) : lstm * (nat -> vec) :=
  match T with
  | O => (st, fun _ => zvec)
  | S t => let '(st1, Y) := lstm_forwards p X t st in
           let '(st2, y) := lstm_forward p t (X t) st1 in (st2, fupd Y t y)
  end.
(** .. and backward at offsets T-1, .., 1, 0 (recurrent.py:71-133) with the rows E of the
    output error *)
Fixpoint lstm_backwards (p : vec) (X E : nat -> vec) (T : nat) (st : lstm) : lstm * (nat -> vec) :=
  match T with
  | O => (st, fun _ => zvec)
  | S t => let '(st1, e) := lstm_backward p t (E t) (X t) st in
           let '(st2, J) := lstm_backwards p X E t st1 in (st2, fupd J t e)
  end.
End Lstm.
