(** Model of the Evolino network (structure/modules/evolinonetwork.py) and of the genome filters (supervised/evolino/gfilter.py,
    variate.py).

    The recurrent network inside is a machine with a hidden state: from a state and an input it makes the next state, the
    output and the raw output of the hidden layer; the output layer's buffer is not read by the network itself (it has no
    outgoing connections).  Numbers are reals.  A washout value of the wrong size after the first makes numpy raise; this
    is not modelled (the theorems take values of one size).  The connections into the LSTM layer are a list; in Python its order is that of
    [recurrentConns] and of a dictionary's values. *)
From Verif Require Import Base.
From Coq Require Import Reals.
Local Open Scope nat_scope.

Definition vec : Type := list R.
Definition vscale (f : R) (v : vec) : vec := map (fun x => (x * f)%R) v.
Definition zerov (n : nat) : vec := repeat 0%R n.
Definition upd {A} (l : list A) (i : nat) (x : A) : list A :=
  if i <? length l then firstn i l ++ [x] ++ skipn (S i) l else l.

(** ** Genomes: evolinonetwork.py:124-180 *)
(** a FullConnection into the layer: its indim and its params (as many as indim times four times the layer's outdim) *)
Record conn := { c_indim : nat; c_params : list R }.
(** 155, 179 *)
Definition pidx (n : nat) (c : conn) (cell t i : nat) : nat := i + cell * c_indim c + t * n * c_indim c.
(** 147-158: the weights of one cell *)
Definition get_cell (n : nat) (cs : list conn) (cell : nat) : list R :=
  flat_map (fun t => flat_map (fun c => map (fun i => nth (pidx n c cell t i) (c_params c) 0%R) (seq 0 (c_indim c))) cs) (seq 0 4).
(** 138-160 *)
Definition getGenome (n : nat) (cs : list conn) : list (list R) := map (get_cell n cs) (seq 0 n).
(** 178-180: for i in range(c.indim): c.params[idx] = cell_weights.pop(0) *)
Fixpoint set_conn (n cell t : nat) (is : list nat) (c : conn) (ws : list R) : result (conn * list R) :=
  match is with
  | [] => Ok (c, ws)
  | i :: rest =>
      match ws with
      | [] => Err IndexError
      | w :: ws' =>
          if pidx n c cell t i <? length (c_params c)
          then set_conn n cell t rest {| c_indim := c_indim c; c_params := upd (c_params c) (pidx n c cell t i) w |} ws'
          else Err IndexError
      end
  end.
(** 176-180: for c in connections *)
Fixpoint set_conns (n cell t : nat) (cs : list conn) (ws : list R) : result (list conn * list R) :=
  match cs with
  | [] => Ok ([], ws)
  | c :: rest =>
      let! x := set_conn n cell t (seq 0 (c_indim c)) c ws in
      let! y := set_conns n cell t rest (snd x) in
      Ok (fst x :: fst y, snd y)
  end.
(** 174-180: for t in range(4) *)
Fixpoint set_types (n cell : nat) (ts : list nat) (cs : list conn) (ws : list R) : result (list conn * list R) :=
  match ts with
  | [] => Ok (cs, ws)
  | t :: rest => let! x := set_conns n cell t cs ws in set_types n cell rest (fst x) (snd x)
  end.
(** 168-180: for cell_idx in range(layer.outdim) *)
Fixpoint set_cells (n : nat) (cells : list nat) (weights : list (list R)) (cs : list conn) : result (list conn) :=
  match cells with
  | [] => Ok cs
  | cell :: rest =>
      match nth_error weights cell with
      | None => Err IndexError
      | Some ws => let! x := set_types n cell (seq 0 4) cs ws in set_cells n rest weights (fst x)
      end
  end.
(** 133-136, 162-180; the argument itself is not changed (deepcopy) *)
Definition setGenome (n : nat) (cs : list conn) (weights : list (list R)) : result (list conn) := set_cells n (seq 0 n) weights cs.

(** ** The output weights: 186-195 *)
(** W.flatten() for the rows of W; c.params[:] = ... *)
Definition setOutputWeightMatrix (params : list R) (W : list vec) : result (list R) :=
  let p := concat W in if length p =? length params then Ok p else Err ValueError.
(** reshape(p, (outdim, indim)) *)
Fixpoint reshape (outdim indim : nat) (p : list R) : list vec :=
  match outdim with 0 => [] | S k => firstn indim p :: reshape k indim (skipn indim p) end.
Definition getOutputWeightMatrix (outdim indim : nat) (p : list R) : list vec := reshape outdim indim p.

(** ** Running the network: 51-118, 197-201 *)
Section Run.
  Context {S : Type} (start : S) (step : S -> vec -> S * (vec * vec)).
  (** the hidden state and the buffers of the output and hidden layers by time step; [e_noff] is the network's own offset,
      [e_off] the copy kept by the EvolinoNetwork *)
  Record evo := { e_state : S; e_out : list vec; e_raw : list vec; e_noff : nat; e_off : nat }.
  Context (outdim hiddim : nat) (factor : R).
  (** 51-53, recurrent.py:34-38: the buffers are zeroed and keep their length; self.offset is not touched *)
  Definition ereset (e : evo) : evo :=
    {| e_state := start; e_out := map (fun _ => zerov outdim) (e_out e); e_raw := map (fun _ => zerov hiddim) (e_raw e); e_noff := 0; e_off := e_off e |}.
  (** writing the entry at a time step; buffers grow when they are full (with zeros) *)
  Definition put (z : vec) (l : list vec) (i : nat) (v : vec) : list vec :=
    upd (if i <? length l then l else l ++ repeat z (i + 1 - length l)) i v.
  (** 74-79 *)
  Definition activateNetwork (e : evo) (x : vec) : result (vec * evo) :=
    if length x =? outdim then
      let '(s, (out, raw)) := step (e_state e) x in
      Ok (out, {| e_state := s; e_out := put (zerov outdim) (e_out e) (e_noff e) out; e_raw := put (zerov hiddim) (e_raw e) (e_noff e) raw; e_noff := e_noff e + 1; e_off := e_noff e + 1 |})
    else Err AssertionError.
  (** 109-114 and the in-place "backprojection *= factor" (66-67, 103-104): the value, and the buffer it is a view of *)
  Definition backproject (e : evo) : result (vec * evo) :=
    if e_off e =? 0 then Ok (vscale factor (zerov outdim), e)
    else match nth_error (e_out e) (e_off e - 1) with
         | None => Err IndexError
         | Some v => let w := vscale factor v in
                     Ok (w, {| e_state := e_state e; e_out := upd (e_out e) (e_off e - 1) w; e_raw := e_raw e; e_noff := e_noff e; e_off := e_off e |})
         end.
  (** 116-118 *)
  Definition setLastOutput (e : evo) (v : vec) : evo :=
    {| e_state := e_state e; e_out := upd (e_out e) (e_off e - 1) v; e_raw := e_raw e; e_noff := e_noff e; e_off := e_off e |}.
  (** 197-201 *)
  Definition getRawOutput (e : evo) : result vec := match nth_error (e_raw e) (e_off e - 1) with Some v => Ok v | None => Err IndexError end.
  (** 63-72 *)
  Fixpoint washout_loop (e : evo) (seq : list vec) : result (list vec * evo) :=
    match seq with
    | [] => Ok ([], e)
    | v :: rest =>
        let! b := backproject e in
        let! a := activateNetwork (snd b) (fst b) in
        let! r := getRawOutput (snd a) in
        let! y := washout_loop (setLastOutput (snd a) v) rest in
        Ok (r :: fst y, snd y)
    end.
  (** 55-72 *)
  Definition washout (e : evo) (seq : list vec) : result (list vec * evo) :=
    match seq with
    | [] => Err AssertionError
    | v :: _ => if length v =? outdim then washout_loop e seq else Err AssertionError
    end.
  (** 96-107 *)
  Fixpoint generate (e : evo) (n : nat) : result (list vec * evo) :=
    match n with
    | 0 => Ok ([], e)
    | Datatypes.S k =>
        let! b := backproject e in
        let! a := activateNetwork (snd b) (fst b) in
        let! y := generate (snd a) k in
        Ok (fst a :: fst y, snd y)
    end.
  (** 85-94 *)
  Definition extrapolate (e : evo) (seq : list vec) (n : nat) : result (list vec * evo) :=
    let! w := washout (ereset e) seq in generate (snd w) n.
  (** 15-49: a new network; the buffers have one time step *)
  Definition new_evo : evo := {| e_state := start; e_out := [zerov outdim]; e_raw := [zerov hiddim]; e_noff := 0; e_off := 0 |}.
End Run.
Arguments evo S : clear implicits.

(** ** gfilter.py *)
(** an arbitrarily nested genome; a leaf is a float *)
Inductive genome := Leaf (x : R) | Node (l : list genome).
(** 44-48; [man k x] is the new value of the k-th float found *)
Fixpoint manipulate (man : nat -> R -> R) (k : nat) (g : genome) : genome * nat :=
  match g with
  | Leaf x => (Leaf (man k x), k + 1)
  | Node l =>
      let fix go k l :=
        match l with
        | [] => ([], k)
        | g :: rest => let (g', k1) := manipulate man k g in let (r', k2) := go k1 rest in (g' :: r', k2)
        end in
      let (l', k') := go k l in (Node l', k')
  end.
(** 32-48 *)
Definition manipulateGenome (man : nat -> R -> R) (k : nat) (g : genome) : result (genome * nat) :=
  match g with Leaf _ => Err AssertionError | Node _ => Ok (manipulate man k g) end.
(** the filters go on with the draws from one individual to the next: 73-79, 114-117 *)
Fixpoint apply_filter (man : nat -> R -> R) (k : nat) (pop : list genome) : result (list genome * nat) :=
  match pop with
  | [] => Ok ([], k)
  | g :: rest =>
      let! x := manipulateGenome man k g in
      let! y := apply_filter man (snd x) rest in
      Ok (fst x :: fst y, snd y)
  end.
(** 89-97 with variate.py:43-46: gauss(x0, alpha) is x0 + alpha * z for a standard normal z *)
Definition mutate_value (alpha : R) (z : nat -> R) (k : nat) (x : R) : R := (x + alpha * z k)%R.
(** 119-121 with variate.py:14-19: uniform(a, b) is a + (b - a) * u for u in [0, 1) *)
Definition randomize_value (lo hi : R) (u : nat -> R) (k : nat) (x : R) : R := (lo + (hi - lo) * u k)%R.
