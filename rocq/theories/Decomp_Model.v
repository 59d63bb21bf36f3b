(** Model of NeuronDecomposableNetwork (structure/networks/neurondecomposable.py): which parameter belongs to
    which neuron, and access to the parameters neuron by neuron.

    The containers are what _containerIterator yields after sorting (see Params_Model), the modules are in the
    iteration order of the network's set of modules.  Not modelled: convertNormalNetwork, and that
    sortModules does nothing on a sorted network. *)
From Verif Require Import Base.

(** A layer: its number of neurons, the sizes of its buffers, its number of parameters, and how whichNeuron maps
    a position of the input buffer to a neuron: neuronlayer.py:17-23 returns it unchanged, lstm.py:145-149 modulo dim. *)
Inductive lkind := Plain | Lstm.
Record layer := { l_id : nat; l_dim : nat; l_in : nat; l_out : nat; l_par : nat; l_kind : lkind }.
Definition neuron : Type := nat * nat.
Definition neuron_eqb (a b : neuron) : bool := (fst a =? fst b) && (snd a =? snd b).
Definition whichNeuronIn (l : layer) (i : nat) : nat := match l_kind l with Plain => i | Lstm => i mod l_dim l end.
(** containers with parameters: a full connection with the sizes of its two slices, a layer, or anything else *)
Inductive container := Full (a b : layer) (indim outdim : nat) | Layer (l : layer) | Other (n : nat).
Definition csize (c : container) : nat := match c with Full _ _ i o => i * o | Layer l => l_par l | Other n => n end.

(** neurondecomposable.py:41-44 _neuronIterator *)
Definition neurons (mods : list layer) : list neuron := flat_map (fun m => map (fun n => (l_id m, n)) (seq 0 (l_dim m))) mods.
(** full.py:26-29 whichBuffers: note inmod.outdim, not the connection's indim *)
Definition whichBuffers (a : layer) (w : nat) : nat * nat := (w mod l_out a, w / l_out a).
(** neurondecomposable.py:46-67 _constructParameterInfo: in order of the index, the two neurons of each parameter.
    The bare raise of line 66 is a RuntimeError, modelled by TypeError. *)
Fixpoint paramInfo (cs : list container) : result (list (neuron * neuron)) :=
  match cs with
  | [] => Ok []
  | c :: t =>
      let! here := match c with
                   | Full a b i o => Ok (map (fun w => let '(ib, ob) := whichBuffers a w in ((l_id a, ib), (l_id b, whichNeuronIn b ob))) (seq 0 (i * o)))
                   | Layer l => Ok (map (fun n => ((l_id l, n), (l_id l, n))) (seq 0 (l_par l)))
                   | Other _ => Err TypeError
                   end in
      let! rest := paramInfo t in
      Ok (here ++ rest)
  end.
(** decompositionIndices, with its keys in the order of _neuronIterator *)
Definition indices : Type := list (neuron * list nat).
Fixpoint append_at (n : neuron) (w : nat) (d : indices) : result indices :=
  match d with
  | [] => Err KeyError
  | (k, l) :: t => if neuron_eqb n k then Ok ((k, l ++ [w]) :: t) else let! t' := append_at n w t in Ok ((k, l) :: t')
  end.
(** neurondecomposable.py:33-39 *)
Definition target (esp : bool) (outs : list nat) (i : neuron * neuron) : neuron :=
  if esp && existsb (Nat.eqb (fst (snd i))) outs then fst i else snd i.
Fixpoint fill (esp : bool) (outs : list nat) (w : nat) (info : list (neuron * neuron)) (d : indices) : result indices :=
  match info with
  | [] => Ok d
  | i :: t => let! d' := append_at (target esp outs i) w d in fill esp outs (w + 1) t d'
  end.
(** neurondecomposable.py:25-39 sortModules (the part after the base class' method) *)
Definition decompose (esp : bool) (outs : list nat) (mods : list layer) (cs : list container) : result indices :=
  let! info := paramInfo cs in
  fill esp outs 0 info (map (fun n => (n, [])) (neurons mods)).

Section Values.
  Context {V : Type}.
  Fixpoint read_all (p : list V) (idx : list nat) : result (list V) :=
    match idx with
    | [] => Ok []
    | i :: t => match nth_error p i with None => Err IndexError | Some x => let! r := read_all p t in Ok (x :: r) end
    end.
  (** neurondecomposable.py:69-79 getDecomposition *)
  Fixpoint getDecomposition (d : indices) (p : list V) : result (list (list V)) :=
    match d with
    | [] => Ok []
    | (_, []) :: t => getDecomposition t p
    | (_, idx) :: t => let! x := read_all p idx in let! r := getDecomposition t p in Ok (x :: r)
    end.
  Fixpoint write_all (p : list V) (idx : list nat) (vals : list V) : result (list V) :=
    match idx, vals with
    | [], _ => Ok p
    | i :: t, x :: v => if i <? length p then write_all (upd i x p) t v else Err IndexError
    | _ :: _, [] => Err IndexError
    end.
  (** neurondecomposable.py:81-91 setDecomposition *)
  Fixpoint setDecomposition (d : indices) (vals : list (list V)) (p : list V) : result (list V) :=
    match d with
    | [] => Ok p
    | (_, []) :: t => setDecomposition t vals p
    | (_, idx) :: t => match vals with [] => Err IndexError | v :: vs => let! p' := write_all p idx v in setDecomposition t vs p' end
    end.
End Values.
