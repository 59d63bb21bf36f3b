(** Model of MaskedParameters (structure/evolvables/maskedparameters.py) and of the copying of TopologyEvolvable
    (structure/evolvables/topology.py:32-40), which lets copies share one parameter container.

    All random draws are arguments: bits for the comparisons with a probability, lists of
    positions for sample() and for int(random()*n), numbers for randn and gauss. *)
From Verif Require Import Base.
From Coq Require Import QArith.
Local Open Scope nat_scope.

(** One object; the parameters of the shared container are a separate list. *)
Record masked := { m_mask : list bool; m_vals : list Q; m_max : nat }.
Definition enabled (mask : list bool) : nat := count_occ Bool.bool_dec mask true.
(** maskedparameters.py:38-40 _applyMask *)
Definition applyMask (o : masked) : list Q := map (fun e => if fst e : bool then snd e else 0%Q) (combine (m_mask o) (m_vals o)).
(** maskedparameters.py:42-47 paramdim and 49-61 params, given the container's parameters *)
Definition visible (o : masked) : list Q := flat_map (fun e => if fst e : bool then [snd e] else []) (combine (m_mask o) (m_vals o)).
Definition params (returnZeros : bool) (pc : list Q) (o : masked) : list Q := if returnZeros then pc else visible o.
(** maskedparameters.py:63-70 _setParameters (without applying the mask) *)
Fixpoint setVisible (mask : list bool) (vals x : list Q) : result (list Q) :=
  match mask, vals with
  | true :: m, _ :: v => match x with [] => Err IndexError | a :: x' => let! r := setVisible m v x' in Ok (a :: r) end
  | false :: m, b :: v => let! r := setVisible m v x in Ok (b :: r)
  | _, _ => Ok []
  end.
Definition setParameters (o : masked) (x : list Q) : result masked :=
  let! v := setVisible (m_mask o) (m_vals o) x in Ok {| m_mask := m_mask o; m_vals := v; m_max := m_max o |}.
(** maskedparameters.py:72-85 randomize: bits are the outcomes of random() > maskOnProbability, drop the sample of
    surplus positions (used when there are any), vals the new parameters *)
Definition randomize (bits : list bool) (drop : list nat) (vals : list Q) (o : masked) : masked :=
  {| m_mask := if m_max o <? enabled bits then fold_left (fun m i => upd i false m) drop bits else bits; m_vals := vals; m_max := m_max o |}.
(** maskedparameters.py:94-99: k times draw positions until an enabled one comes up and disable it *)
Fixpoint disable (picks : list nat) (k : nat) (mask : list bool) : result (list bool * list nat) :=
  match k with
  | O => Ok (mask, picks)
  | S k' =>
      match picks with
      | [] => Err OutOfFuel
      | i :: ps =>
          match nth_error mask i with
          | None => Err IndexError
          | Some true => disable ps k' (upd i false mask)
          | Some false => disable ps k mask
          end
      end
  end.
(** maskedparameters.py:87-105 topologyMutate: flips are the outcomes of random() < maskFlipProbability *)
Definition topologyMutate (flips : list bool) (picks : list nat) (o : masked) : result masked :=
  let mask := map (fun e => if fst e : bool then negb (snd e) else snd e) (combine flips (m_mask o)) in
  let! r := disable picks (enabled mask - m_max o) mask in
  let '(mask, ps) := r in
  let! mask := if enabled mask =? 0
               then match ps with
                    | [] => Err OutOfFuel
                    | i :: _ => if i <? length mask then Ok (upd i true mask) else Err IndexError
                    end
               else Ok mask in
  Ok {| m_mask := mask; m_vals := m_vals o; m_max := m_max o |}.
(** maskedparameters.py:107-112 mutate *)
Definition mutate (noise : list Q) (o : masked) : masked :=
  {| m_mask := m_mask o; m_vals := map (fun e => fst e + snd e)%Q (combine (m_vals o) noise); m_max := m_max o |}.
(** maskedparameters.py:29-36 __init__ on a container with n parameters: the object; the container then holds applyMask of it *)
Definition create (n : nat) (maxComplexity : option nat) (bits : list bool) (drop : list nat) (vals : list Q) : masked :=
  let o := randomize bits drop vals {| m_mask := []; m_vals := []; m_max := match maxComplexity with Some k => k | None => n end |} in
  {| m_mask := m_mask o; m_vals := applyMask o; m_max := m_max o |}.

(** Several objects around one container: the container's parameters and the objects *)
Definition world : Type := list Q * list masked.
Inductive mop :=
| MSet (i : nat) (x : list Q)
| MMutate (i : nat) (noise : list Q)
| MTopology (i : nat) (flips : list bool) (picks : list nat)
| MRandomize (i : nat) (bits : list bool) (drop : list nat) (vals : list Q)
| MCopy (i : nat).
Definition acts (o : mop) : option nat := match o with MSet i _ | MMutate i _ | MTopology i _ _ | MRandomize i _ _ _ => Some i | MCopy _ => None end.
Definition with_obj (i : nat) (f : masked -> result masked) (w : world) : result world :=
  match nth_error (snd w) i with
  | None => Err IndexError
  | Some o => let! o' := f o in Ok (applyMask o', upd i o' (snd w))
  end.
Definition mstep (w : world) (o : mop) : result world :=
  match o with
  | MSet i x => with_obj i (fun m => setParameters m x) w
  | MMutate i noise => with_obj i (fun m => Ok (mutate noise m)) w
  | MTopology i flips picks => with_obj i (topologyMutate flips picks) w
  | MRandomize i bits drop vals => with_obj i (fun m => Ok (randomize bits drop vals m)) w
  | MCopy i => match nth_error (snd w) i with None => Err IndexError | Some m => Ok (fst w, snd w ++ [m]) end
  end.
Fixpoint mrun (w : world) (l : list mop) : result world :=
  match l with [] => Ok w | o :: t => let! w' := mstep w o in mrun w' t end.
