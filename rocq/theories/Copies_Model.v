(** Copies that share structure.

    pybrain/structure/evolvables/cheaplycopiable.py:7-81   CheaplyCopiable
    pybrain/structure/evolvables/maskedmodule.py:7-29      MaskedModule
    pybrain/structure/evolvables/topology.py:32-43         TopologyEvolvable.copy
    pybrain/structure/parametercontainer.py:47-66,80-86    params, _setParameters, randomize, mutate

    The wrapped module is any module: what it remembers between calls (its
    buffers) is an abstract type.  The arrays of parameters live on a heap, a copy
    holds the address of its own.  Random numbers are arguments.
    Simplifications: exact numbers; an array of length 1 is not broadcast
    when it is written over a longer one (ValueError as for other lengths). *)
From Verif Require Import Base Masked_Model.
From Coq Require Import QArith.
Import ListNotations.
Local Open Scope nat_scope.

(** A module with buffers B: what activate and backActivate compute (backActivate
    turns the accumulated derivatives into new ones and returns the input error),
    and the buffers after a reset. *)
Record module (B : Type) := {
  act : list Q -> B -> list Q -> B * list Q;
  back : list Q -> B -> list Q -> list Q -> list Q * list Q;
  fresh : B }.
Arguments act {B}. Arguments back {B}. Arguments fresh {B}.

Definition plus (x d : list Q) : list Q := map (fun e => (fst e + snd e)%Q) (combine x d).

(** ** CheaplyCopiable *)
Record world (B : Type) := { s_params : list Q; s_buf : B; s_derivs : list Q; arrays : list (list Q); cops : list nat }.
Arguments s_params {B}. Arguments s_buf {B}. Arguments s_derivs {B}. Arguments arrays {B}. Arguments cops {B}.

Inductive op :=
| Copy (i : nat)                       (* copies[i].copy(), the result is the last of the copies *)
| Activate (i : nat) (x : list Q)
| BackActivate (i : nat) (e : list Q)
| Reset (i : nat)
| ResetDerivatives (i : nat)
| Derivs (i : nat)
| GetParams (i : nat)
| Mutate (i : nat) (d : list Q)
| Randomize (i : nat) (v : list Q)
| SetList (i : nat) (v : list Q)       (* copies[i]._setParameters(v), a list *)
| SetArray (i j : nat).                (* copies[i]._setParameters(copies[j].params) *)

Section World.
  Context {B : Type} (M : module B).
  
  Definition arr (w : world B) (a : nat) : list Q := nth a (arrays w) [].
  Definition with_stored (w : world B) p := {| s_params := p; s_buf := s_buf w; s_derivs := s_derivs w; arrays := arrays w; cops := cops w |}.
  Definition with_buf (w : world B) (b : B) := {| s_params := s_params w; s_buf := b; s_derivs := s_derivs w; arrays := arrays w; cops := cops w |}.
  Definition with_derivs (w : world B) d := {| s_params := s_params w; s_buf := s_buf w; s_derivs := d; arrays := arrays w; cops := cops w |}.
  Definition with_array (w : world B) a v := {| s_params := s_params w; s_buf := s_buf w; s_derivs := s_derivs w; arrays := upd a v (arrays w); cops := cops w |}.
  Definition with_cop (w : world B) i a := {| s_params := s_params w; s_buf := s_buf w; s_derivs := s_derivs w; arrays := arrays w; cops := upd i a (cops w) |}.
  Definition new_array (w : world B) v := {| s_params := s_params w; s_buf := s_buf w; s_derivs := s_derivs w; arrays := arrays w ++ [v]; cops := cops w |}.
  Definition new_cop (w : world B) a := {| s_params := s_params w; s_buf := s_buf w; s_derivs := s_derivs w; arrays := arrays w; cops := cops w ++ [a] |}.

  (** cheaplycopiable.py:10-16 around a module with the given parameters *)
  Definition wrap (p : list Q) (b : B) (d : list Q) : world B :=
    {| s_params := p; s_buf := b; s_derivs := d; arrays := [p]; cops := [0] |}.

  (** self.__stored._params[:] = self._params *)
  Definition install (w : world B) (a : nat) : result (world B) :=
    if length (arr w a) =? length (s_params w) then Ok (with_stored w (arr w a)) else Err ValueError.

  Definition perform (w : world B) (o : op) : world B * result (list Q) :=
    let at_ i (k : nat -> world B * result (list Q)) :=
      match nth_error (cops w) i with Some a => k a | None => (w, Err IndexError) end in
    let installed (w : world B) a (k : world B -> world B * result (list Q)) :=
      match install w a with Ok w' => k w' | Err e => (w, Err e) end in
    match o with
    | Copy i => at_ i (fun a => installed w a (fun w =>              (* :18-21 *)
        let w1 := new_array w (s_params w) in (new_cop w1 (length (arrays w)), Ok [])))
    | Activate i x => at_ i (fun a => installed w a (fun w =>        (* :60-62 *)
        let r := act M (s_params w) (s_buf w) x in (with_buf w (fst r), Ok (snd r))))
    | BackActivate i e => at_ i (fun a => installed w a (fun w =>    (* :64-66 *)
        let r := back M (s_params w) (s_buf w) (s_derivs w) e in (with_derivs w (fst r), Ok (snd r))))
    | Reset i => at_ i (fun _ => (with_buf w (fresh M), Ok []))      (* :46-47 *)
    | ResetDerivatives i => at_ i (fun _ => (with_derivs w (map (fun _ => 0%Q) (s_derivs w)), Ok []))   (* :80-81 *)
    | Derivs i => at_ i (fun _ => (w, Ok (s_derivs w)))              (* :28-30 *)
    | GetParams i => at_ i (fun a => (w, Ok (arr w a)))                 (* parametercontainer.py:42-45 *)
    | Mutate i d => at_ i (fun a =>                                  (* :72-74, parametercontainer.py:85-86 *)
        if length d =? length (arr w a) then let w1 := with_array w a (plus (arr w a) d) in installed w1 a (fun w2 => (w2, Ok []))
        else (w, Err ValueError))
    | Randomize i v => at_ i (fun a =>                               (* :68-70, parametercontainer.py:80-83 *)
        if length v =? length (arr w a) then let w1 := with_array w a v in installed w1 a (fun w2 => (w2, Ok []))
        else (w, Err ValueError))
    | SetList i v => at_ i (fun _ => (with_cop (new_array w v) i (length (arrays w)), Ok []))    (* parametercontainer.py:50-66, no owner *)
    | SetArray i j => at_ i (fun _ => match nth_error (cops w) j with Some b => (with_cop w i b, Ok []) | None => (w, Err IndexError) end)
    end.

  Fixpoint perform_all (w : world B) (os : list op) : world B * list (result (list Q)) :=
    match os with
    | [] => (w, [])
    | o :: os => let (w1, r) := perform w o in let (w2, rs) := perform_all w1 os in (w2, r :: rs)
    end.
End World.

(** ** MaskedModule: copies hold a mask and values, the parameters the module works with are in the one container. *)
Inductive mop :=
| MCopy (i : nat)
| MActivate (i : nat) (x : list Q)
| MMutate (i : nat) (d : list Q)
| MTopologyMutate (i : nat) (flips : list bool) (picks : list nat)
| MSetParameters (i : nat) (x : list Q).

Record mworld := { container : list Q; objects : list masked }.
(** a module without memory: a function of parameters and input *)
Definition mperform (f : list Q -> list Q -> list Q) (w : mworld) (o : mop) : mworld * result (list Q) :=
  let at_ i (k : masked -> mworld * result (list Q)) := match nth_error (objects w) i with Some m => k m | None => (w, Err IndexError) end in
  let apply i m := ({| container := applyMask m; objects := upd i m (objects w) |}, Ok ([] : list Q)) in
  match o with
  | MCopy i => at_ i (fun m => ({| container := container w; objects := objects w ++ [m] |}, Ok []))    (* topology.py:32-43 *)
  | MActivate i x => at_ i (fun _ => (w, Ok (f (container w) x)))                                      (* maskedmodule.py:16-17 *)
  | MMutate i d => at_ i (fun m => apply i (mutate d m))
  | MTopologyMutate i flips picks => at_ i (fun m => match topologyMutate flips picks m with Ok m' => apply i m' | Err e => (w, Err e) end)
  | MSetParameters i x => at_ i (fun m => match setParameters m x with Ok m' => apply i m' | Err e => (w, Err e) end)
  end.
Fixpoint mperform_all (f : list Q -> list Q -> list Q) (w : mworld) (os : list mop) : mworld * list (result (list Q)) :=
  match os with
  | [] => (w, [])
  | o :: os => let (w1, r) := mperform f w o in let (w2, rs) := mperform_all f w1 os in (w2, r :: rs)
  end.
