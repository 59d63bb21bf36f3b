(** What independent modules would do: every copy has its own parameters, its
    own memory and its own derivatives. *)
From Verif Require Import Base Masked_Model Copies_Model.
From Coq Require Import QArith.
Import ListNotations.
Local Open Scope nat_scope.

Record own (B : Type) := { o_params : list Q; o_buf : B; o_derivs : list Q }.
Arguments o_params {B}. Arguments o_buf {B}. Arguments o_derivs {B}.

Section Spec.
  Context {B : Type} (M : module B) (n : nat).
  (** parameters of another number than the module has can be set but not used *)
  Definition ideal (w : list (own B)) (o : op) : list (own B) * result (list Q) :=
    let at_ i (k : own B -> list (own B) * result (list Q)) := match nth_error w i with Some m => k m | None => (w, Err IndexError) end in
    let usable m (r : list (own B) * result (list Q)) (w' : list (own B)) := if length (o_params m) =? n then r else (w', Err ValueError) in
    let set i p b d := upd i {| o_params := p; o_buf := b; o_derivs := d |} w in
    match o with
    | Copy i => at_ i (fun m => usable m (w ++ [{| o_params := o_params m; o_buf := fresh M; o_derivs := [] |}], Ok []) w)
    | Activate i x => at_ i (fun m => usable m (let r := act M (o_params m) (o_buf m) x in (set i (o_params m) (fst r) (o_derivs m), Ok (snd r))) w)
    | BackActivate i e => at_ i (fun m => usable m (let r := back M (o_params m) (o_buf m) (o_derivs m) e in (set i (o_params m) (o_buf m) (fst r), Ok (snd r))) w)
    | Reset i => at_ i (fun m => (set i (o_params m) (fresh M) (o_derivs m), Ok []))
    | ResetDerivatives i => at_ i (fun m => (set i (o_params m) (o_buf m) (repeat 0%Q n), Ok []))
    | Derivs i => at_ i (fun m => (w, Ok (o_derivs m)))
    | GetParams i => at_ i (fun m => (w, Ok (o_params m)))
    | Mutate i d => at_ i (fun m => if length d =? length (o_params m)
        then let w' := set i (plus (o_params m) d) (o_buf m) (o_derivs m) in usable m (w', Ok []) w' else (w, Err ValueError))
    | Randomize i v => at_ i (fun m => if length v =? length (o_params m)
        then let w' := set i v (o_buf m) (o_derivs m) in usable m (w', Ok []) w' else (w, Err ValueError))
    | SetList i v => at_ i (fun m => (set i v (o_buf m) (o_derivs m), Ok []))
    | SetArray i j => at_ i (fun m => match nth_error w j with Some m' => (set i (o_params m') (o_buf m) (o_derivs m), Ok []) | None => (w, Err IndexError) end)
    end.
  Fixpoint ideal_all (w : list (own B)) (os : list op) : list (own B) * list (result (list Q)) :=
    match os with
    | [] => (w, [])
    | o :: os => let (w1, r) := ideal w o in let (w2, rs) := ideal_all w1 os in (w2, r :: rs)
    end.
End Spec.

(** Who used the shared memory (derivatives) last; a copy may use it if it did so
    last, or after it has reset it. *)
Definition uses_memory (o : op) : option nat := match o with Activate i _ | BackActivate i _ => Some i | _ => None end.
Definition uses_derivs (o : op) : option nat := match o with BackActivate i _ | Derivs i => Some i | _ => None end.
Definition resets_memory (o : op) : option nat := match o with Reset i => Some i | _ => None end.
Definition resets_derivs (o : op) : option nat := match o with ResetDerivatives i => Some i | _ => None end.
Definition allowed (owner : option nat) (user : option nat) : Prop := match user with None => True | Some i => owner = Some i end.
Definition passes (owner : option nat) (reset : option nat) : option nat := match reset with None => owner | Some i => Some i end.
Fixpoint in_turn (memory derivs : option nat) (os : list op) : Prop :=
  match os with
  | [] => True
  | o :: os => allowed memory (uses_memory o) /\ allowed derivs (uses_derivs o) /\
               in_turn (passes memory (resets_memory o)) (passes derivs (resets_derivs o)) os
  end.
(** arrays are not passed from copy to copy *)
Definition no_sharing (o : op) : Prop := match o with SetArray _ _ => False | _ => True end.

(** masked copies that are independent *)
Definition mideal (f : list Q -> list Q -> list Q) (w : list masked) (o : mop) : list masked * result (list Q) :=
  let at_ i (k : masked -> list masked * result (list Q)) := match nth_error w i with Some m => k m | None => (w, Err IndexError) end in
  match o with
  | MCopy i => at_ i (fun m => (w ++ [m], Ok []))
  | MActivate i x => at_ i (fun m => (w, Ok (f (applyMask m) x)))
  | MMutate i d => at_ i (fun m => (upd i (mutate d m) w, Ok []))
  | MTopologyMutate i flips picks => at_ i (fun m => match topologyMutate flips picks m with Ok m' => (upd i m' w, Ok []) | Err e => (w, Err e) end)
  | MSetParameters i x => at_ i (fun m => match setParameters m x with Ok m' => (upd i m' w, Ok []) | Err e => (w, Err e) end)
  end.
Fixpoint mideal_all (f : list Q -> list Q -> list Q) (w : list masked) (os : list mop) : list masked * list (result (list Q)) :=
  match os with
  | [] => (w, [])
  | o :: os => let (w1, r) := mideal f w o in let (w2, rs) := mideal_all f w1 os in (w2, r :: rs)
  end.
(** each copy is activated only if it was the last to be changed *)
Fixpoint own_turn (last : nat) (os : list mop) : Prop :=
  match os with
  | [] => True
  | MActivate i _ :: os => i = last /\ own_turn last os
  | MCopy _ :: os => own_turn last os
  | (MMutate i _ | MTopologyMutate i _ _ | MSetParameters i _) :: os => own_turn i os
  end.
