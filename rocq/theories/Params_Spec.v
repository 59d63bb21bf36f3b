(** Abstract machine for parameter storage: no arrays, no views. *)
From Verif Require Import Base Params_Model.

Section Spec.
Context {V : Type}.
(** the values of every component, whether it belongs to the network, and the order of
    the network's vector (None before the first sort) *)
Record astate := mka { a_vals : list (list V); a_owned : list bool; a_order : option (list nat) }.
Definition a_empty : astate := mka [] [] None.
Definition a_get (a : astate) (i : nat) : list V := nth i (a_vals a) [].
Definition a_net (a : astate) : option (list V) :=
  option_map (fun ids => concat (map (a_get a) ids)) (a_order a).

(** cut a vector into the components' pieces *)
Fixpoint a_split (ids : list nat) (p : list V) (vals : list (list V)) : list (list V) :=
  match ids with
  | [] => vals
  | i :: t => let d := length (nth i vals []) in
              a_split t (skipn d p) (upd i (firstn d p) vals)
  end.

Definition astep (a : astate) (o : fop V) : result astate :=
  match o with
  | FNew v => Ok (mka (a_vals a ++ [v]) (a_owned a ++ [false]) (a_order a))
  | FSort ids => Ok (mka (a_vals a) (fold_left (fun o i => upd i true o) ids (a_owned a)) (Some ids))
  | FUpdComp i g => if i <? length (a_vals a) then Ok (mka (upd i (g (a_get a i)) (a_vals a)) (a_owned a) (a_order a))
                    else Err IndexError
  | FUpdNet g => match a_order a with
                 | None => Err AttributeError
                 | Some ids => Ok (mka (a_split ids (g (concat (map (a_get a) ids))) (a_vals a)) (a_owned a) (a_order a)) end
  | FSet p => match a_order a with
              | None => Err AttributeError
              | Some ids => Ok (mka (a_split ids p (a_vals a)) (a_owned a) (a_order a)) end
  | FSetComp i p => match nth_error (a_owned a) i with
                    | None => Err IndexError
                    | Some true => Err AssertionError
                    | Some false => Ok (mka (upd i p (a_vals a)) (a_owned a) (a_order a)) end
  end.

(** the operations a program may perform: in-place updates keep the length, a new
    vector for the network has the network's length, a sort lists distinct existing
    components with at least one parameter and forgets none of those sorted before *)
Definition legal (a : astate) (o : fop V) : Prop :=
  match o with
  | FNew v => v <> []
  | FSort ids => ids <> [] /\ NoDup ids /\ (forall i, In i ids -> i < length (a_vals a)) /\
                 (forall old, a_order a = Some old -> incl old ids)
  | FUpdComp i g => forall l, length (g l) = length l
  | FUpdNet g => forall l, length (g l) = length l
  | FSet p => forall v, a_net a = Some v -> length p = length v
  | FSetComp _ p => p <> []
  end.

Fixpoint arun (a : astate) (l : list (fop V)) : result astate :=
  match l with [] => Ok a | o :: t => let! a' := astep a o in arun a' t end.
Fixpoint legal_run (a : astate) (l : list (fop V)) : Prop :=
  match l with
  | [] => True
  | o :: t => legal a o /\ match astep a o with Ok a' => legal_run a' t | Err _ => True end
  end.
End Spec.
Arguments astate : clear implicits.
