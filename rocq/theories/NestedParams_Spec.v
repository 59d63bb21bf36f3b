(** Specification for nested parameter containers: what the values of the components are,
    which networks are in order, and the sessions considered. *)
From Verif Require Import Base Params_Model NestedParams_Model.

Section Spec.
Context {V : Type}.

(** the components of a tree, in the order of its vector *)
Fixpoint leaves (t : ptree) : list view :=
  match t with PLeaf _ w => [w] | PNet _ _ _ kids => flat_map leaves kids end.
Definition all_leaves (rs : list ptree) : list view := flat_map leaves rs.
(** the values of all components *)
Definition values (s : state V) : list (list V) := map (read (fst s)) (all_leaves (snd s)).

(** every network in t is sorted *)
Fixpoint fully (t : ptree) : Prop :=
  match t with PLeaf _ _ => True | PNet _ _ s kids => s = true /\ fold_right (fun k P => fully k /\ P) True kids end.
(** every network strictly inside t is sorted *)
Definition inner_sorted (t : ptree) : Prop :=
  match t with PLeaf _ _ => True | PNet _ _ _ kids => forall k, In k kids -> fully k end.

(** the sessions: new components have parameters, a component is added once it has
    parameters (inner networks: once they are sorted), networks inside are sorted before
    the network around them, vectors have the right length and updates in place keep it *)
Definition legal_op (s : state V) (o : nop V) : Prop :=
  match o with
  | NLeaf v => v <> []
  | NNet => True
  | NAdd i p j => forall c, nth_error (snd s) j = Some c -> 0 < t_dim c
  | NSort i p => forall t, node s i p = Some t -> inner_sorted t
  | NSet i p v => v <> [] /\ forall t, node s i p = Some t -> fully t /\ length v = t_dim t
  | NWrite i p g => forall l, length (g l) = length l
  end.
Fixpoint legal_session (s : state V) (l : list (nop V)) : Prop :=
  match l with
  | [] => True
  | o :: t => legal_op s o /\ match nstep s o with (s', None) => legal_session s' t | (_, Some _) => True end
  end.
End Spec.
