(** Model of the parameter (and derivative) arrays of a network and its components:
    pybrain/structure/parametercontainer.py and networks/network.py.
    Arrays live in a heap, a container holds a view (array, offset, length), as numpy
    slices do.  Parameters and derivatives are two independent instances of one
    "field"; a container is a module, connection or mother connection with
    parameters.  Networks inside networks are in NestedParams_Model. *)
From Verif Require Import Base.

Section Field.
Context {V : Type}.

Record view := mkview { v_arr : nat; v_off : nat; v_len : nat }.
Definition heap := list (list V).

Definition read (h : heap) (w : view) : list V :=
  slice (v_off w) (v_off w + v_len w) (nth (v_arr w) h []).
(** w[:] = vals, for vals of the length of the view *)
Definition write (h : heap) (w : view) (vals : list V) : heap :=
  let a := nth (v_arr w) h [] in
  upd (v_arr w) (firstn (v_off w) a ++ vals ++ skipn (v_off w + length vals) a) h.
Definition alloc (h : heap) (vals : list V) : heap * view :=
  (h ++ [vals], mkview (length h) 0 (length vals)).
(** numpy slice of a view: bounds are cut at the end of the array *)
Definition subview (w : view) (from len : nat) : view :=
  mkview (v_arr w) (v_off w + Nat.min from (v_len w))
         (Nat.min (from + len) (v_len w) - Nat.min from (v_len w)).

(** One field of a network: a view per component, which components have the network as
    owner, the order of the containers, and the view of the network itself. *)
Record field := mkfield {
  f_comps : list view;
  f_owned : list bool;
  f_order : list nat;
  f_net : option view
}.
Definition empty_field : field := mkfield [] [] [] None.

Definition comp (f : field) (i : nat) : view := nth i (f_comps f) (mkview 0 0 0).

(** network.py:152-158 / 160-166: hand out consecutive slices.  The length of each
    slice is the component's own paramdim. *)
Fixpoint distribute (w : view) (index : nat) (ids : list nat) (comps : list view) : list view :=
  match ids with
  | [] => comps
  | i :: t =>
      let d := v_len (nth i comps (mkview 0 0 0)) in
      distribute w (index + d) t (upd i (subview w index d) comps)
  end.

Inductive fop :=
| FNew (vals : list V)            (* a new component with its own array *)
| FSort (ids : list nat)          (* sortModules; ids: what _containerIterator yields *)
| FUpdComp (i : nat) (g : list V -> list V)   (* in-place update through a component *)
| FUpdNet (g : list V -> list V)  (* in-place update of the network's array *)
| FSet (p : list V)               (* net._setParameters(p), no owner *)
| FSetComp (i : nat) (p : list V) (* component._setParameters(p), no owner *).

(** parametercontainer.py:56-71, network.py:152-158, 228-243.  A vector of another
    length is accepted by _setParameters.  An ownership mismatch raises (modelled by
    AssertionError, the state is unchanged). *)
Definition fstep (s : heap * field) (o : fop) : result (heap * field) :=
  let '(h, f) := s in
  match o with
  | FNew vals =>
      let '(h', w) := alloc h vals in
      Ok (h', mkfield (f_comps f ++ [w]) (f_owned f ++ [false]) (f_order f) (f_net f))
  | FSort ids =>
      let tmp := map (fun i => read h (comp f i)) ids in
      match concat tmp with
      | [] => Ok (h, mkfield (f_comps f) (f_owned f) ids None)
      | v =>
          let '(h', w) := alloc h v in
          Ok (h', mkfield (distribute w 0 ids (f_comps f))
                          (fold_left (fun o i => upd i true o) ids (f_owned f)) ids (Some w))
      end
  | FUpdComp i g =>
      if i <? length (f_comps f) then Ok (write h (comp f i) (g (read h (comp f i))), f)
      else Err IndexError
  | FUpdNet g =>
      match f_net f with
      | None => Err AttributeError
      | Some w => Ok (write h w (g (read h w)), f)
      end
  | FSet p =>
      match f_net f with
      | None => Err AttributeError
      | Some _ =>
          let '(h', w) := alloc h p in
          Ok (h', mkfield (distribute w 0 (f_order f) (f_comps f)) (f_owned f) (f_order f) (Some w))
      end
  | FSetComp i p =>
      match nth_error (f_owned f) i with
      | None => Err IndexError
      | Some true => Err AssertionError
      | Some false =>
          let '(h', w) := alloc h p in
          Ok (h', mkfield (upd i w (f_comps f)) (f_owned f) (f_order f) (f_net f))
      end
  end.

Fixpoint frun (s : heap * field) (l : list fop) : result (heap * field) :=
  match l with
  | [] => Ok s
  | o :: t => let! s' := fstep s o in frun s' t
  end.

Definition read_comp (s : heap * field) (i : nat) : list V := read (fst s) (comp (snd s) i).
Definition read_net (s : heap * field) : option (list V) := option_map (read (fst s)) (f_net (snd s)).

(** copy.deepcopy of a numpy array copies the data; a view becomes an array of its own. *)
Fixpoint deepcopy_views (h : heap) (l : list view) : heap * list view :=
  match l with
  | [] => (h, [])
  | w :: t =>
      let '(h1, w') := alloc h (read h w) in
      let '(h2, t') := deepcopy_views h1 t in
      (h2, w' :: t')
  end.
Definition deepcopy (h : heap) (f : field) : heap * field :=
  let '(h1, cs) := deepcopy_views h (f_comps f) in
  match f_net f with
  | None => (h1, mkfield cs (f_owned f) (f_order f) None)
  | Some w =>
      let '(h2, w') := alloc h1 (read h1 w) in
      (h2, mkfield cs (f_owned f) (f_order f) (Some w'))
  end.

(** network.py:266-272: the parameters are set again, the derivatives are not. *)
Definition copy_params (h : heap) (f : field) : result (heap * field) :=
  let '(h1, f1) := deepcopy h f in
  match f_net f with
  | None => Ok (h1, f1)
  | Some w => fstep (h1, f1) (FSet (read h1 w))
  end.
Definition copy_derivs (h : heap) (f : field) : heap * field := deepcopy h f.

(** Two networks in one memory: what happens to one field is a step on the common heap. *)
Inductive side := OnFirst | OnSecond.
Definition step2 (s : heap * field * field) (o : side * fop) : result (heap * field * field) :=
  let '(h, f1, f2) := s in
  match fst o with
  | OnFirst => let! r := fstep (h, f1) (snd o) in let '(h', f1') := r in Ok (h', f1', f2)
  | OnSecond => let! r := fstep (h, f2) (snd o) in let '(h', f2') := r in Ok (h', f1, f2')
  end.
Fixpoint run2 (s : heap * field * field) (l : list (side * fop)) : result (heap * field * field) :=
  match l with
  | [] => Ok s
  | o :: t => let! s' := step2 s o in run2 s' t
  end.
End Field.
Arguments fop : clear implicits.
Arguments heap : clear implicits.
