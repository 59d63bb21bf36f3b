(** Model of the parameter arrays of networks inside networks:
    pybrain/structure/parametercontainer.py and networks/network.py.

    The containers form trees: a leaf is a connection or module with parameters, a net has
    its containers as children.  Every node has a view (array, offset, length) of the heap,
    as numpy slices do, and a flag "owned": its owner attribute is its parent (otherwise it
    is None).  The children are listed in the order in which _containerIterator yields
    them.  Derivatives are handled in the same way by the code and are not repeated. *)
From Verif Require Import Base Params_Model.

Section Nested.
Context {V : Type}.

Inductive ptree :=
| PLeaf (owned : bool) (w : view)
| PNet (owned : bool) (w : option view) (sorted : bool) (kids : list ptree).

Definition t_view (t : ptree) : option view := match t with PLeaf _ w => Some w | PNet _ w _ _ => w end.
Definition t_owned (t : ptree) : bool := match t with PLeaf o _ => o | PNet o _ _ _ => o end.
(** paramdim *)
Definition t_dim (t : ptree) : nat := match t_view t with Some w => v_len w | None => 0 end.
Definition t_read (h : heap V) (t : ptree) : list V := match t_view t with Some w => read h w | None => [] end.

(** _setParameters called with owner=<parent> (parametercontainer.py:51-65,
    network.py:152-158); containers with paramdim 0 are not yielded (network.py:80-93) *)
Fixpoint set_node (t : ptree) (w : view) : ptree * option exn :=
  match t with
  | PLeaf false _ => (t, Some AssertionError)
  | PLeaf true _ => (PLeaf true w, None)
  | PNet false _ _ _ => (t, Some AssertionError)
  | PNet true _ s kids =>
      let '(kids', e) :=
        (fix dist (index : nat) (l : list ptree) : list ptree * option exn :=
           match l with
           | [] => ([], None)
           | k :: r =>
               if t_dim k =? 0 then let '(r', e) := dist index r in (k :: r', e)
               else let '(k', e) := set_node k (subview w index (t_dim k)) in
                    match e with
                    | Some x => (k' :: r, Some x)
                    | None => let '(r', e') := dist (index + t_dim k) r in (k' :: r', e')
                    end
           end) 0 kids in
      (PNet true (Some w) s kids', e)
  end.
(** the loop of network.py:155-158 on its own *)
Fixpoint distribute_kids (w : view) (index : nat) (l : list ptree) : list ptree * option exn :=
  match l with
  | [] => ([], None)
  | k :: r =>
      if t_dim k =? 0 then let '(r', e) := distribute_kids w index r in (k :: r', e)
      else let '(k', e) := set_node k (subview w index (t_dim k)) in
           match e with
           | Some x => (k' :: r, Some x)
           | None => let '(r', e') := distribute_kids w (index + t_dim k) r in (k' :: r', e')
           end
  end.

(** sortModules (network.py:215-259).  ParameterContainer.__init__ replaces the array
    before _setParameters checks the owner. *)
Definition sort_node (h : heap V) (t : ptree) : heap V * ptree * option exn :=
  match t with
  | PLeaf _ _ => (h, t, Some AttributeError)
  | PNet o w true kids => (h, t, None)
  | PNet o w false kids =>
      match concat (map (t_read h) (filter (fun k => negb (t_dim k =? 0)) kids)) with
      | [] => (h, PNet o None true kids, None)
      | v =>
          let '(h', w') := alloc h v in
          if o then (h', PNet o (Some w') false kids, Some AssertionError)
          else let '(kids', e) := distribute_kids w' 0 kids in
               (h', PNet o (Some w') (match e with None => true | Some _ => false end) kids', e)
      end
  end.

(** _setParameters(p) without an owner *)
Definition assign_node (h : heap V) (t : ptree) (p : list V) : heap V * ptree * option exn :=
  if t_owned t then (h, t, Some AssertionError)
  else let '(h', w) := alloc h p in
       match t with
       | PLeaf o _ => (h', PLeaf o w, None)
       | PNet o _ s kids => let '(kids', e) := distribute_kids w 0 kids in (h', PNet o (Some w) s kids', e)
       end.

(** addModule / addConnection (network.py:95-109, 128-139) *)
Definition own (t : ptree) : ptree :=
  if t_dim t =? 0 then t else match t with PLeaf _ w => PLeaf true w | PNet _ w s k => PNet true w s k end.
Definition add_node (t c : ptree) : ptree * option exn :=
  match t with
  | PLeaf _ _ => (t, Some AttributeError)
  | PNet o w _ kids => (PNet o w false (kids ++ [own c]), None)
  end.

(** nodes inside a tree: a path lists the positions from the root *)
Fixpoint get (p : list nat) (t : ptree) : option ptree :=
  match p with
  | [] => Some t
  | i :: q => match t with PLeaf _ _ => None | PNet _ _ _ kids => match nth_error kids i with Some k => get q k | None => None end end
  end.
Fixpoint put (p : list nat) (x : ptree) (t : ptree) : ptree :=
  match p with
  | [] => x
  | i :: q => match t with
              | PLeaf _ _ => t
              | PNet o w s kids => match nth_error kids i with Some k => PNet o w s (upd i (put q x k) kids) | None => t end
              end
  end.

Definition state : Type := (heap V * list ptree)%type.
Inductive nop :=
| NLeaf (v : list V)                        (* a new component *)
| NNet                                      (* a new, empty network *)
| NAdd (i : nat) (p : list nat) (j : nat)   (* add root j to the network at (i, p) *)
| NSort (i : nat) (p : list nat)
| NSet (i : nat) (p : list nat) (v : list V)
| NWrite (i : nat) (p : list nat) (g : list V -> list V)   (* in-place update of node.params *).
Definition node (s : state) (i : nat) (p : list nat) : option ptree :=
  match nth_error (snd s) i with Some t => get p t | None => None end.
Definition put_node (s : state) (i : nat) (p : list nat) (x : ptree) : list ptree :=
  match nth_error (snd s) i with Some t => upd i (put p x t) (snd s) | None => snd s end.
Definition gone : ptree := PNet false None false [].

Definition nstep (s : state) (o : nop) : state * option exn :=
  let '(h, rs) := s in
  match o with
  | NLeaf v => let '(h', w) := alloc h v in ((h', rs ++ [PLeaf false w]), None)
  | NNet => ((h, rs ++ [PNet false None false []]), None)
  | NAdd i p j =>
      match node s i p, nth_error rs j with
      | Some t, Some c =>
          if i =? j then (s, Some ValueError)
          else let '(t', e) := add_node t c in
               match e with
               | Some x => (s, Some x)
               | None => ((h, upd j gone (put_node s i p t')), None)
               end
      | _, _ => (s, Some IndexError)
      end
  | NSort i p =>
      match node s i p with
      | Some t => let '(h', t', e) := sort_node h t in ((h', put_node s i p t'), e)
      | None => (s, Some IndexError)
      end
  | NSet i p v =>
      match node s i p with
      | Some t => let '(h', t', e) := assign_node h t v in ((h', put_node s i p t'), e)
      | None => (s, Some IndexError)
      end
  | NWrite i p g =>
      match node s i p with
      | Some t => match t_view t with
                  | Some w => ((write h w (g (read h w)), rs), None)
                  | None => (s, Some AttributeError)
                  end
      | None => (s, Some IndexError)
      end
  end.

(** a session in which no call raises *)
Fixpoint nrun (s : state) (l : list nop) : option state :=
  match l with
  | [] => Some s
  | o :: t => match nstep s o with (s', None) => nrun s' t | (_, Some _) => None end
  end.
End Nested.
Arguments nop : clear implicits.
Arguments state : clear implicits.
