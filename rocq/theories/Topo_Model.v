(** Model of the module ordering of pybrain/structure/networks/network.py.
    A module is a natural number (its identity); [name] gives the rank of its name
    in the order of strings.  A set of modules is a list without repetitions, in
    the order in which Python happens to iterate over it. *)
From Verif Require Import Base Dict StableSort.

Record conn := mkconn { c_in : nat; c_out : nat; c_name : nat }.

Record net := mknet { n_modules : list nat; n_conns : dict (list conn) }.
Definition empty_net : net := mknet [] [].

(** network.py:94-108 *)
Definition addModule (n : net) (m : nat) : net :=
  mknet (if existsb (Nat.eqb m) (n_modules n) then n_modules n else n_modules n ++ [m])
        (match dget m (n_conns n) with Some _ => n_conns n | None => dset m [] (n_conns n) end).

(** network.py:128-138; the shared mother connections are not part of the order. *)
Definition addConnection (n : net) (c : conn) : net :=
  mknet (n_modules n)
        (match dget (c_in c) (n_conns n) with
         | Some l => dset (c_in c) (l ++ [c]) (n_conns n)
         | None => dset (c_in c) [c] (n_conns n) end).

Inductive nop := AddModule (m : nat) | AddConnection (c : conn).
Definition nstep (n : net) (o : nop) : net :=
  match o with AddModule m => addModule n m | AddConnection c => addConnection n c end.
Definition nrun (n : net) (l : list nop) : net := fold_left nstep l n.

(** The graph of _topologicalSort: node -> (incoming count, children). *)
Definition graph := dict (Z * list nat).

(** network.py:185-188 *)
Definition add_edge (g : graph) (c : conn) : result graph :=
  match dget (c_in c) g with
  | None => Err KeyError
  | Some (n, ch) =>
      let g1 := dset (c_in c) (n, ch ++ [c_out c]) g in
      match dget (c_out c) g1 with
      | None => Err KeyError
      | Some (n', ch') => Ok (dset (c_out c) ((n' + 1)%Z, ch') g1)
      end
  end.

(** network.py:180-188 *)
Definition build_graph (n : net) : result graph :=
  fold_left (fun acc c => let! g := acc in add_edge g c)
            (concat (map snd (n_conns n)))
            (Ok (map (fun m => (m, (0%Z, []))) (n_modules n))).

(** network.py:191-194 *)
Definition find_roots (name : nat -> nat) (g : graph) : list nat :=
  isort (nat_key_leb name) (map fst (filter (fun e => (fst (snd e) =? 0)%Z) g)).

(** network.py:205-208, one child *)
Definition visit_child (acc : result (graph * list nat)) (child : nat) : result (graph * list nat) :=
  let! gr := acc in
  let '(g, roots) := gr in
  match dget child g with
  | None => Err KeyError
  | Some (n, ch) =>
      let n' := (n - 1)%Z in
      Ok (dset child (n', ch) g, if (n' =? 0)%Z then roots ++ [child] else roots)
  end.

(** network.py:200-209; [fuel] bounds the rounds. *)
Fixpoint kahn (fuel : nat) (g : graph) (roots acc : list nat) : result (graph * list nat) :=
  match roots with
  | [] => Ok (g, acc)
  | root :: rest =>
      match fuel with
      | 0 => Err OutOfFuel
      | S k =>
          match dget root g with
          | None => Err KeyError
          | Some (_, children) =>
              let! gr := fold_left visit_child children (Ok (g, rest)) in
              let '(g', roots') := gr in
              kahn k (ddel root g') roots' (acc ++ [root])
          end
      end
  end.

(** network.py:174-212 *)
Definition topologicalSort (name : nat -> nat) (n : net) : result (list nat) :=
  let! g := build_graph n in
  let! ga := kahn (S (length (n_modules n))) g (find_roots name g) [] in
  let '(g', acc) := ga in
  match g' with [] => Ok acc | _ => Err NetworkConstructionError end.

(** network.py:222-226: the connection lists of the modules sorted by name. *)
Definition sort_conns (n : net) : dict (list conn) :=
  fold_left (fun d m => match dget m d with
                        | Some l => dset m (isort (nat_key_leb c_name) l) d
                        | None => d end) (n_modules n) (n_conns n).

(** sortModules up to the parameter vector: order of modules, sorted connections,
    and the order in which _containerIterator visits modules and connections
    (network.py:80-91, every container taken to have parameters). *)
Definition sortModules (name : nat -> nat) (n : net) : result (list nat * dict (list conn)) :=
  let! order := topologicalSort name n in
  Ok (order, sort_conns n).

Inductive container := CMod (m : nat) | CConn (c : conn).
Definition containers (s : list nat * dict (list conn)) : list container :=
  flat_map (fun m => CMod m :: map CConn (match dget m (snd s) with Some l => l | None => [] end)) (fst s).
