(** Specification vocabulary for the module order. *)
From Verif Require Import Base Topo_Model.
From Coq Require Export Relations.

Definition acyclic {A} (R : A -> A -> Prop) : Prop := forall x, ~ clos_trans A R x x.
Definition before {A} (u v : A) (l : list A) : Prop := exists l1 l2 l3, l = l1 ++ u :: l2 ++ v :: l3.

(** what the user put into the network *)
Definition has_module (ops : list nop) (m : nat) : Prop := In (AddModule m) ops.
Definition linked (ops : list nop) (u v : nat) : Prop :=
  exists c, In (AddConnection c) ops /\ c_in c = u /\ c_out c = v.
(** every connection joins modules that were added *)
Definition closed (ops : list nop) : Prop :=
  forall c, In (AddConnection c) ops -> has_module ops (c_in c) /\ has_module ops (c_out c).

(** the connections added from module [k], in the order they were added *)
Definition outgoing (ops : list nop) (k : nat) : list conn :=
  flat_map (fun o => match o with AddConnection c => if c_in c =? k then [c] else [] | _ => [] end) ops.
