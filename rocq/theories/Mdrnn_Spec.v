(** C80: what is expected of slices, swipes and blocks. *)
From Verif Require Import Base Mdrnn_Model.
Local Open Scope nat_scope.

(** a place in an array by its coordinates, and its number in row-major order *)
Definition inside (shape cs : list nat) : Prop := Forall2 (fun s c => c < s) shape cs.
Fixpoint number (shape cs : list nat) : nat :=
  match shape, cs with s :: shape, c :: cs => c * prod shape + number shape cs | _, _ => 0 end.
(** the place seen from the corner given by the directions *)
Fixpoint mirrored (shape : list nat) (dirs : list bool) (cs : list nat) : list nat :=
  match shape, cs with
  | s :: shape, c :: cs =>
      match dirs with
      | [] => c :: mirrored shape [] cs
      | d :: dirs => (if d then s - 1 - c else c) :: mirrored shape dirs cs
      end
  | _, _ => []
  end.
(** every side is a whole number of blocks *)
Definition divides_all (shape block : list nat) : Prop := Forall2 (fun s b => 0 < b /\ Nat.divide b s) shape block.
(** p names every number below n once *)
Definition permutation_of (n : nat) (p : list nat) : Prop := length p = n /\ NoDup p /\ Forall (fun i => i < n) p.
(** the number of an element in an array of blocks: the block in row-major order, then the place in the block in row-major order *)
Definition blockNumber (shape block cs : list nat) : nat :=
  number (map (fun p => fst p / snd p) (combine shape block)) (map (fun p => fst p / snd p) (combine cs block)) * prod block +
  number block (map (fun p => fst p mod snd p) (combine cs block)).
