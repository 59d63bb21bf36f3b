(** Spec for C85: Evolino networks and genomes. *)
From Verif Require Import Base Evonet_Model.
From Coq Require Import Reals.
Local Open Scope nat_scope.

(** the weight from source i into input number r of the LSTM layer; a layer of n cells has 4 n inputs: ingates, forgetgates,
    cells, outgates *)
Definition weight (c : conn) (r i : nat) : R := nth (r * c_indim c + i) (c_params c) 0%R.
(** a connection into a layer of n cells *)
Definition shaped (n : nat) (c : conn) : Prop := length (c_params c) = c_indim c * (4 * n).
Definition fan_in (cs : list conn) : nat := list_sum (map c_indim cs).
Definition same_shape (cs cs' : list conn) : Prop := map c_indim cs' = map c_indim cs.

Section Run.
  Context {S : Type} (start : S) (step : S -> vec -> S * (vec * vec)) (factor : R).
  (** the inputs are the scaled outputs of the step before: those of the teacher, or the network's own *)
  Fixpoint forced (s : S) (prev : vec) (seq : list vec) : list vec * (S * vec) :=
    match seq with
    | [] => ([], (s, prev))
    | v :: rest => let '(s', (_, raw)) := step s (vscale factor prev) in
                   let (raws, e) := forced s' v rest in (raw :: raws, e)
    end.
  Fixpoint own (s : S) (prev : vec) (n : nat) : list vec :=
    match n with
    | 0 => []
    | Datatypes.S k => let '(s', (out, _)) := step s (vscale factor prev) in out :: own s' out k
    end.
  (** the networks that can be reached by using one in any way *)
  Inductive used (outdim hiddim : nat) : evo S -> Prop :=
  | used_new : used outdim hiddim (new_evo start outdim hiddim)
  | used_reset e : used outdim hiddim e -> used outdim hiddim (ereset start outdim hiddim e)
  | used_washout e seq o e' : used outdim hiddim e -> washout step outdim hiddim factor e seq = Ok (o, e') -> used outdim hiddim e'
  | used_generate e n o e' : used outdim hiddim e -> generate step outdim hiddim factor e n = Ok (o, e') -> used outdim hiddim e'.
  (** the recurrent network's layers have the right sizes *)
  Definition sized (outdim : nat) : Prop := forall s x, length (fst (snd (step s x))) = outdim.
End Run.

(** the floats of a genome, from left to right, and its form *)
Fixpoint floats (g : genome) : list R := match g with Leaf x => [x] | Node l => flat_map floats l end.
Fixpoint form (g : genome) : genome := match g with Leaf _ => Leaf 0%R | Node l => Node (map form l) end.
(** the k-th float and on, each changed with its own draw *)
Fixpoint mapk (man : nat -> R -> R) (k : nat) (l : list R) : list R := match l with [] => [] | x :: r => man k x :: mapk man (k + 1) r end.
