(** Specification of the network function: equations between the inputs and outputs of
    modules, without buffers, loops or order of evaluation. *)
From Verif Require Import Base RingOps Net_Model.

Section Spec.
Context {K : Type} {Ops : RingOps K}.
Notation vec := (@vec K).

Definition before {A} (u v : A) (l : list A) : Prop := exists l1 l2 l3, l = l1 ++ u :: l2 ++ v :: l3.

(** the shapes the constructors of the connections check (or assume) *)
Definition wf_conn (L : nat -> @layer K) (c : conn) : Prop :=
  c_inFrom c <= c_inTo c /\ c_inTo c <= l_out (L (c_in c)) /\
  c_outFrom c <= c_outTo c /\ c_outTo c <= l_in (L (c_out c)) /\
  match c_kind c with
  | CFull => True
  | CIdentity | CLinear | CFullNotSelf => c_indim c = c_outdim c
  | CPerm perm bs => c_indim c = c_outdim c /\ 0 < bs /\ length perm * bs = c_indim c /\
                     Permutation perm (seq 0 (length perm))
  end.

(** a sorted network: C13 provides this order *)
Record wf_net (N : @net K) : Prop := {
  wf_nodup : NoDup (n_sorted N);
  wf_conns : forall m c, In m (n_sorted N) -> In c (n_conns N m) ->
               c_in c = m /\ before m (c_out c) (n_sorted N) /\ wf_conn (n_layer N) c;
  wf_rec : forall c, In c (n_rec N) -> In (c_in c) (n_sorted N) /\ In (c_out c) (n_sorted N) /\ wf_conn (n_layer N) c;
  wf_in : NoDup (n_inmods N) /\ incl (n_inmods N) (n_sorted N);
  wf_out : NoDup (n_outmods N) /\ incl (n_outmods N) (n_sorted N)
}.

(** a module looks only at its input, and only at its first l_in components *)
Definition layer_local (l : @layer K) : Prop :=
  forall x y i, (forall j, j < l_in l -> x j = y j) -> i < l_out l -> l_fwd l x zvec i = l_fwd l y zvec i.

(** the value a connection delivers at position i of its target, for source outputs x *)
Definition delivers (P : nat -> vec) (c : conn) (x : vec) (i : nat) : K :=
  if (c_outFrom c <=? i) && (i <? c_outTo c)
  then op_fwd (c_kind c) (c_indim c) (c_outdim c) (P (c_par c)) (fun j => x (c_inFrom c + j)) (i - c_outFrom c)
  else r0.

(** the part of the external input that module m receives: its position among the input
    modules decides where its slice starts *)
Fixpoint external (L : nat -> @layer K) (ms : list nat) (index : nat) (x : vec) (m : nat) : vec :=
  match ms with
  | [] => zvec
  | a :: t => if a =? m then (fun i => x (index + i)) else external L t (index + l_in (L a)) x m
  end.

(** all connections of the network, from any module *)
Definition all_conns (N : @net K) : list conn := flat_map (n_conns N) (n_sorted N).

(** "I and O are the inputs and outputs of all modules over a sequence of external inputs":
    the recurrence with zero initial state *)
Definition recurrence (N : @net K) (P : nat -> vec) (xs : list vec) (I O : nat -> nat -> vec) : Prop :=
  forall t x m, nth_error xs t = Some x -> In m (n_sorted N) ->
    (forall i, i < l_in (n_layer N m) ->
       I m t i = radd (radd (external (n_layer N) (n_inmods N) 0 x m i)
                   (suml (filter (fun c => c_out c =? m) (all_conns N)) (fun c => delivers P c (O (c_in c) t) i)))
                   (match t with
                    | O => r0
                    | S t' => suml (filter (fun c => c_out c =? m) (n_rec N)) (fun c => delivers P c (O (c_in c) t') i)
                    end)) /\
    (forall i, i < l_out (n_layer N m) -> O m t i = l_fwd (n_layer N m) (I m t) zvec i).
End Spec.
