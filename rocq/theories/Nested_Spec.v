(** Specification for nested networks: an inner network is the layer whose forward pass is
    activating it on its own and whose backward pass is back-activating it after that. *)
From Verif Require Import Base RingOps Net_Model Net_Spec Net_Adjoint Nested_Model.

Section Spec.
Context {K : Type} {Ops : RingOps K}.
Notation vec := (@vec K).

Definition netlayer (N : @net K) (Q : nat -> vec) : @layer K :=
  mklayer (in_dim N) (out_dim N)
    (fun x _ => snd (ff_activate N Q (reset_bufs, fun _ => zvec) x))
    (fun e _ _ x => snd (ff_backActivate N Q (fst (ff_activate N Q (reset_bufs, fun _ => zvec) x)) e)).

(** the layer that the module t at path p amounts to *)
Fixpoint lay (P : path -> nat -> vec) (t : @tmod K) (p : path) : @layer K :=
  match t with
  | TLayer l => l
  | TNet mods sorted conns inm outm => netlayer (mknet (fun m => lay P (mods m) (m :: p)) sorted conns [] inm outm) (P p)
  end.
(** the network at p, with its modules replaced by the layers they amount to *)
Definition flat (P : path -> nat -> vec) (p : path) mods sorted conns inm outm : @net K :=
  mknet (fun m => lay P (mods m) (m :: p)) sorted conns [] inm outm.

(** shapes only *)
Definition shape (mods : nat -> @tmod K) sorted conns inm outm : @net K :=
  mknet (fun m => mklayer (t_in (mods m)) (t_out (mods m)) (fun x _ => x) (fun e _ _ _ => e)) sorted conns [] inm outm.

(** every network in the tree is sorted and well-formed, with parameter containers Kp of
    dimensions pdim *)
Fixpoint tree_ok (Kp : path -> list nat) (pdim : path -> nat -> nat) (t : @tmod K) (p : path) : Prop :=
  match t with
  | TLayer _ => True
  | TNet mods sorted conns inm outm =>
      let S := shape mods sorted conns inm outm in
      (wf_net S /\ conns_good S /\ params_of S (Kp p) (pdim p)) /\
      forall m, In m sorted -> tree_ok Kp pdim (mods m) (m :: p)
  end.

(** the modules of the network at p, seen as the buffers of a network on its own *)
Definition view (p : path) (B : @tbufs K) : @bufs K := fun m o => match o with 0 => B (m :: p) | S _ => zbuf end.
(** every network of the tree is in the state in which activating it on its own, on the
    input it received, would leave it *)
Fixpoint settled (P : path -> nat -> vec) (t : @tmod K) (p : path) (B : tbufs) : Prop :=
  match t with
  | TLayer _ => True
  | TNet mods sorted conns inm outm =>
      view p B = ff_forward (flat P p mods sorted conns inm outm) (P p) reset_bufs (b_in (B p)) /\
      forall m, In m sorted -> settled P (mods m) (m :: p) B
  end.

(** the networks of the tree *)
Fixpoint nets (t : @tmod K) (p : path) : list path :=
  match t with
  | TLayer _ => []
  | TNet mods sorted _ _ _ => p :: flat_map (fun m => nets (mods m) (m :: p)) sorted
  end.

(** the leaves are differentiable at the inputs they received *)
Fixpoint leaves (D : @layer K -> vec -> Prop) (B : tbufs) (t : @tmod K) (p : path) : Prop :=
  match t with
  | TLayer l => D l (b_in (B p))
  | TNet mods sorted _ _ _ => forall m, In m sorted -> leaves D B (mods m) (m :: p)
  end.
End Spec.
