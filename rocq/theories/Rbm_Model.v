(** Restricted Boltzmann machines and their contrastive divergence trainers.

    pybrain/structure/networks/rbm.py           Rbm (whole file)
    pybrain/unsupervised/trainers/rbm.py        RbmGibbsTrainer, RbmBernoulliTrainer, RbmGaussTrainer
    pybrain/unsupervised/trainers/deepbelief.py DeepBeliefTrainer.iterRbms, train (control flow only)
    pybrain/structure/modules/samplelayer.py    BernoulliLayer

    Simplifications: real numbers for floats; an activation [Rbm.activate] is
    computed directly from the two FullConnections that feed the sigmoid layer
    (the general network semantics is Net_Model.v); random draws and the freshly
    initialised visible biases of an inverted machine are arguments; the batches
    are an argument (DataSet.randomBatches is Batches_Model.v). *)
From Coq Require Import Reals List Arith String Lra.
From Verif Require Import Base RingOps Net_Model Net_Gradient Layers_R.
Import ListNotations.
Open Scope R_scope.

(** ** The machine (networks/rbm.py:11-81) *)
Record rbm := { vdim : nat; hdim : nat; wts : nat -> R; bias : nat -> R }.

(** networks/rbm.py:80, connections/full.py:20: the weight matrix of a
    FullConnection is the flat parameter vector reshaped to (outdim, indim). *)
Definition preact (r : rbm) (x : nat -> R) (j : nat) : R :=
  sumn (vdim r) (fun i => wts r (j * vdim r + i)%nat * x i) + bias r j * 1.
Definition activate (r : rbm) (x : nat -> R) (j : nat) : R := sigmoid (preact r x j).

(** networks/rbm.py:74-78, 40-61: the dimensions are swapped, the flat
    parameter vector is copied as it is and the biases are left at their random
    initial values [fresh]. *)
Definition invert (fresh : nat -> R) (r : rbm) : rbm :=
  {| vdim := hdim r; hdim := vdim r; wts := wts r; bias := fresh |}.

(** ** One row (trainers/rbm.py:113-136) *)
Record delta := { d_w : nat -> nat -> R; d_hb : nat -> R; d_vb : nat -> R }.

Definition outer (a b : nat -> R) (i j : nat) : R := a i * b j.

Inductive kind := Bernoulli | Gauss.

(** trainers/rbm.py:168-170 and 184-185 ([random.normal(p, ones)] is p plus a
    standard normal draw). *)
Definition sampler (k : kind) (u p : nat -> R) (j : nat) : R :=
  match k with
  | Bernoulli => if Rlt_dec (u j) (p j) then 1 else 0
  | Gauss => p j + u j * 1
  end.

(** trainers/rbm.py:172-173 and 187-189 (182: the variances are all one). *)
Definition updater (k : kind) (pos neg : nat -> nat -> R) (poshb neghb posvb negvb : nat -> R) : delta :=
  let pos' := match k with Bernoulli => pos | Gauss => fun v h => pos v h / 1 end in
  {| d_w := fun v h => pos' v h - neg v h;
     d_hb := fun h => poshb h - neghb h;
     d_vb := fun v => posvb v - negvb v |}.

(** trainers/rbm.py:113-136 *)
Definition calcUpdateByRow (k : kind) (r inv : rbm) (row u : nat -> R) : delta :=
  let poshp := activate r row in
  let pos := outer row poshp in
  let sampled := sampler k u poshp in
  let recon := activate inv sampled in
  let neghp := activate r recon in
  let neg := outer recon neghp in
  updater k pos neg poshp neghp row recon.

Definition dzero : delta := {| d_w := fun _ _ => 0; d_hb := fun _ => 0; d_vb := fun _ => 0 |}.
Definition dadd (a b : delta) : delta :=
  {| d_w := fun v h => d_w a v h + d_w b v h;
     d_hb := fun h => d_hb a h + d_hb b h;
     d_vb := fun v => d_vb a v + d_vb b v |}.
Definition ddiv (a : delta) (n : R) : delta :=
  {| d_w := fun v h => d_w a v h / n; d_hb := fun h => d_hb a h / n; d_vb := fun v => d_vb a v / n |}.

(** trainers/rbm.py:144-163; [us] are the draws, one vector per row. *)
Definition calcUpdateByRows (k : kind) (r inv : rbm) (rows us : list (nat -> R)) : delta :=
  let total := fold_left (fun acc ru => dadd acc (calcUpdateByRow k r inv (fst ru) (snd ru))) (combine rows us) dzero in
  ddiv total (INR (List.length rows)).

(** ** Training (trainers/rbm.py:12-29, 46-101) *)
Record rbm_cfg := { rWeights : R; rHidBias : R; rVisBias : R; weightCost : R;
                    iniMm : R; finMm : R; mmSwitchIter : nat; maxIter : nat }.
Definition defaultCfg : rbm_cfg :=
  {| rWeights := 1 / 10; rHidBias := 1 / 10; rVisBias := 1 / 10; weightCost := 2 / 10000;
     iniMm := 5 / 10; finMm := 9 / 10; mmSwitchIter := 5; maxIter := 9 |}.

Record trainer := { t_rbm : rbm; t_inv : rbm }.

(** trainers/rbm.py:35-37 *)
Definition newTrainer (fresh : nat -> R) (r : rbm) : trainer := {| t_rbm := r; t_inv := invert fresh r |}.

(** trainers/rbm.py:59-101: one pass of the inner loop, with the velocities of
    the previous one. *)
Definition iteration (c : rbm_cfg) (k : kind) (t : nat) (rows us : list (nat -> R)) (fresh : nat -> R)
    (st : trainer * delta) : trainer * delta :=
  let (tr, old) := st in
  let r := t_rbm tr in
  let mm := if (t <? mmSwitchIter c)%nat then iniMm c else finMm c in
  let d := calcUpdateByRows k r (t_inv tr) rows us in
  let uw := fun v h => d_w old v h * mm + rWeights c * (d_w d v h - weightCost c * wts r (v * hdim r + h)%nat) in
  let uhb := fun h => d_hb old h * mm + rHidBias c * d_hb d h in
  let uvb := fun v => d_vb old v * mm + rVisBias c * d_vb d v in
  let r' := {| vdim := vdim r; hdim := hdim r;
               wts := fun i => wts r i + uw (i / hdim r)%nat (i mod hdim r)%nat;
               bias := fun h => bias r h + uhb h |} in
  let invBias := fun v => bias (t_inv tr) v + uvb v in
  let inv0 := invert fresh r' in
  let inv' := {| vdim := vdim inv0; hdim := hdim inv0; wts := wts inv0; bias := invBias |} in
  ({| t_rbm := r'; t_inv := inv' |}, {| d_w := uw; d_hb := uhb; d_vb := uvb |}).

(** The first [n] iterations on one batch, from zero velocities
    (trainers/rbm.py:55-59). *)
Fixpoint iterations (c : rbm_cfg) (k : kind) (rows : list (nat -> R)) (us : nat -> list (nat -> R)) (fresh : nat -> nat -> R)
    (n : nat) (tr : trainer) : trainer * delta :=
  match n with
  | O => (tr, dzero)
  | S t => iteration c k t rows (us t) (fresh t) (iterations c k rows us fresh t tr)
  end.

Record batch := { b_rows : list (nat -> R); b_draws : nat -> list (nat -> R); b_fresh : nat -> nat -> R }.

Definition trainBatch (c : rbm_cfg) (k : kind) (tr : trainer) (b : batch) : trainer :=
  fst (iterations c k (b_rows b) (b_draws b) (b_fresh b) (maxIter c) tr).

(** trainers/rbm.py:54: any number of batches (and of calls of [train]). *)
Definition trainBatches (c : rbm_cfg) (k : kind) (bs : list batch) (tr : trainer) : trainer :=
  fold_left (trainBatch c k) bs tr.

(** ** BernoulliLayer (samplelayer.py:18-21) *)
Definition bernoulliLayer (inbuf u : nat -> R) (j : nat) : R := if Rle_dec (inbuf j) (u j) then 1 else 0.

(** ** DeepBeliefTrainer (deepbelief.py:56-116): which exception, if any.
    [names] are the names of the neuron layers in topological order, each of
    them but the last with a connection to the next; there is one bias unit with
    a connection to every layer but the first, and it is not named 'visible'.
    (When two layers share the name 'visible' the set iteration order decides
    which of them line 36 finds; the model takes the first.)
    - 83: next() on an exhausted generator when there are no two layers;
    - networks/rbm.py:36-38: [net['visible']] is the module with that name or
      None; [net.connections[None]] raises KeyError, [connections[m][0]] on a module without
      outgoing connections raises IndexError;
    - deepbelief.py:100: an Rbm has no attribute [biasWeights]. *)
Inductive dbnExn := StopIteration | KeyErr | IndexErr | AttributeErr.

(** Rbm.fromModules (networks/rbm.py:63-72, 31-38) for two layers of the given
    names.  The second one has no outgoing connection. *)
Definition fromModules (visible hidden : string) : dbnExn + unit :=
  if String.eqb visible "visible" then inr tt
  else if String.eqb hidden "visible" then inl IndexErr
  else inl KeyErr.

Fixpoint iterRbms (names : list string) : list (dbnExn + unit) :=
  match names with
  | v :: (h :: _) as rest => fromModules v h :: iterRbms rest
  | _ => []
  end.

Definition deepTrain (names : list string) : dbnExn + unit :=
  match iterRbms names with
  | [] => inl StopIteration
  | inl e :: _ => inl e
  | inr _ :: _ => inl AttributeErr
  end.
