(** C17, C21, C22: what activation of a network computes. *)
From Coq Require Import Ring ZArith.
From Verif Require Import Base RingOps Net_Model Net_Spec Propagate Net_Events Net_Forward Net_Forget.

#[global] Instance ZOps : RingOps Z := {| r0 := 0%Z; r1 := 1%Z; radd := Z.add; rmul := Z.mul; rsub := Z.sub; ropp := Z.opp |}.
#[global] Instance ZLaws : RingLaws Z := InitialRing.Zth.

(** the modelled layers look only at their input buffer below indim *)
Section Local.
Context {K : Type} {Ops : RingOps K}.
Lemma linear_local n : layer_local (linear_layer n).
Proof. intros x y i H Hi. apply H. exact Hi. Qed.
Lemma bias_local : layer_local bias_unit.
Proof. intros x y i H Hi. reflexivity. Qed.
Lemma elem_local n f h : layer_local (elem_layer n f h).
Proof. intros x y i H Hi. cbn in *. rewrite H; auto. Qed.
Lemma multiplication_local n : layer_local (multiplication_layer n).
Proof. intros x y i H Hi. cbn [l_in l_out l_fwd multiplication_layer] in *. rewrite !H by lia. auto. Qed.
Lemma gate_local n f h : layer_local (gate_layer n f h).
Proof. intros x y i H Hi. cbn [l_in l_out l_fwd gate_layer] in *. rewrite !H by lia. auto. Qed.
Lemma double_gate_local n f h : layer_local (double_gate_layer n f h).
Proof.
  intros x y i H Hi. cbn [l_in l_out l_fwd double_gate_layer] in *. destruct (Nat.ltb_spec i n); rewrite !H by lia; auto.
Qed.
Lemma switch_local n f h : layer_local (switch_layer n f h).
Proof.
  intros x y i H Hi. cbn [l_in l_out l_fwd switch_layer] in *. destruct (Nat.ltb_spec i n); rewrite !H by lia; auto.
Qed.
End Local.

(** C17: activating a feed-forward network yields a solution of the network's equations
    with the given input, whatever happened before (s), and the returned vector is made
    of the outputs of the output modules; the equations have only one solution. *)
Theorem C17_activation_solves_network_equations (K : Type) (Ops : RingOps K) (Lw : RingLaws K)
  (N : net) (P : nat -> vec) (s : bufs * derivs) (x : vec) :
  wf_net N ->
  exists I O, recurrence N P [x] I O /\ forall i, snd (ff_activate N P s x) i = net_output N O 0 i.
Proof. apply ff_solution. Qed.
Theorem C17_network_function (K : Type) (Ops : RingOps K) (Lw : RingLaws K)
  (N : net) (P : nat -> vec) (s : bufs * derivs) (x : vec) I O :
  wf_net N -> (forall m, In m (n_sorted N) -> layer_local (n_layer N m)) ->
  recurrence N P [x] I O -> forall i, snd (ff_activate N P s x) i = net_output N O 0 i.
Proof. apply ff_outputs. Qed.
Print Assumptions C17_activation_solves_network_equations.
Print Assumptions C17_network_function.

(** C21: a recurrent network after a reset (any derivatives, any maxoffset, any buffer
    length) computes the recurrence with zero initial state, over sequences of any length. *)
Theorem C21_recurrent_activation_is_recurrence (K : Type) (Ops : RingOps K) (Lw : RingLaws K)
  (N : net) (P : nat -> vec) d mo len xs :
  wf_net N -> 0 < len ->
  exists s' ys, run_acts (rec_activate N P) (mkr reset_bufs d 0 mo len) xs = (s', ys) /\ length ys = length xs /\ r_d s' = d /\
    exists I O, recurrence N P xs I O /\ forall t y, nth_error ys t = Some y -> forall i, y i = net_output N O t i.
Proof. apply rec_solution. Qed.
Theorem C21_recurrence_determines_outputs (K : Type) (Ops : RingOps K) (Lw : RingLaws K)
  (N : net) (P : nat -> vec) d mo len xs I O :
  wf_net N -> (forall m, In m (n_sorted N) -> layer_local (n_layer N m)) -> 0 < len ->
  recurrence N P xs I O ->
  forall t y, nth_error (snd (run_acts (rec_activate N P) (mkr reset_bufs d 0 mo len) xs)) t = Some y ->
  forall i, y i = net_output N O t i.
Proof. apply rec_outputs. Qed.
(** reset erases the past: whatever state a network is in, its outputs after reset are those
    of a new one *)
Theorem C21_reset_erases_history (K : Type) (Ops : RingOps K) (Lw : RingLaws K)
  (N : net) (P : nat -> vec) (s : rstate) d mo len xs :
  wf_net N -> (forall m, In m (n_sorted N) -> layer_local (n_layer N m)) -> 0 < r_len s -> 0 < len ->
  forall t y y',
    nth_error (snd (run_acts (rec_activate N P) (rec_reset s) xs)) t = Some y ->
    nth_error (snd (run_acts (rec_activate N P) (mkr reset_bufs d 0 mo len) xs)) t = Some y' ->
    forall i, y i = y' i.
Proof.
  intros W HL Hs Hl t y y' Hy Hy' i.
  destruct (rec_solution N P (r_d s) (r_maxoffset s) (r_len s) xs W Hs) as (s' & ys & E & _ & _ & I & O & R & Ho).
  transitivity (net_output N O t i).
  - change (rec_reset s) with (fresh (r_d s) (r_maxoffset s) (r_len s)) in Hy. rewrite E in Hy. exact (Ho t y Hy i).
  - symmetry. exact (rec_outputs N P d mo len xs I O W HL Hl R t y' Hy' i).
Qed.
Print Assumptions C21_recurrent_activation_is_recurrence.
Print Assumptions C21_recurrence_determines_outputs.
Print Assumptions C21_reset_erases_history.

(** C22: forget=True yields the same outputs with at most two rows of memory *)
Theorem C22_forget_same_outputs (K : Type) (Ops : RingOps K) (Lw : RingLaws K)
  (N : net) (P : nat -> vec) d d' mo mo' len len' xs :
  wf_net N -> (forall m, In m (n_sorted N) -> layer_local (n_layer N m)) -> 0 < len -> 0 < len' ->
  forall t y y',
    nth_error (snd (run_acts (rec_activate_forget N P) (mkr reset_bufs d 0 mo len) xs)) t = Some y ->
    nth_error (snd (run_acts (rec_activate N P) (mkr reset_bufs d' 0 mo' len') xs)) t = Some y' ->
    forall i, y i = y' i.
Proof. apply forget_same_outputs. Qed.
Theorem C22_forget_constant_memory (K : Type) (Ops : RingOps K) (Lw : RingLaws K)
  (N : net) (P : nat -> vec) d mo len xs :
  wf_net N -> 0 < len ->
  exists s' ys, run_acts (rec_activate_forget N P) (mkr reset_bufs d 0 mo len) xs = (s', ys) /\ length ys = length xs /\
    r_len s' <= Nat.max 2 len /\
    exists I O, recurrence N P xs I O /\ forall t y, nth_error ys t = Some y -> forall i, y i = net_output N O t i.
Proof. apply forget_solution. Qed.
Print Assumptions C22_forget_same_outputs.
Print Assumptions C22_forget_constant_memory.

(** A network over Z: input module 0 (2 units), bias 1, hidden 2 (2 units, squaring), output
    3 (1 unit); full connections 0-2, 1-2, 2-3, 0-3 (a shortcut on a slice), and recurrent
    connections 2-2 and 3-2. *)
Open Scope Z_scope.
Definition exL (m : nat) : layer := match m with
  | 0%nat => linear_layer 2 | 1%nat => bias_unit | 2%nat => elem_layer 2 (fun z => z * z) (fun o => o) | _ => linear_layer 1 end.
Definition exP (k : nat) : vec := match k with
  | 0%nat => fun i => nth i [1; 2; -1; 1] 0 | 1%nat => fun i => nth i [3; -2] 0 | 2%nat => fun i => nth i [1; -1] 0
  | 3%nat => fun i => nth i [5] 0 | 4%nat => fun i => nth i [0; 1; 1; 0] 0 | _ => fun i => nth i [1; 2] 0 end.
Definition exN : net := mknet exL [0; 1; 2; 3]%nat
  (fun m => match m with
    | 0%nat => [mkconn 0 2 0 2 0 2 CFull 0; mkconn 0 3 1 2 0 1 CFull 3]%nat
    | 1%nat => [mkconn 1 2 0 1 0 2 CFull 1]%nat | 2%nat => [mkconn 2 3 0 2 0 1 CFull 2]%nat | _ => [] end)
  [mkconn 2 2 0 2 0 2 CFull 4; mkconn 3 2 0 1 0 2 CFull 5]%nat [0]%nat [3]%nat.
Definition exx (a b : Z) : vec := fun i => nth i [a; b] 0.
Close Scope Z_scope.

Lemma exN_wf : wf_net exN.
Proof.
  split.
  - repeat constructor; cbn; intuition discriminate.
  - assert (B : before 0 2 [0; 1; 2; 3] /\ before 0 3 [0; 1; 2; 3] /\ before 1 2 [0; 1; 2; 3] /\ before 2 3 [0; 1; 2; 3]).
    { split; [exists [], [1], [3]; reflexivity|]. split; [exists [], [1; 2], []; reflexivity|].
      split; [exists [0], [], [3]; reflexivity|exists [0; 1], [], []; reflexivity]. }
    intros m c Hm Hc. cbn in Hm, Hc. destruct B as (B1 & B2 & B3 & B4).
    destruct Hm as [<-|[<-|[<-|[<-|[]]]]]; cbn in Hc; intuition; subst c; cbn; auto; unfold wf_conn; cbn; lia.
  - intros c [<-|[<-|[]]]; cbn; unfold wf_conn; cbn; lia.
  - split; [repeat constructor; cbn; intuition discriminate|]. intros a [<-|[]]. cbn; auto.
  - split; [repeat constructor; cbn; intuition discriminate|]. intros a [<-|[]]. cbn; auto.
Qed.
Lemma exN_local m : In m (n_sorted exN) -> layer_local (n_layer exN m).
Proof.
  intros [<-|[<-|[<-|[<-|[]]]]]; cbn; auto using linear_local, bias_local, elem_local.
Qed.
Example C17_example : wf_net exN /\ snd (ff_activate exN exP (reset_bufs, fun _ => zvec) (exx 1 (-2))) 0 = (-35)%Z.
Proof. split; [apply exN_wf|]. vm_compute. reflexivity. Qed.
Example C21_example : wf_net exN /\
  map (fun y => y 0) (snd (run_acts (rec_activate exN exP) (mkr reset_bufs (fun _ => zvec) 0 7 1) [exx 1 (-2); exx 0 1; exx 2 2])) = [-35; -5011; -99978470]%Z.
Proof. split; [apply exN_wf|]. vm_compute. reflexivity. Qed.
Example C22_example : wf_net exN /\
  map (fun y => y 0) (snd (run_acts (rec_activate_forget exN exP) (mkr reset_bufs (fun _ => zvec) 0 0 1) [exx 1 (-2); exx 0 1; exx 2 2])) = [-35; -5011; -99978470]%Z.
Proof. split; [apply exN_wf|]. vm_compute. reflexivity. Qed.
