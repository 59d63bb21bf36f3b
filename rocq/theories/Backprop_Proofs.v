(** Proofs about BackpropTrainer.train for arbitrary _calcDerivs. *)
From Coq Require Import Ring.
From Verif Require Import Base RingOps Backprop_Model Backprop_Spec.

Section P.
Context {K : Type} {Ops : RingOps K} {Lw : RingLaws K}.
Add Ring Kr : (@rlaws K Ops Lw).
Local Open Scope r_scope.
Context {S : Type} (err pond : list K -> S -> K) (grad : list K -> S -> list K).
Context (momentum alphadecay weightdecay : K).
Notation trainer := (@trainer K).
Notation descend := (descend momentum alphadecay).
Notation train_loop := (train_loop err pond grad momentum alphadecay weightdecay).
Notation train := (train err pond grad momentum alphadecay weightdecay).
Notation moves := (moves momentum alphadecay).

Lemma zipw_len (f : K -> K -> K) a : forall b, length a = length b -> length (zipw f a b) = length a.
Proof. induction a as [|x a IH]; intros [|y b] H; cbn in *; auto; try discriminate. Qed.
Lemma zipw_nth (f : K -> K -> K) a : forall b i, length a = length b -> (i < length a)%nat -> nth i (zipw f a b) 0 = f (nth i a 0) (nth i b 0).
Proof.
  induction a as [|x a IH]; intros [|y b] i H Hi; cbn in *; try discriminate; try lia.
  destruct i as [|i]; [reflexivity|]. apply IH; lia.
Qed.
Lemma nth_scale (c : K) l i : (i < length l)%nat -> nth i (map (fun x => c * x) l) 0 = c * nth i l 0.
Proof. intro H. rewrite (nth_indep _ 0 (c * 0)) by (rewrite map_length; auto). apply (map_nth (fun x => c * x)). Qed.
Lemma nth_scale_r (c : K) l i : (i < length l)%nat -> nth i (map (fun x => x * c) l) 0 = nth i l 0 * c.
Proof. intro H. rewrite (nth_indep _ 0 (0 * c)) by (rewrite map_length; auto). apply (map_nth (fun x => x * c)). Qed.
Lemma nth_zeros (l : list K) i : nth i (map (fun _ => 0) l) 0 = 0.
Proof. revert i. induction l as [|x l IH]; intros [|i]; cbn; auto. Qed.
Lemma list_ext (a b : list K) : length a = length b -> (forall i, (i < length a)%nat -> nth i a 0 = nth i b 0) -> a = b.
Proof. intros H1 H2. apply (nth_ext a b 0 0); auto. Qed.

Ltac okeq := apply f_equal; apply f_equal2; [apply f_equal2; [reflexivity|ring]|ring].
(** all arrays have one length *)
Definition wf_t (t : trainer) : Prop :=
  length (t_derivs t) = length (t_params t) /\ length (t_values t) = length (t_params t) /\ length (t_momvec t) = length (t_params t) /\
  (t_shared t = true -> t_params t = t_values t).
Definition here (t : trainer) : point := mkpoint (t_values t) (t_momvec t) (t_alpha t).

Lemma descend_ok t g : wf_t t -> length g = length (t_params t) ->
  exists t', descend t g = Ok t' /\ wf_t t' /\ moves (fun i => nth i g 0) (here t) (here t') /\
    t_params t' = (if t_shared t then t_values t' else t_params t) /\ t_derivs t' = t_derivs t /\ t_shared t' = t_shared t /\ t_epoch t' = t_epoch t /\
    length (t_values t') = length (t_values t).
Proof.
  intros (W1 & W2 & W3 & W4) Hg. unfold Backprop_Model.descend. rewrite Hg, W2, Nat.eqb_refl. cbn [negb]. eexists. split; [reflexivity|].
  set (mv := zipw radd (map (fun m => m * momentum) (t_momvec t)) (map (fun x => t_alpha t * x) g)).
  assert (Hmv : length mv = length (t_params t)) by (unfold mv; rewrite zipw_len; rewrite !map_length; congruence).
  assert (Hv : length (zipw radd (t_values t) mv) = length (t_params t)) by (rewrite zipw_len; congruence).
  split; [|split].
  - unfold wf_t. cbn. destruct (t_shared t) eqn:E; rewrite ?Hv, ?Hmv; repeat split; auto. discriminate.
  - unfold Backprop_Spec.moves, here. cbn. rewrite Hv, Hmv, W2. split; [reflexivity|]. split; [reflexivity|]. split; [reflexivity|].
    intros i Hi. split.
    + unfold mv. rewrite zipw_nth by (rewrite !map_length; congruence). rewrite nth_scale_r by lia. rewrite nth_scale by lia. ring.
    + rewrite zipw_nth by congruence. reflexivity.
  - cbn. repeat split; auto; congruence.
Qed.

Context (n : nat) (Hgrad : forall th s, length th = n -> length (grad th s) = n).

(** one pass of the loop in online mode *)
Lemma online_step t s r e p : wf_t t -> length (t_params t) = n -> t_derivs t = map (fun _ => 0) (t_params t) ->
  exists t', train_loop false (s :: r) t e p = train_loop false r t' (e + err (t_params t) s) (p + pond (t_params t) s) /\
    wf_t t' /\ t_params t' = t_values t' /\ t_derivs t' = map (fun _ => 0) (t_params t') /\ length (t_params t') = length (t_params t) /\
    moves (fun i => nth i (grad (t_params t) s) 0 - weightdecay * nth i (t_params t) 0) (here t) (here t') /\ t_shared t' = t_shared t /\ t_epoch t' = t_epoch t.
Proof.
  intros W Hn Hz. pose proof W as (W1 & W2 & W3 & W4). cbn [Backprop_Model.train_loop].
  assert (Hgs : length (grad (t_params t) s) = length (t_params t)) by (rewrite Hgrad; auto).
  set (g := zipw rsub (t_derivs (add_derivs t (grad (t_params t) s))) (map (fun w => weightdecay * w) (t_params (add_derivs t (grad (t_params t) s))))).
  assert (Hl : length (zipw radd (t_derivs t) (grad (t_params t) s)) = length (t_params t)) by (rewrite zipw_len; rewrite ?Hgs; auto).
  assert (Hg : length g = length (t_params t)) by (unfold g; cbn; rewrite zipw_len; rewrite ?map_length; auto).
  assert (W' : wf_t (add_derivs t (grad (t_params t) s))) by (unfold wf_t; cbn; rewrite Hl; repeat split; auto).
  destruct (descend_ok _ g W' Hg) as (t2 & E & (V1 & V2 & V3 & V4) & Hm & Hp & Hd & Hs & He & Hlen).
  rewrite E. cbn [rbind]. exists (zero_derivs (copy_values t2)). split; [reflexivity|].
  assert (Hlen' : length (t_values t2) = length (t_params t)) by (rewrite Hlen; exact W2).
  assert (Hlp : length (t_params t2) = length (t_params t)) by (rewrite <- V2; exact Hlen').
  split; [|split; [reflexivity|split; [|split; [|split; [|split]]]]].
  - unfold wf_t; cbn. rewrite map_length. repeat split; congruence.
  - cbn. apply list_ext; rewrite ?map_length; [congruence|]. intros i Hi. rewrite !nth_zeros. reflexivity.
  - cbn. exact Hlen'.
  - destruct Hm as (M1 & M2 & M3 & M4). split; [exact M1|]. split; [exact M2|]. split; [exact M3|]. intros i Hi. specialize (M4 i Hi). cbn in M4, Hi |- *.
    destruct M4 as (M4 & M5). split; [|exact M5]. rewrite M4. f_equal. f_equal. unfold g. cbn.
    rewrite W2 in Hi. rewrite zipw_nth by (rewrite ?map_length; lia). rewrite zipw_nth by (rewrite ?Hgs; lia). rewrite nth_scale by lia.
    rewrite Hz, nth_zeros. ring.
  - exact Hs.
  - exact He.
Qed.

Lemma online_loop l : forall t e p, wf_t t -> length (t_params t) = n -> t_params t = t_values t -> t_derivs t = map (fun _ => 0) (t_params t) ->
  exists t' e' p', train_loop false l t e p = Ok (t', e + e', p + p') /\
    wf_t t' /\ t_params t' = t_values t' /\ t_derivs t' = map (fun _ => 0) (t_params t') /\ length (t_params t') = length (t_params t) /\
    online err pond grad momentum alphadecay weightdecay l (here t) (here t') e' p' /\ t_shared t' = t_shared t /\ t_epoch t' = t_epoch t.
Proof.
  induction l as [|s r IH]; intros t e p W Hn Hs Hz.
  - exists t, 0, 0. cbn. split; [okeq|]. split; [exact W|]. repeat split; auto. constructor.
  - destruct (online_step t s r e p W Hn Hz) as (t1 & E & W1 & S1 & Z1 & L1 & M1 & H1 & K1).
    destruct (IH t1 (e + err (t_params t) s) (p + pond (t_params t) s) W1 ltac:(congruence) S1 Z1) as (t2 & e2 & p2 & E2 & W2 & S2 & Z2 & L2 & M2 & H2 & K2).
    exists t2, (err (t_params t) s + e2), (pond (t_params t) s + p2). rewrite E, E2. split; [okeq|].
    split; [exact W2|]. repeat split; try congruence.
    replace (t_params t) with (pt_theta (here t)) by (cbn; congruence). econstructor; [|exact M2]. cbn. rewrite <- Hs. exact M1.
Qed.

(** batch mode *)
Lemma batch_loop l : forall t e p, wf_t t -> length (t_params t) = n ->
  exists t', train_loop true l t e p = Ok (t', e + suml l (err (t_params t)), p + suml l (pond (t_params t))) /\
    wf_t t' /\ t_params t' = t_params t /\ here t' = here t /\ t_shared t' = t_shared t /\ t_epoch t' = t_epoch t /\
    forall i, (i < length (t_params t))%nat -> nth i (t_derivs t') 0 = nth i (t_derivs t) 0 + suml l (fun s => nth i (grad (t_params t) s) 0).
Proof.
  induction l as [|s r IH]; intros t e p W Hn; pose proof W as (W1 & W2 & W3 & W4).
  - exists t. cbn. split; [okeq|]. repeat split; auto. intros. ring.
  - cbn [Backprop_Model.train_loop].
    assert (Hgs : length (grad (t_params t) s) = length (t_params t)) by (rewrite Hgrad; auto).
    assert (Hl : length (zipw radd (t_derivs t) (grad (t_params t) s)) = length (t_params t)) by (rewrite zipw_len; rewrite ?Hgs; auto).
    assert (W' : wf_t (add_derivs t (grad (t_params t) s))) by (unfold wf_t; cbn; rewrite Hl; repeat split; auto).
    destruct (IH (add_derivs t (grad (t_params t) s)) (e + err (t_params t) s) (p + pond (t_params t) s) W' Hn) as (t' & E & V & P1 & H1 & S1 & E1 & D1).
    exists t'. cbn in E, P1, H1, S1, E1, D1. rewrite E. split; [cbn [suml]; okeq|]. split; [exact V|]. repeat split; auto.
    intros i Hi. rewrite D1 by auto. rewrite zipw_nth by (rewrite ?Hgs; lia). cbn [suml]. ring.
Qed.

Lemma wf_zero t : wf_t t -> wf_t (zero_derivs t).
Proof. intros (W1 & W2 & W3 & W4). unfold wf_t. cbn. rewrite map_length. auto. Qed.
Lemma zero_zero t : wf_t t -> t_derivs (zero_derivs t) = map (fun _ => 0) (t_params (zero_derivs t)).
Proof. intros (W1 & _). cbn. apply list_ext; rewrite ?map_length; auto. intros. rewrite !nth_zeros. reflexivity. Qed.

Lemma train_online owns l t : wf_t t -> length (t_params t) = n -> t_params t = t_values t -> l <> [] ->
  exists t' e p, train false owns l t = Ok (t', e, p) /\ wf_t t' /\ t_params t' = t_values t' /\
    online err pond grad momentum alphadecay weightdecay l (here t) (here t') e p /\ t_shared t' = t_shared t /\ t_epoch t' = (t_epoch t + 1)%nat /\ length (t_params t') = length (t_params t).
Proof.
  intros W Hn Hs Hl. unfold Backprop_Model.train. destruct l as [|s r]; [congruence|]. set (l := s :: r) in *.
  destruct (online_loop l (zero_derivs t) 0 0 (wf_zero t W) Hn Hs (zero_zero t W)) as (t' & e & p & E & V & S1 & Z1 & L1 & M1 & H1 & K1).
  rewrite E. cbn [rbind]. exists (mktrainer (t_params t') (t_derivs t') (t_values t') (t_alpha t') (t_momvec t') (t_shared t') (t_epoch t' + 1)), e, p.
  split; [okeq|]. cbn. split; [exact V|]. repeat split; auto.
Qed.

Lemma train_batch owns l t : wf_t t -> length (t_params t) = n -> l <> [] ->
  exists t', train true owns l t = Ok (t', suml l (err (t_params t)), suml l (pond (t_params t))) /\ wf_t t' /\ t_params t' = t_values t' /\
    moves (fun i => suml l (fun s => nth i (grad (t_params t) s) 0)) (here t) (here t') /\
    t_shared t' = (if owns then t_shared t else true) /\ t_epoch t' = (t_epoch t + 1)%nat /\ length (t_params t') = length (t_params t).
Proof.
  intros W Hn Hl. unfold Backprop_Model.train. destruct l as [|s r]; [congruence|]. set (l := s :: r) in *.
  destruct (batch_loop l (zero_derivs t) 0 0 (wf_zero t W) Hn) as (t1 & E & V & P1 & H1 & S1 & E1 & D1).
  rewrite E. cbn [rbind]. cbn in P1, S1, E1, D1.
  pose proof V as (V1 & V2 & V3 & V4).
  destruct (descend_ok t1 (t_derivs t1) V V1) as (t2 & E2 & (U1 & U2 & U3 & U4) & M2 & P2 & D2 & S2 & K2 & L2).
  rewrite E2. cbn [rbind].
  exists (mktrainer (t_values t2) (t_derivs t2) (t_values t2) (t_alpha t2) (t_momvec t2) (if owns then t_shared t2 else true) (t_epoch t2 + 1)).
  split; [cbn; okeq|]. split; [|split; [reflexivity|split; [|split; [|split]]]].
  - unfold wf_t. cbn. repeat split; congruence.
  - rewrite H1 in M2. destruct M2 as (M1 & M2 & M3 & M4). split; [exact M1|]. split; [exact M2|]. split; [exact M3|].
    intros i Hi. destruct (M4 i Hi) as (A & B). split; [|exact B]. refine (eq_trans A _). f_equal. f_equal.
    pose proof W as (W1 & W2 & W3 & W4). cbn in Hi. rewrite D1 by lia. rewrite nth_zeros. unfold l. cbn [suml]. ring.
  - cbn. rewrite S2, S1. reflexivity.
  - cbn. rewrite K2, E1. reflexivity.
  - cbn. rewrite L2, V2, P1. reflexivity.
Qed.

(** the first online step of a trainer whose values are not the parameters *)
Lemma train_stale owns s r t : wf_t t -> length (t_params t) = n ->
  exists t1 t2 e p, train false owns (s :: r) t = Ok (t2, err (t_params t) s + e, pond (t_params t) s + p) /\
    moves (fun i => nth i (grad (t_params t) s) 0 - weightdecay * nth i (t_params t) 0) (here t) t1 /\
    online err pond grad momentum alphadecay weightdecay r t1 (here t2) e p /\ wf_t t2 /\ t_params t2 = t_values t2 /\ length (t_params t2) = n /\ t_shared t2 = t_shared t.
Proof.
  intros W Hn. unfold Backprop_Model.train.
  destruct (online_step (zero_derivs t) s r 0 0 (wf_zero t W) Hn (zero_zero t W)) as (t1 & E & W1 & S1 & Z1 & L1 & M1 & H1 & K1).
  destruct (online_loop r t1 (0 + err (t_params t) s) (0 + pond (t_params t) s) W1 ltac:(cbn in L1; congruence) S1 Z1) as (t2 & e2 & p2 & E2 & W2 & S2 & Z2 & L2 & M2 & H2 & K2).
  rewrite E. cbn [t_params zero_derivs]. rewrite E2. cbn [rbind].
  exists (here t1), (mktrainer (t_params t2) (t_derivs t2) (t_values t2) (t_alpha t2) (t_momvec t2) (t_shared t2) (t_epoch t2 + 1)), e2, p2.
  split; [okeq|]. split; [exact M1|]. split; [exact M2|]. split; [exact W2|]. split; [exact S2|]. cbn in *. split; congruence.
Qed.
End P.
