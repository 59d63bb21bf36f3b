(** C18, C19, C23: gradients of networks and softmax layers over the real numbers. *)
From Coq Require Import Ring Reals Lra ZArith.
From Verif Require Import Base RingOps Net_Model Net_Spec Propagate Net_Events Net_Forward Conn_Adjoint Net_Backward Net_Adjoint Net_Gradient Net_Gradient2 Layers_R Net_Forget Net_Props.
Local Open Scope R_scope.

(** ** C18 *)
(** One activate and one backActivate on a feed-forward network: the derivative of <e, output>
    along any change dP of the parameters and dx of the input is
    <returned input error, dx> + <what was added to the derivatives, dP>. *)
Theorem C18_feedforward_gradient (N : rnet) (P dP : nat -> rvec) (x dx e : rvec) (s0 : @bufs R * @derivs R) (ks : list nat) (pdim : nat -> nat) :
  wf_net N -> n_rec N = [] -> (forall m, In m (n_sorted N) -> layer_local (n_layer N m)) -> conns_good N -> params_of N ks pdim ->
  let s1 := fst (ff_activate N P s0 x) in
  let s2 := fst (ff_backActivate N P s1 e) in
  let inerr := snd (ff_backActivate N P s1 e) in
  (forall m, In m (n_sorted N) -> layer_diff_at (n_layer N m) (b_in (fst s1 m 0%nat))) ->
  derivable_pt_lim
    (fun s => dot (out_dim N) e (snd (ff_activate N (fun k q => P k q + s * dP k q) s0 (fun j => x j + s * dx j)))) 0
    (dot (in_dim N) inerr dx + suml ks (fun k => dot (pdim k) (fun q => snd s2 k q - snd s1 k q) (dP k))).
Proof. apply ff_gradient. Qed.

(** A recurrent network run forward T steps and backward T steps: the derivative of
    sum_t <E t, output at t> (back-propagation through time). *)
Theorem C18_recurrent_gradient (N : rnet) (P dP : nat -> rvec) (X dX E : nat -> rvec) (T : nat) (d : @derivs R) (mo len : nat) (ks : list nat) (pdim : nat -> nat) :
  wf_net N -> (forall m, In m (n_sorted N) -> layer_local (n_layer N m)) -> conns_good N -> params_of N ks pdim -> (0 < len)%nat ->
  let fwd := run_acts (rec_activate N P) (mkr reset_bufs d 0 mo len) (map X (seq 0 T)) in
  let bwd := run_acts (rec_backActivate N P) (fst fwd) (map E (rev (seq 0 T))) in
  (forall m t, In m (n_sorted N) -> (t < T)%nat -> layer_diff_at (n_layer N m) (b_in (r_b (fst fwd) m t))) ->
  derivable_pt_lim
    (fun s => sumn T (fun t => dot (out_dim N) (E t)
        (nth t (snd (run_acts (rec_activate N (fun k q => P k q + s * dP k q)) (mkr reset_bufs d 0 mo len)
                              (map (fun t j => X t j + s * dX t j) (seq 0 T)))) zvec))) 0
    (sumn T (fun t => dot (in_dim N) (nth (T - 1 - t) (snd bwd) zvec) (dX t)) +
     suml ks (fun k => dot (pdim k) (fun q => r_d (fst bwd) k q - d k q) (dP k))).
Proof. apply rec_gradient. Qed.

(** One partial derivative: entry q of the parameters of container k. *)
Theorem C18_partial_derivative (N : rnet) (P : nat -> rvec) (x e : rvec) (s0 : @bufs R * @derivs R) (ks : list nat) (pdim : nat -> nat) k q :
  wf_net N -> n_rec N = [] -> (forall m, In m (n_sorted N) -> layer_local (n_layer N m)) -> conns_good N -> params_of N ks pdim ->
  In k ks -> (q < pdim k)%nat ->
  let s1 := fst (ff_activate N P s0 x) in
  let s2 := fst (ff_backActivate N P s1 e) in
  (forall m, In m (n_sorted N) -> layer_diff_at (n_layer N m) (b_in (fst s1 m 0%nat))) ->
  derivable_pt_lim
    (fun s => dot (out_dim N) e (snd (ff_activate N (fun k' q' => P k' q' + s * (if (k' =? k)%nat && (q' =? q)%nat then 1 else 0)) s0 x))) 0
    (snd s2 k q - snd s1 k q).
Proof.
  intros W Hr HL Hg Hks Hk Hq s1 s2 Hd.
  pose proof (ff_gradient N P (fun k' q' => if (k' =? k)%nat && (q' =? q)%nat then 1 else 0) x zvec e s0 ks pdim W Hr HL Hg Hks Hd) as G.
  cbn zeta in G. fold s1 in G. fold s2 in G.
  assert (X : forall s Q (b0 : bufs * derivs), snd (ff_activate N Q b0 (fun j => x j + s * zvec j)) = snd (ff_activate N Q b0 x)).
  { intros s Q b0. cbn [ff_activate snd]. unfold outputs. apply (f_equal (fun b : bufs => gather (fun m => l_out (n_layer N m)) (fun m => b_out (b m 0%nat)) (n_outmods N))).
    unfold ff_forward. f_equal. generalize 0%nat as idx. generalize reset_bufs as b.
    intros b idx. assert (Ej : forall j, x j + s * (@zvec R ROps j) = x j) by (intro j; unfold zvec; cbn; ring).
    assert (Ef : (fun j => x j + s * (@zvec R ROps j)) = x) by (apply FunctionalExtensionality.functional_extensionality; exact Ej).
    rewrite Ef. reflexivity. }
  eapply dlim_ext; [|eapply dlim_val; [|exact G]].
  - intro s. cbv beta. rewrite (X s). reflexivity.
  - transitivity (0 + (snd s2 k q - snd s1 k q)); [|ring]. f_equal.
    + apply (sumn_zero' (L := RLaws)). intros j Hj. unfold zvec. cbn. ring.
    + transitivity (dot (pdim k) (fun q0 => snd s2 k q0 - snd s1 k q0) (fun q' => if (k =? k)%nat && (q' =? q)%nat then 1 else 0)).
      * refine (suml_single Nat.eq_dec ks k _ (proj1 Hks) Hk _). intros a Ha Hne. apply (sumn_zero' (L := RLaws)). intros i Hi.
        destruct (Nat.eqb_spec a k); [contradiction|]. cbn. ring.
      * unfold dot. etransitivity; [refine (sumn_single (L := RLaws) (pdim k) q _ Hq _)|].
        -- intros i Hi Hne. rewrite Nat.eqb_refl. destruct (Nat.eqb_spec i q); [contradiction|]. cbn. ring.
        -- cbv beta. rewrite !Nat.eqb_refl. cbn. ring.
Qed.

(** The layers for which the hypothesis of the gradient theorems holds, and where. *)
Theorem C18_layers n (v : rvec) :
  layer_diff_at (linear_layer n) v /\ layer_diff_at bias_unit v /\ layer_diff_at (tanh_layer n) v /\
  layer_diff_at (softsign_layer n) v /\ layer_diff_at (multiplication_layer n) v /\
  ((forall i, (i < n)%nat -> v i <> 0) -> layer_diff_at (relu_layer n) v) /\
  ((forall i, (i < n)%nat -> Rabs (v i) < 500) ->
     layer_diff_at (sigmoid_layer n) v /\ layer_diff_at (gate_layer n sigmoid sigmoidPrime) v /\
     layer_diff_at (double_gate_layer n sigmoid sigmoidPrime) v /\ layer_diff_at (switch_layer n sigmoid sigmoidPrime) v).
Proof.
  repeat (split; [first [apply linear_diff|apply bias_diff|apply tanh_diff|apply softsign_diff|apply multiplication_diff|apply relu_diff]|]).
  intro H. split; [apply sigmoid_diff; auto|].
  split; [apply gate_diff|split; [apply double_gate_diff|apply switch_diff]]; intros; apply sigmoid_deriv; auto.
Qed.

(** Where it fails: the sigmoid layers are constant beyond +-500 but send errors back ... *)
Theorem C18_sigmoid_clipped_refuted x : 500 < Rabs x -> ~ layer_diff_at (sigmoid_layer 1) (fun _ => x).
Proof.
  intros Hx H. destruct (H (fun s _ => x + s * 1) (fun _ => 1)) as (g & Hg & Ha).
  - intros. ring.
  - intros. apply dlim_line.
  - specialize (Ha (fun _ => 1)). specialize (Hg 0%nat ltac:(cbn; lia)). cbn in Hg, Ha.
    assert (Hz : dlim (fun s => sigmoid (x + s * 1)) (0 * 1)).
    { apply (dlim_comp (fun s => x + s * 1) sigmoid); [apply dlim_line|]. replace (x + 0 * 1) with x by ring. apply sigmoid_deriv_outside. auto. }
    pose proof (uniqueness_limite _ _ _ _ Hg Hz) as E. unfold dot in Ha. cbn in Ha. pose proof (sigmoidPrime_pos x) as Hp. unfold sigmoidPrime in Hp. lra.
Qed.
(** ... and SoftmaxLayer sends the output error back unchanged. *)
Theorem C18_softmax_backward_refuted : ~ layer_diff_at (softmax_layer 2) (fun _ => 0).
Proof.
  intro H. set (u := fun i : nat => match i with 0%nat => 1 | _ => 0 end).
  destruct (H (fun s i => 0 + s * u i) u) as (g & Hg & Ha).
  - intros. ring.
  - intros. apply dlim_line.
  - specialize (Ha u). specialize (Hg 0%nat ltac:(cbn; lia)). cbn in Hg, Ha.
    assert (Hz : dlim (fun s => sigmoid s) (sigmoidPrime 0)) by (apply sigmoid_deriv; rewrite Rabs_R0; lra).
    assert (Hs : dlim (fun s => safeExp (0 + s * u 0%nat) / (0 + safeExp (0 + s * u 0%nat) + safeExp (0 + s * u 1%nat))) (sigmoidPrime 0)).
    { apply (dlim_local sigmoid _ 0 _ 500); [lra| |exact Hz]. intros y Hy. replace (y - 0) with y in Hy by ring.
      rewrite sigmoid_inner by lra. unfold u. replace (0 + y * 1) with y by ring. replace (0 + y * 0) with 0 by ring.
      unfold safeExp. assert (-500 <= y <= 500) by (unfold Rabs in Hy; destruct (Rcase_abs y); lra).
      rewrite !clip_id by lra. rewrite exp_0, exp_Ropp. pose proof (exp_pos y). field. split; lra. }
    pose proof (uniqueness_limite _ _ _ _ Hg Hs) as E. unfold dot in Ha. cbn in Ha.
    rewrite E in Ha. unfold sigmoidPrime in Ha. rewrite sigmoid_inner in Ha by (rewrite Rabs_R0; lra). rewrite Ropp_0, exp_0 in Ha. unfold u in Ha. lra.
Qed.
Print Assumptions C18_feedforward_gradient.
Print Assumptions C18_recurrent_gradient.
Print Assumptions C18_partial_derivative.
Print Assumptions C18_layers.
Print Assumptions C18_sigmoid_clipped_refuted.
Print Assumptions C18_softmax_backward_refuted.

(** ** C19 *)
(** A second backActivate computes the gradient of another function: its error vector
    applied to the output, plus the output errors left in every module that is not an output
    module, applied to that module's output. *)
Theorem C19_second_backActivate (N : rnet) (P dP : nat -> rvec) (x dx e1 e2 : rvec) (s0 : @bufs R * @derivs R) (ks : list nat) (pdim : nat -> nat) :
  wf_net N -> n_rec N = [] -> (forall m, In m (n_sorted N) -> layer_local (n_layer N m)) -> conns_good N -> params_of N ks pdim ->
  let s1 := fst (ff_activate N P s0 x) in
  let s2 := fst (ff_backActivate N P s1 e1) in
  let s3 := fst (ff_backActivate N P s2 e2) in
  let inerr := snd (ff_backActivate N P s2 e2) in
  (forall m, In m (n_sorted N) -> layer_diff_at (n_layer N m) (b_in (fst s1 m 0%nat))) ->
  (forall m ine, In m (n_sorted N) -> bwd_fresh (n_layer N m) ine) ->
  derivable_pt_lim
    (fun s => let r := ff_activate N (fun k q => P k q + s * dP k q) s0 (fun j => x j + s * dx j) in
       dot (out_dim N) e2 (snd r) +
       suml (hidden N) (fun m => dot (l_out (n_layer N m)) (b_oute (fst s2 m 0%nat)) (b_out (fst (fst r) m 0%nat)))) 0
    (dot (in_dim N) inerr dx + suml ks (fun k => dot (pdim k) (fun q => snd s3 k q - snd s2 k q) (dP k))).
Proof. apply ff_second. Qed.
Print Assumptions C19_second_backActivate.

(** The same error vector twice adds different derivatives and returns different input
    errors: a chain of three linear units with weights 2 and 3, input 5, error 1. *)
Definition chain : @net Z := mknet (fun _ => linear_layer 1) [0; 1; 2]%nat
  (fun m => match m with 0%nat => [mkconn 0 1 0 1 0 1 CFull 0] | 1%nat => [mkconn 1 2 0 1 0 1 CFull 1] | _ => [] end) [] [0]%nat [2]%nat.
Definition chainP (k : nat) : @vec Z := fun _ => match k with 0%nat => 2%Z | _ => 3%Z end.
Theorem C19_twice_refuted : exists (N : @net Z) P x e,
  let s1 := fst (ff_activate N P (reset_bufs, fun _ => zvec) x) in
  let r2 := ff_backActivate N P s1 e in
  let r3 := ff_backActivate N P (fst r2) e in
  (snd (fst r2) 0%nat 0%nat - snd s1 0%nat 0%nat)%Z = 15%Z /\ (snd (fst r3) 0%nat 0%nat - snd (fst r2) 0%nat 0%nat)%Z = 30%Z /\
  snd r2 0%nat = 6%Z /\ snd r3 0%nat = 18%Z.
Proof. exists chain, chainP, (fun _ => 5%Z), (fun _ => 1%Z). vm_compute. auto. Qed.
Print Assumptions C19_twice_refuted.

(** ** A network meeting the hypotheses: inputs 0 (2 units), bias 1, tanh 2 (2 units),
    output 3; connections 0-2, 1-2, 2-3 and 0-3 on a slice. *)
Definition rL (m : nat) : rlayer := match m with
  | 0%nat => linear_layer 2 | 1%nat => bias_unit | 2%nat => tanh_layer 2 | _ => linear_layer 1 end.
Definition rN (rec : bool) : rnet := mknet rL [0; 1; 2; 3]%nat
  (fun m => match m with
    | 0%nat => [mkconn 0 2 0 2 0 2 CFull 0; mkconn 0 3 1 2 0 1 CFull 3]%nat
    | 1%nat => [mkconn 1 2 0 1 0 2 CFull 1]%nat | 2%nat => [mkconn 2 3 0 2 0 1 CFull 2]%nat | _ => [] end)
  (if rec then [mkconn 2 2 0 2 0 2 CFull 4; mkconn 3 2 0 1 0 2 CFull 5]%nat else []) [0]%nat [3]%nat.
Definition rpdim (k : nat) : nat := nth k [4; 2; 2; 1; 4; 2]%nat 0%nat.
Example C18_example rec : wf_net (rN rec) /\ (forall m, In m (n_sorted (rN rec)) -> layer_local (n_layer (rN rec) m)) /\ conns_good (rN rec) /\
  params_of (rN rec) [0; 1; 2; 3; 4; 5]%nat rpdim /\ (forall m v, In m (n_sorted (rN rec)) -> layer_diff_at (n_layer (rN rec) m) v) /\
  (forall m ine, In m (n_sorted (rN rec)) -> bwd_fresh (n_layer (rN rec) m) ine) /\ n_rec (rN false) = [] /\ n_rec (rN true) <> [] /\
  hidden (rN rec) = [0; 1; 2]%nat.
Proof.
  split; [|split; [|split; [|split; [|split; [|split; [|split; [|split]]]]]]]; try reflexivity; try discriminate.
  - split.
    + repeat constructor; cbn; intuition discriminate.
    + assert (B : (before 0 2 [0; 1; 2; 3] /\ before 0 3 [0; 1; 2; 3] /\ before 1 2 [0; 1; 2; 3] /\ before 2 3 [0; 1; 2; 3])%nat).
      { split; [exists [], [1]%nat, [3]%nat; reflexivity|]. split; [exists [], [1; 2]%nat, []; reflexivity|].
        split; [exists [0]%nat, [], [3]%nat; reflexivity|exists [0; 1]%nat, [], []; reflexivity]. }
      intros m c Hm Hc. cbn in Hm, Hc. destruct B as (B1 & B2 & B3 & B4).
      destruct Hm as [<-|[<-|[<-|[<-|[]]]]]; cbn in Hc; intuition; subst c; cbn; auto; unfold wf_conn; cbn; lia.
    + intros c Hc. destruct rec; [|destruct Hc]. destruct Hc as [<-|[<-|[]]]; cbn; unfold wf_conn; cbn; lia.
    + split; [repeat constructor; cbn; intuition discriminate|]. intros a [<-|[]]. cbn; auto.
    + split; [repeat constructor; cbn; intuition discriminate|]. intros a [<-|[]]. cbn; auto.
  - intros m [<-|[<-|[<-|[<-|[]]]]]; cbn; try apply linear_local; try apply bias_local; apply elem_local.
  - intros c Hc. assert (c_kind c = CFull) as E; [|unfold good_conn; rewrite E; cbn; auto].
    destruct rec; cbn in Hc; intuition; subst c; reflexivity.
  - split; [repeat constructor; cbn; intuition discriminate|]. intros c Hc. split.
    + destruct rec; cbn in Hc; intuition; subst c; cbn; auto 10.
    + destruct rec; cbn in Hc; intuition; subst c; reflexivity.
  - intros m v [<-|[<-|[<-|[<-|[]]]]]; cbn; auto using linear_diff, bias_diff, tanh_diff.
  - intros m ine [<-|[<-|[<-|[<-|[]]]]] ? ? ? k Hk; cbn in *; auto. lia.
Qed.

(** ** C23 *)
(** Outputs of SoftmaxLayer: positive, summing to one, in the order of the inputs (strictly,
    where the inputs are inside the clipping range), with the softmax ratios. *)
Lemma sumn_pos n (f : nat -> R) : (forall i, (i < n)%nat -> 0 < f i) -> (0 < n)%nat -> 0 < sumn n f.
Proof.
  intros H Hn. assert (G : forall m, (m <= n)%nat -> 0 <= sumn m f /\ ((0 < m)%nat -> 0 < sumn m f)).
  { induction m as [|m IH]; intro Hm; cbn; [split; [lra|lia]|]. destruct IH as [A B]; [lia|]. specialize (H m ltac:(lia)). split; [|intros _]; lra. }
  apply (G n); auto.
Qed.
Theorem C23_softmax n (x : rvec) : (0 < n)%nat ->
  let y := l_fwd (softmax_layer n) x zvec in
  (forall i, (i < n)%nat -> 0 < y i <= 1) /\ sumn n y = 1 /\
  (forall i j, x i <= x j -> y i <= y j) /\
  (forall i j, (i < n)%nat -> (j < n)%nat -> -500 <= x i <= 500 -> -500 <= x j <= 500 -> (x i < x j -> y i < y j) /\ y i / y j = exp (x i - x j)).
Proof.
  intros Hn y. set (S := sumn n (fun j => safeExp (x j))).
  assert (HS : 0 < S) by (apply sumn_pos; auto; intros; apply safeExp_pos).
  assert (Hy : forall i, y i = safeExp (x i) * / S) by reflexivity.
  assert (Hp : forall i, 0 < y i) by (intro i; rewrite Hy; apply Rmult_lt_0_compat; [apply safeExp_pos|apply Rinv_0_lt_compat; auto]).
  assert (Hsum : sumn n y = 1).
  { transitivity (S * / S); [|apply Rinv_r; lra]. apply (sumn_mul_r (L := RLaws) n (/ S) (fun j => safeExp (x j))). }
  clearbody y. split; [|split; [auto|split]].
  - intros i Hi. split; auto. rewrite <- Hsum.
    assert (G : forall m, (i < m)%nat -> y i <= sumn m y).
    { induction m as [|m IH]; intro Hm; [lia|]. cbn. destruct (Nat.eq_dec i m) as [->|].
      - destruct (Nat.eq_dec m 0) as [->|]; [cbn; specialize (Hp 0%nat); lra|]. pose proof (sumn_pos m y (fun i _ => Hp i) ltac:(lia)). lra.
      - specialize (IH ltac:(lia)). specialize (Hp m). lra. }
    apply G. auto.
  - intros i j Hij. rewrite !Hy. apply Rmult_le_compat_r; [apply Rlt_le, Rinv_0_lt_compat; auto|].
    unfold safeExp. assert (clip (-500) 500 (x i) <= clip (-500) 500 (x j)) as Hc.
    { unfold clip. apply Rle_max_compat_l. apply Rle_min_compat_r. auto. }
    destruct (Rle_lt_or_eq_dec _ _ Hc) as [Hl|He]; [apply Rlt_le, exp_increasing; auto|rewrite He; lra].
  - intros i j Hi Hj Ri Rj. rewrite !Hy. unfold safeExp. rewrite !clip_id by auto. split.
    + intro Hl. apply Rmult_lt_compat_r; [apply Rinv_0_lt_compat; auto|]. apply exp_increasing. auto.
    + unfold Rminus. rewrite exp_plus, exp_Ropp. field. split; [|lra]. pose proof (exp_pos (x j)). lra.
Qed.
Print Assumptions C23_softmax.

(** modules/softmax.py:30-34: the last statement binds the local name outbuf to the normalised
    array, so the output buffer keeps the exponentials. *)
Definition partial_softmax_layer (n slicelength : nat) : rlayer :=
  mklayer n n (fun i _ k => safeExp (i k)) (fun e _ _ _ => e).
Theorem C23_partial_not_normalised n slicelength (x : rvec) a :
  (forall i, (i < slicelength)%nat -> 0 <= x (a * slicelength + i)%nat) -> (1 < slicelength)%nat ->
  1 < sumn slicelength (fun i => l_fwd (partial_softmax_layer n slicelength) x zvec (a * slicelength + i)%nat).
Proof.
  intros H Hs. cbn [partial_softmax_layer l_fwd].
  assert (G : forall m, (m <= slicelength)%nat -> INR m <= sumn m (fun i => safeExp (x (a * slicelength + i)%nat))).
  { induction m as [|m IH]; intro Hm; [cbn; lra|]. rewrite S_INR. cbn [sumn radd ROps]. specialize (IH ltac:(lia)).
    assert (1 <= safeExp (x (a * slicelength + m)%nat)).
    { rewrite <- exp_0. unfold safeExp. specialize (H m ltac:(lia)).
      assert (0 <= clip (-500) 500 (x (a * slicelength + m)%nat)) as Hc.
      { unfold clip. eapply Rle_trans; [|apply Rmax_r]. apply Rmin_glb; lra. }
      destruct Hc as [Hc|Hc]; [apply Rlt_le, exp_increasing; auto|rewrite <- Hc; lra]. }
    lra. }
  specialize (G slicelength (Nat.le_refl _)). assert (2 <= INR slicelength) by (change 2 with (INR 2); apply le_INR; lia). lra.
Qed.
Print Assumptions C23_partial_not_normalised.
Example C23_example : let y := l_fwd (softmax_layer 2) (fun i => match i with 0%nat => 0 | _ => ln 3 end) zvec in y 0%nat = / 4 /\ y 1%nat = 3 / 4.
Proof.
  cbn. unfold safeExp. assert (0 <= ln 3 <= 500).
  { split; [rewrite <- ln_1; apply Rlt_le, ln_increasing; lra|]. rewrite <- (ln_exp 500). apply Rlt_le, ln_increasing; [lra|].
    pose proof (exp_ineq1 500 ltac:(lra)). lra. }
  rewrite !clip_id by lra. rewrite exp_0, exp_ln by lra. split; field.
Qed.
