(** C58: back-propagation through time inside the LSTM layer (structure/modules/lstm.py)
    is the exact gradient: with or without peepholes, for any number of cells and any
    sequence length, the input errors and the peephole derivatives of a backward pass
    are the derivatives of the weighted outputs. *)
From Coq Require Import Ring Reals Lra.
From Verif Require Import Base RingOps Net_Model Net_Spec Conn_Adjoint Net_Gradient Layers_R Lstm_Model Lstm_Spec Lstm_Proofs Net_Props.
Local Open Scope R_scope.
Notation rvec := (@vec R).

(** tools/functions.py:69-72 *)
Definition tanhPrime (x : R) : R := 1 - tanh x * tanh x.

(** the layer as it is: sigmoid gates, tanh squashing *)
Definition r_forwards := @lstm_forwards R ROps sigmoid tanh tanh.
Definition r_backwards := @lstm_backwards R ROps sigmoidPrime tanh tanhPrime tanh tanhPrime.

(** the textbook cell i of the layer, parameters p (zero weights without peepholes) *)
Definition text_state (dim : nat) (peep : bool) (p : rvec) (X : nat -> rvec) (i t : nat) : R :=
  let w q := if peep then p q else 0 in
  cell_state sigmoid tanh (w i) (w (dim + i)%nat) (fun t => X t i) (fun t => X t (dim + i)%nat) (fun t => X t (dim * 2 + i)%nat) t.
Definition text_out (dim : nat) (peep : bool) (p : rvec) (X : nat -> rvec) (i t : nat) : R :=
  let w q := if peep then p q else 0 in
  cell_out sigmoid tanh tanh (w i) (w (dim + i)%nat) (w (dim * 2 + i)%nat) (fun t => X t i) (fun t => X t (dim + i)%nat)
    (fun t => X t (dim * 2 + i)%nat) (fun t => X t (dim * 3 + i)%nat) t.

(** no gate of the pass is driven beyond the clipping bound of safeExp *)
Definition gates_unclipped (dim : nat) (peep : bool) (p : rvec) (X : nat -> rvec) (T : nat) : Prop :=
  let w q := if peep then p q else 0 in
  forall t i, (t < T)%nat -> (i < dim)%nat ->
    Rabs (X t i + w i * text_state dim peep p X i t) < 500 /\
    Rabs (X t (dim + i)%nat + w (dim + i)%nat * text_state dim peep p X i t) < 500 /\
    Rabs (X t (dim * 3 + i)%nat + w (dim * 2 + i)%nat * text_state dim peep p X i (S t)) < 500.

(** The forward pass is the textbook recurrence, whatever maxoffset was left behind. *)
Theorem C58_forward dim peep (p : rvec) (X : nat -> rvec) T st t i : (t < T)%nat ->
  snd (r_forwards dim peep p X T (lstm_reset st)) t i = text_out dim peep p X i t.
Proof.
  intro Ht. pose proof (forwards_rows sigmoid tanh tanh dim peep p X T (lstm_reset st)) as H.
  unfold r_forwards. destruct (lstm_forwards sigmoid tanh tanh dim peep p X T (lstm_reset st)) as [st1 Y]. destruct H as (H & _).
  apply (H t Ht).
Qed.
Print Assumptions C58_forward.

Section Real.
Context (dim : nat) (peep : bool) (p dp : rvec) (X dX : nat -> rvec) (ps : R -> rvec) (Xs : R -> nat -> rvec) (T : nat).
Context (Hp0 : forall q, ps 0 q = p q) (HX0 : forall t j, Xs 0 t j = X t j).
Context (Hp : forall q, (q < 3 * dim)%nat -> dlim (fun s => ps s q) (dp q)).
Context (HX : forall t j, (t < T)%nat -> (j < 4 * dim)%nat -> dlim (fun s => Xs s t j) (dX t j)).
Context (HG : gates_unclipped dim peep p X T).
Notation S_ := (cst sigmoid tanh dim peep).

Lemma pw_dlim q : (q < 3 * dim)%nat -> dlim (fun s => pw peep (ps s) q) (pw peep dp q).
Proof. intro H. unfold pw. destruct peep; [auto|apply dlim_const]. Qed.
Lemma pw0 q : pw peep (ps 0) q = pw peep p q.
Proof. unfold pw. destruct peep; auto. Qed.
Lemma S0 i t : S_ (ps 0) (Xs 0) i t = S_ p X i t.
Proof.
  induction t as [|t IH]; [reflexivity|]. rewrite !cst_S. unfold ca, cb. rewrite !IH, !pw0, !HX0. reflexivity.
Qed.
Lemma lin_dlim i t q j (s : R -> R) ds : (t < T)%nat -> (j < 4 * dim)%nat -> (q < 3 * dim)%nat -> s 0 = S_ p X i t \/ s 0 = S_ p X i (S t) -> dlim s ds ->
  dlim (fun z => Xs z t j + pw peep (ps z) q * s z) (dX t j + (pw peep dp q * s 0 + pw peep p q * ds)).
Proof.
  intros Ht Hj Hq _ Hs. apply dlim_add; [auto|]. rewrite <- pw0. apply dlim_mul; [apply pw_dlim; auto|exact Hs].
Qed.
Lemma state_dlim i t : (i < dim)%nat -> (t <= T)%nat -> dlim (fun s => S_ (ps s) (Xs s) i t) (dcst sigmoid sigmoidPrime tanh tanhPrime dim peep p dp X dX i t).
Proof.
  intros Hi. induction t as [|t IH]; intro Ht.
  - apply (dlim_ext (fun _ => 0)); [reflexivity|]. apply dlim_const.
  - specialize (IH ltac:(lia)). destruct (HG t i ltac:(lia) Hi) as (G1 & G2 & _).
    pose proof (lin_dlim i t i i _ _ ltac:(lia) ltac:(lia) ltac:(lia) (or_introl (S0 i t)) IH) as Ha.
    pose proof (lin_dlim i t (dim + i) (dim + i) _ _ ltac:(lia) ltac:(lia) ltac:(lia) (or_introl (S0 i t)) IH) as Hb.
    apply (dlim_ext (fun s => sigmoid (Xs s t i + pw peep (ps s) i * S_ (ps s) (Xs s) i t) * tanh (Xs s t (dim * 2 + i)%nat)
       + sigmoid (Xs s t (dim + i)%nat + pw peep (ps s) (dim + i) * S_ (ps s) (Xs s) i t) * S_ (ps s) (Xs s) i t)); [reflexivity|].
    eapply dlim_val.
    2:{ apply dlim_add; apply dlim_mul.
        - refine (dlim_comp _ sigmoid _ _ Ha _). rewrite HX0, pw0, S0. apply sigmoid_deriv. exact G1.
        - refine (dlim_comp _ tanh _ _ (HX t (dim * 2 + i)%nat ltac:(lia) ltac:(lia)) _). apply tanh_deriv.
        - refine (dlim_comp _ sigmoid _ _ Hb _). rewrite HX0, pw0, S0. apply sigmoid_deriv. exact G2.
        - exact IH. }
    cbn beta. rewrite !HX0, !pw0, !S0. cbn [dcst]. unfold dca, dcb, ca, cb, tanhPrime. cbn. ring.
Qed.
Lemma out_dlim i t : (i < dim)%nat -> (t < T)%nat ->
  dlim (fun s => cout sigmoid tanh tanh dim peep (ps s) (Xs s) i t) (dcout sigmoid sigmoidPrime tanh tanhPrime tanh tanhPrime dim peep p dp X dX i t).
Proof.
  intros Hi Ht. destruct (HG t i Ht Hi) as (_ & _ & G3). pose proof (state_dlim i (S t) Hi ltac:(lia)) as HS.
  pose proof (lin_dlim i t (dim * 2 + i) (dim * 3 + i) _ _ ltac:(lia) ltac:(lia) ltac:(lia) (or_intror (S0 i (S t))) HS) as Hq.
  apply (dlim_ext (fun s => sigmoid (Xs s t (dim * 3 + i)%nat + pw peep (ps s) (dim * 2 + i) * S_ (ps s) (Xs s) i (S t)) * tanh (S_ (ps s) (Xs s) i (S t)))); [reflexivity|].
  eapply dlim_val.
  2:{ apply dlim_mul.
      - refine (dlim_comp _ sigmoid _ _ Hq _). rewrite HX0, pw0, S0. apply sigmoid_deriv. exact G3.
      - refine (dlim_comp _ tanh _ _ HS _). apply tanh_deriv. }
  cbn beta. rewrite !HX0, !pw0, !S0. unfold dcout, dcq, cq, tanhPrime. cbn. ring.
Qed.
End Real.

(** For every differentiable family of input sequences and peephole weights through (X, p),
    the derivative of the sum of outputs weighted by E is what the backward pass returns:
    input errors J paired with the tangent of the inputs, plus the change of the stored
    derivatives paired with the tangent of the weights. *)
Theorem C58_gradient dim peep (p dp : rvec) (X dX : nat -> rvec) (ps : R -> rvec) (Xs : R -> nat -> rvec) T (E : nat -> rvec) st :
  (forall q, ps 0 q = p q) -> (forall t j, Xs 0 t j = X t j) ->
  (forall q, (q < 3 * dim)%nat -> dlim (fun s => ps s q) (dp q)) ->
  (forall t j, (t < T)%nat -> (j < 4 * dim)%nat -> dlim (fun s => Xs s t j) (dX t j)) ->
  gates_unclipped dim peep p X T ->
  let '(st1, _) := r_forwards dim peep p X T (lstm_reset st) in
  let '(st2, J) := r_backwards dim peep p X E T st1 in
  dlim (fun s => sumn T (fun t => dot dim (E t) (snd (r_forwards dim peep (ps s) (Xs s) T (lstm_reset st)) t)))
       (sumn T (fun t => dot (4 * dim) (J t) (dX t)) + dot (3 * dim) (fun q => lderivs st2 q - lderivs st q)%R (fun q => if peep then dp q else 0)).
Proof.
  intros Hp0 HX0 Hp HX HG.
  pose proof (pass_adjoint sigmoid sigmoidPrime tanh tanhPrime tanh tanhPrime dim peep p dp X dX E T st) as HA.
  unfold r_forwards at 1. unfold r_backwards.
  destruct (lstm_forwards sigmoid tanh tanh dim peep p X T (lstm_reset st)) as [st1 Y].
  destruct (lstm_backwards sigmoidPrime tanh tanhPrime tanh tanhPrime dim peep p X E T st1) as [st2 J].
  eapply dlim_val; [exact HA|]. clear HA.
  apply (dlim_ext (fun s => sumn T (fun t => sumn dim (fun i => E t i * cout sigmoid tanh tanh dim peep (ps s) (Xs s) i t)))).
  { intro s. apply sumn_ext. intros t Ht. apply sumn_ext. intros i Hi.
    change (E t i * text_out dim peep (ps s) (Xs s) i t = E t i * snd (r_forwards dim peep (ps s) (Xs s) T (lstm_reset st)) t i).
    rewrite (C58_forward dim peep (ps s) (Xs s) T st t i Ht). reflexivity. }
  apply dlim_sumn. intros t Ht. apply dlim_sumn. intros i Hi.
  eapply dlim_val; [|apply dlim_mul; [apply dlim_const|apply (out_dlim dim peep p dp X dX ps Xs T Hp0 HX0 Hp HX HG); auto]].
  cbn. ring.
Qed.
Print Assumptions C58_gradient.

(** One partial derivative: the input error at (t0, j0) is the derivative by that input. *)
Theorem C58_input_error dim peep (p : rvec) (X : nat -> rvec) T (E : nat -> rvec) st t0 j0 :
  (t0 < T)%nat -> (j0 < 4 * dim)%nat -> gates_unclipped dim peep p X T ->
  let '(st1, _) := r_forwards dim peep p X T (lstm_reset st) in
  let '(_, J) := r_backwards dim peep p X E T st1 in
  derivable_pt_lim (fun z => sumn T (fun t => dot dim (E t)
      (snd (r_forwards dim peep p (fun t j => if (t =? t0) && (j =? j0) then z else X t j) T (lstm_reset st)) t))) (X t0 j0) (J t0 j0).
Proof.
  intros Ht Hj HG.
  pose proof (C58_gradient dim peep p (fun _ => 0) X (fun t j => if (t =? t0) && (j =? j0) then 1 else 0) (fun _ => p)
    (fun s t j => if (t =? t0) && (j =? j0) then X t0 j0 + s * 1 else X t j) T E st) as H.
  assert (H1 : forall t j, (if (t =? t0) && (j =? j0) then X t0 j0 + 0 * 1 else X t j) = X t j).
  { intros t j. destruct (Nat.eqb_spec t t0) as [->|]; cbn [andb]; auto. destruct (Nat.eqb_spec j j0) as [->|]; auto. lra. }
  specialize (H ltac:(auto) H1 (fun q _ => dlim_const (p q))).
  assert (H2 : forall t j, (t < T)%nat -> (j < 4 * dim)%nat ->
     dlim (fun s => if (t =? t0) && (j =? j0) then X t0 j0 + s * 1 else X t j) (if (t =? t0) && (j =? j0) then 1 else 0)).
  { intros t j _ _. destruct ((t =? t0) && (j =? j0)); [apply dlim_line|apply dlim_const]. }
  specialize (H H2 HG). clear H1 H2.
  destruct (r_forwards dim peep p X T (lstm_reset st)) as [st1 Y]. destruct (r_backwards dim peep p X E T st1) as [st2 J].
  assert (HV : sumn T (fun t => dot (4 * dim) (J t) (fun j => if (t =? t0) && (j =? j0) then 1 else 0)) +
     dot (3 * dim) (fun q => lderivs st2 q - lderivs st q)%R (fun q => if peep then 0 else 0) = J t0 j0).
  { assert (D2 : dot (3 * dim) (fun q => lderivs st2 q - lderivs st q)%R (fun q => if peep then 0 else 0) = 0).
    { unfold dot. refine (sumn_zero' _ _ _). intros. destruct peep; cbn; ring. }
    rewrite D2. cbn. rewrite Rplus_0_r.
    assert (Hone : forall n k (F : nat -> R), (k < n)%nat -> sumn n (fun i => if i =? k then F i else 0) = F k).
    { induction n as [|n IHn]; intros k F Hk; [lia|]. cbn [sumn]. destruct (Nat.eqb_spec n k) as [->|Hne].
      - rewrite (sumn_zero' k (fun i => if i =? k then F i else 0)). { cbn; ring. } intros i Hi. replace (i =? k) with false by (symmetry; apply Nat.eqb_neq; lia). reflexivity.
      - rewrite IHn by lia. cbn. ring. }
    rewrite <- (Hone T t0 (fun t => J t j0) Ht). apply sumn_ext. intros t _. unfold dot.
    destruct (Nat.eqb_spec t t0) as [->|]; cbn [andb].
    - rewrite <- (Hone (4 * dim)%nat j0 (fun j => J t0 j) Hj). apply sumn_ext. intros j _. destruct (j =? j0); cbn; ring.
    - refine (sumn_zero' _ _ _). intros. cbn. ring. }
  rewrite HV in H. clear HV.
  set (G := fun z => sumn T (fun t => dot dim (E t) (snd (r_forwards dim peep p (fun t j => if (t =? t0) && (j =? j0) then z else X t j) T (lstm_reset st)) t))).
  change (dlim (fun s => G (X t0 j0 + s * 1)) (J t0 j0)) in H. clearbody G.
  intros eps Heps. destruct (H eps Heps) as [del Hd]. exists del. intros u Hu Hu2. specialize (Hd u Hu Hu2).
  replace (X t0 j0 + (0 + u) * 1) with (X t0 j0 + u) in Hd by ring. replace (X t0 j0 + 0 * 1) with (X t0 j0) in Hd by ring. exact Hd.
Qed.
Print Assumptions C58_input_error.

(** two cells with peepholes over three steps: nothing is clipped *)
Definition ex_X : nat -> rvec := fun _ _ => 1.
Definition ex_p : rvec := fun _ => 1.
Lemma sigmoid_abs x : Rabs (sigmoid x) <= 1.
Proof.
  unfold sigmoid. assert (H : 0 < safeExp (- x)) by apply exp_pos.
  rewrite Rabs_right.
  - apply (Rmult_le_reg_r (1 + safeExp (- x))); [lra|]. unfold Rdiv. rewrite Rmult_assoc, Rinv_l by lra. lra.
  - apply Rle_ge. apply Rlt_le. apply Rdiv_lt_0_compat; lra.
Qed.
Lemma tanh_abs x : Rabs (tanh x) <= 1.
Proof.
  unfold tanh, sinh, cosh. pose proof (exp_pos x). pose proof (exp_pos (- x)).
  replace ((exp x - exp (- x)) / 2 / ((exp x + exp (- x)) / 2)) with ((exp x - exp (- x)) * / (exp x + exp (- x))) by (field; lra).
  rewrite Rabs_mult. rewrite (Rabs_right (/ _)) by (apply Rle_ge, Rlt_le, Rinv_0_lt_compat; lra).
  apply (Rmult_le_reg_r (exp x + exp (- x))); [lra|]. rewrite Rmult_assoc, Rinv_l by lra. rewrite Rmult_1_r, Rmult_1_l.
  apply Rabs_le. lra.
Qed.
Lemma state_bound dim peep p X i t : Rabs (text_state dim peep p X i t) <= INR t.
Proof.
  induction t as [|t IH].
  - unfold text_state. cbn. rewrite Rabs_R0. lra.
  - rewrite S_INR. unfold text_state in *. cbn [cell_state].
    match goal with |- Rabs (radd (rmul ?a ?b) (rmul ?c ?d)) <= _ => set (A := a); set (B := b); set (C := c); set (D := d) in * end.
    pose proof (sigmoid_abs (X t i + (if peep then p i else 0) * D)) as H1. change (Rabs A <= 1) in H1.
    pose proof (tanh_abs (X t (dim * 2 + i)%nat)) as H2. change (Rabs B <= 1) in H2.
    pose proof (sigmoid_abs (X t (dim + i)%nat + (if peep then p (dim + i)%nat else 0) * D)) as H3. change (Rabs C <= 1) in H3.
    clearbody A B C D. cbn. eapply Rle_trans; [apply Rabs_triang|]. rewrite !Rabs_mult.
    pose proof (Rabs_pos A). pose proof (Rabs_pos B). pose proof (Rabs_pos C). pose proof (Rabs_pos D). nra.
Qed.
Example C58_nonvacuous : gates_unclipped 2 true ex_p ex_X 3.
Proof.
  intros t i Ht Hi. unfold ex_X, ex_p. pose proof (state_bound 2 true ex_p ex_X i t) as B1. pose proof (state_bound 2 true ex_p ex_X i (S t)) as B2.
  assert (HT : INR t <= 2) by (apply (le_INR t 2); lia). assert (HT2 : INR (S t) <= 3) by (rewrite S_INR; lra).
  fold ex_X ex_p. set (a := text_state 2 true ex_p ex_X i t) in *. set (b := text_state 2 true ex_p ex_X i (S t)) in *. clearbody a b.
  repeat split; (eapply Rle_lt_trans; [apply Rabs_triang|]); rewrite Rabs_mult, !Rabs_R1; lra.
Qed.

(** Without the reset in between (reset(), module.py:84-89), the error rows of a longer
    earlier sequence are still there and are taken over as if they belonged to a later
    step: maxoffset does not remember where the current sequence ends.  Integer transfer
    functions f(x) = g(x) = h(x) = x suffice to see it. *)
Definition zid (x : Z) := x.
Definition zone (x : Z) := 1%Z.
Definition z_pass (T : nat) (st : @lstm Z) : @lstm Z * (nat -> @vec Z) :=
  let X := fun (_ _ : nat) => 1%Z in
  let '(st1, _) := lstm_forwards zid zid zid 1 false (fun _ => 0%Z) X T st in
  lstm_backwards zone zid zone zid zone 1 false (fun _ => 0%Z) X (fun _ _ => 1%Z) T st1.
Definition z_fresh : @lstm Z := lstm_reset (Build_lstm (fun _ => zrow) (fun _ => zerow) (fun _ => 0%Z) 0).
Theorem C58_without_reset_refuted :
  exists st, st = fst (z_pass 2 z_fresh) /\ maxoffset st = 2%nat /\
    snd (z_pass 1 (lstm_reset st)) 0%nat 0%nat = 1%Z /\ snd (z_pass 1 st) 0%nat 0%nat <> 1%Z.
Proof. exists (fst (z_pass 2 z_fresh)). repeat split; vm_compute; congruence. Qed.
Print Assumptions C58_without_reset_refuted.
