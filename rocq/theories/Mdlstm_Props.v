(** C58, second part: the multi-dimensional LSTM layer (structure/modules/mdlstm.py) sends
    back the exact derivatives of its outputs, so it may stand in any network of C18. *)
From Coq Require Import Ring Reals Lra.
From Verif Require Import Base RingOps Net_Model Net_Spec Conn_Adjoint Net_Gradient Layers_R Mdlstm_Model.
Local Open Scope R_scope.
Notation rvec := (@vec R).

Definition tanhP (x : R) : R := 1 - tanh x * tanh x.
Definition r_md_forward := @md_forward R ROps sigmoid tanh tanh.
Definition r_md_backward := @md_backward R ROps sigmoid sigmoidPrime tanh tanhP tanh tanhP.
Definition r_md_derivs := @md_derivs R ROps sigmoid sigmoidPrime tanh tanh tanhP.
Definition r_mdlstm_layer := @mdlstm_layer R ROps sigmoid sigmoidPrime tanh tanhP tanh tanhP.

(** the pre-activations of the gates stay within the clipping bound *)
Definition md_unclipped (n D : nat) (peep : bool) (p x : rvec) : Prop :=
  (forall i, (i < n)%nat -> Rabs (md_ingatex n D peep p x i) < 500) /\
  (forall q, (q < n * D)%nat -> Rabs (md_forgetgatex n D peep p x q) < 500) /\
  (forall i, (i < n)%nat -> Rabs (md_outgatex sigmoid tanh n D peep p x i) < 500).

Lemma radd_sum n (f g : nat -> R) : sumn n (fun i => f i + g i) = sumn n f + sumn n g.
Proof. exact (sumn_add n f g). Qed.
Lemma sumn_grid n D (F : nat -> R) : sumn (n * D) F = sumn n (fun i => sumn D (fun k => F (n * k + i)%nat)).
Proof.
  induction D as [|D IH].
  - rewrite Nat.mul_0_r. cbn. symmetry. exact (sumn_zero n).
  - rewrite Nat.mul_succ_r, sumn_app, IH. cbn [sumn]. symmetry. exact (sumn_add n _ _).
Qed.
Lemma grid_lt n D k i : (i < n)%nat -> (k < D)%nat -> (n * k + i < n * D)%nat.
Proof. intros. nia. Qed.
Lemma grid_mod n k i : (i < n)%nat -> ((n * k + i) mod n = i)%nat.
Proof. intro H. rewrite Nat.add_comm, (Nat.mul_comm n k), Nat.mod_add by lia. apply Nat.mod_small. auto. Qed.

Lemma sum_in n D (F : nat -> R) : sumn (n * (3 + 2 * D)) F =
  sumn n (fun i => F i + sumn D (fun k => F (n + (n * k + i))%nat) + F (n * (1 + D) + i)%nat + F (n * (2 + D) + i)%nat
                   + sumn D (fun k => F (n * (3 + D) + (n * k + i))%nat)).
Proof.
  replace (n * (3 + 2 * D))%nat with (n + (n * D + (n + (n + n * D))))%nat by lia. rewrite !sumn_app.
  rewrite (sumn_grid n D (fun i => F (n + i)%nat)).
  rewrite (sumn_grid n D).
  rewrite (sumn_ext n (fun i => F (n + (n * D + i))%nat) (fun i => F (n * (1 + D) + i)%nat)) by (intros; f_equal; lia).
  rewrite (sumn_ext n (fun i => F (n + (n * D + (n + i)))%nat) (fun i => F (n * (2 + D) + i)%nat)) by (intros; f_equal; lia).
  rewrite (sumn_ext n (fun i => sumn D (fun k => F (n + (n * D + (n + (n + (n * k + i)))))%nat)) (fun i => sumn D (fun k => F (n * (3 + D) + (n * k + i))%nat)))
    by (intros; apply sumn_ext; intros; f_equal; lia).
  rewrite !radd_sum. cbn. ring.
Qed.
Lemma sum_par n D (F : nat -> R) : sumn (n * (2 + D)) F =
  sumn n (fun i => F i + sumn D (fun k => F (n + (n * k + i))%nat) + F (n * (1 + D) + i)%nat).
Proof.
  replace (n * (2 + D))%nat with (n + (n * D + n))%nat by lia. rewrite !sumn_app.
  rewrite (sumn_grid n D (fun i => F (n + i)%nat)).
  rewrite (sumn_ext n (fun i => F (n + (n * D + i))%nat) (fun i => F (n * (1 + D) + i)%nat)) by (intros; f_equal; lia).
  rewrite !radd_sum. cbn. ring.
Qed.

(** the sums over the dimensions of one cell *)
Lemma cell_sums D (se fa' gc dx dp pi : R) (fb fb' L dL xf pf dpf : nat -> R) :
  fa' * se * gc * (dx + sumn D (fun k => dp * L k + pi * dL k)) + se * sumn D (fun k => fb' k * (xf k + (dpf k * L k + pf k * dL k)) * L k + fb k * dL k) =
  fa' * se * gc * dx + sumn D (fun k => fb' k * se * L k * xf k)
  + sumn D (fun k => (se * fb k + fa' * se * gc * pi + fb' k * se * L k * pf k) * dL k)
  + sumn D (fun k => fa' * se * gc * L k) * dp + sumn D (fun k => fb' k * se * L k * L k * dpf k).
Proof.
  induction D as [|D IH]; [cbn; ring|]. cbn [sumn].
  match type of IH with ?l = ?r => match goal with |- ?L0 = ?R0 =>
    let d := constr:(fa' * se * gc * (dp * L D + pi * dL D) + se * (fb' D * (xf D + (dpf D * L D + pf D * dL D)) * L D + fb D * dL D)) in
    transitivity (l + d); [cbn; ring|rewrite IH; cbn; ring] end end.
Qed.

Section Md.
Context (n D : nat) (peep : bool) (p dp x dx : rvec) (ps xs : R -> rvec).
Context (Hp0 : forall q, (q < n * (2 + D))%nat -> ps 0 q = p q) (Hx0 : forall j, (j < n * (3 + 2 * D))%nat -> xs 0 j = x j).
Context (Hp : forall q, (q < n * (2 + D))%nat -> dlim (fun s => ps s q) (dp q)).
Context (Hx : forall j, (j < n * (3 + 2 * D))%nat -> dlim (fun s => xs s j) (dx j)).
Context (HG : md_unclipped n D peep p x).
Notation w := (fun (v : rvec) q => if peep then v q else 0).

Definition d_igx i := dx i + sumn D (fun k => w dp i * md_laststates n D x (n * k + i)%nat + w p i * md_laststates n D dx (n * k + i)%nat).
Definition d_fgx q := dx (n + q)%nat + (w dp (n + q)%nat * md_laststates n D x q + w p (n + q)%nat * md_laststates n D dx q).
Definition d_state i := sigmoidPrime (md_ingatex n D peep p x i) * d_igx i * tanh (md_cellx n D x i)
   + sigmoid (md_ingatex n D peep p x i) * (tanhP (md_cellx n D x i) * md_cellx n D dx i)
   + sumn D (fun k => sigmoidPrime (md_forgetgatex n D peep p x (n * k + i)%nat) * d_fgx (n * k + i)%nat * md_laststates n D x (n * k + i)%nat
                      + sigmoid (md_forgetgatex n D peep p x (n * k + i)%nat) * md_laststates n D dx (n * k + i)%nat).
Notation stt := (md_state sigmoid tanh n D peep).
Definition d_ogx i := dx (n * (2 + D) + i)%nat + (w dp (n * (1 + D) + i)%nat * stt p x i + w p (n * (1 + D) + i)%nat * d_state i).
Definition d_out j := if (j <? n)%nat then sigmoidPrime (md_outgatex sigmoid tanh n D peep p x j) * d_ogx j * tanh (stt p x j)
     + sigmoid (md_outgatex sigmoid tanh n D peep p x j) * (tanhP (stt p x j) * d_state j) else d_state (j - n)%nat.

Lemma ls0 q : (q < n * D)%nat -> md_laststates n D (xs 0) q = md_laststates n D x q.
Proof. intro H. unfold md_laststates. apply Hx0. nia. Qed.
Lemma ls_d q : (q < n * D)%nat -> dlim (fun s => md_laststates n D (xs s) q) (md_laststates n D dx q).
Proof. intro H. unfold md_laststates. apply Hx. nia. Qed.
Lemma igx0 i : (i < n)%nat -> md_ingatex n D peep (ps 0) (xs 0) i = md_ingatex n D peep p x i.
Proof.
  intro H. unfold md_ingatex. rewrite Hx0 by nia. destruct peep; auto. f_equal. apply sumn_ext. intros k Hk.
  rewrite Hp0 by nia. rewrite ls0 by (apply grid_lt; auto). reflexivity.
Qed.
Lemma fgx0 q : (q < n * D)%nat -> md_forgetgatex n D peep (ps 0) (xs 0) q = md_forgetgatex n D peep p x q.
Proof. intro H. unfold md_forgetgatex. rewrite Hx0 by nia. destruct peep; auto. rewrite Hp0 by nia. rewrite ls0 by auto. reflexivity. Qed.
Lemma cx0 i : (i < n)%nat -> md_cellx n D (xs 0) i = md_cellx n D x i.
Proof. intro H. unfold md_cellx. apply Hx0. nia. Qed.
Lemma st0 i : (i < n)%nat -> stt (ps 0) (xs 0) i = stt p x i.
Proof.
  intro H. unfold md_state. rewrite igx0, cx0 by auto. f_equal. apply sumn_ext. intros k Hk.
  rewrite fgx0, ls0 by (apply grid_lt; auto). reflexivity.
Qed.
Lemma ogx0 i : (i < n)%nat -> md_outgatex sigmoid tanh n D peep (ps 0) (xs 0) i = md_outgatex sigmoid tanh n D peep p x i.
Proof. intro H. pose proof (st0 i H) as E. unfold md_outgatex. rewrite Hx0 by nia. destruct peep; auto. rewrite Hp0 by nia. rewrite E. reflexivity. Qed.

Lemma igx_d i : (i < n)%nat -> dlim (fun s => md_ingatex n D peep (ps s) (xs s) i) (d_igx i).
Proof.
  intro H. unfold md_ingatex, d_igx. destruct peep.
  - apply (dlim_add (fun s => xs s i)); [apply Hx; nia|]. apply dlim_sumn. intros k Hk.
    eapply dlim_val; [|apply (dlim_mul (fun s => ps s i)); [apply Hp; nia|apply ls_d; apply grid_lt; auto]].
    cbv beta. rewrite Hp0 by nia. rewrite ls0 by (apply grid_lt; auto). reflexivity.
  - eapply dlim_val; [|apply Hx; nia]. rewrite (sumn_zero' D); [cbn; ring|]. intros. cbn. ring.
Qed.
Lemma fgx_d q : (q < n * D)%nat -> dlim (fun s => md_forgetgatex n D peep (ps s) (xs s) q) (d_fgx q).
Proof.
  intro H. unfold md_forgetgatex, d_fgx. destruct peep.
  - apply (dlim_add (fun s => xs s (n + q)%nat)); [apply Hx; nia|].
    eapply dlim_val; [|apply (dlim_mul (fun s => ps s (n + q)%nat)); [apply Hp; nia|apply ls_d; auto]].
    cbv beta. rewrite Hp0 by nia. rewrite ls0 by auto. reflexivity.
  - eapply dlim_val; [|apply Hx; nia]. cbn. ring.
Qed.
Lemma state_d i : (i < n)%nat -> dlim (fun s => stt (ps s) (xs s) i) (d_state i).
Proof.
  intro H. pose proof HG as (G1 & G2 & _). unfold md_state, d_state.
  apply (dlim_add (fun s => sigmoid (md_ingatex n D peep (ps s) (xs s) i) * tanh (md_cellx n D (xs s) i))).
  - eapply dlim_val; [|apply (dlim_mul (fun s => sigmoid (md_ingatex n D peep (ps s) (xs s) i)));
      [refine (dlim_comp _ sigmoid _ _ (igx_d i H) _); rewrite igx0 by auto; apply sigmoid_deriv; auto
      |refine (dlim_comp (fun s => md_cellx n D (xs s) i) tanh (md_cellx n D dx i) _ _ (tanh_deriv _)); unfold md_cellx; apply Hx; nia]].
    cbv beta. rewrite igx0, cx0 by auto. reflexivity.
  - apply dlim_sumn. intros k Hk. pose proof (grid_lt n D k i H Hk) as Hq.
    eapply dlim_val; [|apply (dlim_mul (fun s => sigmoid (md_forgetgatex n D peep (ps s) (xs s) (n * k + i)%nat)));
      [refine (dlim_comp _ sigmoid _ _ (fgx_d _ Hq) _); rewrite fgx0 by auto; apply sigmoid_deriv; auto
      |apply ls_d; auto]].
    cbv beta. rewrite fgx0, ls0 by auto. reflexivity.
Qed.
Lemma ogx_d i : (i < n)%nat -> dlim (fun s => md_outgatex sigmoid tanh n D peep (ps s) (xs s) i) (d_ogx i).
Proof.
  intro H. pose proof (state_d i H) as HS. pose proof (st0 i H) as H0. unfold md_outgatex, d_ogx.
  destruct peep.
  - apply (dlim_add (fun s => xs s (n * (2 + D) + i)%nat)); [apply Hx; nia|].
    eapply dlim_val; [|apply (dlim_mul (fun s => ps s (n * (1 + D) + i)%nat)); [apply Hp; nia|exact HS]].
    cbv beta. rewrite H0. rewrite Hp0 by nia. reflexivity.
  - eapply dlim_val; [|apply Hx; nia]. cbn. ring.
Qed.
Lemma out_d j : (j < n * 2)%nat -> dlim (fun s => r_md_forward n D peep (ps s) (xs s) j) (d_out j).
Proof.
  intro H. unfold r_md_forward, md_forward, d_out. destruct (Nat.ltb_spec j n) as [Hj|Hj].
  - pose proof HG as (_ & _ & G3).
    eapply dlim_val; [|apply (dlim_mul (fun s => sigmoid (md_outgatex sigmoid tanh n D peep (ps s) (xs s) j)));
      [refine (dlim_comp _ sigmoid _ _ (ogx_d j Hj) _); rewrite ogx0 by auto; apply sigmoid_deriv; auto
      |refine (dlim_comp _ tanh _ _ (state_d j Hj) (tanh_deriv _))]].
    cbv beta. rewrite ogx0, st0 by auto. reflexivity.
  - apply state_d. lia.
Qed.

End Md.

Section Md2.
Context (n D : nat) (peep : bool) (p dp x dx : rvec).
Notation w := (fun (v : rvec) q => if peep then v q else 0).
Notation stt := (md_state sigmoid tanh n D peep).
Notation d_out := (d_out n D peep p dp x dx).
Notation d_ogx := (d_ogx n D peep p dp x dx).
Notation d_state := (d_state n D peep p dp x dx).
Notation d_igx := (d_igx n D peep p dp x dx).
Notation d_fgx := (d_fgx n D peep p dp x dx).
Lemma md_adjoint e : dot (n * 2) e d_out =
  dot (n * (3 + 2 * D)) (r_md_backward n D peep p x e) dx + dot (n * (2 + D)) (r_md_derivs n D peep p x e) dp.
Proof.
  unfold dot. rewrite sum_in, sum_par. replace (n * 2)%nat with (n + n)%nat by lia. rewrite sumn_app.
  etransitivity; [exact (eq_sym (radd_sum n _ _))|]. etransitivity; [|exact (radd_sum n _ _)].
  apply sumn_ext. intros i Hi.
  unfold Mdlstm_Props.d_out. replace (i <? n)%nat with true by (symmetry; apply Nat.ltb_lt; auto).
  replace (n + i <? n)%nat with false by (symmetry; apply Nat.ltb_ge; lia). replace (n + i - n)%nat with i by lia.
  unfold r_md_backward, md_backward, r_md_derivs, md_derivs.
  rewrite (sumn_ext D (fun k => rmul (if (n + (n * k + i) <? n)%nat then _ else _) _)
     (fun k => md_forgetgateError sigmoid sigmoidPrime tanh tanh tanhP n D peep p x e (n * k + i)%nat * dx (n + (n * k + i))%nat)).
  2:{ intros k Hk. pose proof (grid_lt n D k i Hi Hk). replace (n + (n * k + i) <? n)%nat with false by (symmetry; apply Nat.ltb_ge; lia).
      replace (n + (n * k + i) <? n * (1 + D))%nat with true by (symmetry; apply Nat.ltb_lt; lia).
      replace (n + (n * k + i) - n)%nat with (n * k + i)%nat by lia. reflexivity. }
  replace (i <? n)%nat with true by (symmetry; apply Nat.ltb_lt; auto).
  replace (n * (1 + D) + i <? n)%nat with false by (symmetry; apply Nat.ltb_ge; nia).
  replace (n * (1 + D) + i <? n * (1 + D))%nat with false by (symmetry; apply Nat.ltb_ge; lia).
  replace (n * (1 + D) + i <? n * (2 + D))%nat with true by (symmetry; apply Nat.ltb_lt; lia).
  replace (n * (2 + D) + i <? n)%nat with false by (symmetry; apply Nat.ltb_ge; nia).
  replace (n * (2 + D) + i <? n * (1 + D))%nat with false by (symmetry; apply Nat.ltb_ge; nia).
  replace (n * (2 + D) + i <? n * (2 + D))%nat with false by (symmetry; apply Nat.ltb_ge; lia).
  replace (n * (2 + D) + i <? n * (3 + D))%nat with true by (symmetry; apply Nat.ltb_lt; lia).
  replace (n * (1 + D) + i - n * (1 + D))%nat with i by lia. replace (n * (2 + D) + i - n * (2 + D))%nat with i by lia.
  rewrite (sumn_ext D (fun k => rmul (if (n * (3 + D) + (n * k + i) <? n)%nat then _ else _) _)
     (fun k => md_instateErrors sigmoid sigmoidPrime tanh tanh tanhP n D peep p x e (n * k + i)%nat * dx (n * (3 + D) + (n * k + i))%nat)).
  2:{ intros k Hk. pose proof (grid_lt n D k i Hi Hk).
      replace (n * (3 + D) + (n * k + i) <? n)%nat with false by (symmetry; apply Nat.ltb_ge; nia).
      replace (n * (3 + D) + (n * k + i) <? n * (1 + D))%nat with false by (symmetry; apply Nat.ltb_ge; nia).
      replace (n * (3 + D) + (n * k + i) <? n * (2 + D))%nat with false by (symmetry; apply Nat.ltb_ge; nia).
      replace (n * (3 + D) + (n * k + i) <? n * (3 + D))%nat with false by (symmetry; apply Nat.ltb_ge; nia).
      replace (n * (3 + D) + (n * k + i) - n * (3 + D))%nat with (n * k + i)%nat by lia. reflexivity. }
  rewrite (sumn_ext D (fun k => rmul (if negb peep then _ else _) _)
     (fun k => md_forgetgateError sigmoid sigmoidPrime tanh tanh tanhP n D peep p x e (n * k + i)%nat * md_laststates n D x (n * k + i)%nat * w dp (n + (n * k + i))%nat)).
  2:{ intros k Hk. pose proof (grid_lt n D k i Hi Hk). destruct peep; cbn [negb]; [|cbn; ring].
      replace (n + (n * k + i) <? n)%nat with false by (symmetry; apply Nat.ltb_ge; lia).
      replace (n + (n * k + i) <? n * (1 + D))%nat with true by (symmetry; apply Nat.ltb_lt; lia).
      replace (n + (n * k + i) - n)%nat with (n * k + i)%nat by lia. reflexivity. }
  (* one cell *)
  pose (se := md_stateError sigmoid sigmoidPrime tanh tanh tanhP n D peep p x e i).
  pose proof (cell_sums D se (sigmoidPrime (md_ingatex n D peep p x i)) (tanh (md_cellx n D x i)) (dx i) (w dp i) (w p i)
    (fun k => sigmoid (md_forgetgatex n D peep p x (n * k + i)%nat)) (fun k => sigmoidPrime (md_forgetgatex n D peep p x (n * k + i)%nat))
    (fun k => md_laststates n D x (n * k + i)%nat) (fun k => md_laststates n D dx (n * k + i)%nat)
    (fun k => dx (n + (n * k + i))%nat) (fun k => w p (n + (n * k + i))%nat) (fun k => w dp (n + (n * k + i))%nat)) as HC.
  assert (S1 : sumn D (fun k => md_forgetgateError sigmoid sigmoidPrime tanh tanh tanhP n D peep p x e (n * k + i)%nat * dx (n + (n * k + i))%nat) =
     sumn D (fun k => sigmoidPrime (md_forgetgatex n D peep p x (n * k + i)%nat) * se * md_laststates n D x (n * k + i)%nat * dx (n + (n * k + i))%nat)).
  { apply sumn_ext. intros k Hk. unfold md_forgetgateError. rewrite grid_mod by auto. reflexivity. }
  assert (S2 : sumn D (fun k => md_instateErrors sigmoid sigmoidPrime tanh tanh tanhP n D peep p x e (n * k + i)%nat * dx (n * (3 + D) + (n * k + i))%nat) =
     sumn D (fun k => (se * sigmoid (md_forgetgatex n D peep p x (n * k + i)%nat) + sigmoidPrime (md_ingatex n D peep p x i) * se * tanh (md_cellx n D x i) * w p i
        + sigmoidPrime (md_forgetgatex n D peep p x (n * k + i)%nat) * se * md_laststates n D x (n * k + i)%nat * w p (n + (n * k + i))%nat) * md_laststates n D dx (n * k + i)%nat)).
  { apply sumn_ext. intros k Hk. unfold md_instateErrors, md_forgetgateError, md_ingateError. rewrite grid_mod by auto. fold se.
    change (dx (n * (3 + D) + (n * k + i))%nat) with (md_laststates n D dx (n * k + i)%nat). destruct peep; cbn; ring. }
  assert (S3 : sumn D (fun k => md_forgetgateError sigmoid sigmoidPrime tanh tanh tanhP n D peep p x e (n * k + i)%nat * md_laststates n D x (n * k + i)%nat * w dp (n + (n * k + i))%nat) =
     sumn D (fun k => sigmoidPrime (md_forgetgatex n D peep p x (n * k + i)%nat) * se * md_laststates n D x (n * k + i)%nat * md_laststates n D x (n * k + i)%nat * w dp (n + (n * k + i))%nat)).
  { apply sumn_ext. intros k Hk. unfold md_forgetgateError. rewrite grid_mod by auto. reflexivity. }
  assert (S4 : rmul (if negb peep then 0%K else sumn D (fun k => rmul (md_ingateError sigmoid sigmoidPrime tanh tanh tanhP n D peep p x e i) (md_laststates n D x (n * k + i)%nat))) (dp i) =
     sumn D (fun k => sigmoidPrime (md_ingatex n D peep p x i) * se * tanh (md_cellx n D x i) * md_laststates n D x (n * k + i)%nat) * w dp i).
  { destruct peep; cbn [negb]; [reflexivity|]. cbn. ring. }
  assert (S5 : e i * (sigmoidPrime (md_outgatex sigmoid tanh n D peep p x i) * d_ogx i * tanh (stt p x i)
      + sigmoid (md_outgatex sigmoid tanh n D peep p x i) * (tanhP (stt p x i) * d_state i)) + e (n + i)%nat * d_state i =
    md_outgateError sigmoid sigmoidPrime tanh tanh n D peep p x e i * (dx (n * (2 + D) + i)%nat + w dp (n * (1 + D) + i)%nat * stt p x i) + se * d_state i).
  { unfold se, md_stateError, md_outgateError, Mdlstm_Props.d_ogx. destruct peep; cbn; ring. }
  assert (S6 : se * d_state i = md_cellError sigmoid sigmoidPrime tanh tanhP tanh tanhP n D peep p x e i * dx (n * (1 + D) + i)%nat +
    (sigmoidPrime (md_ingatex n D peep p x i) * se * tanh (md_cellx n D x i) * d_igx i +
     se * sumn D (fun k => sigmoidPrime (md_forgetgatex n D peep p x (n * k + i)%nat) * d_fgx (n * k + i)%nat * md_laststates n D x (n * k + i)%nat
                      + sigmoid (md_forgetgatex n D peep p x (n * k + i)%nat) * md_laststates n D dx (n * k + i)%nat))).
  { unfold Mdlstm_Props.d_state, md_cellError. fold se. change (dx (n * (1 + D) + i)%nat) with (md_cellx n D dx i). cbn. ring. }
  cbv beta in HC. unfold Mdlstm_Props.d_igx, Mdlstm_Props.d_fgx in S6. 
  transitivity (md_outgateError sigmoid sigmoidPrime tanh tanh n D peep p x e i * (dx (n * (2 + D) + i)%nat + w dp (n * (1 + D) + i)%nat * stt p x i) + se * d_state i); [exact S5|].
  rewrite S6.
  match type of HC with ?l = _ => match goal with |- radd ?a (radd ?b ?c) = _ => idtac | |- ?a + (?b + ?c) = _ => change c with l end end.
  rewrite HC. rewrite S1, S2, S3, S4. unfold md_ingateError. fold se.
  destruct peep; cbn [negb]; cbn; ring.
Qed.
End Md2.

(** For every differentiable family of input rows and peephole weights. *)
Theorem C58_mdlstm_gradient n D peep (p dp x dx : rvec) (ps xs : R -> rvec) :
  (forall q, (q < n * (2 + D))%nat -> ps 0 q = p q /\ dlim (fun s => ps s q) (dp q)) ->
  (forall j, (j < n * (3 + 2 * D))%nat -> xs 0 j = x j /\ dlim (fun s => xs s j) (dx j)) ->
  md_unclipped n D peep p x ->
  exists dout : rvec,
    (forall j, (j < n * 2)%nat -> dlim (fun s => r_md_forward n D peep (ps s) (xs s) j) (dout j)) /\
    forall e, dot (n * 2) e dout =
      dot (n * (3 + 2 * D)) (r_md_backward n D peep p x e) dx + dot (n * (2 + D)) (r_md_derivs n D peep p x e) dp.
Proof.
  intros Hp Hx HG. exists (d_out n D peep p dp x dx). split.
  - intros j Hj. exact (out_d n D peep p dp x dx ps xs (fun q H => proj1 (Hp q H)) (fun q H => proj1 (Hx q H)) (fun q H => proj2 (Hp q H)) (fun q H => proj2 (Hx q H)) HG j Hj).
  - intro e. apply md_adjoint.
Qed.
Print Assumptions C58_mdlstm_gradient.

(** With the weights fixed it is a differentiable layer of C18. *)
Theorem C58_mdlstm_layer n D peep (p x : rvec) : md_unclipped n D peep p x -> layer_diff_at (r_mdlstm_layer n D peep p) x.
Proof.
  intros HG xs d H0 Hd. cbn [r_mdlstm_layer mdlstm_layer l_in l_out l_fwd l_bwd] in *.
  destruct (C58_mdlstm_gradient n D peep p (fun _ => 0) x d (fun _ => p) xs) as (g & Hg & He); auto.
  { intros q _. split; [reflexivity|apply dlim_const]. }
  exists g. split; [exact Hg|]. intro e. rewrite He.
  transitivity (dot (n * (3 + 2 * D)) (r_md_backward n D peep p x e) d + 0); [|apply Rplus_0_r].
  f_equal. unfold dot. refine (sumn_zero' _ _ _). intros. apply Rmult_0_r.
Qed.
Print Assumptions C58_mdlstm_layer.

(** two cells, two dimensions, peepholes: at the origin no gate is clipped *)
Example C58_mdlstm_nonvacuous : md_unclipped 2 2 true (fun _ => 1) (fun _ => 0).
Proof.
  assert (tanh_0 : tanh 0 = 0) by (unfold tanh, sinh; rewrite Ropp_0; unfold Rdiv; ring).
  assert (HS : forall i, md_state sigmoid tanh 2 2 true (fun _ => 1) (fun _ => 0) i = 0).
  { intro i. unfold md_state, md_cellx, md_laststates. cbn. rewrite tanh_0. ring. }
  split; [|split].
  - intros i Hi. unfold md_ingatex, md_laststates. cbn. rewrite Rabs_right; lra.
  - intros q Hq. unfold md_forgetgatex, md_laststates. cbn. rewrite Rabs_right; lra.
  - intros i Hi. unfold md_outgatex. rewrite HS. cbn. rewrite Rabs_right; lra.
Qed.
