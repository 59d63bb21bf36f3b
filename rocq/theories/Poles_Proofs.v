(** The mechanics. *)
From Coq Require Import Reals Lra Psatz.
From Verif Require Import Base Functions_Model Poles_Model Poles_Spec.
Local Open Scope R_scope.

Lemma cos2_le t : cos t ^ 2 <= 1.
Proof. pose proof (COS_bound t). simpl. nra. Qed.
Lemma denom_pos c t : 0 < c_l c -> 0 <= c_mp c -> 0 < c_mc c -> 0 < denom (4 / 3) c t.
Proof.
  intros L P C. unfold denom. pose proof (cos2_le t) as B.
  assert (E : 0 <= c_mp c * c_l c) by (apply Rmult_le_pos; lra).
  assert (H : c_mp c * c_l c * cos t ^ 2 <= c_mp c * c_l c * 1) by (apply Rmult_le_compat_l; lra).
  assert (0 < c_l c * c_mc c) by (apply Rmult_lt_0_compat; lra). nra.
Qed.
Lemma denom_pos_int c t : 0 < c_l c -> 0 <= c_mp c -> 0 < c_mc c -> 0 < denom 1 c t.
Proof.
  intros L P C. unfold denom. pose proof (cos2_le t) as B.
  assert (E : 0 <= c_mp c * c_l c) by (apply Rmult_le_pos; lra).
  assert (H : c_mp c * c_l c * cos t ^ 2 <= c_mp c * c_l c * 1) by (apply Rmult_le_compat_l; lra).
  assert (0 < c_l c * c_mc c) by (apply Rmult_lt_0_compat; lra). nra.
Qed.

Lemma derivs_motion c F x : proper c ->
  let y := derivs (4 / 3) c F x in th y = th' x /\ po y = po' x /\ obeys c F x (th' y) (po' y).
Proof.
  intros (L & P & C) y. split; [reflexivity|]. split; [reflexivity|].
  pose proof (denom_pos c (th x) L (Rlt_le _ _ P) C) as D. unfold y, derivs, obeys. cbn [th' po'].
  unfold denom in *. split.
  - field. split; lra.
  - field. split; lra.
Qed.
Lemma obeys_unique c F x a b a' b' : proper c -> obeys c F x a b -> obeys c F x a' b' -> a = a' /\ b = b'.
Proof.
  intros (L & P & C) (E1 & E2) (E1' & E2').
  pose proof (denom_pos c (th x) L (Rlt_le _ _ P) C) as D. unfold denom in D.
  set (M := c_mc c + c_mp c) in *. set (k := c_mp c * c_l c) in *.
  assert (HM : 0 < M) by (unfold M; lra). assert (Hk : 0 < k) by (unfold k; nra).
  assert (A1 : M * (b - b') + k * cos (th x) * (a - a') = 0) by (unfold k in *; nra).
  assert (A2 : k * (4 / 3 * c_l c * (a - a') + cos (th x) * (b - b')) = 0) by (unfold k in *; nra).
  assert (A3 : 4 / 3 * c_l c * (a - a') + cos (th x) * (b - b') = 0) by nra.
  assert (A4 : (4 / 3 * c_l c * M - k * cos (th x) ^ 2) * (a - a') = 0).
  { replace ((4 / 3 * c_l c * M - k * cos (th x) ^ 2) * (a - a'))
      with (M * (4 / 3 * c_l c * (a - a') + cos (th x) * (b - b')) - cos (th x) * (M * (b - b') + k * cos (th x) * (a - a'))) by ring.
    rewrite A1, A3. ring. }
  assert (a = a') by nra. subst a'. split; [reflexivity|].
  assert (M * (b - b') = 0) by nra. nra.
Qed.

(** ** energy *)
Lemma energy_lim c y t a b : proper c ->
  derivable_pt_lim (fun u => th (y u)) t (th' (y t)) -> derivable_pt_lim (fun u => th' (y u)) t a ->
  derivable_pt_lim (fun u => po' (y u)) t b ->
  derivable_pt_lim (fun u => energy c (y u)) t
    ((c_mc c + c_mp c) * po' (y t) * b +
     c_mp c * c_l c * (b * th' (y t) * cos (th (y t)) + po' (y t) * a * cos (th (y t)) - po' (y t) * th' (y t) ^ 2 * sin (th (y t))) +
     4 / 3 * c_mp c * c_l c ^ 2 * th' (y t) * a - c_mp c * c_g c * c_l c * sin (th (y t)) * th' (y t)).
Proof.
  intros _ H1 H2 H3.
  assert (HC : derivable_pt_lim (fun u => cos (th (y u))) t (- sin (th (y t)) * th' (y t))).
  { exact (derivable_pt_lim_comp (fun u => th (y u)) cos t _ _ H1 (derivable_pt_lim_cos _)). }
  pose proof (derivable_pt_lim_mult _ _ _ _ _ H3 H3) as S3.
  pose proof (derivable_pt_lim_mult _ _ _ _ _ H2 H2) as S2.
  pose proof (derivable_pt_lim_mult _ _ _ _ _ (derivable_pt_lim_mult _ _ _ _ _ H3 H2) HC) as SX.
  pose proof (derivable_pt_lim_plus _ _ _ _ _
                (derivable_pt_lim_plus _ _ _ _ _
                   (derivable_pt_lim_plus _ _ _ _ _ (derivable_pt_lim_scal _ (1 / 2 * (c_mc c + c_mp c)) _ _ S3)
                      (derivable_pt_lim_scal _ (c_mp c * c_l c) _ _ SX))
                   (derivable_pt_lim_scal _ (1 / 2 * (4 / 3 * c_mp c * c_l c ^ 2)) _ _ S2))
                (derivable_pt_lim_scal _ (c_mp c * c_g c * c_l c) _ _ HC)) as Q.
  match type of Q with derivable_pt_lim ?f _ ?v =>
    assert (EQ : forall u, f u = energy c (y u));
    [ intro u; unfold plus_fct, mult_fct, mult_real_fct, energy; ring
    | match goal with |- derivable_pt_lim _ _ ?w => replace w with v end ]
  end.
  - intros eps He. destruct (Q eps He) as (d & Hd). exists d. intros h h0 h1. rewrite <- !EQ. apply Hd; assumption.
  - unfold mult_fct. cbv beta. field.
Qed.
Lemma energy_motion c F y : proper c -> motion (fun t => derivs (4 / 3) c (F t)) y ->
  forall t, derivable_pt_lim (fun u => energy c (y u)) t (F t * po' (y t)).
Proof.
  intros P M t. destruct (M t) as (M1 & M2 & M3 & M4).
  destruct (derivs_motion c (F t) (y t) P) as (E1 & E2 & E3 & E4).
  pose proof (energy_lim c y t _ _ P M1 M2 M4) as Q.
  match type of Q with derivable_pt_lim _ _ ?w => replace (F t * po' (y t)) with w; [exact Q|] end.
  pose proof (f_equal (Rmult (po' (y t))) E3) as K3. pose proof (f_equal (Rmult (th' (y t))) E4) as K4.
  set (a := th' (derivs (4 / 3) c (F t) (y t))) in *. set (b := po' (derivs (4 / 3) c (F t) (y t))) in *. lra.
Qed.
Lemma constant_of_null f : (forall t, derivable_pt_lim f t 0) -> forall a b, f a = f b.
Proof.
  intros H. assert (pr : derivable f) by (intro t; exists 0; apply H).
  assert (K : constant f). { apply null_derivative_1 with pr. intro x. apply derive_pt_eq_0. apply H. }
  intros a b. apply K.
Qed.

(** ** symmetries *)
Lemma derivs_mirror q c F x : derivs q c (- F) (mirror x) = mirror (derivs q c F x).
Proof.
  unfold derivs, mirror, denom. cbn [th th' po po']. rewrite sin_neg, cos_neg.
  set (D := q * c_l c * (c_mc c + c_mp c) - c_mp c * c_l c * cos (th x) ^ 2). set (M := c_mc c + c_mp c). unfold Rdiv.
  f_equal; ring.
Qed.
Lemma axpy_mirror a x y : axpy a (mirror x) (mirror y) = mirror (axpy a x y).
Proof. unfold axpy, mirror. cbn [th th' po po']. f_equal; ring. Qed.
Lemma step_mirror q c F x : step q c (- F) (mirror x) = mirror (step q c F x).
Proof. unfold step, rk4. rewrite ?derivs_mirror, ?axpy_mirror, ?derivs_mirror, ?axpy_mirror, ?derivs_mirror, ?axpy_mirror, ?derivs_mirror, ?axpy_mirror. reflexivity. Qed.
Lemma derivs_shift q c F d x : derivs q c F (shift d x) = derivs q c F x.
Proof. reflexivity. Qed.
Lemma axpy_shift a d x y : axpy a x (shift d y) = shift d (axpy a x y).
Proof. unfold axpy, shift. cbn [th th' po po']. f_equal; ring. Qed.
Lemma step_shift q c F d x : step q c F (shift d x) = shift d (step q c F x).
Proof. unfold step, rk4. rewrite ?derivs_shift, ?axpy_shift, ?derivs_shift. reflexivity. Qed.

(** ** rest *)
Definition zero_state : state := St 0 0 0 0.
Lemma axpy_zero a x : axpy a zero_state x = x.
Proof. destruct x as [a1 a2 a3 a4]. unfold axpy, zero_state. cbn [th th' po po']. f_equal; ring. Qed.
Lemma derivs_rest q c x : sin (th x) = 0 -> th' x = 0 -> po' x = 0 -> derivs q c 0 x = zero_state.
Proof. intros S T P. unfold derivs, zero_state. rewrite S, T, P. f_equal; unfold Rdiv; ring. Qed.
Lemma step_rest q c x : sin (th x) = 0 -> th' x = 0 -> po' x = 0 -> step q c 0 x = x.
Proof.
  intros S T P. unfold step, rk4. rewrite !(derivs_rest q c x S T P), !axpy_zero, !(derivs_rest q c x S T P), !axpy_zero, !(derivs_rest q c x S T P), !axpy_zero, !(derivs_rest q c x S T P), !axpy_zero. reflexivity.
Qed.

(** ** the Runge-Kutta step on a linear system *)
Definition linear_map (f : state -> state) : Prop := forall a x y, f (axpy a x y) = axpy a (f x) (f y).
Lemma rk4_linear f h y : linear_map f ->
  rk4 f h y = axpy (h ^ 4 / 24) (f (f (f (f y)))) (axpy (h ^ 3 / 6) (f (f (f y))) (axpy (h ^ 2 / 2) (f (f y)) (axpy h (f y) y))).
Proof.
  intro L. unfold rk4. repeat rewrite L.
  generalize (f (f (f (f y)))) as k4. generalize (f (f (f y))) as k3. generalize (f (f y)) as k2. generalize (f y) as k1. intros k1 k2 k3 k4.
  unfold axpy. cbn [th th' po po']. f_equal; field.
Qed.

(** ** two carts *)
Lemma carts_differ F : F <> 0 -> po' (derivs (4 / 3) pole1 F zero_state) <> po' (derivs (4 / 3) pole2 F zero_state).
Proof.
  intro H. unfold derivs, denom, pole1, pole, pole2, zero_state. cbn [th th' po po' c_g c_l c_mp c_mc c_dt]. rewrite sin_0, cos_0.
  intro E. apply H. revert E. match goal with |- ?a = ?b -> _ => replace a with (F * (40/41)) by field; replace b with (F * (400/401)) by field end. nra.
Qed.
