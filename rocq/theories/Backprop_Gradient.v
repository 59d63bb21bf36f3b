(** C61: what _calcDerivs adds to the derivatives is minus the gradient of the error it returns. *)
From Coq Require Import Ring Reals Lra FunctionalExtensionality.
From Verif Require Import Base RingOps Net_Model Net_Spec Conn_Adjoint Net_Adjoint Net_Gradient Net_Gradient2 Net_Gradient_Props Backprop_Model.
Local Open Scope R_scope.

(** half the sum of the squared differences, weighted *)
Definition square_error (n : nat) (w t y : rvec) : R := / 2 * sumn n (fun i => w i * ((t i - y i) * (t i - y i))).
Definition weight (x : @sample R) : rvec := match x_imp x with Some w => w | None => fun _ => 1 end.

Lemma sample_error_square n x y : sample_error (/ 2) n x y = square_error n (weight x) (x_target x) y.
Proof.
  unfold sample_error, square_error, weight, outerr. destruct (x_imp x) as [w|]; cbn [rmul ROps]; f_equal.
  apply sumn_ext. intros i Hi. cbn. ring.
Qed.
Lemma sample_back_weight x y i : sample_back x y i = (x_target x i - y i) * weight x i.
Proof. unfold sample_back, weight, outerr. destruct (x_imp x); cbn; ring. Qed.

Lemma sumn_opp n (f : nat -> R) : sumn n (fun i => - f i) = - sumn n f.
Proof. induction n as [|n IH]; cbn; [ring|]. cbn in IH. rewrite IH. ring. Qed.

(** from the derivatives of all fixed linear combinations of the outputs to the derivative of the squared error *)
Lemma square_dlim T n (Y : R -> nat -> rvec) (L : (nat -> rvec) -> R) (w t : nat -> rvec) :
  (forall E : nat -> rvec, dlim (fun s => sumn T (fun k => dot n (E k) (Y s k))) (L E)) ->
  dlim (fun s => sumn T (fun k => square_error n (w k) (t k) (Y s k))) (- L (fun k i => (t k i - Y 0 k i) * w k i)).
Proof.
  intro H.
  set (u := fun k0 i0 k i => if (k =? k0)%nat && (i =? i0)%nat then 1 else 0).
  assert (HY : forall k0 i0, (k0 < T)%nat -> (i0 < n)%nat -> dlim (fun s => Y s k0 i0) (L (u k0 i0))).
  { intros k0 i0 Hk Hi. apply (dlim_ext (fun s => sumn T (fun k => dot n (u k0 i0 k) (Y s k)))); [|apply H]. intro s.
    rewrite (sumn_single (L := RLaws) T k0) by (auto; intros k _ Hne; unfold dot, u; apply (sumn_zero' (L := RLaws)); intros i _;
      apply Nat.eqb_neq in Hne; rewrite Hne; cbn; ring).
    unfold dot. rewrite (sumn_single (L := RLaws) n i0); auto.
    - unfold u. rewrite !Nat.eqb_refl. cbn. ring.
    - intros i _ Hne. unfold u. apply Nat.eqb_neq in Hne. rewrite Hne, Bool.andb_false_r. cbn. ring. }
  assert (HL : forall E, L E = sumn T (fun k => dot n (E k) (fun i => L (u k i)))).
  { intro E. apply (uniqueness_limite (fun s => sumn T (fun k => dot n (E k) (Y s k))) 0); [apply H|].
    apply (dlim_sumn T (fun k s => dot n (E k) (Y s k))). intros k Hk. unfold dot.
    apply (dlim_sumn n (fun i s => rmul (E k i) (Y s k i))). intros i Hi. cbn.
    apply (dlim_val _ (0 * Y 0 k i + E k i * L (u k i))); [ring|]. apply (dlim_mul (fun _ => E k i) (fun s => Y s k i)); [apply dlim_const|auto]. }
  apply (dlim_val _ (sumn T (fun k => sumn n (fun i => - ((t k i - Y 0 k i) * w k i * L (u k i)))))).
  { rewrite HL. transitivity (sumn T (fun k => - dot n (fun i => (t k i - Y 0 k i) * w k i) (fun i => L (u k i)))).
    - apply sumn_ext. intros k _. apply sumn_opp.
    - apply sumn_opp. }
  apply (dlim_sumn T (fun k s => square_error n (w k) (t k) (Y s k))). intros k Hk. unfold square_error.
  apply (dlim_val _ (0 * sumn n (fun i => w k i * ((t k i - Y 0 k i) * (t k i - Y 0 k i))) + / 2 * sumn n (fun i => - 2 * ((t k i - Y 0 k i) * w k i * L (u k i))))).
  { rewrite Rmult_0_l, Rplus_0_l. rewrite <- (sumn_mul_l (L := RLaws)). apply sumn_ext. intros i _. cbn. field. }
  apply (dlim_mul (fun _ => / 2) (fun s => sumn n (fun i => w k i * ((t k i - Y s k i) * (t k i - Y s k i))))); [apply dlim_const|].
  apply (dlim_sumn n (fun i s => w k i * ((t k i - Y s k i) * (t k i - Y s k i)))). intros i Hi.
  apply (dlim_val _ (0 * ((t k i - Y 0 k i) * (t k i - Y 0 k i)) + w k i * ((0 - L (u k i)) * (t k i - Y 0 k i) + (t k i - Y 0 k i) * (0 - L (u k i))))); [ring|].
  apply (dlim_mul (fun _ => w k i) (fun s => (t k i - Y s k i) * (t k i - Y s k i))); [apply dlim_const|].
  apply (dlim_mul (fun s => t k i - Y s k i) (fun s => t k i - Y s k i)); apply (dlim_sub (fun _ => t k i) (fun s => Y s k i)); auto using dlim_const.
Qed.

Lemma out_width_dim (N : rnet) : out_width N = out_dim N.
Proof. unfold out_width, out_dim. induction (n_outmods N) as [|m l IH]; [reflexivity|]. cbn. rewrite IH. reflexivity. Qed.

(** ** Feed-forward networks *)
Theorem ff_calc_gradient (N : rnet) (P dP : nat -> rvec) (x : @sample R) (b : @bufs R) (d : @derivs R) (ks : list nat) (pdim : nat -> nat) :
  wf_net N -> n_rec N = [] -> (forall m, In m (n_sorted N) -> layer_local (n_layer N m)) -> conns_good N -> params_of N ks pdim ->
  (forall m, In m (n_sorted N) -> layer_diff_at (n_layer N m) (b_in (fst (fst (ff_activate N P (b, d) (x_in x))) m 0%nat))) ->
  let E := fun Q => square_error (out_dim N) (weight x) (x_target x) (snd (ff_activate N Q (b, d) (x_in x))) in
  exists b' d', ff_calc (/ 2) N P [x] (b, d) = Ok ((b', d'), E P, sample_pond (out_dim N) x) /\
    dlim (fun s => E (fun k q => P k q + s * dP k q)) (- suml ks (fun k => dot (pdim k) (fun q => d' k q - d k q) (dP k))).
Proof.
  intros W Hr HL Hg Hks Hd E. cbn [ff_calc]. rewrite out_width_dim. unfold ff_activate at 1. cbn [snd fst].
  set (y := outputs N 0 (ff_forward N P reset_bufs (x_in x))).
  set (s1 := (ff_forward N P reset_bufs (x_in x), d)).
  destruct (fst (ff_backActivate N P s1 (sample_back x y))) as [b' d'] eqn:Eb.
  exists b', d'. split.
  { apply f_equal. apply f_equal2; [apply f_equal2; [reflexivity|]|].
    - unfold E. cbn [radd r0 ROps]. rewrite Rplus_0_l, sample_error_square. reflexivity.
    - cbn [radd r0 ROps]. apply Rplus_0_l. }
  set (L := fun e : nat -> rvec => suml ks (fun k => dot (pdim k) (fun q => snd (fst (ff_backActivate N P s1 (e 0%nat))) k q - d k q) (dP k))).
  assert (Hx : forall s, (fun j => x_in x j + s * @zvec R ROps j) = x_in x) by (intro s; apply functional_extensionality; intro j; unfold zvec; cbn; ring).
  pose proof (square_dlim 1 (out_dim N) (fun s _ => snd (ff_activate N (fun k q => P k q + s * dP k q) (b, d) (x_in x))) L (fun _ => weight x) (fun _ => x_target x)) as H.
  assert (HP0 : (fun k q => P k q + 0 * dP k q) = P) by (apply functional_extensionality; intro k; apply functional_extensionality; intro q; ring).
  eapply dlim_val; [|eapply dlim_ext; [|apply H]].
  - f_equal. unfold L. rewrite HP0. apply suml_ext. intros k _. unfold dot. apply sumn_ext. intros q _. f_equal. f_equal.
    replace (fun i => (x_target x i - snd (ff_activate N P (b, d) (x_in x)) i) * weight x i) with (sample_back x y).
    + rewrite Eb. reflexivity.
    + apply functional_extensionality. intro i. apply sample_back_weight.
  - intro s. apply Rplus_0_l.
  - intro e. pose proof (C18_feedforward_gradient N P dP (x_in x) zvec (e 0%nat) (b, d) ks pdim W Hr HL Hg Hks Hd) as G. cbv zeta in G.
    eapply dlim_val; [|eapply dlim_ext; [|exact G]].
    + unfold L. match goal with |- ?A + ?B = _ => assert (Z : A = 0) end.
      { unfold dot. apply (sumn_zero' (L := RLaws)). intros i _. unfold zvec. cbn. ring. }
      rewrite Z, Rplus_0_l. reflexivity.
    + intro s. cbv beta. rewrite Hx. symmetry. apply Rplus_0_l.
Qed.

(** ** Recurrent networks *)
Lemma back_fold (N : rnet) P l : forall s e p,
  fold_left (fun a yx => let '(s, error, ponderation) := a in let '(y, x) := yx in
      (fst (rec_backActivate N P s (sample_back x y)),
       radd error (sample_error (/ 2) (out_width N) x y), radd ponderation (sample_pond (out_width N) x))) l (s, e, p) =
  (fst (run_acts (rec_backActivate N P) s (map (fun yx => sample_back (snd yx) (fst yx)) l)),
   e + suml l (fun yx => sample_error (/ 2) (out_width N) (snd yx) (fst yx)), p + suml l (fun yx => sample_pond (out_width N) (snd yx))).
Proof.
  induction l as [|[y x] l IH]; intros s e p.
  - cbn. rewrite !Rplus_0_r. reflexivity.
  - cbn [fold_left]. rewrite IH. cbn [map run_acts suml fst snd].
    destruct (rec_backActivate N P s (sample_back x y)) as [s1 r1]. cbn [fst].
    destruct (run_acts (rec_backActivate N P) s1 (map (fun yx => sample_back (snd yx) (fst yx)) l)) as [s2 r2]. cbn [fst].
    apply f_equal2; [apply f_equal2; [reflexivity|]|]; cbn [radd ROps]; ring.
Qed.

Definition nosample : @sample R := mksample zvec zvec None.
Lemma combine_seq {A B} (da : A) (db : B) (a : list A) (b : list B) : length a = length b ->
  combine a b = map (fun t => (nth t a da, nth t b db)) (seq 0 (length b)).
Proof.
  revert b. induction a as [|x a IH]; intros [|y b] H; cbn in *; try discriminate; auto. f_equal. rewrite <- seq_shift, map_map. apply IH. lia.
Qed.
Lemma map_seq {A B} (f : A -> B) (da : A) (l : list A) : map f l = map (fun t => f (nth t l da)) (seq 0 (length l)).
Proof. induction l as [|x l IH]; cbn; auto. f_equal. rewrite <- seq_shift, map_map. exact IH. Qed.

(** the outputs of a network run over the inputs of a sequence *)
Definition rec_outs (N : rnet) (P : nat -> rvec) (sq : list (@sample R)) (s : @rstate R) : list rvec :=
  snd (run_acts (rec_activate N P) (rec_reset s) (map x_in sq)).
(** the error of a sequence *)
Definition sequence_error (N : rnet) (sq : list (@sample R)) (ys : list rvec) : R :=
  suml (combine ys sq) (fun yx => square_error (out_dim N) (weight (snd yx)) (x_target (snd yx)) (fst yx)).

Lemma suml_seq T (f : nat -> R) : suml (seq 0 T) f = sumn T f.
Proof.
  induction T as [|T IH]; [reflexivity|]. rewrite seq_S. rewrite (suml_app (L := RLaws)). cbn [suml sumn Nat.add]. rewrite IH. cbn. ring.
Qed.

Lemma run_len (N : rnet) P xs : forall s, length (snd (run_acts (rec_activate N P) s xs)) = length xs.
Proof.
  induction xs as [|x xs IH]; intro s; [reflexivity|]. cbn [run_acts]. destruct (rec_activate N P s x) as [s1 y].
  specialize (IH s1). destruct (run_acts (rec_activate N P) s1 xs) as [s2 ys]. cbn in *. lia.
Qed.

Lemma suml_combine_snd {A B} (f : B -> R) (a : list A) : forall b : list B, length a = length b -> suml (combine a b) (fun yx => f (snd yx)) = suml b f.
Proof. induction a as [|x a IH]; intros [|y b] H; cbn in *; try discriminate; auto. rewrite IH by lia. reflexivity. Qed.

Theorem rec_calc_gradient (N : rnet) (P dP : nat -> rvec) (sq : list (@sample R)) (s : @rstate R) (ks : list nat) (pdim : nat -> nat) :
  wf_net N -> (forall m, In m (n_sorted N) -> layer_local (n_layer N m)) -> conns_good N -> params_of N ks pdim -> (0 < r_len s)%nat ->
  (forall m t, In m (n_sorted N) -> (t < length sq)%nat ->
     layer_diff_at (n_layer N m) (b_in (r_b (fst (run_acts (rec_activate N P) (rec_reset s) (map x_in sq))) m t))) ->
  let E := fun Q => sequence_error N sq (rec_outs N Q sq s) in
  exists s', rec_calc (/ 2) N P sq s = (s', E P, suml sq (sample_pond (out_dim N))) /\
    dlim (fun z => E (fun k q => P k q + z * dP k q)) (- suml ks (fun k => dot (pdim k) (fun q => r_d s' k q - r_d s k q) (dP k))).
Proof.
  intros W HL Hg Hks Hlen Hd E. unfold rec_calc. set (T := length sq).
  pose proof (run_len N P (map x_in sq) (rec_reset s)) as Hys. rewrite map_length in Hys.
  unfold E at 1. unfold rec_outs.
  destruct (run_acts (rec_activate N P) (rec_reset s) (map x_in sq)) as [s1 ys] eqn:Er. cbn [snd] in Hys.
  rewrite back_fold. eexists. split.
  { apply f_equal2; [apply f_equal2; [reflexivity|]|]; cbn [r0 ROps]; rewrite Rplus_0_l.
    - cbn [snd]. unfold sequence_error. rewrite <- (suml_perm (L := RLaws) _ _ _ (Permutation_rev (combine ys sq))). apply suml_ext. intros yx _.
      rewrite out_width_dim. apply sample_error_square.
    - rewrite <- (suml_perm (L := RLaws) _ _ _ (Permutation_rev (combine ys sq))). rewrite out_width_dim. apply suml_combine_snd. exact Hys. }
  set (X := fun t => x_in (nth t sq nosample)).
  assert (HX : map x_in sq = map X (seq 0 T)) by apply map_seq.
  set (Eb := fun t => sample_back (nth t sq nosample) (nth t ys zvec)).
  assert (HE : map (fun yx => sample_back (snd yx) (fst yx)) (rev (combine ys sq)) = map Eb (rev (seq 0 T))).
  { rewrite (combine_seq zvec nosample) by auto. rewrite <- map_rev, map_map. reflexivity. }
  rewrite HE.
  set (L := fun e : nat -> rvec => suml ks (fun k => dot (pdim k) (fun q => r_d (fst (run_acts (rec_backActivate N P) s1 (map e (rev (seq 0 T))))) k q - r_d s k q) (dP k))).
  set (Y := fun z t => nth t (rec_outs N (fun k q => P k q + z * dP k q) sq s) zvec).
  assert (HP0 : (fun k q => P k q + 0 * dP k q) = P) by (apply functional_extensionality; intro k; apply functional_extensionality; intro q; ring).
  assert (HY0 : forall t, Y 0 t = nth t ys zvec) by (intro t; unfold Y, rec_outs; rewrite HP0, Er; reflexivity).
  pose proof (square_dlim T (out_dim N) Y L (fun t => weight (nth t sq nosample)) (fun t => x_target (nth t sq nosample))) as H.
  eapply dlim_val; [|eapply dlim_ext; [|apply H]].
  - f_equal. unfold L.
    replace (fun k i => (x_target (nth k sq nosample) i - Y 0 k i) * weight (nth k sq nosample) i) with Eb; [reflexivity|].
    apply functional_extensionality. intro t. apply functional_extensionality. intro i. unfold Eb. rewrite HY0. apply sample_back_weight.
  - intro z. cbv beta. unfold E, sequence_error. rewrite (combine_seq zvec nosample).
    2:{ unfold rec_outs. rewrite run_len, map_length. reflexivity. }
    rewrite (suml_map (Ops := ROps)), suml_seq. reflexivity.
  - intro e. pose proof (C18_recurrent_gradient N P dP X (fun _ => zvec) e T (r_d s) (r_maxoffset s) (r_len s) ks pdim W HL Hg Hks Hlen) as G. cbv zeta in G.
    change (mkr reset_bufs (r_d s) 0 (r_maxoffset s) (r_len s)) with (rec_reset s) in G. rewrite <- HX, Er in G. cbn [fst] in G.
    specialize (G Hd).
    assert (Hx : forall z, map (fun t j => X t j + z * @zvec R ROps j) (seq 0 T) = map x_in sq).
    { intro z. rewrite HX. apply map_ext. intro t. apply functional_extensionality. intro j. unfold zvec. cbn. ring. }
    eapply dlim_val; [|eapply dlim_ext; [|exact G]].
    + unfold L. match goal with |- ?A + ?B = _ => assert (Z : A = 0) end.
      { apply (sumn_zero' (L := RLaws)). intros t _. unfold dot. apply (sumn_zero' (L := RLaws)). intros i _. unfold zvec. cbn. ring. }
      rewrite Z, Rplus_0_l. reflexivity.
    + intro z. cbv beta. unfold Y, rec_outs. rewrite Hx. reflexivity.
Qed.
