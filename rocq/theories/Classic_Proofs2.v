(** XOR tasks, the simple environment, the ship. *)
From Coq Require Import Reals Lra Psatz.
From Verif Require Import Base Functions_Model Classic_Model Classic_Spec Classic_Proofs.
Local Open Scope R_scope.

(** ** xor *)
Definition wanted (c : xcfg) (a b : bool) : Z := Z.b2z (if x_and c then andb a b else xorb a b).
Lemma target_int c a b : target c (Some (Int (Z.b2z a), Int (Z.b2z b))) = Ok (wanted c a b).
Proof. unfold target, wanted. destruct (x_and c), a, b; reflexivity. Qed.
Lemma bits_int c z : x_truediv c = false -> bits c z = (Int (Z.b2z (Z.testbit z 0)), Int (Z.b2z (Z.testbit z 1))).
Proof.
  intro D. unfold bits, half. rewrite D. rewrite !Z.testbit_spec' by lia. change (2 ^ 0)%Z with 1%Z. change (2 ^ 1)%Z with 2%Z. rewrite Z.div_1_r. reflexivity.
Qed.
Lemma bits_float c z : x_truediv c = true -> bits c z = (Float, Float).
Proof. intro D. unfold bits, half. rewrite D. reflexivity. Qed.

Definition chainStep (c : xcfg) (t : xor) (a : Z) : result xor := chainPerform c false a (chainObserve c t).
Lemma chain_step c t a : x_truediv c = false ->
  exists t', chainStep c t a = Ok t' /\
    (a = wanted c (Z.testbit (x_state t) 0) (Z.testbit (x_state t) 1) ->
       x_state t' = Z.min (x_state t + 1) 3 /\ x_r t' = (if x_cutoff c <=? x_state t then 1 else -1)%Z) /\
    (a <> wanted c (Z.testbit (x_state t) 0) (Z.testbit (x_state t) 1) -> x_state t' = 0%Z /\ x_r t' = (-1)%Z) /\
    x_cum t' = (x_cum t + x_r t')%Z.
Proof.
  intro D. unfold chainStep, chainPerform, chainObserve. cbn [x_obs x_state x_r x_counter x_cum]. rewrite (bits_int c _ D), target_int. cbn [rbind].
  set (w := wanted c _ _). destruct (a =? w)%Z eqn:E.
  - apply Z.eqb_eq in E. eexists. split; [reflexivity|]. unfold addReward, xorReward. cbn [x_obs x_state x_r x_counter x_cum].
    split; [|split; [|reflexivity]].
    + intros _. split; [reflexivity|]. destruct (x_cutoff c <=? x_state t)%Z; reflexivity.
    + intro N. contradiction.
  - apply Z.eqb_neq in E. eexists. split; [reflexivity|]. unfold addReward, xorReward. cbn [x_obs x_state x_r x_counter x_cum].
    split; [|split; [|reflexivity]]; [intro; contradiction | auto].
Qed.
(** always taking the right action *)
Fixpoint perfect (c : xcfg) (n : nat) (t : xor) : result xor :=
  match n with
  | O => Ok t
  | S n => let! t := chainStep c t (wanted c (Z.testbit (x_state t) 0) (Z.testbit (x_state t) 1)) in perfect c n t
  end.
Lemma perfect_spec c n : x_truediv c = false -> forall t, (0 <= x_state t <= 3)%Z ->
  exists t', perfect c n t = Ok t' /\ x_state t' = Z.min (x_state t + Z.of_nat n) 3 /\ (x_cutoff c <= x_state t -> x_cum t' = x_cum t + Z.of_nat n)%Z.
Proof.
  intro D. induction n as [|n IH]; intros t Hs.
  - exists t. split; [reflexivity|]. lia.
  - cbn [perfect]. destruct (chain_step c t (wanted c (Z.testbit (x_state t) 0) (Z.testbit (x_state t) 1)) D) as (t1 & E & A & _ & C). rewrite E. cbn [rbind].
    destruct (A eq_refl) as (S1 & R1). destruct (IH t1) as (t' & E' & S' & C'); [lia|]. exists t'. split; [exact E'|]. split; [lia|].
    intro L. rewrite C' by lia. rewrite C, R1. apply Z.leb_le in L. rewrite L. lia.
Qed.

(** ** simple *)
Lemma rzip_length f a b : length (rzip f a b) = Nat.min (length a) (length b).
Proof. revert b. induction a as [|x a IH]; intros [|y b]; cbn [rzip length]; auto. rewrite IH. reflexivity. Qed.
Lemma rzip_app f a b c : length a = length c -> rzip f (a ++ b) c = rzip f a c.
Proof.
  revert c. induction a as [|x a IH]; intros [|y c] L; try discriminate; cbn [app rzip].
  - destruct b; reflexivity.
  - f_equal. apply IH. cbn in L. lia.
Qed.

(** ** the ship *)
Lemma clip_range x lo hi : lo <= hi -> lo <= clip x lo hi <= hi.
Proof. intro. unfold clip, Rmin, Rmax. destruct (Rle_dec x lo), (Rle_dec _ hi); lra. Qed.
Lemma clip_id x lo hi : lo <= x <= hi -> clip x lo hi = x.
Proof. intro. unfold clip, Rmin, Rmax. destruct (Rle_dec x lo), (Rle_dec _ hi); lra. Qed.
Lemma ship_step f u r0 r1 r2 x : ship_ok x -> ship_ok (shipStep f u r0 r1 r2 x).
Proof.
  intros (H1 & H2 & H3). unfold shipStep. cbv zeta.
  set (v := clip (sp x + _) (-10) 40). assert (V : -10 <= v <= 40) by (apply clip_range; lra).
  set (w := clip (hd' x + _) (-180) 180). assert (W : -180 <= w <= 180) by (apply clip_range; lra).
  clearbody v w. unfold ship_ok. cbn [hd hd' sp]. split; [|auto].
  destruct (ltb 180 (hd x + (w + hd' x) / 2)) eqn:A; [apply ltb_true in A; lra|]. apply ltb_false in A.
  destruct (ltb (hd x + (w + hd' x) / 2) (-180)) eqn:B; [apply ltb_true in B; lra | apply ltb_false in B; lra].
Qed.
Lemma ship_start_ok u : 0 <= u <= 1 -> ship_ok (shipStart u).
Proof. intro H. unfold ship_ok, shipStart. cbn [hd hd' sp]. lra. Qed.
Lemma scale_pos n : (0 < n)%Z -> 0 < / IZR n.
Proof. intro H. apply Rinv_0_lt_compat. apply IZR_lt in H. exact H. Qed.
Lemma ship_reward n x : (0 < n)%Z -> ship_ok x -> - (25 / IZR n) <= shipReward n x <= 100 / IZR n.
Proof.
  intros Hn (_ & _ & V). pose proof (scale_pos n Hn) as P. unfold shipReward, rewardscale, Rdiv. set (i := / IZR n) in *.
  destruct (ltb _ _); [|nra]. nra.
Qed.
Lemma ship_run maxsteps N pol fuel : (0 < maxsteps)%Z -> forall t x cum, ship_ok x -> (t <= N)%Z -> (N - t < Z.of_nat fuel)%Z ->
  exists y r, shipRun maxsteps N t pol fuel x cum = Ok (y, N, r) /\ ship_ok y /\
    - (25 / IZR maxsteps) * IZR (N - t) <= r - cum <= 100 / IZR maxsteps * IZR (N - t).
Proof.
  intro Hm. induction fuel as [|fuel IH]; intros t x cum O T F; [lia|]. cbn [shipRun]. destruct (N <=? t)%Z eqn:E.
  - apply Z.leb_le in E. assert (t = N) by lia. subst t. exists x, cum. split; [reflexivity|]. split; [exact O|]. rewrite Z.sub_diag. lra.
  - apply Z.leb_gt in E. destruct (pol t x) as [[a1 a2] [[r0 r1] r2]].
    assert (O' : ship_ok (shipAct a1 a2 r0 r1 r2 x)) by (unfold shipAct; apply ship_step, O).
    destruct (IH (t + 1)%Z (shipAct a1 a2 r0 r1 r2 x) (cum + shipReward maxsteps (shipAct a1 a2 r0 r1 r2 x)) O') as (y & r & R1 & R2 & R3); [lia | lia |].
    exists y, r. split; [exact R1|]. split; [exact R2|]. pose proof (ship_reward maxsteps _ Hm O') as B.
    replace (N - t)%Z with ((N - (t + 1)) + 1)%Z by lia. rewrite plus_IZR. lra.
Qed.
