(** The horizon, greedy rows and collapsed transitions: lemmas for C44. *)
From Verif Require Import Base Value_Model Value_Props ModelBased_Model ModelBased_Proofs.
From Coq Require Import QArith Qround Qabs Lqa.
Local Open Scope nat_scope.

(** ** The horizon *)
Lemma floor_to_nat q : (0 <= q)%Q -> let c := inject_Z (Z.of_nat (Z.to_nat (Qfloor q))) in (c <= q /\ q < c + 1)%Q.
Proof.
  intros H c. assert (E : c = inject_Z (Qfloor q)). { unfold c. rewrite Z2Nat.id; auto. change 0%Z with (Qfloor 0). now apply Qfloor_resp_le. }
  rewrite E. split; [apply Qfloor_le |]. pose proof (Qlt_floor q) as K. rewrite inject_Z_plus in K. exact K.
Qed.
Lemma half g m : (0 <= g)%Q -> (g < 1)%Q -> 1 <= m -> (g <= inject_Z (Z.of_nat m) * (1 - g))%Q -> (qpow g m <= 1 # 2)%Q.
Proof.
  intros H0 H1 Hm HK. destruct (Qlt_le_dec 0 g) as [Hp | Hz].
  - pose proof (bernoulli g m H0 ltac:(lra)) as B. pose proof (qpow_nonneg g m H0) as P. set (c := (inject_Z (Z.of_nat m) * (1 - g))%Q) in *. set (q := qpow g m) in *. clearbody c q.
    assert (q * (2 * g) <= g)%Q by nra. apply Qnot_lt_le. intros K. nra.
  - destruct m as [| m]; [lia |]. cbn [qpow]. set (q := qpow g m). clearbody q. assert (E : (g * q == 0 * q)%Q) by (apply Qmult_comp; lra). lra.
Qed.
Lemma qpow_mul g a b : (qpow g (a * b) == qpow (qpow g b) a)%Q.
Proof. induction a as [| a IH]; cbn [qpow Nat.mul]; [reflexivity |]. rewrite qpow_add, IH. reflexivity. Qed.
Lemma qpow_mono x y k : (0 <= x)%Q -> (x <= y)%Q -> (qpow x k <= qpow y k)%Q.
Proof. intros H H1. induction k as [| k IH]; cbn [qpow]; [lra |]. pose proof (qpow_nonneg x k H). pose proof (qpow_nonneg y k ltac:(lra)). nra. Qed.
Lemma horizon_small g : (0 <= g)%Q -> (g < 1)%Q -> 10 <= horizon g /\ (qpow g (horizon g) <= 1 # 1024)%Q.
Proof.
  intros H0 H1. set (m := Z.to_nat (Qfloor (1 / (1 - g)))). assert (Hi : (1 <= 1 / (1 - g))%Q) by (apply Qle_shift_div_l; lra).
  destruct (floor_to_nat (1 / (1 - g))) as [A B]; [lra |]. fold m in A, B. destruct (floor_to_nat (10 / (1 - g))) as [C D]; [apply Qle_shift_div_l; lra |]. fold (horizon g) in C, D.
  assert (E10 : (10 / (1 - g) == 10 * (1 / (1 - g)))%Q) by (field; lra). assert (Em : ((1 / (1 - g)) * (1 - g) == 1)%Q) by (field; lra).
  assert (M1 : 1 <= m). { destruct m as [| m']; [| lia]. change (inject_Z (Z.of_nat 0)) with 0%Q in B. lra. }
  assert (MN : 10 * m <= horizon g).
  { destruct (le_lt_dec (10 * m) (horizon g)) as [L | L]; [auto | exfalso]. assert (K : (inject_Z (Z.of_nat (horizon g)) + 1 <= inject_Z (Z.of_nat (10 * m)))%Q) by (change 1%Q with (inject_Z 1); rewrite <- inject_Z_plus, <- Zle_Qle; lia).
    rewrite Nat2Z.inj_mul, inject_Z_mult in K. change (inject_Z (Z.of_nat 10)) with 10%Q in K. set (u := inject_Z (Z.of_nat m)) in *. set (w := inject_Z (Z.of_nat (horizon g))) in *. clearbody u w. lra. }
  split; [lia |]. apply Qle_trans with (qpow g (10 * m)); [apply qpow_anti; auto; lra |]. rewrite qpow_mul.
  assert (HH : (qpow g m <= 1 # 2)%Q). { apply half; auto. set (u := inject_Z (Z.of_nat m)) in *. set (w := (1 / (1 - g))%Q) in *. clearbody u w. nra. }
  apply Qle_trans with (qpow (1 # 2) 10); [apply qpow_mono; [now apply qpow_nonneg | auto] |]. vm_compute. discriminate.
Qed.

(** ** Greedy rows *)
Definition uniform_row (k : nat) (p : nat -> Q) : Prop :=
  stochastic_row k p /\ forall a b, a < k -> b < k -> (0 < p a)%Q -> (0 < p b)%Q -> (p a == p b)%Q.
Definition maximising (k : nat) (x : nat -> Q) (a : nat) : Prop := forall b, b < k -> (x b <= x a)%Q.

Lemma where_eq_length m c : forall x i, (sigma (length x) (fun a => if Qeq_bool (at_ x a) m then c else 0) == inject_Z (Z.of_nat (length (where_eq m i x))) * c)%Q.
Proof.
  induction x as [| y x IH]; intros i; cbn [length where_eq]; [cbn [sigma length]; change (inject_Z (Z.of_nat 0)) with 0%Q; lra |].
  rewrite sigma_head. cbn [at_ nth]. change (fun i0 => if Qeq_bool (at_ (y :: x) (S i0)) m then c else 0%Q) with (fun i0 => if Qeq_bool (at_ x i0) m then c else 0%Q). rewrite (IH (i + 1)).
  destruct (Qeq_bool y m); [| lra]. cbn [length]. rewrite Nat2Z.inj_succ, <- Z.add_1_r, inject_Z_plus. change (inject_Z 1) with 1%Q. ring.
Qed.
Lemma upd_fold_length (c : Q) l : forall r, length (fold_left (fun r a => upd a c r) l r) = length r.
Proof. induction l as [| a l IH]; intros r; cbn [fold_left]; [auto |]. now rewrite IH, upd_length. Qed.
Lemma upd_fold_nth (c : Q) l : forall r b, b < length r ->
  at_ (fold_left (fun r a => upd a c r) l r) b = (if existsb (Nat.eqb b) l then c else at_ r b).
Proof.
  induction l as [| a l IH]; intros r b Hb; cbn [fold_left existsb]; [auto |]. rewrite IH by (rewrite upd_length; auto).
  destruct (existsb (Nat.eqb b) l); [now rewrite orb_true_r |]. rewrite orb_false_r. unfold at_. destruct (Nat.eqb_spec b a) as [-> | Hn].
  - apply nth_error_nth, nth_error_upd_eq. auto.
  - destruct (nth_error r b) as [y |] eqn:E; [| apply nth_error_None in E; lia]. rewrite (nth_error_nth _ _ _ E). apply nth_error_nth. rewrite nth_error_upd_neq; auto.
Qed.
Lemma greedy_row_spec k x : 0 < k -> length x = k -> exists r, greedy_row k x = Ok r /\ length r = k /\ uniform_row k (at_ r) /\
  forall a, a < k -> ((0 < at_ r a)%Q <-> maximising k (at_ x) a).
Proof.
  intros Hk Hx. unfold greedy_row. destruct x as [| y t] eqn:Ex; [cbn in Hx; lia |]. rewrite <- Ex in *. cbn [all_argmax]. unfold all_argmax. rewrite Ex. rewrite <- Ex. cbn [rbind].
  set (m := qmax y t). set (acts := where_eq m 0 x). set (c := (1 / inject_Z (Z.of_nat (length acts)))%Q). eexists. split; [reflexivity |].
  destruct (qmax_spec t y) as [QI QM]. fold m in QI, QM. rewrite <- Ex in QI, QM.
  assert (HIn : forall a, a < k -> existsb (Nat.eqb a) acts = Qeq_bool (at_ x a) m).
  { intros a Ha. apply eq_true_iff_eq. rewrite existsb_exists, Qeq_bool_iff. split.
    - intros (b & Hb & E). apply Nat.eqb_eq in E. subst b. apply where_eq_spec in Hb as (j & Hj & -> & E). exact E.
    - intros E. exists a. split; [| apply Nat.eqb_refl]. apply where_eq_spec. exists a. repeat split; auto. lia. }
  assert (HE : forall a, a < k -> at_ (fold_left (fun r a0 => upd a0 c r) acts (repeat 0%Q k)) a = if Qeq_bool (at_ x a) m then c else 0%Q).
  { intros a Ha. rewrite upd_fold_nth by (rewrite repeat_length; auto). rewrite HIn by auto. destruct (Qeq_bool _ _); auto. unfold at_. now rewrite nth_repeat. }
  assert (HC : (0 < inject_Z (Z.of_nat (length acts)))%Q).
  { change 0%Q with (inject_Z 0). rewrite <- Zlt_Qlt. apply In_nth with (d := 0%Q) in QI as (j & Hj & E). assert (In j acts) as K. { apply where_eq_spec. exists j. repeat split; auto. now rewrite E. }
    destruct acts; [destruct K | cbn; lia]. }
  assert (HC' : (0 < c)%Q) by (unfold c; apply Qlt_shift_div_l; lra).
  split; [rewrite upd_fold_length, repeat_length; auto |]. split; [split; [split |] |].
  - intros a Ha. rewrite HE by auto. destruct (Qeq_bool _ _); lra.
  - rewrite (sigma_ext k _ (fun a => if Qeq_bool (at_ x a) m then c else 0%Q)) by (intros; rewrite HE by auto; reflexivity). rewrite <- Hx, (where_eq_length m c x 0). fold acts. unfold c. field. lra.
  - intros a b Ha Hb. rewrite !HE by auto. destruct (Qeq_bool (at_ x a) m), (Qeq_bool (at_ x b) m); intros; lra.
  - intros a Ha. rewrite HE by auto. destruct (Qeq_bool (at_ x a) m) eqn:E.
    + split; [| auto]. intros _ b Hb. apply Qeq_bool_iff in E. rewrite E. apply QM. apply nth_In. lia.
    + split; [lra |]. intros M. exfalso. apply Bool.not_true_iff_false in E. apply E. apply Qeq_bool_iff. apply In_nth with (d := 0%Q) in QI as (j & Hj & E2).
      pose proof (M j ltac:(lia)) as K. pose proof (QM (at_ x a) ltac:(apply nth_In; lia)). unfold at_ at 1 in K. rewrite E2 in K. lra.
Qed.

(** ** Uniform rows *)
Lemma uniform_value k p a : uniform_row k p -> a < k -> (0 < p a)%Q ->
  (p a * sigma k (fun b => if Qlt_le_dec 0 (p b) then 1 else 0) == 1)%Q.
Proof.
  intros [[H0 H1] HU] Ha Hp. rewrite <- H1. rewrite <- sigma_scale. apply sigma_ext. intros b Hb. destruct (Qlt_le_dec 0 (p b)) as [K | K]; [rewrite (HU a b) by auto; lra |]. specialize (H0 b Hb). lra.
Qed.
Lemma uniform_same k p q : uniform_row k p -> uniform_row k q -> (forall a, a < k -> ((0 < p a)%Q <-> (0 < q a)%Q)) -> forall a, a < k -> (p a == q a)%Q.
Proof.
  intros HP HQ HS a Ha. destruct (Qlt_le_dec 0 (p a)) as [K | K].
  - pose proof (uniform_value k p a HP Ha K) as E1. pose proof (uniform_value k q a HQ Ha (proj1 (HS a Ha) K)) as E2.
    assert (ES : (sigma k (fun b => if Qlt_le_dec 0 (q b) then 1 else 0) == sigma k (fun b => if Qlt_le_dec 0 (p b) then 1 else 0))%Q).
    { apply sigma_ext. intros b Hb. specialize (HS b Hb). destruct (Qlt_le_dec 0 (p b)), (Qlt_le_dec 0 (q b)); try reflexivity; exfalso; [apply HS in q0; lra | apply HS in q1; lra]. }
    rewrite ES in E2. set (w := sigma k (fun b => if Qlt_le_dec 0 (p b) then 1%Q else 0%Q)) in *. clearbody w. assert (Hw : ~ (w == 0)%Q) by (intros Z; rewrite Z in E1; lra).
    apply (Qmult_inj_r _ _ w Hw). lra.
  - destruct HP as [[P0 _] _]. destruct HQ as [[Q0 _] _]. specialize (P0 a Ha). specialize (Q0 a Ha). assert (~ (0 < q a)%Q) by (rewrite <- (HS a Ha); lra). lra.
Qed.
Lemma uniform_least k p a : uniform_row k p -> a < k -> (0 < p a)%Q -> (1 <= p a * inject_Z (Z.of_nat k))%Q.
Proof.
  intros HP Ha K. rewrite <- (uniform_value k p a HP Ha K). assert (S : (sigma k (fun b => if Qlt_le_dec 0 (p b) then 1 else 0) <= inject_Z (Z.of_nat k))%Q).
  { rewrite <- (Qmult_1_r (inject_Z (Z.of_nat k))), <- sigma_const. apply sigma_le. intros b Hb. destruct (Qlt_le_dec 0 (p b)); lra. }
  set (w := sigma k _) in *. clearbody w. nra.
Qed.
(** two uniform rows that differ, differ by a thousandth *)
Lemma uniform_close k p q : k <= 1000 -> uniform_row k p -> uniform_row k q -> (sigma k (fun a => Qabs (p a - q a)) < 1 # 1000)%Q ->
  forall a, a < k -> ((0 < p a)%Q <-> (0 < q a)%Q).
Proof.
  intros Hk HP HQ HD a Ha. pose proof (sigma_member k (fun a => Qabs (p a - q a)) a Ha ltac:(intros; apply Qabs_nonneg)) as M. cbn beta in M.
  assert (HK : (0 < inject_Z (Z.of_nat k) <= 1000)%Q) by (change 0%Q with (inject_Z 0); change 1000%Q with (inject_Z 1000); rewrite <- Zle_Qle, <- Zlt_Qlt; lia).
  destruct HP as [[P0 P1] PU] eqn:EP. destruct HQ as [[Q0 Q1] QU] eqn:EQ. pose proof (P0 a Ha). pose proof (Q0 a Ha). pose proof (Qle_Qabs (p a - q a)) as A1. pose proof (Qle_Qabs (- (p a - q a))) as A2. rewrite Qabs_opp in A2.
  split; intros K.
  - apply Qnot_le_lt. intros Z. pose proof (uniform_least k p a HP Ha K) as L. set (u := inject_Z (Z.of_nat k)) in *. clearbody u. nra.
  - apply Qnot_le_lt. intros Z. pose proof (uniform_least k q a HQ Ha K) as L. set (u := inject_Z (Z.of_nat k)) in *. clearbody u. nra.
Qed.

(** ** Collapsed transitions *)
(** entry by entry: T[s][s'] is the sum of policy[s][a] Ts[a][s][s'] *)
Definition collapse_of (n : nat) (Ts : list mat) (policy T : mat) : Prop :=
  forall s s', s < n -> s' < n -> (ent T s s' == sigma (length Ts) (fun a => ent policy s a * ent (nth a Ts []) s s'))%Q.
Definition stochastic (n k : nat) (m : mat) : Prop := forall s, s < n -> stochastic_row k (ent m s).

Lemma collapse_loop_spec n Ts policy : forall k i res, shape n n res -> 0 < n -> i + k <= length Ts ->
  exists T, collapse_loop Ts policy (seq i k) res = Ok T /\ shape n n T /\
  forall s s', s < n -> s' < n -> (ent T s s' == ent res s s' + sigma k (fun a => ent policy s (i + a) * ent (nth (i + a) Ts []) s s'))%Q.
Proof.
  induction k as [| k IH]; intros i res HS Hn Hk; cbn [seq collapse_loop].
  - exists res. split; [auto |]. split; [auto |]. intros. cbn [sigma]. lra.
  - destruct (nth_error Ts i) as [Ta |] eqn:E; [| apply nth_error_None in E; lia]. rewrite (shape_rows _ _ _ HS), (shape_cols _ _ _ HS Hn).
    destruct (IH (S i) (build2 n n (fun s s' => ent res s s' + ent Ta s s' * ent policy s i)%Q) (shape_build2 _ _ _) Hn ltac:(lia)) as (T & ET & ST & HT).
    exists T. split; [auto |]. split; [auto |]. intros s s' Hs Hs'. rewrite HT, ent_build2 by auto. rewrite sigma_head. cbn beta. replace (i + 0) with i by lia. assert (EN : nth i Ts [] = Ta) by (apply nth_error_nth; auto).
    rewrite EN.
    rewrite (sigma_ext k (fun i0 => (ent policy s (i + S i0) * ent (nth (i + S i0) Ts []) s s')%Q) (fun a => (ent policy s (S i + a) * ent (nth (S i + a) Ts []) s s')%Q)); [lra |].
    intros b Hb. replace (i + S b) with (S i + b) by lia. reflexivity.
Qed.
Lemma collapsed_spec n Ts policy : 0 < n -> Ts <> [] -> Forall (shape n n) Ts -> shape n (length Ts) policy ->
  exists T, collapsedTransitions Ts policy = Ok T /\ shape n n T /\ collapse_of n Ts policy T.
Proof.
  intros Hn HT HS HP. unfold collapsedTransitions. destruct Ts as [| T0 Ts'] eqn:E; [congruence |]. rewrite <- E in *. clear HT.
  assert (S0 : shape n n T0) by (rewrite E in HS; now inversion HS). rewrite (shape_cols _ _ _ HP Hn), (shape_rows _ _ _ S0), (shape_cols _ _ _ S0 Hn).
  destruct (collapse_loop_spec n Ts policy (length Ts) 0 (build2 n n (fun _ _ => 0%Q)) (shape_build2 _ _ _) Hn ltac:(lia)) as (T & ET & ST & HT).
  exists T. split; [auto |]. split; [auto |]. intros s s' Hs Hs'. rewrite HT, ent_build2 by auto. cbn [Nat.add]. lra.
Qed.
Lemma collapsed_stochastic n Ts policy T : Forall (stochastic n n) Ts -> stochastic n (length Ts) policy -> collapse_of n Ts policy T -> stochastic n n T.
Proof.
  intros HS HP HC s Hs. unfold collapse_of in HC. destruct (HP s Hs) as [P0 P1]. rewrite Forall_forall in HS. split.
  - intros s' Hs'. rewrite HC by auto. apply sigma_nonneg. intros a Ha. pose proof (P0 a Ha). destruct (HS (nth a Ts []) ltac:(apply nth_In; auto) s Hs) as [K _]. pose proof (K s' Hs'). nra.
  - rewrite (sigma_ext n (ent T s) (fun s' => sigma (length Ts) (fun a => ent policy s a * ent (nth a Ts []) s s')%Q)) by (intros; apply HC; auto).
    rewrite sigma_swap. rewrite <- P1. apply sigma_ext. intros a Ha. rewrite sigma_scale. destruct (HS (nth a Ts []) ltac:(apply nth_In; auto) s Hs) as [_ K]. rewrite K. lra.
Qed.
Lemma mapR_ok {A B} (f : A -> result B) l : (forall x, In x l -> exists y, f x = Ok y) ->
  exists ys, mapR f l = Ok ys /\ Forall2 (fun x y => f x = Ok y) l ys.
Proof.
  induction l as [| x l IH]; intros H; cbn [mapR]; [exists []; auto |]. destruct (H x ltac:(left; auto)) as [y Ey]. destruct IH as (ys & E & F); [intros; apply H; right; auto |].
  rewrite Ey. cbn [rbind]. rewrite E. cbn [rbind]. exists (y :: ys). auto.
Qed.
Lemma Forall2_nth' {A B} (P : A -> B -> Prop) l l' : Forall2 P l l' -> forall i a b, i < length l -> P (nth i l a) (nth i l' b).
Proof. induction 1 as [| x y l l' H _ IH]; intros i a b Hi; cbn in *; [lia |]. destruct i; [auto |]. apply IH. lia. Qed.
Lemma Forall2_length' {A B} (P : A -> B -> Prop) l l' : Forall2 P l l' -> length l = length l'.
Proof. induction 1; cbn; auto. Qed.
