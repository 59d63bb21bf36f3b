(** Sums, matrices and greedy policies: lemmas for C44. *)
From Verif Require Import Base Value_Model Value_Props ModelBased_Model.
From Coq Require Import QArith Qround Qabs Lqa.
Local Open Scope nat_scope.

(** ** Sums *)
Lemma sigma_ext n f g : (forall i, (i < n)%nat -> f i == g i)%Q -> (sigma n f == sigma n g)%Q.
Proof. induction n as [| n IH]; intros H; cbn [sigma]; [reflexivity |]. rewrite IH, (H n) by (intros; try apply H; lia). reflexivity. Qed.
Lemma sigma_le n f g : (forall i, (i < n)%nat -> f i <= g i)%Q -> (sigma n f <= sigma n g)%Q.
Proof. induction n as [| n IH]; intros H; cbn [sigma]; [apply Qle_refl |]. apply Qplus_le_compat; [apply IH; intros; apply H; lia | apply H; lia]. Qed.
Lemma sigma_plus n f g : (sigma n (fun i => f i + g i) == sigma n f + sigma n g)%Q.
Proof. induction n as [| n IH]; cbn [sigma]; [lra |]. rewrite IH. lra. Qed.
Lemma sigma_scale n c f : (sigma n (fun i => c * f i) == c * sigma n f)%Q.
Proof. induction n as [| n IH]; cbn [sigma]; [lra |]. rewrite IH. lra. Qed.
Lemma sigma_scale_r n c f : (sigma n (fun i => f i * c) == sigma n f * c)%Q.
Proof. induction n as [| n IH]; cbn [sigma]; [lra |]. rewrite IH. lra. Qed.
Lemma sigma_zero n : (sigma n (fun _ => 0) == 0)%Q.
Proof. induction n as [| n IH]; cbn [sigma]; [reflexivity |]. rewrite IH. reflexivity. Qed.
Lemma sigma_const n c : (sigma n (fun _ => c) == inject_Z (Z.of_nat n) * c)%Q.
Proof.
  induction n as [| n IH]; cbn [sigma]; [change (inject_Z (Z.of_nat 0)) with 0%Q; lra |]. rewrite IH, Nat2Z.inj_succ, <- Z.add_1_r, inject_Z_plus. change (inject_Z 1) with 1%Q. ring.
Qed.
Lemma sigma_swap n k f : (sigma n (fun i => sigma k (fun j => f i j)) == sigma k (fun j => sigma n (fun i => f i j)))%Q.
Proof.
  induction n as [| n IH]; cbn [sigma]; [now rewrite sigma_zero |]. rewrite IH, <- sigma_plus. apply sigma_ext. intros. cbn [sigma]. reflexivity.
Qed.
Lemma sigma_nonneg n f : (forall i, (i < n)%nat -> 0 <= f i)%Q -> (0 <= sigma n f)%Q.
Proof. intros H. rewrite <- (sigma_zero n). apply sigma_le. auto. Qed.
Lemma sigma_head n f : (sigma (S n) f == f 0%nat + sigma n (fun i => f (S i)))%Q.
Proof. induction n as [| n IH]; [cbn [sigma]; lra |]. change (sigma (S (S n)) f) with (sigma (S n) f + f (S n))%Q. rewrite IH. cbn [sigma]. lra. Qed.
Lemma sigma_member n f i : i < n -> (forall j, (j < n)%nat -> 0 <= f j)%Q -> (f i <= sigma n f)%Q.
Proof.
  induction n as [| n IH]; intros Hi H; [lia |]. cbn [sigma]. destruct (Nat.eq_dec i n) as [-> | Hn].
  - pose proof (sigma_nonneg n f ltac:(intros; apply H; lia)). lra.
  - pose proof (IH ltac:(lia) ltac:(intros; apply H; lia)). pose proof (H n ltac:(lia)). lra.
Qed.
Lemma sigma_pos_ex n f : (0 < sigma n f)%Q -> exists i, i < n /\ (0 < f i)%Q.
Proof.
  induction n as [| n IH]; cbn [sigma]; intros H; [lra |]. destruct (Qlt_le_dec 0 (f n)) as [K | K]; [exists n; split; [lia | auto] |].
  destruct IH as (i & Hi & Hf); [lra |]. exists i. split; [lia | auto].
Qed.
Lemma argmax_ex n (f : nat -> Q) : 0 < n -> exists i, i < n /\ forall j, j < n -> (f j <= f i)%Q.
Proof.
  induction n as [| n IH]; intros H; [lia |]. destruct n as [| n]; [exists 0; split; [lia |]; intros j Hj; assert (j = 0) by lia; subst; apply Qle_refl |].
  destruct IH as (i & Hi & HM); [lia |]. destruct (Qlt_le_dec (f i) (f (S n))) as [K | K].
  - exists (S n). split; [lia |]. intros j Hj. destruct (Nat.eq_dec j (S n)) as [-> | Hn]; [apply Qle_refl |]. pose proof (HM j ltac:(lia)). lra.
  - exists i. split; [lia |]. intros j Hj. destruct (Nat.eq_dec j (S n)) as [-> | Hn]; [auto |]. apply HM. lia.
Qed.

(** ** Arrays *)
Definition shape (n k : nat) (m : mat) : Prop := length m = n /\ Forall (fun r => length r = k) m.
Lemma build_length n f : length (build n f) = n.
Proof. unfold build. now rewrite map_length, seq_length. Qed.
Lemma at_build n f i : i < n -> at_ (build n f) i = f i.
Proof. intros H. unfold at_, build. rewrite (nth_indep _ 0%Q (f 0%nat)) by (rewrite map_length, seq_length; auto). rewrite map_nth, seq_nth; auto. Qed.
Lemma shape_build2 n k f : shape n k (build2 n k f).
Proof. split; [unfold build2; now rewrite map_length, seq_length |]. apply Forall_map. apply Forall_forall. intros. apply build_length. Qed.
Lemma ent_build2 n k f i j : i < n -> j < k -> ent (build2 n k f) i j = f i j.
Proof.
  intros Hi Hj. unfold ent, build2. rewrite (nth_indep _ [] (build k (f 0%nat))) by (rewrite map_length, seq_length; auto).
  rewrite (map_nth (fun i => build k (f i))), seq_nth by auto. now apply at_build.
Qed.
Lemma shape_rows n k m : shape n k m -> rows m = n. Proof. intros [H _]. exact H. Qed.
Lemma shape_cols n k m : shape n k m -> 0 < n -> cols m = k.
Proof. intros [H F] Hn. unfold cols. destruct m; [cbn in H; lia |]. now inversion F. Qed.
Lemma shape_row n k m i : shape n k m -> i < n -> length (nth i m []) = k.
Proof. intros [H F] Hi. rewrite Forall_forall in F. apply F. apply nth_In. lia. Qed.
Lemma dot_row n m v i : shape n n m -> i < n -> (dot (nth i m []) v == sigma n (fun j => ent m i j * at_ v j))%Q.
Proof. intros S Hi. unfold dot. rewrite (shape_row n n m i S Hi). reflexivity. Qed.

(** ** The values over a finite horizon *)
(** the expected discounted reward of the next k steps *)
Fixpoint value (n : nat) (T : nat -> nat -> Q) (R : nat -> Q) (g : Q) (k : nat) (s : nat) : Q :=
  match k with
  | 0 => 0%Q
  | S k' => sigma n (fun s' => T s s' * (R s' + g * value n T R g k' s'))%Q
  end.
Lemma values_loop_length T R g : forall k i D res, length (values_loop T R g k i D res) = length res.
Proof. induction k as [| k IH]; intros i D res; cbn [values_loop]; [auto |]. now rewrite IH, build_length. Qed.
Lemma values_loop_spec n T R g : shape n n T -> length R = n -> forall k i D res, shape n n D -> length res = n -> forall s, s < n ->
  (at_ (values_loop T R g k i D res) s == at_ res s + qpow g i * sigma n (fun x => ent D s x * value n (ent T) (at_ R) g k x))%Q.
Proof.
  intros HT HR. induction k as [| k IH]; intros i D res HD Hres s Hs; cbn [values_loop].
  - cbn [value]. rewrite (sigma_ext n _ (fun _ => 0%Q)) by (intros; lra). rewrite sigma_zero. lra.
  - assert (Hn : 0 < n) by lia. assert (HD' : shape n n (mat_mat D T)).
    { unfold mat_mat. rewrite (shape_rows _ _ _ HD), (shape_cols _ _ _ HT Hn). apply shape_build2. }
    rewrite IH by (auto; rewrite build_length; auto). rewrite at_build by (rewrite Hres; auto). cbn [qpow].
    assert (E1 : (at_ (mat_vec (mat_mat D T) R) s == sigma n (fun x => ent (mat_mat D T) s x * at_ R x))%Q).
    { unfold mat_vec. rewrite at_build by (rewrite (shape_rows _ _ _ HD'); auto). now apply dot_row. }
    assert (E2 : forall x, x < n -> (ent (mat_mat D T) s x == sigma n (fun y => ent D s y * ent T y x))%Q).
    { intros x Hx. unfold mat_mat. rewrite (shape_rows _ _ _ HD), (shape_cols _ _ _ HT Hn), (shape_rows _ _ _ HT). rewrite ent_build2 by auto. reflexivity. }
    rewrite E1. set (W := value n (ent T) (at_ R) g k) in *.
    assert (E3 : (sigma n (fun x => ent D s x * value n (ent T) (at_ R) g (S k) x) ==
                  sigma n (fun x => ent (mat_mat D T) s x * at_ R x) + g * sigma n (fun x => ent (mat_mat D T) s x * W x))%Q).
    { rewrite <- sigma_scale, <- sigma_plus. rewrite (sigma_ext n (fun i0 => (ent (mat_mat D T) s i0 * at_ R i0 + g * (ent (mat_mat D T) s i0 * W i0))%Q)
        (fun x => sigma n (fun y => ent D s y * (ent T y x * (at_ R x + g * W x)))%Q)).
      - rewrite sigma_swap. apply sigma_ext. intros y Hy. cbn [value]. fold W. rewrite sigma_scale. reflexivity.
      - intros x Hx. rewrite (E2 x Hx). rewrite (sigma_ext n (fun y => (ent D s y * (ent T y x * (at_ R x + g * W x)))%Q) (fun y => ((ent D s y * ent T y x) * (at_ R x + g * W x))%Q)) by (intros; lra). rewrite sigma_scale_r. lra. }
    rewrite E3. lra.
Qed.
Lemma values_spec n T R g : shape n n T -> length R = n -> forall k s, s < n ->
  (at_ (values_loop T R g k 1 T (mat_vec T R)) s == value n (ent T) (at_ R) g (S k) s)%Q.
Proof.
  intros HT HR k s Hs. assert (HL : length (mat_vec T R) = n) by (unfold mat_vec; rewrite build_length; apply (shape_rows _ _ _ HT)).
  rewrite (values_loop_spec n) by auto. unfold mat_vec. rewrite at_build by (rewrite (shape_rows _ _ _ HT); auto). rewrite dot_row with (n := n) by auto.
  cbn [value qpow]. rewrite Qmult_1_r, <- sigma_scale, <- sigma_plus. apply sigma_ext. intros. lra.
Qed.

(** ** Stochastic matrices and contraction *)
Definition stochastic_row (k : nat) (p : nat -> Q) : Prop := (forall a, (a < k)%nat -> 0 <= p a)%Q /\ (sigma k p == 1)%Q.
Lemma average_le k p f m : stochastic_row k p -> (forall a, (a < k)%nat -> f a <= m)%Q -> (sigma k (fun a => p a * f a) <= m)%Q.
Proof.
  intros [H0 H1] H. apply Qle_trans with (sigma k (fun a => p a * m)%Q).
  - apply sigma_le. intros a Ha. specialize (H0 a Ha). specialize (H a Ha). nra.
  - rewrite sigma_scale_r, H1. lra.
Qed.
Lemma contraction n P g d : (forall s, (s < n)%nat -> stochastic_row n (P s)) -> (0 <= g)%Q -> (g < 1)%Q ->
  (forall s, (s < n)%nat -> d s <= g * sigma n (fun x => P s x * d x))%Q -> forall s, s < n -> (d s <= 0)%Q.
Proof.
  intros HP Hg0 Hg1 H s Hs. destruct (argmax_ex n d ltac:(lia)) as (m & Hm & HM). pose proof (H m Hm) as K.
  pose proof (average_le n (P m) d (d m) (HP m Hm) HM) as A. pose proof (HM s Hs). nra.
Qed.

(** ** Powers *)
Lemma qpow_nonneg g k : (0 <= g)%Q -> (0 <= qpow g k)%Q.
Proof. intros H. induction k as [| k IH]; cbn [qpow]; [lra |]. nra. Qed.
Lemma qpow_add g a b : (qpow g (a + b) == qpow g a * qpow g b)%Q.
Proof. induction a as [| a IH]; cbn [qpow Nat.add]; [lra |]. rewrite IH. lra. Qed.
Lemma qpow_le1 g k : (0 <= g)%Q -> (g <= 1)%Q -> (qpow g k <= 1)%Q.
Proof. intros H H1. induction k as [| k IH]; cbn [qpow]; [lra |]. pose proof (qpow_nonneg g k H). nra. Qed.
Lemma qpow_anti g a b : (0 <= g)%Q -> (g <= 1)%Q -> a <= b -> (qpow g b <= qpow g a)%Q.
Proof.
  intros H H1 L. replace b with (a + (b - a)) by lia. rewrite qpow_add. pose proof (qpow_nonneg g a H). pose proof (qpow_le1 g (b - a) H H1). pose proof (qpow_nonneg g (b - a) H). nra.
Qed.
(** Bernoulli: g^k (g + k (1 - g)) <= g *)
Lemma bernoulli g k : (0 <= g)%Q -> (g <= 1)%Q -> (qpow g k * (g + inject_Z (Z.of_nat k) * (1 - g)) <= g)%Q.
Proof.
  intros H H1. induction k as [| k IH]; [cbn [qpow]; change (inject_Z (Z.of_nat 0)) with 0%Q; lra |]. cbn [qpow]. rewrite Nat2Z.inj_succ, <- Z.add_1_r, inject_Z_plus.
  change (inject_Z 1) with 1%Q. pose proof (qpow_nonneg g k H). set (c := inject_Z (Z.of_nat k)) in *. assert (0 <= c)%Q by (unfold c; change 0%Q with (inject_Z 0); rewrite <- Zle_Qle; lia). clearbody c.
  pose proof (qpow_le1 g k H H1). set (q := qpow g k) in *. clearbody q. assert (E : (g * q * (g + (c + 1) * (1 - g)) == g * (q * (g + c * (1 - g))) + g * q * (1 - g))%Q) by ring. rewrite E.
  set (X := (q * (g + c * (1 - g)))%Q) in *. clearbody X. assert (g * X <= g * g)%Q by nra. assert (0 <= g * (1 - g))%Q by nra. set (u := (g * (1 - g))%Q) in *. assert (Eu : (u == g - g * g)%Q) by (unfold u; ring). assert (E3 : (g * q * (1 - g) == q * u)%Q) by (unfold u; ring). rewrite E3. clear E E3. clearbody u. nra.
Qed.
