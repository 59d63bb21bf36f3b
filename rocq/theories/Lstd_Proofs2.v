(** Linear estimates of values and of action values. *)
From Verif Require Import Base Value_Model Value_Props ModelBased_Model ModelBased_Proofs ModelBased_Proofs2 ModelBased_Props Lstd_Model Lstd_Spec Lstd_Proofs.
From Coq Require Import QArith Qabs Lqa.
Local Open Scope nat_scope.

(** ** Values *)
Lemma true_weights n T R fMap g st w V : stats_are n T R fMap g (seq 0 n) (seq 0 n) st -> (forall s, s < n -> (V s == weighed fMap (rows fMap) w s)%Q) ->
  bellman n T (at_ R) g V -> (forall s, s < n -> (sigma n (fun t => ent T s t) * V s == V s)%Q) -> solves (rows fMap) (fst st) w (at_ (snd st)).
Proof.
  intros SA HV HB HR i Hi. rewrite (system n T R fMap g st w i SA Hi), (rhs n T R fMap g st i SA Hi). apply sigma_ext. intros s Hs. apply Qmult_comp; [reflexivity|].
  rewrite <- (HV s Hs), (HR s Hs). rewrite (HB s Hs) at 1. rewrite (sigma_ext n (fun t => ent T s t * (at_ R t + g * V t))%Q (fun t => ent T s t * at_ R t + g * (ent T s t * weighed fMap (rows fMap) w t))%Q).
  - rewrite sigma_plus, sigma_scale. lra.
  - intros t Ht. rewrite (HV t Ht). lra.
Qed.
Lemma fixed_zero n T g v : stochastic n n T -> (0 <= g)%Q -> (g < 1)%Q -> (forall s, s < n -> (v s == g * sigma n (fun t => ent T s t * v t))%Q) -> forall s, s < n -> (v s == 0)%Q.
Proof.
  intros HT H0 H1 H s Hs. apply Qle_antisym.
  - apply (contraction n (fun s t => ent T s t) g v HT H0 H1); [|exact Hs]. intros x Hx. rewrite (H x Hx) at 1. lra.
  - pose proof (contraction n (fun s t => ent T s t) g (fun s => (- v s)%Q) HT H0 H1) as K. cbn beta in K. specialize (K ltac:(intros x Hx; rewrite (H x Hx) at 1; rewrite (sigma_ext n (fun t => ent T x t * - v t)%Q (fun t => (-1) * (ent T x t * v t))%Q) by (intros; lra); rewrite sigma_scale; lra) s Hs). lra.
Qed.
Lemma complete_weighed n fMap u : complete n fMap -> (forall f, f < n -> (sigma n (fun s => ent fMap f s * u s) == 0)%Q) -> forall s, s < n -> (u s == 0)%Q.
Proof. intros (_ & _ & H). apply (transposed n (fun f s => ent fMap f s)). exact H. Qed.
Lemma complete_unique n T R fMap g st : complete n fMap -> stochastic n n T -> (0 <= g)%Q -> (g < 1)%Q -> stats_are n T R fMap g (seq 0 n) (seq 0 n) st -> unique n (fst st).
Proof.
  intros C HT H0 H1 SA w Hw. assert (E := proj1 C). apply (proj2 (proj2 C)). apply (fixed_zero n T g); auto. intros s Hs.
  pose proof (complete_weighed n fMap (fun s => sigma n (fun t => ent T s t) * weighed fMap (rows fMap) w s - g * sigma n (fun t => ent T s t * weighed fMap (rows fMap) w t))%Q C) as K. cbn beta in K.
  specialize (K ltac:(intros f Hf; rewrite <- (system n T R fMap g st w f SA) by lia; specialize (Hw f Hf); rewrite E; exact Hw) s Hs).
  rewrite E in K. rewrite (proj2 (HT s Hs)) in K. lra.
Qed.
Lemma complete_bellman n T R fMap g st w : complete n fMap -> stochastic n n T -> stats_are n T R fMap g (seq 0 n) (seq 0 n) st -> solves n (fst st) w (at_ (snd st)) ->
  bellman n T (at_ R) g (weighed fMap n w).
Proof.
  intros C HT SA Hw s Hs. assert (E := proj1 C).
  pose proof (complete_weighed n fMap (fun s => sigma n (fun t => ent T s t) * weighed fMap (rows fMap) w s - g * sigma n (fun t => ent T s t * weighed fMap (rows fMap) w t) - sigma n (fun t => ent T s t * at_ R t))%Q C) as K. cbn beta in K.
  specialize (K ltac:(intros f Hf; rewrite (sigma_ext n _ (fun s => ent fMap f s * (sigma n (fun t => ent T s t) * weighed fMap (rows fMap) w s - g * sigma n (fun t => ent T s t * weighed fMap (rows fMap) w t)) + (-1) * (ent fMap f s * sigma n (fun t => ent T s t * at_ R t)))%Q) by (intros; lra);
    rewrite sigma_plus, sigma_scale, <- (system n T R fMap g st w f SA), <- (rhs n T R fMap g st f SA) by lia; specialize (Hw f Hf); rewrite E, Hw; lra) s Hs).
  rewrite E in K. rewrite (proj2 (HT s Hs)) in K. rewrite (sigma_ext n _ (fun t => ent T s t * at_ R t + g * (ent T s t * weighed fMap n w t))%Q) by (intros; lra).
  rewrite sigma_plus, sigma_scale. lra.
Qed.
Lemma vec_mat_at w m n s : length w = rows m -> cols m = n -> s < n -> (at_ (vec_mat w m) s == weighed m (rows m) (at_ w) s)%Q.
Proof. intros L E Hs. unfold vec_mat. rewrite at_build by lia. rewrite L. reflexivity. Qed.
Lemma weighed_ext fMap k w w' s : (forall f, f < k -> (w f == w' f)%Q) -> (weighed fMap k w s == weighed fMap k w' s)%Q.
Proof. intros H. apply sigma_ext. intros f Hf. rewrite (H f Hf). reflexivity. Qed.
Lemma unique_same d A x y b : unique d A -> solves d A x b -> solves d A y b -> forall i, i < d -> (x i == y i)%Q.
Proof.
  intros U Hx Hy i Hi. assert (K : (x i - y i == 0)%Q); [|lra]. apply (U (fun i => x i - y i)%Q); [|exact Hi]. intros r Hr.
  rewrite (sigma_ext d _ (fun j => ent A r j * x j + (-1) * (ent A r j * y j))%Q) by (intros; lra). rewrite sigma_plus, sigma_scale, (Hx r Hr), (Hy r Hr). lra.
Qed.
Lemma unique_solvable d A b : unique d A -> exists x, solves d A x b.
Proof. intros U. destruct (solvable d (ent A)) with (b := b) as (x & Hx); [intros x Hx; apply U; exact Hx|]. exists x. exact Hx. Qed.
Lemma complete_cols n fMap : 0 < n -> complete n fMap -> cols fMap = n.
Proof. intros Hn (E & L & _). unfold rows in E. destruct fMap as [| r fMap]; [cbn in E; lia|]. apply (L 0 Hn). Qed.

(** ** Action values *)
Lemma sigma_app n k h : (sigma (n + k) h == sigma n h + sigma k (fun i => h (n + i)%nat))%Q.
Proof. induction k as [| k IH]; [rewrite Nat.add_0_r; cbn [sigma]; lra|]. rewrite Nat.add_succ_r. cbn [sigma]. rewrite IH. lra. Qed.
Lemma sigma_prod numF numA h : (sigma (numF * numA) h == sigma numA (fun a => sigma numF (fun f => h (numF * a + f)%nat)))%Q.
Proof. induction numA as [| k IH]; [rewrite Nat.mul_0_r; reflexivity|]. rewrite Nat.mul_succ_r, sigma_app. cbn [sigma]. rewrite IH. reflexivity. Qed.
Lemma block m x y k : y < m -> ((m * k <=? m * x + y) && (m * x + y <? m * (k + 1))) = (x =? k).
Proof.
  intros H. destruct (Nat.eqb_spec x k) as [-> | E].
  - apply andb_true_iff. split; [apply Nat.leb_le; lia | apply Nat.ltb_lt; lia].
  - apply andb_false_iff. destruct (Nat.lt_ge_cases x k); [left; apply Nat.leb_gt; nia | right; apply Nat.ltb_ge; nia].
Qed.
Lemma rep_at numA numF n fMap a b f s : a < numA -> f < numF -> s < n -> fMapRep numA numF n fMap (numF * a + f) (s + b * n) = if a =? b then ent fMap f s else 0%Q.
Proof.
  intros Ha Hf Hs. unfold fMapRep.
  assert (G : forall m, fold_left (fun (M : nat -> nat -> Q) a => fun i j => if (numF * a <=? i) && (i <? numF * (a + 1)) && (n * a <=? j) && (j <? n * (a + 1)) then ent fMap (i - numF * a) (j - n * a) else M i j)
    (seq 0 m) (fun _ _ => 0%Q) (numF * a + f) (s + b * n) = if (a =? b) && (a <? m) then ent fMap f s else 0%Q).
  { induction m as [| m IH]; [rewrite andb_false_r; reflexivity|]. rewrite seq_S, fold_left_app. cbn [fold_left plus]. rewrite <- andb_assoc. rewrite (block numF a f m Hf).
    replace (s + b * n) with (n * b + s) in * by lia. rewrite (block n b s m Hs). destruct (Nat.eqb_spec a m) as [-> | E1]; cbn [andb].
    - destruct (Nat.eqb_spec b m) as [-> | E2].
      + rewrite Nat.eqb_refl, (proj2 (Nat.ltb_lt _ _)) by lia. cbn [andb]. f_equal; lia.
      + rewrite IH. destruct (Nat.eqb_spec m b); [congruence|]. reflexivity.
    - rewrite IH. destruct (a =? b); cbn [andb]; [|reflexivity]. destruct (Nat.ltb_spec a m), (Nat.ltb_spec a (S m)); (reflexivity || lia). }
  rewrite G, (proj2 (Nat.ltb_lt _ _) Ha), andb_true_r. reflexivity.
Qed.
Section Qs.
Context (n : nat) (Ts : list mat) (policy : mat) (R : vec) (fMap : mat) (g : Q).
Context (HT0 : rows (nth 0 Ts []) = n).
Notation k := (length Ts).
Notation numF := (rows fMap).
Notation st := (q_stats Ts policy R fMap g).
Definition qw (w : nat -> Q) (s a : nat) : Q := weighed fMap numF (fun f => w (numF * a + f)) s.
Definition vw (w : nat -> Q) (t : nat) : Q := sigma k (fun b => ent policy t b * qw w t b)%Q.
Lemma picked a b f s x : a < k -> f < numF -> s < n -> (fMapRep k numF n fMap (numF * a + f)%nat (s + b * n)%nat * x == (if a =? b then 1 else 0) * (ent fMap f s * x))%Q.
Proof. intros Ha Hf Hs. rewrite rep_at by auto. destruct (a =? b); lra. Qed.
Lemma from_sum w s b : s < n -> b < k -> (sigma (numF * k) (fun j => fMapRep k numF n fMap j (s + b * n)%nat * w j) == qw w s b)%Q.
Proof.
  intros Hs Hb. rewrite sigma_prod. rewrite (sigma_ext k _ (fun a => (if a =? b then 1 else 0) * qw w s a)%Q).
  - apply (sigma_pick k b (fun a => qw w s a) Hb).
  - intros a Ha. unfold qw, weighed. rewrite <- sigma_scale. apply sigma_ext. intros f Hf. rewrite picked by auto. lra.
Qed.
Lemma q_system w a f : a < k -> f < numF ->
  (sigma (numF * k) (fun j => ent (fst st) (numF * a + f) j * w j) == sigma n (fun s => ent fMap f s * sigma n (fun t => ent (nth a Ts []) s t * (qw w s a - g * vw w t))))%Q.
Proof.
  intros Ha Hf. assert (Hi : numF * a + f < numF * k) by nia. unfold q_stats. cbn [fst]. rewrite HT0.
  rewrite (sigma_ext _ _ (fun j => sigma n (fun t => sigma n (fun s => sigma k (fun b => (fMapRep k numF n fMap (numF * a + f)%nat (s + b * n)%nat * ent (nth b Ts []) s t) *
    (fMapRep k numF n fMap j (s + b * n)%nat * w j - g * (sigma k (fun c => fMapRep k numF n fMap j (t + c * n)%nat * ent policy t c) * w j)))))%Q)).
  2:{ intros j Hj. rewrite ent_build2 by auto. rewrite <- sigma_scale_r. apply sigma_ext. intros t Ht. rewrite <- sigma_scale_r. apply sigma_ext. intros s Hs. rewrite <- sigma_scale_r. apply sigma_ext. intros b Hb. lra. }
  rewrite sigma_swap. transitivity (sigma n (fun t => sigma n (fun s => ent fMap f s * (ent (nth a Ts []) s t * (qw w s a - g * vw w t)))))%Q.
  2:{ rewrite sigma_swap. apply sigma_ext. intros s Hs. rewrite <- sigma_scale. apply sigma_ext. intros t Ht. lra. }
  apply sigma_ext. intros t Ht. rewrite sigma_swap. apply sigma_ext. intros s Hs. rewrite sigma_swap.
  rewrite (sigma_ext k _ (fun b => (if b =? a then 1 else 0) * (ent fMap f s * (ent (nth b Ts []) s t * (qw w s b - g * vw w t))))%Q).
  { apply (sigma_pick k a (fun b => ent fMap f s * (ent (nth b Ts []) s t * (qw w s b - g * vw w t)))%Q Ha). }
  intros b Hb. rewrite sigma_scale.
  assert (E : (sigma (numF * k) (fun j => fMapRep k numF n fMap j (s + b * n)%nat * w j - g * (sigma k (fun c => fMapRep k numF n fMap j (t + c * n)%nat * ent policy t c) * w j)) == qw w s b - g * vw w t)%Q).
  { rewrite (sigma_ext _ _ (fun j => fMapRep k numF n fMap j (s + b * n)%nat * w j + (- g) * sigma k (fun c => ent policy t c * (fMapRep k numF n fMap j (t + c * n)%nat * w j)))%Q).
    - rewrite sigma_plus, from_sum by auto. rewrite sigma_scale, sigma_swap. rewrite (sigma_ext k (fun c => sigma (numF * k) _) (fun c => ent policy t c * qw w t c)%Q); [unfold vw; lra|].
      intros c Hc. rewrite sigma_scale, from_sum by auto. reflexivity.
    - intros j Hj. rewrite <- sigma_scale_r. rewrite (sigma_ext k (fun c => ent policy t c * (fMapRep k numF n fMap j (t + c * n)%nat * w j))%Q (fun c => fMapRep k numF n fMap j (t + c * n)%nat * ent policy t c * w j)%Q) by (intros; lra). lra. }
  rewrite E. rewrite <- Qmult_assoc, picked by auto. rewrite (Nat.eqb_sym b a). destruct (a =? b); lra.
Qed.
Lemma q_rhs a f : a < k -> f < numF -> (at_ (snd st) (numF * a + f) == sigma n (fun s => ent fMap f s * sigma n (fun t => ent (nth a Ts []) s t * at_ R t)))%Q.
Proof.
  intros Ha Hf. assert (Hi : numF * a + f < numF * k) by nia. unfold q_stats. cbn [snd]. rewrite HT0. rewrite at_build by auto. rewrite sigma_swap. apply sigma_ext. intros s Hs.
  rewrite <- sigma_scale. apply sigma_ext. intros t Ht. rewrite (sigma_ext k _ (fun b => (if b =? a then 1 else 0) * (ent fMap f s * (ent (nth b Ts []) s t * at_ R t)))%Q).
  - apply (sigma_pick k a (fun b => ent fMap f s * (ent (nth b Ts []) s t * at_ R t))%Q Ha).
  - intros b Hb. rewrite <- Qmult_assoc, picked by auto. rewrite (Nat.eqb_sym b a). destruct (a =? b); lra.
Qed.
Lemma split_index i : i < numF * k -> exists a f, a < k /\ f < numF /\ i = numF * a + f.
Proof.
  intros H. assert (0 < numF) by nia. exists (i / numF), (i mod numF). pose proof (Nat.div_mod i numF). pose proof (Nat.mod_upper_bound i numF). split; [apply Nat.div_lt_upper_bound; lia|]. split; lia.
Qed.
Lemma q_weights w q : (forall s a, s < n -> a < k -> (q s a == qw w s a)%Q) -> q_bellman n Ts (at_ R) g policy q ->
  (forall s a, s < n -> a < k -> (sigma n (fun t => ent (nth a Ts []) s t) * q s a == q s a)%Q) -> solves (numF * k) (fst st) w (at_ (snd st)).
Proof.
  intros HQ HB HR i Hi. destruct (split_index i Hi) as (a & f & Ha & Hf & ->). rewrite q_system, q_rhs by auto. apply sigma_ext. intros s Hs. apply Qmult_comp; [reflexivity|].
  rewrite (sigma_ext n _ (fun t => ent (nth a Ts []) s t * qw w s a + (- g) * (ent (nth a Ts []) s t * vw w t))%Q) by (intros; lra).
  rewrite sigma_plus, sigma_scale, sigma_scale_r, <- (HQ s a Hs Ha), (HR s a Hs Ha). rewrite (HB s a Hs Ha) at 1.
  rewrite (sigma_ext n (fun t => ent (nth a Ts []) s t * (at_ R t + g * sigma k (fun b => ent policy t b * q t b)))%Q (fun t => ent (nth a Ts []) s t * at_ R t + g * (ent (nth a Ts []) s t * vw w t))%Q).
  - rewrite sigma_plus, sigma_scale. lra.
  - intros t Ht. unfold vw. rewrite (sigma_ext k (fun b => ent policy t b * q t b)%Q (fun b => ent policy t b * qw w t b)%Q); [lra|]. intros b Hb. rewrite (HQ t b Ht Hb). reflexivity.
Qed.
Context (C : complete n fMap) (HST : Forall (stochastic n n) Ts).
Lemma q_solution w : solves (numF * k) (fst st) w (at_ (snd st)) -> q_bellman n Ts (at_ R) g policy (qw w).
Proof.
  intros Hw s a Hs Ha. assert (E := proj1 C).
  pose proof (complete_weighed n fMap (fun s => sigma n (fun t => ent (nth a Ts []) s t * (qw w s a - g * vw w t)) - sigma n (fun t => ent (nth a Ts []) s t * at_ R t))%Q C) as K. cbn beta in K.
  specialize (K ltac:(intros f Hf; rewrite (sigma_ext n _ (fun s => ent fMap f s * sigma n (fun t => ent (nth a Ts []) s t * (qw w s a - g * vw w t)) + (-1) * (ent fMap f s * sigma n (fun t => ent (nth a Ts []) s t * at_ R t)))%Q) by (intros; lra);
    rewrite sigma_plus, sigma_scale, <- q_system, <- q_rhs, (Hw (numF * a + f)%nat) by (first [lia | nia]); lra) s Hs).
  rewrite Forall_forall in HST. pose proof (HST (nth a Ts []) (nth_In _ _ Ha) s Hs) as (_ & H1).
  rewrite (sigma_ext n (fun t => ent (nth a Ts []) s t * (qw w s a - g * vw w t))%Q (fun t => ent (nth a Ts []) s t * qw w s a + (- g) * (ent (nth a Ts []) s t * vw w t))%Q) in K by (intros; lra).
  rewrite sigma_plus, sigma_scale, sigma_scale_r in K. change (sigma n (ent (nth a Ts []) s)) with (sigma n (fun t => ent (nth a Ts []) s t)) in H1. rewrite H1 in K.
  rewrite (sigma_ext n _ (fun t => ent (nth a Ts []) s t * at_ R t + g * (ent (nth a Ts []) s t * vw w t))%Q) by (intros; unfold vw; lra). rewrite sigma_plus, sigma_scale. lra.
Qed.
Context (HP : stochastic n k policy) (Hg0 : (0 <= g)%Q) (Hg1 : (g < 1)%Q).
Lemma q_fixed_zero (q : nat -> nat -> Q) : (forall s a, s < n -> a < k -> (q s a == sigma n (fun t => ent (nth a Ts []) s t * (g * sigma k (fun b => ent policy t b * q t b))))%Q) -> forall s a, s < n -> a < k -> (q s a == 0)%Q.
Proof.
  intros H. set (v := fun t => sigma k (fun b => ent policy t b * q t b)%Q). set (P := build2 n n (fun s s' => sigma k (fun a => ent policy s a * ent (nth a Ts []) s s')%Q)).
  assert (HPs : stochastic n n P). { apply (collapsed_stochastic n Ts policy P HST HP). intros s s' Hs Hs'. unfold P. rewrite ent_build2 by auto. reflexivity. }
  assert (V0 : forall s, s < n -> (v s == 0)%Q).
  { apply (fixed_zero n P g v HPs Hg0 Hg1). intros s Hs. unfold v at 1. rewrite (sigma_ext k _ (fun a => g * sigma n (fun t => ent policy s a * ent (nth a Ts []) s t * v t))%Q).
    - rewrite sigma_scale, sigma_swap. apply Qmult_comp; [reflexivity|]. apply sigma_ext. intros t Ht. unfold P. rewrite ent_build2 by auto. rewrite <- sigma_scale_r. reflexivity.
    - intros a Ha. rewrite (H s a Hs Ha), <- !sigma_scale. apply sigma_ext. intros t Ht. fold (v t). lra. }
  intros s a Hs Ha. rewrite (H s a Hs Ha), <- (sigma_zero n). apply sigma_ext. intros t Ht. fold (v t). rewrite (V0 t Ht). lra.
Qed.
Lemma q_unique : unique (numF * k) (fst st).
Proof.
  intros w Hw i Hi. destruct (split_index i Hi) as (a & f & Ha & Hf & ->). assert (E := proj1 C).
  assert (Z : forall s a, s < n -> a < k -> (qw w s a == 0)%Q).
  { apply q_fixed_zero. clear a f Ha Hf Hi. intros s a Hs Ha.
    pose proof (complete_weighed n fMap (fun s => sigma n (fun t => ent (nth a Ts []) s t * (qw w s a - g * vw w t)))%Q C) as K. cbn beta in K.
    specialize (K ltac:(intros f Hf; rewrite <- q_system by lia; rewrite (Hw (numF * a + f)%nat) by nia; reflexivity) s Hs).
    rewrite Forall_forall in HST. pose proof (HST (nth a Ts []) (nth_In _ _ Ha) s Hs) as (_ & H1).
    rewrite (sigma_ext n (fun t => ent (nth a Ts []) s t * (qw w s a - g * vw w t))%Q (fun t => ent (nth a Ts []) s t * qw w s a + (-1) * (ent (nth a Ts []) s t * (g * vw w t)))%Q) in K by (intros; lra).
    rewrite sigma_plus, sigma_scale, sigma_scale_r in K. change (sigma n (ent (nth a Ts []) s)) with (sigma n (fun t => ent (nth a Ts []) s t)) in H1. rewrite H1 in K. fold (vw w). unfold vw in K. lra. }
  apply (proj2 (proj2 C) (fun f => w (numF * a + f)%nat)); [|lia]. intros s Hs. rewrite <- E. apply (Z s a Hs Ha).
Qed.
End Qs.
