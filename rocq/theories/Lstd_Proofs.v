(** Linear systems over the rationals, and the statistics of linear value estimation. *)
From Verif Require Import Base Value_Model ModelBased_Model ModelBased_Proofs Lstd_Model Lstd_Spec.
From Coq Require Import QArith Qabs Lqa.
Local Open Scope nat_scope.

(** ** Square systems *)
(** the rows other than r *)
Definition skip (r i : nat) : nat := if i <? r then i else S i.
Lemma skip_lt r i d : r < S d -> i < d -> skip r i < S d /\ skip r i <> r.
Proof. intros H1 H2. unfold skip. destruct (Nat.ltb_spec i r); lia. Qed.
Lemma skip_onto r i d : r < S d -> i < S d -> i <> r -> exists j, j < d /\ skip r j = i.
Proof.
  intros H1 H2 H3. destruct (Nat.lt_ge_cases i r); [exists i | exists (i - 1)]; unfold skip; (destruct (Nat.ltb_spec i r) + idtac); try (split; lia).
  destruct (Nat.ltb_spec (i - 1) r); split; lia.
Qed.
Definition prod (d : nat) (A : nat -> nat -> Q) (x : nat -> Q) (i : nat) : Q := sigma d (fun j => A i j * x j)%Q.
Lemma prod_last d A x i : (prod (S d) A x i == prod d A x i + A i d * x d)%Q.
Proof. reflexivity. Qed.
Lemma prod_ext d A x y i : (forall j, j < d -> (x j == y j)%Q) -> (prod d A x i == prod d A y i)%Q.
Proof. intros H. apply sigma_ext. intros j Hj. rewrite (H j Hj). reflexivity. Qed.
Lemma zero_or_not d (f : nat -> Q) : (forall i, i < d -> (f i == 0)%Q) \/ exists i, i < d /\ ~ (f i == 0)%Q.
Proof.
  induction d as [| d [IH | (i & Hi & H)]]; [left; lia | | right; exists i; split; [lia | auto]].
  destruct (Qeq_dec (f d) 0) as [E | E]; [left | right; exists d; split; [lia | auto]]. intros i Hi. destruct (Nat.eq_dec i d) as [-> | Hne]; [auto | apply IH; lia].
Qed.
(** A square system has a solution for every right hand side, or some combination of its columns vanishes. *)
Lemma alternative : forall d A, (exists x, (forall i, i < d -> (prod d A x i == 0)%Q) /\ exists i, i < d /\ ~ (x i == 0)%Q) \/
  forall b, exists x, forall i, i < d -> (prod d A x i == b i)%Q.
Proof.
  induction d as [| d IH]; intros A; [right; intros b; exists b; lia |].
  destruct (zero_or_not (S d) (fun i => A i d)) as [Z | (r & Hr & Hn)].
  { left. exists (fun j => if j =? d then 1%Q else 0%Q). split.
    - intros i Hi. rewrite prod_last. rewrite (Z i Hi). assert (E : (prod d A (fun j => if j =? d then 1%Q else 0%Q) i == 0)%Q); [| rewrite E; lra].
      unfold prod. rewrite <- (sigma_zero d). apply sigma_ext. intros j Hj. destruct (Nat.eqb_spec j d); [lia |]. lra.
    - exists d. split; [lia |]. rewrite Nat.eqb_refl. lra. }
  set (A' := fun i j => (A (skip r i) j - A (skip r i) d / A r d * A r j)%Q).
  (* how a vector of d entries is completed so that equation r holds with right hand side c *)
  set (fin := fun (x : nat -> Q) (c : Q) (j : nat) => if j =? d then ((c - prod d A x r) / A r d)%Q else x j).
  assert (Efin : forall x c j, j < d -> (fin x c j == x j)%Q) by (intros x c j Hj; unfold fin; destruct (Nat.eqb_spec j d); [lia | reflexivity]).
  assert (Efd : forall x c, fin x c d = ((c - prod d A x r) / A r d)%Q) by (intros; unfold fin; now rewrite Nat.eqb_refl).
  assert (Pr : forall x c, (prod (S d) A (fin x c) r == c)%Q).
  { intros x c. rewrite prod_last, Efd. rewrite (prod_ext d A (fin x c) x r) by (intros; apply Efin; auto). field. auto. }
  assert (Po : forall x c i, (prod (S d) A (fin x c) (skip r i) == prod d A' x i + A (skip r i) d / A r d * c)%Q).
  { intros x c i. rewrite prod_last, Efd. rewrite (prod_ext d A (fin x c) x (skip r i)) by (intros; apply Efin; auto).
    assert (E : (prod d A' x i == prod d A x (skip r i) - A (skip r i) d / A r d * prod d A x r)%Q).
    { unfold prod, A'. rewrite (sigma_ext d _ (fun j => A (skip r i) j * x j + (- (A (skip r i) d / A r d)) * (A r j * x j))%Q) by (intros; lra).
      rewrite sigma_plus, sigma_scale. lra. }
    rewrite E. field. auto. }
  destruct (IH A') as [(x & Hx & j & Hj & Nj) | S'].
  - left. exists (fin x 0%Q). split.
    + intros i Hi. destruct (Nat.eq_dec i r) as [-> | Hne]; [apply Pr |]. destruct (skip_onto r i d Hr Hi Hne) as (k & Hk & <-). rewrite Po, (Hx k Hk). lra.
    + exists j. split; [lia |]. rewrite (Efin x 0%Q j Hj). auto.
  - right. intros b. destruct (S' (fun k => b (skip r k) - A (skip r k) d / A r d * b r)%Q) as (x & Hx). exists (fin x (b r)).
    intros i Hi. destruct (Nat.eq_dec i r) as [-> | Hne]; [apply Pr |]. destruct (skip_onto r i d Hr Hi Hne) as (k & Hk & <-). rewrite Po, (Hx k Hk). lra.
Qed.
Lemma solvable d A : (forall x, (forall i, i < d -> (prod d A x i == 0)%Q) -> forall i, i < d -> (x i == 0)%Q) ->
  forall b, exists x, forall i, i < d -> (prod d A x i == b i)%Q.
Proof. intros H. destruct (alternative d A) as [(x & Hx & i & Hi & Ni) | S']; [exfalso; apply Ni, (H x Hx i Hi) | exact S']. Qed.
Lemma sq_nonneg (x : Q) : (0 <= x * x)%Q.
Proof. destruct (Qlt_le_dec x 0); nra. Qed.
Lemma squares_zero d u : (sigma d (fun s => u s * u s) == 0)%Q -> forall s, s < d -> (u s == 0)%Q.
Proof.
  intros H s Hs. pose proof (sigma_member d (fun s => u s * u s)%Q s Hs ltac:(intros; apply sq_nonneg)) as M. cbn beta in M. rewrite H in M. destruct (Qeq_dec (u s) 0) as [E | E]; [auto |].
  exfalso. assert (0 < u s * u s)%Q; [| lra]. destruct (Q_dec (u s) 0) as [[K | K] | K]; [nra | nra | contradiction].
Qed.
(** if the rows are independent, so are the columns *)
Lemma transposed d A : (forall x, (forall s, s < d -> (sigma d (fun f => x f * A f s) == 0)%Q) -> forall f, f < d -> (x f == 0)%Q) ->
  forall u, (forall f, f < d -> (sigma d (fun s => A f s * u s) == 0)%Q) -> forall s, s < d -> (u s == 0)%Q.
Proof.
  intros H u Hu. destruct (solvable d (fun s f => A f s)) with (b := u) as (x & Hx).
  { intros x Hx. apply H. intros s Hs. rewrite <- (Hx s Hs). apply sigma_ext. intros. lra. }
  apply squares_zero. rewrite (sigma_ext d _ (fun s => sigma d (fun f => x f * (A f s * u s))%Q)).
  - rewrite sigma_swap. rewrite <- (sigma_zero d). apply sigma_ext. intros f Hf. rewrite sigma_scale, (Hu f Hf). lra.
  - intros s Hs. rewrite <- (Hx s Hs) at 1. unfold prod. rewrite <- sigma_scale_r. apply sigma_ext. intros. lra.
Qed.

(** ** Statistics *)
Lemma stats_loop_spec n T R fMap g : forall ss acc, rows (fst acc) = rows fMap -> length (snd acc) = rows fMap ->
  let r := fold_left (stats_step n T R fMap g) ss acc in
  rows (fst r) = rows fMap /\ length (snd r) = rows fMap /\
  (forall i j, i < rows fMap -> j < rows fMap -> (ent (fst r) i j == ent (fst acc) i j +
     fold_right (fun t q => sigma n (fun s => ent T s t * (ent fMap i s * (ent fMap j s - g * ent fMap j t))) + q) 0 ss)%Q) /\
  (forall i, i < rows fMap -> (at_ (snd r) i == at_ (snd acc) i +
     fold_right (fun t q => sigma n (fun s => ent T s t * (ent fMap i s * at_ R t)) + q) 0 ss)%Q).
Proof.
  induction ss as [| t ss IH]; intros acc H1 H2 r; subst r; cbn [fold_left fold_right].
  - split; [exact H1|]. split; [exact H2|]. split; intros; rewrite Qplus_0_r; reflexivity.
  - destruct (IH (stats_step n T R fMap g acc t)) as (A & B & C & D).
    + unfold stats_step. cbn [fst]. apply (shape_rows _ (rows fMap)), shape_build2.
    + unfold stats_step. cbn [snd]. apply build_length.
    + split; [exact A|]. split; [exact B|]. split.
      * intros i j Hi Hj. rewrite (C i j Hi Hj). unfold stats_step. cbn [fst]. rewrite ent_build2 by auto. rewrite <- Qplus_assoc. apply Qplus_comp; [reflexivity|]. apply Qplus_comp; [|reflexivity].
        apply sigma_ext. intros. lra.
      * intros i Hi. rewrite (D i Hi). unfold stats_step. cbn [snd]. rewrite at_build by auto. rewrite <- Qplus_assoc. apply Qplus_comp; [reflexivity|]. apply Qplus_comp; [|reflexivity].
        rewrite <- sigma_scale. apply sigma_ext. intros. lra.
Qed.
Lemma among_cons x ss s : ~ In x ss -> (among (x :: ss) s == (if s =? x then 1 else 0) + among ss s)%Q.
Proof.
  intros H. unfold among. cbn [existsb]. destruct (Nat.eqb_spec s x) as [-> | E]; [|cbn [orb]; lra]. cbn [orb].
  destruct (existsb (Nat.eqb x) ss) eqn:X; [|lra]. apply existsb_exists in X as (y & Hy & E). apply Nat.eqb_eq in E as <-. contradiction.
Qed.
Lemma sigma_pick n x f : x < n -> (sigma n (fun s => (if s =? x then 1 else 0) * f s) == f x)%Q.
Proof.
  induction n as [| n IH]; intros Hx; [lia|]. cbn [sigma]. destruct (Nat.eq_dec x n) as [-> | E].
  - rewrite Nat.eqb_refl. assert (Z : (sigma n (fun s => (if s =? n then 1 else 0) * f s) == 0)%Q); [|rewrite Z; lra].
    rewrite <- (sigma_zero n). apply sigma_ext. intros i Hi. destruct (Nat.eqb_spec i n); [lia|]. lra.
  - rewrite IH by lia. destruct (Nat.eqb_spec n x); [lia|]. lra.
Qed.
Lemma fold_among n (f : nat -> Q) : forall ss, NoDup ss -> (forall x, In x ss -> x < n) -> (fold_right (fun t q => f t + q) 0 ss == sigma n (fun t => among ss t * f t))%Q.
Proof.
  induction ss as [| x ss IH]; intros ND B; cbn [fold_right].
  - rewrite <- (sigma_zero n). apply sigma_ext. intros. unfold among. cbn [existsb]. lra.
  - inversion ND; subst. rewrite IH by (auto; intros; apply B; now right). rewrite <- (sigma_pick n x f) by (apply B; now left). rewrite <- sigma_plus. apply sigma_ext. intros t Ht.
    rewrite among_cons by auto. lra.
Qed.
Lemma among_all n s : s < n -> among (seq 0 n) s = 1%Q.
Proof. intros H. unfold among. replace (existsb (Nat.eqb s) (seq 0 n)) with true; [reflexivity|]. symmetry. apply existsb_exists. exists s. split; [apply in_seq; lia | apply Nat.eqb_refl]. Qed.
Definition stats_are (n : nat) (T : mat) (R : vec) (fMap : mat) (g : Q) (from to : list nat) (st : mat * vec) : Prop :=
  rows (fst st) = rows fMap /\ length (snd st) = rows fMap /\
  (forall i j, i < rows fMap -> j < rows fMap -> (ent (fst st) i j == stat n T fMap g from to i j)%Q) /\
  (forall i, i < rows fMap -> (at_ (snd st) i == resid n T R fMap from to i)%Q).
Lemma loop_are n T R fMap g ss : NoDup ss -> (forall x, In x ss -> x < n) -> stats_are n T R fMap g (seq 0 n) ss (stats_loop n T R fMap g ss).
Proof.
  intros ND B. destruct (stats_loop_spec n T R fMap g ss (build2 (rows fMap) (rows fMap) (fun _ _ => 0%Q), build (rows fMap) (fun _ => 0%Q))) as (A1 & A2 & A3 & A4).
  { apply (shape_rows _ (rows fMap)), shape_build2. } { apply build_length. }
  fold (stats_loop n T R fMap g ss) in *. cbn [fst snd] in *. split; [exact A1|]. split; [exact A2|]. split.
  - intros i j Hi Hj. rewrite (A3 i j Hi Hj), ent_build2 by auto. rewrite (fold_among n (fun t => sigma n (fun s => ent T s t * (ent fMap i s * (ent fMap j s - g * ent fMap j t)))%Q) ss ND B).
    unfold stat. rewrite sigma_swap, Qplus_0_l. apply sigma_ext. intros t Ht. rewrite <- sigma_scale. apply sigma_ext. intros s Hs. rewrite among_all by auto. lra.
  - intros i Hi. rewrite (A4 i Hi), at_build by auto. rewrite (fold_among n (fun t => sigma n (fun s => ent T s t * (ent fMap i s * at_ R t))%Q) ss ND B).
    unfold resid. rewrite sigma_swap, Qplus_0_l. apply sigma_ext. intros t Ht. rewrite <- sigma_scale. apply sigma_ext. intros s Hs. rewrite among_all by auto. lra.
Qed.
Lemma rep_are n T R fMap g : stats_are n T R fMap g (seq 0 n) (seq 0 n) (stats_rep n T R fMap g).
Proof.
  unfold stats_rep. split; [cbn [fst]; apply (shape_rows _ (rows fMap)), shape_build2|]. split; [cbn [snd]; apply build_length|]. split.
  - intros i j Hi Hj. cbn [fst]. rewrite ent_build2 by auto. unfold stat. apply sigma_ext. intros s Hs. apply sigma_ext. intros t Ht. rewrite !among_all by auto. lra.
  - intros i Hi. cbn [snd]. rewrite at_build by auto. unfold resid. rewrite sigma_swap. apply sigma_ext. intros t Ht. rewrite <- sigma_scale. apply sigma_ext. intros s Hs.
    rewrite !among_all by auto. lra.
Qed.
Lemma all_are T R fMap g limit : cols fMap = rows T -> forall p sample, (1 <= p)%Q ->
  exists st, trueFeatureStats T R fMap g p limit sample = Ok st /\ stats_are (rows T) T R fMap g (seq 0 (rows T)) (seq 0 (rows T)) st.
Proof.
  intros HC p sample Hp. unfold trueFeatureStats. replace (qltb p 1) with false by (symmetry; unfold qltb; apply negb_false_iff, Qle_bool_iff; exact Hp).
  rewrite (proj2 (Nat.eqb_eq _ _) HC). cbn [negb]. destruct (qltb _ limit); eexists; (split; [reflexivity|]); [apply rep_are|].
  apply loop_are; [apply seq_NoDup | intros x Hx; apply in_seq in Hx; lia].
Qed.
(** the system in terms of the value function *)
Lemma system n T R fMap g st w i : stats_are n T R fMap g (seq 0 n) (seq 0 n) st -> i < rows fMap ->
  (sigma (rows fMap) (fun j => ent (fst st) i j * w j) ==
   sigma n (fun s => ent fMap i s * (sigma n (fun t => ent T s t) * weighed fMap (rows fMap) w s - g * sigma n (fun t => ent T s t * weighed fMap (rows fMap) w t))))%Q.
Proof.
  intros (_ & _ & HA & _) Hi. rewrite (sigma_ext _ _ (fun j => sigma n (fun s => sigma n (fun t => w j * (ent T s t * (ent fMap i s * (ent fMap j s - g * ent fMap j t))))))%Q).
  2:{ intros j Hj. rewrite (HA i j Hi Hj). unfold stat. rewrite Qmult_comm, <- sigma_scale. apply sigma_ext. intros s Hs. rewrite <- sigma_scale. apply sigma_ext. intros t Ht. rewrite !among_all by auto. lra. }
  rewrite sigma_swap. apply sigma_ext. intros s Hs. rewrite sigma_swap.
  rewrite (sigma_ext n _ (fun t => ent fMap i s * (weighed fMap (rows fMap) w s) * ent T s t + (- (g * ent fMap i s)) * (ent T s t * weighed fMap (rows fMap) w t))%Q).
  - rewrite sigma_plus. rewrite (sigma_scale n _ (fun t => ent T s t)), (sigma_scale n _ (fun t => ent T s t * weighed fMap (rows fMap) w t)%Q). ring.
  - intros t Ht. unfold weighed.
    rewrite (sigma_ext _ _ (fun j => (ent fMap i s * ent T s t) * (w j * ent fMap j s) + (- (g * ent fMap i s * ent T s t)) * (w j * ent fMap j t))%Q) by (intros; lra).
    rewrite sigma_plus, !sigma_scale. ring.
Qed.
Lemma rhs n T R fMap g st i : stats_are n T R fMap g (seq 0 n) (seq 0 n) st -> i < rows fMap ->
  (at_ (snd st) i == sigma n (fun s => ent fMap i s * sigma n (fun t => ent T s t * at_ R t)))%Q.
Proof.
  intros (_ & _ & _ & HB) Hi. rewrite (HB i Hi). unfold resid. apply sigma_ext. intros s Hs. rewrite <- sigma_scale. apply sigma_ext. intros t Ht. rewrite !among_all by auto. lra.
Qed.
