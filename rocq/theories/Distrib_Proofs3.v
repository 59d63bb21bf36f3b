(** C68, part 3: what follows for SNES; xNES. *)
From Coq Require Import Reals Lra.
From Verif Require Import Base StableSort Functions_Model Distrib_Model Distrib_Spec Distrib_Proofs Distrib_Proofs2.
Local Open Scope R_scope.

(** ** invariance under order preserving changes of the fitness *)
Lemma sep_gen_order d n rc rs b g h st draws : same_order g h -> sep_gen d n rc rs b g st draws = sep_gen d n rc rs b h st draws.
Proof.
  intro H. unfold sep_gen. destruct st as [[c s] m].
  set (e := fun k => g (m + k)%nat (sep_points d c s (nth k draws []))). set (e' := fun k => h (m + k)%nat (sep_points d c s (nth k draws []))).
  assert (E : forall k, (k < n)%nat -> utility n b e k = utility n b e' k).
  { intros k Hk. apply utility_ext; auto. intros a a' _ _. apply H. }
  f_equal. f_equal; apply map_ext; intro i.
  - unfold sep_center. change (total n) with (sumn n). f_equal. f_equal. apply sumn_ext. intros k Hk. rewrite E by auto. auto.
  - unfold sep_scale. change (total n) with (sumn n). f_equal. f_equal. f_equal. apply sumn_ext. intros k Hk. rewrite E by auto. auto.
Qed.
Lemma sep_run_order d n rc rs b g h batches : same_order g h -> forall st, sep_run d n rc rs b g batches st = sep_run d n rc rs b h batches st.
Proof. intro H. unfold sep_run. induction batches as [|z bs IH]; intro st; cbn [fold_left]; auto. rewrite (sep_gen_order d n rc rs b g h) by auto. apply IH. Qed.
Lemma internal_order op f g : same_order f g -> same_order (internal op f) (internal op g).
Proof. intros H i x j y. unfold internal. destruct op; auto. pose proof (H j y i x). split; intro; enough (f j y < f i x <-> g j y < g i x); try tauto; lra. Qed.

(** ** change of coordinates *)
Lemma at_map_seq n (f : nat -> R) i : (i < n)%nat -> at_ (map f (seq 0 n)) i = f i.
Proof. intro H. change (get (tab n f) i = f i). apply get_tab. auto. Qed.
Lemma map_seq_ext {A} n (f g : nat -> A) : (forall i, (i < n)%nat -> f i = g i) -> map f (seq 0 n) = map g (seq 0 n).
Proof. intro H. apply map_ext_in. intros i Hi. apply in_seq in Hi. apply H. lia. Qed.
Lemma sep_gen_affine d n rc rs bl a b g h c s m draws :
  (forall k x, length x = d -> h k (aff d a b x) = g k x) ->
  let '(c1, s1, m1) := sep_gen d n rc rs bl g (c, s, m) draws in
  sep_gen d n rc rs bl h (aff d a b c, aff d a (fun _ => 0) s, m) draws = (aff d a b c1, aff d a (fun _ => 0) s1, m1).
Proof.
  intro H. unfold sep_gen. set (e := fun k => g (m + k)%nat (sep_points d c s (nth k draws []))).
  set (e' := fun k => h (m + k)%nat (sep_points d (aff d a b c) (aff d a (fun _ => 0) s) (nth k draws []))).
  assert (E : forall k, e' k = e k).
  { intro k. unfold e, e'. rewrite <- (H (m + k)%nat (sep_points d c s (nth k draws []))); [|unfold sep_points; rewrite map_length, seq_length; auto]. f_equal.
    unfold sep_points, aff. apply map_seq_ext. intros i Hi. rewrite !at_map_seq by auto. ring. }
  assert (Eu : forall k, (k < n)%nat -> utility n bl e' k = utility n bl e k).
  { intros k Hk. apply utility_ext; auto. intros x y _ _. rewrite !E. tauto. }
  f_equal. f_equal; unfold aff; apply map_seq_ext; intros i Hi; rewrite at_map_seq by auto.
  - unfold sep_center. change (total n) with (sumn n). rewrite !at_map_seq by auto.
    rewrite (sumn_ext n _ (fun k => utility n bl e k * at_ (nth k draws []) i)) by (intros k Hk; rewrite Eu by auto; auto). ring.
  - unfold sep_scale. change (total n) with (sumn n). rewrite !at_map_seq by auto.
    rewrite (sumn_ext n _ (fun k => utility n bl e k * (at_ (nth k draws []) i ^ 2 - 1))) by (intros k Hk; rewrite Eu by auto; auto). ring.
Qed.
Lemma sep_run_affine d n rc rs bl a b g h batches : (forall k x, length x = d -> h k (aff d a b x) = g k x) -> forall c s m,
  let '(c1, s1, m1) := sep_run d n rc rs bl g batches (c, s, m) in
  sep_run d n rc rs bl h batches (aff d a b c, aff d a (fun _ => 0) s, m) = (aff d a b c1, aff d a (fun _ => 0) s1, m1).
Proof.
  intro H. unfold sep_run. induction batches as [|z bs IH]; intros c s m; cbn [fold_left]; [reflexivity|].
  pose proof (sep_gen_affine d n rc rs bl a b g h c s m z H) as E. destruct (sep_gen d n rc rs bl g (c, s, m) z) as [[c1 s1] m1]. rewrite E. apply IH.
Qed.

(** ** recombination: the new center as a combination of the points *)
Lemma sep_center_points n b e c s z i : (0 < n)%nat -> sep_center 1 n (utility n b e) c s z i =
  total n (fun k => utility n false e k * (c i + s i * z k i)) + (if b then c i - total n (fun k => c i + s i * z k i) / INR n else 0).
Proof.
  intro H. unfold sep_center. change (total n) with (sumn n). pose proof (utility_sum n false e H) as Hs. rewrite total_sumn in Hs.
  assert (Hn : INR n <> 0) by (apply not_0_INR; lia).
  assert (E : sumn n (fun k => utility n false e k * (c i + s i * z k i)) = c i * sumn n (utility n false e) + s i * sumn n (fun k => utility n false e k * z k i)).
  { rewrite <- !sumn_scal, <- sumn_plus. apply sumn_ext. intros. ring. }
  rewrite E, Hs. destruct b; [|ring].
  assert (E2 : sumn n (fun k => utility n true e k * z k i) = sumn n (fun k => utility n false e k * z k i) - / INR n * sumn n (fun k => z k i)).
  { rewrite <- sumn_scal, <- sumn_minus. apply sumn_ext. intros. unfold utility. field. split; auto. pose proof (hansen_sum_pos n H). lra. }
  assert (E3 : sumn n (fun k => c i + s i * z k i) = INR n * c i + s i * sumn n (fun k => z k i)).
  { rewrite <- sumn_const, <- sumn_scal, <- sumn_plus. reflexivity. }
  rewrite E2, E3. field. auto.
Qed.

(** ** the order of the draws does not matter when the fitnesses differ *)
Definition smaller (es : list R) (y : R) : nat := length (filter (fun x => if Rlt_dec x y then true else false) es).
Lemma smaller_perm a b y : Permutation a b -> smaller a y = smaller b y.
Proof. apply filter_perm. Qed.
Lemma filter_map_length {A B} (g : A -> B) (f : B -> bool) l : length (filter f (map g l)) = length (filter (fun x => f (g x)) l).
Proof. induction l as [|a l IH]; cbn [map filter]; auto. destruct (f (g a)); cbn [length]; auto. Qed.
Lemma rank_smaller n e i : (i < n)%nat -> (forall a b, (a < n)%nat -> (b < n)%nat -> e a = e b -> a = b) -> rank n e i = smaller (map e (seq 0 n)) (e i).
Proof.
  intros Hi Hinj. unfold rank, smaller. rewrite filter_map_length. f_equal. apply filter_ext_in. intros j Hj. apply in_seq in Hj. unfold before.
  destruct (Rlt_dec (e j) (e i)); auto. destruct (Rlt_dec (e i) (e j)); auto.
  assert (j = i) as -> by (apply Hinj; try lia; lra). apply Nat.ltb_irrefl.
Qed.
Lemma sumn_list (h : list R -> R) draws : sumn (length draws) (fun k => h (nth k draws [])) = vtotal (map h draws).
Proof.
  unfold vtotal. rewrite map_length. apply sumn_ext. intros k Hk. unfold get. rewrite (nth_indep _ 0 (h [])) by (rewrite map_length; auto). rewrite map_nth. auto.
Qed.
Lemma sep_gen_perm d n rc rs b (g : list R -> R) c s m z z' : length z = n -> Permutation z z' ->
  (forall i j, (i < n)%nat -> (j < n)%nat -> g (sep_points d c s (nth i z [])) = g (sep_points d c s (nth j z [])) -> i = j) ->
  sep_gen d n rc rs b (fun _ => g) (c, s, m) z' = sep_gen d n rc rs b (fun _ => g) (c, s, m) z.
Proof.
  intros Hl Hp Hinj. assert (Hl' : length z' = n) by (rewrite <- (Permutation_length Hp); auto).
  set (G := fun x => g (sep_points d c s x)). set (es := map G z).
  assert (Hes : Permutation es (map G z')) by (apply Permutation_map; auto).
  assert (Hidx : forall w, length w = n -> map (fun k => G (nth k w [])) (seq 0 n) = map G w).
  { intros w Hw. rewrite <- Hw. rewrite <- (map_map (fun k => nth k w []) G). rewrite map_nth_seq. auto. }
  assert (Hnd : NoDup es).
  { unfold es. rewrite <- (Hidx z Hl). apply (NoDup_nth _ (G [])). rewrite map_length, seq_length. intros i j Hi Hj E.
    rewrite !(nth_indep _ (G []) (G (nth O z []))) in E by (rewrite map_length, seq_length; auto).
    rewrite !(map_nth (fun k => G (nth k z []))), !seq_nth in E by auto. apply Hinj; auto. }
  assert (Hinj' : forall w, length w = n -> NoDup (map G w) -> forall i j, (i < n)%nat -> (j < n)%nat -> G (nth i w []) = G (nth j w []) -> i = j).
  { intros w Hw N i j Hi Hj E. rewrite (NoDup_nth _ (G [])) in N. apply N; rewrite ?map_length; try lia. rewrite !map_nth. auto. }
  set (U := fun y => hansen_raw n (smaller es y) / total n (hansen_raw n) - (if b then 1 / INR n else 0)).
  assert (Eu : forall w, length w = n -> Permutation es (map G w) -> forall k, (k < n)%nat -> utility n b (fun k => G (nth k w [])) k = U (G (nth k w []))).
  { intros w Hw P k Hk. unfold utility, U. rewrite rank_smaller; auto.
    - rewrite (Hidx w Hw). rewrite (smaller_perm _ _ _ P). auto.
    - apply Hinj'; auto. eapply Permutation_NoDup; eauto. }
  assert (S : forall (h : list R -> R), sumn n (fun k => utility n b (fun k => G (nth k z' [])) k * h (nth k z' [])) = sumn n (fun k => utility n b (fun k => G (nth k z [])) k * h (nth k z []))).
  { intro h. assert (A : forall w, length w = n -> Permutation es (map G w) ->
      sumn n (fun k => utility n b (fun k => G (nth k w [])) k * h (nth k w [])) = vtotal (map (fun x => U (G x) * h x) w)).
    { intros w Hw P. rewrite <- sumn_list. rewrite Hw. apply sumn_ext. intros k Hk. rewrite Eu; auto. }
    rewrite !A; auto. apply vtotal_perm. apply Permutation_map. symmetry. auto. }
  unfold sep_gen. f_equal. f_equal; apply map_seq_ext; intros i Hi.
  - unfold sep_center. change (total n) with (sumn n). f_equal. f_equal. exact (S (fun x => at_ x i)).
  - unfold sep_scale. change (total n) with (sumn n). f_equal. f_equal. f_equal. exact (S (fun x => at_ x i ^ 2 - 1)).
Qed.

(** ** the extra stopping criterion *)
Lemma vmaxl_lt v t : v <> [] -> (vmaxl v < t <-> Forall (fun x => x < t) v).
Proof.
  destruct v as [|a l]; [contradiction|]. intros _. cbn [vmaxl]. revert a. induction l as [|b l IH]; intro a; cbn [fold_left].
  - rewrite Forall_cons_iff. split; [intro; split; auto|tauto].
  - rewrite IH, !Forall_cons_iff. unfold Rmax. destruct (Rle_dec a b); split; intros; intuition lra.
Qed.

(** ** xNES *)
Lemma meq_mprod n a a' b b' i j : meq n a a' -> meq n b b' -> (i < n)%nat -> (j < n)%nat -> mprod n a b i j = mprod n a' b' i j.
Proof. intros Ha Hb Hi Hj. unfold mprod. change (total n) with (sumn n). apply sumn_ext. intros k Hk. rewrite Ha, Hb by auto. auto. Qed.
Lemma mprod_assoc n a b c i j : mprod n (mprod n a b) c i j = mprod n a (mprod n b c) i j.
Proof.
  unfold mprod. change (total n) with (sumn n).
  rewrite (sumn_ext n _ (fun k => sumn n (fun l => a i l * b l k * c k j))) by (intros; rewrite <- sumn_scal_r; auto).
  rewrite sumn_swap. apply sumn_ext. intros l Hl. rewrite <- sumn_scal. apply sumn_ext. intros. ring.
Qed.
Lemma mprod_ident_l n a i j : (i < n)%nat -> mprod n ident a i j = a i j.
Proof. intro H. unfold mprod. change (total n) with (sumn n). exact (sumn_delta n i (fun k => a k j) H). Qed.
Lemma entry_matrix n f i j : (i < n)%nat -> (j < n)%nat -> entry (matrix n f) i j = f i j.
Proof. intros. change (mget (mtab n n f) i j = f i j). apply mget_mtab; auto. Qed.
Definition xnes_view (s : xnes) : list R * list (list R) * nat := (xn_center s, xn_A s, st_n (xn_store s)).
Record xnes_ok (c : nes_cfg) (s : xnes) : Prop := {
  xo_center : length (xn_center s) = nc_dim c;
  xo_inv : meq (nc_dim c) (mprod (nc_dim c) (entry (xn_invA s)) (entry (xn_A s))) ident;
  xo_store : length (st_x (xn_store s)) = length (st_e (xn_store s)) }.
Lemma xnes_roundtrip c s z : xnes_ok c s -> length z = nc_dim c -> xnes_base2sample c s (xnes_sample2base c s z) = z.
Proof.
  intros H Hz. set (n := nc_dim c) in *. unfold xnes_base2sample. fold n. transitivity (tab n (get z)); [|apply tab_get; auto].
  unfold mvec. apply tab_ext. intros i Hi.
  rewrite (sumn_ext n _ (fun l => sumn n (fun j => mget (xn_invA s) i l * mget (xn_A s) l j * get z j))).
  2:{ intros l Hl. rewrite get_tab by auto. unfold xnes_sample2base. fold n. rewrite get_tab by auto. unfold mvec. rewrite get_tab by auto.
      replace (sumn n (fun l0 => mget (xn_A s) l l0 * get z l0) + get (xn_center s) l - get (xn_center s) l) with (sumn n (fun l0 => mget (xn_A s) l l0 * get z l0)) by ring.
      rewrite <- sumn_scal. apply sumn_ext. intros. ring. }
  rewrite sumn_swap. rewrite (sumn_ext n _ (fun j => delta i j * get z j)).
  2:{ intros j Hj. rewrite sumn_scal_r. f_equal. exact (xo_inv c s H i j Hi Hj). }
  apply sumn_delta. auto.
Qed.
Lemma xnes_point c s z : xnes_sample2base c s z = exp_point (nc_dim c) (xn_center s) (xn_A s) z.
Proof.
  unfold xnes_sample2base, exp_point, tab. apply map_seq_ext. intros i Hi. unfold mvec. rewrite get_tab by auto.
  change (total (nc_dim c)) with (sumn (nc_dim c)). change (at_ (xn_center s) i) with (get (xn_center s) i). rewrite Rplus_comm. reflexivity.
Qed.
Lemma xnes_step_spec expm c f draws s : expm_ok (nc_dim c) expm -> xnes_ok c s -> batch_ok (nc_dim c) (nc_batch c) draws ->
  xnes_ok c (xnes_step expm c f draws s) /\
  xnes_view (xnes_step expm c f draws s) =
    exp_gen expm (nc_dim c) (nc_batch c) (nc_centerRate c) (nc_scaleRate c) (nc_covRate c) (nc_baseline c) (internal (nc_opposed c) f) (xnes_view s) draws /\
  (forall ld, (0 < nc_dim c)%nat -> logdet_ok (nc_dim c) expm ld -> xn_logDetA s = ld (xn_A s) -> xn_logDetA (xnes_step expm c f draws s) = ld (xn_A (xnes_step expm c f draws s))).
Proof.
  intros He Hs [Hd Hz]. unfold xnes_step. pose proof (produce_spec c f (xnes_sample2base c s) draws (xn_store s) Hd (xo_store c s Hs)) as P.
  destruct (produceSamples c f (xnes_sample2base c s) draws (xn_store s)) as [st ps]. destruct P as (P1 & P2 & P3 & P4 & _).
  rewrite P1, P2, map_map. set (n := nc_batch c) in *. set (d := nc_dim c) in *.
  assert (Es : map (fun x => xnes_base2sample c s (xnes_sample2base c s x)) draws = draws).
  { transitivity (map (fun z : list R => z) draws); [|apply map_id]. apply map_ext_in. intros z Hin. rewrite Forall_forall in Hz. apply xnes_roundtrip; auto. }
  rewrite Es. clear Es. set (ev := map (fun k => internal (nc_opposed c) f (st_n (xn_store s) + k)%nat (nth k (map (xnes_sample2base c s) draws) [])) (seq 0 n)).
  set (g := internal (nc_opposed c) f). set (e := fun k => g (st_n (xn_store s) + k)%nat (exp_point d (xn_center s) (xn_A s) (nth k draws []))).
  assert (Le : length ev = n) by (unfold ev; rewrite map_length, seq_length; auto).
  assert (Ee : forall k, (k < n)%nat -> get ev k = e k).
  { intros k Hk. unfold ev. change (get (tab n (fun k => internal (nc_opposed c) f (st_n (xn_store s) + k)%nat (nth k (map (xnes_sample2base c s) draws) []))) k = e k).
    rewrite get_tab by auto. unfold e, g. f_equal. rewrite (nth_indep _ [] (xnes_sample2base c s [])) by (rewrite map_length; lia). rewrite map_nth. apply xnes_point. }
  assert (Eu : forall k, (k < n)%nat -> get (utilities c ev) k = utility n (nc_baseline c) e k).
  { intros k Hk. rewrite utilities_spec by auto. apply utility_ext; auto. intros a b Ha Hb. rewrite !Ee by auto. tauto. }
  set (u := utility n (nc_baseline c) e) in *. set (z := fun k i => at_ (nth k draws []) i).
  set (cov := mtab d d (fun i j => sumn n (fun k => (mget draws k j * mget draws k i - delta j i) * get (utilities c ev) k))).
  assert (Ecov : forall i j, (i < d)%nat -> (j < d)%nat -> mget cov i j = exp_grad n u z i j).
  { intros i j Hi Hj. unfold cov. rewrite mget_mtab by auto. unfold exp_grad. change (total n) with (sumn n). apply sumn_ext. intros k Hk. rewrite Eu by auto.
    unfold z. rewrite !mget_nth. rewrite delta_sym. change (ident i j) with (delta i j). ring. }
  set (dA := xnes_dA c cov).
  assert (Etr : sumn d (fun i => mget cov i i) = trace d (exp_grad n u z)).
  { unfold trace. change (total d) with (sumn d). apply sumn_ext. intros i Hi. apply Ecov; auto. }
  assert (EdA : dA = matrix d (exp_dA d (nc_scaleRate c) (nc_covRate c) (exp_grad n u z))).
  { unfold dA, xnes_dA. fold d. apply mtab_ext. intros i j Hi Hj. rewrite mget_mtab, Ecov, Etr by auto. unfold exp_dA. change (ident i j) with (delta i j). unfold Rdiv. lra. }
  split; [constructor; cbn [xn_center xn_A xn_invA xn_store]|split].
  - apply tab_length.
  - fold d. intros i j Hi Hj. specialize (He dA).
    assert (Eneg : mtab d d (fun i j => - mget dA i j) = matrix d (fun i j => - entry dA i j)) by reflexivity. rewrite Eneg.
    rewrite (meq_mprod d (entry (mmul d d d (expm (matrix d (fun i j => - entry dA i j))) (xn_invA s))) (mprod d (entry (expm (matrix d (fun i j => - entry dA i j)))) (entry (xn_invA s)))
       (entry (mmul d d d (xn_A s) (expm dA))) (mprod d (entry (xn_A s)) (entry (expm dA)))); auto.
    2,3: intros a b Ha Hb; exact (mget_mtab d d _ a b Ha Hb).
    rewrite mprod_assoc.
    rewrite (meq_mprod d _ (entry (expm (matrix d (fun i j => - entry dA i j)))) _ (entry (expm dA))); auto; [intros a b Ha Hb; auto|].
    intros a b Ha Hb. rewrite <- mprod_assoc. rewrite (meq_mprod d _ ident _ (entry (expm dA))); auto; [apply mprod_ident_l; auto|apply (xo_inv c s Hs)|intros ? ? ? ?; auto].
  - exact P4.
  - unfold xnes_view. cbn [xn_center xn_A xn_store]. unfold exp_gen. fold g. rewrite P3. fold d. fold e. fold u.
    change (fun k i => at_ (nth k draws []) i) with z. rewrite <- EdA. f_equal. f_equal.
    apply tab_ext. intros i Hi. unfold mvec. rewrite get_tab by auto. change (at_ (xn_center s) i) with (get (xn_center s) i). f_equal. f_equal.
    change (total d) with (sumn d). apply sumn_ext. intros j Hj. rewrite get_tab by auto. change (entry (xn_A s) i j) with (mget (xn_A s) i j). f_equal.
    change (total n) with (sumn n). apply sumn_ext. intros k Hk. rewrite Eu by auto. unfold z. rewrite mget_nth. ring.
  - intros ld Hd0 [_ Hld] Hl. cbn [xn_logDetA xn_A]. rewrite Hl. symmetry. change (mmul d d d (xn_A s) (expm dA)) with (matrix d (mprod d (entry (xn_A s)) (entry (expm dA)))).
    rewrite (Hld (xn_A s) (xn_invA s) dA); [|exact (xo_inv c s Hs)]. f_equal. rewrite Etr, EdA. set (T := trace d (exp_grad n u z)).
    unfold trace. change (total d) with (sumn d).
    rewrite (sumn_ext d _ (fun i => / 2 * nc_scaleRate c * (T / INR d) + / 2 * nc_covRate c * (exp_grad n u z i i - T / INR d))).
    2:{ intros i Hi. rewrite entry_matrix by auto. unfold exp_dA. fold T. change (ident i i) with (delta i i). rewrite delta_eq. ring. }
    rewrite sumn_plus, sumn_const, sumn_scal, sumn_minus, sumn_const. change (sumn d (fun i => exp_grad n u z i i)) with T.
    assert (INR d <> 0) by (apply not_0_INR; lia). field_simplify; auto. lra.
Qed.
Lemma xnes_init_ok c x0 : length x0 = nc_dim c -> xnes_ok c (xnes_init c x0).
Proof.
  intro H. constructor; cbn [xnes_init xn_center xn_A xn_invA xn_store]; auto. intros i j Hi Hj. unfold mprod. change (total (nc_dim c)) with (sumn (nc_dim c)).
  rewrite (sumn_ext _ _ (fun k => delta i k * delta k j)); [exact (sumn_delta _ i (fun k => delta k j) Hi)|]. intros k Hk.
  change (mget (eye (nc_dim c)) i k * mget (eye (nc_dim c)) k j = delta i k * delta k j). unfold eye. rewrite !mget_mtab by auto. auto.
Qed.
Lemma xnes_run_spec expm c f batches : expm_ok (nc_dim c) expm -> forall s, xnes_ok c s -> Forall (batch_ok (nc_dim c) (nc_batch c)) batches ->
  xnes_ok c (xnes_run expm c f batches s) /\
  xnes_view (xnes_run expm c f batches s) =
    exp_run expm (nc_dim c) (nc_batch c) (nc_centerRate c) (nc_scaleRate c) (nc_covRate c) (nc_baseline c) (internal (nc_opposed c) f) batches (xnes_view s) /\
  (forall ld, (0 < nc_dim c)%nat -> logdet_ok (nc_dim c) expm ld -> xn_logDetA s = ld (xn_A s) -> xn_logDetA (xnes_run expm c f batches s) = ld (xn_A (xnes_run expm c f batches s))).
Proof.
  intro He. induction batches as [|b bs IH]; intros s Hs Hb; cbn [xnes_run fold_left]; [auto|]. apply Forall_cons_iff in Hb. destruct Hb as [Hb Hbs].
  destruct (xnes_step_spec expm c f b s He Hs Hb) as (H1 & H2 & H5). destruct (IH _ H1 Hbs) as (H3 & H4 & H6). split; [exact H3|split].
  - unfold exp_run. cbn [fold_left]. rewrite <- H2. exact H4.
  - intros ld Hd Hld Hl. apply H6; auto.
Qed.
Lemma exp_gen_order expm d n rm rs rc b g h st draws : same_order g h -> exp_gen expm d n rm rs rc b g st draws = exp_gen expm d n rm rs rc b h st draws.
Proof.
  intro H. unfold exp_gen. destruct st as [[c A] m].
  set (e := fun k => g (m + k)%nat (exp_point d c A (nth k draws []))). set (e' := fun k => h (m + k)%nat (exp_point d c A (nth k draws []))).
  assert (E : forall k, (k < n)%nat -> utility n b e k = utility n b e' k).
  { intros k Hk. apply utility_ext; auto. intros a a' _ _. apply H. }
  change (total n) with (sumn n).
  assert (EG : matrix d (exp_dA d rs rc (exp_grad n (utility n b e) (fun k i => at_ (nth k draws []) i))) = matrix d (exp_dA d rs rc (exp_grad n (utility n b e') (fun k i => at_ (nth k draws []) i)))).
  { assert (EE : forall i j, exp_grad n (utility n b e) (fun k i => at_ (nth k draws []) i) i j = exp_grad n (utility n b e') (fun k i => at_ (nth k draws []) i) i j).
    { intros i j. unfold exp_grad. change (total n) with (sumn n). apply sumn_ext. intros k Hk. rewrite E by auto. auto. }
    assert (ET : trace d (exp_grad n (utility n b e) (fun k i => at_ (nth k draws []) i)) = trace d (exp_grad n (utility n b e') (fun k i => at_ (nth k draws []) i)))
      by (unfold trace; change (total d) with (sumn d); apply sumn_ext; intros; apply EE).
    apply (mtab_ext d d). intros i j Hi Hj. unfold exp_dA. rewrite EE, ET. reflexivity. }
  rewrite EG. f_equal. f_equal. apply map_ext. intro i. f_equal. f_equal. change (total d) with (sumn d). apply sumn_ext. intros j Hj. f_equal.
  apply sumn_ext. intros k Hk. rewrite E by auto. auto.
Qed.
Lemma exp_run_order expm d n rm rs rc b g h batches : same_order g h -> forall st, exp_run expm d n rm rs rc b g batches st = exp_run expm d n rm rs rc b h batches st.
Proof. intro H. unfold exp_run. induction batches as [|z bs IH]; intro st; cbn [fold_left]; auto. rewrite (exp_gen_order expm d n rm rs rc b g h) by auto. apply IH. Qed.
