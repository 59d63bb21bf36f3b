(** C68, part 5: runs of CMA-ES. *)
From Coq Require Import Reals Lra Psatz.
From Verif Require Import Base StableSort Functions_Model Distrib_Model Distrib_Spec Distrib_Proofs Distrib_Proofs2 Distrib_Proofs3 Distrib_Proofs4.
Local Open Scope R_scope.

Definition cma_idx (p : cma_par) (f : evaluator) (arz0 : mat) (s : cma) : list nat := index_order (cma_fitness p f s (cma_points p s arz0)).
Lemma cma_step_eq eig p f z s : cma_step eig p f z s =
  cma_update eig p s z (cma_points p s z) (map (get (cma_fitness p f s (cma_points p s z))) (cma_idx p f z s)) (cma_idx p f z s).
Proof. unfold cma_step. rewrite sorti_spec. reflexivity. Qed.
Lemma fitness_length p f s a : length (cma_fitness p f s a) = cp_batch p.
Proof. unfold cma_fitness. rewrite map_length, seq_length. reflexivity. Qed.
Lemma idx_length p f z s : length (cma_idx p f z s) = cp_batch p.
Proof. unfold cma_idx. rewrite order_length. apply fitness_length. Qed.
Lemma fitness_get p f s a k : (k < cp_batch p)%nat -> get (cma_fitness p f s a) k = internal (cp_opposed p) f (cm_n s + k)%nat (tab (cp_dim p) (fun i => mget a i k)).
Proof. intro H. exact (get_tab (cp_batch p) _ k H). Qed.

Record cma_ok (p : cma_par) (s : cma) : Prop := {
  ck_center : length (cm_center s) = cp_dim p; ck_step : 0 < cm_step s;
  ck_sym : symmetric (cp_dim p) (entry (cm_C s)); ck_pos : posdef (cp_dim p) (entry (cm_C s)) }.
Lemma eye2 n i j : (i < n)%nat -> (j < n)%nat -> mget (mmul n n n (eye n) (eye n)) i j = delta i j.
Proof.
  intros Hi Hj. unfold mmul. rewrite mget_mtab by auto. rewrite (sumn_ext n _ (fun k => delta i k * delta k j)) by (intros k Hk; unfold eye; rewrite !mget_mtab by auto; auto).
  exact (sumn_delta n i (fun k => delta k j) Hi).
Qed.
Lemma init_C p x0 st i j : (i < cp_dim p)%nat -> (j < cp_dim p)%nat -> mget (cm_C (cma_init p x0 st)) i j = delta i j.
Proof.
  intros Hi Hj. cbn [cma_init cm_C]. set (n := cp_dim p) in *. unfold mmul at 1. rewrite mget_mtab by auto.
  rewrite (sumn_ext n _ (fun k => delta i k * delta k j)).
  - exact (sumn_delta n i (fun k => delta k j) Hi).
  - intros k Hk. unfold mtrans. rewrite mget_mtab by auto. rewrite !eye2 by auto. rewrite (delta_sym j k). auto.
Qed.
Lemma init_ok p x0 st : length x0 = cp_dim p -> 0 < st -> cma_ok p (cma_init p x0 st).
Proof.
  intros H1 H2. constructor; auto.
  - intros i j Hi Hj. change (mget (cm_C (cma_init p x0 st)) i j = mget (cm_C (cma_init p x0 st)) j i). rewrite !init_C by auto. apply delta_sym.
  - intros x Hx. rewrite (quad_ext _ _ (entry (eye (cp_dim p)))).
    + apply posdef_eye. auto.
    + intros i j Hi Hj. change (mget (cm_C (cma_init p x0 st)) i j = mget (eye (cp_dim p)) i j). rewrite init_C by auto. unfold eye. rewrite mget_mtab by auto. auto.
Qed.
Lemma step_ok eig p f z s : par_ok p -> cma_ok p s -> cma_ok p (cma_step eig p f z s).
Proof.
  intros Hp [H1 H2 H3 H4]. rewrite cma_step_eq, update_eq.
  assert (Hi : (cp_mu p <= length (cma_idx p f z s))%nat) by (rewrite idx_length; apply (pk_sel p Hp)).
  constructor; cbn [cm_center cm_step cm_C].
  - apply tab_length.
  - unfold u_step. apply Rmult_lt_0_compat; [auto|apply exp_pos].
  - apply C2_sym.
  - apply C2_posdef; auto.
Qed.
Lemma run_ok eig p f zs : par_ok p -> forall s, cma_ok p s -> cma_ok p (cma_run eig p f zs s).
Proof. intro Hp. unfold cma_run. induction zs as [|z zs IH]; intros s Hs; cbn [fold_left]; auto. apply IH. apply step_ok; auto. Qed.

(** ** the order of the fitnesses decides *)
Definition cma_core (s : cma) : cma :=
  {| cm_center := cm_center s; cm_step := cm_step s; cm_covPath := cm_covPath s; cm_stepPath := cm_stepPath s; cm_B := cm_B s; cm_D := cm_D s; cm_C := cm_C s;
     cm_n := cm_n s; cm_stop := false |}.
Lemma idx_order p f g z s : same_order f g -> cma_idx p f z s = cma_idx p g z s.
Proof.
  intro H. unfold cma_idx. apply order_same; [rewrite !fitness_length; auto|]. rewrite fitness_length. intros a b Ha Hb. rewrite !fitness_get by auto.
  apply (internal_order (cp_opposed p) f g H).
Qed.
Lemma idx_core p f z s : cma_idx p f z (cma_core s) = cma_idx p f z s.
Proof. reflexivity. Qed.
Lemma core_step eig p f g z s s' : same_order f g -> cma_core s = cma_core s' -> cma_core (cma_step eig p f z s) = cma_core (cma_step eig p g z s').
Proof.
  intros H E. assert (A : forall h t, cma_core (cma_step eig p h z t) = cma_core (cma_step eig p h z (cma_core t))).
  { intros h t. rewrite !cma_step_eq, !update_eq. reflexivity. }
  rewrite (A f s), (A g s'), E. rewrite !cma_step_eq, !update_eq, (idx_order p f g z) by auto. reflexivity.
Qed.
Lemma core_run eig p f g zs : same_order f g -> forall s s', cma_core s = cma_core s' -> cma_core (cma_run eig p f zs s) = cma_core (cma_run eig p g zs s').
Proof. intro H. unfold cma_run. induction zs as [|z zs IH]; intros s s' E; cbn [fold_left]; auto. apply IH. apply core_step; auto. Qed.

(** ** translation *)
Definition cma_shift (p : cma_par) (b : nat -> R) (s : cma) : cma :=
  {| cm_center := aff (cp_dim p) (fun _ => 1) b (cm_center s); cm_step := cm_step s; cm_covPath := cm_covPath s; cm_stepPath := cm_stepPath s; cm_B := cm_B s;
     cm_D := cm_D s; cm_C := cm_C s; cm_n := cm_n s; cm_stop := cm_stop s |}.
Lemma points_val p s z i k : (i < cp_dim p)%nat -> (k < cp_batch p)%nat ->
  mget (cma_points p s z) i k = get (cm_center s) i + cm_step s * sumn (cp_dim p) (fun j => mget (cma_bd p s) i j * mget z j k).
Proof. intros Hi Hk. unfold cma_points. rewrite mget_mtab by auto. unfold mmul. rewrite mget_mtab by auto. reflexivity. Qed.
Lemma get_aff d a b x i : (i < d)%nat -> get (aff d a b x) i = a i * get x i + b i.
Proof. intro H. exact (get_tab d _ i H). Qed.
Lemma fitness_aff p f h s s' a a' (sc b : nat -> R) : cm_n s = cm_n s' ->
  (forall m x, length x = cp_dim p -> h m (aff (cp_dim p) sc b x) = f m x) ->
  (forall i k, (i < cp_dim p)%nat -> (k < cp_batch p)%nat -> mget a' i k = sc i * mget a i k + b i) ->
  cma_fitness p h s' a' = cma_fitness p f s a.
Proof.
  intros Hn H Ha. unfold cma_fitness. apply map_seq_ext. intros k Hk. rewrite <- Hn. unfold internal.
  assert (E : tab (cp_dim p) (fun i => mget a' i k) = aff (cp_dim p) sc b (tab (cp_dim p) (fun i => mget a i k))).
  { apply tab_ext. intros i Hi. rewrite Ha by auto. f_equal. f_equal. symmetry. exact (get_tab (cp_dim p) _ i Hi). }
  rewrite E, H by apply tab_length. reflexivity.
Qed.
Lemma idx_in p f z s k : (k < cp_batch p)%nat -> (nth k (cma_idx p f z s) O < cp_batch p)%nat.
Proof.
  intro H. assert (Hin : In (nth k (cma_idx p f z s) O) (cma_idx p f z s)) by (apply nth_In; rewrite idx_length; auto).
  unfold cma_idx in Hin at 2. apply order_In in Hin. rewrite fitness_length in Hin. auto.
Qed.
Lemma shift_step eig p f h z s b : par_ok p -> length (cm_center s) = cp_dim p ->
  (forall m x, length x = cp_dim p -> h m (aff (cp_dim p) (fun _ => 1) b x) = f m x) ->
  cma_step eig p h z (cma_shift p b s) = cma_shift p b (cma_step eig p f z s).
Proof.
  intros Hp Hc H. set (n := cp_dim p) in *. set (s' := cma_shift p b s).
  assert (Ex : forall i k, (i < n)%nat -> (k < cp_batch p)%nat -> mget (cma_points p s' z) i k = 1 * mget (cma_points p s z) i k + b i).
  { intros i k Hi Hk. rewrite !points_val by auto. cbn [s' cma_shift cm_center cm_step]. rewrite get_aff by auto.
    change (cma_bd p s') with (cma_bd p s). ring. }
  assert (Ef : cma_fitness p h s' (cma_points p s' z) = cma_fitness p f s (cma_points p s z)).
  { apply (fitness_aff p f h s s' _ _ (fun _ => 1) b); auto. }
  rewrite !cma_step_eq. unfold cma_idx. rewrite Ef. fold (cma_idx p f z s). set (idx := cma_idx p f z s).
  assert (Li : (cp_mu p <= length idx)%nat) by (unfold idx; rewrite idx_length; apply (pk_sel p Hp)).
  rewrite !update_eq.
  assert (Emut : u_mut p s' (cma_points p s' z) idx = u_mut p s (cma_points p s z) idx).
  { unfold u_mut. apply mtab_ext. intros i k Hi Hk. rewrite !mget_sel by auto. pose proof (pk_sel p Hp). unfold idx. rewrite Ex by (auto; apply idx_in; lia).
    cbn [s' cma_shift cm_center]. rewrite get_aff by auto. ring. }
  assert (EC : u_C2 p s' z (cma_points p s' z) idx = u_C2 p s z (cma_points p s z) idx).
  { unfold u_C2, u_C1, u_rankmu. rewrite Emut. reflexivity. }
  rewrite EC. unfold cma_shift at 1. cbn [cm_center cm_step cm_covPath cm_stepPath cm_B cm_D cm_C cm_n cm_stop]. f_equal.
  apply (vec_ext n); [apply tab_length|unfold aff; rewrite map_length, seq_length; auto|]. intros i Hi. fold n. rewrite get_aff by auto.
  rewrite !center_val by auto. rewrite (sumn_ext _ _ (fun k => get (cp_weights p) k * mget (cma_points p s z) i (nth k idx O) + get (cp_weights p) k * b i)).
  - rewrite sumn_plus, sumn_scal_r. rewrite (pk_sum p Hp). ring.
  - intros k Hk. pose proof (pk_sel p Hp). unfold idx. rewrite Ex by (auto; apply idx_in; lia). ring.
Qed.
Lemma shift_run eig p f h zs b : par_ok p -> (forall m x, length x = cp_dim p -> h m (aff (cp_dim p) (fun _ => 1) b x) = f m x) ->
  forall s, cma_ok p s -> cma_run eig p h zs (cma_shift p b s) = cma_shift p b (cma_run eig p f zs s).
Proof.
  intros Hp H. unfold cma_run. induction zs as [|z zs IH]; intros s Hs; cbn [fold_left]; auto.
  rewrite (shift_step eig p f h z s b); auto; [|apply (ck_center p s Hs)]. apply IH. apply step_ok; auto.
Qed.

(** ** scaling: what the rank-mu update makes of it *)
Definition cma_scale (p : cma_par) (k : R) (s : cma) : cma :=
  {| cm_center := aff (cp_dim p) (fun _ => k) (fun _ => 0) (cm_center s); cm_step := k * cm_step s; cm_covPath := cm_covPath s; cm_stepPath := cm_stepPath s;
     cm_B := cm_B s; cm_D := cm_D s; cm_C := cm_C s; cm_n := cm_n s; cm_stop := cm_stop s |}.
Lemma scale_step eig p f h z s q : par_ok p -> length (cm_center s) = cp_dim p ->
  (forall m x, length x = cp_dim p -> h m (aff (cp_dim p) (fun _ => q) (fun _ => 0) x) = f m x) ->
  let t := cma_step eig p f z s in let t' := cma_step eig p h z (cma_scale p q s) in
  cm_step t' = q * cm_step t /\ cm_center t' = aff (cp_dim p) (fun _ => q) (fun _ => 0) (cm_center t) /\
  cm_covPath t' = cm_covPath t /\ cm_stepPath t' = cm_stepPath t /\
  forall i j, (i < cp_dim p)%nat -> (j < cp_dim p)%nat ->
    entry (cm_C t') i j = entry (cm_C t) i j + cp_covRate p * (1 - 1 / cp_mueff p) * (q ^ 2 - 1) * cm_step s ^ 2 *
      sumn (cp_mu p) (fun l => get (cp_weights p) l *
        (sumn (cp_dim p) (fun a => mget (cma_bd p s) i a * mget z a (nth l (cma_idx p f z s) O)) * sumn (cp_dim p) (fun a => mget (cma_bd p s) j a * mget z a (nth l (cma_idx p f z s) O)))).
Proof.
  intros Hp Hc H. set (n := cp_dim p) in *. set (s' := cma_scale p q s). cbv zeta.
  assert (Ex : forall i k, (i < n)%nat -> (k < cp_batch p)%nat -> mget (cma_points p s' z) i k = q * mget (cma_points p s z) i k + 0).
  { intros i k Hi Hk. rewrite !points_val by auto. cbn [s' cma_scale cm_center cm_step]. rewrite get_aff by auto.
    change (cma_bd p s') with (cma_bd p s). ring. }
  assert (Ef : cma_fitness p h s' (cma_points p s' z) = cma_fitness p f s (cma_points p s z)).
  { apply (fitness_aff p f h s s' _ _ (fun _ => q) (fun _ => 0)); auto. }
  rewrite !cma_step_eq. assert (Ei : cma_idx p h z s' = cma_idx p f z s) by (unfold cma_idx; rewrite Ef; auto). rewrite Ei. set (idx := cma_idx p f z s).
  assert (Li : (cp_mu p <= length idx)%nat) by (unfold idx; rewrite idx_length; apply (pk_sel p Hp)).
  rewrite !update_eq. cbn [cm_center cm_step cm_covPath cm_stepPath cm_C].
  assert (Esp : u_stepPath p s' z idx = u_stepPath p s z idx) by reflexivity.
  assert (Ecp : u_covPath p s' z idx = u_covPath p s z idx) by reflexivity.
  split; [unfold u_step; rewrite Esp; cbn [s' cma_scale cm_step]; ring|]. split; [|split; [auto|split; [auto|]]].
  - apply (vec_ext n); [apply tab_length|unfold aff; rewrite map_length, seq_length; auto|]. intros i Hi. rewrite get_aff by auto.
    rewrite !center_val by auto. rewrite Rplus_0_r, <- sumn_scal. apply sumn_ext. intros k Hk. pose proof (pk_sel p Hp). unfold idx. rewrite Ex by (auto; apply idx_in; lia). ring.
  - intros i j Hi Hj.
    assert (Em : forall i l, (i < n)%nat -> (l < cp_mu p)%nat -> mget (u_mut p s (cma_points p s z) idx) i l = cm_step s * sumn n (fun a => mget (cma_bd p s) i a * mget z a (nth l idx O))).
    { intros i' l Hi' Hl. rewrite mut_val by auto. rewrite points_val; [|auto|pose proof (pk_sel p Hp); unfold idx; apply idx_in; lia]. fold n. ring. }
    assert (Em' : forall i l, (i < n)%nat -> (l < cp_mu p)%nat -> mget (u_mut p s' (cma_points p s' z) idx) i l = q * (cm_step s * sumn n (fun a => mget (cma_bd p s) i a * mget z a (nth l idx O)))).
    { intros i' l Hi' Hl. rewrite mut_val by auto. rewrite points_val; [|auto|pose proof (pk_sel p Hp); unfold idx; apply idx_in; lia]. fold n. cbn [s' cma_scale cm_center cm_step].
      change (cma_bd p s') with (cma_bd p s). ring. }
    set (Y := fun i l => sumn n (fun a => mget (cma_bd p s) i a * mget z a (nth l idx O))).
    assert (Er : forall i j, (i < n)%nat -> (j < n)%nat -> mget (u_rankmu p s (cma_points p s z) idx) i j = cm_step s ^ 2 * sumn (cp_mu p) (fun l => get (cp_weights p) l * (Y i l * Y j l))).
    { intros i' j' Hi' Hj'. rewrite rankmu_val by auto. rewrite <- sumn_scal. apply sumn_ext. intros l Hl. rewrite !Em by auto. unfold Y. ring. }
    assert (Er' : forall i j, (i < n)%nat -> (j < n)%nat -> mget (u_rankmu p s' (cma_points p s' z) idx) i j = q ^ 2 * (cm_step s ^ 2 * sumn (cp_mu p) (fun l => get (cp_weights p) l * (Y i l * Y j l)))).
    { intros i' j' Hi' Hj'. rewrite rankmu_val by auto. rewrite <- !sumn_scal. apply sumn_ext. intros l Hl. rewrite !Em' by auto. unfold Y. ring. }
    assert (E1 : forall i j, (i < n)%nat -> (j < n)%nat -> mget (u_C1 p s' z (cma_points p s' z) idx) i j = mget (u_C1 p s z (cma_points p s z) idx) i j
       + cp_covRate p * (1 - 1 / cp_mueff p) * (q ^ 2 - 1) * cm_step s ^ 2 * sumn (cp_mu p) (fun l => get (cp_weights p) l * (Y i l * Y j l))).
    { intros i' j' Hi' Hj'. unfold u_C1. fold n. rewrite !mget_mtab by auto. rewrite Er, Er' by auto. rewrite Ecp.
      change (u_hsig p s' z idx) with (u_hsig p s z idx). change (cm_C s') with (cm_C s). ring. }
    change (entry (u_C2 p s' z (cma_points p s' z) idx) i j) with (mget (u_C2 p s' z (cma_points p s' z) idx) i j).
    change (entry (u_C2 p s z (cma_points p s z) idx) i j) with (mget (u_C2 p s z (cma_points p s z) idx) i j).
    unfold u_C2. fold n. rewrite !mget_mtab by auto. rewrite !E1 by auto. change (cm_n s) with (cm_n s). fold (Y i).
    rewrite (sumn_ext (cp_mu p) (fun l => get (cp_weights p) l * (Y j l * Y i l)) (fun l => get (cp_weights p) l * (Y i l * Y j l))) by (intros; ring).
    unfold Y. field. pose proof (pk_e p Hp). lra.
Qed.
