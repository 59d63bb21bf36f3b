(** C68, part 6: FEM. *)
From Coq Require Import Reals Lra Psatz.
From Verif Require Import Base StableSort Functions_Model Distrib_Model Distrib_Spec Distrib_Proofs Distrib_Proofs2 Distrib_Proofs3 Distrib_Proofs4 Distrib_Proofs5.
Local Open Scope R_scope.

(** ** the shaping of fitnesses *)
Lemma vmaxl_fold l : forall a, In (fold_left Rmax l a) (a :: l) /\ a <= fold_left Rmax l a /\ forall x, In x l -> x <= fold_left Rmax l a.
Proof.
  induction l as [|b l IH]; intro a; cbn [fold_left]; [split; [left; auto|split; [lra|intros x []]]|].
  destruct (IH (Rmax a b)) as (H1 & H2 & H3). pose proof (Rmax_l a b). pose proof (Rmax_r a b). split; [|split].
  - destruct H1 as [H1|H1]; [|right; right; auto]. rewrite <- H1 at 1. unfold Rmax. destruct (Rle_dec a b); [right; left|left]; auto.
  - lra.
  - intros x [->|Hx]; [lra|auto].
Qed.
Lemma vmaxl_eq v m : In m v -> (forall x, In x v -> x <= m) -> vmaxl v = m.
Proof.
  intros Hin Hm. destruct v as [|a l]; [destruct Hin|]. cbn [vmaxl]. destruct (vmaxl_fold l a) as (H1 & H2 & H3). apply Rle_antisym; [apply Hm; auto|].
  destruct Hin as [->|Hin]; auto.
Qed.
(** what a rank is worth: 0 up to the cutoff, then linear up to 1 *)
Definition top_value (n : nat) (top : R) (r : nat) : R :=
  let cut := INR n * (1 - top) in if Rle_dec cut (INR r) then (INR r - cut) / (INR n - 1 - cut) else 0.
Lemma toplinear_spec top l : (0 < length l)%nat -> INR (length l) * (1 - top) < INR (length l) - 1 ->
  toplinear top l = tab (length l) (fun i => top_value (length l) top (rank (length l) (get l) i)) /\ vmaxl (toplinear top l) = 1.
Proof.
  intros Hl Hc. set (n := length l) in *. set (cut := INR n * (1 - top)) in *.
  set (h := fun r => if Rle_dec cut (INR r) then INR r - cut else 0).
  assert (Hmax : vmaxl (map h (rankedFitness l)) = INR n - 1 - cut).
  { apply vmaxl_eq.
    - apply in_map_iff. exists (n - 1)%nat. split.
      + unfold h. rewrite minus_INR by lia. cbn [INR]. destruct (Rle_dec cut (INR n - 1)); lra.
      + apply (Permutation_in _ (Permutation_sym (ranked_perm l))), in_seq. fold n. lia.
    - intros x Hx. apply in_map_iff in Hx. destruct Hx as (r & <- & Hr). apply (Permutation_in _ (ranked_perm l)), in_seq in Hr. fold n in Hr.
      assert (INR r <= INR n - 1). { rewrite <- (INR_IZR_INZ 1) || idtac. change 1 with (INR 1). rewrite <- minus_INR by lia. apply le_INR. lia. }
      unfold h. destruct (Rle_dec cut (INR r)); lra. }
  assert (E : toplinear top l = tab n (fun i => top_value n top (rank n (get l) i))).
  { unfold toplinear. fold n cut. fold h. rewrite Hmax, map_map, ranked_rank, map_map. fold n. apply map_seq_ext. intros i Hi. unfold top_value, h. fold cut.
    destruct (Rle_dec cut (INR (rank n (get l) i))); auto. unfold Rdiv. ring. }
  split; auto. rewrite E. apply vmaxl_eq.
  - unfold tab. rewrite <- (map_map (rank n (get l)) (top_value n top)). apply in_map_iff. exists (n - 1)%nat. split.
    + unfold top_value. fold cut. rewrite minus_INR by lia. cbn [INR]. destruct (Rle_dec cut (INR n - 1)); [field; lra|lra].
    + change (map (rank n (get l)) (seq 0 n)) with (map (rank (length l) (get l)) (seq 0 (length l))). rewrite <- ranked_rank.
      apply (Permutation_in _ (Permutation_sym (ranked_perm l))), in_seq. fold n. lia.
  - intros x Hx. apply in_map_iff in Hx. destruct Hx as (i & <- & Hi). apply in_seq in Hi. pose proof (rank_lt n (get l) i ltac:(lia)) as Hr.
    assert (INR (rank n (get l) i) <= INR n - 1). { change 1 with (INR 1). rewrite <- minus_INR by lia. apply le_INR. lia. }
    unfold top_value. fold cut. destruct (Rle_dec cut _); [|lra]. apply (Rmult_le_reg_l (INR n - 1 - cut)); [lra|]. unfold Rdiv. field_simplify; lra.
Qed.
Lemma updateSize_spec c fits k : (k < length fits)%nat -> INR (length fits) * (1 - fc_top c) < INR (length fits) - 1 ->
  fem_updateSize c fits k = top_value (length fits) (fc_top c) (rank (length fits) (get fits) k) * fc_forget c.
Proof.
  intros Hk Hc. destruct (toplinear_spec (fc_top c) fits ltac:(lia) Hc) as [E1 E2]. unfold fem_updateSize. rewrite E2.
  rewrite get_map by (rewrite E1, tab_length; auto). rewrite E1, get_tab by auto. field.
Qed.
Lemma top_value_bounds n top r : (r < n)%nat -> INR n * (1 - top) < INR n - 1 -> 0 <= top_value n top r <= 1.
Proof.
  intros Hr Hc. unfold top_value. set (cut := INR n * (1 - top)) in *. destruct (Rle_dec cut (INR r)); [|lra].
  assert (INR r <= INR n - 1). { change 1 with (INR 1). rewrite <- minus_INR by lia. apply le_INR. lia. }
  split; [apply Rmult_le_pos; [lra|left; apply Rinv_0_lt_compat; lra]|]. apply (Rmult_le_reg_l (INR n - 1 - cut)); [lra|]. unfold Rdiv. field_simplify; lra.
Qed.

(** ** invariants *)
Record fem_cfg_ok (c : fem_cfg) : Prop := {
  fk_window : (0 < fc_window c)%nat; fk_top : INR (fc_window c) * (1 - fc_top c) < INR (fc_window c) - 1;
  fk_forget : 0 <= fc_forget c < 1; fk_mult : 0 <= fc_muMult c; fk_both : fc_muMult c * fc_forget c <= 1 }.
Record fem_ok (c : fem_cfg) (s : fem) : Prop := {
  fo_mu : length (fe_mu s) = fc_dim c; fo_fits : length (fe_fits s) = fc_window c; fo_best : length (fe_best s) = fc_dim c;
  fo_sym : symmetric (fc_dim c) (entry (fe_sigma s)); fo_pos : posdef (fc_dim c) (entry (fe_sigma s));
  fo_dpos : forall i, (i < fc_dim c)%nat -> 0 < get (fe_dsigma s) i;
  fo_shift : fe_shift s = tab (fc_dim c) (fun _ => 0) }.
Lemma init_fem_ok c f x0 r : length x0 = fc_dim c -> fem_ok c (fem_init c f x0 r).
Proof.
  intro H. constructor; cbn [fem_init fe_mu fe_fits fe_best fe_sigma fe_dsigma fe_shift]; try apply tab_length; auto.
  - intros i j Hi Hj. change (mget (eye (fc_dim c)) i j = mget (eye (fc_dim c)) j i). unfold eye. rewrite !mget_mtab by auto. apply delta_sym.
  - apply posdef_eye.
  - intros i Hi. rewrite get_tab by auto. lra.
Qed.
Lemma shifted_id c s : fem_ok c s -> fem_shifted c s = fe_mu s.
Proof.
  intro H. unfold fem_shifted. destruct (_ && _ && _); auto. rewrite (fo_shift c s H). transitivity (tab (fc_dim c) (get (fe_mu s))); [|apply tab_get; apply (fo_mu c s H)].
  apply tab_ext. intros i Hi. rewrite get_tab by auto. ring.
Qed.
Lemma update_range c fits k : fem_cfg_ok c -> length fits = fc_window c -> (k < fc_window c)%nat -> 0 <= fem_updateSize c fits k <= fc_forget c.
Proof.
  intros [H1 H2 H3 _ _] Hl Hk. rewrite updateSize_spec; rewrite Hl; auto. pose proof (top_value_bounds (fc_window c) (fc_top c) (rank (fc_window c) (get fits) k) (rank_lt _ _ _ Hk) H2). nra.
Qed.
Lemma newsigma_pos c sigma mu u x : 0 <= u < 1 -> symmetric (fc_dim c) (entry sigma) -> posdef (fc_dim c) (entry sigma) ->
  symmetric (fc_dim c) (entry (fem_newsigma c sigma mu u x)) /\ posdef (fc_dim c) (entry (fem_newsigma c sigma mu u x)).
Proof.
  intros Hu Hs Hp. split.
  - intros i j Hi Hj. change (mget (fem_newsigma c sigma mu u x) i j = mget (fem_newsigma c sigma mu u x) j i). unfold fem_newsigma. rewrite !mget_mtab by auto.
    pose proof (Hs i j Hi Hj) as E. change (mget sigma i j = mget sigma j i) in E. rewrite E. ring.
  - intros y Hy. rewrite (quad_ext _ _ (fun i j => (1 - u) * entry sigma i j + u * 1.2 * ((get mu i - get x i) * (get mu j - get x j)))).
    + rewrite quad_plus, !quad_scal, (quad_outer (fc_dim c) (fun i => get mu i - get x i)). specialize (Hp y Hy).
      assert (0 < (1 - u) * quad (fc_dim c) (entry sigma) y) by (apply Rmult_lt_0_compat; lra).
      assert (0 <= u * 1.2 * (sumn (fc_dim c) (fun i => y i * (get mu i - get x i))) ^ 2) by (apply Rmult_le_pos; [lra|apply pow2_ge_0]). lra.
    + intros i j Hi Hj. change (mget (fem_newsigma c sigma mu u x) i j = (1 - u) * mget sigma i j + u * 1.2 * ((get mu i - get x i) * (get mu j - get x j))).
      unfold fem_newsigma. rewrite mget_mtab by auto. ring.
Qed.
Lemma upd_len {A} k (x : A) l : length (upd k x l) = length l.
Proof. apply upd_length. Qed.
Lemma step_fem_ok c f z s : fem_cfg_ok c -> fem_ok c s -> fem_ok c (fem_step c f z s).
Proof.
  intros Hc Hs. pose proof Hs as [H1 H2 H3 H4 H5 H6 H7]. unfold fem_step. rewrite (shifted_id c s Hs).
  set (x := fem_sample c s z). set (fit := f (fe_n s) x). set (bet := better_eq (fc_minimize c) fit (fe_bestE s)).
  assert (Lx : length x = fc_dim c) by apply tab_length.
  assert (Lb : length (if bet then x else fe_best s) = fc_dim c) by (destruct bet; auto).
  set (fits := upd (fe_count s mod fc_window c) (if fc_minimize c then - fit else fit) (fe_fits s)). assert (Lf : length fits = fc_window c) by (unfold fits; rewrite upd_len; auto).
  destruct (Nat.ltb (S (fe_count s)) (fc_window c)); [constructor; auto|].
  destruct (Rlt_dec 0 _) as [Hu|]; [|constructor; auto].
  set (u := fem_updateSize c fits (fe_count s mod fc_window c)) in *.
  assert (Hur : 0 <= u <= fc_forget c) by (apply update_range; auto; apply Nat.mod_upper_bound; pose proof (fk_window c Hc); lia).
  assert (Hu1 : 0 <= u < 1) by (pose proof (fk_forget c Hc); lra).
  constructor; cbn [fe_mu fe_fits fe_best fe_sigma fe_dsigma fe_shift]; auto.
  - destruct (fc_elitism c); [auto|apply tab_length].
  - apply newsigma_pos; auto.
  - apply newsigma_pos; auto.
  - intros i Hi. unfold fem_newdsigma. rewrite get_tab by auto. specialize (H6 i Hi).
    match goal with |- context [get ?m i - get x i] => set (d := get m i - get x i) end.
    assert (0 <= u * (d * d)) by (apply Rmult_le_pos; [lra|apply Rle_0_sqr]). assert (0 < get (fe_dsigma s) i * (1 - u)) by (apply Rmult_lt_0_compat; lra). lra.
  - unfold fem_newshift. destruct (_ && _); auto. apply tab_ext. intros i Hi. rewrite H7, get_tab by auto. ring.
Qed.
Lemma run_fem_ok c f zs : fem_cfg_ok c -> forall s, fem_ok c s -> fem_ok c (fem_run c f zs s).
Proof. intro Hc. unfold fem_run. induction zs as [|z zs IH]; intros s Hs; cbn [fold_left]; auto. apply IH. apply step_fem_ok; auto. Qed.

(** ** the anticipated mean shift is never felt *)
Definition without_shift (c : fem_cfg) : fem_cfg :=
  {| fc_dim := fc_dim c; fc_diagonal := fc_diagonal c; fc_forget := fc_forget c; fc_muMult := fc_muMult c; fc_window := fc_window c; fc_top := fc_top c;
     fc_elitism := fc_elitism c; fc_shift := false; fc_mutative := fc_mutative c; fc_minimize := fc_minimize c |}.
Lemma ok_without c s : fem_ok c s -> fem_ok (without_shift c) s.
Proof. intros [? ? ? ? ? ? ?]. constructor; auto. Qed.
Lemma shift_irrelevant c f z s : fem_cfg_ok c -> fem_ok c s -> fem_step c f z s = fem_step (without_shift c) f z s.
Proof.
  intros Hc Hs. pose proof (shifted_id c s Hs) as E1. pose proof (shifted_id (without_shift c) s (ok_without c s Hs)) as E2.
  assert (Es : fem_sample c s z = fem_sample (without_shift c) s z) by (unfold fem_sample; rewrite E1, E2; reflexivity).
  assert (Esh : forall count mu u x, fem_newshift c count (fe_shift s) mu u x = fem_newshift (without_shift c) count (fe_shift s) mu u x).
  { intros. unfold fem_newshift at 2. cbn [without_shift fc_shift andb]. unfold fem_newshift. destruct (_ && _); auto. rewrite (fo_shift c s Hs).
    apply tab_ext. intros i Hi. rewrite get_tab by auto. ring. }
  unfold fem_step. rewrite E1, E2, Es, Esh. reflexivity.
Qed.
Lemma shift_irrelevant_run c f zs : fem_cfg_ok c -> forall s, fem_ok c s -> fem_run c f zs s = fem_run (without_shift c) f zs s.
Proof.
  intro Hc. unfold fem_run. induction zs as [|z zs IH]; intros s Hs; cbn [fold_left]; auto. rewrite <- shift_irrelevant by auto. apply IH. apply step_fem_ok; auto.
Qed.

(** ** boxes *)
Definition in_box (n : nat) (lo hi : nat -> R) (x : list R) : Prop := forall i, (i < n)%nat -> lo i <= at_ x i <= hi i.
(** the points sampled during a run *)
Fixpoint fem_samples (c : fem_cfg) (f : evaluator) (zs : list vec) (s : fem) : list vec :=
  match zs with [] => [] | z :: zs' => fem_sample c s z :: fem_samples c f zs' (fem_step c f z s) end.
Lemma step_box c f z s lo hi : fem_cfg_ok c -> fem_ok c s -> in_box (fc_dim c) lo hi (fe_mu s) -> in_box (fc_dim c) lo hi (fe_best s) ->
  in_box (fc_dim c) lo hi (fem_sample c s z) -> in_box (fc_dim c) lo hi (fe_mu (fem_step c f z s)) /\ in_box (fc_dim c) lo hi (fe_best (fem_step c f z s)).
Proof.
  intros Hc Hs Hm Hb Hx. unfold fem_step. rewrite (shifted_id c s Hs). set (x := fem_sample c s z) in *. set (fit := f (fe_n s) x). set (bet := better_eq (fc_minimize c) fit (fe_bestE s)).
  assert (Hbb : in_box (fc_dim c) lo hi (if bet then x else fe_best s)) by (destruct bet; auto).
  set (fits := upd (fe_count s mod fc_window c) (if fc_minimize c then - fit else fit) (fe_fits s)). assert (Lf : length fits = fc_window c) by (unfold fits; rewrite upd_len; apply (fo_fits c s Hs)).
  destruct (Nat.ltb (S (fe_count s)) (fc_window c)); [cbn [fe_mu fe_best]; auto|].
  destruct (Rlt_dec 0 _) as [Hu|]; [|cbn [fe_mu fe_best]; auto]. cbn [fe_mu fe_best]. split; auto.
  set (u := fem_updateSize c fits (fe_count s mod fc_window c)) in *.
  assert (Hur : 0 <= u <= fc_forget c) by (apply update_range; auto; apply Nat.mod_upper_bound; pose proof (fk_window c Hc); lia).
  destruct (fc_elitism c); auto. intros i Hi. change (lo i <= get (fem_newmu c (fe_mu s) u x) i <= hi i). unfold fem_newmu. rewrite get_tab by auto. specialize (Hm i Hi). specialize (Hx i Hi). unfold at_ in Hm, Hx.
  change (nth i (fe_mu s) 0) with (get (fe_mu s) i) in Hm. change (nth i x 0) with (get x i) in Hx.
  assert (Ht : 0 <= fc_muMult c * u <= 1). { pose proof (fk_mult c Hc). pose proof (fk_both c Hc). split; [nra|]. nra. }
  set (t := fc_muMult c * u) in *. nra.
Qed.
Lemma run_box c f zs lo hi : fem_cfg_ok c -> forall s, fem_ok c s -> in_box (fc_dim c) lo hi (fe_mu s) -> in_box (fc_dim c) lo hi (fe_best s) ->
  Forall (in_box (fc_dim c) lo hi) (fem_samples c f zs s) -> in_box (fc_dim c) lo hi (fe_mu (fem_run c f zs s)).
Proof.
  intro Hc. unfold fem_run. induction zs as [|z zs IH]; intros s Hs Hm Hb Hx; cbn [fold_left fem_samples] in *; auto. apply Forall_cons_iff in Hx. destruct Hx as [Hx Hxs].
  destruct (step_box c f z s lo hi Hc Hs Hm Hb Hx) as [E1 E2]. apply IH; auto. apply step_fem_ok; auto.
Qed.

(** ** what the fitness values are used for *)
Definition worth (c : fem_cfg) (f : evaluator) (h : nat * vec) : R := if fc_minimize c then - f (fst h) (snd h) else f (fst h) (snd h).
Record fem_rel (c : fem_cfg) (f g : evaluator) (s t : fem) : Prop := {
  fr_mu : fe_mu s = fe_mu t; fr_sigma : fe_sigma s = fe_sigma t; fr_dsigma : fe_dsigma s = fe_dsigma t; fr_shift : fe_shift s = fe_shift t;
  fr_count : fe_count s = fe_count t; fr_best : fe_best s = fe_best t; fr_n : fe_n s = fe_n t;
  fr_lf : length (fe_fits s) = fc_window c; fr_lg : length (fe_fits t) = fc_window c;
  fr_bestE : exists h, fe_bestE s = f (fst h) (snd h) /\ fe_bestE t = g (fst h) (snd h);
  fr_fits : exists h, forall j, (j < fc_window c)%nat -> (j < fe_count s)%nat -> get (fe_fits s) j = worth c f (h j) /\ get (fe_fits t) j = worth c g (h j) }.
Lemma get_upd_same k x l : (k < length l)%nat -> get (upd k x l) k = x.
Proof. intro H. unfold get. apply nth_error_nth. apply nth_error_upd_eq. auto. Qed.
Lemma get_upd_other k j x l : j <> k -> get (upd k x l) j = get l j.
Proof.
  intro H. unfold get. rewrite !nth_default_eq || idtac. destruct (nth_error l j) as [y|] eqn:E.
  - rewrite (nth_error_nth l j 0 E). apply nth_error_nth. rewrite nth_error_upd_neq; auto.
  - rewrite !nth_overflow; auto; [apply nth_error_None; auto|rewrite upd_length; apply nth_error_None; auto].
Qed.
Lemma worth_order c f g h h' : same_order f g -> (worth c f h < worth c f h' <-> worth c g h < worth c g h').
Proof.
  intro H. unfold worth. destruct (fc_minimize c); [|apply H]. pose proof (H (fst h') (snd h') (fst h) (snd h)) as E.
  set (A := f (fst h') (snd h')) in *. set (B := f (fst h) (snd h)) in *. set (A' := g (fst h') (snd h')) in *. set (B' := g (fst h) (snd h)) in *.
  split; intro; enough (A < B <-> A' < B'); try tauto; try lra.
Qed.
Lemma better_order mn f g i x j y : same_order f g -> better_eq mn (f i x) (f j y) = better_eq mn (g i x) (g j y).
Proof.
  intro H. pose proof (H i x j y) as E1. pose proof (H j y i x) as E2. unfold better_eq.
  destruct mn; destruct (Rle_dec _ _) as [A|A]; destruct (Rle_dec _ _) as [B|B]; auto; exfalso.
  - apply Rnot_le_lt in B. apply E2 in B. lra.
  - apply Rnot_le_lt in A. apply E2 in A. lra.
  - apply Rnot_le_lt in B. apply E1 in B. lra.
  - apply Rnot_le_lt in A. apply E1 in A. lra.
Qed.
Lemma mod_small_or k n : (0 < n)%nat -> (S k < n)%nat -> (k mod n = k)%nat.
Proof. intros. apply Nat.mod_small. lia. Qed.
Lemma rel_step c f g z s t : fem_cfg_ok c -> same_order f g -> fem_rel c f g s t -> fem_rel c f g (fem_step c f z s) (fem_step c g z t).
Proof.
  intros Hc Ho [R1 R2 R3 R4 R5 R6 R7 L1 L2 (hb & B1 & B2) (h & Hh)]. unfold fem_step.
  assert (Esh : fem_shifted c t = fem_shifted c s) by (unfold fem_shifted; rewrite R1, R4, R5; auto).
  assert (Esa : fem_sample c t z = fem_sample c s z) by (unfold fem_sample; rewrite Esh, R3; auto).
  rewrite Esh, Esa, <- R2, <- R3, <- R4, <- R5, <- R6, <- R7. set (x := fem_sample c s z). set (mu := fem_shifted c s).
  set (k := (fe_count s mod fc_window c)%nat).
  assert (Hk : (k < fc_window c)%nat) by (apply Nat.mod_upper_bound; pose proof (fk_window c Hc); lia).
  rewrite B1, B2, <- (better_order (fc_minimize c) f g (fe_n s) x (fst hb) (snd hb) Ho). set (bet := better_eq (fc_minimize c) (f (fe_n s) x) (f (fst hb) (snd hb))).
  set (ff := upd k (if fc_minimize c then - f (fe_n s) x else f (fe_n s) x) (fe_fits s)).
  set (fg := upd k (if fc_minimize c then - g (fe_n s) x else g (fe_n s) x) (fe_fits t)).
  set (h' := fun j => if Nat.eqb j k then (fe_n s, x) else h j).
  assert (Hf : forall j, (j < fc_window c)%nat -> (j < S (fe_count s))%nat -> get ff j = worth c f (h' j) /\ get fg j = worth c g (h' j)).
  { intros j Hj Hjc. unfold h', ff, fg. destruct (Nat.eqb_spec j k) as [->|Hne].
    - rewrite !get_upd_same by lia. split; reflexivity.
    - rewrite !get_upd_other by auto. apply Hh; auto. destruct (Nat.eq_dec j (fe_count s)) as [E|]; [|lia].
      exfalso. apply Hne. unfold k. rewrite <- E. rewrite Nat.mod_small; auto. }
  assert (Hbe : exists hh, (if bet then f (fe_n s) x else f (fst hb) (snd hb)) = f (fst hh) (snd hh) /\ (if bet then g (fe_n s) x else g (fst hb) (snd hb)) = g (fst hh) (snd hh)).
  { exists (if bet then (fe_n s, x) else hb). destruct bet; auto. }
  assert (Lf : length ff = fc_window c) by (unfold ff; rewrite upd_len; auto). assert (Lg : length fg = fc_window c) by (unfold fg; rewrite upd_len; auto).
  destruct (Nat.ltb_spec (S (fe_count s)) (fc_window c)) as [Hlt|Hge].
  { constructor; cbn [fe_mu fe_sigma fe_dsigma fe_shift fe_count fe_best fe_n fe_fits fe_bestE]; eauto. }
  assert (Eu : fem_updateSize c fg k = fem_updateSize c ff k).
  { rewrite !updateSize_spec; rewrite ?Lf, ?Lg; auto; try apply (fk_top c Hc). f_equal. f_equal. apply rank_same; auto. intros a b Ha Hb.
    destruct (Hf a Ha ltac:(lia)) as [-> ->], (Hf b Hb ltac:(lia)) as [-> ->]. apply iff_sym, worth_order. auto. }
  rewrite Eu. set (u := fem_updateSize c ff k).
  destruct (Rlt_dec 0 u); constructor; cbn [fe_mu fe_sigma fe_dsigma fe_shift fe_count fe_best fe_n fe_fits fe_bestE]; eauto.
Qed.
Lemma rel_run c f g zs : fem_cfg_ok c -> same_order f g -> forall s t, fem_rel c f g s t -> fem_rel c f g (fem_run c f zs s) (fem_run c g zs t).
Proof. intros Hc Ho. unfold fem_run. induction zs as [|z zs IH]; intros s t H; cbn [fold_left]; auto. apply IH. apply rel_step; auto. Qed.
Lemma rel_init c f g x0 r : fem_rel c f g (fem_init c f x0 r) (fem_init c g x0 r).
Proof.
  constructor; cbn [fem_init fe_mu fe_sigma fe_dsigma fe_shift fe_count fe_best fe_n fe_fits fe_bestE]; auto; try apply tab_length.
  - exists (O, x0). auto.
  - exists (fun _ => (O, x0)). intros j _ Hj. lia.
Qed.

(** ** minimising is maximising the opposite *)
Definition with_minimize (c : fem_cfg) (b : bool) : fem_cfg :=
  {| fc_dim := fc_dim c; fc_diagonal := fc_diagonal c; fc_forget := fc_forget c; fc_muMult := fc_muMult c; fc_window := fc_window c; fc_top := fc_top c;
     fc_elitism := fc_elitism c; fc_shift := fc_shift c; fc_mutative := fc_mutative c; fc_minimize := b |}.
Definition negE (s : fem) : fem :=
  {| fe_mu := fe_mu s; fe_sigma := fe_sigma s; fe_dsigma := fe_dsigma s; fe_shift := fe_shift s; fe_fits := fe_fits s; fe_count := fe_count s; fe_best := fe_best s;
     fe_bestE := - fe_bestE s; fe_n := fe_n s |}.
Lemma better_neg a b : better_eq false (- a) (- b) = better_eq true a b.
Proof. unfold better_eq. destruct (Rle_dec (- b) (- a)), (Rle_dec a b); auto; lra. Qed.
Lemma min_step c f z s : fem_step (with_minimize c false) (fun m x => - f m x) z (negE s) = negE (fem_step (with_minimize c true) f z s).
Proof.
  unfold fem_step.
  change (fem_shifted (with_minimize c false) (negE s)) with (fem_shifted (with_minimize c true) s). change (fem_sample (with_minimize c false) (negE s) z) with (fem_sample (with_minimize c true) s z).
  cbn [negE with_minimize fc_minimize fe_n fe_bestE fe_count fe_fits fe_best fe_sigma fe_dsigma fe_shift fc_window fc_elitism fc_mutative]. rewrite better_neg.
  set (x := fem_sample (with_minimize c true) s z). set (bet := better_eq true (f (fe_n s) x) (fe_bestE s)).
  assert (Eb : (if bet then - f (fe_n s) x else - fe_bestE s) = - (if bet then f (fe_n s) x else fe_bestE s)) by (destruct bet; auto). rewrite Eb.
  destruct (Nat.ltb _ _); [reflexivity|].
  change (fem_updateSize (with_minimize c false)) with (fem_updateSize (with_minimize c true)). destruct (Rlt_dec 0 _); reflexivity.
Qed.
Lemma min_run c f zs : forall s, fem_run (with_minimize c false) (fun m x => - f m x) zs (negE s) = negE (fem_run (with_minimize c true) f zs s).
Proof. unfold fem_run. induction zs as [|z zs IH]; intro s; cbn [fold_left]; auto. rewrite min_step. apply IH. Qed.

(** ** the starting point plays no part *)
Record fem_same (s t : fem) : Prop := {
  fs_mu : fe_mu s = fe_mu t; fs_sigma : fe_sigma s = fe_sigma t; fs_dsigma : fe_dsigma s = fe_dsigma t; fs_shift : fe_shift s = fe_shift t;
  fs_count : fe_count s = fe_count t; fs_n : fe_n s = fe_n t; fs_fits : fe_fits s = fe_fits t }.
Lemma same_step c f z s t : fc_elitism c = false -> fem_same s t -> fem_same (fem_step c f z s) (fem_step c f z t).
Proof.
  intros He [R1 R2 R3 R4 R5 R6 R7]. unfold fem_step.
  assert (Esh : fem_shifted c t = fem_shifted c s) by (unfold fem_shifted; rewrite R1, R4, R5; auto).
  assert (Esa : fem_sample c t z = fem_sample c s z) by (unfold fem_sample; rewrite Esh, R3; auto).
  rewrite Esh, Esa, <- R2, <- R3, <- R4, <- R5, <- R6, <- R7, He. destruct (Nat.ltb _ _); [constructor; auto|]. destruct (Rlt_dec 0 _); constructor; auto.
Qed.
Lemma same_run c f zs : fc_elitism c = false -> forall s t, fem_same s t -> fem_same (fem_run c f zs s) (fem_run c f zs t).
Proof. intro He. unfold fem_run. induction zs as [|z zs IH]; intros s t H; cbn [fold_left]; auto. apply IH. apply same_step; auto. Qed.
