(** Lemmas for C67: regression, the learning step, examples. *)
From Coq Require Import Reals Lra Permutation.
From Verif Require Import Base Functions_Model Functions_Proofs FiniteDiff_Proofs PolicyGrad_Model PolicyGrad_Spec PolicyGrad_Proofs PolicyGrad_Proofs2 PolicyGrad_Proofs3 PolicyGrad_Proofs4.
Local Open Scope R_scope.

Lemma least_squares_eq k P M u y : pseudo_inverse k P M -> cols k M -> length u = length M -> length y = k ->
  let z := mat_vec M (rsub y (mat_vec P u)) in sq_dist (mat_vec M y) u = sq_dist (mat_vec M (mat_vec P u)) u + rdot z z.
Proof.
  intros (LP & P1 & P2) C Hu Hy. cbv zeta. set (x := mat_vec P u). assert (Lx : length x = k) by (unfold x; rewrite mat_vec_length; auto). set (w := rsub y x). assert (Lw : length w = k) by (apply rsub_len; auto).
  assert (O : rdot (rsub (mat_vec M x) u) (mat_vec M w) = 0).
  { rewrite (rdot_sub_l _ _ _ (length M)) by (rewrite ?mat_vec_length; auto). unfold x at 1. rewrite P2 by (rewrite ?mat_vec_length; auto). rewrite P1 by auto. ring. }
  unfold sq_dist. assert (E : rsub (mat_vec M y) u = radd (rsub (mat_vec M x) u) (mat_vec M w)).
  { unfold w. rewrite (mat_vec_sub k) by auto. apply split_sub; rewrite !mat_vec_length; auto. }
  assert (LR : length (rsub (mat_vec M x) u) = length M) by (apply rsub_len; rewrite ?mat_vec_length; auto).
  rewrite E. set (r := rsub (mat_vec M x) u) in *. set (z := mat_vec M w) in *. assert (Lz : length z = length M) by (apply mat_vec_length).
  assert (LS : length (radd r z) = length M) by (apply rzip_length; auto). rewrite (rdot_add_r r z (radd r z) (length M)) by auto. rewrite (rdot_comm (radd r z) r), (rdot_comm (radd r z) z).
  rewrite (rdot_add_r r z r (length M)), (rdot_add_r r z z (length M)) by auto. rewrite (rdot_comm z r), O. ring.
Qed.
Lemma rdot_zero z : rdot z z = 0 -> Forall (fun x => x = 0) z.
Proof. rewrite <- rsum_vsq. apply Sgg_zero. Qed.
Lemma sub_zero (a b : rvec) : length a = length b -> Forall (fun x => x = 0) (rsub a b) -> a = b.
Proof.
  revert b. unfold rsub. induction a as [|x a IH]; intros [|y b] L H; try discriminate; [reflexivity |]. cbn [rzip] in H. apply Forall_cons_iff in H as [H1 H]. f_equal; [lra | apply IH; [now injection L | auto]].
Qed.
Lemma least_squares_unique k P M u y : pseudo_inverse k P M -> cols k M -> length u = length M -> length y = k -> injective k M ->
  sq_dist (mat_vec M y) u <= sq_dist (mat_vec M (mat_vec P u)) u -> y = mat_vec P u.
Proof.
  intros PI C Hu Hy I H. rewrite (least_squares_eq k P M u y) in H by auto. cbv zeta in H. set (z := mat_vec M (rsub y (mat_vec P u))) in *. pose proof (rdot_pos z) as Pz. assert (Z : rdot z z = 0) by lra.
  assert (Lx : length (mat_vec P u) = k) by (rewrite mat_vec_length; apply PI). apply I; auto. apply sub_zero; [rewrite !mat_vec_length; reflexivity |]. rewrite <- (mat_vec_sub k) by auto. apply rdot_zero, Z.
Qed.
Lemma rdot_app a b c d : length a = length c -> rdot (a ++ b) (c ++ d) = rdot a c + rdot b d.
Proof. revert c. unfold rdot. induction a as [|x a IH]; intros [|y c] L; try discriminate; [cbn [app rzip]; cbn; ring |]. cbn [app]. rewrite !rzip_cons, !rsum_cons, IH by (now injection L). ring. Qed.
Lemma sq_dist_cons x a y b : sq_dist (x :: a) (y :: b) = (x - y) ^ 2 + sq_dist a b.
Proof. unfold sq_dist, rsub, rdot. rewrite !rzip_cons, rsum_cons. ring. Qed.
Lemma regression_dist k L rt w c : cols k L -> length L = length rt -> length w = k -> regression_error L rt w c = sq_dist (mat_vec (enac_X L) (w ++ [c])) rt.
Proof.
  intros C. revert rt. induction C as [|r L Hr C IH]; intros [|u rt] E Hw; try discriminate; [reflexivity |].
  change (mat_vec (enac_X (r :: L)) (w ++ [c])) with (rdot (r ++ [1]) (w ++ [c]) :: mat_vec (enac_X L) (w ++ [c])). rewrite sq_dist_cons, <- IH by (auto; now injection E).
  unfold regression_error. cbn [combine map fst snd]. rewrite rsum_cons. f_equal. rewrite rdot_app by congruence. replace (rdot [1] [c]) with c by (unfold rdot; cbn; ring). reflexivity.
Qed.
Lemma enac_X_cols k L : cols k L -> cols (k + 1) (enac_X L).
Proof. intros C. unfold enac_X, cols. apply Forall_map. eapply Forall_impl; [| exact C]. intros r H. rewrite app_length, H. reflexivity. Qed.
Lemma enac_split pinv k L rt : length (pinv (enac_X L)) = (k + 1)%nat -> exists c, mat_vec (pinv (enac_X L)) rt = enac pinv L rt ++ [c] /\ length (enac pinv L rt) = k.
Proof.
  intros Lp. set (b := mat_vec (pinv (enac_X L)) rt). assert (Lb : length b = (k + 1)%nat) by (unfold b; rewrite mat_vec_length; auto). assert (NE : b <> []) by (destruct b; [cbn in Lb; lia | discriminate]).
  exists (last b 0). unfold enac. fold b. rewrite <- (app_removelast_last 0 NE). split; [reflexivity |]. pose proof (app_removelast_last 0 NE) as E. apply (f_equal (@length _)) in E. rewrite app_length in E. cbn in E. lia.
Qed.

(** ** the step *)
Lemma learn_step k l idx rw g : calculateGradient k l idx rw = Ok (map Some g) -> g <> [] -> length g = length (gdvalues l) ->
  exists l' c, pg_learn k l idx rw = Ok (Some l') /\ 0 < c <= 1 /\ gdvalues l' = radd (gdvalues l) (map (fun x => alpha l * (c * x)) g) /\
  Forall (fun x => c * x <= 1000) g /\ (Exists (fun x => 1000 < x) g -> Exists (fun x => c * x = 1000) g) /\ (Forall (fun x => x <= 1000) g -> c = 1) /\
  theta l' ++ sigma l' = gdvalues l' /\ (length (theta l) <= length (gdvalues l) -> length (theta l') = length (theta l))%nat /\ dmod l' = dmod l /\ dexp l' = dexp l /\ loglh l' = loglh l /\ alpha l' = alpha l.
Proof.
  intros E NE LG. unfold pg_learn. rewrite E. cbn [rbind]. rewrite map_length, LG, Nat.eqb_refl. cbn [negb]. destruct g as [|x t]; [congruence |]. clear NE. unfold scale_down. rewrite max_some. set (m := rmax_fold t x).
  destruct (rmax_ge t x) as [G1 G2]. fold m in G1, G2. pose proof (rmax_in t x) as G3. fold m in G3. assert (GE : Forall (fun y => y <= m) (x :: t)) by (constructor; auto).
  assert (FN : forall g', length g' = length (gdvalues l) -> (length (theta l) <= length (gdvalues l) -> length (firstn (length (theta l)) (radd (gdvalues l) (map (fun x => (alpha l * x)%R) g'))) = length (theta l))%nat).
  { intros g' Lg' H. rewrite firstn_length. unfold radd. rewrite (rzip_length _ _ _ (length (gdvalues l))) by (rewrite ?map_length; auto). lia. }
  destruct (Rlt_dec 1000 m) as [B | B].
  - replace (map (option_map (fun y => y / m * 1000)) (map Some (x :: t))) with (map Some (map (fun y => y / m * 1000) (x :: t))) by (rewrite !map_map; reflexivity). rewrite all_some_map.
    eexists. exists (1000 / m). split; [reflexivity |]. cbn [gdvalues theta sigma dmod dexp loglh alpha].
    assert (Q : 0 < / m) by (apply Rinv_0_lt_compat; lra). assert (MM : m * / m = 1) by (apply Rinv_r; lra).
    split; [unfold Rdiv; split; [lra |]; apply (Rmult_le_reg_l m); [lra |]; nra |].
    split; [f_equal; rewrite map_map; apply map_ext; intros; field; lra |].
    split; [eapply Forall_impl; [| exact GE]; intros y Hy; cbn beta; unfold Rdiv; nra |].
    split; [intros _; apply Exists_exists; exists m; split; [exact G3 | unfold Rdiv; nra] |].
    split; [intros F; rewrite Forall_forall in F; specialize (F m G3); lra |].
    split; [apply firstn_skipn |]. split; [apply FN; rewrite map_length; auto | auto].
  - rewrite all_some_map. eexists. exists 1. split; [reflexivity |]. cbn [gdvalues theta sigma dmod dexp loglh alpha].
    split; [lra |]. split; [f_equal; apply map_ext; intros; f_equal; ring |].
    split; [eapply Forall_impl; [| exact GE]; intros y Hy; cbn beta; lra |].
    split; [intros F; apply Exists_exists in F as (y & Hy & L); rewrite Forall_forall in GE; specialize (GE y Hy); lra |].
    split; [auto |]. split; [apply firstn_skipn |]. split; [apply FN; auto | auto].
Qed.
Lemma column_len k L : length (column k L) = length L.
Proof. apply map_length. Qed.
Lemma option_all (l : list (option R)) : Forall (fun o => o <> None) l -> exists g, l = map Some g.
Proof. induction 1 as [|[x|] l H HF [g ->]]; [exists []; reflexivity | exists (x :: g); reflexivity | congruence]. Qed.
Lemma nan_step l idx rw k : calculateGradient Reinforce l idx rw = Ok (reinforce (length (gdvalues l)) (sequence_sums (length (gdvalues l)) idx (loglh l)) (sequence_returns idx rw)) -> idx <> [] ->
  (k < length (gdvalues l))%nat -> Forall (fun x => x = 0) (column k (sequence_sums (length (gdvalues l)) idx (loglh l))) -> pg_learn Reinforce l idx rw = Ok None.
Proof.
  intros E NI Hk Z. unfold pg_learn. rewrite E. cbn [rbind]. set (dim := length (gdvalues l)) in *. set (L := sequence_sums dim idx (loglh l)) in *. set (rt := sequence_returns idx rw) in *.
  assert (LL : length L = length rt) by (unfold L, rt, sequence_sums, sequence_returns; rewrite !map_length; reflexivity).
  assert (LP : (0 < length rt)%nat) by (unfold rt, sequence_returns; rewrite map_length, seq_length; destruct idx; [congruence | cbn; lia]).
  unfold reinforce at 1. rewrite map_length, seq_length, Nat.eqb_refl. cbn [negb].
  assert (N : nth_error (reinforce dim L rt) k = Some None).
  { unfold reinforce. rewrite nth_error_map. rewrite (nth_error_nth' _ 0%nat) by (rewrite seq_length; auto). rewrite seq_nth by auto. cbn [option_map Nat.add]. f_equal. destruct (reinforce1_form (column k L) rt) as [A _]; [rewrite column_len; auto | auto |]. apply A. apply Sgg_zero. exact Z. }
  assert (N2 : nth_error (scale_down (reinforce dim L rt)) k = Some None).
  { unfold scale_down. destruct (max_opt (reinforce dim L rt)); [| exact N]. destruct (Rlt_dec 1000 r); [| exact N]. rewrite nth_error_map, N. reflexivity. }
  rewrite (all_some_none _ _ N2). reflexivity.
Qed.

(** gdvalues stay what is in the network *)
Definition synced (l : pg) : Prop := gdvalues l = theta l ++ sigma l.
Lemma explore_synced F VJP l o z : synced l -> synced (fst (explore F VJP l o z)) /\ length (theta (fst (explore F VJP l o z))) = length (theta l).
Proof. intros S. unfold explore, normal_backward. cbn. auto. Qed.
Lemma learn_synced k l idx rw l' : synced l -> pg_learn k l idx rw = Ok (Some l') -> synced l' /\ length (theta l') = length (theta l) /\ length (gdvalues l') = length (gdvalues l).
Proof.
  intros S. unfold pg_learn. destruct (calculateGradient k l idx rw) as [g|e]; cbn [rbind]; [| discriminate]. destruct (Nat.eqb_spec (length g) (length (gdvalues l))) as [LG | _]; cbn [negb]; [| discriminate].
  destruct (all_some (scale_down g)) as [g'|] eqn:A; [| discriminate]. intros H. injection H as <-. unfold synced in *. cbn [gdvalues theta sigma].
  assert (LA : forall l v, all_some l = Some v -> length v = length l).
  { induction l0 as [|[x|] t IH]; intros v; cbn; [intros [= <-]; reflexivity | destruct (all_some t) as [w|]; cbn; [intros [= <-]; cbn; rewrite (IH w); auto | discriminate] | discriminate]. }
  assert (Lg : length g' = length (gdvalues l)).
  { rewrite (LA _ _ A). unfold scale_down. destruct (max_opt g); [destruct (Rlt_dec 1000 r); rewrite ?map_length; auto | auto]. }
  assert (LV : length (radd (gdvalues l) (map (fun x => alpha l * x) g')) = length (gdvalues l)) by (apply rzip_length; rewrite ?map_length; auto).
  rewrite firstn_skipn, firstn_length, LV. split; [reflexivity |]. split; [rewrite S, app_length; lia | reflexivity].
Qed.
Lemma learn_times_synced k n l idx rw l' : synced l -> learn_times k n l idx rw = Ok (Some l') -> synced l' /\ length (theta l') = length (theta l) /\ length (gdvalues l') = length (gdvalues l).
Proof.
  revert l. induction n as [|n IH]; intros l S; cbn [learn_times]; [intros [= <-]; auto |]. destruct (pg_learn k l idx rw) as [[l1|]|] eqn:E; cbn [rbind]; try discriminate. intros H.
  destruct (learn_synced k l idx rw l1 S E) as (A & B & C). destruct (IH l1 A H) as (A' & B' & C'). repeat split; congruence.
Qed.
Lemma run_synced F VJP k cs : forall x x', synced (lrn x) -> agent_run F VJP k x cs = Ok (Some x') -> synced (lrn x') /\ length (theta (lrn x')) = length (theta (lrn x)) /\ length (gdvalues (lrn x')) = length (gdvalues (lrn x)).
Proof.
  induction cs as [|c cs IH]; intros x x' S; cbn [agent_run]; [intros [= <-]; auto |].
  destruct (agent_step F VJP k x c) as [[y|]|] eqn:E; cbn [rbind]; try discriminate. intros H.
  assert (Q : synced (lrn y) /\ length (theta (lrn y)) = length (theta (lrn x)) /\ length (gdvalues (lrn y)) = length (gdvalues (lrn x))).
  { clear IH H. destruct c; cbn [agent_step] in E.
    - injection E as <-. auto.
    - unfold act in E. destruct (lastobs x) as [o|]; cbn [rbind] in E; [| discriminate]. destruct (lastaction x); cbn [rbind] in E; [discriminate |]. destruct (lastreward x); cbn [rbind] in E; [discriminate |].
      destruct (learning x).
      + pose proof (explore_synced F VJP (lrn x) o noise S) as [A B]. assert (C : gdvalues (fst (explore F VJP (lrn x) o noise)) = gdvalues (lrn x)) by reflexivity. destruct (explore F VJP (lrn x) o noise) as [l a]. cbn [fst] in *. injection E as <-. cbn [lrn]. rewrite C. auto.
      + injection E as <-. auto.
    - unfold reward in E. destruct (lastobs x), (lastaction x), (lastreward x); cbn [rbind] in E; try discriminate. injection E as <-. auto.
    - unfold newEpisode in E. destruct (logging x); [destruct (length (rewards x) =? 0)%nat; [| destruct (last (seqidx x) 0 =? length (rewards x))%nat] |]; cbn [rbind] in E; try discriminate; injection E as <-; auto.
    - injection E as <-. unfold agent_reset. cbn [lrn]. destruct (learning x); auto.
    - destruct (learning x); [| injection E as <-; auto]. destruct (learn_times k episodes (lrn x) (seqidx x) (rewards x)) as [[l1|]|] eqn:EL; cbn [rbind option_map] in E; try discriminate. injection E as <-. cbn [lrn]. eapply learn_times_synced; eauto.
    - injection E as <-. auto.
    - injection E as <-. auto. }
  destruct Q as (A & B & C). destruct (IH y x' A H) as (A' & B' & C'). repeat split; congruence.
Qed.

(** ** the one-weight controller *)
Lemma expln_0 : expln 0 = 1.
Proof. unfold expln. destruct (Rlt_dec 0 0); [lra |]. rewrite Rplus_0_l, ln_1. ring. Qed.
Lemma explnPrime_0 : explnPrime 0 = 1.
Proof. unfold explnPrime. destruct (Rlt_dec 0 0); [lra | field]. Qed.
Lemma expln_2 : expln (exp 1 - 1) = 2.
Proof. unfold expln. pose proof (exp_increasing 0 1 ltac:(lra)) as H. rewrite exp_0 in H. destruct (Rlt_dec (exp 1 - 1) 0) as [B | _]; [exfalso; lra |]. replace (exp 1 - 1 + 1) with (exp 1) by ring. rewrite ln_exp. ring. Qed.
Lemma one_weight_ok t o : backward_ok one_weight one_weight_vjp 1 [t] o.
Proof.
  split; [reflexivity |]. intros e He. destruct e as [|e0 [|? ?]]; try discriminate. split; [reflexivity |]. intros [|k] Hk; cbn in Hk; [| lia]. unfold partial. cbn [one_weight_vjp nth].
  apply (dlim_near (fun t => (e0 * nth 0 o 0) * t) _ _ _ 1); [lra | intros; unfold rdot, one_weight; cbn; ring |]. eapply dlim_eq; [apply (derivable_pt_lim_scal id); apply derivable_pt_lim_id | ring].
Qed.
