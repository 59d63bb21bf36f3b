(** C35: rank-based fitness. *)
From Coq Require Import Reals Lra QArith Qround Lqa.
From Verif Require Import Base StableSort Ranking_Model Ranking_Proofs.
Local Open Scope nat_scope.

(** Ranks are 0..n-1, each once, and order the indices by (fitness, index). *)
Theorem C35_ranked_fitness : forall R,
  Permutation (rankedFitness R) (seq 0 (length R)) /\
  forall i j vi vj ri rj, nth_error R i = Some vi -> nth_error R j = Some vj ->
    nth_error (rankedFitness R) i = Some ri -> nth_error (rankedFitness R) j = Some rj ->
    (ri < rj <-> (vi < vj)%Z \/ vi = vj /\ i < j).
Proof. intro R. split; [apply ranked_perm|intros; eapply ranked_order; eauto]. Qed.

(** rescaling by the maximum *)
Lemma scaled_in (res : list Q) : (forall x, In x res -> 0 <= x)%Q -> (0 < qmax res)%Q ->
  forall i q, nth_error (map (fun x => ndiv x (qmax res)) res) i = Some q ->
  exists x, nth_error res i = Some x /\ q = Some (x / qmax res)%Q /\ (0 <= x / qmax res)%Q /\ (x / qmax res <= 1)%Q.
Proof.
  intros H0 Hm i q E. rewrite nth_error_map in E. destruct (nth_error res i) as [x|] eqn:Ex; [|discriminate]. cbn in E. injection E as <-.
  assert (Hx : In x res) by (eapply nth_error_In; eauto).
  exists x. split; [auto|split].
  - unfold ndiv. destruct (Qeq_bool (qmax res) 0) eqn:Ez; auto. apply Qeq_bool_iff in Ez. lra.
  - split; [apply Qle_shift_div_l; auto; rewrite Qmult_0_l; auto|apply Qle_shift_div_r; auto; rewrite Qmult_1_l].
    apply qmax_spec; auto. intros ->. destruct Hx.
Qed.
Lemma ranks_max R : R <> [] -> (qmax (map nq (rankedFitness R)) == nq (length R - 1))%Q.
Proof.
  intro H. assert (Hl : 0 < length R) by (destruct R; [contradiction|cbn; lia]). apply qmax_eq.
  - apply in_map. apply (Permutation_in _ (Permutation_sym (ranked_perm R))). apply in_seq. lia.
  - intros x Hx. apply in_map_iff in Hx. destruct Hx as (r & <- & Hr). apply nq_le.
    apply (Permutation_in _ (ranked_perm R)) in Hr. apply in_seq in Hr. lia.
Qed.
(** The default ranking maps into [0,1], preserves the order strictly and gives 1 to the best;
    a single fitness gives nan. *)
Theorem C35_default_ranking : forall R, 2 <= length R -> exists res, ranking_call R = Ok res /\ length res = length R /\
  (forall i q, nth_error res i = Some q -> exists x, q = Some x /\ (0 <= x)%Q /\ (x <= 1)%Q) /\
  (forall i j vi vj x y, nth_error R i = Some vi -> nth_error R j = Some vj -> (vi < vj)%Z ->
     nth_error res i = Some (Some x) -> nth_error res j = Some (Some y) -> (x < y)%Q).
Proof.
  intros R Hl. assert (Hne : R <> []) by (intros ->; cbn in Hl; lia).
  pose proof (ranks_max R Hne) as Hm. pose proof (ranked_length R) as Hlr. set (res := map nq (rankedFitness R)) in *.
  assert (Hpos : (0 < qmax res)%Q).
  { rewrite Hm. unfold nq. change 0%Q with (inject_Z 0). rewrite <- Zlt_Qlt. lia. }
  assert (H0 : forall x, In x res -> (0 <= x)%Q).
  { intros x Hx. apply in_map_iff in Hx. destruct Hx as (r & <- & _). apply nq_pos. }
  exists (map (fun x => ndiv x (qmax res)) res). split; [|split; [|split]].
  - unfold ranking_call. fold res. destruct res eqn:E; auto. apply map_eq_nil in E. rewrite E in Hlr. cbn in Hlr. lia.
  - rewrite map_length. unfold res. rewrite map_length. auto.
  - intros i q E. destruct (scaled_in res H0 Hpos i q E) as (x & _ & -> & H1 & H2). eauto.
  - intros i j vi vj x y Ei Ej Hv Ex Ey.
    destruct (scaled_in res H0 Hpos _ _ Ex) as (x' & Ex' & H1 & _), (scaled_in res H0 Hpos _ _ Ey) as (y' & Ey' & H2 & _).
    injection H1 as ->. injection H2 as ->. unfold res in Ex', Ey'. rewrite nth_error_map in Ex', Ey'.
    destruct (nth_error (rankedFitness R) i) as [ri|] eqn:Eri; [|discriminate]. destruct (nth_error (rankedFitness R) j) as [rj|] eqn:Erj; [|discriminate].
    cbn in Ex', Ey'. injection Ex' as <-. injection Ey' as <-.
    assert (Hlt : ri < rj) by (apply (ranked_order R i j vi vj ri rj Ei Ej Eri Erj); auto).
    apply Qlt_shift_div_l; auto. unfold Qdiv. rewrite <- Qmult_assoc, (Qmult_comm (/ _)), Qmult_inv_r, Qmult_1_r by lra.
    unfold nq. rewrite <- Zlt_Qlt. lia.
Qed.
Theorem C35_default_ranking_single_refuted : forall v, ranking_call [v] = Ok [None].
Proof. intro v. reflexivity. Qed.

(** TopSelection selects floor(n * p) indices, and every selected one is at least as fit as
    every other. *)
Theorem C35_top_selection : forall p R, (0 <= p)%Q -> (p <= 1)%Q ->
  let s := top_selection p R in
  length s = length R /\ (forall x, In x s -> x = 0%Q \/ x = 1%Q) /\
  count (fun x => Qeq_bool x 1) s = Z.to_nat (Qfloor (nq (length R) * p)) /\
  forall i j vi vj x y, nth_error R i = Some vi -> nth_error R j = Some vj -> nth_error s i = Some x -> nth_error s j = Some y ->
    x = 1%Q -> y = 0%Q -> (vj <= vi)%Z.
Proof.
  intros p R Hp0 Hp1. cbv zeta. unfold top_selection. split; [rewrite map_length; apply ranked_length|]. split; [|split].
  - intros x Hx. apply in_map_iff in Hx. destruct Hx as (r & <- & _). destruct (Qle_bool _ _); auto.
  - rewrite count_map. destruct R as [|v R'].
    { reflexivity. }
    set (R := v :: R') in *. set (n := length R). assert (Hn : 0 < n) by (unfold n, R; cbn; lia).
    set (k := Z.to_nat (Qfloor (nq n * p))).
    rewrite (count_ext _ (fun r => 0 + (n - k) <=? r)).
    + rewrite (count_perm _ _ _ (ranked_perm R)). fold n. rewrite count_seq.
      assert (k <= n); [|lia]. unfold k. assert (Qfloor (nq n * p) <= Z.of_nat n)%Z; [|lia].
      rewrite <- (Qfloor_Z (Z.of_nat n)). apply Qfloor_resp_le. fold (nq n). rewrite <- (Qmult_1_r (nq n)) at 2.
      rewrite (Qmult_comm _ p), (Qmult_comm _ 1). apply Qmult_le_compat_r; auto. apply nq_pos.
    + intros r Hr. apply (Permutation_in _ (ranked_perm R)) in Hr. apply in_seq in Hr. fold n in Hr.
      pose proof (cutoff_iff n p r Hn ltac:(lia) Hp0 Hp1) as Hc. fold k in Hc.
      destruct (Qle_bool (cutoff n p) (nq r)) eqn:E.
      * apply Qle_bool_iff in E. cbn [plus]. symmetry. change (Qeq_bool 1 1) with true. apply Nat.leb_le. tauto.
      * cbn [plus]. symmetry. change (Qeq_bool 0 1) with false. apply Nat.leb_gt. destruct (Nat.lt_ge_cases r (n - k)) as [|Hge]; auto.
        apply Hc in Hge. apply Qle_bool_iff in Hge. congruence.
  - intros i j vi vj x y Ei Ej Ex Ey Hx Hy. rewrite nth_error_map in Ex, Ey.
    destruct (nth_error (rankedFitness R) i) as [ri|] eqn:Eri; [|discriminate]. destruct (nth_error (rankedFitness R) j) as [rj|] eqn:Erj; [|discriminate].
    cbn in Ex, Ey. injection Ex as <-. injection Ey as <-.
    destruct (Qle_bool _ (nq ri)) eqn:E1; [|discriminate]. destruct (Qle_bool _ (nq rj)) eqn:E2; [discriminate|].
    apply Qle_bool_iff in E1.
    destruct (Z_le_gt_dec vj vi) as [|Hgt]; auto. exfalso.
    assert (Hlt : ri < rj) by (apply (ranked_order R i j vi vj); auto; left; lia).
    assert (Qle_bool (cutoff (length R) p) (nq rj) = true); [|congruence]. apply Qle_bool_iff. eapply Qle_trans; [exact E1|]. apply nq_le. lia.
Qed.

(** TopLinearRanking scales into [0,1] when n * p > 1; otherwise it is nan everywhere. *)
Lemma top_linear_max p R : R <> [] -> (1 <= nq (length R) * p)%Q -> (p <= 1)%Q ->
  (qmax (top_linear_raw p R) == nq (length R) * p - 1)%Q.
Proof.
  intros Hne Hnp Hp1. set (n := length R) in *. assert (Hl : 0 < n) by (unfold n; destruct R; [contradiction|cbn; lia]).
  assert (E1 : (nq (n - 1) == nq n - 1)%Q).
  { unfold nq. rewrite Nat2Z.inj_sub by lia. unfold Z.sub. rewrite inject_Z_plus. reflexivity. }
  assert (Ec : (cutoff n p == nq n - nq n * p)%Q) by (unfold cutoff; ring).
  assert (Hle : Qle_bool (cutoff n p) (nq (n - 1)) = true) by (apply Qle_bool_iff; rewrite Ec, E1; lra).
  transitivity (nq (n - 1) - cutoff n p)%Q; [|rewrite Ec, E1; lra]. apply qmax_eq.
  - unfold top_linear_raw. fold n. apply in_map_iff. exists (n - 1). split; [rewrite Hle; auto|].
    apply (Permutation_in _ (Permutation_sym (ranked_perm R))). apply in_seq. fold n. lia.
  - intros x Hx. unfold top_linear_raw in Hx. fold n in Hx. apply in_map_iff in Hx. destruct Hx as (r & <- & Hr).
    apply (Permutation_in _ (ranked_perm R)) in Hr. apply in_seq in Hr. fold n in Hr.
    assert (nq r <= nq (n - 1))%Q by (apply nq_le; lia). destruct (Qle_bool _ (nq r)); [lra|]. apply Qle_bool_iff in Hle. lra.
Qed.
Theorem C35_top_linear : forall p R, (1 < nq (length R) * p)%Q -> (p <= 1)%Q -> exists res, top_linear p R = Ok res /\ length res = length R /\
  (forall i q, nth_error res i = Some q -> exists x, q = Some x /\ (0 <= x)%Q /\ (x <= 1)%Q) /\
  (forall i j vi vj x y, nth_error R i = Some vi -> nth_error R j = Some vj -> (vi < vj)%Z ->
     nth_error res i = Some (Some x) -> nth_error res j = Some (Some y) -> (x <= y)%Q).
Proof.
  intros p R Hnp Hp1. assert (Hne : R <> []) by (intros ->; change (nq (length [])) with 0%Q in Hnp; rewrite Qmult_0_l in Hnp; lra).
  pose proof (top_linear_max p R Hne ltac:(lra) Hp1) as Hm. set (res := top_linear_raw p R) in *.
  assert (Hlr : length res = length R) by (unfold res, top_linear_raw; rewrite map_length; apply ranked_length).
  assert (Hpos : (0 < qmax res)%Q) by lra.
  assert (H0 : forall x, In x res -> (0 <= x)%Q).
  { intros x Hx. apply in_map_iff in Hx. destruct Hx as (r & <- & _). destruct (Qle_bool _ (nq r)) eqn:E; [|lra]. apply Qle_bool_iff in E. lra. }
  exists (map (fun x => ndiv x (qmax res)) res). split; [|split; [|split]].
  - unfold top_linear. fold res. destruct res eqn:E; auto. cbn in Hlr. destruct R; [contradiction|discriminate].
  - rewrite map_length. auto.
  - intros i q E. destruct (scaled_in res H0 Hpos i q E) as (x & _ & -> & H1 & H2). eauto.
  - intros i j vi vj x y Ei Ej Hv Ex Ey.
    destruct (scaled_in res H0 Hpos _ _ Ex) as (x' & Ex' & H1 & _), (scaled_in res H0 Hpos _ _ Ey) as (y' & Ey' & H2 & _).
    injection H1 as ->. injection H2 as ->. unfold res, top_linear_raw in Ex', Ey'. rewrite nth_error_map in Ex', Ey'.
    destruct (nth_error (rankedFitness R) i) as [ri|] eqn:Eri; [|discriminate]. destruct (nth_error (rankedFitness R) j) as [rj|] eqn:Erj; [|discriminate].
    cbn in Ex', Ey'. injection Ex' as <-. injection Ey' as <-.
    assert (Hlt : ri < rj) by (apply (ranked_order R i j vi vj ri rj Ei Ej Eri Erj); auto). assert (Hq : (nq ri <= nq rj)%Q) by (apply nq_le; lia).
    apply Qmult_le_compat_r; [|apply Qinv_le_0_compat; lra].
    destruct (Qle_bool _ (nq ri)) eqn:E1, (Qle_bool _ (nq rj)) eqn:E2; try lra.
    + apply Qle_bool_iff in E1. assert (Qle_bool (cutoff (length R) p) (nq rj) = true); [apply Qle_bool_iff; lra|congruence].
    + apply Qle_bool_iff in E2. lra.
Qed.
Theorem C35_top_linear_nan_refuted : forall p R, R <> [] -> (nq (length R) * p <= 1)%Q ->
  top_linear p R = Ok (repeat None (length R)).
Proof.
  intros p R Hne Hnp. set (n := length R) in *. assert (Hl : 0 < n) by (unfold n; destruct R; [contradiction|cbn; lia]).
  assert (E1 : (nq (n - 1) == nq n - 1)%Q).
  { unfold nq. rewrite Nat2Z.inj_sub by lia. unfold Z.sub. rewrite inject_Z_plus. reflexivity. }
  assert (Ec : (cutoff n p == nq n - nq n * p)%Q) by (unfold cutoff; ring).
  assert (H0 : forall x, In x (top_linear_raw p R) -> (x == 0)%Q).
  { intros x Hx. unfold top_linear_raw in Hx. fold n in Hx. apply in_map_iff in Hx. destruct Hx as (r & <- & Hr).
    apply (Permutation_in _ (ranked_perm R)) in Hr. apply in_seq in Hr. fold n in Hr.
    assert (nq r <= nq (n - 1))%Q by (apply nq_le; lia). destruct (Qle_bool _ (nq r)) eqn:E; [|reflexivity].
    apply Qle_bool_iff in E. apply Qle_antisym; lra. }
  assert (Hlr : length (top_linear_raw p R) = n) by (unfold top_linear_raw; rewrite map_length; apply ranked_length).
  unfold top_linear. set (res := top_linear_raw p R) in *.
  assert (Hz : Qeq_bool (qmax res) 0 = true).
  { apply Qeq_bool_iff. apply H0. apply qmax_spec. intros E. rewrite E in Hlr. cbn in Hlr. lia. }
  destruct res as [|r res'] eqn:E; [cbn in Hlr; lia|]. f_equal. rewrite <- Hlr. rewrite <- E. unfold ndiv. rewrite E, Hz.
  clear. generalize (r :: res'). induction l; cbn; f_equal; auto.
Qed.

(** BilinearRanking: proportional to the rank below four fifths of the ranks, (1 + factor) times as steep above. *)
Definition transition (floor_div : bool) (n : nat) : Q := if floor_div then inject_Z (Z.of_nat (4 * n / 5)) else (4 # 5) * inject_Z (Z.of_nat n).
Theorem C35_bilinear : forall fd factor R, (0 <= factor)%Q -> 2 <= length R -> exists res m, bilinear fd factor R = Ok res /\ length res = length R /\ (0 < m)%Q /\
  (forall i q, nth_error res i = Some q -> exists x, q = Some x /\ (0 <= x)%Q /\ (x <= 1)%Q) /\
  (exists i x, nth_error res i = Some (Some x) /\ (x == 1)%Q) /\
  (forall i r x, nth_error (rankedFitness R) i = Some r -> nth_error res i = Some (Some x) ->
     ((nq r < transition fd (length R))%Q -> (x * m == nq r)%Q) /\
     ((transition fd (length R) <= nq r)%Q -> (x * m == transition fd (length R) + (1 + factor) * (nq r - transition fd (length R)))%Q)) /\
  (forall i j vi vj x y, nth_error R i = Some vi -> nth_error R j = Some vj -> (vi < vj)%Z ->
     nth_error res i = Some (Some x) -> nth_error res j = Some (Some y) -> (x < y)%Q).
Proof.
  intros fd factor R Hf Hl. assert (Hne : R <> []) by (intros ->; cbn in Hl; lia).
  set (f := fun r => if negb (Qle_bool (transition fd (length R)) (nq r)) then nq r else (nq r + (nq r - transition fd (length R)) * factor)%Q).
  assert (Et : forall r, exists z, nth_error (bilinear_raw fd factor R) r = option_map z (nth_error (rankedFitness R) r) /\ forall a, (z a == f a)%Q).
  { intro r. unfold bilinear_raw. rewrite nth_error_map. rewrite ranked_length. eexists. split; [reflexivity|]. intro a. cbv beta. unfold f.
    assert (T : ((if fd then nq (4 * length R / 5) else nq (4 * length R) / 5) == transition fd (length R))%Q).
    { unfold transition. destruct fd; [reflexivity|]. unfold nq. rewrite Nat2Z.inj_mul, inject_Z_mult. field. }
    assert (B : Qle_bool (if fd then nq (4 * length R / 5) else nq (4 * length R) / 5) (nq a) = Qle_bool (transition fd (length R)) (nq a)).
    { apply eq_true_iff_eq. rewrite !Qle_bool_iff. rewrite T. reflexivity. }
    rewrite B. destruct (negb _); [reflexivity|]. rewrite T. reflexivity. }
  set (res := bilinear_raw fd factor R) in *. pose proof (ranked_length R) as Hlr.
  assert (Hlres : length res = length R) by (unfold res, bilinear_raw; rewrite map_length; auto).
  assert (At : forall i x, nth_error res i = Some x -> exists r, nth_error (rankedFitness R) i = Some r /\ (x == f r)%Q).
  { intros i x E. destruct (Et i) as (z & Ez & Hz). rewrite E in Ez. destruct (nth_error (rankedFitness R) i) as [r|]; [|discriminate]. cbn in Ez. injection Ez as ->. eauto. }
  assert (Fm : forall a b, a < b -> (f a < f b)%Q).
  { intros a b Hab. assert (H : (nq a < nq b)%Q) by (unfold nq; rewrite <- Zlt_Qlt; lia). unfold f. set (t := transition fd (length R)).
    destruct (Qle_bool t (nq a)) eqn:E1, (Qle_bool t (nq b)) eqn:E2; cbn [negb]; auto.
    - assert (0 <= (nq b - nq a) * factor)%Q by (apply Qmult_le_0_compat; lra). lra.
    - apply Qle_bool_iff in E1. assert (Qle_bool t (nq b) = true) by (apply Qle_bool_iff; lra). congruence.
    - apply Qle_bool_iff in E2. assert (0 <= (nq b - t) * factor)%Q by (apply Qmult_le_0_compat; lra). lra. }
  assert (F0 : forall a, (0 <= f a)%Q).
  { intro a. pose proof (nq_pos a). unfold f. set (t := transition fd (length R)). destruct (Qle_bool t (nq a)) eqn:E1; cbn [negb]; auto.
    apply Qle_bool_iff in E1. assert (0 <= (nq a - t) * factor)%Q by (apply Qmult_le_0_compat; lra). lra. }
  assert (H0 : forall x, In x res -> (0 <= x)%Q).
  { intros x Hx. apply In_nth_error in Hx. destruct Hx as [i Hi]. destruct (At i x Hi) as (r & _ & ->). apply F0. }
  assert (Hnn : res <> []) by (intro E; rewrite E in Hlres; cbn in Hlres; lia). destruct (qmax_spec res Hnn) as [Min Mge].
  assert (Hpos : (0 < qmax res)%Q).
  { assert (H1 : In 1 (rankedFitness R)) by (apply (Permutation_in _ (Permutation_sym (ranked_perm R))); apply in_seq; lia). apply In_nth_error in H1. destruct H1 as [i Hi].
    destruct (Et i) as (z & Ez & Hz). rewrite Hi in Ez. cbn in Ez. apply nth_error_In in Ez. specialize (Mge _ Ez). rewrite Hz in Mge. specialize (Fm 0 1 ltac:(lia)). specialize (F0 0). lra. }
  assert (Sc : forall i x, nth_error (map (fun x => ndiv x (qmax res)) res) i = Some (Some x) -> exists y, nth_error res i = Some y /\ x = (y / qmax res)%Q).
  { intros i x E. destruct (scaled_in res H0 Hpos i _ E) as (y & Ey & Eq & _). injection Eq as ->. eauto. }
  exists (map (fun x => ndiv x (qmax res)) res), (qmax res). split; [|split; [|split; [auto|split; [|split; [|split]]]]].
  - unfold bilinear. fold res. destruct res; [destruct Hnn; auto|auto].
  - rewrite map_length. auto.
  - intros i q E. destruct (scaled_in res H0 Hpos i q E) as (x & _ & -> & H1 & H2). eauto.
  - apply In_nth_error in Min. destruct Min as [i Hi]. exists i. rewrite nth_error_map, Hi. cbn. unfold ndiv. destruct (Qeq_bool (qmax res) 0) eqn:Ez; [apply Qeq_bool_iff in Ez; lra|].
    eexists. split; [reflexivity|]. field. lra.
  - intros i r x Er Ex. destruct (Sc i x Ex) as (y & Ey & ->). destruct (At i y Ey) as (r' & Er' & Ev). rewrite Er in Er'. injection Er' as <-.
    assert (E : (y / qmax res * qmax res == f r)%Q) by (rewrite <- Ev; field; lra). unfold f in E. split; intro Hc.
    + destruct (Qle_bool (transition fd (length R)) (nq r)) eqn:Eb; cbn [negb] in E; [apply Qle_bool_iff in Eb; lra|auto].
    + rewrite (proj2 (Qle_bool_iff _ _) Hc) in E. cbn [negb] in E. rewrite E. ring.
  - intros i j vi vj x y Ei Ej Hv Ex Ey. destruct (Sc i x Ex) as (x' & Ex' & ->), (Sc j y Ey) as (y' & Ey' & ->).
    destruct (At i x' Ex') as (ri & Eri & Vx), (At j y' Ey') as (rj & Erj & Vy).
    assert (Hlt : ri < rj) by (apply (ranked_order R i j vi vj ri rj Ei Ej Eri Erj); auto).
    apply Qlt_shift_div_l; auto. assert (Ex2 : (x' / qmax res * qmax res == x')%Q) by (field; lra). rewrite Ex2, Vx, Vy. apply Fm. auto.
Qed.
Example C35_bilinear_case : match bilinear true 10 [5; 1; 3; 2; 9; 7]%Z with Ok l => map (option_map Qred) l | Err _ => [] end =
  [Some (1 # 5); Some 0; Some (2 # 15); Some (1 # 15); Some 1; Some (4 # 15)]%Q.
Proof. vm_compute. reflexivity. Qed.
(** TournamentSelection credits the position inside the tournament: an index beyond the
    tournament size is never selected, however fit it is. *)
Theorem C35_tournament_refuted : forall R opponents k, (forall i, i < length R -> S (length (opponents i)) <= k) ->
  length (tournament R opponents) = length R /\
  forall i, k <= i -> i < length R -> nth i (tournament R opponents) 0 = 0.
Proof.
  intros R opponents k Hk. unfold tournament.
  assert (G : forall l res, (forall i, In i l -> i < length R) ->
    let out := fold_left (fun res i => let fits := map (fun x => nth x R 0%Z) (i :: opponents i) in let w := argmax fits in upd w (S (nth w res 0)) res) l res in
    length out = length res /\ forall i, k <= i -> nth i out 0 = nth i res 0).
  { induction l as [|a l IH]; intros res Hl; cbn [fold_left]; auto. cbv zeta in *.
    destruct (IH (upd (argmax (map (fun x => nth x R 0%Z) (a :: opponents a))) (S (nth (argmax (map (fun x => nth x R 0%Z) (a :: opponents a))) res 0)) res)) as [L N].
    { intros i Hi. apply Hl. right; auto. }
    rewrite L, upd_length. split; auto. intros i Hi. rewrite N by auto.
    assert (Hw : argmax (map (fun x => nth x R 0%Z) (a :: opponents a)) < k).
    { eapply Nat.lt_le_trans; [apply argmax_bound; discriminate|]. rewrite map_length. cbn. apply Hk, Hl. left; auto. }
    set (w := argmax _) in *. assert (Hne : w <> i) by lia.
    pose proof (nth_error_upd_neq w i (S (nth w res 0)) res Hne) as E.
    destruct (nth_error res i) as [x|] eqn:Ex.
    - rewrite (nth_error_nth _ _ _ Ex), (nth_error_nth _ _ _ E). auto.
    - apply nth_error_None in Ex, E. rewrite !nth_overflow by auto. auto. }
  destruct (G (seq 0 (length R)) (repeat 0 (length R))) as [L N].
  { intros i Hi. apply in_seq in Hi. lia. }
  split; [etransitivity; [exact L|apply repeat_length]|]. intros i H1 H2. etransitivity; [exact (N i H1)|apply nth_repeat].
Qed.

(** *** HansenRanking (rankingfunctions.py:95-100), over the reals *)
Definition hansen (n r : nat) : R := Rmax 0 (ln (INR n / 2 + 1) - ln (INR n - INR r)).
Definition hansen_call (F : list Z) : list R := map (hansen (length F)) (rankedFitness F).
(** utilities are non-negative, never decrease with fitness, and are positive exactly for the
    ranks above n/2 - 1 *)
Theorem C35_hansen : forall F i v u, nth_error F i = Some v -> nth_error (hansen_call F) i = Some u ->
  (0 <= u)%R /\
  (exists r, nth_error (rankedFitness F) i = Some r /\ ((0 < u)%R <-> length F < 2 * (r + 1))) /\
  (forall j w t, nth_error F j = Some w -> nth_error (hansen_call F) j = Some t -> (v < w)%Z -> (u <= t)%R).
Proof.
  intros F i v u Ei Eu. unfold hansen_call in *. rewrite nth_error_map in Eu.
  destruct (nth_error (rankedFitness F) i) as [r|] eqn:Er; [|discriminate]. cbn in Eu. injection Eu as <-. set (n := length F).
  assert (Hb : forall k s, nth_error (rankedFitness F) k = Some s -> s < n).
  { intros k s Hk. apply nth_error_In in Hk. apply (Permutation_in _ (ranked_perm F)) in Hk. apply in_seq in Hk. fold n in Hk. lia. }
  pose proof (Hb _ _ Er) as Hr.
  assert (Hpos : forall s, s < n -> (0 < INR n - INR s)%R) by (intros s Hs; apply lt_INR in Hs; Lra.lra).
  assert (Hn0 : (0 < INR n / 2 + 1)%R) by (pose proof (pos_INR n); Lra.lra).
  split; [apply Rmax_l|split].
  - exists r. split; auto. unfold hansen. split.
    + intro H. unfold Rmax in H. destruct (Rle_dec _ _) as [Hle|]; [|Lra.lra].
      assert (Hlt : (INR n - INR r < INR n / 2 + 1)%R) by (apply ln_lt_inv; auto; Lra.lra).
      apply INR_lt. rewrite mult_INR, plus_INR. cbn [INR]. Lra.lra.
    + intro H. apply lt_INR in H. rewrite mult_INR, plus_INR in H. cbn [INR] in H.
      assert (Hlt : (ln (INR n - INR r) < ln (INR n / 2 + 1))%R) by (apply ln_increasing; [auto|Lra.lra]).
      unfold Rmax. destruct (Rle_dec _ _); Lra.lra.
  - intros j w t Ej Et Hv. rewrite nth_error_map in Et. destruct (nth_error (rankedFitness F) j) as [s|] eqn:Es; [|discriminate]. cbn in Et. injection Et as <-.
    assert (Hlt : r < s) by (apply (ranked_order F i j v w r s Ei Ej Er Es); auto). pose proof (Hb _ _ Es) as Hs. apply lt_INR in Hlt.
    unfold hansen. apply Rle_max_compat_l. pose proof (ln_increasing (INR n - INR s) (INR n - INR r) (Hpos s Hs) ltac:(Lra.lra)). Lra.lra.
Qed.

Example C35_example : rankedFitness [5; 1; 5; -2]%Z = [2; 1; 3; 0] /\ top_selection (1 # 2) [5; 1; 5; -2]%Z = [1; 0; 1; 0]%Q /\
  ranking_call [7; 9]%Z = Ok [Some (0 / 1)%Q; Some (1 / 1)%Q] /\
  top_linear (1 # 4) [5; 1; 5; -2]%Z = Ok [None; None; None; None] /\
  (forall draw, length draw = 1 -> nth 3 (tournament [0; 0; 0; 9]%Z (fun _ => draw)) 0 = 0) /\
  tournament [0; 1; 0; 9]%Z (fun i => match i with 3 => [0] | _ => [3] end) = [1; 3; 0; 0].
Proof.
  split; [vm_compute; auto|]. split; [vm_compute; auto|]. split; [vm_compute; auto|]. split; [vm_compute; auto|]. split; [|vm_compute; auto].
  intros draw Hd. apply (C35_tournament_refuted [0; 0; 0; 9]%Z (fun _ => draw) 2); [intros; rewrite Hd; auto|lia|cbn; lia].
Qed.
Print Assumptions C35_ranked_fitness.
Print Assumptions C35_default_ranking.
Print Assumptions C35_top_selection.
Print Assumptions C35_top_linear.
Print Assumptions C35_top_linear_nan_refuted.
Print Assumptions C35_tournament_refuted.
Print Assumptions C35_hansen.
