(** C35: rank-based fitness. *)
From Coq Require Import QArith Qround Lqa.
From Verif Require Import Base StableSort Ranking_Model.
Local Open Scope nat_scope.

Lemma pair_leb_total a b : pair_leb a b = true \/ pair_leb b a = true.
Proof.
  unfold pair_leb. destruct (Z.ltb_spec (fst a) (fst b)); [auto|]. destruct (Z.ltb_spec (fst b) (fst a)); [auto|].
  replace (fst a) with (fst b) by lia. rewrite Z.eqb_refl. cbn. destruct (Nat.leb_spec (snd a) (snd b)); [auto|]. right. apply Nat.leb_le. lia.
Qed.
Lemma pair_leb_iff a b : pair_leb a b = true <-> (fst a < fst b)%Z \/ fst a = fst b /\ snd a <= snd b.
Proof. unfold pair_leb. rewrite orb_true_iff, andb_true_iff, Z.ltb_lt, Z.eqb_eq, Nat.leb_le. tauto. Qed.
Lemma pair_leb_trans a b c : pair_leb a b = true -> pair_leb b c = true -> pair_leb a c = true.
Proof. rewrite !pair_leb_iff. lia. Qed.

Definition order (R : list Z) : list (Z * nat) := isort pair_leb (combine R (seq 0 (length R))).
Lemma order_perm R : Permutation (order R) (combine R (seq 0 (length R))).
Proof. apply isort_perm. Qed.
Lemma order_length R : length (order R) = length R.
Proof. rewrite (Permutation_length (order_perm R)), combine_length, seq_length. lia. Qed.
Lemma map_snd_combine {X Y} (l : list X) : forall r : list Y, length l = length r -> map snd (combine l r) = r.
Proof. induction l as [|a l IH]; intros [|b r] H; cbn in *; try discriminate; auto. f_equal. apply IH. lia. Qed.
Lemma order_snd R : Permutation (map snd (order R)) (seq 0 (length R)).
Proof. rewrite (Permutation_map snd (order_perm R)), map_snd_combine; auto. rewrite seq_length. auto. Qed.
Lemma order_In R v i : In (v, i) (order R) <-> nth_error R i = Some v.
Proof.
  assert (E : In (v, i) (order R) <-> In (v, i) (combine R (seq 0 (length R)))).
  { split; apply Permutation_in; [|symmetry]; apply order_perm. }
  rewrite E. clear E. enough (G : forall a, In (v, a + i) (combine R (seq a (length R))) <-> nth_error R i = Some v) by apply (G 0).
  revert i. induction R as [|x R IH]; intros i a; cbn [combine length seq]; [destruct i; cbn; split; [intros []|discriminate|intros []|discriminate]|].
  destruct i as [|i]; cbn [nth_error In].
  - split.
    + intros [H|H]; [injection H; intros; congruence|]. apply in_combine_r in H. apply in_seq in H. lia.
    + intros H. injection H as ->. left. f_equal. lia.
  - rewrite <- (IH i (S a)). replace (S a + i) with (a + S i) by lia. split; [|auto].
    intros [H|H]; auto. injection H. lia.
Qed.

(** writing positions *)
Lemma write_other l : forall a res j, ~ In j (map snd l) -> nth_error (fold_left (fun res (p : nat * (Z * nat)) => upd (snd (snd p)) (fst p) res) (combine (seq a (length l)) l) res) j = nth_error res j.
Proof.
  induction l as [|[v k] l IH]; intros a res j Hj; cbn [length seq combine fold_left]; auto.
  cbn in Hj. rewrite IH by tauto. apply nth_error_upd_neq. cbn. tauto.
Qed.
Lemma write_length l : forall a res, length (fold_left (fun res (p : nat * (Z * nat)) => upd (snd (snd p)) (fst p) res) (combine (seq a (length l)) l) res) = length res.
Proof. induction l as [|[v k] l IH]; intros a res; cbn [length seq combine fold_left]; auto. rewrite IH, upd_length. auto. Qed.
Lemma write_at l : forall a res i v j, NoDup (map snd l) -> nth_error l i = Some (v, j) -> j < length res ->
  nth_error (fold_left (fun res (p : nat * (Z * nat)) => upd (snd (snd p)) (fst p) res) (combine (seq a (length l)) l) res) j = Some (a + i).
Proof.
  induction l as [|[w k] l IH]; intros a res i v j Hn Hi Hj; [destruct i; discriminate|].
  cbn [length seq combine fold_left map snd fst] in *. inversion Hn; subst. destruct i as [|i]; cbn in Hi.
  - injection Hi as -> ->. rewrite write_other by auto. rewrite nth_error_upd_eq by auto. f_equal. lia.
  - rewrite (IH (S a) _ i v j); auto; [f_equal; lia|rewrite upd_length; auto].
Qed.

Lemma ranked_length R : length (rankedFitness R) = length R.
Proof. unfold rankedFitness. rewrite write_length. apply repeat_length. Qed.
(** the rank of j is its position in the sorted order *)
Lemma ranked_pos R i v j : nth_error (order R) i = Some (v, j) -> nth_error (rankedFitness R) j = Some i.
Proof.
  intro H. unfold rankedFitness. fold (order R). apply (write_at (order R) 0 _ i v j); auto.
  - eapply Permutation_NoDup; [symmetry; apply order_snd|apply seq_NoDup].
  - rewrite repeat_length. apply nth_error_In in H. apply order_In in H. apply nth_error_Some. congruence.
Qed.
Lemma ranked_inv R j r : nth_error (rankedFitness R) j = Some r -> exists v, nth_error (order R) r = Some (v, j) /\ nth_error R j = Some v.
Proof.
  intro H. assert (Hj : j < length R) by (rewrite <- ranked_length; apply nth_error_Some; congruence).
  destruct (nth_error R j) as [v|] eqn:Ev; [|apply nth_error_None in Ev; lia].
  assert (Hin := proj2 (order_In R v j) Ev). apply In_nth_error in Hin. destruct Hin as (i & Hi).
  rewrite (ranked_pos R i v j Hi) in H. injection H as ->. eauto.
Qed.
Lemma order_sorted R : StronglySorted (fun a b => pair_leb a b = true) (order R).
Proof. apply (isort_sorted pair_leb pair_leb_total pair_leb_trans). Qed.
Lemma sorted_nth {X} (le : X -> X -> Prop) l : StronglySorted le l -> forall i j x y, i < j -> nth_error l i = Some x -> nth_error l j = Some y -> le x y.
Proof.
  induction l as [|a l IH]; intros Hs i j x y Hij Hi Hj; [destruct i; discriminate|].
  inversion Hs; subst. destruct j as [|j]; [lia|]. cbn in Hj. destruct i as [|i]; cbn in Hi.
  - injection Hi as ->. rewrite Forall_forall in H2. apply H2. eapply nth_error_In; eauto.
  - apply (IH H1 i j x y); auto. lia.
Qed.
(** ranks compare as (fitness, index) pairs do *)
Lemma ranked_order R i j vi vj ri rj : nth_error R i = Some vi -> nth_error R j = Some vj ->
  nth_error (rankedFitness R) i = Some ri -> nth_error (rankedFitness R) j = Some rj ->
  (ri < rj <-> (vi < vj)%Z \/ vi = vj /\ i < j).
Proof.
  intros Ei Ej Eri Erj. destruct (ranked_inv _ _ _ Eri) as (v1 & P1 & Q1), (ranked_inv _ _ _ Erj) as (v2 & P2 & Q2).
  assert (v1 = vi) as -> by congruence. assert (v2 = vj) as -> by congruence.
  assert (G : forall a b va vb ra rb, nth_error (order R) ra = Some (va, a) -> nth_error (order R) rb = Some (vb, b) -> ra < rb -> (va < vb)%Z \/ va = vb /\ a < b).
  { intros a b va vb ra rb Ha Hb Hlt. pose proof (sorted_nth _ _ (order_sorted R) _ _ _ _ Hlt Ha Hb) as H. apply pair_leb_iff in H. cbn in H.
    destruct H as [H|[H1 H2]]; [auto|]. right. split; auto. destruct (Nat.eq_dec a b) as [->|]; [|lia]. exfalso.
    assert (N : NoDup (map snd (order R))) by (eapply Permutation_NoDup; [symmetry; apply order_snd|apply seq_NoDup]).
    rewrite NoDup_nth_error in N. specialize (N ra rb). rewrite map_length, !nth_error_map, Ha, Hb in N. cbn in N.
    assert (ra = rb); [|lia]. apply N; auto. apply nth_error_Some. congruence. }
  split; [apply (G i j vi vj ri rj P1 P2)|].
  intro H. destruct (Nat.lt_trichotomy ri rj) as [|[->|Hgt]]; auto; exfalso.
  - assert (vi = vj /\ i = j) by (split; congruence). lia.
  - pose proof (G j i vj vi rj ri P2 P1 Hgt). lia.
Qed.
Lemma ranked_perm R : Permutation (rankedFitness R) (seq 0 (length R)).
Proof.
  apply NoDup_Permutation_bis.
  - apply NoDup_nth_error. intros i j Hi E. rewrite ranked_length in Hi.
    destruct (nth_error (rankedFitness R) i) as [r|] eqn:Ei; [|apply nth_error_None in Ei; rewrite ranked_length in Ei; lia].
    symmetry in E. destruct (ranked_inv _ _ _ Ei) as (v & P & _), (ranked_inv _ _ _ E) as (w & P' & _). congruence.
  - rewrite seq_length, ranked_length. auto.
  - intros r Hr. apply In_nth_error in Hr. destruct Hr as (j & Hj). destruct (ranked_inv _ _ _ Hj) as (v & P & _).
    apply in_seq. split; [lia|]. cbn. rewrite <- (order_length R). apply nth_error_Some. congruence.
Qed.

(** ** maxima of rationals *)
Lemma qmax_spec l : l <> [] -> In (qmax l) l /\ forall x, In x l -> (x <= qmax l)%Q.
Proof.
  destruct l as [|a l]; [contradiction|]. intros _. unfold qmax.
  assert (G : forall l m, (In (fold_left (fun m x => if Qle_bool m x then x else m) l m) (m :: l)) /\
     (m <= fold_left (fun m x => if Qle_bool m x then x else m) l m)%Q /\ forall x, In x l -> (x <= fold_left (fun m x => if Qle_bool m x then x else m) l m)%Q).
  { clear. induction l as [|b l IH]; intro m; cbn [fold_left]; [split; [left; auto|split; [apply Qle_refl|intros x []]]|].
    destruct (Qle_bool m b) eqn:E.
    - apply Qle_bool_iff in E. destruct (IH b) as (H1 & H2 & H3). split; [right; auto|]. split; [eapply Qle_trans; eauto|].
      intros x [->|Hx]; auto.
    - assert (Hlt : (b <= m)%Q). { destruct (Qlt_le_dec b m); [apply Qlt_le_weak; auto|]. apply Qle_bool_iff in q. congruence. }
      destruct (IH m) as (H1 & H2 & H3). split; [destruct H1 as [H1|H1]; [left|right; right]; auto|]. split; auto.
      intros x [->|Hx]; auto. eapply Qle_trans; eauto. }
  destruct (G l a) as (H1 & H2 & H3). split; auto. intros x [->|Hx]; auto.
Qed.
(** qmax depends on the values only up to order *)
Lemma qmax_eq l m : (In m l) -> (forall x, In x l -> (x <= m)%Q) -> (qmax l == m)%Q.
Proof.
  intros Hin Hm. destruct (qmax_spec l) as [H1 H2]; [intros ->; destruct Hin|]. apply Qle_antisym; auto.
Qed.
Lemma nq_le a b : (nq a <= nq b)%Q <-> a <= b.
Proof. unfold nq. rewrite <- Zle_Qle. lia. Qed.
Lemma nq_pos a : (0 <= nq a)%Q.
Proof. change 0%Q with (nq 0). apply nq_le. lia. Qed.

(** ** TopSelection *)
Lemma cutoff_iff n p r : 0 < n -> r < n -> (0 <= p)%Q -> (p <= 1)%Q ->
  (cutoff n p <= nq r)%Q <-> n - Z.to_nat (Qfloor (nq n * p)) <= r.
Proof.
  intros Hn Hr Hp0 Hp1. unfold cutoff. set (f := Qfloor (nq n * p)).
  assert (Hf0 : (0 <= f)%Z).
  { unfold f. change 0%Z with (Qfloor 0). apply Qfloor_resp_le. apply Qmult_le_0_compat; auto. apply nq_pos. }
  assert (H1 := Qfloor_le (nq n * p)). assert (H2 := Qlt_floor (nq n * p)). fold f in H1, H2.
  assert (E : (nq n * (1 - p) == nq n - nq n * p)%Q) by ring.
  rewrite E. split; intro H.
  - assert (Hq : (nq n - nq r < inject_Z (f + 1))%Q) by lra.
    unfold nq in Hq. unfold Qminus in Hq. rewrite <- inject_Z_opp, <- inject_Z_plus, <- Zlt_Qlt in Hq. lia.
  - assert (Hq : (nq n - nq r <= inject_Z f)%Q); [|lra].
    unfold nq. unfold Qminus. rewrite <- inject_Z_opp, <- inject_Z_plus, <- Zle_Qle. lia.
Qed.
Definition count {X} (f : X -> bool) (l : list X) : nat := length (filter f l).
Lemma count_perm {X} (f : X -> bool) l m : Permutation l m -> count f l = count f m.
Proof. induction 1; unfold count in *; cbn; auto; [destruct (f x); cbn; auto|destruct (f x), (f y); cbn; auto|congruence]. Qed.
Lemma count_seq k n a : count (fun r => a + k <=? r) (seq a n) = n - k.
Proof.
  revert k a. unfold count. induction n as [|n IH]; intros k a; cbn [seq filter]; auto.
  destruct (Nat.leb_spec (a + k) a) as [H|H].
  - assert (k = 0) by lia. subst k. cbn [length]. specialize (IH 0 (S a)).
    assert (Ee : filter (fun r => a + 0 <=? r) (seq (S a) n) = filter (fun r => S a + 0 <=? r) (seq (S a) n)).
    { apply filter_ext_in. intros x Hx. apply in_seq in Hx. destruct (Nat.leb_spec (a + 0) x), (Nat.leb_spec (S a + 0) x); auto; lia. }
    rewrite Ee, IH. lia.
  - destruct k as [|k]; [lia|]. replace (a + S k) with (S a + k) by lia. rewrite IH. lia.
Qed.
Lemma count_map {X Y} (g : X -> Y) (f : Y -> bool) l : count f (map g l) = count (fun x => f (g x)) l.
Proof. unfold count. induction l as [|a l IH]; cbn; auto. destruct (f (g a)); cbn; auto. Qed.
Lemma count_ext {X} (f g : X -> bool) l : (forall x, In x l -> f x = g x) -> count f l = count g l.
Proof. intro H. unfold count. f_equal. apply filter_ext_in. auto. Qed.

(** ** TournamentSelection *)
Lemma argmax_from_bound l : forall best bv start, best < start -> argmax_from best bv start l < start + length l.
Proof.
  unfold argmax_from. induction l as [|a l IH]; intros best bv start H; cbn [fold_left fst length]; [lia|].
  destruct (bv <? a)%Z.
  - specialize (IH start a (S start)). lia.
  - specialize (IH best bv (S start)). lia.
Qed.
Lemma argmax_bound l : l <> [] -> argmax l < length l.
Proof. destruct l as [|a l]; [contradiction|]. intros _. cbn [argmax]. pose proof (argmax_from_bound l 0 a 1). cbn [length]. lia. Qed.
