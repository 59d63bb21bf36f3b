(** Property C86 (multi-objective benchmarks and Lennard-Jones clusters): the clusters. *)
From Verif Require Import Base Moo_Model Moo_Spec Moo_Props.
From Coq Require Import Reals Lra Psatz.
Local Open Scope R_scope.

Lemma sum_app l l' : sumR (l ++ l') = sumR l + sumR l'.
Proof. induction l as [| x l IH]; cbn [app sumR fold_right]; [unfold sumR; ring |]. unfold sumR in *. rewrite IH. ring. Qed.
Lemma sum_flat {A} (f : A -> list R) l : sumR (flat_map f l) = sumR (map (fun a => sumR (f a)) l).
Proof. induction l as [| x l IH]; [reflexivity |]. cbn [flat_map map]. rewrite sum_app, IH. reflexivity. Qed.
Lemma sum_plus {A} (f g : A -> R) l : sumR (map (fun a => f a + g a) l) = sumR (map f l) + sumR (map g l).
Proof. induction l as [| x l IH]; cbn [map sumR fold_right]; [ring |]. unfold sumR in *. rewrite IH. ring. Qed.
Lemma sum_scale {A} (f : A -> R) k l : sumR (map (fun a => k * f a) l) = k * sumR (map f l).
Proof. induction l as [| x l IH]; cbn [map sumR fold_right]; [ring |]. unfold sumR in *. rewrite IH. ring. Qed.
Lemma entry_same i p : entry (i, p) (i, p) = 0.
Proof.
  destruct p as [[a b] c]. unfold entry, distance. rewrite Nat.eqb_refl. replace (sumR [(a - a) ^ 2; (b - b) ^ 2; (c - c) ^ 2]) with 0 by (unfold sumR; cbn [fold_right]; ring).
  rewrite sqrt_0. replace (0 + 1) with 1 by ring. rewrite !pow1. ring.
Qed.
Lemma entry_pair i j p q : i <> j -> 4 * entry (i, p) (j, q) = pair_energy p q.
Proof.
  intros N. destruct p as [[a b] c], q as [[a' b'] c']. unfold entry, pair_energy, distance, apart. apply Nat.eqb_neq in N. rewrite N.
  replace (sumR [(a' - a) ^ 2; (b' - b) ^ 2; (c' - c) ^ 2]) with ((a - a') ^ 2 + (b - b') ^ 2 + (c - c') ^ 2) by (unfold sumR; cbn [fold_right]; ring). now rewrite Rplus_0_r.
Qed.
Lemma pair_sym p q : pair_energy p q = pair_energy q p.
Proof.
  destruct p as [[a b] c], q as [[a' b'] c']. unfold pair_energy, apart. replace ((a' - a) ^ 2 + (b' - b) ^ 2 + (c' - c) ^ 2) with ((a - a') ^ 2 + (b - b') ^ 2 + (c - c') ^ 2) by ring. reflexivity.
Qed.
Lemma matrix_cons x l : matrix_sum (x :: l) = entry x x + sumR (map (entry x) l) + sumR (map (fun y => entry y x) l) + matrix_sum l.
Proof.
  unfold matrix_sum. cbn [flat_map]. rewrite sum_app, !sum_flat. cbn [map]. change (sumR (entry x x :: map (entry x) l)) with (entry x x + sumR (map (entry x) l)).
  replace (map (fun a => sumR (entry a x :: map (entry a) l)) l) with (map (fun a => entry a x + sumR (map (entry a) l)) l) by reflexivity. rewrite sum_plus. ring.
Qed.
Lemma matrix_energy l : NoDup (map fst l) -> 2 * matrix_sum l = energy (map snd l).
Proof.
  induction l as [| [i p] l IH]; intros N; [unfold matrix_sum; cbn; ring |]. cbn [map fst snd] in *. inversion N as [| ? ? Ni N']; subst. rewrite matrix_cons, entry_same.
  cbn [energy]. rewrite <- (IH N').
  assert (E1 : 4 * sumR (map (entry (i, p)) l) = sumR (map (pair_energy p) (map snd l))).
  { rewrite map_map, <- sum_scale. f_equal. apply map_ext_in. intros [j q] Hq. cbn [snd]. apply entry_pair. intros ->. apply Ni. apply in_map_iff. exists (j, q). auto. }
  assert (E2 : 4 * sumR (map (fun y => entry y (i, p)) l) = sumR (map (pair_energy p) (map snd l))).
  { rewrite map_map, <- sum_scale. f_equal. apply map_ext_in. intros [j q] Hq. cbn [snd]. rewrite (pair_sym p q). apply entry_pair. intros ->. apply Ni. apply in_map_iff. exists (i, q). auto. }
  lra.
Qed.
Lemma triples_flat l : triples (length l) (flat l) = l.
Proof. induction l as [| [[a b] c] l IH]; [reflexivity |]. cbn [length flat triples]. now rewrite IH. Qed.
Lemma flat_length l : length (flat l) = (length l * 3)%nat.
Proof. induction l as [| [[a b] c] l IH]; [reflexivity |]. cbn [length flat]. rewrite IH. lia. Qed.
Lemma enum_snd {A} (l : list A) k : map snd (combine (seq k (length l)) l) = l.
Proof. revert k. induction l as [| x l IH]; intros k; [reflexivity |]. cbn [length seq combine map snd]. now rewrite IH. Qed.
Lemma enum_fst {A} (l : list A) k : map fst (combine (seq k (length l)) l) = seq k (length l).
Proof. revert k. induction l as [| x l IH]; intros k; [reflexivity |]. cbn [length seq combine map fst]. now rewrite IH. Qed.

(** the value is the sum of the energies of all the pairs of atoms, each counted once *)
Theorem C86_lj_energy pts : lj (3 * length pts) (flat pts) = Ok (energy pts).
Proof.
  unfold lj. rewrite (Nat.mul_comm 3), Nat.div_mul by lia. rewrite flat_length, Nat.eqb_refl, triples_flat. f_equal. rewrite matrix_energy; [now rewrite enum_snd |].
  rewrite enum_fst. apply seq_NoDup.
Qed.
(** a dimension that is not a multiple of three cannot be evaluated *)
Theorem C86_lj_dimension xdim x : length x = xdim -> (Nat.modulo xdim 3 <> 0)%nat -> lj xdim x = Err ValueError.
Proof.
  intros L M. unfold lj. destruct (Nat.eqb_spec (length x) (xdim / 3 * 3)) as [E |]; [| reflexivity]. exfalso. apply M. rewrite L in E. rewrite E. apply Nat.mod_mul. lia.
Qed.
(** it does not change when the cluster is moved or the atoms are renumbered *)
Theorem C86_lj_moved v pts : energy (map (moved v) pts) = energy pts.
Proof.
  induction pts as [| p pts IH]; [reflexivity |]. cbn [map energy]. rewrite IH, map_map. f_equal. f_equal. apply map_ext. intros q. destruct p as [[a b] c], q as [[a' b'] c'], v as [[x y] z].
  unfold pair_energy, apart, moved. replace ((a + x - (a' + x)) ^ 2 + (b + y - (b' + y)) ^ 2 + (c + z - (c' + z)) ^ 2) with ((a - a') ^ 2 + (b - b') ^ 2 + (c - c') ^ 2) by ring. reflexivity.
Qed.
Lemma sum_perm l l' : Permutation l l' -> sumR l = sumR l'.
Proof. induction 1; cbn [sumR fold_right]; unfold sumR in *; lra. Qed.
Theorem C86_lj_renumbered pts pts' : Permutation pts pts' -> energy pts = energy pts'.
Proof.
  induction 1 as [| p l l' H IH | p q l | l1 l2 l3 _ IH1 _ IH2]; cbn [energy]; [reflexivity | | | congruence].
  - rewrite IH. f_equal. apply sum_perm. now apply Permutation_map.
  - cbn [map sumR fold_right]. rewrite (pair_sym p q). unfold sumR. ring.
Qed.
(** no configuration is below one unit for each pair *)
Lemma pair_bound p q : -1 <= pair_energy p q.
Proof.
  unfold pair_energy. replace (/ apart p q ^ 12) with ((/ apart p q ^ 6) ^ 2); [generalize (/ apart p q ^ 6); intros u; pose proof (pow2_ge_0 (2 * u - 1)); lra |].
  rewrite pow_inv. f_equal. now rewrite <- pow_mult.
Qed.
Theorem C86_lj_bound pts : - (INR (length pts) * (INR (length pts) - 1) / 2) <= energy pts.
Proof.
  induction pts as [| p pts IH]; [cbn [energy length INR]; lra |]. cbn [energy length]. rewrite S_INR.
  assert (B : - INR (length pts) <= sumR (map (pair_energy p) pts)).
  { clear IH. induction pts as [| q pts IH]; [cbn [map sumR fold_right length INR]; lra |]. cbn [map sumR fold_right]. change (length (q :: pts)) with (S (length pts)). rewrite S_INR. unfold sumR in IH. pose proof (pair_bound p q). lra. }
  lra.
Qed.
(** and for two, three and four atoms the table's value is reached, so that the desired value can be met *)
Definition tetrahedron (r : R) : list point := [(r, r, r); (r, - r, - r); (- r, r, - r); (- r, - r, r)].
Lemma side : exists r, (8 * r ^ 2) ^ 3 = 2.
Proof.
  set (c := Rpower 2 (1 / 3)). assert (Pc : 0 < c) by apply exp_pos. assert (C3 : c ^ 3 = 2).
  { rewrite <- Rpower_pow by exact Pc. unfold c. rewrite Rpower_mult. replace (1 / 3 * INR 3) with 1 by (cbn [INR]; field). apply Rpower_1. lra. }
  exists (sqrt (c / 8)). rewrite pow2_sqrt by lra. replace (8 * (c / 8)) with c by field. exact C3.
Qed.
Lemma at_rest p q s : apart p q = sqrt s -> 0 <= s -> s ^ 3 = 2 -> pair_energy p q = -1.
Proof.
  intros D P S. unfold pair_energy. rewrite D. assert (D6 : sqrt s ^ 6 = 2) by (change 6%nat with (2 * 3)%nat; rewrite pow_mult, pow2_sqrt by exact P; exact S).
  assert (D12 : sqrt s ^ 12 = 4) by (change 12%nat with (6 * 2)%nat; rewrite pow_mult, D6; ring). rewrite D6, D12. lra.
Qed.
Theorem C86_lj_table N : (N <= 4)%nat -> exists pts v d, length pts = N /\ known N = Some v /\ desired N = Some d /\ lj (3 * N) (flat pts) = Ok v /\ v < d /\
  forall pts', length pts' = N -> v <= energy pts'.
Proof.
  intros HN. destruct side as [r Hr]. pose proof (pow2_ge_0 r) as Pr. assert (P8 : 0 <= 8 * r ^ 2) by lra.
  assert (A : pair_energy (r, r, r) (r, - r, - r) = -1) by (apply (at_rest _ _ (8 * r ^ 2)); [unfold apart; f_equal; ring | auto | auto]).
  assert (B : pair_energy (r, r, r) (- r, r, - r) = -1) by (apply (at_rest _ _ (8 * r ^ 2)); [unfold apart; f_equal; ring | auto | auto]).
  assert (C : pair_energy (r, r, r) (- r, - r, r) = -1) by (apply (at_rest _ _ (8 * r ^ 2)); [unfold apart; f_equal; ring | auto | auto]).
  assert (D : pair_energy (r, - r, - r) (- r, r, - r) = -1) by (apply (at_rest _ _ (8 * r ^ 2)); [unfold apart; f_equal; ring | auto | auto]).
  assert (E : pair_energy (r, - r, - r) (- r, - r, r) = -1) by (apply (at_rest _ _ (8 * r ^ 2)); [unfold apart; f_equal; ring | auto | auto]).
  assert (F : pair_energy (- r, r, - r) (- r, - r, r) = -1) by (apply (at_rest _ _ (8 * r ^ 2)); [unfold apart; f_equal; ring | auto | auto]).
  assert (L : length (firstn N (tetrahedron r)) = N) by (rewrite firstn_length; cbn [tetrahedron length]; lia).
  assert (T : exists v d, known N = Some v /\ desired N = Some d /\ energy (firstn N (tetrahedron r)) = v /\ v < d /\ v <= - (INR N * (INR N - 1) / 2)).
  { destruct N as [| [| [| [| [| N]]]]]; [.. | lia]; cbn [firstn tetrahedron energy map sumR fold_right known desired]; rewrite ?A, ?B, ?C, ?D, ?E, ?F;
      (eexists; eexists; split; [reflexivity |]; split; [reflexivity |]; split; [ring |]; cbn [INR]; lra). }
  destruct T as (v & d & K & K2 & En & Lt & Bd). exists (firstn N (tetrahedron r)), v, d. split; [exact L |]. split; [exact K |]. split; [exact K2 |]. split; [| split; [exact Lt |]].
  - rewrite <- L at 1. rewrite C86_lj_energy. now rewrite En.
  - intros pts' L'. pose proof (C86_lj_bound pts') as Q. rewrite L' in Q. lra.
Qed.
Example C86_lj_case : lj 6 [0; 0; 0; 1; 0; 0] = Ok (sumR [4 * (/ 1 ^ 12 - / 1 ^ 6)] + 0).
Proof.
  change (lj 6 [0; 0; 0; 1; 0; 0]) with (lj (3 * length [(0, 0, 0); (1, 0, 0)]) (flat [(0, 0, 0); (1, 0, 0)])). rewrite C86_lj_energy. cbn [energy map]. unfold pair_energy, apart. replace ((0 - 1) ^ 2 + (0 - 0) ^ 2 + (0 - 0) ^ 2) with 1 by ring. rewrite sqrt_1. unfold sumR. cbn [fold_right]. f_equal. ring.
Qed.

Print Assumptions C86_sch_pareto.
Print Assumptions C86_fon_pareto.
Print Assumptions C86_deb_pareto.
Print Assumptions C86_constdeb_pareto.
Print Assumptions C86_bnh_pareto.
Print Assumptions C86_bnh_redundant.
Print Assumptions C86_pol_best.
Print Assumptions C86_feasible.
Print Assumptions C86_tnk_symmetric.
Print Assumptions C86_violation.
Print Assumptions C86_violation_refuted.
Print Assumptions C86_reports.
Print Assumptions C86_class_refuted.
Print Assumptions C86_class_start.
Print Assumptions C86_lj_energy.
Print Assumptions C86_lj_dimension.
Print Assumptions C86_lj_moved.
Print Assumptions C86_lj_renumbered.
Print Assumptions C86_lj_bound.
Print Assumptions C86_lj_table.
Print Assumptions C86_srn_optimal.
