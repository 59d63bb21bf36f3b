(** Property C86 (multi-objective benchmarks and Lennard-Jones clusters): Pareto sets and constraints. *)
From Verif Require Import Base Moo_Model Moo_Spec.
From Coq Require Import Reals Lra Psatz.
Local Open Scope R_scope.

(** ** Pareto sets *)
Lemma dom2 a b c d : dominates (negv [a; b]) (negv [c; d]) <-> a <= c /\ b <= d /\ (a < c \/ b < d).
Proof.
  unfold dominates, negv. cbn [map]. split.
  - intros [F N]. inversion F as [| ? ? ? ? H1 F1]; subst. inversion F1 as [| ? ? ? ? H2 F2]; subst. split; [lra |]. split; [lra |].
    destruct (Rlt_dec a c); [auto |]. destruct (Rlt_dec b d); [auto |]. exfalso. apply N. assert (a = c) by lra. assert (b = d) by lra. now subst.
  - intros (H1 & H2 & H3). split; [constructor; [lra |]; constructor; [lra |]; constructor |]. intros [= K1 K2]. apply Ropp_eq_compat in K1, K2. rewrite !Ropp_involutive in K1, K2. lra.
Qed.
Lemma inside2 a b c d x : inside [(a, b); (c, d)] x <-> a <= fst x <= b /\ c <= snd x <= d.
Proof.
  unfold inside. split.
  - intros F. inversion F as [| ? ? ? ? H1 F1]; subst. inversion F1 as [| ? ? ? ? H2 F2]; subst. auto.
  - intros [H1 H2]. constructor; [exact H1 |]. constructor; [exact H2 |]. constructor.
Qed.
Theorem C86_sch_pareto x : pareto (fun _ => True) sch x <-> 0 <= x <= 2.
Proof.
  unfold pareto, sch. split.
  - intros [_ H]. split.
    + destruct (Rle_dec 0 x); [auto |]. exfalso. apply (H 0 I). apply dom2. split; [nra |]. split; [nra |]. left. nra.
    + destruct (Rle_dec x 2); [auto |]. exfalso. apply (H 2 I). apply dom2. split; [nra |]. split; [nra |]. left. nra.
  - intros Hx. split; [auto |]. intros y _ K. apply dom2 in K. destruct K as (K1 & K2 & K3). assert (y <= x) by nra. assert (x <= y) by nra. assert (y = x) by lra. subst. lra.
Qed.
(** Fonseca and Fleming, in any number of dimensions: the segment between the two centres *)
Lemma fon_terms (a : R) l : sumR (map (fun v => (v - a) ^ 2) l) = sumR (map (fun v => v ^ 2) l) - 2 * a * sumR l + INR (length l) * a ^ 2.
Proof. induction l as [| x l IH]; [cbn; ring |]. cbn [map length sumR fold_right]. rewrite S_INR. unfold sumR in IH. rewrite IH. unfold sumR. ring. Qed.
Lemma sq_nonneg (a : R) l : 0 <= sumR (map (fun v => (v - a) ^ 2) l).
Proof. induction l as [| x l IH]; cbn [map sumR fold_right]; [lra |]. unfold sumR in IH. pose proof (pow2_ge_0 (x - a)). lra. Qed.
Lemma sq_zero (a : R) l : sumR (map (fun v => (v - a) ^ 2) l) = 0 -> l = repeat a (length l).
Proof.
  induction l as [| x l IH]; cbn [map sumR fold_right length repeat]; [auto |]. pose proof (sq_nonneg a l) as P. unfold sumR in *. pose proof (pow2_ge_0 (x - a)) as Q. intros H.
  f_equal; [| apply IH; lra]. assert ((x - a) ^ 2 = 0) by lra. nra.
Qed.
Lemma mean_split (a : R) l : l <> [] -> let m := sumR l / INR (length l) in
  sumR (map (fun v => (v - a) ^ 2) l) = INR (length l) * (m - a) ^ 2 + sumR (map (fun v => (v - m) ^ 2) l).
Proof.
  intros N m. rewrite !fon_terms. assert (P : INR (length l) <> 0) by (apply not_0_INR; destruct l; cbn; congruence). unfold m. field. exact P.
Qed.
Lemma fon_const (a t : R) n : sumR (map (fun v => (v - a) ^ 2) (repeat t n)) = INR n * (t - a) ^ 2.
Proof. induction n as [| n IH]; [cbn; ring |]. cbn [repeat map sumR fold_right]. unfold sumR in IH. rewrite IH, S_INR. ring. Qed.
Lemma exp_le a b : exp a <= exp b <-> a <= b.
Proof. split; intros H; [destruct (Rle_dec a b); [auto |]; assert (K : exp b < exp a) by (apply exp_increasing; lra); lra |]. destruct (Req_dec a b) as [-> | N]; [lra |]. left. apply exp_increasing. lra. Qed.
Lemma exp_lt a b : exp a < exp b <-> a < b.
Proof. split; [apply exp_lt_inv | apply exp_increasing]. Qed.
Lemma plus_minus (a : R) l : map (fun v => (v + a) ^ 2) l = map (fun v => (v - - a) ^ 2) l.
Proof. apply map_ext. intros v. ring. Qed.
Lemma fon_dom x y : let a := 1 / sqrt 3 in
  let D1 l := sumR (map (fun v => (v - a) ^ 2) l) in let D2 l := sumR (map (fun v => (v - - a) ^ 2) l) in
  dominates (fon y) (fon x) <-> D1 y <= D1 x /\ D2 y <= D2 x /\ (D1 y < D1 x \/ D2 y < D2 x).
Proof.
  intros a D1 D2. unfold fon. fold a. rewrite !plus_minus. fold (D1 x) (D1 y) (D2 x) (D2 y). rewrite dom2.
  pose proof (exp_le (- D1 x) (- D1 y)). pose proof (exp_le (- D2 x) (- D2 y)). pose proof (exp_lt (- D1 x) (- D1 y)). pose proof (exp_lt (- D2 x) (- D2 y)).
  split; intros (H3 & H4 & H5).
  - split; [assert (- D1 x <= - D1 y) by (apply H; lra); lra |]. split; [assert (- D2 x <= - D2 y) by (apply H0; lra); lra |].
    destruct H5 as [H5 | H5]; [left; assert (- D1 x < - D1 y) by (apply H1; lra); lra | right; assert (- D2 x < - D2 y) by (apply H2; lra); lra].
  - split; [assert (exp (- D1 x) <= exp (- D1 y)) by (apply H; lra); lra |]. split; [assert (exp (- D2 x) <= exp (- D2 y)) by (apply H0; lra); lra |].
    destruct H5 as [H5 | H5]; [left; assert (exp (- D1 x) < exp (- D1 y)) by (apply H1; lra); lra | right; assert (exp (- D2 x) < exp (- D2 y)) by (apply H2; lra); lra].
Qed.
Theorem C86_fon_pareto n x : n <> 0%nat ->
  (pareto (fun l => length l = n) fon x <-> exists t, - (1 / sqrt 3) <= t <= 1 / sqrt 3 /\ x = repeat t n).
Proof.
  intros Nz. assert (S3 : 0 < sqrt 3) by (apply sqrt_lt_R0; lra). assert (Pa : 0 < 1 / sqrt 3) by (apply Rdiv_lt_0_compat; lra).
  assert (Pn : 0 < INR n) by (apply lt_0_INR; lia).
  unfold pareto. split.
  - intros [L H]. assert (Nx : x <> []) by (intros ->; cbn in L; congruence).
    set (a := 1 / sqrt 3) in *. set (m := sumR x / INR (length x)).
    assert (Hm : x = repeat m n).
    { rewrite <- L. apply sq_zero. pose proof (sq_nonneg m x) as P. destruct (Req_dec (sumR (map (fun v => (v - m) ^ 2) x)) 0) as [| N]; [auto |]. exfalso.
      apply (H (repeat m n)); [apply repeat_length |]. apply fon_dom. fold a. rewrite !fon_const, (mean_split a x Nx), (mean_split (- a) x Nx). fold m. rewrite L. lra. }
    exists m. split; [| exact Hm]. clearbody m. subst x. split.
    + destruct (Rle_dec (- a) m); [auto |]. exfalso. apply (H (repeat (- a) n)); [apply repeat_length |]. apply fon_dom. fold a. rewrite !fon_const.
      assert ((- a - a) ^ 2 < (m - a) ^ 2) by nra. assert ((- a - - a) ^ 2 < (m - - a) ^ 2) by nra. split; [nra |]. split; [nra |]. left. nra.
    + destruct (Rle_dec m a); [auto |]. exfalso. apply (H (repeat a n)); [apply repeat_length |]. apply fon_dom. fold a. rewrite !fon_const.
      assert ((a - a) ^ 2 < (m - a) ^ 2) by nra. assert ((a - - a) ^ 2 < (m - - a) ^ 2) by nra. split; [nra |]. split; [nra |]. left. nra.
  - intros (t & Ht & ->). split; [apply repeat_length |]. intros y Ly K. apply fon_dom in K. set (a := 1 / sqrt 3) in *. rewrite !fon_const in K.
    assert (Ny : y <> []) by (intros ->; cbn in Ly; congruence). rewrite (mean_split a y Ny), (mean_split (- a) y Ny) in K. set (m := sumR y / INR (length y)) in *. rewrite Ly in K.
    pose proof (sq_nonneg m y) as P. destruct K as (K1 & K2 & K3).
    assert (M1 : (m - a) ^ 2 <= (t - a) ^ 2) by nra. assert (M2 : (m - - a) ^ 2 <= (t - - a) ^ 2) by nra.
    assert (t <= m) by nra. assert (m <= t) by nra. assert (m = t) by lra. nra.
Qed.
(** Deb: in the box, the front is the edge x1 = 0 *)
Lemma div_le a b c d : 0 < b -> 0 < d -> (a / b <= c / d <-> a * d <= c * b).
Proof.
  intros Hb Hd. split; intros H.
  - apply (Rmult_le_compat_r (b * d)) in H; [| nra]. replace (a / b * (b * d)) with (a * d) in H by (field; lra). replace (c / d * (b * d)) with (c * b) in H by (field; lra). exact H.
  - apply (Rmult_le_reg_r (b * d)); [nra |]. replace (a / b * (b * d)) with (a * d) by (field; lra). replace (c / d * (b * d)) with (c * b) by (field; lra). exact H.
Qed.
Lemma div_lt a b c d : 0 < b -> 0 < d -> (a / b < c / d <-> a * d < c * b).
Proof.
  intros Hb Hd. split; intros H.
  - apply (Rmult_lt_compat_r (b * d)) in H; [| nra]. replace (a / b * (b * d)) with (a * d) in H by (field; lra). replace (c / d * (b * d)) with (c * b) in H by (field; lra). exact H.
  - apply (Rmult_lt_reg_r (b * d)); [nra |]. replace (a / b * (b * d)) with (a * d) by (field; lra). replace (c / d * (b * d)) with (c * b) by (field; lra). exact H.
Qed.
Lemma deb_dom x y : 0 < fst x -> 0 < fst y -> (dominates (deb y) (deb x) <->
  fst y <= fst x /\ (1 + snd y) * fst x <= (1 + snd x) * fst y /\ (fst y < fst x \/ (1 + snd y) * fst x < (1 + snd x) * fst y)).
Proof. intros Hx Hy. unfold deb. rewrite dom2, div_le, div_lt by assumption. tauto. Qed.
Theorem C86_deb_pareto x : pareto (inside debBound) deb x <-> 1 / 10 <= fst x <= 1 /\ snd x = 0.
Proof.
  unfold pareto, debBound. split.
  - intros [B H]. apply inside2 in B. destruct B as [B1 B2]. split; [auto |]. destruct (Req_dec (snd x) 0) as [| N]; [auto |]. exfalso.
    apply (H (fst x, 0)); [apply inside2; cbn [fst snd]; lra |]. apply deb_dom; cbn [fst snd]; [lra | lra |]. split; [lra |]. split; [nra |]. right. nra.
  - intros [B E]. split; [apply inside2; lra |]. intros y By K. apply inside2 in By. apply deb_dom in K; [| lra | lra]. destruct K as (K1 & K2 & K3). rewrite E in *.
    assert (fst x <= fst y) by nra. assert (fst x = fst y) by lra. assert (snd y = 0) by nra. nra.
Qed.
(** with the constraints it is the line x1 = 6 - 9 x0 and then the edge *)
Lemma nonneg_iff r : nonnegb r = true <-> 0 <= r.
Proof. unfold nonnegb. destruct (Rle_dec 0 r); split; auto; discriminate. Qed.
Lemma two_g g1 g2 : fst (if nonnegb g1 && nonnegb g2 then (true, [0; 0]) else (false, [g1; g2])) = true <-> 0 <= g1 /\ 0 <= g2.
Proof. rewrite <- !nonneg_iff. destruct (nonnegb g1), (nonnegb g2); cbn [andb fst]; intuition discriminate. Qed.
Theorem C86_constdeb_pareto x : pareto (fun x => inside debBound x /\ fst (debG x) = true) deb x <->
  7 / 18 <= fst x <= 2 / 3 /\ snd x = 6 - 9 * fst x \/ 2 / 3 <= fst x <= 1 /\ snd x = 0.
Proof.
  unfold pareto, debBound, debG. split.
  - intros [[B G] H]. apply inside2 in B. apply two_g in G. destruct B as [B1 B2], G as [G1 G2].
    set (z := Rmax 0 (6 - 9 * fst x)). assert (Z : 0 <= z /\ 6 - 9 * fst x <= z) by (unfold z; split; [apply Rmax_l | apply Rmax_r]).
    assert (Zx : z <= snd x) by (unfold z; apply Rmax_lub; lra).
    assert (E : snd x = z).
    { destruct (Req_dec (snd x) z) as [| N]; [auto |]. exfalso. apply (H (fst x, z)).
      - split; [apply inside2; cbn [fst snd]; lra |]. apply two_g. cbn [fst snd]. lra.
      - apply deb_dom; cbn [fst snd]; [lra | lra |]. split; [lra |]. split; [nra |]. right. nra. }
    unfold z, Rmax in E. destruct (Rle_dec 0 (6 - 9 * fst x)); [left | right]; lra.
  - intros P. assert (Px : 7 / 18 <= fst x <= 1) by lra. split.
    + split; [apply inside2; lra |]. apply two_g. lra.
    + intros y [By Gy] K. apply inside2 in By. apply two_g in Gy. apply deb_dom in K; [| lra | lra]. destruct K as (K1 & K2 & K3). destruct P as [[P1 P2] | [P1 P2]]; rewrite P2 in *.
      * assert (6 - 9 * fst y <= snd y) by lra. assert ((7 - 9 * fst y) * fst x <= (7 - 9 * fst x) * fst y) by nra. assert (fst x <= fst y) by nra. assert (E : fst y = fst x) by lra. rewrite E in *. nra.
      * assert (fst x <= fst y) by nra. assert (E : fst y = fst x) by lra. rewrite E in *. assert (snd y = 0) by nra. nra.
Qed.
(** Binh and Korn: the diagonal up to 3, and then the edge x1 = 3 *)
Theorem C86_bnh_pareto x : pareto (fun x => inside bnhBound x /\ fst (bnhG x) = true) bnh x <->
  0 <= fst x <= 3 /\ snd x = fst x \/ 3 <= fst x <= 5 /\ snd x = 3.
Proof.
  unfold pareto, bnhBound, bnhG. split.
  - intros [[B G] H]. apply inside2 in B. apply two_g in G. destruct B as [B1 B2], G as [G1 G2]. destruct (Rle_dec (fst x + snd x) 6) as [S | S].
    + left. assert (E : snd x = fst x).
      { destruct (Req_dec (snd x) (fst x)) as [| N]; [auto |]. exfalso. set (s := (fst x + snd x) / 2). apply (H (s, s)).
        - split; [apply inside2; cbn [fst snd]; unfold s; lra |]. apply two_g. cbn [fst snd]. assert (0 <= s <= 3) by (unfold s; lra). split; nra.
        - apply dom2. cbn [fst snd]. assert (0 < (fst x - snd x) ^ 2) by (assert (fst x - snd x <> 0) by lra; nra). unfold s. split; [nra |]. split; [nra |]. left. nra. }
      lra.
    + right. assert (E : snd x = 3).
      { destruct (Req_dec (snd x) 3) as [| N]; [auto |]. exfalso. set (s := fst x + snd x - 3). apply (H (s, 3)).
        - split; [apply inside2; cbn [fst snd]; unfold s; lra |]. apply two_g. cbn [fst snd]. assert (3 <= s <= 5) by (unfold s; lra). split; nra.
        - apply dom2. cbn [fst snd]. unfold s. split; [nra |]. split; [nra |]. left. nra. }
      lra.
  - intros P. split.
    + split; [apply inside2; lra |]. apply two_g. destruct P as [[P1 ->] | [P1 ->]]; split; nra.
    + intros y [By Gy] K. apply inside2 in By. clear Gy. apply dom2 in K. destruct K as (K1 & K2 & K3). destruct P as [[P1 P2] | [P1 P2]]; rewrite P2 in *.
      * set (s := fst y + snd y). assert (Q1 : s ^ 2 <= (2 * fst x) ^ 2) by (unfold s; pose proof (pow2_ge_0 (fst y - snd y)); nra).
        assert (Q2 : (10 - s) ^ 2 <= (10 - 2 * fst x) ^ 2) by (unfold s; pose proof (pow2_ge_0 (fst y - snd y)); nra).
        assert (0 <= s <= 8) by (unfold s; lra). assert (s <= 2 * fst x) by nra. assert (2 * fst x <= s) by nra. assert (Es : s = 2 * fst x) by lra. unfold s in Es.
        assert (Ey : snd y = 2 * fst x - fst y) by lra. rewrite Ey in *. assert ((fst y - fst x) ^ 2 <= 0) by nra. assert (fst y = fst x) by nra. nra.
      * set (d := 3 - snd y). set (e := fst y - fst x). assert (Ed : snd y = 3 - d) by (unfold d; ring). assert (Ee : fst y = fst x + e) by (unfold e; ring). rewrite Ed, Ee in *.
        assert (A1 : e ^ 2 + 2 * fst x * e <= 6 * d - d ^ 2) by nra. assert (A2 : e ^ 2 - 2 * e * (5 - fst x) <= - 4 * d - d ^ 2) by nra. assert (0 <= d) by lra.
        assert (A3 : 5 * e ^ 2 <= d * (30 - 10 * fst x) - 5 * d ^ 2).
        { assert (M1 : (5 - fst x) * (e ^ 2 + 2 * fst x * e) <= (5 - fst x) * (6 * d - d ^ 2)) by (apply Rmult_le_compat_l; lra).
          assert (M2 : fst x * (e ^ 2 - 2 * e * (5 - fst x)) <= fst x * (- 4 * d - d ^ 2)) by (apply Rmult_le_compat_l; lra). lra. }
        assert (d * (30 - 10 * fst x) <= 0) by nra. assert (e ^ 2 <= 0) by nra. assert (d ^ 2 <= 0) by nra. assert (e = 0) by nra. assert (d = 0) by nra. nra.
Qed.
(** its second constraint never matters *)
Theorem C86_bnh_redundant x : inside bnhBound x -> 0 <= (fst x - 8) ^ 2 + (snd x + 3) ^ 2 - 77 / 10 /\ (fst (bnhG x) = true <-> 0 <= 25 - (fst x - 5) ^ 2 - snd x ^ 2).
Proof.
  intros B. apply inside2 in B. assert (K : 0 <= (fst x - 8) ^ 2 + (snd x + 3) ^ 2 - 77 / 10) by nra. split; [exact K |]. unfold bnhG. rewrite two_g. tauto.
Qed.
(** Srinivas and Deb: the points with x0 = -5/2 are optimal, with the constraints or without *)
Theorem C86_srn_optimal (dom : R * R -> Prop) x : dom x -> fst x = - (5 / 2) -> pareto dom srn x.
Proof.
  intros D E. split; [exact D |]. intros y _ K. apply dom2 in K. destruct K as (K1 & K2 & K3). rewrite E in *.
  assert (H : (fst y + 5 / 2) * (fst y + 5 / 2) <= 0) by lra. assert (Y : fst y = - (5 / 2)) by (pose proof (Rsqr_0_uniq (fst y + 5 / 2)) as Q; unfold Rsqr in Q; pose proof (Rle_0_sqr (fst y + 5 / 2)) as P; unfold Rsqr in P; lra).
  rewrite Y in *. lra.
Qed.
(** Poloni: what can be reached at best, and where *)
Theorem C86_pol_best : (forall x, Forall2 Rle (pol x) [-1; 0]) /\ nth 0 (pol (1, 2)) 0 = -1 /\ nth 1 (pol (-3, -1)) 0 = 0 /\ forall x, nth 1 (pol x) 0 = 0 -> x = (-3, -1).
Proof.
  split; [| split; [| split]].
  - intros x. unfold pol, negv. cbn [map]. pose proof (pow2_ge_0 (polA1 - polB1 x)). pose proof (pow2_ge_0 (polA2 - polB2 x)). pose proof (pow2_ge_0 (fst x + 3)). pose proof (pow2_ge_0 (snd x + 1)).
    constructor; [lra |]. constructor; [lra |]. constructor.
  - unfold pol, negv, polA1, polB1, polA2, polB2. cbn [map nth fst snd]. ring.
  - unfold pol, negv. cbn [map nth fst snd]. ring.
  - intros [a b]. unfold pol, negv. cbn [map nth fst snd]. intros H. pose proof (pow2_ge_0 (a + 3)). pose proof (pow2_ge_0 (b + 1)).
    assert (a + 3 = 0) by (apply Rsqr_0_uniq; unfold Rsqr; lra). assert (b + 1 = 0) by (apply Rsqr_0_uniq; unfold Rsqr; lra). f_equal; lra.
Qed.

(** ** Constraints *)
Theorem C86_feasible :
  (forall x, fst (debG x) = true <-> 6 <= snd x + 9 * fst x /\ 1 <= 9 * fst x - snd x) /\
  (forall x, fst (srnG x) = true <-> fst x ^ 2 + snd x ^ 2 <= 225 /\ fst x - 3 * snd x <= -10) /\
  (forall a b c d e f, fst (osyG [a; b; c; d; e; f]) = true <-> 2 <= a + b <= 6 /\ b - a <= 2 /\ a - 3 * b <= 1 /\ (c - 3) ^ 2 + d <= 4 /\ 4 <= (e - 3) ^ 2 + f) /\
  (forall x, fst (bnhG x) = true <-> (fst x - 5) ^ 2 + snd x ^ 2 <= 25 /\ 77 / 10 <= (fst x - 8) ^ 2 + (snd x + 3) ^ 2).
Proof.
  split; [| split; [| split]].
  - intros x. unfold debG. rewrite two_g. lra.
  - intros x. unfold srnG. rewrite two_g. lra.
  - intros a b c d e f. unfold osyG. cbn [nth]. match goal with |- context [if ?b then _ else _] => destruct b eqn:E end; cbn [fst].
    + rewrite !andb_true_iff, !nonneg_iff in E. split; [lra | auto].
    + split; [discriminate |]. intros H. exfalso. assert (K : nonnegb (a + b - 2) && nonnegb (6 - a - b) && nonnegb (2 - b + a) && nonnegb (1 - a + 3 * b) && nonnegb (4 - (c - 3) ^ 2 - d) && nonnegb ((e - 3) ^ 2 + f - 4) = true).
      { rewrite !andb_true_iff, !nonneg_iff. lra. } congruence.
  - intros x. unfold bnhG. rewrite two_g. lra.
Qed.
(** Tanaka's constraints do not tell the arguments apart *)
Theorem C86_tnk_symmetric a b : 0 <= a -> 0 <= b -> fst (tnkG (a, b)) = fst (tnkG (b, a)).
Proof.
  intros Ha Hb. assert (Per : forall t, cos (16 * (PI / 2 - t)) = cos (16 * t)).
  { intros t. replace (16 * (PI / 2 - t)) with (- (16 * t) + 2 * INR 4 * PI) by (cbn; field). rewrite cos_period. apply cos_neg. }
  unfold tnkG. cbn [fst snd].
  assert (C : cos (16 * (if Req_EM_T b 0 then PI / 2 else atan (a / b))) = cos (16 * (if Req_EM_T a 0 then PI / 2 else atan (b / a)))).
  { destruct (Req_EM_T b 0) as [-> | Nb], (Req_EM_T a 0) as [-> | Na]; auto.
    - replace (0 / a) with 0 by (field; auto). rewrite atan_0. rewrite <- (Per 0). f_equal. ring.
    - replace (0 / b) with 0 by (field; auto). rewrite atan_0. rewrite <- (Per 0). f_equal. ring.
    - assert (P : 0 < b / a) by (apply Rdiv_lt_0_compat; lra). replace (a / b) with (/ (b / a)) by (field; auto). rewrite atan_inv by exact P. apply Per. }
  rewrite C. set (A := cos _). apply eq_true_iff_eq. rewrite !two_g. split; intros [K1 K2]; split; lra.
Qed.
(** what a feasible point reports; an infeasible one reports every constraint, also those it meets, and for six constraints the
    number of entries changes *)
Theorem C86_violation x : debG x = (true, [0; 0]) \/ debG x = (false, [snd x + 9 * fst x - 6; - snd x + 9 * fst x - 1]).
Proof. unfold debG. destruct (_ && _); auto. Qed.
Theorem C86_violation_refuted : (exists x v, debG x = (false, v) /\ Exists (fun r => 0 < r) v) /\ (exists x y, length (snd (osyG x)) <> length (snd (osyG y))).
Proof.
  assert (F : forall r, r < 0 -> nonnegb r = false) by (intros r Hr; unfold nonnegb; destruct (Rle_dec 0 r); [lra | auto]). split.
  - exists (1, 10). eexists. split; [unfold debG; cbn [fst snd]; rewrite (F (- (10) + 9 * 1 - 1)) by lra; rewrite andb_false_r; reflexivity |]. apply Exists_cons_hd. lra.
  - assert (T : forall r, 0 <= r -> nonnegb r = true) by (intros r Hr; now apply nonneg_iff).
    exists [2; 2; 3; 0; 1; 0], [0; 0; 0; 0; 0; 0]. unfold osyG. cbn [nth].
    rewrite (T (2 + 2 - 2)), (T (6 - 2 - 2)), (T (2 - 2 + 2)), (T (1 - 2 + 3 * 2)), (T (4 - (3 - 3) ^ 2 - 0)), (T ((1 - 3) ^ 2 + 0 - 4)) by lra.
    rewrite (F (0 + 0 - 2)) by lra. cbn [andb snd length]. discriminate.
Qed.
(** an instance reports its own last evaluation, whatever other instances did since *)
Theorem C86_reports {X} (g : X -> bool * list R) x k : outfeasible k (fst (callConst g x)) = Some (fst (g x)) /\ outviolation k (fst (callConst g x)) = Some (snd (g x)).
Proof. unfold callConst, outfeasible, outviolation. destruct (g x). auto. Qed.
(** but a function without constraints reports whatever the last constrained one left in the class, and a new constrained one,
    never evaluated, has no feasibility and yet another one's violation *)
Theorem C86_class_refuted {X} (g : X -> bool * list R) x :
  outfeasible (snd (callConst g x)) newPlain = Some (fst (g x)) /\ outviolation (snd (callConst g x)) newPlain = Some (snd (g x)) /\
  outfeasible (snd (callConst g x)) newConst = None /\ outviolation (snd (callConst g x)) newConst = Some (snd (g x)).
Proof. unfold callConst, outfeasible, outviolation. destruct (g x). cbn. auto. Qed.
Theorem C86_class_start : outfeasible class0 newPlain = None /\ outfeasible class0 newConst = None /\ outviolation class0 newPlain = None.
Proof. auto. Qed.

Example C86_pareto_case : pareto (fun _ => True) sch 1 /\ ~ pareto (fun _ => True) sch 3 /\ pareto (inside debBound) deb (1 / 2, 0) /\
  pareto (fun x => inside debBound x /\ fst (debG x) = true) deb (1 / 2, 3 / 2) /\ pareto (fun x => inside bnhBound x /\ fst (bnhG x) = true) bnh (4, 3).
Proof.
  split; [apply C86_sch_pareto; lra |]. split; [rewrite C86_sch_pareto; lra |]. split; [apply C86_deb_pareto; cbn [fst snd]; lra |].
  split; [apply C86_constdeb_pareto; cbn [fst snd]; lra |]. apply C86_bnh_pareto. cbn [fst snd]. lra.
Qed.
