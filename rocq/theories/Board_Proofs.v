(** Proofs for C71: sweeps over a grid, their existence, uniqueness and symmetries. *)
From Coq Require Import Permutation.
From Verif Require Import Base RingOps Net_Model Arch_Model Arch_Proofs Arch_Props Arch_Props2 Arch_Props3 Board_Spec.

(** ** numbers from bits *)
Fixpoint of_bits (n : nat) (f : nat -> bool) : nat := match n with O => 0 | S n => of_bits n f + (if f n then 2 ^ n else 0) end.
Lemma of_bits_lt n f : of_bits n f < 2 ^ n.
Proof. induction n as [|n IH]; cbn [of_bits]; [cbn; lia|]. rewrite Nat.pow_succ_r'. destruct (f n); lia. Qed.
Lemma testbit_add_high a n d : a < 2 ^ n -> Nat.testbit (a + 2 ^ n) d = if d =? n then true else Nat.testbit a d.
Proof.
  intro H. rewrite Nat.testbit_eqb. destruct (Nat.eqb_spec d n) as [->|Hne].
  - replace (a + 2 ^ n) with (a + 1 * 2 ^ n) by lia. rewrite Nat.div_add by (apply Nat.pow_nonzero; lia). rewrite Nat.div_small by exact H. reflexivity.
  - rewrite Nat.testbit_eqb. destruct (Nat.lt_ge_cases d n) as [Hl|Hg].
    + replace (2 ^ n) with (2 ^ (n - d - 1) * 2 * 2 ^ d).
      2:{ rewrite <- Nat.mul_assoc, (Nat.mul_comm 2), Nat.mul_assoc, <- Nat.pow_add_r, Nat.mul_comm, <- Nat.pow_succ_r'. f_equal. lia. }
      rewrite Nat.div_add by (apply Nat.pow_nonzero; lia). rewrite Nat.mod_add by lia. reflexivity.
    + assert (B : 2 ^ (S n) <= 2 ^ d) by (apply Nat.pow_le_mono_r; lia). rewrite Nat.pow_succ_r' in B. rewrite !Nat.div_small by lia. reflexivity.
Qed.
Lemma testbit_high a n d : a < 2 ^ n -> n <= d -> Nat.testbit a d = false.
Proof.
  intros H Hd. rewrite Nat.testbit_eqb, Nat.div_small; [reflexivity|]. eapply Nat.lt_le_trans; [exact H|]. apply Nat.pow_le_mono_r; lia.
Qed.
Lemma of_bits_bit n f d : d < n -> Nat.testbit (of_bits n f) d = f d.
Proof.
  induction n as [|n IH]; intro H; [lia|]. cbn [of_bits]. pose proof (of_bits_lt n f). destruct (Nat.eq_dec d n) as [->|].
  - destruct (f n); [rewrite testbit_add_high by assumption; rewrite Nat.eqb_refl; reflexivity|]. rewrite Nat.add_0_r. apply (testbit_high _ n); [assumption|lia].
  - destruct (f n); [rewrite testbit_add_high by assumption; destruct (Nat.eqb_spec d n); [lia|]|rewrite Nat.add_0_r]; apply IH; lia.
Qed.
Lemma bits_inj n a b : a < 2 ^ n -> b < 2 ^ n -> (forall d, d < n -> Nat.testbit a d = Nat.testbit b d) -> a = b.
Proof.
  intros Ha Hb H. apply Nat.bits_inj. intro d. destruct (Nat.lt_ge_cases d n); [apply H; assumption|]. rewrite (testbit_high a n d), (testbit_high b n d) by assumption. reflexivity.
Qed.
(** ** bijections of initial segments *)
Lemma segment_perm n (f : nat -> nat) : (forall i, i < n -> f i < n) -> (forall i j, i < n -> j < n -> f i = f j -> i = j) -> Permutation (map f (seq 0 n)) (seq 0 n).
Proof.
  intros B I. apply NoDup_Permutation_bis.
  - assert (X : forall l, NoDup l -> (forall x, In x l -> x < n) -> NoDup (map f l)).
    { induction l as [|x l IH]; intros N H; cbn; [constructor|]. apply NoDup_cons_iff in N as [N1 N2]. constructor; [|apply IH; [exact N2|intros; apply H; right; assumption]].
      intro Hin. apply in_map_iff in Hin as (y & E & Hy). apply I in E; [subst; contradiction|apply H; right; assumption|apply H; left; reflexivity]. }
    apply X; [apply seq_NoDup|intros x Hx; apply in_seq in Hx; lia].
  - rewrite map_length. lia.
  - intros x Hx. apply in_map_iff in Hx as (y & <- & Hy). apply in_seq in Hy. apply in_seq. specialize (B y). lia.
Qed.
Lemma segment_onto n (f : nat -> nat) : (forall i, i < n -> f i < n) -> (forall i j, i < n -> j < n -> f i = f j -> i = j) -> forall j, j < n -> exists i, i < n /\ f i = j.
Proof.
  intros B I j Hj. assert (In j (map f (seq 0 n))) as H by (eapply Permutation_in; [apply Permutation_sym, segment_perm; assumption|apply in_seq; lia]).
  apply in_map_iff in H as (i & E & Hi). apply in_seq in Hi. exists i. split; [lia|exact E].
Qed.

Section Sweep.
Context {K : Type} {Ops : RingOps K} {L : RingLaws K}.
Lemma suml_seq n (f : nat -> K) : suml (seq 0 n) f = sumn n f.
Proof.
  induction n as [|n IH]; [reflexivity|]. rewrite seq_S, suml_app, IH. cbn [suml sumn Nat.add]. rewrite (Radd_comm rlaws (f n)). rewrite (Radd_0_l rlaws). reflexivity.
Qed.
Lemma sumn_perm n (p : nat -> nat) (f : nat -> K) : (forall i, i < n -> p i < n) -> (forall i j, i < n -> j < n -> p i = p j -> i = j) -> sumn n (fun i => f (p i)) = sumn n f.
Proof. intros B I. rewrite <- !suml_seq, <- suml_map. apply suml_perm. apply segment_perm; assumption. Qed.

Lemma lin_ext cols W (x y : vec (K := K)) i : (forall j, j < cols -> x j = y j) -> lin cols W x i = lin cols W y i.
Proof. intro H. apply sumn_ext. intros j Hj. rewrite H by exact Hj. reflexivity. Qed.

Section Grid.
Context (dims : list nat) (nin nhin nhout : nat) (W : @sweep_weights K) (g : vec (K := K) -> vec (K := K)) (h : K -> K).
Context (Hg : forall a b, (forall i, i < nhin -> a i = b i) -> forall j, j < nhout -> g a j = g b j).
Lemma origin_valid u s d : Forall2 lt u dims -> d < length dims -> edge dims u s d = false -> Forall2 lt (origin u s d) dims.
Proof using.
  intros Hu Hd E. apply f2_iff in Hu as [Lu Bu]. apply f2_iff. unfold origin. split; [rewrite upd_length; exact Lu|]. intros i Hi. rewrite nth_upd. pose proof (Bu i Hi). pose proof (Bu d Hd).
  unfold edge in E. destruct (Nat.eqb_spec i d) as [->|]; cbn [andb]; [|assumption]. destruct (Nat.ltb_spec d (length u)); [|lia]. destruct (Nat.testbit s d); apply Nat.eqb_neq in E; lia.
Qed.
Definition rank (u : list nat) (s : nat) : nat := sum (progress dims u s) (seq 0 (length dims)).
Lemma origin_rank u s d : Forall2 lt u dims -> d < length dims -> edge dims u s d = false -> rank (origin u s d) s < rank u s.
Proof using.
  intros Hu Hd E. pose proof (origin_valid u s d Hu Hd E) as Ho. apply f2_iff in Hu as [Lu Bu]. apply f2_iff in Ho as [Lo Bo]. unfold rank. apply (sum_lt _ _ _ d).
  - intros e He. apply in_seq in He. unfold progress. unfold origin in *. rewrite nth_upd. destruct (Nat.eqb_spec e d) as [->|]; cbn [andb]; [|destruct (Nat.testbit s e); lia].
    destruct (Nat.ltb_spec d (length u)); [|destruct (Nat.testbit s d); lia]. unfold edge in E. destruct (Nat.testbit s d); apply Nat.eqb_neq in E; lia.
  - apply in_seq. lia.
  - unfold progress, origin. rewrite nth_upd, Nat.eqb_refl. destruct (Nat.ltb_spec d (length u)); [|lia]. cbn [andb]. pose proof (Bu d Hd). unfold edge in E. destruct (Nat.testbit s d); apply Nat.eqb_neq in E; lia.
Qed.
(** uniqueness *)
Lemma sweep_unique x H1 H2 : sweep dims nin nhout W g x H1 -> sweep dims nin nhout W g x H2 ->
  forall u s j, Forall2 lt u dims -> s < 2 ^ length dims -> j < nhout -> H1 u s j = H2 u s j.
Proof using Hg.
  intros S1 S2. assert (X : forall n u s, rank u s < n -> Forall2 lt u dims -> s < 2 ^ length dims -> forall j, j < nhout -> H1 u s j = H2 u s j).
  { induction n as [|n IH]; intros u s Hr Hu Hs j Hj; [lia|]. rewrite (S1 u s Hu Hs j Hj), (S2 u s Hu Hs j Hj). apply Hg; [|exact Hj]. intros i Hi. f_equal.
    apply sumn_ext. intros d Hd. destruct (edge dims u s d) eqn:E; [reflexivity|]. apply lin_ext. intros k Hk. apply IH; [|apply origin_valid; assumption|exact Hs|exact Hk].
    pose proof (origin_rank u s d Hu Hd E). lia. }
  intros u s j Hu Hs Hj. apply (X (S (rank u s))); auto.
Qed.
(** existence *)
Fixpoint hid (x : list nat -> vec) (fuel : nat) (u : list nat) (s : nat) : vec (K := K) :=
  match fuel with
  | O => fun _ => r0
  | S fuel => g (fun i => radd (lin nin (sw_in W) (x u) i)
                   (sumn (length dims) (fun d => if edge dims u s d then sw_border W d u i else lin nhout (sw_hid W d (Nat.testbit s d)) (hid x fuel (origin u s d) s) i)))
  end.
Lemma hid_stable x f1 : forall f2 u s, rank u s < f1 -> rank u s < f2 -> Forall2 lt u dims -> forall j, j < nhout -> hid x f1 u s j = hid x f2 u s j.
Proof using Hg.
  induction f1 as [|f1 IH]; intros f2 u s H1 H2 Hu j Hj; [lia|]. destruct f2 as [|f2]; [lia|]. cbn [hid]. apply Hg; [|exact Hj]. intros i Hi. f_equal.
  apply sumn_ext. intros d Hd. destruct (edge dims u s d) eqn:E; [reflexivity|]. apply lin_ext. intros k Hk. pose proof (origin_rank u s d Hu Hd E).
  apply IH; [lia|lia|apply origin_valid; assumption|exact Hk].
Qed.
Definition full_rank : nat := S (sum (fun d => nth d dims 0) (seq 0 (length dims))).
Lemma rank_full u s : Forall2 lt u dims -> rank u s < full_rank.
Proof using.
  intro Hu. apply f2_iff in Hu as [Lu Bu]. unfold rank, full_rank. assert (sum (progress dims u s) (seq 0 (length dims)) <= sum (fun d => nth d dims 0) (seq 0 (length dims))); [|lia].
  apply sum_le. intros i Hi. apply in_seq in Hi. specialize (Bu i ltac:(lia)). unfold progress. destruct (Nat.testbit s i); lia.
Qed.
Lemma sweep_exists x : sweep dims nin nhout W g x (hid x full_rank).
Proof using Hg.
  intros u s Hu Hs j Hj. rewrite (hid_stable x full_rank (S full_rank) u s) by (try exact Hu; try exact Hj; pose proof (rank_full u s Hu); lia).
  cbn [hid]. reflexivity.
Qed.
(** ** symmetries *)
Context (pi : nat -> nat) (flip : nat -> bool).
Context (SY : symmetry dims pi).
Context (HW : forall e b, e < length dims -> sw_hid W e (xorb b (flip e)) = sw_hid W (pi e) b).
Context (HB : forall u e i, Forall2 lt u dims -> e < length dims -> i < nhin -> sw_border W e (moved dims pi flip u) i = sw_border W (pi e) u i).
Definition tau (s : nat) : nat := of_bits (length dims) (fun d => xorb (Nat.testbit s (pi d)) (flip d)).
Lemma moved_length u : length (moved dims pi flip u) = length dims.
Proof using. unfold moved. rewrite map_length, seq_length. reflexivity. Qed.
Lemma moved_nth u e : e < length dims -> nth e (moved dims pi flip u) 0 = if flip e then nth e dims 0 - 1 - nth (pi e) u 0 else nth (pi e) u 0.
Proof using.
  intro He. unfold moved. set (f := fun d => if flip d then nth d dims 0 - 1 - nth (pi d) u 0 else nth (pi d) u 0).
  rewrite (nth_indep _ 0 (f 0)) by (rewrite map_length, seq_length; exact He). rewrite map_nth, seq_nth by exact He. reflexivity.
Qed.
Lemma moved_valid u : Forall2 lt u dims -> Forall2 lt (moved dims pi flip u) dims.
Proof using SY.
  intro Hu. apply f2_iff in Hu as [Lu Bu]. apply f2_iff. split; [apply moved_length|]. intros e He. rewrite moved_nth by exact He. destruct (proj1 SY e He) as [P1 P2].
  pose proof (Bu (pi e) P1). pose proof (Bu e He). destruct (flip e); lia.
Qed.
Lemma moved_edge u s e : Forall2 lt u dims -> e < length dims -> edge dims (moved dims pi flip u) (tau s) e = edge dims u s (pi e).
Proof using SY.
  intros Hu He. apply f2_iff in Hu as [Lu Bu]. destruct (proj1 SY e He) as [P1 P2]. pose proof (Bu (pi e) P1) as B. unfold edge, tau. rewrite of_bits_bit by exact He. rewrite moved_nth by exact He. rewrite P2 in *.
  destruct (Nat.testbit s (pi e)), (flip e); cbn [xorb]; try reflexivity.
  - destruct (Nat.eqb_spec (nth e dims 0 - 1 - nth (pi e) u 0) 0), (Nat.eqb_spec (nth (pi e) u 0) (nth e dims 0 - 1)); try reflexivity; lia.
  - destruct (Nat.eqb_spec (nth e dims 0 - 1 - nth (pi e) u 0) (nth e dims 0 - 1)), (Nat.eqb_spec (nth (pi e) u 0) 0); try reflexivity; lia.
Qed.
Lemma moved_origin u s e : Forall2 lt u dims -> e < length dims -> edge dims u s (pi e) = false ->
  origin (moved dims pi flip u) (tau s) e = moved dims pi flip (origin u s (pi e)).
Proof using SY.
  intros Hu He E. apply f2_iff in Hu as [Lu Bu]. apply nth_ext0; [unfold origin; rewrite upd_length, !moved_length; reflexivity|]. intro k.
  destruct (Nat.lt_ge_cases k (length dims)) as [Hk|Hk].
  2:{ rewrite !nth_overflow; [reflexivity|rewrite moved_length; exact Hk|unfold origin; rewrite upd_length, moved_length; exact Hk]. }
  rewrite moved_nth by exact Hk. unfold origin. rewrite !nth_upd, moved_length, !moved_nth by assumption. destruct (proj1 SY e He) as [P1 P2]. destruct (Nat.ltb_spec e (length dims)); [|lia].
  destruct (Nat.ltb_spec (pi e) (length u)); [|lia]. rewrite !andb_true_r. destruct (Nat.eqb_spec k e) as [->|Hne].
  - rewrite Nat.eqb_refl. unfold tau. rewrite of_bits_bit by exact He. pose proof (Bu (pi e) P1). unfold edge in E. rewrite P2 in *.
    destruct (Nat.testbit s (pi e)), (flip e); cbn [xorb]; apply Nat.eqb_neq in E; try reflexivity; try lia.
  - destruct (Nat.eqb_spec (pi k) (pi e)) as [E2|]; [apply (proj2 SY) in E2; [congruence|assumption|assumption]|]. reflexivity.
Qed.
Lemma tau_lt s : tau s < 2 ^ length dims.
Proof using. apply of_bits_lt. Qed.
Lemma tau_inj a b : a < 2 ^ length dims -> b < 2 ^ length dims -> tau a = tau b -> a = b.
Proof using SY.
  intros Ha Hb E. apply (bits_inj (length dims)); [exact Ha|exact Hb|]. intros d Hd. destruct (segment_onto (length dims) pi (fun i Hi => proj1 (proj1 SY i Hi)) (proj2 SY) d Hd) as (e & He & <-).
  assert (X : Nat.testbit (tau a) e = Nat.testbit (tau b) e) by (rewrite E; reflexivity). unfold tau in X. rewrite !of_bits_bit in X by exact He. destruct (flip e), (Nat.testbit a (pi e)), (Nat.testbit b (pi e)); cbn in X; congruence.
Qed.
Lemma sweep_symmetric x x' H H' : (forall u k, Forall2 lt u dims -> k < nin -> x' u k = x (moved dims pi flip u) k) ->
  sweep dims nin nhout W g x H -> sweep dims nin nhout W g x' H' ->
  forall u s j, Forall2 lt u dims -> s < 2 ^ length dims -> j < nhout -> H' u s j = H (moved dims pi flip u) (tau s) j.
Proof using L Hg SY HW HB.
  intros HX S1 S2. assert (X : forall n u s, rank u s < n -> Forall2 lt u dims -> s < 2 ^ length dims -> forall j, j < nhout -> H' u s j = H (moved dims pi flip u) (tau s) j).
  { induction n as [|n IH]; intros u s Hr Hu Hs j Hj; [lia|]. pose proof (moved_valid u Hu) as Hm. rewrite (S1 _ _ Hm (tau_lt s) j Hj), (S2 u s Hu Hs j Hj). apply Hg; [|exact Hj]. intros i Hi. f_equal.
    - apply lin_ext. intros k Hk. apply HX; assumption.
    - rewrite <- (sumn_perm (length dims) pi) by (try apply (proj2 SY); intros e He; apply (proj1 SY e He)). apply sumn_ext. intros e He. destruct (proj1 SY e He) as [P1 P2].
      rewrite moved_edge by assumption. destruct (edge dims u s (pi e)) eqn:E; [symmetry; apply HB; assumption|]. rewrite moved_origin by assumption.
      replace (Nat.testbit (tau s) e) with (xorb (Nat.testbit s (pi e)) (flip e)) by (symmetry; apply (of_bits_bit (length dims)); exact He). rewrite HW by exact He.
      apply lin_ext. intros k Hk. apply IH; [|apply origin_valid; assumption|exact Hs|exact Hk]. pose proof (origin_rank u s (pi e) Hu P1 E). lia. }
  intros u s j Hu Hs Hj. apply (X (S (rank u s))); auto.
Qed.
Lemma collect_symmetric x x' H H' : (forall u k, Forall2 lt u dims -> k < nin -> x' u k = x (moved dims pi flip u) k) ->
  sweep dims nin nhout W g x H -> sweep dims nin nhout W g x' H' ->
  forall u k, Forall2 lt u dims -> collect dims nin nhout W h x' H' u k = collect dims nin nhout W h x H (moved dims pi flip u) k.
Proof using L Hg SY HW HB.
  intros HX S1 S2 u k Hu. unfold collect. f_equal. f_equal.
  - rewrite <- (sumn_perm (2 ^ length dims) tau (fun s => lin nhout (sw_out W) (H (moved dims pi flip u) s) k)) by (intros; first [apply tau_lt|apply tau_inj; assumption]). apply sumn_ext. intros s Hs. apply lin_ext. intros j Hj.
    apply (sweep_symmetric x x' H H' HX S1 S2); assumption.
  - apply lin_ext. intros j Hj. apply HX; assumption.
Qed.
End Grid.
End Sweep.
