(** Lemmas for C81: the Kohonen map. *)
From Coq Require Import Reals Lra Sorting.Sorted.
From Verif Require Import Base Functions_Model Functions_Proofs LinearFA_Model Cluster_Model Cluster_Spec.
Local Open Scope R_scope.

(** ** the winner *)
Lemma minpos_split {A} (f : A -> R) : forall l p, exists l1 w l2, fold_left (fun b p => if Rlt_dec (f p) (f b) then p else b) l p = w /\ p :: l = l1 ++ w :: l2 /\
  Forall (fun q => f w < f q) l1 /\ Forall (fun q => f w <= f q) l2.
Proof.
  intro l. induction l as [|q l IH] using rev_ind; intro p.
  - exists [], p, []. repeat split; constructor.
  - destruct (IH p) as (l1 & w & l2 & E & S & F1 & F2). rewrite fold_left_app, E. cbn [fold_left]. destruct (Rlt_dec (f q) (f w)) as [L|L].
    + exists (p :: l), q, []. split; [reflexivity|]. split; [reflexivity|]. split; [|constructor]. rewrite S. apply Forall_app. split; [|constructor; [exact L|]].
      * eapply Forall_impl; [|exact F1]. intros a Ha. cbn in Ha. lra.
      * eapply Forall_impl; [|exact F2]. intros a Ha. cbn in Ha. lra.
    + exists l1, w, (l2 ++ [q]). split; [reflexivity|]. split; [change (p :: l ++ [q]) with ((p :: l) ++ [q]); rewrite S, <- app_assoc; reflexivity|]. split; [exact F1|].
      apply Forall_app. split; [exact F2|]. constructor; [lra | constructor].
Qed.
Lemma places_in N p : In p (places N) <-> onGrid N p.
Proof. destruct p as (i, j). unfold places, onGrid. rewrite in_prod_iff, !in_seq. cbn [fst snd]. lia. Qed.
Lemma seq_sorted : forall n a, StronglySorted lt (seq a n).
Proof. induction n as [|n IH]; intro a; cbn [seq]; constructor; [apply IH|]. apply Forall_forall. intros x Hx. apply in_seq in Hx. lia. Qed.
Lemma ss_app {A} (R : A -> A -> Prop) l m : StronglySorted R l -> StronglySorted R m -> (forall x y, In x l -> In y m -> R x y) -> StronglySorted R (l ++ m).
Proof.
  induction 1 as [|a l Sl IH Fl]; intros Sm H; cbn [app]; [exact Sm|]. constructor.
  - apply IH; [exact Sm|]. intros x y Hx Hy. apply H; [now right | exact Hy].
  - apply Forall_app. split; [exact Fl|]. apply Forall_forall. intros y Hy. apply H; [now left | exact Hy].
Qed.
Lemma ss_split {A} (R : A -> A -> Prop) l1 w l2 : StronglySorted R (l1 ++ w :: l2) -> Forall (R w) l2.
Proof. induction l1 as [|a l1 IH]; cbn [app]; intro H; inversion H; subst; auto. Qed.
Lemma prod_sorted l : forall k, StronglySorted lt k -> StronglySorted lt l -> StronglySorted earlier (list_prod k l).
Proof.
  intros k Sk Sl. induction Sk as [|a k Sk IH Fk]; [constructor|]. cbn [list_prod]. apply ss_app; [|exact IH|].
  - clear - Sl. induction Sl as [|b l Sl IH Fl]; cbn [map]; constructor; [exact IH|]. apply Forall_map. eapply Forall_impl; [|exact Fl]. intros c Hc. right. cbn. auto.
  - intros x y Hx Hy. apply in_map_iff in Hx as (b & <- & _). destruct y as (i, j). apply in_prod_iff in Hy as (Hi & _). rewrite Forall_forall in Fk. left. cbn. apply Fk, Hi.
Qed.
Lemma earlier_irrefl p q : earlier p q -> earlier q p -> False.
Proof. unfold earlier. lia. Qed.
Lemma winner_nearest N f : (0 < N)%nat -> exists w, minimum_position N f = Ok w /\ nearest N (fun i j => f (i, j)) w.
Proof.
  intro P. unfold minimum_position. destruct (places N) as [|p ps] eqn:E.
  - exfalso. assert (I : In (0, 0)%nat (places N)) by (apply places_in; split; cbn; lia). rewrite E in I. destruct I.
  - destruct (minpos_split f ps p) as (l1 & w & l2 & Ew & S & F1 & F2). rewrite Ew. exists w. split; [reflexivity|].
    assert (St : StronglySorted earlier (l1 ++ w :: l2)) by (rewrite <- S, <- E; apply prod_sorted; apply seq_sorted). apply ss_split in St.
    assert (Iw : onGrid N w) by (apply places_in; rewrite E, S; apply in_elt). split; [exact Iw|]. intros i j G. cbv beta. rewrite <- surjective_pairing.
    assert (I : In (i, j) (l1 ++ w :: l2)) by (rewrite <- S, <- E; apply places_in, G). rewrite Forall_forall in F1, F2, St. apply in_app_iff in I as [I|[I|I]].
    + specialize (F1 _ I). split; [lra|]. intros _. exact F1.
    + rewrite <- I. split; [lra|]. intro B. exfalso. apply (earlier_irrefl w w); exact B.
    + split; [apply F2, I|]. intro B. exfalso. apply (earlier_irrefl (i, j) w B), St, I.
Qed.
Lemma nearest_unique N d w w' : nearest N d w -> nearest N d w' -> w = w'.
Proof.
  intros (G & H) (G' & H'). destruct w as (a, b), w' as (a', b'). destruct (H a' b' G') as (L & L1). destruct (H' a b G) as (L' & L1'). cbn [fst snd] in *.
  destruct (lt_eq_lt_dec a a') as [[A|A]|A].
  - assert (earlier (a, b) (a', b')) by (left; exact A). specialize (L1' H0). lra.
  - subst a'. destruct (lt_eq_lt_dec b b') as [[B|B]|B].
    + assert (earlier (a, b) (a, b')) by (right; auto). specialize (L1' H0). lra.
    + congruence.
    + assert (earlier (a, b') (a, b)) by (right; auto). specialize (L1 H0). lra.
  - assert (earlier (a', b') (a, b)) by (left; exact A). specialize (L1 H0). lra.
Qed.

(** ** moving *)
Lemma tempm_spec N w i j : (0 < N)%nat -> tempm N w i j = Rmax 0 (1 - INR (apart i (fst w) + apart j (snd w)) / INR N).
Proof.
  intro P. unfold tempm. assert (E : Rabs (INR i - INR (fst w)) + Rabs (INR j - INR (snd w)) = INR (apart i (fst w) + apart j (snd w))).
  { assert (Q : forall a b, Rabs (INR a - INR b) = INR (apart a b)).
    { intros a b. unfold apart. destruct (le_lt_dec a b) as [L|L].
      - replace (a - b + (b - a))%nat with (b - a)%nat by lia. rewrite minus_INR by lia. rewrite Rabs_left1; [ring|]. apply le_INR in L. lra.
      - replace (a - b + (b - a))%nat with (a - b)%nat by lia. rewrite minus_INR by lia. apply Rabs_right. apply lt_INR in L. lra. }
    rewrite plus_INR, !Q. reflexivity. }
  rewrite E. cbv zeta. destruct (Rlt_dec _ 0) as [L|L]; [rewrite Rmax_left; lra | rewrite Rmax_right; lra].
Qed.
Lemma tempm_range N w i j : (0 < N)%nat -> 0 <= tempm N w i j <= 1.
Proof.
  intro P. rewrite tempm_spec by exact P. split; [apply Rmax_l|]. apply Rmax_lub; [lra|]. assert (0 < INR N) by (apply lt_0_INR; exact P).
  assert (0 <= INR (apart i (fst w) + apart j (snd w)) / INR N); [|lra]. apply Rmult_le_pos; [apply pos_INR | left; apply Rinv_0_lt_compat; assumption].
Qed.
Lemma tempm_winner N w : (0 < N)%nat -> tempm N w (fst w) (snd w) = 1.
Proof. intro P. rewrite tempm_spec by exact P. unfold apart. rewrite !Nat.sub_diag. cbn [Nat.add INR]. unfold Rdiv. rewrite Rmult_0_l, Rminus_0_r. apply Rmax_right. lra. Qed.
(** a move towards x *)
Lemma move_diff c : forall (a x : vec), length a = length x -> vsub (vsub a (map (fun y => 1 / 100 * y * c) (vsub a x))) x = map (fun y => (1 - c / 100) * y) (vsub a x).
Proof. induction a as [|u a IH]; intros [|v x] L; try discriminate; [reflexivity|]. cbn [length] in L. unfold vsub in *. cbn [rzip map]. rewrite IH by lia. f_equal. field. Qed.
Lemma vsub_length (a : vec) : forall b, length a = length b -> length (vsub a b) = length a.
Proof. induction a as [|u a IH]; intros [|v b] L; try discriminate; [reflexivity|]. unfold vsub in *. cbn [rzip length]. rewrite IH by (cbn in L; lia). reflexivity. Qed.
Lemma sq_scale c : forall v : vec, rsum (map (fun y => y ^ 2) (map (fun y => c * y) v)) = c ^ 2 * rsum (map (fun y => y ^ 2) v).
Proof. induction v as [|u v IH]; cbn [map]; rewrite ?rsum_cons; [cbn [rsum fold_right]; ring|]. rewrite IH. ring. Qed.
Lemma sqdist_pos a b : 0 <= sqdist a b.
Proof. unfold sqdist. apply rsum_pos, Forall_map, Forall_forall. intros x _. apply pow2_ge_0. Qed.
Lemma sqdist_zero : forall a b, length a = length b -> sqdist a b = 0 -> a = b.
Proof.
  intros a b L H. unfold sqdist in H. apply rsum_zero in H; [|apply Forall_map, Forall_forall; intros; apply pow2_ge_0]. revert b L H.
  induction a as [|u a IH]; intros [|v b] L H; try discriminate; [reflexivity|]. unfold vsub in H. cbn [rzip map] in H. inversion H as [|? ? H1 H2]; subst. f_equal.
  - assert (u - v = 0); [|lra]. destruct (Req_dec (u - v) 0) as [E|E]; [exact E|]. apply pow_nonzero with (n := 2%nat) in E. contradiction.
  - apply IH; [cbn in L; lia | exact H2].
Qed.
Lemma sqdist_self a : sqdist a a = 0.
Proof. unfold sqdist, vsub. induction a as [|u a IH]; [reflexivity|]. cbn [rzip map]. rewrite rsum_cons, IH. ring. Qed.

Section Round.
Context (N dim : nat) (P : (0 < N)%nat).
Definition wf (s : som) : Prop := forall i j, length (s_neurons s i j) = dim.
(** how strongly the neuron at (i, j) follows the input: 1 - distance / N within the neighbourhood of the winner *)
Definition strength (r : R) (w : nat * nat) (i j : nat) : R :=
  if (Int_part r <? Z.of_nat (Nat.max (apart i (fst w)) (apart j (snd w))))%Z then 0 else Rmax 0 (1 - INR (apart i (fst w) + apart j (snd w)) / INR N).
Lemma neighbours_spec n w i : (i < N)%nat -> (w < N)%nat -> inNeighbours N n w i = (Z.of_nat (apart i w) <=? n)%Z.
Proof.
  intros Hi Hw. unfold inNeighbours, apart. destruct (Z.leb_spec (Z.of_nat (i - w + (w - i))) n) as [L|L].
  - apply andb_true_iff. rewrite Z.leb_le, Z.ltb_lt. lia.
  - apply andb_false_iff. rewrite Z.leb_gt, Z.ltb_ge. lia.
Qed.
Lemma round_spec full s x : wf s -> length x = dim -> exists s', kround N full s x = Ok s' /\ wf s' /\
  nearest N (fun i j => sqdist (s_neurons s i j) x) (s_winner s') /\ s_neighbours s' = s_neighbours s * (9999 / 10000) /\
  forall i j, onGrid N (i, j) -> vsub (s_neurons s' i j) x = map (fun y => (1 - strength (s_neighbours s) (s_winner s') i j / 100) * y) (vsub (s_neurons s i j) x).
Proof.
  intros W Lx. unfold kround, kforward. destruct (winner_nearest N (fun p => sqdist (s_neurons s (fst p) (snd p)) x) P) as (w & E & Ne).
  change (fun p : nat * nat => rsum (map (fun x0 : R => x0 ^ 2) (vsub (s_neurons s (fst p) (snd p)) x))) with (fun p : nat * nat => sqdist (s_neurons s (fst p) (snd p)) x).
  rewrite E. cbn [rbind fst snd]. eexists. split; [reflexivity|]. unfold kbackward. cbn [s_neurons s_diff s_winner s_neighbours]. split.
  - intros i j. cbn [s_neurons]. destruct (_ && _)%bool; [|apply W]. rewrite vsub_length; [apply W|]. rewrite map_length, vsub_length; rewrite W; congruence.
  - split; [exact Ne|]. split; [reflexivity|]. intros i j G. destruct Ne as ((Gw & Gw') & _). destruct G as (Gi & Gj). cbn [fst snd] in Gi, Gj. rewrite !neighbours_spec by assumption.
    assert (Ap : forall a b, vsub a b = map (fun y => (1 - 0 / 100) * y) (vsub a b)).
    { intros a b. rewrite <- (map_id (vsub a b)) at 1. apply map_ext. intro y. field. }
    unfold strength. destruct (Z.ltb_spec (Int_part (s_neighbours s)) (Z.of_nat (Nat.max (apart i (fst w)) (apart j (snd w))))) as [L|L].
    + assert (F : ((Z.of_nat (apart i (fst w)) <=? Int_part (s_neighbours s)) && (Z.of_nat (apart j (snd w)) <=? Int_part (s_neighbours s)))%Z%bool = false)
        by (apply andb_false_iff; rewrite !Z.leb_gt; lia). rewrite F. apply Ap.
    + assert (F : ((Z.of_nat (apart i (fst w)) <=? Int_part (s_neighbours s)) && (Z.of_nat (apart j (snd w)) <=? Int_part (s_neighbours s)))%Z%bool = true)
        by (apply andb_true_iff; rewrite !Z.leb_le; lia). rewrite F, <- tempm_spec by exact P. apply move_diff. rewrite W. congruence.
Qed.
Lemma strength_range r w i j : 0 <= strength r w i j <= 1.
Proof. unfold strength. destruct (_ <? _)%Z; [lra|]. rewrite <- tempm_spec by exact P. apply tempm_range, P. Qed.
Lemma strength_winner r w : 0 <= r -> strength r w (fst w) (snd w) = 1.
Proof.
  intro H. unfold strength. unfold apart. rewrite !Nat.sub_diag. cbn [Nat.add Nat.max]. assert (L : (0 <= Int_part r)%Z).
  { destruct (base_Int_part r) as (_ & B). apply Z.lt_succ_r, lt_IZR. rewrite succ_IZR. lra. }
  destruct (Z.ltb_spec (Int_part r) (Z.of_nat 0)); [lia|]. cbn [INR]. unfold Rdiv. rewrite Rmult_0_l, Rminus_0_r. apply Rmax_right. lra.
Qed.
Lemma round_dist full s x s' : wf s -> length x = dim -> kround N full s x = Ok s' -> forall i j, onGrid N (i, j) ->
  sqdist (s_neurons s' i j) x = (1 - strength (s_neighbours s) (s_winner s') i j / 100) ^ 2 * sqdist (s_neurons s i j) x.
Proof.
  intros W Lx E i j G. destruct (round_spec full s x W Lx) as (t & Et & _ & _ & _ & M). rewrite E in Et. injection Et as <-. unfold sqdist. rewrite M by exact G. apply sq_scale.
Qed.
(** the winner stays the winner *)
Lemma winner_stays full s x s' : wf s -> length x = dim -> 0 <= s_neighbours s -> kround N full s x = Ok s' -> nearest N (fun i j => sqdist (s_neurons s' i j) x) (s_winner s').
Proof.
  intros W Lx Hr E. destruct (round_spec full s x W Lx) as (t & Et & _ & (G & Ne) & _). rewrite E in Et. injection Et as <-. split; [exact G|]. intros i j H.
  rewrite !(round_dist full s x s' W Lx E); [|exact H | destruct (s_winner s'); exact G]. rewrite strength_winner by exact Hr.
  pose proof (strength_range (s_neighbours s) (s_winner s') i j) as S. set (c := strength (s_neighbours s) (s_winner s') i j) in *.
  destruct (Ne i j H) as (L & L'). set (e := sqdist (s_neurons s i j) x) in *. set (ew := sqdist (s_neurons s (fst (s_winner s')) (snd (s_winner s'))) x) in *.
  pose proof (sqdist_pos (s_neurons s (fst (s_winner s')) (snd (s_winner s'))) x) as Pw. fold ew in Pw.
  assert (C : (1 - 1 / 100) ^ 2 <= (1 - c / 100) ^ 2) by (apply pow_incr; lra).
  assert (C0 : 0 < (1 - 1 / 100) ^ 2) by (apply pow_lt; lra). split; [|intro B; specialize (L' B)]; nra.
Qed.
(** the same input again and again *)
Lemma rounds_same full x : length x = dim -> forall n s, wf s -> 0 <= s_neighbours s -> exists s', ktrain N full s (repeat x n) = Ok s' /\ wf s' /\ 0 <= s_neighbours s' /\
  s_neighbours s' = s_neighbours s * (9999 / 10000) ^ n /\
  forall w, nearest N (fun i j => sqdist (s_neurons s i j) x) w -> nearest N (fun i j => sqdist (s_neurons s' i j) x) w /\
    sqdist (s_neurons s' (fst w) (snd w)) x = (9801 / 10000) ^ n * sqdist (s_neurons s (fst w) (snd w)) x.
Proof.
  intro Lx. induction n as [|n IH]; intros s W Hr.
  - exists s. cbn [repeat ktrain pow]. split; [reflexivity|]. split; [exact W|]. split; [exact Hr|]. split; [ring|]. intros w Ne. split; [exact Ne | ring].
  - cbn [repeat ktrain]. destruct (round_spec full s x W Lx) as (t & Et & Wt & Ne & Nt & _). rewrite Et. cbn [rbind]. assert (Ht : 0 <= s_neighbours t) by (rewrite Nt; lra).
    destruct (IH t Wt Ht) as (s' & E & W' & H' & N' & K). exists s'. split; [exact E|]. split; [exact W'|]. split; [exact H'|].
    split; [rewrite N', Nt; cbn [pow]; ring|]. intros w Hw. assert (w = s_winner t) as -> by (eapply nearest_unique; eassumption).
    destruct (K (s_winner t)) as (K1 & K2); [apply (winner_stays full s x t W Lx Hr Et)|]. split; [exact K1|]. rewrite K2.
    rewrite (round_dist full s x t W Lx Et) by (destruct Ne as (G & _); destruct (s_winner t); exact G). rewrite strength_winner by exact Hr. cbn [pow]. field.
Qed.
End Round.
