(** C68, part 1: arrays, finite sums, ranks. *)
From Coq Require Import Reals Lra.
From Verif Require Import Base StableSort Functions_Model Distrib_Model Distrib_Spec.
Local Open Scope R_scope.

(** ** sums *)
Lemma total_sumn n f : total n f = sumn n f.
Proof. reflexivity. Qed.
Lemma sumn_ext n f g : (forall i, (i < n)%nat -> f i = g i) -> sumn n f = sumn n g.
Proof. induction n as [|n IH]; intro H; cbn [sumn]; auto. rewrite IH, (H n) by auto; auto. Qed.
Lemma sumn_plus n f g : sumn n (fun i => f i + g i) = sumn n f + sumn n g.
Proof. induction n as [|n IH]; cbn [sumn]; [ring|rewrite IH; ring]. Qed.
Lemma sumn_scal n c f : sumn n (fun i => c * f i) = c * sumn n f.
Proof. induction n as [|n IH]; cbn [sumn]; [ring|rewrite IH; ring]. Qed.
Lemma sumn_scal_r n c f : sumn n (fun i => f i * c) = sumn n f * c.
Proof. induction n as [|n IH]; cbn [sumn]; [ring|rewrite IH; ring]. Qed.
Lemma sumn_opp n f : sumn n (fun i => - f i) = - sumn n f.
Proof. induction n as [|n IH]; cbn [sumn]; [ring|rewrite IH; ring]. Qed.
Lemma sumn_minus n f g : sumn n (fun i => f i - g i) = sumn n f - sumn n g.
Proof. induction n as [|n IH]; cbn [sumn]; [ring|rewrite IH; ring]. Qed.
Lemma sumn_const n c : sumn n (fun _ => c) = INR n * c.
Proof. induction n as [|n IH]; cbn [sumn]; [cbn; ring|rewrite IH, S_INR; ring]. Qed.
Lemma sumn_zero n f : (forall i, (i < n)%nat -> f i = 0) -> sumn n f = 0.
Proof. intro H. rewrite (sumn_ext n f (fun _ => 0)) by auto. rewrite sumn_const. ring. Qed.
Lemma sumn_nonneg n f : (forall i, (i < n)%nat -> 0 <= f i) -> 0 <= sumn n f.
Proof. induction n as [|n IH]; intro H; cbn [sumn]; [lra|]. assert (0 <= sumn n f) by (apply IH; auto). assert (0 <= f n) by auto. lra. Qed.
Lemma sumn_le n f g : (forall i, (i < n)%nat -> f i <= g i) -> sumn n f <= sumn n g.
Proof. induction n as [|n IH]; intro H; cbn [sumn]; [lra|]. assert (sumn n f <= sumn n g) by (apply IH; auto). assert (f n <= g n) by auto. lra. Qed.
Lemma sumn_pos n f k : (forall i, (i < n)%nat -> 0 <= f i) -> (k < n)%nat -> 0 < f k -> 0 < sumn n f.
Proof.
  induction n as [|n IH]; intros H Hk Hp; [lia|]. cbn [sumn]. assert (0 <= f n) by auto. assert (0 <= sumn n f) by (apply sumn_nonneg; auto).
  destruct (Nat.eq_dec k n) as [->|]; [lra|]. assert (0 < sumn n f) by (apply IH; auto; lia). lra.
Qed.
Lemma sumn_swap n m f : sumn n (fun i => sumn m (fun j => f i j)) = sumn m (fun j => sumn n (fun i => f i j)).
Proof.
  induction n as [|n IH]; cbn [sumn]; [symmetry; apply sumn_zero; auto|]. rewrite IH, <- sumn_plus. reflexivity.
Qed.
Lemma delta_eq i : delta i i = 1.
Proof. unfold delta. rewrite Nat.eqb_refl. reflexivity. Qed.
Lemma delta_neq i j : i <> j -> delta i j = 0.
Proof. intro H. unfold delta. apply Nat.eqb_neq in H. rewrite H. reflexivity. Qed.
Lemma delta_sym i j : delta i j = delta j i.
Proof. unfold delta. rewrite Nat.eqb_sym. reflexivity. Qed.
Lemma sumn_delta n k f : (k < n)%nat -> sumn n (fun i => delta k i * f i) = f k.
Proof.
  induction n as [|n IH]; intro H; [lia|]. cbn [sumn]. destruct (Nat.eq_dec k n) as [->|Hne].
  - rewrite delta_eq, sumn_zero; [ring|]. intros i Hi. rewrite delta_neq by lia. ring.
  - rewrite IH, (delta_neq k n) by lia. ring.
Qed.
Lemma sumn_delta_r n k f : (k < n)%nat -> sumn n (fun i => f i * delta i k) = f k.
Proof. intro H. rewrite <- (sumn_delta n k f H). apply sumn_ext. intros i Hi. rewrite delta_sym. ring. Qed.

(** ** arrays *)
Lemma tab_length n f : length (tab n f) = n.
Proof. unfold tab. rewrite map_length, seq_length. reflexivity. Qed.
Lemma get_tab n f i : (i < n)%nat -> get (tab n f) i = f i.
Proof.
  intro H. unfold get, tab. rewrite (nth_indep _ 0 (f O)) by (rewrite map_length, seq_length; auto). rewrite map_nth, seq_nth by auto. reflexivity.
Qed.
Lemma mget_mtab n m f i j : (i < n)%nat -> (j < m)%nat -> mget (mtab n m f) i j = f i j.
Proof.
  intros Hi Hj. unfold mget, mtab. rewrite (nth_indep _ [] (tab m (f O))) by (rewrite map_length, seq_length; auto).
  rewrite (map_nth (fun i => tab m (f i))), seq_nth by auto. cbn [plus]. apply get_tab. auto.
Qed.
Lemma list_ext {A} (d : A) (a b : list A) : length a = length b -> (forall i, (i < length a)%nat -> nth i a d = nth i b d) -> a = b.
Proof. intros Hl H. apply (nth_ext a b d d); auto. Qed.
Lemma tab_get n v : length v = n -> tab n (get v) = v.
Proof.
  intro H. apply (list_ext 0); rewrite tab_length; auto. intros i Hi. change (get (tab n (get v)) i = get v i). apply get_tab. auto.
Qed.
Lemma tab_ext n f g : (forall i, (i < n)%nat -> f i = g i) -> tab n f = tab n g.
Proof. intro H. unfold tab. apply map_ext_in. intros i Hi. apply in_seq in Hi. apply H. lia. Qed.
Lemma mtab_ext n m f g : (forall i j, (i < n)%nat -> (j < m)%nat -> f i j = g i j) -> mtab n m f = mtab n m g.
Proof. intro H. unfold mtab. apply map_ext_in. intros i Hi. apply in_seq in Hi. apply tab_ext. intros j Hj. apply H; auto. lia. Qed.
Lemma get_map (g : R -> R) v i : (i < length v)%nat -> get (map g v) i = g (get v i).
Proof. intro H. unfold get. rewrite (nth_indep _ 0 (g 0)) by (rewrite map_length; auto). apply map_nth. Qed.
Lemma vec_ext n v w : length v = n -> length w = n -> (forall i, (i < n)%nat -> get v i = get w i) -> v = w.
Proof. intros Hv Hw H. apply (list_ext 0); [congruence|]. intros i Hi. apply H. congruence. Qed.

(** ** ranks *)
Definition idx_leb (l : vec) (i j : nat) : bool := fit_leb (get l i, i) (get l j, j).
Lemma insert_map {A B} (leb : B -> B -> bool) (g : A -> B) x l : insert leb (g x) (map g l) = map g (insert (fun a b => leb (g a) (g b)) x l).
Proof. induction l as [|a l IH]; cbn [insert map]; auto. destruct (leb (g x) (g a)); cbn [map]; auto. rewrite IH. auto. Qed.
Lemma isort_map {A B} (leb : B -> B -> bool) (g : A -> B) l : isort leb (map g l) = map g (isort (fun a b => leb (g a) (g b)) l).
Proof. unfold isort. induction l as [|a l IH]; cbn [map fold_right]; auto. rewrite IH. apply insert_map. Qed.
Lemma insert_ext {A} (f g : A -> A -> bool) x l : (forall b, In b l -> f x b = g x b) -> insert f x l = insert g x l.
Proof. induction l as [|a l IH]; intro H; cbn [insert]; auto. rewrite (H a) by (left; auto). rewrite IH by (intros; apply H; right; auto). auto. Qed.
Lemma isort_ext {A} (f g : A -> A -> bool) l : (forall a b, In a l -> In b l -> f a b = g a b) -> isort f l = isort g l.
Proof.
  unfold isort. induction l as [|a l IH]; intro H; cbn [fold_right]; auto. rewrite IH by (intros; apply H; right; auto).
  apply insert_ext. intros b Hb. apply H; [left; auto|right]. apply (Permutation_in _ (isort_perm g l)). exact Hb.
Qed.
Lemma combine_index l : forall a, combine l (seq a (length l)) = map (fun i => (get l (i - a), i)) (seq a (length l)).
Proof.
  induction l as [|x l IH]; intro a; cbn [length seq combine map]; auto. f_equal; [rewrite Nat.sub_diag; auto|]. rewrite IH. apply map_ext_in.
  intros i Hi. apply in_seq in Hi. f_equal. replace (i - a)%nat with (S (i - S a)) by lia. reflexivity.
Qed.
Definition index_order (l : vec) : list nat := isort (idx_leb l) (seq 0 (length l)).
Lemma sorted_pairs_index l : sorted_pairs l = map (fun i => (get l i, i)) (index_order l).
Proof.
  unfold sorted_pairs, index_order. rewrite combine_index.
  rewrite (map_ext _ (fun i => (get l i, i))) by (intro i; rewrite Nat.sub_0_r; reflexivity). exact (isort_map fit_leb (fun i => (get l i, i)) (seq 0 (length l))).
Qed.
Lemma idx_leb_iff l i j : idx_leb l i j = true <-> get l i < get l j \/ get l i = get l j /\ (i <= j)%nat.
Proof.
  unfold idx_leb, fit_leb. cbn [fst snd]. destruct (Rlt_dec (get l i) (get l j)) as [H|H]; [tauto|].
  destruct (Rlt_dec (get l j) (get l i)) as [H'|H'].
  - split; [discriminate|]. intros [?|[? _]]; lra.
  - rewrite Nat.leb_le. split; [|intros [?|[_ ?]]; [lra|auto]]. intro. right. split; auto. lra.
Qed.
Lemma idx_leb_total l i j : idx_leb l i j = true \/ idx_leb l j i = true.
Proof. rewrite !idx_leb_iff. destruct (Rtotal_order (get l i) (get l j)) as [H|[H|H]]; [auto| |auto]. destruct (Nat.le_ge_cases i j); auto. Qed.
Lemma idx_leb_trans l i j k : idx_leb l i j = true -> idx_leb l j k = true -> idx_leb l i k = true.
Proof. rewrite !idx_leb_iff. intros [H|[H H1]] [H'|[H' H2]]; [left; lra|left; lra|left; lra|right; split; [lra|lia]]. Qed.
Lemma idx_leb_antisym l i j : idx_leb l i j = true -> idx_leb l j i = true -> i = j.
Proof. rewrite !idx_leb_iff. intros [H|[H H1]] [H'|[H' H2]]; try lra. lia. Qed.
Lemma order_perm l : Permutation (index_order l) (seq 0 (length l)).
Proof. apply isort_perm. Qed.
Lemma order_length l : length (index_order l) = length l.
Proof. rewrite (Permutation_length (order_perm l)). apply seq_length. Qed.
Lemma order_NoDup l : NoDup (index_order l).
Proof. eapply Permutation_NoDup; [symmetry; apply order_perm|apply seq_NoDup]. Qed.
Lemma order_In l i : In i (index_order l) <-> (i < length l)%nat.
Proof.
  split; intro H.
  - apply (Permutation_in _ (order_perm l)), in_seq in H. lia.
  - apply (Permutation_in _ (Permutation_sym (order_perm l))), in_seq. lia.
Qed.
Lemma order_sorted l : StronglySorted (fun i j => idx_leb l i j = true) (index_order l).
Proof. apply (isort_sorted (idx_leb l) (idx_leb_total l) (idx_leb_trans l)). Qed.

(** writing the positions *)
Definition write (a : nat) (ord res : list nat) : list nat := fold_left (fun res p => upd (snd p) (fst p) res) (combine (seq a (length ord)) ord) res.
Lemma ranked_write l : rankedFitness l = write 0 (index_order l) (repeat O (length l)).
Proof.
  unfold rankedFitness, write. rewrite sorted_pairs_index, map_length. generalize (repeat O (length l)) as res. generalize O as a.
  induction (index_order l) as [|i o IH]; intros a res; cbn [length seq map combine fold_left fst snd]; auto.
Qed.
Lemma write_length o : forall a res, length (write a o res) = length res.
Proof. unfold write. induction o as [|k o IH]; intros a res; cbn [length seq combine fold_left]; auto. rewrite IH, upd_length. auto. Qed.
Lemma write_other o : forall a res j, ~ In j o -> nth_error (write a o res) j = nth_error res j.
Proof.
  unfold write. induction o as [|k o IH]; intros a res j Hj; cbn [length seq combine fold_left]; auto.
  cbn in Hj. rewrite IH by tauto. apply nth_error_upd_neq. cbn. tauto.
Qed.
Lemma write_at o : forall a res i j, NoDup o -> nth_error o i = Some j -> (j < length res)%nat -> nth_error (write a o res) j = Some (a + i)%nat.
Proof.
  unfold write. induction o as [|k o IH]; intros a res i j Hn Hi Hj; [destruct i; discriminate|].
  cbn [length seq combine fold_left snd fst] in *. inversion Hn; subst. destruct i as [|i]; cbn in Hi.
  - injection Hi as ->. pose proof (write_other o (S a) (upd j a res) j H1) as E. unfold write in E. rewrite E.
    rewrite nth_error_upd_eq by auto. f_equal. lia.
  - rewrite (IH (S a) _ i j); auto; [f_equal; lia|rewrite upd_length; auto].
Qed.
Lemma ranked_length l : length (rankedFitness l) = length l.
Proof. rewrite ranked_write, write_length, repeat_length. reflexivity. Qed.
(** before i in the counting sense: at a smaller position *)
Lemma before_iff l j i : before (get l) j i = true <-> idx_leb l j i = true /\ j <> i.
Proof.
  unfold before. rewrite idx_leb_iff. destruct (Rlt_dec (get l j) (get l i)) as [H|H].
  - split; auto. intros _. split; auto. intros ->. lra.
  - destruct (Rlt_dec (get l i) (get l j)); [split; [discriminate|intros [[?|[? _]] _]; lra]|].
    rewrite Nat.ltb_lt. split; [intro; split; [right; split; [lra|lia]|lia]|]. intros [[?|[_ ?]] ?]; [lra|lia].
Qed.
Lemma filter_perm {A} (f : A -> bool) l m : Permutation l m -> length (filter f l) = length (filter f m).
Proof. induction 1; cbn; auto; [destruct (f x); cbn; auto|destruct (f x), (f y); cbn; auto|congruence]. Qed.
(** in a sorted list, the elements before the p-th are the first p *)
Lemma sorted_count l o p i : StronglySorted (fun i j => idx_leb l i j = true) o -> NoDup o -> nth_error o p = Some i ->
  length (filter (fun j => before (get l) j i) o) = p.
Proof.
  revert p. induction o as [|k o IH]; intros p Hs Hn Hp; [destruct p; discriminate|].
  inversion Hs as [|? ? Hs' Hf]; subst. inversion Hn as [|? ? Hk Hn']; subst. rewrite Forall_forall in Hf. destruct p as [|p]; cbn in Hp.
  - injection Hp as ->. cbn [filter].
    assert (E : forall m, (forall x, In x m -> idx_leb l i x = true) -> filter (fun j => before (get l) j i) m = []).
    { induction m as [|x m IHm]; intro H; auto. cbn [filter].
      assert (Hb : before (get l) x i = false).
      { destruct (before (get l) x i) eqn:E; auto. apply before_iff in E. destruct E as [E1 E2]. exfalso. apply E2.
        apply (idx_leb_antisym l); auto. apply H. left. auto. }
      rewrite Hb. apply IHm. intros y Hy. apply H. right. auto. }
    assert (Hb : before (get l) i i = false).
    { destruct (before (get l) i i) eqn:E0; auto. apply before_iff in E0. tauto. }
    rewrite Hb, E; auto.
  - cbn [filter]. assert (Hin : In i o) by (eapply nth_error_In; eauto).
    assert (Hb : before (get l) k i = true).
    { apply before_iff. split; [apply Hf; auto|]. intros ->. auto. }
    rewrite Hb. cbn [length]. rewrite (IH p); auto.
Qed.
(** rankedFitness counts *)
Lemma ranked_rank l : rankedFitness l = map (rank (length l) (get l)) (seq 0 (length l)).
Proof.
  apply (list_ext O); [rewrite ranked_length, map_length, seq_length; auto|]. rewrite ranked_length. intros i Hi.
  rewrite (nth_indep (map _ _) O (rank (length l) (get l) O)) by (rewrite map_length, seq_length; auto).
  rewrite (map_nth (rank (length l) (get l))), seq_nth by auto. cbn [plus].
  assert (Hin : In i (index_order l)) by (apply order_In; auto). apply In_nth_error in Hin. destruct Hin as (p & Hp).
  assert (E : nth_error (rankedFitness l) i = Some p).
  { rewrite ranked_write. rewrite (write_at _ 0 _ p i); auto; [apply order_NoDup|rewrite repeat_length; auto]. }
  apply nth_error_nth with (d := O) in E. rewrite E. unfold rank.
  rewrite <- (filter_perm (fun j => before (get l) j i) _ _ (order_perm l)). symmetry.
  apply sorted_count; auto; [apply order_sorted|apply order_NoDup].
Qed.
Lemma order_nth_rank l p : (p < length l)%nat -> rank (length l) (get l) (nth p (index_order l) O) = p.
Proof.
  intro H. unfold rank. rewrite <- (filter_perm _ _ _ (order_perm l)). apply sorted_count; [apply order_sorted|apply order_NoDup|].
  apply nth_error_nth'. rewrite order_length. auto.
Qed.
(** the ranks are a permutation *)
Lemma ranked_perm l : Permutation (rankedFitness l) (seq 0 (length l)).
Proof.
  rewrite ranked_rank. transitivity (map (rank (length l) (get l)) (index_order l)); [apply Permutation_map; symmetry; apply order_perm|].
  replace (map (rank (length l) (get l)) (index_order l)) with (seq 0 (length l)); [apply Permutation_refl|].
  apply (list_ext O); rewrite seq_length; [rewrite map_length, order_length; auto|]. intros i Hi. rewrite seq_nth by auto. cbn [plus].
  rewrite (nth_indep _ O (rank (length l) (get l) O)) by (rewrite map_length, order_length; auto). rewrite map_nth. symmetry. apply order_nth_rank. auto.
Qed.
Lemma rank_lt n e i : (i < n)%nat -> (rank n e i < n)%nat.
Proof.
  intro H. unfold rank. enough (E : forall m (f : nat -> bool), In i m -> f i = false -> (length (filter f m) < length m)%nat).
  { rewrite <- (seq_length n 0) at 2. apply E; [apply in_seq; lia|]. unfold before. destruct (Rlt_dec (e i) (e i)); [lra|]. apply Nat.ltb_irrefl. }
  induction m as [|a m IH]; intros f Hin Hf; [destruct Hin|]. cbn [filter length]. destruct Hin as [->|Hin].
  - rewrite Hf. enough (length (filter f m) <= length m)%nat by lia. clear. induction m; cbn; [lia|destruct (f a); cbn; lia].
  - specialize (IH f Hin Hf). destruct (f a); cbn [length]; lia.
Qed.
(** ranks compare as (fitness, index) *)
Lemma rank_order n e i j : (i < n)%nat -> (j < n)%nat -> e i < e j -> (rank n e i < rank n e j)%nat.
Proof.
  intros Hi Hj H. unfold rank.
  assert (E : forall m (f g : nat -> bool), (forall x, In x m -> f x = true -> g x = true) -> In i m -> f i = false -> g i = true ->
     (length (filter f m) < length (filter g m))%nat).
  { assert (L : forall m (f g : nat -> bool), (forall x, In x m -> f x = true -> g x = true) -> (length (filter f m) <= length (filter g m))%nat).
    { induction m as [|a m IH]; intros f g Hfg; cbn [filter length]; [lia|].
      pose proof (IH f g (fun x Hx => Hfg x (or_intror Hx))). pose proof (Hfg a (or_introl eq_refl)).
      destruct (f a), (g a); cbn [length]; try lia; try (exfalso; intuition discriminate). }
    induction m as [|a m IH]; intros f g Hfg Hin Hf Hg; [destruct Hin|]. cbn [filter]. destruct Hin as [->|Hin].
    - rewrite Hf, Hg. cbn [length]. pose proof (L m f g (fun x Hx => Hfg x (or_intror Hx))). lia.
    - pose proof (IH f g (fun x Hx => Hfg x (or_intror Hx)) Hin Hf Hg). pose proof (Hfg a (or_introl eq_refl)).
      destruct (f a), (g a); cbn [length]; try lia; try (exfalso; intuition discriminate). }
  apply E.
  - intros x _. unfold before. destruct (Rlt_dec (e x) (e i)); [intros _; destruct (Rlt_dec (e x) (e j)); auto; lra|].
    destruct (Rlt_dec (e i) (e x)); [discriminate|]. intros _. destruct (Rlt_dec (e x) (e j)); auto. lra.
  - apply in_seq. lia.
  - unfold before. destruct (Rlt_dec (e i) (e i)); [lra|]. apply Nat.ltb_irrefl.
  - unfold before. destruct (Rlt_dec (e i) (e j)); [auto|lra].
Qed.
(** ranks only depend on the order *)
Lemma before_order (e d : nat -> R) j i : (e j < e i <-> d j < d i) -> (e i < e j <-> d i < d j) -> before e j i = before d j i.
Proof.
  intros H1 H2. unfold before. destruct (Rlt_dec (e j) (e i)), (Rlt_dec (d j) (d i)); auto; try tauto.
  destruct (Rlt_dec (e i) (e j)), (Rlt_dec (d i) (d j)); auto; tauto.
Qed.
Lemma rank_same n (e d : nat -> R) i : (i < n)%nat -> (forall a b, (a < n)%nat -> (b < n)%nat -> (e a < e b <-> d a < d b)) -> rank n e i = rank n d i.
Proof.
  intros Hi H. unfold rank. f_equal. apply filter_ext_in. intros j Hj. apply in_seq in Hj. apply before_order; apply H; lia.
Qed.
Lemma ranked_same l m : length l = length m -> (forall a b, (a < length l)%nat -> (b < length l)%nat -> (get l a < get l b <-> get m a < get m b)) ->
  rankedFitness l = rankedFitness m.
Proof. intros Hl H. rewrite !ranked_rank, <- Hl. apply map_ext_in. intros i Hi. apply in_seq in Hi. apply rank_same; [lia|]. auto. Qed.
Lemma order_same l m : length l = length m -> (forall a b, (a < length l)%nat -> (b < length l)%nat -> (get l a < get l b <-> get m a < get m b)) ->
  index_order l = index_order m.
Proof.
  intros Hl H. unfold index_order. rewrite <- Hl. apply isort_ext. intros a b Ha Hb. apply in_seq in Ha, Hb. unfold idx_leb, fit_leb. cbn [fst snd].
  pose proof (H a b ltac:(lia) ltac:(lia)) as H1. pose proof (H b a ltac:(lia) ltac:(lia)) as H2.
  destruct (Rlt_dec (get l a) (get l b)), (Rlt_dec (get m a) (get m b)); try tauto.
  destruct (Rlt_dec (get l b) (get l a)), (Rlt_dec (get m b) (get m a)); tauto.
Qed.
