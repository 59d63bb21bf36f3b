(** Lemmas for C80: swipes and blocks. *)
From Coq Require Import Permutation.
From Verif Require Import Base Utilities_Model Mdrnn_Model Mdrnn_Spec.
Local Open Scope nat_scope.

(** ** swipes *)
Lemma nth_flat_map {B} (f : B -> list nat) size : forall l i j b0, (forall x, In x l -> length (f x) = size) -> i < length l -> j < size ->
  nth (i * size + j) (flat_map f l) 0 = nth j (f (nth i l b0)) 0.
Proof.
  induction l as [|x l IH]; intros i j b0 H Hi Hj; [cbn in Hi; lia|]. cbn [flat_map]. pose proof (H x (or_introl eq_refl)) as Lx. destruct i as [|i].
  - cbn [Nat.mul Nat.add nth]. rewrite app_nth1 by lia. reflexivity.
  - rewrite app_nth2 by (cbn [Nat.mul]; lia). replace (S i * size + j - length (f x)) with (i * size + j) by (cbn [Nat.mul]; lia).
    cbn [nth]. apply IH; [intros; apply H; now right | cbn in Hi; lia | exact Hj].
Qed.
Lemma flat_map_len {B C} (f : B -> list C) size : forall l, (forall x, In x l -> length (f x) = size) -> length (flat_map f l) = length l * size.
Proof. induction l as [|x l IH]; intro H; [reflexivity|]. cbn [flat_map length Nat.mul]. rewrite app_length, H, IH; [lia | intros; apply H; now right | now left]. Qed.
Lemma swipe_length shape : forall dirs, length (swipe shape dirs) = prod shape.
Proof.
  induction shape as [|s shape IH]; intro dirs; [reflexivity|]. cbn [swipe]. 
  assert (L : forall d dirs', length (flat_map (fun i => map (fun j => i * prod shape + j) (swipe shape dirs')) (if (d : bool) then rev (seq 0 s) else seq 0 s)) = prod (s :: shape)).
  { intros d dirs'. rewrite (flat_map_len _ (prod shape)) by (intros; rewrite map_length; apply IH). destruct d; rewrite ?rev_length, seq_length; reflexivity. }
  destruct dirs as [|d dirs]; [exact (L false []) | exact (L d dirs)].
Qed.
Lemma number_lt shape : forall cs, inside shape cs -> number shape cs < prod shape.
Proof.
  induction shape as [|s shape IH]; intros cs H; inversion H as [|? c ? cs' H1 H2]; subst; cbn [number prod fold_right]; [lia|].
  specialize (IH _ H2). fold (prod shape). nia.
Qed.
Lemma swipe_number shape : forall dirs cs, inside shape cs -> nth (number shape cs) (swipe shape dirs) 0 = number shape (mirrored shape dirs cs).
Proof.
  induction shape as [|s shape IH]; intros dirs cs H; inversion H as [|? c ? cs' H1 H2]; subst; [reflexivity|].
  assert (L : forall d dirs', nth (c * prod shape + number shape cs')
      (flat_map (fun i => map (fun j => i * prod shape + j) (swipe shape dirs')) (if (d : bool) then rev (seq 0 s) else seq 0 s)) 0 =
      (if d then s - 1 - c else c) * prod shape + number shape (mirrored shape dirs' cs')).
  { intros d dirs'. pose proof (number_lt shape cs' H2) as N.
    rewrite (nth_flat_map _ (prod shape) _ _ _ 0); [ | intros; rewrite map_length; apply swipe_length | destruct d; rewrite ?rev_length, seq_length; exact H1 | exact N].
    rewrite (nth_indep _ 0 (nth c (if d then rev (seq 0 s) else seq 0 s) 0 * prod shape + 0)) by (rewrite map_length, swipe_length; exact N).
    rewrite (map_nth (fun j => _ * prod shape + j)), IH by exact H2. f_equal. f_equal. destruct d.
    - rewrite rev_nth by (rewrite seq_length; exact H1). rewrite seq_length, seq_nth by lia. lia.
    - rewrite seq_nth by exact H1. reflexivity. }
  destruct dirs as [|d dirs]; cbn [swipe number mirrored]; [exact (L false []) | exact (L d dirs)].
Qed.
Lemma number_onto shape : forall k, k < prod shape -> exists cs, inside shape cs /\ number shape cs = k.
Proof.
  induction shape as [|s shape IH]; intros k H; cbn [prod fold_right] in H.
  - exists []. split; [constructor | cbn; lia].
  - fold (prod shape) in H. assert (P : prod shape <> 0) by nia. destruct (IH (k mod prod shape)) as (cs & I & E); [apply Nat.mod_upper_bound; exact P|].
    exists (k / prod shape :: cs). split.
    + constructor; [|exact I]. apply Nat.div_lt_upper_bound; [exact P | lia].
    + cbn [number]. rewrite E. pose proof (Nat.div_mod k (prod shape) P). lia.
Qed.
Lemma number_inj shape : forall cs cs', inside shape cs -> inside shape cs' -> number shape cs = number shape cs' -> cs = cs'.
Proof.
  induction shape as [|s shape IH]; intros cs cs' H H' E; inversion H as [|? c ? t H1 H2]; inversion H' as [|? c' ? t' H1' H2']; subst; [reflexivity|].
  cbn [number] in E. pose proof (number_lt shape t H2) as N. pose proof (number_lt shape t' H2') as N'.
  destruct (Nat.div_mod_unique (prod shape) c c' (number shape t) (number shape t') N N') as (A & B); [lia|]. subst. f_equal. apply IH; auto.
Qed.
Lemma mirrored_inside shape : forall dirs cs, inside shape cs -> inside shape (mirrored shape dirs cs).
Proof.
  induction shape as [|s shape IH]; intros dirs cs H; inversion H as [|? c ? t H1 H2]; subst; [constructor|]. destruct dirs as [|d dirs]; cbn [mirrored]; constructor; auto; try (apply IH; exact H2).
  destruct d; lia.
Qed.
Lemma mirrored_twice shape : forall dirs cs, inside shape cs -> mirrored shape dirs (mirrored shape dirs cs) = cs.
Proof.
  induction shape as [|s shape IH]; intros dirs cs H; inversion H as [|? c ? t H1 H2]; subst; [reflexivity|]. destruct dirs as [|d dirs]; cbn [mirrored]; f_equal; try (apply IH; exact H2).
  destruct d; lia.
Qed.
Lemma swipe_range shape dirs k : k < prod shape -> nth k (swipe shape dirs) 0 < prod shape.
Proof. intro H. destruct (number_onto shape k H) as (cs & I & <-). rewrite swipe_number by exact I. apply number_lt, mirrored_inside, I. Qed.
Lemma swipe_twice shape dirs k : k < prod shape -> nth (nth k (swipe shape dirs) 0) (swipe shape dirs) 0 = k.
Proof.
  intro H. destruct (number_onto shape k H) as (cs & I & <-). rewrite !swipe_number; auto using mirrored_inside. rewrite mirrored_twice by exact I. reflexivity.
Qed.
Lemma swipe_perm shape dirs : permutation_of (prod shape) (swipe shape dirs).
Proof.
  split; [apply swipe_length|]. split.
  - apply (NoDup_nth _ 0). rewrite swipe_length. intros i j Hi Hj E. rewrite <- (swipe_twice shape dirs i Hi), <- (swipe_twice shape dirs j Hj), E. reflexivity.
  - apply Forall_forall. intros x Hx. destruct (In_nth _ _ 0 Hx) as (k & Hk & <-). rewrite swipe_length in Hk. apply swipe_range, Hk.
Qed.

(** ** permute *)
Lemma permute_ok {A} (d : A) (arr : list A) p : Forall (fun i => i < length arr) p -> permute arr p = Ok (map (fun i => nth i arr d) p).
Proof.
  induction p as [|i p IH]; intro H; [reflexivity|]. inversion H; subst. unfold permute in *. cbn [fold_right map]. rewrite IH by assumption. cbn [rbind].
  rewrite (nth_error_nth' arr d) by assumption. reflexivity.
Qed.
Lemma permute_seq n p : Forall (fun i => i < n) p -> permute (seq 0 n) p = Ok p.
Proof.
  intro H. rewrite (permute_ok 0) by (rewrite seq_length; exact H). f_equal. rewrite <- (map_id p) at 2. apply map_ext_in. intros i Hi.
  rewrite Forall_forall in H. rewrite seq_nth by (apply H, Hi). reflexivity.
Qed.
Lemma permute_back {A} p (x : list A) : permutation_of (length x) p -> (forall k, k < length x -> nth (nth k p 0) p 0 = k) ->
  exists y, permute x p = Ok y /\ permute y p = Ok x /\ forall k, k < length x -> nth_error y k = nth_error x (nth k p 0).
Proof.
  intros (L & _ & F) T. destruct x as [|d x'] eqn:Ex.
  - destruct p; [|discriminate L]. exists []. split; [reflexivity|]. split; [reflexivity|]. cbn. intros; lia.
  - rewrite <- Ex in *. clear Ex. exists (map (fun i => nth i x d) p). split; [apply permute_ok, F|].
    split.
    + rewrite (permute_ok d) by (rewrite map_length, L; exact F). f_equal. apply (nth_ext _ _ d d); [rewrite map_length; exact L|].
      intros k Hk. rewrite map_length in Hk. rewrite (nth_indep _ d (nth 0 (map (fun i => nth i x d) p) d)) by (rewrite map_length; exact Hk).
      rewrite (map_nth (fun i => nth i (map (fun i => nth i x d) p) d) p 0 k). assert (Hp : nth k p 0 < length x) by (rewrite Forall_forall in F; apply F, nth_In, Hk).
      rewrite (nth_indep _ d (nth 0 x d)) by (rewrite map_length; lia). rewrite (map_nth (fun i => nth i x d)). rewrite T by lia. reflexivity.
    + intros k Hk. rewrite nth_error_map. rewrite (nth_error_nth' p 0) by lia. cbn [option_map]. symmetry. apply nth_error_nth'. rewrite Forall_forall in F. apply F, nth_In. lia.
Qed.

(** ** the directions *)
Fixpoint allDirs (n : nat) : list (list bool) := match n with O => [[]] | S n => map (cons false) (allDirs n) ++ map (cons true) (allDirs n) end.
Lemma cross_dirs n : forall row, crossproduct (repeat [false; true] (S n)) row = Ok (map (app row) (allDirs (S n))).
Proof.
  induction n as [|n IH]; intro row; [reflexivity|].
  change (crossproduct (repeat [false; true] (S (S n))) row) with
    (let! l := let! l := Ok [] in let! r := crossproduct (repeat [false; true] (S n)) (row ++ [false]) in Ok (l ++ r) in
     let! r := crossproduct (repeat [false; true] (S n)) (row ++ [true]) in Ok (l ++ r)).
  rewrite !IH. cbn [rbind app]. f_equal. change (allDirs (S (S n))) with (map (cons false) (allDirs (S n)) ++ map (cons true) (allDirs (S n))).
  rewrite map_app, !map_map. f_equal; apply map_ext; intro a; rewrite <- app_assoc; reflexivity.
Qed.
Lemma allDirs_length n : length (allDirs n) = 2 ^ n.
Proof. induction n as [|n IH]; [reflexivity|]. cbn [allDirs]. rewrite app_length, !map_length, IH, Nat.pow_succ_r'. lia. Qed.
Lemma allDirs_spec n : forall ds, In ds (allDirs n) <-> length ds = n.
Proof.
  induction n as [|n IH]; intro ds; cbn [allDirs].
  - split; [intros [<- | []]; reflexivity | destruct ds; [now left | discriminate]].
  - rewrite in_app_iff, !in_map_iff. split.
    + intros [(x & <- & H) | (x & <- & H)]; apply IH in H; cbn; lia.
    + destruct ds as [|[] ds]; intro H; [discriminate | |]; [right | left]; exists ds; (split; [reflexivity|]; apply IH; cbn in H; lia).
Qed.
Lemma allDirs_nodup n : NoDup (allDirs n).
Proof.
  induction n as [|n IH]; cbn [allDirs]; [constructor; [intros []|constructor]|].
  assert (I : forall b, NoDup (map (cons b) (allDirs n))) by (intro b; apply FinFun.Injective_map_NoDup; [intros x y E; now inversion E | exact IH]).
  assert (D : forall x, In x (map (cons false) (allDirs n)) -> In x (map (cons true) (allDirs n)) -> False).
  { intros x H H'. apply in_map_iff in H as (y & <- & _). apply in_map_iff in H' as (z & E & _). discriminate. }
  pose proof (I false) as N0. revert D N0. generalize (map (cons false) (allDirs n)). induction l as [|x l IHl]; intros D N; cbn [app]; [apply I|].
  inversion N; subst. constructor; [rewrite in_app_iff; intros [H|H]; [contradiction | apply (D x); [now left | exact H]] | apply IHl; [intros y Hy; apply D; now right | assumption]].
Qed.

(** ** sizes *)
Lemma prod_blocks shape block : divides_all shape block -> 0 < prod block /\ prod shape = prod (map (fun p => fst p / snd p) (combine shape block)) * prod block.
Proof.
  induction 1 as [|s b shape block (Hb & q & ->) _ (P & IH)]; [cbn; lia|]. cbn [combine map fst snd prod fold_right]. fold (prod shape) (prod block).
  fold (prod (map (fun p : nat * nat => fst p / snd p) (combine shape block))). rewrite Nat.div_mul by lia. split; [nia|]. rewrite IH. ring.
Qed.
Lemma blocks_length shape block : divides_all shape block -> length (map (fun p => fst p / snd p) (combine shape block)) = length shape.
Proof. induction 1; cbn [combine map length]; [reflexivity|]. f_equal. assumption. Qed.

(** ** writing to places *)
Section Scatter.
Context {A : Type} (zero : A).
Lemma upd_nth (x : A) l j k : j < length l -> nth_error (firstn j l ++ x :: skipn (S j) l) k = if k =? j then Some x else nth_error l k.
Proof.
  intro H. destruct (Nat.eqb_spec k j) as [->|N].
  - rewrite nth_error_app2; rewrite firstn_length, Nat.min_l by lia; [|lia]. rewrite Nat.sub_diag. reflexivity.
  - destruct (Nat.lt_ge_cases k j) as [G|G].
    + rewrite nth_error_app1 by (rewrite firstn_length, Nat.min_l; lia). rewrite <- (firstn_skipn j l) at 2. rewrite nth_error_app1 by (rewrite firstn_length, Nat.min_l; lia). reflexivity.
    + rewrite nth_error_app2 by (rewrite firstn_length, Nat.min_l; lia). rewrite firstn_length, Nat.min_l by lia.
      destruct (k - j) as [|m] eqn:E; [lia|]. cbn [nth_error]. rewrite <- (firstn_skipn (S j) l) at 2. rewrite nth_error_app2 by (rewrite firstn_length, Nat.min_l; lia).
      rewrite firstn_length, Nat.min_l by lia. f_equal. lia.
Qed.
Lemma upd_length (x : A) l j : j < length l -> length (firstn j l ++ x :: skipn (S j) l) = length l.
Proof. intro H. rewrite app_length. cbn [length]. rewrite firstn_length, skipn_length, Nat.min_l by lia. lia. Qed.
Lemma scatter_spec j (arr : list A) : (forall i, i < length arr -> j i < length arr) ->
  (forall i i', i < length arr -> i' < length arr -> j i = j i' -> i = i') ->
  exists new, scatter zero j arr = Ok new /\ length new = length arr /\ forall i, i < length arr -> nth_error new (j i) = nth_error arr i.
Proof.
  intros B I. unfold scatter. set (n := length arr) in *.
  enough (G : forall k m acc, m + k = n -> length acc = n -> (forall i, i < m -> nth_error acc (j i) = nth_error arr i) ->
    exists new, fold_left (fun acc i => let! new := acc in
     match nth_error arr i with
     | Some x => if j i <? length new then Ok (firstn (j i) new ++ x :: skipn (S (j i)) new) else Err IndexError
     | None => Err IndexError
     end) (seq m k) (Ok acc) = Ok new /\ length new = n /\ forall i, i < n -> nth_error new (j i) = nth_error arr i).
  { apply (G n 0); [reflexivity | apply repeat_length | intros; lia]. }
  induction k as [|k IH]; intros m acc E L H; cbn [seq fold_left].
  - exists acc. split; [reflexivity|]. split; [exact L|]. intros i Hi. apply H. lia.
  - cbn [rbind]. destruct (nth_error arr m) as [x|] eqn:X; [|apply nth_error_None in X; fold n in X; lia].
    assert (Q : (j m <? length acc) = true) by (apply Nat.ltb_lt; rewrite L; apply B; lia). rewrite Q. apply Nat.ltb_lt in Q.
    apply IH; [lia | rewrite upd_length; [exact L | exact Q] |]. intros i Hi. rewrite upd_nth by exact Q. destruct (Nat.eqb_spec (j i) (j m)) as [Z|Z].
    + assert (i = m) by (apply I; [lia | lia | exact Z]). subst. symmetry. exact X.
    + apply H. assert (i <> m) by congruence. lia.
Qed.
End Scatter.

(** ** blocks in two dimensions: w = bw * W, the element in row bh * Y + v and column bw * X + u *)
Lemma j_floor_spec bh bw W X Y u v : u < bw -> v < bh -> X < W -> j_floor (bw * W) bh bw ((bh * Y + v) * (bw * W) + (bw * X + u)) = (Y * W + X) * (bw * bh) + v * bw + u.
Proof.
  intros Hu Hv HX. unfold j_floor. assert (Hx : bw * X + u < bw * W) by nia. set (x := bw * X + u) in *.
  assert (M : ((bh * Y + v) * (bw * W) + x) mod (bw * W) = x) by (rewrite Nat.add_comm, Nat.mod_add by lia; apply Nat.mod_small; exact Hx).
  assert (D : ((bh * Y + v) * (bw * W) + x) / (bw * W) = bh * Y + v) by (rewrite Nat.add_comm, Nat.div_add by lia; rewrite Nat.div_small by exact Hx; lia).
  rewrite M, D. assert (D2 : (bh * Y + v) / bh = Y) by (rewrite Nat.mul_comm, Nat.div_add_l by lia; rewrite Nat.div_small by exact Hv; lia).
  assert (M2 : (bh * Y + v) mod bh = v) by (rewrite Nat.add_comm, Nat.mul_comm, Nat.mod_add by lia; apply Nat.mod_small; exact Hv).
  rewrite D2, M2. assert (D3 : x / bw = X) by (unfold x; rewrite Nat.mul_comm, Nat.div_add_l by lia; rewrite Nat.div_small by exact Hu; lia).
  rewrite D3. assert (D4 : Y * (bw * W) / bw = Y * W) by (replace (Y * (bw * W)) with (Y * W * bw) by ring; apply Nat.div_mul; lia). rewrite D4.
  assert (M4 : ((bh * Y + v) * (bw * W) + x) mod bw = u).
  { unfold x. replace ((bh * Y + v) * (bw * W) + (bw * X + u)) with (u + ((bh * Y + v) * W + X) * bw) by ring. rewrite Nat.mod_add by lia. apply Nat.mod_small; exact Hu. }
  rewrite M4. ring.
Qed.
Lemma split_index bh bw H W i : i < bh * H * (bw * W) -> exists X Y u v, u < bw /\ v < bh /\ X < W /\ Y < H /\ i = (bh * Y + v) * (bw * W) + (bw * X + u).
Proof.
  intro Hi. assert (P : bw * W <> 0) by nia. assert (bw <> 0) by nia. assert (bh <> 0) by nia.
  set (y := i / (bw * W)). set (x := i mod (bw * W)). assert (Hx : x < bw * W) by (apply Nat.mod_upper_bound; exact P).
  assert (Hy : y < bh * H) by (apply Nat.div_lt_upper_bound; [exact P | lia]). exists (x / bw), (y / bh), (x mod bw), (y mod bh).
  split; [apply Nat.mod_upper_bound; assumption|]. split; [apply Nat.mod_upper_bound; assumption|]. split; [apply Nat.div_lt_upper_bound; assumption|].
  split; [apply Nat.div_lt_upper_bound; assumption|]. rewrite <- !Nat.div_mod by assumption. unfold x, y. pose proof (Nat.div_mod i (bw * W) P). lia.
Qed.
Lemma j_floor_lt bh bw H W i : i < bh * H * (bw * W) -> j_floor (bw * W) bh bw i < bh * H * (bw * W).
Proof.
  intro Hi. destruct (split_index bh bw H W i Hi) as (X & Y & u & v & Hu & Hv & HX & HY & ->). rewrite j_floor_spec by assumption.
  assert (A : v * bw + u < bw * bh) by nia. assert (B : Y * W + X + 1 <= H * W) by nia. replace (bh * H * (bw * W)) with (H * W * (bw * bh)) by ring. nia.
Qed.
Lemma j_floor_inj bh bw H W i i' : i < bh * H * (bw * W) -> i' < bh * H * (bw * W) -> j_floor (bw * W) bh bw i = j_floor (bw * W) bh bw i' -> i = i'.
Proof.
  intros Hi Hi' E. destruct (split_index bh bw H W i Hi) as (X & Y & u & v & Hu & Hv & HX & HY & ->). destruct (split_index bh bw H W i' Hi') as (X' & Y' & u' & v' & Hu' & Hv' & HX' & HY' & ->).
  rewrite !j_floor_spec in E by assumption.
  destruct (Nat.div_mod_unique (bw * bh) (Y * W + X) (Y' * W + X') (v * bw + u) (v' * bw + u')) as (A & B); [nia | nia | lia |].
  destruct (Nat.div_mod_unique bw v v' u u') as (-> & ->); [assumption | assumption | lia |].
  destruct (Nat.div_mod_unique W Y Y' X X') as (-> & ->); [assumption | assumption | lia |]. reflexivity.
Qed.
Lemma blocks2 {A} (zero : A) bh bw H W arr : length arr = bh * H * (bw * W) ->
  exists new, toBlocks2d zero (bw * W) bh bw arr = Ok new /\ length new = length arr /\
    forall X Y u v, u < bw -> v < bh -> X < W -> Y < H -> nth_error new ((Y * W + X) * (bw * bh) + v * bw + u) = nth_error arr ((bh * Y + v) * (bw * W) + (bw * X + u)).
Proof.
  intro L. unfold toBlocks2d. destruct (scatter_spec zero (j_floor (bw * W) bh bw) arr) as (new & E & Ln & N).
  - rewrite L. intros i Hi. apply j_floor_lt, Hi.
  - rewrite L. intros i i' Hi Hi'. apply (j_floor_inj bh bw H W); assumption.
  - exists new. split; [exact E|]. split; [exact Ln|]. intros X Y u v Hu Hv HX HY. rewrite <- (j_floor_spec bh bw W X Y u v) by assumption. apply N. rewrite L.
    assert (bw * X + u + 1 <= bw * W) by nia. assert (bh * Y + v + 1 <= bh * H) by nia. nia.
Qed.
Lemma blocks3 {A} (zero : A) bd bh bw D H W arr : length arr = bd * D * (bh * H) * (bw * W) ->
  exists new, toBlocks3d zero (bh * H) (bw * W) bd bh bw arr = Ok new /\ length new = length arr /\
    forall X Y Z u v t, u < bw -> v < bh -> t < bd -> X < W -> Y < H -> Z < D ->
      nth_error new (((Z * H + Y) * W + X) * (bd * bh * bw) + (t * bh + v) * bw + u) =
      nth_error arr (((bd * Z + t) * (bh * H) + (bh * Y + v)) * (bw * W) + (bw * X + u)).
Proof.
  intro L. unfold toBlocks3d. destruct (blocks2 zero bh bw (bd * D * H) W arr) as (a1 & E1 & L1 & N1); [rewrite L; ring|]. rewrite E1. cbn [rbind].
  replace (bh * H * (bw * W)) with (bw * bh * (H * W)) by ring.
  destruct (blocks2 zero bd (bw * bh) D (H * W) a1) as (a2 & E2 & L2 & N2); [rewrite L1, L; ring|]. exists a2. split; [exact E2|]. split; [congruence|].
  intros X Y Z u v t Hu Hv Ht HX HY HZ.
  assert (B : v * bw + u < bw * bh) by nia. assert (C : Y * W + X < H * W) by nia.
  replace (((Z * H + Y) * W + X) * (bd * bh * bw) + (t * bh + v) * bw + u) with ((Z * (H * W) + (Y * W + X)) * (bw * bh * bd) + t * (bw * bh) + (v * bw + u)) by ring.
  rewrite N2 by assumption.
  replace ((bd * Z + t) * (bw * bh * (H * W)) + (bw * bh * (Y * W + X) + (v * bw + u))) with ((((bd * Z + t) * H + Y) * W + X) * (bw * bh) + v * bw + u) by ring.
  rewrite N1; try assumption.
  - f_equal. ring.
  - assert (bd * Z + t + 1 <= bd * D) by nia. nia.
Qed.
