(** C81: self-organizing maps, seeds for clusters, buffets and principal components. *)
From Coq Require Import Reals Lra Sorting.Sorted Permutation.
From Verif Require Import Base StableSort Functions_Model Functions_Proofs LinearFA_Model Cluster_Model Cluster_Spec Cluster_Proofs Cluster_Proofs2 Cluster_Proofs3.
Local Open Scope R_scope.

(** ** Kohonen maps *)
(** The output is the place of the neuron nearest to the input, the first of them row by row; the map itself stays as it is. *)
Theorem C81_map_winner : forall N dim s x out, (0 < N)%nat -> wf dim s -> length x = dim ->
  exists s' w, kforward N false x out s = Ok (s', [INR (fst w); INR (snd w)]) /\ nearest N (fun i j => sqdist (s_neurons s i j) x) w /\
    s_winner s' = w /\ s_neurons s' = s_neurons s /\ s_neighbours s' = s_neighbours s.
Proof.
  intros N dim s x out P W L. unfold kforward. destruct (winner_nearest N (fun p => sqdist (s_neurons s (fst p) (snd p)) x) P) as (w & E & Ne).
  change (fun p : nat * nat => rsum (map (fun x0 : R => x0 ^ 2) (vsub (s_neurons s (fst p) (snd p)) x))) with (fun p : nat * nat => sqdist (s_neurons s (fst p) (snd p)) x).
  rewrite E. cbn [rbind]. eexists. exists w. split; [reflexivity|]. split; [exact Ne|]. repeat split.
Qed.
(** With outputFullMap nothing is written: the output is what was in the buffer, zeros in a fresh module. *)
Theorem C81_full_map_refuted : forall N s x out r, kforward N true x out s = Ok r -> snd r = out.
Proof. intros N s x out r H. unfold kforward in H. destruct (minimum_position _ _) in H; [|discriminate]. cbn [rbind] in H. injection H as <-. reflexivity. Qed.
Example C81_full_map_ex : exists r, kforward 1 true [5] (repeat 0 1) (newSom 1 1 (fun _ _ => [5])) = Ok r /\ snd r = [0].
Proof. eexists. split; reflexivity. Qed.
(** In a round of training every neuron moves straight towards the input, by a hundredth of the way for the winner, less the more steps away on the grid, and not
    at all outside the neighbourhood; so no neuron gets farther from the input; the neighbourhood shrinks. *)
Theorem C81_map_round : forall N dim full s x, (0 < N)%nat -> wf dim s -> length x = dim -> 0 <= s_neighbours s ->
  exists s' c, kround N full s x = Ok s' /\ wf dim s' /\ nearest N (fun i j => sqdist (s_neurons s i j) x) (s_winner s') /\ s_neighbours s' = s_neighbours s * (9999 / 10000) /\
  c (fst (s_winner s')) (snd (s_winner s')) = 1 /\
  forall i j, onGrid N (i, j) ->
    0 <= c i j <= 1 /\ vsub (s_neurons s' i j) x = map (fun y => (1 - c i j / 100) * y) (vsub (s_neurons s i j) x) /\
    sqdist (s_neurons s' i j) x <= sqdist (s_neurons s i j) x /\
    let steps := (apart i (fst (s_winner s')) + apart j (snd (s_winner s')))%nat in
    c i j = if (Int_part (s_neighbours s) <? Z.of_nat (Nat.max (apart i (fst (s_winner s'))) (apart j (snd (s_winner s')))))%Z then 0 else Rmax 0 (1 - INR steps / INR N).
Proof.
  intros N dim full s x P W L Hr. destruct (round_spec N dim P full s x W L) as (s' & E & W' & Ne & Nb & M). exists s', (strength N (s_neighbours s) (s_winner s')).
  split; [exact E|]. split; [exact W'|]. split; [exact Ne|]. split; [exact Nb|]. split; [apply strength_winner; assumption|]. intros i j G.
  pose proof (strength_range N P (s_neighbours s) (s_winner s') i j) as S. split; [exact S|]. split; [apply M, G|]. split; [|reflexivity].
  rewrite (round_dist N dim P full s x s' W L E i j G). pose proof (sqdist_pos (s_neurons s i j) x) as Sp. set (c := strength N (s_neighbours s) (s_winner s') i j) in *.
  assert ((1 - c / 100) ^ 2 <= 1); [|nra]. assert (0 <= 1 - c / 100 <= 1) by lra. simpl. nra.
Qed.
Example C81_map_round_ex : exists s', kround 1 false (newSom 1 2 (fun _ _ => [1; 0])) [0; 2] = Ok s' /\ s_neurons s' 0 0 = [99 / 100; 2 / 100] /\ s_neighbours s' = 9999 / 10000.
Proof.
  destruct (C81_map_round 1 2 false (newSom 1 2 (fun _ _ => [1; 0])) [0; 2]) as (s' & c & E & W' & Ne & Nb & Cw & M); [lia | intros i j; reflexivity | reflexivity | cbn; lra|].
  exists s'. split; [exact E|]. destruct (s_winner s') as (a, b) eqn:Ew. destruct Ne as ((Ga & Gb) & _). cbn [fst snd] in *. assert (a = 0 /\ b = 0)%nat as (-> & ->) by lia.
  destruct (M 0%nat 0%nat) as (_ & Mv & _); [split; cbn; lia|]. rewrite Cw in Mv. specialize (W' 0%nat 0%nat). destruct (s_neurons s' 0 0) as [|u [|v [|]]]; try discriminate W'.
  unfold vsub in Mv. cbn [rzip map newSom s_neurons] in Mv. injection Mv as M1 M2. split; [f_equal; [lra | f_equal; lra]|]. rewrite Nb. cbn [newSom s_neighbours INR]. lra.
Qed.
(** Trained with one input over and over, the winner stays the winner and comes as near to the input as one likes. *)
Theorem C81_map_converges : forall N dim full s x, (0 < N)%nat -> wf dim s -> length x = dim -> 0 <= s_neighbours s ->
  (forall n, exists s', ktrain N full s (repeat x n) = Ok s' /\ s_neighbours s' = s_neighbours s * (9999 / 10000) ^ n /\
    forall w, nearest N (fun i j => sqdist (s_neurons s i j) x) w -> nearest N (fun i j => sqdist (s_neurons s' i j) x) w /\
      sqdist (s_neurons s' (fst w) (snd w)) x = (9801 / 10000) ^ n * sqdist (s_neurons s (fst w) (snd w)) x) /\
  forall eps, 0 < eps -> exists n0, forall n s' w, (n0 <= n)%nat -> ktrain N full s (repeat x n) = Ok s' -> nearest N (fun i j => sqdist (s_neurons s i j) x) w ->
    sqdist (s_neurons s' (fst w) (snd w)) x < eps.
Proof.
  intros N dim full s x P W L Hr. split.
  - intro n. destruct (rounds_same N dim P full x L n s W Hr) as (s' & E & _ & _ & Nb & K). exists s'. auto.
  - intros eps He. destruct (winner_nearest N (fun p => sqdist (s_neurons s (fst p) (snd p)) x) P) as (w0 & _ & Ne). set (e := sqdist (s_neurons s (fst w0) (snd w0)) x).
    assert (Pe : 0 <= e) by apply sqdist_pos. destruct (pow_lt_1_zero (9801 / 10000) ltac:(rewrite Rabs_pos_eq; lra) (eps / (e + 1))) as (n0 & H0).
    { apply Rlt_gt, Rmult_lt_0_compat; [exact He | apply Rinv_0_lt_compat; lra]. }
    exists n0. intros n s' w Hn E Hw. cbn [fst snd] in Ne. assert (w = w0) as -> by (eapply nearest_unique; eassumption).
    destruct (rounds_same N dim P full x L n s W Hr) as (t & Et & _ & _ & _ & K). rewrite E in Et. injection Et as <-. destruct (K w0 Hw) as (_ & ->). fold e.
    specialize (H0 n Hn). rewrite Rabs_pos_eq in H0 by (apply pow_le; lra). assert (Q : 0 <= (9801 / 10000) ^ n) by (apply pow_le; lra).
    apply Rle_lt_trans with ((9801 / 10000) ^ n * (e + 1)); [nra|]. apply Rmult_lt_compat_r with (r := e + 1) in H0; [|lra]. unfold Rdiv at 2 in H0. rewrite Rmult_assoc, Rinv_l, Rmult_1_r in H0 by lra. exact H0.
Qed.
(** Whatever the inputs, the neurons stay in the box of the inputs and the first neurons (random in [0, 1]), and the map can always go on. *)
Theorem C81_map_box : forall N dim full lo hi xs s, (0 < N)%nat -> wf dim s -> Forall (fun x => length x = dim /\ Forall (fun a => lo <= a <= hi) x) xs ->
  (forall i j, onGrid N (i, j) -> Forall (fun a => lo <= a <= hi) (s_neurons s i j)) ->
  exists s', ktrain N full s xs = Ok s' /\ wf dim s' /\ forall i j, onGrid N (i, j) -> Forall (fun a => lo <= a <= hi) (s_neurons s' i j).
Proof.
  intros N dim full lo hi xs s P W F. revert s W. induction F as [|x xs (Lx & Bx) F IH]; intros s W B; [exists s; auto|]. cbn [ktrain].
  destruct (round_spec N dim P full s x W Lx) as (t & Et & Wt & _ & _ & M). rewrite Et. cbn [rbind]. apply IH; [exact Wt|]. intros i j G. specialize (M i j G). specialize (B i j G).
  pose proof (strength_range N P (s_neighbours s) (s_winner t) i j) as S. revert M S B. specialize (Wt i j). specialize (W i j). revert Wt W. generalize (s_neurons t i j) (s_neurons s i j) (strength N (s_neighbours s) (s_winner t) i j).
  clear - Lx Bx. revert dim Lx. induction Bx as [|a x Ba Bx IH]; intros dim Lx u v c Lu Lv M S B; destruct dim as [|d], u as [|b u], v as [|e v]; try discriminate; [constructor|].
  unfold vsub in *. cbn [rzip map] in M. injection M as M1 M2. inversion B as [|? ? B1 B2]; subst. constructor; [|apply (IH d ltac:(cbn in Lx; lia) u v c); auto; cbn in *; lia].
  assert (b = (1 - c / 100) * e + c / 100 * a) as -> by lra. nra.
Qed.
(** Training before any activation changes no neuron. *)
Theorem C81_map_untrained : forall N dim neurons i j, (forall i j, length (neurons i j) = dim) -> s_neurons (kbackward N (newSom N dim neurons)) i j = neurons i j.
Proof.
  intros N dim neurons i j L. unfold kbackward, newSom. cbn [s_neurons s_diff s_winner s_neighbours]. destruct (_ && _)%bool; [|reflexivity]. specialize (L i j). revert L. generalize (neurons i j) (tempm N (0, 0)%nat i j).
  clear. intros v c. revert dim. induction v as [|a v IH]; intros [|d] L; try discriminate; [reflexivity|]. unfold vsub in *. cbn [repeat map rzip]. rewrite IH by (cbn in L; lia). f_equal. ring.
Qed.

(** ** seeds *)
(** kinit gives k seeds (one for k = 0) out of the data, the first by chance, each further one such that the sum of the squared distances to the nearest seed
    becomes as small as one more data point can make it. *)
Theorem C81_seeds : forall X k draw, X <> [] -> exists cs, kinit X k draw = Ok cs /\ length cs = Nat.max 1 k /\ incl cs X /\ nth_error cs 0 = nth_error X (draw mod length X) /\
  (forall m, (0 < m < length cs)%nat -> forall x, In x X -> potential X (firstn (S m) cs) <= potential X (firstn m cs ++ [x])) /\
  (forall m, (0 < m < length cs)%nat -> potential X (firstn (S m) cs) <= potential X (firstn m cs)).
Proof.
  intros X k draw Ne. destruct (seeds_spec X draw Ne (k - 1)) as (cs & E & L & I & F & G). exists cs. unfold kinit. destruct X as [|x0 X0] eqn:EX; [congruence|]. rewrite <- EX in *. rewrite E. cbn [snd].
  split; [reflexivity|]. split; [lia|]. split; [exact I|]. split; [exact F|]. split; [exact G|]. intros m Hm. apply (seeds_prefix X cs G I m Hm).
Qed.
(** As long as some point is no seed, the next seed is a new one and makes the sum smaller; with as many seeds as different points every point is a seed. *)
Theorem C81_seeds_differ : forall X d k draw cs, Forall (fun x => length x = d) X -> kinit X k draw = Ok cs ->
  (forall m, (0 < m < length cs)%nat -> ~ incl X (firstn m cs) -> potential X (firstn (S m) cs) < potential X (firstn m cs) /\ ~ In (nth m cs []) (firstn m cs)) /\
  (~ incl X cs -> NoDup cs) /\
  (forall u, incl X u -> (length u <= Nat.max 1 k)%nat -> incl X cs).
Proof.
  intros X d k draw cs Ld E. assert (Ne : X <> []) by (destruct X; discriminate). destruct (seeds_spec X draw Ne (k - 1)) as (cs' & E' & L & I & F & G).
  assert (cs' = cs) as -> by (unfold kinit in E; destruct X as [|x0 X0]; [congruence|]; rewrite E' in E; cbn [snd] in E; congruence).
  assert (Nc : cs <> []) by (destruct cs; discriminate).
  assert (Z : forall cs, cs <> [] -> incl cs X -> ~ incl X cs -> 0 < potential X cs).
  { intros c N1 I1 K. pose proof (potential_pos X c) as Q. destruct (Req_dec (potential X c) 0) as [Z|Z]; [|lra]. exfalso. apply K, (potential_zero X d Ld c N1 I1 Z). }
  split; [|split].
  - intros m Hm K. apply (seeds_new X cs G Nc I m Hm). apply Z; [|intros x Hx; apply I; rewrite <- (firstn_skipn m cs); apply in_or_app; now left | exact K].
    intro Ef. apply (f_equal (@length vec)) in Ef. rewrite firstn_length in Ef. cbn in Ef. lia.
  - intro K. apply (seeds_nodup X cs G Nc I). apply Z; assumption.
  - intros u Iu Lu. apply (seeds_all X d Ld cs u G Nc I Iu). lia.
Qed.
Example C81_seeds_ex : forall draw, exists cs, kinit [[0]; [4]; [0]] 2 draw = Ok cs /\ In [0] cs /\ In [4] cs.
Proof.
  intro draw. destruct (C81_seeds [[0]; [4]; [0]] 2 draw) as (cs & E & _); [discriminate|]. exists cs. split; [exact E|].
  destruct (C81_seeds_differ [[0]; [4]; [0]] 1 2 draw cs) as (_ & _ & A); [repeat constructor | exact E|]. specialize (A [[0]; [4]]). assert (I : incl [[0]; [4]; [0]] cs) by (apply A; [intros x [<-|[<-|[<-|[]]]]; cbn; auto | cbn; lia]).
  split; apply I; cbn; auto.
Qed.
(** Seeds may be equal; no seeds cannot be had; no data is an error. *)
Theorem C81_seeds_refuted : (forall x draw, kinit [x] 3 draw = Ok [x; x; x]) /\ (forall X draw cs, kinit X 0 draw = Ok cs -> length cs = 1%nat) /\ (forall k draw, kinit [] k draw = Err ValueError).
Proof.
  split; [|split; [|reflexivity]].
  - intros x draw. destruct (C81_seeds [x] 3 draw) as (cs & E & L & I & _); [discriminate|]. rewrite E. f_equal. destruct cs as [|a [|b [|c [|]]]]; try discriminate L.
    destruct (I a) as [<-|[]]; [cbn; auto|]. destruct (I b) as [<-|[]]; [cbn; auto|]. destruct (I c) as [<-|[]]; [cbn; auto|]. reflexivity.
  - intros X draw cs H. unfold kinit in H. destruct X; [discriminate|]. cbn [Nat.sub Nat.iter nat_rect kfirst snd] in H. injection H as <-. reflexivity.
Qed.

(** ** left-ordered form *)
(** The columns are the same, from the greatest binary number to the least; two matrices with the same columns have the same form; ordering again changes nothing. *)
Theorem C81_left_ordered : forall h w M, length M = h ->
  Permutation (columns w (leftordered h w M)) (columns w M) /\
  StronglySorted (fun a b => (value b <= value a)%nat) (columns w (leftordered h w M)) /\
  leftordered h w (leftordered h w M) = leftordered h w M /\
  forall M', length M' = h -> (Permutation (columns w M) (columns w M') <-> leftordered h w M = leftordered h w M').
Proof.
  intros h w M L.
  assert (Pc : forall M, length M = h -> Permutation (columns w (leftordered h w M)) (columns w M)).
  { intros M0 L0. rewrite columns_leftordered by exact L0. rewrite <- Permutation_rev. apply isort_perm. }
  assert (Ca : forall M M', Permutation (columns w M) (columns w M') -> leftordered h w M = leftordered h w M').
  { intros M1 M2 H. unfold leftordered. do 2 f_equal. apply (isort_canonical tuple_leb tuple_total tuple_trans); [exact H | intros; apply tuple_antisym; assumption]. }
  split; [apply Pc, L|]. split.
  - rewrite columns_leftordered by exact L. pose proof (isort_sorted tuple_leb tuple_total tuple_trans (columns w M)) as S. apply ss_rev in S.
    assert (F : Forall (fun c => length c = h) (rev (isort tuple_leb (columns w M)))).
    { apply Forall_forall. intros c Hc. apply in_rev in Hc. apply isort_In in Hc. pose proof (transposed_rows w M) as T. rewrite Forall_forall in T. rewrite <- L. apply T, Hc. }
    revert F. induction S as [|a l S IH Fa]; intro F; [constructor|]. inversion F as [|? ? F1 F2]; subst. constructor; [apply IH, F2|]. rewrite Forall_forall in *. intros b Hb. apply tuple_value; [rewrite (F2 b Hb); symmetry; exact F1 | apply Fa, Hb].
  - split; [apply Ca, Pc, L|]. intros M' L'. split; [apply Ca|]. intro E. rewrite <- (Pc M L), E. apply Pc, L'.
Qed.
Example C81_left_ordered_ex : leftordered 2 3 [[false; true; true]; [true; false; true]] = [[true; true; false]; [true; false; true]].
Proof. reflexivity. Qed.
(** The buffet: the columns are the dishes that somebody took, in their order, every dish with the chance of its stick; so no column is empty. *)
Theorem C81_buffet : forall customers reduced draws, Forall (fun d => length (snd d) = customers) draws ->
  generateIBP customers reduced draws = filter (existsb (fun t => t)) (dishes reduced 1 draws) /\
  (length (generateIBP customers reduced draws) <= length draws)%nat /\
  Forall (fun c => length c = customers /\ In true c) (generateIBP customers reduced draws).
Proof.
  intros customers reduced draws F. rewrite generate_spec. split; [reflexivity|].
  assert (L : forall stick, length (dishes reduced stick draws) = length draws /\ Forall (fun c => length c = customers) (dishes reduced stick draws)).
  { clear -F. induction F as [|(nu, us) draws H F IH]; intro stick; [split; [reflexivity | constructor]|]. cbn [dishes length]. destruct (IH (stick * nu)) as (I1 & I2). split; [lia|]. constructor; [rewrite map_length; exact H | exact I2]. }
  destruct (L 1) as (L1 & L2). split; [rewrite <- L1; generalize (dishes reduced 1 draws); clear; induction l as [|a l IH]; [cbn; lia|]; cbn [filter]; destruct (existsb _ a); cbn [length]; lia|].
  apply Forall_forall. intros c Hc. apply filter_In in Hc as (Hc & E). rewrite Forall_forall in L2. split; [apply L2, Hc|]. apply existsb_exists in E as (t & Ht & ->). exact Ht.
Qed.
(** The number of dishes on offer is beyond the expected number by more than two standard deviations. *)
Theorem C81_buffet_size : forall customers alpha, 0 <= alpha -> lambda customers alpha + 2 * sqrt (lambda customers alpha) < INR (maxdishes customers alpha).
Proof.
  intros customers alpha H. unfold maxdishes. set (x := lambda customers alpha + sqrt (lambda customers alpha) * 2).
  assert (L : 0 <= lambda customers alpha). { unfold lambda. apply Rmult_le_pos; [exact H|]. apply rsum_pos, Forall_map, Forall_forall. intros i Hi. apply in_seq in Hi. apply Rmult_le_pos; [lra|]. left. apply Rinv_0_lt_compat, lt_0_INR. lia. }
  pose proof (sqrt_pos (lambda customers alpha)) as S. destruct (base_Int_part x) as (B1 & B2). assert (P : (0 <= Int_part x)%Z). { apply Z.lt_succ_r, lt_IZR. rewrite succ_IZR. unfold x in *. lra. }
  rewrite S_INR, INR_IZR_INZ, Z2Nat.id by exact P. unfold x in *. lra.
Qed.
(** Later dishes have no better chances: of two dishes with the same draws the later one is taken by nobody who refused the earlier. *)
Theorem C81_buffet_chances : forall reduced draws stick us, 0 <= reduced -> 0 <= stick -> Forall (fun d => 0 <= fst d <= 1 /\ snd d = us) draws ->
  StronglySorted (fun a b => forall k, nth k b false = true -> nth k a false = true) (dishes reduced stick draws).
Proof.
  intros reduced draws stick us Hr Hs F. revert stick Hs.
  assert (T : forall a b, a <= b -> forall k, nth k (map (fun u => if Rlt_dec u a then true else false) us) false = true -> nth k (map (fun u => if Rlt_dec u b then true else false) us) false = true).
  { clear. intros a b L. induction us as [|u us IH]; intros [|k]; cbn [map nth]; try discriminate; [destruct (Rlt_dec u a), (Rlt_dec u b); try discriminate; auto; lra | apply IH]. }
  assert (Q : forall draws stick top, 0 <= stick -> stick * reduced <= top -> Forall (fun d => 0 <= fst d <= 1 /\ snd d = us) draws ->
    Forall (fun b => forall k, nth k b false = true -> nth k (map (fun u => if Rlt_dec u top then true else false) us) false = true) (dishes reduced stick draws)).
  { clear draws F. induction draws as [|(nu, vs) draws IH]; intros stick top Hs Ht F; [constructor|]. inversion F as [|? ? ((N0 & N1) & E) F']; subst. cbn [fst snd] in *. cbn [dishes].
    assert (0 <= stick * nu) by (apply Rmult_le_pos; assumption). assert (stick * nu <= stick) by nra. assert (stick * nu * reduced <= top) by (apply Rle_trans with (stick * reduced); [apply Rmult_le_compat_r; assumption | exact Ht]). constructor; [apply T; assumption | apply IH; assumption]. }
  induction F as [|(nu, vs) draws ((N0 & N1) & E) F IH]; intros stick Hs; [constructor|]. cbn [fst snd] in *. subst vs. cbn [dishes]. assert (0 <= stick * nu) by (apply Rmult_le_pos; assumption).
  constructor; [apply IH; assumption|]. apply Q; [assumption | lra | exact F].
Qed.
Example C81_buffet_ex : generateIBP 2 1 [(1 / 2, [1 / 4; 3 / 4]); (1 / 2, [1 / 2; 1 / 2]); (1, [1; 1 / 8])] = [[true; false]; [false; true]].
Proof. rewrite generate_spec. cbn [dishes map]. repeat match goal with |- context [Rlt_dec ?a ?b] => destruct (Rlt_dec a b); try lra end. reflexivity. Qed.

(** ** principal components *)
(** pca takes the components with the greatest eigenvalues. *)
Theorem C81_components : forall dim vals, (0 < dim <= length vals)%nat -> exists ix, components dim vals = Ok ix /\ length ix = dim /\ Forall (fun i => (i < length vals)%nat) ix /\ NoDup ix /\
  forall i j, In i ix -> (j < length vals)%nat -> ~ In j ix -> nth j vals 0 <= nth i vals 0.
Proof.
  intros dim vals H. destruct (components_spec dim vals H) as (ix & E & L & S & F & M). exists ix. split; [exact E|]. split; [exact L|]. split; [exact F|]. split.
  - clear - S. induction S as [|a l S IH Fa]; constructor; [|exact IH]. intro I. rewrite Forall_forall in Fa. specialize (Fa a I). lia.
  - intros i j Hi Hj Nj. destruct (M i j Hi Hj Nj) as [Q|(Q & _)]; lra.
Qed.
(** They come in the reverse order of the eigenvectors, whatever the eigenvalues: if these descend, the weakest component comes first. *)
Theorem C81_components_order_refuted : forall dim vals ix, (0 < dim)%nat -> components dim vals = Ok ix -> StronglySorted (fun x y => (y < x)%nat) ix /\
  ((forall i j, (i < j < length vals)%nat -> nth j vals 0 < nth i vals 0) -> StronglySorted (fun x y => nth x vals 0 < nth y vals 0) ix).
Proof.
  intros dim vals ix Hd E. assert (H : (0 < dim <= length vals)%nat). { split; [exact Hd|]. unfold components in E. destruct (Nat.ltb_spec (length vals) dim); [discriminate | lia]. }
  destruct (components_spec dim vals H) as (ix' & E' & _ & S & F & _). rewrite E in E'. injection E' as <-. split; [exact S|]. intro D. clear - S F D. induction S as [|a l S IH Fa]; [constructor|]. inversion F as [|? ? F1 F2]; subst. constructor; [apply IH, F2|].
  rewrite Forall_forall in *. intros b Hb. apply D. split; [apply Fa, Hb | exact F1].
Qed.
(** Asked for no component, pca takes all; asked for too many, it refuses. *)
Theorem C81_components_none_refuted : forall vals, (exists ix, components 0 vals = Ok ix /\ length ix = length vals) /\ forall dim, (length vals < dim)%nat -> components dim vals = Err AssertionError.
Proof.
  intro vals. unfold components. split.
  - cbn [Nat.eqb]. destruct (Nat.ltb_spec (length vals) 0); [lia|]. eexists. split; [reflexivity|]. rewrite rev_length, isort_length, map_length, isort_length, combine_length, seq_length. lia.
  - intros dim H. destruct (Nat.ltb_spec (length vals) dim); [reflexivity | lia].
Qed.
(** Centering moves the mean to the origin, does nothing to centered data, and forgets where the data were; so does reduceDim. *)
Theorem C81_centered : forall d data, Forall (fun r => length r = d) data ->
  (forall j, (j < d)%nat -> rsum (map (fun r => nth j r 0) (makeCentered d data)) = 0) /\
  makeCentered d (makeCentered d data) = makeCentered d data /\
  forall t, length t = d -> makeCentered d (map (fun r => vadd r t) data) = makeCentered d data /\
    forall dim eig, reduceDim d dim eig (map (fun r => vadd r t) data) = reduceDim d dim eig data.
Proof.
  intros d data F. split; [intros; apply centered_sum; assumption|]. split; [apply centered_again, F|]. intros t L. pose proof (centered_shift d data t F L) as C. split; [exact C|].
  intros dim eig. unfold reduceDim. rewrite C. reflexivity.
Qed.
(** The reduced data have one row for each point and one number for each component, its scalar product with the component, and are centered too. *)
Theorem C81_reduced : forall d dim eig data vals vecs, Forall (fun r => length r = d) data -> eig (makeCentered d data) = (vals, vecs) -> Forall (fun v => length v = d) vecs -> length vecs = length vals -> (0 < dim <= length vals)%nat ->
  exists out ix, reduceDim d dim eig data = Ok out /\ components dim vals = Ok ix /\ length out = length data /\
    (forall p k, (p < length data)%nat -> (k < dim)%nat -> nth k (nth p out []) 0 = rdot (nth (nth k ix 0%nat) vecs []) (nth p (makeCentered d data) [])) /\
    forall k, (k < dim)%nat -> rsum (map (fun r => nth k r 0) out) = 0.
Proof.
  intros d dim eig data vals vecs F E Fv Lv H. destruct (components_spec dim vals H) as (ix & Ex & L & _ & Fi & _). unfold reduceDim. rewrite E, Ex. cbn [rbind].
  set (C := makeCentered d data). assert (LC : length C = length data) by apply map_length.
  assert (K : forall (r : vec) k, (k < dim)%nat -> nth k (map (fun i => rdot (nth i vecs []) r) ix) 0 = rdot (nth (nth k ix 0%nat) vecs []) r).
  { intros r k Hk. rewrite (nth_indep _ 0 (rdot (nth 0 vecs []) r)) by (rewrite map_length; lia). apply (map_nth (fun i => rdot (nth i vecs []) r)). }
  eexists. exists ix. split; [reflexivity|]. split; [reflexivity|]. split; [rewrite map_length; exact LC|]. split.
  - intros p k Hp Hk. rewrite <- K by exact Hk. rewrite (nth_indep _ [] (map (fun i => rdot (nth i vecs []) []) ix)) by (rewrite map_length; lia).
    rewrite (map_nth (fun r => map (fun i => rdot (nth i vecs []) r) ix)). reflexivity.
  - intros k Hk. rewrite map_map. rewrite (map_ext _ (fun r => rdot (nth (nth k ix 0%nat) vecs []) r)) by (intro r; apply K, Hk).
    set (v := nth (nth k ix 0%nat) vecs []). assert (Lk : length v = d). { unfold v. rewrite Forall_forall in Fv, Fi. apply Fv, nth_In. rewrite Lv. apply Fi, nth_In. lia. }
    assert (S : forall j, (j < d)%nat -> rsum (map (fun r => nth j r 0) C) = 0) by (intros; apply centered_sum; assumption).
    assert (FC : Forall (fun r => length r = d) C). { unfold C, makeCentered. apply Forall_map. eapply Forall_impl; [|exact F]. intros r Hr. cbv beta in *. rewrite vsub_length; [exact Hr | rewrite mean_length; exact Hr]. }
    clearbody v C. clear - Lk S FC. revert d C Lk S FC. induction v as [|a v IH]; intros d C Lk S FC.
    + unfold rdot. rewrite (map_ext _ (fun _ => 0)) by reflexivity. rewrite rsum_const. ring.
    + destruct d as [|d]; [discriminate|]. rewrite (map_ext_in _ (fun r => a * nth 0 r 0 + rdot v (tl r))).
      * rewrite rsum_map_plus, rsum_scale, (S 0%nat) by lia. rewrite <- (map_map (@tl R) (rdot v)).
        assert (Q : rsum (map (rdot v) (map (@tl R) C)) = 0); [|rewrite Q; ring]. apply (IH d (map (@tl R) C)); [cbn in Lk; lia| |].
        -- intros j Hj. rewrite map_map. rewrite (map_ext _ (fun r => nth (Datatypes.S j) r 0)); [apply S; lia|]. intros [|x r]; [destruct j; reflexivity | reflexivity].
        -- apply Forall_map. eapply Forall_impl; [|exact FC]. intros [|x r] Hr; cbn in *; lia.
      * intros r Hr. rewrite Forall_forall in FC. specialize (FC r Hr). destruct r as [|x r]; [discriminate|]. unfold rdot. cbn [rzip nth tl]. rewrite rsum_cons. reflexivity.
Qed.

Print Assumptions C81_map_winner.
Print Assumptions C81_full_map_refuted.
Print Assumptions C81_map_round.
Print Assumptions C81_map_converges.
Print Assumptions C81_map_box.
Print Assumptions C81_map_untrained.
Print Assumptions C81_seeds.
Print Assumptions C81_seeds_differ.
Print Assumptions C81_seeds_refuted.
Print Assumptions C81_left_ordered.
Print Assumptions C81_buffet.
Print Assumptions C81_buffet_size.
Print Assumptions C81_buffet_chances.
Print Assumptions C81_components.
Print Assumptions C81_components_order_refuted.
Print Assumptions C81_components_none_refuted.
Print Assumptions C81_centered.
Print Assumptions C81_reduced.
