(** C80: slices, swipes, blocks and parameters of multi-dimensional networks. *)
From Coq Require Import QArith Reals Lra Permutation.
From Verif Require Import Base Utilities_Model Layers_R Mdrnn_Model Mdrnn_Spec Mdrnn_Proofs.
Local Open Scope nat_scope.

Local Lemma skipn_skipn {A} x y : forall l : list A, skipn x (skipn y l) = skipn (x + y) l.
Proof. rewrite Nat.add_comm. induction y as [|y IH]; intros [|a l]; cbn [skipn Nat.add]; auto using skipn_nil. Qed.

(** ** slices *)
(** A slice within its base is accepted if it leaves something out; a connection between slices reads and writes those parts of the buffers of the base
    modules which its own bounds name within the slices. *)
Theorem C80_slice : forall i o a b c d, (0 <= a <= b)%Z -> (b <= i)%Z -> (0 <= c <= d)%Z -> (d <= o)%Z -> (b - a + (d - c) < i + o)%Z ->
  exists s, newSlice (Base i o) a (Some b) c (Some d) = Ok s /\ m_in s = (b - a)%Z /\ m_out s = (d - c)%Z /\
  forall other f t f' t',
    (let k := newConn s other f t f' t' in
     (0 <= f)%Z -> (or_else t (m_out s) <= m_out s)%Z ->
     (c <= c_inFrom k)%Z /\ (c_inTo k <= d)%Z /\ c_inFrom k = (c + f)%Z /\ c_in k = (or_else t (m_out s) - f)%Z) /\
    (let k := newConn other s f t f' t' in
     (0 <= f')%Z -> (or_else t' (m_in s) <= m_in s)%Z ->
     (a <= c_outFrom k)%Z /\ (c_outTo k <= b)%Z /\ c_outFrom k = (a + f')%Z /\ c_out k = (or_else t' (m_in s) - f')%Z).
Proof.
  intros i o a b c d Ha Hb Hc Hd S. exists (Slice i o a c (b - a) (d - c)). unfold newSlice. cbn [or_else].
  assert (E : ((0 <=? a) && (0 <=? c) && (b - a + (d - c) <? i + o))%Z%bool = true) by (rewrite !andb_true_iff, !Z.leb_le, Z.ltb_lt; lia).
  rewrite E. split; [reflexivity|]. split; [reflexivity|]. split; [reflexivity|]. intros other f t f' t'.
  unfold newConn, c_in, c_out. cbn [m_in m_out c_inFrom c_inTo c_outFrom c_outTo]. split; intros H H'; lia.
Qed.
Example C80_slice_ex : newSlice (Base 12 3) 3 (Some 6%Z) 0 None = Ok (Slice 12 3 3 0 3 3)%Z /\
  newConn (Base 9 6) (Slice 12 3 3 0 3 3) 0 (Some 3%Z) 0 None = {| c_inFrom := 0; c_inTo := 3; c_outFrom := 3; c_outTo := 6 |}%Z.
Proof. split; reflexivity. Qed.
(** Neighbouring slices share nothing and leave nothing out. *)
Theorem C80_slice_neighbours : forall i o a b c other, (0 <= a <= b)%Z -> (b <= c)%Z -> (c <= i)%Z -> (c - a < i + o)%Z ->
  exists s s', newSlice (Base i o) a (Some b) 0 (Some 0%Z) = Ok s /\ newSlice (Base i o) b (Some c) 0 (Some 0%Z) = Ok s' /\
    let k := newConn other s 0 None 0 None in let k' := newConn other s' 0 None 0 None in
    forall n, (a <= n < c <-> c_outFrom k <= n < c_outTo k \/ c_outFrom k' <= n < c_outTo k')%Z /\ ~ (c_outFrom k <= n < c_outTo k /\ c_outFrom k' <= n < c_outTo k')%Z.
Proof.
  intros i o a b c other H1 H2 H3 H4. unfold newSlice. cbn [or_else].
  assert (E : ((0 <=? a) && (0 <=? 0) && (b - a + (0 - 0) <? i + o))%Z%bool = true) by (rewrite !andb_true_iff, !Z.leb_le, Z.ltb_lt; lia).
  assert (E' : ((0 <=? b) && (0 <=? 0) && (c - b + (0 - 0) <? i + o))%Z%bool = true) by (rewrite !andb_true_iff, !Z.leb_le, Z.ltb_lt; lia).
  rewrite E, E'. eexists. eexists. split; [reflexivity|]. split; [reflexivity|]. cbv zeta. unfold newConn. cbn [c_outFrom c_outTo or_else m_in]. intro n. lia.
Qed.
(** A slice of a slice raises AttributeError; a slice may have a negative size or lie outside its base. *)
Theorem C80_slice_refuted :
  (forall i o a c n m f t f' t', newSlice (Slice i o a c n m) f t f' t' = Err AttributeError) /\
  (forall i o a, (0 <= a)%Z -> (0 <= i)%Z -> (0 < o)%Z -> exists s, newSlice (Base i o) (i + a + 1) (Some 0%Z) 0 (Some 0%Z) = Ok s /\ (m_in s < 0)%Z) /\
  (forall i o, (0 < i)%Z -> (0 < o)%Z -> exists s, newSlice (Base i o) i (Some (2 * i)%Z) 0 (Some 0%Z) = Ok s /\ m_in s = i /\
     c_outFrom (newConn (Base 0 0) s 0 None 0 None) = i).
Proof.
  split; [reflexivity|]. unfold newSlice. cbn [or_else]. split; intros i o.
  - intros a Ha Hi Ho. assert (E : ((0 <=? i + a + 1) && (0 <=? 0) && (0 - (i + a + 1) + (0 - 0) <? i + o))%Z%bool = true) by (rewrite !andb_true_iff, !Z.leb_le, Z.ltb_lt; lia).
    rewrite E. eexists. split; [reflexivity|]. cbn [m_in]. lia.
  - intros Hi Ho. assert (E : ((0 <=? i) && (0 <=? 0) && (2 * i - i + (0 - 0) <? i + o))%Z%bool = true) by (rewrite !andb_true_iff, !Z.leb_le, Z.ltb_lt; lia).
    rewrite E. eexists. split; [reflexivity|]. unfold newConn. cbn [m_in or_else c_outFrom]. lia.
Qed.

(** ** the parameters of an MdrnnLayer *)
(** In one dimension the views divide the parameters up. *)
Theorem C80_layout : forall (A : Type) y (p : list A), y_timedim y = 1 -> length p = num_params y ->
  p = inParams y p ++ concat (predParams y p) ++ outParams y p ++ biasParams y p.
Proof.
  intros A y p T L. unfold num_params in L. rewrite T, Nat.mul_1_l in L. unfold inParams, predParams, outParams, biasParams, slice. rewrite T. cbn [seq map concat Nat.mul Nat.add].
  rewrite app_nil_r, !Nat.sub_0_r, Nat.add_0_r, skipn_O. set (a := num_in y) in *. set (b := num_rec y) in *. set (c := num_out y) in *. set (d := num_bias y) in *.
  replace (a + b + c - (a + b)) with c by lia. replace (a + b + c + d - (a + b + c)) with d by lia.
  assert (K : forall n m (l : list A), firstn n (skipn m l) ++ skipn (m + n) l = skipn m l).
  { intros n m l. rewrite Nat.add_comm, <- skipn_skipn. apply firstn_skipn. }
  rewrite skipn_O. assert (F : firstn d (skipn (a + b + c) p) = skipn (a + b + c) p) by (apply firstn_all2; rewrite skipn_length; lia).
  rewrite F, K, K. symmetry. apply firstn_skipn.
Qed.
Example C80_layout_ex : let y := mkLayer 1 [2] 1 1 None in num_params y = 14 /\
  (inParams y (seq 0 14), predParams y (seq 0 14), outParams y (seq 0 14), biasParams y (seq 0 14)) = ([0; 1; 2; 3], [[4; 5; 6; 7]], [8], [9; 10; 11; 12; 13]).
Proof. split; reflexivity. Qed.
(** In more dimensions the output weights are also recurrent weights of the second dimension, and the last parameter is in no view. *)
Theorem C80_layout_refuted : forall (A : Type) y (p : list A), 2 <= y_timedim y -> length p = num_params y ->
  outParams y p = firstn (num_out y) (nth 1 (predParams y p) []) /\
  forall q x x', p = q ++ [x] -> 0 < y_hidden y -> 0 < y_outsize y ->
    inParams y (q ++ [x']) = inParams y p /\ predParams y (q ++ [x']) = predParams y p /\ outParams y (q ++ [x']) = outParams y p /\ biasParams y (q ++ [x']) = biasParams y p.
Proof.
  intros A y p T L. assert (Le : num_out y <= num_rec y) by (unfold num_out, num_rec; nia). split.
  - unfold outParams, predParams, slice. rewrite (nth_indep _ [] (firstn ((0 + 1) * num_rec y - 0 * num_rec y) (skipn (0 * num_rec y) (skipn (num_in y) p)))) by (rewrite map_length, seq_length; lia).
    rewrite (map_nth (fun i => firstn ((i + 1) * num_rec y - i * num_rec y) (skipn (i * num_rec y) (skipn (num_in y) p)))), seq_nth by lia.
    rewrite skipn_skipn, firstn_firstn. f_equal; [lia|]. f_equal. lia.
  - intros q x x' -> Hh Ho. rewrite app_length in L. cbn [length] in L. unfold num_params in L.
    assert (B : 0 < num_bias y) by (unfold num_bias; lia). assert (Rp : 0 < num_rec y) by (unfold num_rec; nia).
    assert (K : forall a b, b <= length q -> slice a b (q ++ [x']) = slice a b (q ++ [x])).
    { intros a b Hb. unfold slice. rewrite !skipn_app, !firstn_app. f_equal. rewrite skipn_length. replace (b - a - (length q - a)) with 0 by lia. reflexivity. }
    set (a := num_in y) in *. set (b := num_rec y) in *. set (c := num_out y) in *. set (d := num_bias y) in *. set (t := y_timedim y) in *. assert (b * 2 <= t * b) by nia.
    unfold inParams, outParams, biasParams. fold a b c d. rewrite !K by lia. repeat split; try reflexivity.
    unfold predParams. fold a b t. apply map_ext_in. intros i Hi. apply in_seq in Hi. unfold slice. rewrite !skipn_skipn.
    pose proof (K (a + i * b) (a + (i + 1) * b)) as J. unfold slice in J. replace (a + (i + 1) * b - (a + i * b)) with ((i + 1) * b - i * b) in J by lia.
    rewrite (Nat.add_comm (i * b) a). apply J. assert ((i + 1) * b <= t * b) by (apply Nat.mul_le_mono_r; lia). lia.
Qed.
Example C80_layout_refuted_ex : let y := mkLayer 2 [1; 1] 1 1 None in num_params y = 22 /\ outParams y (seq 0 22) = [10] /\ predParams y (seq 0 22) = [[5; 6; 7; 8; 9]; [10; 11; 12; 13; 14]].
Proof. repeat split; reflexivity. Qed.

(** ** swipes *)
(** A swipe is a permutation, its own inverse, and sends every place to its mirror image. *)
Theorem C80_swipe : forall shape dirs, permutation_of (prod shape) (swipe shape dirs) /\
  (forall cs, inside shape cs -> nth_error (swipe shape dirs) (number shape cs) = Some (number shape (mirrored shape dirs cs))) /\
  (forall k, k < prod shape -> nth (nth k (swipe shape dirs) 0) (swipe shape dirs) 0 = k).
Proof.
  intros shape dirs. split; [apply swipe_perm|]. split.
  - intros cs I. rewrite (nth_error_nth' _ 0) by (rewrite swipe_length; apply number_lt, I). rewrite swipe_number by exact I. reflexivity.
  - intros k Hk. apply swipe_twice, Hk.
Qed.
Example C80_swipe_ex : swipe [2; 3] [true; false] = [3; 4; 5; 0; 1; 2] /\ swipe [2; 3] [false; true] = [2; 1; 0; 5; 4; 3] /\ swipe [2; 3] [true; true] = [5; 4; 3; 2; 1; 0].
Proof. repeat split; reflexivity. Qed.
(** Every number below the product belongs to exactly one place. *)
Theorem C80_numbers : forall shape k, k < prod shape -> exists cs, inside shape cs /\ number shape cs = k /\ forall cs', inside shape cs' -> number shape cs' = k -> cs' = cs.
Proof. intros shape k H. destruct (number_onto shape k H) as (cs & I & E). exists cs. split; [exact I|]. split; [exact E|]. intros cs' I' E'. apply (number_inj shape); congruence. Qed.
(** If the sides are whole numbers of blocks, the network has one layer for each of the 2^n corners, in each direction the layer gets the blocks as seen from its
    corner, and its outputs come back to where the inputs were. *)
Theorem C80_network : forall shape block hidden outsize, shape <> [] -> divides_all shape block ->
  exists conns, newMdrnn true (length shape) shape hidden outsize (Some block) = Ok conns /\ length conns = 2 ^ length shape /\
  let blocks := map (fun p => fst p / snd p) (combine shape block) in
  map (fun c => fst (fst c)) conns = map (swipe blocks) (allDirs (length shape)) /\
  forall i o, In (i, o) conns -> forall (A : Type) (x : list A), length x = prod shape / prod block ->
    exists y, permForward i x = Ok y /\ permForward o y = Ok x /\
      exists dirs, length dirs = length shape /\ forall cs, inside blocks cs -> nth_error y (number blocks cs) = nth_error x (number blocks (mirrored blocks dirs cs)).
Proof.
  intros shape block hidden outsize Ne Dv. destruct (prod_blocks shape block Dv) as (Pb & Ps). set (blocks := map (fun p => fst p / snd p) (combine shape block)) in *.
  assert (Q : prod shape / prod block = prod blocks) by (rewrite Ps; apply Nat.div_mul; lia).
  pose proof (blocks_length shape block Dv) as Lb. fold blocks in Lb.
  unfold newMdrnn, permsForSwiping. fold blocks. rewrite Q, Nat.eqb_refl. cbn [negb].
  destruct (length shape) as [|n] eqn:Ls; [destruct shape; [congruence | discriminate]|]. rewrite cross_dirs. cbn [rbind].
  assert (E : (length blocks <? S n) = false) by (apply Nat.ltb_ge; lia). rewrite E. cbn [rbind]. rewrite (map_ext (app (@nil bool)) (fun x => x)) by reflexivity. rewrite map_id.
  set (y := mkLayer (S n) shape hidden outsize (Some block)).
  assert (Yi : y_indim y = prod shape) by reflexivity. assert (Yl : y_length y = prod blocks) by (unfold y_length; rewrite Yi; exact Q).
  assert (G : forall ds, swipeConns (map (swipe blocks) ds) y (prod shape) (prod block) = Ok (map (fun d => ((swipe blocks d, prod block), (swipe blocks d, outsize))) ds)).
  { induction ds as [|d ds IH]; [reflexivity|]. unfold swipeConns in *. cbn [map fold_right]. rewrite IH. cbn [rbind]. unfold permConn at 1. rewrite Yi, Nat.eqb_refl. cbn [negb].
    rewrite swipe_length, <- Ps, Nat.eqb_refl. cbn [negb rbind]. destruct (swipe_perm blocks d) as (P1 & P2 & P3). rewrite permute_seq by exact P3. cbn [rbind].
    unfold permConn. rewrite Yl. unfold y_outdim. rewrite Yl, Nat.eqb_refl. cbn [negb]. rewrite swipe_length. replace (y_outsize y) with outsize by reflexivity. rewrite Nat.eqb_refl. reflexivity. }
  rewrite G. eexists. split; [reflexivity|]. split; [rewrite map_length, allDirs_length; reflexivity|]. cbv zeta. split; [rewrite map_map; reflexivity|].
  intros i o I A x Lx. apply in_map_iff in I as (d & E' & Hd). inversion E'; subst i o. clear E'. unfold permForward. cbn [fst].
  destruct (permute_back (swipe blocks d) x) as (z & Z1 & Z2 & Z3); [rewrite Lx; apply swipe_perm | rewrite Lx; intros k Hk; apply swipe_twice, Hk|].
  exists z. split; [exact Z1|]. split; [exact Z2|]. exists d. split; [apply allDirs_spec, Hd|]. intros cs I. rewrite Z3 by (rewrite Lx; apply number_lt, I). rewrite swipe_number by exact I. reflexivity.
Qed.
(** The directions: every combination once. *)
Theorem C80_directions : forall n, length (allDirs n) = 2 ^ n /\ NoDup (allDirs n) /\ forall ds, In ds (allDirs n) <-> length ds = n.
Proof. intro n. split; [apply allDirs_length|]. split; [apply allDirs_nodup | apply allDirs_spec]. Qed.
Example C80_network_ex : exists conns, newMdrnn true 2 [4; 2] 3 1 (Some [2; 1]) = Ok conns /\ map (fun c => fst (fst c)) conns = [[0; 1; 2; 3]; [1; 0; 3; 2]; [2; 3; 0; 1]; [3; 2; 1; 0]].
Proof. eexists. split; reflexivity. Qed.
(** The way back is computed as the permutation itself, which would be wrong for others; without a block shape the network cannot be made; sides that are
    no whole number of blocks are refused. *)
Theorem C80_way_back_refuted :
  (forall n p, Forall (fun i => i < n) p -> permute (seq 0 n) p = Ok p) /\
  (exists x y z : list nat, permForward ([1; 2; 0], 1) x = Ok y /\ permForward ([1; 2; 0], 1) y = Ok z /\ z <> x) /\
  (forall multi timedim shape hidden outsize, newMdrnn multi timedim shape hidden outsize None = Err TypeError).
Proof.
  split; [intros; now apply permute_seq|]. split; [|reflexivity]. exists [10; 20; 30], [20; 30; 10], [30; 10; 20]. split; [reflexivity|]. split; [reflexivity | discriminate].
Qed.
Theorem C80_blocks_must_fit : forall timedim shape block hidden outsize conns, newMdrnn true timedim shape hidden outsize (Some block) = Ok conns ->
  prod (map (fun p => fst p / snd p) (combine shape block)) = prod shape / prod block /\ (0 < timedim -> prod shape = prod shape / prod block * prod block).
Proof.
  intros timedim shape block hidden outsize conns H. unfold newMdrnn, permsForSwiping in H. destruct (prod _ =? prod shape / prod block) eqn:E in H; [|discriminate]. apply Nat.eqb_eq in E.
  split; [exact E|]. cbn [negb] in H. intro Ht. destruct timedim as [|n]; [lia|]. rewrite cross_dirs in H. cbn [rbind] in H.
  destruct (_ <? _) in H; [discriminate|]. cbn [rbind] in H. rewrite (map_ext (app (@nil bool)) (fun x => x)) in H by reflexivity. rewrite map_id in H.
  pose proof (proj2 (allDirs_spec (S n) (repeat false (S n))) (repeat_length _ _)) as I. destruct (allDirs (S n)) as [|d ds]; [destruct I|]. unfold swipeConns in H. cbn [map fold_right] in H.
  destruct (fold_right _ _ _) in H; [|discriminate]. cbn [rbind] in H. unfold permConn at 1 in H. destruct (negb _) in H; [discriminate|].
  destruct (length _ * prod block =? prod shape) eqn:F in H; [|discriminate]. apply Nat.eqb_eq in F. rewrite swipe_length, E in F. symmetry. exact F.
Qed.

(** ** permuteToBlocks *)
(** In two and three dimensions every element goes to its place in the array of blocks. *)
Theorem C80_blocks : forall (A : Type) (zero : A) shape block arr, (length shape = 2 \/ length shape = 3) -> divides_all shape block -> length arr = prod shape ->
  exists new, permuteToBlocks zero shape block arr = Ok new /\ length new = length arr /\
    forall cs, inside shape cs -> nth_error new (blockNumber shape block cs) = nth_error arr (number shape cs).
Proof.
  intros A zero shape block arr L Dv La.
  assert (S : forall c b q, 0 < b -> c < b * q -> c = b * (c / b) + c mod b /\ c mod b < b /\ c / b < q).
  { intros c b q Hb Hc. split; [apply Nat.div_mod; lia|]. split; [apply Nat.mod_upper_bound; lia | apply Nat.div_lt_upper_bound; lia]. }
  destruct L as [L|L].
  - inversion Dv as [|h bh ? ? (Pb & H & Eh) D1]; subst; [discriminate L|]. inversion D1 as [|w bw ? ? (Pw & W & Ew) D2]; subst; [discriminate L|]. inversion D2; subst; [|discriminate L].
    rewrite (Nat.mul_comm H), (Nat.mul_comm W) in *. cbn [permuteToBlocks].
    destruct (blocks2 zero bh bw H W arr) as (new & E & Ln & N); [rewrite La; cbn [prod fold_right]; ring|]. exists new. split; [exact E|]. split; [exact Ln|].
    intros cs I. inversion I as [|? y ? ? Hy I1]; subst. inversion I1 as [|? x ? ? Hx I2]; subst. inversion I2; subst.
    destruct (S y bh H Pb Hy) as (Y1 & Y2 & Y3). destruct (S x bw W Pw Hx) as (X1 & X2 & X3). unfold blockNumber. cbn [combine map fst snd number prod fold_right].
    replace (bw * W / bw) with W by (rewrite Nat.mul_comm, Nat.div_mul; lia). specialize (N (x / bw) (y / bh) (x mod bw) (y mod bh) X2 Y2 X3 Y3). rewrite <- Y1, <- X1 in N.
    replace ((y / bh * (W * 1) + (x / bw * 1 + 0)) * (bh * (bw * 1)) + (y mod bh * (bw * 1) + (x mod bw * 1 + 0))) with ((y / bh * W + x / bw) * (bw * bh) + y mod bh * bw + x mod bw) by ring.
    rewrite N. f_equal. ring.
  - inversion Dv as [|d bd ? ? (Pd & D & Ed) D0]; subst; [discriminate L|]. inversion D0 as [|h bh ? ? (Pb & H & Eh) D1]; subst; [discriminate L|].
    inversion D1 as [|w bw ? ? (Pw & W & Ew) D2]; subst; [discriminate L|]. inversion D2; subst; [|discriminate L].
    rewrite (Nat.mul_comm D), (Nat.mul_comm H), (Nat.mul_comm W) in *. cbn [permuteToBlocks].
    destruct (blocks3 zero bd bh bw D H W arr) as (new & E & Ln & N); [rewrite La; cbn [prod fold_right]; ring|]. exists new. split; [exact E|]. split; [exact Ln|].
    intros cs I. inversion I as [|? z ? ? Hz I0]; subst. inversion I0 as [|? y ? ? Hy I1]; subst. inversion I1 as [|? x ? ? Hx I2]; subst. inversion I2; subst.
    destruct (S z bd D Pd Hz) as (Z1 & Z2 & Z3). destruct (S y bh H Pb Hy) as (Y1 & Y2 & Y3). destruct (S x bw W Pw Hx) as (X1 & X2 & X3).
    unfold blockNumber. cbn [combine map fst snd number prod fold_right].
    replace (bw * W / bw) with W by (rewrite Nat.mul_comm, Nat.div_mul; lia). replace (bh * H / bh) with H by (rewrite Nat.mul_comm, Nat.div_mul; lia).
    specialize (N (x / bw) (y / bh) (z / bd) (x mod bw) (y mod bh) (z mod bd) X2 Y2 Z2 X3 Y3 Z3). rewrite <- Z1, <- Y1, <- X1 in N.
    replace ((z / bd * (H * (W * 1)) + (y / bh * (W * 1) + (x / bw * 1 + 0))) * (bd * (bh * (bw * 1))) + (z mod bd * (bh * (bw * 1)) + (y mod bh * (bw * 1) + (x mod bw * 1 + 0))))
      with (((z / bd * H + y / bh) * W + x / bw) * (bd * bh * bw) + (z mod bd * bh + y mod bh) * bw + x mod bw) by ring.
    rewrite N. f_equal. ring.
Qed.
(** the case of the docstring, and one in three dimensions *)
Example C80_blocks_ex : permuteToBlocks 99 [4; 4] [2; 2] (seq 0 16) = Ok [0; 1; 4; 5; 2; 3; 6; 7; 8; 9; 12; 13; 10; 11; 14; 15] /\
  permuteToBlocks 99 [2; 2; 4] [2; 1; 2] (seq 0 16) = Ok [0; 1; 8; 9; 2; 3; 10; 11; 4; 5; 12; 13; 6; 7; 14; 15].
Proof. split; vm_compute; reflexivity. Qed.
(** Only two and three dimensions. *)
Theorem C80_block_dimensions : forall (A : Type) (zero : A) shape block arr,
  (length block < 2 -> permuteToBlocks zero shape block arr = Err ValueError) /\ (3 < length block -> permuteToBlocks zero shape block arr = Err NotImplementedError).
Proof.
  intros A zero shape block arr. split; intro H; destruct block as [|a [|b [|c [|d l]]]]; cbn in H; try lia; reflexivity.
Qed.
(** Blocks that do not fit lose elements; under true division the docstring's case writes outside the array. *)
Theorem C80_blocks_refuted :
  permuteToBlocks 99 [2; 3] [1; 2] (seq 0 6) = Ok [0; 1; 4; 3; 99; 5] /\
  map (j_true 4 2 2) [0; 1; 2; 3; 4; 15]%Z = [0; 4; 7; 11; 6; 25]%Z.
Proof. split; vm_compute; reflexivity. Qed.

(** ** the gates by themselves *)
(** After a reset a gate's output is its function of the input; the parts of a double gate add up to the gated values, those of a switch to 1, and each lies between. *)
Theorem C80_gates : forall k v w, length v = length w ->
  activate k (resetBuf k (length v)) (v, w) = gateOut k v w /\
  addv (firstn (length v) (gateOut DoubleGate v w)) (skipn (length v) (gateOut DoubleGate v w)) = w /\
  addv (firstn (length v) (gateOut Switch v w)) (skipn (length v) (gateOut Switch v w)) = repeat 1%R (length v) /\
  Forall (fun x => (0 < x < 1)%R) (gateOut Switch v w).
Proof.
  intros k v w L.
  assert (Z : forall l, addv (repeat 0%R (length l)) l = l).
  { induction l as [|x l IH]; [reflexivity|]. unfold addv in *. cbn [length repeat combine map fst snd]. rewrite IH. f_equal. ring. }
  split; [|split; [|split]].
  - unfold activate, resetBuf. cbn [fst snd]. replace (outdim k (length v)) with (length (gateOut k v w)); [apply Z|].
    destruct k; cbn [gateOut outdim]; rewrite ?app_length, ?map_length, ?combine_length; lia.
  - cbn [gateOut]. rewrite firstn_app, skipn_app, map_length, combine_length, <- L, Nat.min_id, Nat.sub_diag, firstn_O, skipn_O, app_nil_r.
    rewrite firstn_all2, skipn_all2 by (rewrite map_length, combine_length; lia). cbn [app].
    clear Z. revert w L. induction v as [|x v IH]; intros [|y w] L; try discriminate; [reflexivity|]. unfold addv in *. cbn [combine map fst snd]. rewrite IH by (cbn in L; lia). f_equal. ring.
  - cbn [gateOut]. rewrite firstn_app, skipn_app, map_length, Nat.sub_diag, firstn_O, skipn_O, app_nil_r. rewrite firstn_all2, skipn_all2 by (rewrite map_length; lia). cbn [app].
    clear. induction v as [|x v IH]; [reflexivity|]. unfold addv in *. cbn [combine map fst snd length repeat]. rewrite IH. f_equal. ring.
  - cbn [gateOut]. apply Forall_app. split; apply Forall_forall; intros x Hx; apply in_map_iff in Hx as (a & <- & _); pose proof (sigmoid_range a); lra.
Qed.
(** Activated again without a reset, a gate returns the sum of all its outputs so far. *)
Theorem C80_gates_add_up_refuted : forall k x y, length (fst x) = length (snd x) -> length (fst y) = length (snd y) -> length (fst x) = length (fst y) ->
  let b := activate k (resetBuf k (length (fst x))) x in
  activate k b y = addv (gateOut k (fst x) (snd x)) (gateOut k (fst y) (snd y)) /\
  (activate k b y = gateOut k (fst y) (snd y) -> Forall (fun r => r = 0%R) (gateOut k (fst x) (snd x))).
Proof.
  intros k [v w] [v' w'] Lx Ly Lxy. cbn [fst snd] in *. cbv zeta. destruct (C80_gates k v w Lx) as (E & _). rewrite E. unfold activate. cbn [fst snd]. split; [reflexivity|].
  assert (Len : length (gateOut k v w) = length (gateOut k v' w')) by (destruct k; cbn [gateOut]; rewrite ?app_length, ?map_length, ?combine_length; lia).
  revert Len. generalize (gateOut k v w) (gateOut k v' w'). clear. induction l as [|a l IH]; intros [|b m] Len H; try discriminate; [constructor|].
  unfold addv in *. cbn [combine map fst snd] in H. injection H as H1 H2. constructor; [lra|]. apply (IH m); [cbn in Len; lia | exact H2].
Qed.

Print Assumptions C80_slice.
Print Assumptions C80_slice_neighbours.
Print Assumptions C80_slice_refuted.
Print Assumptions C80_layout.
Print Assumptions C80_layout_refuted.
Print Assumptions C80_swipe.
Print Assumptions C80_numbers.
Print Assumptions C80_network.
Print Assumptions C80_directions.
Print Assumptions C80_way_back_refuted.
Print Assumptions C80_blocks_must_fit.
Print Assumptions C80_blocks.
Print Assumptions C80_block_dimensions.
Print Assumptions C80_blocks_refuted.
Print Assumptions C80_gates.
Print Assumptions C80_gates_add_up_refuted.
