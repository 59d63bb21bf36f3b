From Verif Require Import Base Utilities_Model Utilities_Spec.
From Coq Require Import NArith QArith Lqa.
Open Scope nat_scope.

(** ** Gray code *)

Lemma mod2_testbit g k : (N.shiftr g k mod 2)%N = N.b2n (N.testbit g k).
Proof. rewrite N.testbit_spec'. rewrite N.shiftr_div_pow2. reflexivity. Qed.

Lemma gray_bit i k : N.testbit (int2gray i) k = xorb (N.testbit i k) (N.testbit i (N.succ k)).
Proof. unfold int2gray. rewrite N.lxor_spec, N.shiftr_spec'. do 2 f_equal. lia. Qed.

Lemma b2n_xor a b : N.lxor (N.b2n a) (N.b2n b) = N.b2n (xorb a b).
Proof. destruct a, b; reflexivity. Qed.

Lemma high_part i k :
  (N.shiftl (N.shiftr i (N.succ k)) (N.succ k) + N.b2n (N.testbit i k) * 2 ^ k)%N
  = N.shiftl (N.shiftr i k) k.
Proof.
  rewrite !N.shiftl_mul_pow2, !N.shiftr_div_pow2, N.testbit_spec'.
  rewrite N.pow_succ_r'. rewrite (N.mul_comm 2). rewrite <- N.div_div by (apply N.pow_nonzero || idtac; discriminate).
  pose proof (N.div_mod (i / 2 ^ k) 2 ltac:(discriminate)) as H.
  set (q := (i / 2 ^ k)%N) in *. set (p := (2 ^ k)%N). nia.
Qed.

Lemma gray_loop_ok i size : (i < 2 ^ N.of_nat size)%N -> forall k bi, k <= size ->
  (k < size -> bi = N.b2n (N.testbit i (N.of_nat k))) ->
  gray_loop (int2gray i) size k bi (N.shiftl (N.shiftr i (N.of_nat k)) (N.of_nat k)) = i.
Proof.
  intros Hi. induction k as [|k IH]; intros bi Hk Hb; cbn [gray_loop].
  - rewrite N.shiftr_0_r, N.shiftl_0_r. reflexivity.
  - rewrite mod2_testbit, gray_bit. rewrite <- Nat2N.inj_succ.
    set (bi' := if k =? size - 1 then _ else _).
    assert (Hbi : bi' = N.b2n (N.testbit i (N.of_nat k))).
    { subst bi'. destruct (Nat.eqb_spec k (size - 1)) as [E|E].
      - assert (Hz : N.testbit i (N.of_nat (S k)) = false).
        { destruct (N.eq_dec i 0) as [->|Hnz]; [apply N.bits_0|].
          apply N.bits_above_log2. apply N.log2_lt_pow2; [lia|].
          replace (S k) with size by lia. exact Hi. }
        rewrite Hz, xorb_false_r. reflexivity.
      - rewrite (Hb ltac:(lia)). rewrite b2n_xor. f_equal.
        destruct (N.testbit i (N.of_nat (S k))), (N.testbit i (N.of_nat k)); reflexivity. }
    rewrite Hbi. rewrite Nat2N.inj_succ, high_part. apply IH; auto. lia.
Qed.

Lemma gray_round_trip i size : (i < 2 ^ N.of_nat size)%N -> gray2int (int2gray i) size = i.
Proof.
  intro Hi. unfold gray2int.
  assert (H0 : N.shiftl (N.shiftr i (N.of_nat size)) (N.of_nat size) = 0%N).
  { rewrite N.shiftr_div_pow2, N.div_small by auto. apply N.shiftl_0_l. }
  rewrite <- H0 at 2. apply gray_loop_ok; auto. lia.
Qed.

Lemma lxor_succ i : exists k, N.lxor i (i + 1) = N.ones (k + 1).
Proof.
  destruct i as [|p]; [exists 0%N; reflexivity|].
  induction p as [p [k IH]|p _|].
  - exists (k + 1)%N. 
    assert (E : N.lxor (N.pos p~1) (N.pos p~1 + 1) = N.succ_double (N.lxor (N.pos p) (N.pos p + 1))).
    { cbn. rewrite Pos.add_1_r. reflexivity. }
    rewrite E, IH. rewrite !N.ones_equiv, N.succ_double_spec.
    rewrite (N.add_1_r (k + 1)), N.pow_succ_r'.
    assert (0 < 2 ^ (k + 1))%N by (apply N.neq_0_lt_0, N.pow_nonzero; discriminate). lia.
  - exists 0%N. change (N.pos p~0 + 1)%N with (N.pos p~1). 
    change (N.lxor (N.pos p~0) (N.pos p~1)) with (N.succ_double (N.lxor (N.pos p) (N.pos p))).
    rewrite N.lxor_nilpotent. reflexivity.
  - exists 1%N. reflexivity.
Qed.

Lemma int2gray_lxor a b : N.lxor (int2gray a) (int2gray b) = int2gray (N.lxor a b).
Proof.
  apply N.bits_inj. intro k. rewrite N.lxor_spec, !gray_bit, !N.lxor_spec.
  destruct (N.testbit a k), (N.testbit b k), (N.testbit a (N.succ k)), (N.testbit b (N.succ k)); reflexivity.
Qed.

Lemma gray_adjacent i : exists k, N.lxor (int2gray i) (int2gray (i + 1)) = (2 ^ k)%N.
Proof.
  rewrite int2gray_lxor. destruct (lxor_succ i) as [k E]. exists k. rewrite E.
  apply N.bits_inj. intro n. rewrite gray_bit, N.pow2_bits_eqb.
  destruct (N.lt_trichotomy n k) as [H|[->|H]].
  - rewrite !N.ones_spec_low by lia. symmetry. apply N.eqb_neq. lia.
  - rewrite N.ones_spec_low, N.ones_spec_high by lia. rewrite N.eqb_refl. reflexivity.
  - rewrite !N.ones_spec_high by lia. symmetry. apply N.eqb_neq. lia.
Qed.

(** gray2int is also a left inverse on codes of the given size *)
Lemma int2gray_lt i n : (i < 2 ^ n -> int2gray i < 2 ^ n)%N.
Proof.
  intro H. destruct (N.eq_dec (int2gray i) 0) as [->|Hz]; [lia|].
  apply N.log2_lt_pow2; [lia|]. 
  assert (Hb : N.testbit (int2gray i) (N.log2 (int2gray i)) = true) by (apply N.bit_log2; auto).
  destruct (N.lt_ge_cases (N.log2 (int2gray i)) n) as [|Hge]; auto. exfalso.
  rewrite gray_bit in Hb.
  assert (Habove : forall m, (n <= m)%N -> N.testbit i m = false).
  { intros m Hm. destruct (N.eq_dec i 0) as [->|Hnz]; [apply N.bits_0|].
    apply N.bits_above_log2. apply N.log2_lt_pow2 in H; lia. }
  rewrite !Habove in Hb by lia. discriminate.
Qed.

(** ** iterCombinations *)

Lemma lex_length a b : lex a b -> length a = length b.
Proof. induction 1; simpl; auto. Qed.

Lemma lex_snoc_lt p q i j : lex p q -> lex (p ++ [i]) (q ++ [j]).
Proof.
  induction 1.
  - apply lex_lt; auto. rewrite !app_length. simpl. lia.
  - apply lex_eq; auto.
Qed.

Lemma lex_snoc_eq p i j : i < j -> lex (p ++ [i]) (p ++ [j]).
Proof. intro H. induction p as [|a p IH]; simpl; [apply lex_lt|apply lex_eq]; auto. Qed.

Lemma iterC_spec tup : tup <> [] -> forall t, In t (iterC_rev tup) <-> Forall2 lt (rev t) tup.
Proof.
  induction tup as [|n [|n' tup] IH]; intros Hne t; [congruence| |].
  - simpl. rewrite in_map_iff. split.
    + intros (i & <- & Hi). apply in_seq in Hi. repeat constructor. lia.
    + intro H. inversion H as [|x y l l' Hx Hl E]; subst. inversion Hl; subst.
      assert (Ht : t = [x]) by (rewrite <- (rev_involutive t), <- E; reflexivity).
      exists x. split; auto. apply in_seq. lia.
  - change (iterC_rev (n :: n' :: tup)) with
      (flat_map (fun prefix => map (fun i => prefix ++ [i]) (seq 0 n)) (iterC_rev (n' :: tup))).
    rewrite in_flat_map. split.
    + intros (p & Hp & Hi). apply in_map_iff in Hi. destruct Hi as (i & <- & Hi). apply in_seq in Hi.
      rewrite rev_app_distr. simpl. constructor; [lia|]. apply IH in Hp; auto. discriminate.
    + intro H. inversion H as [|x y l l' Hx Hl E]; subst.
      assert (Ht : t = rev l ++ [x]) by (rewrite <- (rev_involutive t), <- E; reflexivity).
      exists (rev l). split.
      * apply IH; [discriminate|]. rewrite rev_involutive. exact Hl.
      * apply in_map_iff. exists x. split; auto. apply in_seq. lia.
Qed.

Lemma sorted_map_seq (f : nat -> list nat) : (forall i j, i < j -> lex (f i) (f j)) ->
  forall n a, StronglySorted lex (map f (seq a n)).
Proof.
  intros Hf. induction n as [|n IH]; intro a; simpl; constructor; auto.
  apply Forall_forall. intros x Hx. apply in_map_iff in Hx. destruct Hx as (i & <- & Hi).
  apply in_seq in Hi. apply Hf. lia.
Qed.

Lemma sorted_app {A} (R : A -> A -> Prop) l m : StronglySorted R l -> StronglySorted R m ->
  (forall x y, In x l -> In y m -> R x y) -> StronglySorted R (l ++ m).
Proof.
  induction l as [|a l IH]; intros Hl Hm H; simpl; auto.
  inversion Hl; subst. constructor.
  - apply IH; auto. intros; apply H; auto. right; auto.
  - apply Forall_app. split; auto. apply Forall_forall. intros; apply H; auto. left; auto.
Qed.

Lemma iterC_sorted tup : StronglySorted lex (iterC_rev tup).
Proof.
  induction tup as [|n [|n' tup] IH].
  - constructor.
  - apply (sorted_map_seq (fun i => [i])). intros; constructor; auto.
  - change (iterC_rev (n :: n' :: tup)) with
      (flat_map (fun prefix => map (fun i => prefix ++ [i]) (seq 0 n)) (iterC_rev (n' :: tup))).
    revert IH. generalize (iterC_rev (n' :: tup)) as l. clear.
    induction l as [|p l IH]; intros Hs; simpl; [constructor|].
    inversion Hs as [|? ? Hl Hp]; subst. apply sorted_app.
    + apply (sorted_map_seq (fun i => p ++ [i])). intros; apply lex_snoc_eq; auto.
    + auto.
    + intros x y Hx Hy. apply in_map_iff in Hx. destruct Hx as (i & <- & _).
      apply in_flat_map in Hy. destruct Hy as (q & Hq & Hy). apply in_map_iff in Hy.
      destruct Hy as (j & <- & _). apply lex_snoc_lt. rewrite Forall_forall in Hp. auto.
Qed.

Lemma lex_irrefl l : ~ lex l l.
Proof.
  intro H. remember l as m eqn:E in H at 2. revert E. induction H; intro E; inversion E; subst; auto. lia.
Qed.

Lemma sorted_nodup {A} (R : A -> A -> Prop) l : (forall x, ~ R x x) -> StronglySorted R l -> NoDup l.
Proof.
  intros Hi. induction 1; constructor; auto. intro Hin. rewrite Forall_forall in H0. apply (Hi a), H0, Hin.
Qed.

Lemma Forall2_rev_iff {A B} (R : A -> B -> Prop) l m : Forall2 R (rev l) (rev m) <-> Forall2 R l m.
Proof.
  assert (H : forall l m, Forall2 R l m -> Forall2 R (rev l) (rev m)).
  { clear. induction 1; simpl; auto. apply Forall2_app; auto. }
  split; intro F; auto. apply H in F. rewrite !rev_involutive in F. exact F.
Qed.

Lemma iterCombinations_ok tup : tup <> [] ->
  (forall t, In t (iterCombinations tup) <-> Forall2 lt t tup) /\
  NoDup (iterCombinations tup) /\ StronglySorted lex (iterCombinations tup).
Proof.
  intro Hne. unfold iterCombinations. split; [|split].
  - intro t. rewrite iterC_spec.
    + rewrite <- (rev_involutive tup) at 2. rewrite <- (rev_involutive t) at 2. symmetry.
      rewrite Forall2_rev_iff. reflexivity.
    + intro E. apply Hne. rewrite <- (rev_involutive tup), E. reflexivity.
  - eapply sorted_nodup; [apply lex_irrefl|apply iterC_sorted].
  - apply iterC_sorted.
Qed.

(** ** Triangular matrices *)
Section Triu.
Context {V : Type} (vzero : V).

Lemma tri_sum n : n * (n + 1) / 2 = list_sum (map (fun r => n - r) (seq 0 n)).
Proof.
  assert (H : forall n k, 2 * list_sum (map (fun r => n + k - r) (seq k n)) = n * (n + 1)).
  { clear. induction n as [|n IH]; intro k; [reflexivity|].
    cbn [seq map list_sum fold_right]. specialize (IH (S k)).
    assert (E : map (fun r => n + S k - r) (seq (S k) n) = map (fun r => S n + k - r) (seq (S k) n)).
    { apply map_ext. intro; lia. }
    rewrite E in IH. unfold list_sum in *. lia. }
  specialize (H n 0). rewrite Nat.add_0_r in H. rewrite <- H, Nat.mul_comm, Nat.div_mul by lia. reflexivity.
Qed.

Lemma sum_prefix (g : nat -> nat) dim i : i < dim ->
  list_sum (map g (seq 0 i)) + g i <= list_sum (map g (seq 0 dim)).
Proof.
  intro Hi. replace dim with (i + (1 + (dim - i - 1))) by lia.
  rewrite seq_app, map_app, list_sum_app. cbn [seq map list_sum fold_right Nat.add]. lia.
Qed.

Lemma triu_loop_ok (m : list (list V)) dim : length m = dim -> (forall r, In r m -> length r = dim) ->
  forall n row index res, row + n = dim ->
  length res = index + list_sum (map (fun r => dim - r) (seq row n)) ->
  triu_loop m dim row n index res
  = firstn index res ++ concat (map (fun r => skipn r (nth r m [])) (seq row n)).
Proof.
  intros Hm Hr. induction n as [|n IH]; intros row index res Hn Hl; cbn [triu_loop seq map concat list_sum fold_right] in *.
  - rewrite firstn_all2 by lia. rewrite app_nil_r. reflexivity.
  - assert (Hlen : length (skipn row (nth row m [])) = dim - row).
    { rewrite skipn_length, Hr; auto. apply nth_In. lia. }
    rewrite IH.
    + unfold splice. rewrite app_assoc, firstn_app.
      rewrite (firstn_all2 (n := index + (dim - row)) (firstn index res ++ _)).
      2:{ rewrite app_length, firstn_length, Hlen. lia. }
      rewrite app_length, firstn_length, Hlen.
      replace (index + (dim - row) - (Nat.min index (length res) + (dim - row))) with 0 by (unfold list_sum in *; lia).
      cbn [firstn]. rewrite app_nil_r, <- app_assoc. reflexivity.
    + lia.
    + unfold splice. rewrite !app_length, firstn_length, !Hlen, skipn_length. unfold list_sum in *. lia.
Qed.

Lemma triu2flat_spec (m : list (list V)) : (forall r, In r m -> length r = length m) ->
  triu2flat vzero m = concat (map (fun r => skipn r (nth r m [])) (seq 0 (length m))).
Proof.
  intro Hr. unfold triu2flat. rewrite triu_loop_ok; auto.
  rewrite repeat_length, tri_sum. reflexivity.
Qed.

Lemma flat_loop_ok (a : list V) dim : length a = list_sum (map (fun r => dim - r) (seq 0 dim)) ->
  forall n row index res, row + n = dim ->
  index = list_sum (map (fun r => dim - r) (seq 0 row)) -> length res = dim ->
  (forall i, row <= i < dim -> nth_error res i = Some (repeat vzero dim)) ->
  exists out, flat_loop a dim row n index res = Ok out /\ length out = dim /\
    (forall i, i < row -> nth_error out i = nth_error res i) /\
    forall i, row <= i < dim -> nth_error out i
      = Some (repeat vzero i ++ slice (list_sum (map (fun r => dim - r) (seq 0 i)))
                               (list_sum (map (fun r => dim - r) (seq 0 i)) + (dim - i)) a).
Proof.
  intro Ha. 
  assert (Hsum : forall i, i < dim ->
     list_sum (map (fun r => dim - r) (seq 0 i)) + (dim - i) <= length a).
  { intros i Hi. rewrite Ha. apply (sum_prefix (fun r => dim - r)); auto. }
  induction n as [|n IH]; intros row index res Hn Hi Hl Hz; cbn [flat_loop].
  - exists res. split; auto. split; auto. split; auto. intros; lia.
  - assert (Hvl : length (slice index (index + (dim - row)) a) = dim - row).
    { rewrite slice_length. specialize (Hsum row ltac:(lia)). lia. }
    rewrite Hvl, Nat.eqb_refl.
    set (res' := upd row _ res).
    destruct (IH (S row) (index + (dim - row)) res') as (out & E & L & P1 & P2); subst res'.
    + lia.
    + rewrite seq_S, map_app, list_sum_app. cbn. lia.
    + rewrite upd_length; auto.
    + intros i Hir. rewrite nth_error_upd_neq by lia. apply Hz. lia.
    + exists out. split; auto. split; auto. split.
      * intros i Hir. rewrite P1 by lia. apply nth_error_upd_neq. lia.
      * intros i Hir. destruct (Nat.eq_dec i row) as [->|Hne].
        -- rewrite P1 by lia. rewrite nth_error_upd_eq by lia. f_equal.
           rewrite (nth_error_nth _ _ [] (Hz row ltac:(lia))).
           unfold splice. rewrite Hvl.
           replace (firstn row (repeat vzero dim)) with (repeat vzero row).
           2:{ replace dim with (row + (dim - row)) by lia. rewrite repeat_app, firstn_app, repeat_length, Nat.sub_diag.
               rewrite firstn_all2 by (rewrite repeat_length; lia). simpl. rewrite app_nil_r. reflexivity. }
           rewrite skipn_all2 by (rewrite repeat_length; lia). rewrite app_nil_r. subst index. reflexivity.
        -- apply P2. lia.
Qed.

Lemma flat2triu_spec (a : list V) dim : length a = dim * (dim + 1) / 2 ->
  exists m, flat2triu vzero a dim = Ok m /\ length m = dim /\
    forall i, i < dim -> nth_error m i
      = Some (repeat vzero i ++ slice (list_sum (map (fun r => dim - r) (seq 0 i)))
                               (list_sum (map (fun r => dim - r) (seq 0 i)) + (dim - i)) a).
Proof.
  intro Ha. rewrite tri_sum in Ha. unfold flat2triu.
  destruct (flat_loop_ok a dim Ha dim 0 0 (repeat (repeat vzero dim) dim)) as (m & E & L & _ & P); auto.
  - apply repeat_length.
  - intros i Hi. apply nth_error_repeat_lt. lia.
  - exists m. split; auto. split; auto. intros. apply P. lia.
Qed.

Lemma slice_concat_at (f : nat -> list V) (g : nat -> nat) : (forall i, length (f i) = g i) ->
  forall dim i, i < dim ->
  slice (list_sum (map g (seq 0 i))) (list_sum (map g (seq 0 i)) + g i) (concat (map f (seq 0 dim))) = f i.
Proof.
  intros Hg dim i Hi. replace dim with (i + (1 + (dim - i - 1))) by lia.
  rewrite seq_app, map_app, concat_app. cbn [seq map concat Nat.add].
  assert (Hs : list_sum (map g (seq 0 i)) = length (concat (map f (seq 0 i)))).
  { clear -Hg. induction (seq 0 i) as [|x l IH]; simpl; auto. rewrite app_length, Hg. unfold list_sum in *. lia. }
  rewrite Hs. unfold slice. rewrite firstn_app. rewrite firstn_all2 by lia.
  rewrite skipn_app, skipn_all, Nat.sub_diag. cbn [app skipn].
  rewrite firstn_app. replace (length (concat (map f (seq 0 i))) + g i - length (concat (map f (seq 0 i)))) with (g i) by lia.
  rewrite Hg, Nat.sub_diag. cbn [firstn]. rewrite app_nil_r. apply firstn_all2. rewrite Hg. lia.
Qed.

Lemma triu_round_trip (m : list (list V)) dim : upper_triangular vzero dim m ->
  flat2triu vzero (triu2flat vzero m) dim = Ok m.
Proof.
  intros [Hl Hm]. 
  assert (Hr : forall r, In r m -> length r = length m).
  { intros r Hin. apply In_nth_error in Hin. destruct Hin as [i Hi]. apply Hm in Hi. lia. }
  rewrite triu2flat_spec by auto.
  destruct (flat2triu_spec (concat (map (fun r => skipn r (nth r m [])) (seq 0 (length m)))) dim) as (m' & E & L & P).
  { rewrite tri_sum, Hl. assert (Hrr : forall r, r < dim -> length (nth r m []) = dim).
    { intros r Hlt. rewrite Hr; auto. apply nth_In. lia. }
    assert (Hgen : forall n k, k + n <= dim -> length (concat (map (fun r => skipn r (nth r m [])) (seq k n))) =
       list_sum (map (fun r => dim - r) (seq k n))).
    { induction n as [|n IH]; intros k Hk; cbn [seq map concat list_sum fold_right]; auto.
      rewrite app_length, skipn_length, Hrr, IH by lia. reflexivity. }
    apply Hgen. lia. }
  rewrite E. f_equal. apply nth_error_ext. intro i.
  destruct (Nat.lt_ge_cases i dim) as [Hi|Hi].
  - rewrite P by auto. rewrite Hl.
    set (f := fun r => if r <? dim then skipn r (nth r m []) else repeat vzero (dim - r)).
    assert (Hf : map (fun r => skipn r (nth r m [])) (seq 0 dim) = map f (seq 0 dim)).
    { apply map_ext_in. intros r Hin. apply in_seq in Hin. subst f. cbv beta.
      destruct (Nat.ltb_spec r dim); [reflexivity|lia]. }
    rewrite Hf. rewrite (slice_concat_at f (fun r => dim - r)); auto.
    2:{ intro r. subst f. cbv beta. destruct (Nat.ltb_spec r dim).
        - rewrite skipn_length, Hr, Hl; auto. apply nth_In. lia.
        - apply repeat_length. }
    subst f. cbv beta. destruct (Nat.ltb_spec i dim); [|lia].
    destruct (nth_error m i) as [row|] eqn:Er; [|apply nth_error_None in Er; lia].
    rewrite (nth_error_nth _ _ [] Er). destruct (Hm i row Er) as [Hlr Hz]. f_equal.
    rewrite <- (firstn_skipn i row) at 2. f_equal.
    apply nth_error_ext. intro j. destruct (Nat.lt_ge_cases j i) as [Hj|Hj].
    + rewrite nth_error_repeat_lt, nth_error_firstn, Hz by auto. reflexivity.
    + rewrite !(proj2 (nth_error_None _ _)); auto; rewrite ?repeat_length, ?firstn_length; lia.
  - rewrite !(proj2 (nth_error_None _ _)) by lia. reflexivity.
Qed.

Lemma flat_round_trip (a : list V) dim : length a = dim * (dim + 1) / 2 ->
  exists m, flat2triu vzero a dim = Ok m /\ upper_triangular vzero dim m /\ triu2flat vzero m = a.
Proof.
  intro Ha. destruct (flat2triu_spec a dim Ha) as (m & E & L & P). exists m. split; auto.
  assert (Hsum : forall i, i < dim -> list_sum (map (fun r => dim - r) (seq 0 i)) + (dim - i) <= length a).
  { intros i Hi. rewrite Ha, tri_sum. apply (sum_prefix (fun r => dim - r)); auto. }
  assert (Hu : upper_triangular vzero dim m).
  { split; auto. intros i row Hr. assert (Hi : i < dim) by (rewrite <- L; apply nth_error_Some; congruence).
    rewrite P in Hr by auto. inversion Hr; subst row. split.
    - rewrite app_length, repeat_length, slice_length. specialize (Hsum i Hi). lia.
    - intros j Hj. rewrite nth_error_app1 by (rewrite repeat_length; auto). apply nth_error_repeat_lt; auto. }
  split; auto.
  rewrite triu2flat_spec.
  2:{ intros r Hr. apply In_nth_error in Hr. destruct Hr as [i Hi]. destruct Hu as [_ Hu]. apply Hu in Hi. lia. }
  rewrite L.
  assert (Hrow : forall i, i < dim -> skipn i (nth i m [])
     = slice (list_sum (map (fun r => dim - r) (seq 0 i))) (list_sum (map (fun r => dim - r) (seq 0 i)) + (dim - i)) a).
  { intros i Hi. rewrite (nth_error_nth _ _ [] (P i Hi)). rewrite skipn_app, repeat_length, Nat.sub_diag.
    rewrite skipn_all2 by (rewrite repeat_length; lia). reflexivity. }
  assert (Hgen : forall n, n <= dim -> concat (map (fun r => skipn r (nth r m [])) (seq 0 n))
     = firstn (list_sum (map (fun r => dim - r) (seq 0 n))) a).
  { induction n as [|n IH]; intro Hn; auto.
    rewrite seq_S, !map_app, concat_app, list_sum_app. cbn [map concat list_sum fold_right Nat.add].
    rewrite IH by lia. rewrite app_nil_r, Hrow by lia. rewrite Nat.add_0_r. unfold slice.
    set (s := list_sum _). rewrite <- (firstn_skipn s (firstn (s + (dim - n)) a)) at 2.
    f_equal. rewrite firstn_firstn, Nat.min_l by lia. reflexivity. }
  rewrite Hgen by auto. apply firstn_all2. rewrite Ha, tri_sum. lia.
Qed.
End Triu.

Lemma gray_onto g size : (g < 2 ^ N.of_nat size)%N ->
  exists i, (i < 2 ^ N.of_nat size)%N /\ int2gray i = g.
Proof.
  intro Hg. set (n := 2 ^ size).
  assert (Hn : N.of_nat n = (2 ^ N.of_nat size)%N).
  { unfold n. rewrite Nat2N.inj_pow. reflexivity. }
  assert (Hall : forall x, In x (map N.of_nat (seq 0 n)) <-> (x < 2 ^ N.of_nat size)%N).
  { intro x. rewrite in_map_iff. split.
    - intros (k & <- & Hk). apply in_seq in Hk. lia.
    - intro Hx. exists (N.to_nat x). split; [apply N2Nat.id|]. apply in_seq. lia. }
  assert (Hincl : incl (map N.of_nat (seq 0 n)) (map int2gray (map N.of_nat (seq 0 n)))).
  { apply NoDup_length_incl.
    - assert (G : forall l, NoDup l -> (forall x, In x l -> (x < 2 ^ N.of_nat size)%N) -> NoDup (map int2gray l)).
      { induction l as [|x l IH]; intros Hd Hl; simpl; constructor; inversion Hd; subst.
        - intro Hin. apply in_map_iff in Hin. destruct Hin as (y & E & Hy).
          assert (x = y); [|subst; contradiction].
          rewrite <- (gray_round_trip x size), <- (gray_round_trip y size), E; auto; apply Hl; simpl; auto.
        - apply IH; auto. intros; apply Hl; right; auto. }
      apply G; [|intros; apply Hall; auto].
      apply FinFun.Injective_map_NoDup; [intros a b E; apply Nat2N.inj; auto|apply seq_NoDup].
    - rewrite !map_length. lia.
    - intros x Hx. apply in_map_iff in Hx. destruct Hx as (y & <- & Hy). apply Hall, int2gray_lt, Hall, Hy. }
  apply Hall in Hg. apply Hincl in Hg. apply in_map_iff in Hg. destruct Hg as (i & E & Hi).
  exists i. split; auto. apply Hall; auto.
Qed.

Lemma gray_round_trip2 g size : (g < 2 ^ N.of_nat size)%N -> int2gray (gray2int g size) = g.
Proof.
  intro Hg. destruct (gray_onto g size Hg) as (i & Hi & <-). rewrite gray_round_trip; auto.
Qed.
