From Coq Require Import QArith Lqa.
From Verif Require Import Base Dataset_Model Dataset_Spec Dataset_Proofs2 Sequential_Model Sequential_Spec Sequential_Proofs Sequential_Proofs2 Grid_Model Errors_Model Errors_Spec Errors_Proofs.
Local Open Scope Q_scope.

(** ** argmax *)
Lemma qltb_spec a b : if qltb a b then a < b else b <= a.
Proof. unfold qltb. destruct (Qle_bool b a) eqn:E; cbn; [apply Qle_bool_iff; auto|]. apply Qnot_le_lt. intro H. apply Qle_bool_iff in H. congruence. Qed.
Lemma qargmax_go_winner l : forall pre best, winner pre best -> winner (pre ++ l) (qargmax_go best (nth best pre 0) (length pre) l).
Proof.
  induction l as [|v l IH]; intros pre best (H1 & H2 & H3); [rewrite app_nil_r; split; auto|].
  cbn [qargmax_go]. pose proof (qltb_spec (nth best pre 0) v) as Hv.
  assert (L : length (pre ++ [v]) = S (length pre)) by (rewrite app_length; cbn; lia).
  replace (pre ++ v :: l) with ((pre ++ [v]) ++ l) by (rewrite <- app_assoc; reflexivity).
  assert (E1 : nth (length pre) (pre ++ [v]) 0 = v) by (rewrite app_nth2, Nat.sub_diag by lia; reflexivity).
  assert (E2 : forall j, (j < length pre)%nat -> nth j (pre ++ [v]) 0 = nth j pre 0) by (intros; rewrite app_nth1 by auto; reflexivity).
  destruct (qltb (nth best pre 0) v).
  - specialize (IH (pre ++ [v]) (length pre)). rewrite L, E1 in IH. apply IH. split; [lia|]. rewrite E1. split; intros j Hj.
    + destruct (Nat.eq_dec j (length pre)) as [->|]; [rewrite E1; lra|]. rewrite E2 by lia. specialize (H2 j ltac:(lia)). lra.
    + rewrite E2 by lia. specialize (H2 j ltac:(lia)). lra.
  - specialize (IH (pre ++ [v]) best). rewrite L, E2 in IH by auto. apply IH. split; [lia|]. rewrite E2 by auto. split; intros j Hj.
    + destruct (Nat.eq_dec j (length pre)) as [->|]; [rewrite E1; lra|]. rewrite E2 by lia. apply H2. lia.
    + rewrite E2 by lia. apply H3. auto.
Qed.
Lemma qargmax_winner l : l <> [] -> winner l (qargmax l).
Proof.
  destruct l as [|a l]; [contradiction|]. intros _. cbn [qargmax]. apply (qargmax_go_winner l [a] 0). split; [cbn; lia|]. split; intros j Hj; cbn in *; [|lia]. replace j with 0%nat by lia. cbn. lra.
Qed.
Lemma winner_ext a b k : length a = length b -> (forall i, nth i a 0 == nth i b 0) -> winner a k -> winner b k.
Proof. intros L E (H1 & H2 & H3). split; [lia|]. split; intros j Hj; rewrite <- !E; [apply H2; lia|apply H3; auto]. Qed.

(** ** the ends of the sequences *)
Fixpoint ends (a : nat) (ss : list (list qsample)) : list Z :=
  match ss with [] => [] | s :: t => (Z.of_nat (a + length s) - 1)%Z :: ends (a + length s) t end.
Lemma ends_starts ss : forall a, ss <> [] -> tl (map (fun n => Z.of_nat n - 1)%Z (starts a ss)) ++ [Z.of_nat (a + length (concat ss)) - 1]%Z = ends a ss.
Proof.
  induction ss as [|s ss IH]; intros a H; [contradiction|]. cbn [starts map tl ends concat]. rewrite app_length. destruct ss as [|s' ss].
  - cbn. rewrite Nat.add_0_r. reflexivity.
  - cbn [starts map app]. f_equal. rewrite <- IH by discriminate. cbn [starts map tl]. rewrite Nat.add_assoc. reflexivity.
Qed.
Lemma ends_spec ss : forall a, ends a ss = map (fun i => Z.of_nat a + end_of ss i)%Z (seq 0 (length ss)).
Proof.
  induction ss as [|s ss IH]; intro a; [reflexivity|]. cbn [ends length seq map]. unfold end_of at 1. cbn [firstn concat]. rewrite app_nil_r. f_equal; [lia|].
  rewrite IH, <- seq_shift, map_map. apply map_ext. intro i. unfold end_of. cbn [firstn concat]. rewrite !app_length. destruct ss; cbn [firstn concat]; rewrite ?app_length; lia.
Qed.
Lemma ends_ge ss : forall a j, Forall (fun sq => sq <> []) ss -> In j (ends a ss) -> (Z.of_nat a <= j)%Z.
Proof.
  induction ss as [|s ss IH]; intros a j Hn H; cbn in H; [contradiction|]. inversion Hn as [|? ? Hs Hn']; subst. assert (1 <= length s)%nat by (destruct s; [contradiction|cbn; lia]).
  destruct H as [<-|H]; [lia|]. apply IH in H; auto. lia.
Qed.

Lemma upd_at_app {A} (x : A) a b : b <> [] -> upd (length a) x (a ++ b) = a ++ x :: tl b.
Proof. induction a as [|y a IH]; intro H; cbn; [destruct b; [contradiction|reflexivity]|]. f_equal. auto. Qed.
Lemma set_all_ends ss : Forall (fun sq => sq <> []) ss -> forall pre,
  set_all (pre ++ repeat 0 (length (concat ss))) (ends (length pre) ss) = Ok (pre ++ concat (map (fun sq : list qsample => repeat 0 (length sq - 1) ++ [1]) ss)).
Proof.
  induction 1 as [|s ss Hs _ IH]; intro pre; [cbn; reflexivity|]. cbn [concat]. rewrite (app_length s). cbn [ends set_all map concat].
  assert (1 <= length s)%nat by (destruct s; [contradiction|cbn; lia]).
  rewrite repeat_app, !app_length, !repeat_length.
  replace (Z.of_nat (length pre + length s) - 1 <? 0)%Z with false by (symmetry; apply Z.ltb_ge; lia).
  replace ((Z.of_nat (length pre + length s) - 1 <? 0)%Z || _)%bool with false.
  2: { symmetry. apply orb_false_iff. split; [apply Z.ltb_ge; lia|apply Z.leb_gt; lia]. }
  replace (Z.to_nat (Z.of_nat (length pre + length s) - 1)) with (length (pre ++ repeat 0 (length s - 1))) by (rewrite app_length, repeat_length; lia).
  replace (repeat 0 (length s)) with (repeat 0 (length s - 1) ++ [0]).
  2: { change [0] with (repeat 0 1). rewrite <- repeat_app. f_equal. lia. }
  replace (pre ++ (repeat 0 (length s - 1) ++ [0]) ++ repeat 0 (length (concat ss))) with ((pre ++ repeat 0 (length s - 1)) ++ 0 :: repeat 0 (length (concat ss))) by (rewrite <- !app_assoc; reflexivity).
  rewrite upd_at_app by discriminate. cbn [tl].
  replace ((pre ++ repeat 0 (length s - 1)) ++ 1 :: repeat 0 (length (concat ss))) with ((pre ++ repeat 0 (length s - 1) ++ [1]) ++ repeat 0 (length (concat ss))) by (rewrite <- !app_assoc; reflexivity).
  replace (length pre + length s)%nat with (length (pre ++ repeat 0 (length s - 1) ++ [1])) by (rewrite !app_length, repeat_length; cbn; lia).
  rewrite IH, <- !app_assoc. reflexivity.
Qed.

(** ** classes of sequences *)
Section Class.
Context (outdim : nat).
Notation summed ys := (fold_left (zipq Qplus) ys (repeat 0 outdim)).
Lemma class_one E : forall n j ys ts ys' ts' acc co ct,
  length ys = S n -> length ts = S n -> (forall k, (k < n)%nat -> ~ In (j + Z.of_nat k)%Z E) -> In (j + Z.of_nat n)%Z E ->
  seq_class_loop outdim E j (ys ++ ys') (ts ++ ts') acc co ct =
  seq_class_loop outdim E (j + Z.of_nat (S n)) ys' ts' (repeat 0 outdim) (co ++ [qargmax (fold_left (zipq Qplus) ys acc)]) (ct ++ [qargmax (last ts [])]).
Proof.
  induction n as [|n IH]; intros j ys ts ys' ts' acc co ct Ly Lt Hn Hi; destruct ys as [|y ys]; try discriminate; destruct ts as [|t ts]; try discriminate; cbn in Ly, Lt.
  - destruct ys; [|discriminate]. destruct ts; [|discriminate]. cbn [app seq_class_loop fold_left last]. replace (existsb (Z.eqb j) E) with true; [reflexivity|].
    symmetry. apply existsb_exists. exists j. split; [replace j with (j + Z.of_nat 0)%Z by lia; auto|apply Z.eqb_refl].
  - cbn [app seq_class_loop]. replace (existsb (Z.eqb j) E) with false.
    + rewrite IH; try lia.
      * cbn [fold_left]. replace (j + 1 + Z.of_nat (S n))%Z with (j + Z.of_nat (S (S n)))%Z by lia. destruct ts; [discriminate|]. reflexivity.
      * intros k Hk. replace (j + 1 + Z.of_nat k)%Z with (j + Z.of_nat (S k))%Z by lia. apply Hn. lia.
      * replace (j + 1 + Z.of_nat n)%Z with (j + Z.of_nat (S n))%Z by lia. auto.
    + symmetry. destruct (existsb (Z.eqb j) E) eqn:X; auto. apply existsb_exists in X. destruct X as (j' & Hj & He). apply Z.eqb_eq in He. subst j'. exfalso. apply (Hn 0%nat ltac:(lia)). replace (j + Z.of_nat 0)%Z with j by lia. auto.
Qed.
Lemma class_all (f : list qsample -> list qrow) ss : Forall (fun sq => sq <> []) ss -> (forall sq, length (f sq) = length sq) -> forall a E' co ct, (forall e, In e E' -> (e < Z.of_nat a)%Z) ->
  seq_class_loop outdim (E' ++ ends a ss) (Z.of_nat a) (concat (map f ss)) (map s_target (concat ss)) (repeat 0 outdim) co ct =
  (co ++ map (fun sq => qargmax (summed (f sq))) ss, ct ++ map (fun sq => qargmax (s_target (last sq []))) ss).
Proof.
  intros Hn Hf. induction Hn as [|s ss Hs Hn IH]; intros a E' co ct He; [cbn; rewrite !app_nil_r; reflexivity|].
  cbn [map concat]. rewrite map_app. destruct (length s) as [|n] eqn:Ls; [destruct s; [contradiction|discriminate]|].
  rewrite (class_one _ n).
  - cbn [ends]. rewrite Ls. replace (Z.of_nat a + Z.of_nat (S n))%Z with (Z.of_nat (a + S n)) by lia.
    change ((Z.of_nat (a + S n) - 1)%Z :: ends (a + S n) ss) with ([Z.of_nat (a + S n) - 1]%Z ++ ends (a + S n) ss). rewrite app_assoc, IH.
    + rewrite <- !app_assoc. cbn [app]. do 4 f_equal. clear - Hs. induction s as [|x s IHs]; [contradiction|]. destruct s; [reflexivity|]. change (last (map s_target (x :: l :: s)) []) with (last (map s_target (l :: s)) []). rewrite IHs by discriminate. reflexivity.
    + intros e H. apply in_app_or in H. destruct H as [H|[<-|[]]]; [apply He in H|]; lia.
  - rewrite Hf. auto.
  - rewrite map_length. auto.
  - intros k Hk H. apply in_app_or in H. destruct H as [H|H]; [apply He in H; lia|]. cbn [ends] in H. destruct H as [H|H]; [lia|]. apply ends_ge in H; auto. lia.
  - apply in_or_app. right. cbn [ends]. left. lia.
Qed.
Lemma summed_spec ys : (forall y, In y ys -> length y = outdim) -> forall acc, length acc = outdim ->
  length (fold_left (zipq Qplus) ys acc) = outdim /\ forall i, nth i (fold_left (zipq Qplus) ys acc) 0 == nth i acc 0 + (if (i <? outdim)%nat then total (fun y => nth i y 0) ys else 0).
Proof.
  induction ys as [|y ys IH]; intros Hy acc La; [cbn [fold_left]; split; auto; intro i; destruct (i <? outdim)%nat; cbn; lra|].
  assert (Ly : length y = outdim) by (apply Hy; left; auto).
  cbn [fold_left]. destruct (IH ltac:(intros; apply Hy; right; auto) (zipq Qplus acc y)) as [A B]; [rewrite zipq_len; congruence|]. split; [exact A|].
  intro i. rewrite B. assert (Z : nth i (zipq Qplus acc y) 0 == nth i acc 0 + nth i y 0).
  { assert (L : length acc = length y) by congruence. clear - L. revert y i L. induction acc as [|a acc IHa]; intros [|b y] [|i] L; cbn in *; try discriminate; try lra. apply IHa. lia. }
  rewrite Z. destruct (Nat.ltb_spec i outdim); [rewrite total_cons; lra|]. rewrite (nth_overflow y) by lia. lra.
Qed.
Lemma summed_winner ys : (0 < outdim)%nat -> (forall y, In y ys -> length y = outdim) -> winner (column_sums outdim ys) (qargmax (summed ys)).
Proof.
  intros Ho Hy. destruct (summed_spec ys Hy (repeat 0 outdim) (repeat_length _ _)) as [A B].
  apply (winner_ext (summed ys)).
  - unfold column_sums. rewrite map_length, seq_length. auto.
  - intro i. rewrite B. unfold column_sums. destruct (Nat.ltb_spec i outdim).
    + rewrite (nth_indep (map _ _) 0 (total (fun y => nth 0%nat y 0) ys)) by (rewrite map_length, seq_length; auto). rewrite (map_nth (fun i => total (fun y => nth i y 0) ys)), seq_nth by auto.
      replace (nth i (repeat 0 outdim) 0) with 0; [cbn [plus]; lra|]. clear. revert outdim. induction i as [|i IH]; intros [|n]; cbn; auto.
    + rewrite !nth_overflow; [lra|..]; rewrite ?map_length, ?seq_length, ?repeat_length; auto.
  - apply qargmax_winner. intro H. rewrite H in A. cbn in A. lia.
Qed.
End Class.

Section ClassData.
Context {M : Type} (mreset : M -> M) (activate : M -> qrow -> M * qrow) (outdim : nat).
Lemma class_seq_ok sq : Forall (shape false outdim) sq -> forall m out targ, exists m',
  class_seq activate sq m out targ = Ok (m', out ++ map qargmax (outputs activate m (map s_input sq)), targ ++ map (fun smp => qargmax (s_target smp)) sq).
Proof.
  induction 1 as [|smp sq (L & _) _ IH]; intros m out targ; [exists m; cbn; rewrite !app_nil_r; reflexivity|].
  destruct smp as [|x [|t [|]]]; cbn in L; try discriminate. cbn [class_seq map outputs]. change (s_input [x; t]) with x. destruct (activate m x) as [m1 y]. cbn [fst snd].
  destruct (IH m1 (out ++ [qargmax y]) (targ ++ [qargmax t])) as [m' ->]. exists m'. rewrite <- !app_assoc. reflexivity.
Qed.
Lemma class_loop_ok ss : resettable mreset activate -> Forall (Forall (shape false outdim)) ss -> forall m m0 out targ, exists m',
  class_loop mreset activate ss m out targ = Ok (m', out ++ map qargmax (concat (map (answers mreset activate m0) ss)), targ ++ map (fun smp => qargmax (s_target smp)) (concat ss)).
Proof.
  intro Hr. induction 1 as [|sq ss Hsq _ IH]; intros m m0 out targ; [exists m; cbn; rewrite !app_nil_r; reflexivity|].
  cbn [class_loop map concat]. destruct (class_seq_ok sq Hsq (mreset m) out targ) as [m1 ->]. cbn [rbind].
  destruct (IH m1 m0 (out ++ map qargmax (outputs activate (mreset m) (map s_input sq))) (targ ++ map (fun smp => qargmax (s_target smp)) sq)) as [m' ->].
  exists m'. rewrite !map_app, <- !app_assoc. unfold answers at 3. rewrite (Hr m m0). reflexivity.
Qed.
End ClassData.
