(** Properties C26 (early stopping) and C28 (cross-validation). *)
From Verif Require Import Base Training_Model.
From Coq Require Import QArith Lia Lqa Permutation.
Local Open Scope nat_scope.

(** ** C26 *)
Section C26.
  Context {P : Type} (train : nat -> P -> P) (trainErr : nat -> P -> Q) (test : P -> Q) (rnd : Q -> Q) (c : nat) (maxEpochs : option nat) (p0 : P).
  (** the parameters after k epochs and their validation error *)
  Fixpoint after (k : nat) : P := match k with O => p0 | S j => train j (after j) end.
  Definition verr (k : nat) : Q := test (after k).
  (** e is the first among the epochs 1..n with the least validation error *)
  Definition best_epoch (n e : nat) : Prop :=
    1 <= e <= n /\ (forall k, 1 <= k <= n -> (verr e <= verr k)%Q) /\ (forall k, 1 <= k < e -> (verr e < verr k)%Q).
  Definition maxed (n : nat) : Prop := exists m, maxEpochs = Some m /\ m + 1 <= n.

  Lemma qle_false a b : Qle_bool a b = false -> (b < a)%Q.
  Proof. intros H. apply Qnot_le_lt. intros K. apply Qle_bool_iff in K. congruence. Qed.

  (** state after n >= 1 epochs *)
  Definition tinv (n : nat) (st : tuc (P := P)) : Prop :=
    t_params st = after n /\ t_terrs st = map (fun k => trainErr k (after k)) (seq 0 n) /\ t_verrs st = map verr (seq 0 (n + 1)) /\
    (n = 0 \/ exists e, best_epoch n e /\ t_best st = after e /\ t_bestverr st = verr e /\ t_bestepoch st = e - 1).
  Lemma epoch_inv n st : tinv n st -> tinv (n + 1) (tuc_epoch train trainErr test n st).
  Proof.
    intros (T1 & T2 & T3 & T4). unfold tuc_epoch, tinv. cbn [t_params t_best t_bestverr t_bestepoch t_terrs t_verrs]. rewrite T1, T2, T3.
    replace (train n (after n)) with (after (n + 1)) by (replace (n + 1) with (S n) by lia; reflexivity).
    replace (test (after (n + 1))) with (verr (n + 1)) by reflexivity.
    split; [auto |]. split; [rewrite (seq_app n 1 0), map_app; reflexivity |].
    split; [rewrite (seq_app (n + 1) 1 0), map_app; reflexivity |]. right.
    destruct T4 as [-> | (e & (E1 & E2 & E3) & B1 & B2 & B3)].
    - cbn [Nat.eqb orb Nat.add]. exists 1. split; [| auto]. split; [lia |]. split; [intros k Hk; replace k with 1 by lia; lra | intros; lia].
    - rewrite (proj2 (Nat.eqb_neq n 0)) by lia. cbn [orb]. rewrite B2. destruct (Qle_bool (verr e) (verr (n + 1))) eqn:EB; cbn [negb].
      + apply Qle_bool_iff in EB. exists e. split; [| auto]. split; [lia |]. split; [| auto]. intros k Hk. destruct (Nat.eq_dec k (n + 1)) as [-> |]; [auto | apply E2; lia].
      + apply qle_false in EB. exists (n + 1). split; [| split; [auto |]; split; [auto | lia]]. split; [lia |]. split.
        * intros k Hk. destruct (Nat.eq_dec k (n + 1)) as [-> |]; [lra |]. specialize (E2 k ltac:(lia)). lra.
        * intros k Hk. specialize (E2 k ltac:(lia)). lra.
  Qed.
  Lemma loop_inv : forall fuel n st r, tinv n st -> tuc_loop train trainErr test rnd c maxEpochs fuel n st = r ->
    (forall m, maxEpochs = Some m -> n <= m -> m + 1 - n <= fuel -> r <> Err OutOfFuel) /\
    (forall st', r = Ok st' -> exists k e, n + 1 <= k /\ best_epoch k e /\ t_params st' = after e /\ t_bestepoch st' = e - 1 /\
       t_terrs st' = map (fun k => trainErr k (after k)) (seq 0 k) /\ t_verrs st' = map verr (seq 0 (k + 1)) /\
       (forall m, maxEpochs = Some m -> n <= m -> k <= m + 1) /\
       (maxed k \/ window_stop rnd c (map verr (seq 0 (k + 1))) = Ok true) /\
       forall j, n + 1 <= j < k -> ~ maxed j /\ window_stop rnd c (map verr (seq 0 (j + 1))) = Ok false).
  Proof.
    induction fuel as [|fuel IH]; intros n st r HI Hr; cbn [tuc_loop] in Hr.
    - subst r. split; [intros; lia | discriminate].
    - apply epoch_inv in HI. set (st1 := tuc_epoch train trainErr test n st) in *. pose proof HI as (T1 & T2 & T3 & T4).
      destruct T4 as [T4 | (e & B & B1 & B2 & B3)]; [lia |].
      set (mx := match maxEpochs with Some m => m <=? n | None => false end) in Hr.
      assert (HM : mx = true <-> maxed (n + 1)).
      { unfold mx, maxed. destruct maxEpochs as [m|]; [rewrite Nat.leb_le; split; [intros; exists m; split; [auto | lia] | intros (m' & [= <-] & K); lia] | split; [discriminate | intros (m' & K & _); discriminate]]. }
      assert (DONE : maxed (n + 1) \/ window_stop rnd c (t_verrs st1) = Ok true -> r = Ok (put_back st1) ->
        (forall m, maxEpochs = Some m -> n <= m -> m + 1 - n <= S fuel -> r <> Err OutOfFuel) /\
        (forall st', r = Ok st' -> exists k e, n + 1 <= k /\ best_epoch k e /\ t_params st' = after e /\ t_bestepoch st' = e - 1 /\
           t_terrs st' = map (fun k => trainErr k (after k)) (seq 0 k) /\ t_verrs st' = map verr (seq 0 (k + 1)) /\
           (forall m, maxEpochs = Some m -> n <= m -> k <= m + 1) /\
           (maxed k \/ window_stop rnd c (map verr (seq 0 (k + 1))) = Ok true) /\
           forall j, n + 1 <= j < k -> ~ maxed j /\ window_stop rnd c (map verr (seq 0 (j + 1))) = Ok false)).
      { intros HD ->. split; [discriminate |]. intros st' [= <-]. exists (n + 1), e. unfold put_back. cbn [t_params t_bestepoch t_terrs t_verrs].
        split; [lia |]. split; [auto |]. split; [auto |]. split; [auto |]. split; [auto |]. split; [auto |]. split; [intros; lia |]. rewrite <- T3. split; [auto |]. intros; lia. }
      destruct mx; [apply DONE; [left; now apply HM | auto] |].
      destruct (window_stop rnd c (t_verrs st1)) as [stop|ex] eqn:EW; cbn [rbind] in Hr.
      + destruct stop; [apply DONE; auto |]. destruct (IH (n + 1) st1 r HI Hr) as [F1 F2]. split.
        * intros m Hm Hn Hf. apply (F1 m Hm); [| lia]. destruct (Nat.eq_dec n m) as [-> |]; [| lia]. exfalso. assert (false = true) by (apply HM; exists m; split; [auto | lia]). discriminate.
        * intros st' E. destruct (F2 st' E) as (k & e' & K1 & K2 & K3 & K4 & K5 & K6 & K7 & K8 & K9). exists k, e'. split; [lia |]. split; [auto |]. split; [auto |]. split; [auto |]. split; [auto |]. split; [auto |]. split.
          { intros m Hm Hn. apply (K7 m Hm). destruct (Nat.eq_dec n m) as [-> |]; [| lia]. exfalso. assert (false = true) by (apply HM; exists m; split; [auto | lia]). discriminate. }
          split; [auto |]. intros j Hj. destruct (Nat.eq_dec j (n + 1)) as [-> |]; [| apply K9; lia]. split; [intros K; apply HM in K; discriminate | now rewrite <- T3].
      + subst r. split; [| discriminate]. intros m _ _ _ E. injection E as ->. unfold window_stop in EW. destruct (_ <? _); [discriminate |]. destruct (c =? 0); [discriminate |].
        destruct (firstn c _); [discriminate |]. destruct (skipn _ _); [discriminate |]. destruct (negb _); discriminate.
  Qed.
End C26.

Theorem C26_best_epoch : forall (P : Type) (train : nat -> P -> P) trainErr test rnd c maxEpochs fuel p0 p terrs verrs,
  trainUntilConvergence train trainErr test rnd c maxEpochs fuel p0 = Ok (p, terrs, verrs) ->
  exists n e, 1 <= n /\ best_epoch train test p0 n e /\ p = after train p0 e /\
    verrs = map (verr train test p0) (seq 0 e) /\ terrs = map (fun k => trainErr k (after train p0 k)) (seq 0 (e - 1)) /\
    (forall m, maxEpochs = Some m -> n <= m + 1) /\
    (maxed maxEpochs n \/ window_stop rnd c (map (verr train test p0) (seq 0 (n + 1))) = Ok true) /\
    forall j, 1 <= j < n -> ~ maxed maxEpochs j /\ window_stop rnd c (map (verr train test p0) (seq 0 (j + 1))) = Ok false.
Proof.
  intros P train trainErr test rnd c maxEpochs fuel p0 p terrs verrs H. unfold trainUntilConvergence in H.
  set (st0 := {| t_params := p0; t_best := p0; t_bestverr := test p0; t_bestepoch := 0; t_terrs := []; t_verrs := [test p0] |}) in H.
  destruct (tuc_loop train trainErr test rnd c maxEpochs fuel 0 st0) as [st|ex] eqn:E; [| discriminate]. cbn [rbind] in H.
  assert (H' : (t_params st, firstn (t_bestepoch st) (t_terrs st), firstn (1 + t_bestepoch st) (t_verrs st)) = (p, terrs, verrs)) by congruence. apply pair_equal_spec in H' as [H' <-]. apply pair_equal_spec in H' as [<- <-].
  assert (I0 : tinv train trainErr test p0 0 st0) by (unfold tinv, st0; cbn; auto).
  destruct (loop_inv train trainErr test rnd c maxEpochs p0 fuel 0 st0 (Ok st) I0 E) as [_ F]. destruct (F st eq_refl) as (n & e & K1 & K2 & K3 & K4 & K5 & K6 & K7 & K8 & K9).
  exists n, e. pose proof K2 as (K2' & _). split; [lia |]. split; [auto |]. split; [auto |]. rewrite K4, K5, K6.
  split; [rewrite firstn_map; f_equal; replace (n + 1) with ((1 + (e - 1)) + (n + 1 - e)) by lia; rewrite seq_app, firstn_app, seq_length; replace (1 + (e - 1) - (1 + (e - 1))) with 0 by lia; cbn [firstn]; rewrite app_nil_r; rewrite firstn_all2 by (rewrite seq_length; lia); f_equal; lia |].
  split; [rewrite firstn_map; f_equal; replace n with ((e - 1) + (n - (e - 1))) by lia; rewrite seq_app, firstn_app, seq_length, Nat.sub_diag; cbn [firstn]; rewrite app_nil_r; apply firstn_all2; rewrite seq_length; lia |].
  split; [intros m Hm; apply (K7 m Hm); lia |]. split; [auto |]. intros j Hj. apply K9. lia.
Qed.
Theorem C26_terminates : forall (P : Type) (train : nat -> P -> P) trainErr test rnd c m fuel p0, m + 1 <= fuel ->
  trainUntilConvergence train trainErr test rnd c (Some m) fuel p0 <> Err OutOfFuel.
Proof.
  intros P train trainErr test rnd c m fuel p0 Hf. unfold trainUntilConvergence.
  set (st0 := {| t_params := p0; t_best := p0; t_bestverr := test p0; t_bestepoch := 0; t_terrs := []; t_verrs := [test p0] |}).
  assert (I0 : tinv train trainErr test p0 0 st0) by (unfold tinv, st0; cbn; auto).
  destruct (loop_inv train trainErr test rnd c (Some m) p0 fuel 0 st0 _ I0 eq_refl) as [F _]. specialize (F m eq_refl ltac:(lia) ltac:(lia)).
  destruct (tuc_loop train trainErr test rnd c (Some m) fuel 0 st0); cbn [rbind]; [discriminate | congruence].
Qed.
(** The stopping rule: with fewer than 2c validation errors never; then exactly if each of the last c errors is
    greater than each of the c errors before, or the rounded last c errors add up to c times the very last one. *)
Lemma qlist_min_spec : forall l x m, ((m < qlist_min x l)%Q <-> (m < x)%Q /\ forall y, In y l -> (m < y)%Q).
Proof.
  unfold qlist_min. induction l as [|a l IH]; intros x m; cbn [fold_left]; [split; [intros H; split; [auto | intros y []] | tauto] |]. rewrite IH.
  destruct (Qle_bool x a) eqn:E.
  - apply Qle_bool_iff in E. split; [intros [H1 H2]; split; [auto |]; intros y [<- | Hy]; [lra | auto] | intros [H1 H2]; split; [auto | intros y Hy; apply H2; right; auto]].
  - apply qle_false in E. split; [intros [H1 H2]; split; [lra |]; intros y [<- | Hy]; auto | intros [H1 H2]; split; [apply H2; left; auto | intros y Hy; apply H2; right; auto]].
Qed.
Lemma qlist_max_spec : forall l x m, ((qlist_max x l < m)%Q <-> (x < m)%Q /\ forall y, In y l -> (y < m)%Q).
Proof.
  unfold qlist_max. induction l as [|a l IH]; intros x m; cbn [fold_left]; [split; [intros H; split; [auto | intros y []] | tauto] |]. rewrite IH.
  destruct (Qle_bool a x) eqn:E.
  - apply Qle_bool_iff in E. split; [intros [H1 H2]; split; [auto |]; intros y [<- | Hy]; [lra | auto] | intros [H1 H2]; split; [auto | intros y Hy; apply H2; right; auto]].
  - apply qle_false in E. split; [intros [H1 H2]; split; [lra |]; intros y [<- | Hy]; auto | intros [H1 H2]; split; [apply H2; left; auto | intros y Hy; apply H2; right; auto]].
Qed.
Theorem C26_stopping_rule : forall rnd c, 0 < c ->
  (forall early, length early < c * 2 -> window_stop rnd c early = Ok false) /\
  (forall early old new, length old = c -> length new = c -> exists b, window_stop rnd c (early ++ old ++ new) = Ok b /\
     (b = true <-> (forall x y, In x old -> In y new -> (x < y)%Q) \/ (qtotal (map rnd new) == inject_Z (Z.of_nat c) * rnd (last new 0))%Q)).
Proof.
  intros rnd c Hc. split; [intros early H; unfold window_stop; now rewrite (proj2 (Nat.ltb_lt _ _) H) |]. intros early old new Ho Hn. unfold window_stop. rewrite !app_length.
  rewrite (proj2 (Nat.ltb_ge _ _)) by lia. rewrite (proj2 (Nat.eqb_neq c 0)) by lia.
  replace (length early + (length old + length new) - c * 2) with (length early) by lia. rewrite skipn_app, skipn_all, Nat.sub_diag. cbn [app skipn].
  rewrite firstn_app, Ho, Nat.sub_diag. cbn [firstn]. rewrite app_nil_r, firstn_all2 by lia.
  replace (length early + (c + length new) - c) with (length (early ++ old)) by (rewrite app_length; lia). rewrite app_assoc, skipn_app, skipn_all, Nat.sub_diag. cbn [app skipn].
  assert (HT : forall l z, (qtotal (map (fun y => rnd y - z)%Q l) == qtotal (map rnd l) - inject_Z (Z.of_nat (length l)) * z)%Q).
  { induction l as [|a l IH]; intros z; [cbn; ring |]. cbn [map qtotal fold_right length]. fold (qtotal (map (fun y => rnd y - z)%Q l)). fold (qtotal (map rnd l)). rewrite IH, Nat2Z.inj_succ. unfold Z.succ. rewrite inject_Z_plus. ring. }
  destruct old as [|o1 old]; [cbn in Ho; lia |]. destruct new as [|n1 new]; [cbn in Hn; lia |].
  assert (HM : negb (Qle_bool (qlist_min n1 new) (qlist_max o1 old)) = true <-> forall x y, In x (o1 :: old) -> In y (n1 :: new) -> (x < y)%Q).
  { destruct (Qle_bool _ _) eqn:E; cbn [negb].
    - split; [discriminate |]. intros H. exfalso. apply Qle_bool_iff in E. apply (Qlt_irrefl (qlist_max o1 old)). eapply Qlt_le_trans; [| exact E]. apply qlist_min_spec.
      split; [apply qlist_max_spec; split; [apply H; left; auto | intros y Hy; apply H; [right | left]; auto] | intros y Hy; apply qlist_max_spec; split; [apply H; [left | right]; auto | intros z Hz; apply H; right; auto]].
    - split; [| auto]. intros _. apply qle_false in E. apply qlist_min_spec in E as [E1 E2]. intros x y Hx Hy.
      assert (K : (qlist_max o1 old < y)%Q) by (destruct Hy as [<- | Hy]; auto). apply qlist_max_spec in K as [K1 K2]. destruct Hx as [<- | Hx]; auto. }
  destruct (negb _); [exists true; split; [auto |]; split; [intros _; left; now apply HM | auto] |].
  eexists. split; [reflexivity |]. rewrite Qeq_bool_iff, HT, Hn. split.
  - intros H. right. lra.
  - intros [H | H]; [apply HM in H; discriminate | lra].
Qed.
Example C26_stopping_ex : window_stop (fun q => q) 2 [1; 2; 3; 4]%Q = Ok true /\ window_stop (fun q => q) 2 [1; 3; 2; 4]%Q = Ok false /\ window_stop (fun q => q) 2 [1; 2; 4]%Q = Ok false.
Proof. vm_compute. auto. Qed.
(** parameters walk along the given list of validation errors *)
Definition walk (errs : list Q) : nat -> Q := fun k => nth k errs 100%Q.
Example C26_ex : trainUntilConvergence (fun _ p => p + 1) (fun _ _ => 0%Q) (walk [9; 7; 5; 6; 5; 8; 9; 9; 9]%Q) (fun q => q) 2 (Some 20) 30 0 = Ok (2, [0%Q], [9; 7]%Q).
Proof. vm_compute. reflexivity. Qed.
(** maxEpochs = m: "at most that many epochs are trained" *)
Theorem C26_max_epochs_refuted : exists test m, trainUntilConvergence (fun _ p => p + 1) (fun _ _ => 0%Q) test (fun q => q) 10 (Some m) 30 0 = Ok (m + 1, repeat 0%Q m, map test (seq 0 (m + 1))).
Proof. exists (walk [9; 8; 7; 6; 5]%Q), 3. vm_compute. reflexivity. Qed.
(** Parameters better than everything trained are discarded. *)
Theorem C26_initial_discarded_refuted : exists test p terrs verrs, trainUntilConvergence (fun _ p => p + 1) (fun _ _ => 0%Q) test (fun q => q) 2 (Some 3) 30 0 = Ok (p, terrs, verrs) /\ (test 0%nat < test p)%Q.
Proof. exists (walk [1; 7; 8; 9; 10]%Q). do 3 eexists. split; [vm_compute; reflexivity | vm_compute; reflexivity]. Qed.
(** The validation errors returned end before the best one. *)
Theorem C26_returned_errors_refuted : exists test p terrs verrs, trainUntilConvergence (fun _ p => p + 1) (fun _ _ => 0%Q) test (fun q => q) 2 (Some 3) 30 0 = Ok (p, terrs, verrs) /\ ~ In (test p) verrs.
Proof.
  exists (walk [9; 7; 5; 6; 8]%Q), 2, [0%Q], [9; 7]%Q. split; [vm_compute; reflexivity |]. vm_compute. intros [H | [H | []]]; discriminate.
Qed.
(** Convergence is declared when the last errors differ from the very last one by amounts that cancel. *)
Theorem C26_cancelling_errors_refuted : exists errs, window_stop (fun q => q) 3 errs = Ok true /\ skipn 3 errs = [4; 2; 3]%Q /\ length errs = 6.
Proof. exists [9; 9; 9; 4; 2; 3]%Q. vm_compute. auto. Qed.

(** ** C28 *)
Lemma split_at_concat {A} : forall sizes (l : list A), length l = list_sum sizes -> concat (split_at sizes l) = l.
Proof.
  induction sizes as [|k s IH]; intros l H; [now destruct l |]. change (list_sum (k :: s)) with (k + list_sum s) in H. cbn [split_at concat]. rewrite IH by (rewrite skipn_length; lia). apply firstn_skipn.
Qed.
Lemma split_at_length {A} sizes (l : list A) : length (split_at sizes l) = length sizes.
Proof. revert l. induction sizes; intros l; cbn; auto. Qed.
Lemma split_at_sizes {A} : forall sizes (l : list A) i, list_sum sizes <= length l -> i < length sizes -> length (nth i (split_at sizes l) []) = nth i sizes 0.
Proof.
  induction sizes as [|k s IH]; intros l i H Hi; [cbn in Hi; lia |]. change (list_sum (k :: s)) with (k + list_sum s) in H. cbn [split_at length] in *. destruct i as [|i]; cbn [nth]; [rewrite firstn_length; lia |]. apply IH; [rewrite skipn_length; lia | lia].
Qed.
Lemma sum_repeat k n : list_sum (repeat k n) = n * k.
Proof. induction n; [auto |]. cbn [repeat]. change (list_sum (k :: repeat k n)) with (k + list_sum (repeat k n)). rewrite IHn. lia. Qed.
Lemma array_split_spec {A} (l : list A) n : 0 < n -> exists parts, array_split l n = Ok parts /\ length parts = n /\ concat parts = l /\
  forall i, i < n -> length l / n <= length (nth i parts []) <= length l / n + 1.
Proof.
  intros Hn. unfold array_split. rewrite (proj2 (Nat.eqb_neq n 0)) by lia. eexists. split; [reflexivity |].
  set (r := length l mod n). set (q := length l / n). assert (Hr : r < n) by (apply Nat.mod_upper_bound; lia). assert (HL : length l = n * q + r) by (apply Nat.div_mod; lia).
  assert (LS : length (repeat (q + 1) r ++ repeat q (n - r)) = n) by (rewrite app_length, !repeat_length; lia).
  assert (SS : list_sum (repeat (q + 1) r ++ repeat q (n - r)) = length l) by (rewrite list_sum_app, !sum_repeat, HL; nia).
  split; [rewrite split_at_length; auto |]. split; [apply split_at_concat; auto |]. intros i Hi. rewrite split_at_sizes by lia.
  destruct (Nat.lt_ge_cases i r).
  - rewrite app_nth1 by (rewrite repeat_length; auto). rewrite nth_indep with (d' := q + 1) by (rewrite repeat_length; auto). rewrite nth_repeat. lia.
  - rewrite app_nth2 by (rewrite repeat_length; auto). rewrite repeat_length. rewrite nth_indep with (d' := q) by (rewrite repeat_length; lia). rewrite nth_repeat. lia.
Qed.
Lemma others_perm {A} (parts : list (list A)) i : i < length parts -> Permutation (concat (firstn i parts ++ skipn (i + 1) parts) ++ nth i parts []) (concat parts).
Proof.
  intros Hi. assert (E : parts = firstn i parts ++ nth i parts [] :: skipn (i + 1) parts).
  { rewrite <- (firstn_skipn i parts) at 1. f_equal. clear -Hi. revert i Hi. induction parts as [|p parts IH]; intros [|i] Hi; cbn in *; try lia; [auto |]. apply IH. lia. }
  rewrite E at 4. rewrite !concat_app. cbn [concat]. rewrite <- app_assoc. apply Permutation_app_head. apply Permutation_app_comm.
Qed.

Theorem C28_folds : forall perm l n, Permutation perm (seq 0 l) -> 2 <= n -> n < l ->
  exists parts, array_split perm n = Ok parts /\ length parts = n /\
    (forall i, i < n -> exists train test, fold_indices parts i = Ok (train, test) /\
       Permutation (train ++ test) (seq 0 l) /\ l / n <= length test <= l / n + 1 /\ test <> [] /\ train <> []) /\
    (forall k, k < l -> exists! i, i < n /\ exists train test, fold_indices parts i = Ok (train, test) /\ In k test).
Proof.
  intros perm l n HP Hn Hl. destruct (array_split_spec perm n ltac:(lia)) as (parts & E & L & C & S). assert (LP : length perm = l) by (rewrite (Permutation_length HP), seq_length; auto). rewrite LP in S.
  assert (FI : forall i, i < n -> fold_indices parts i = Ok (concat (firstn i parts ++ skipn (i + 1) parts), nth i parts [])).
  { intros i Hi. unfold fold_indices. destruct (firstn i parts ++ skipn (i + 1) parts) as [|a b] eqn:EO; [| auto]. apply (f_equal (@length _)) in EO. rewrite app_length, firstn_length, skipn_length in EO. cbn in EO. lia. }
  assert (Q1 : 1 <= l / n) by (apply Nat.div_le_lower_bound; lia).
  exists parts. split; [auto |]. split; [auto |]. split.
  - intros i Hi. do 2 eexists. split; [apply FI; auto |]. split; [| split; [| split]].
    + etransitivity; [apply others_perm; lia |]. now rewrite C.
    + auto.
    + intros K. specialize (S i Hi). rewrite K in S. cbn in S. lia.
    + pose proof (Permutation_length (others_perm parts i ltac:(lia))) as K. rewrite app_length, C, LP in K. specialize (S i Hi). intros E0. rewrite E0 in K. cbn in K.
      assert (2 * (l / n) <= l) by (transitivity (n * (l / n)); [nia | apply Nat.mul_div_le; lia]).
      assert (l <= l / n + 1) by lia. assert (l / n = 1) by lia. lia.
  - intros k Hk. assert (ND : NoDup (concat parts)) by (rewrite C; eapply Permutation_NoDup; [symmetry; exact HP | apply seq_NoDup]).
    assert (IK : In k (concat parts)) by (rewrite C; eapply Permutation_in; [symmetry; exact HP |]; apply in_seq; lia).
    assert (U : forall (ps : list (list nat)) k, NoDup (concat ps) -> In k (concat ps) -> exists i, i < length ps /\ In k (nth i ps []) /\ forall j, j < length ps -> In k (nth j ps []) -> j = i).
    { clear. induction ps as [|p ps IH]; intros k ND Hk; cbn in *; [destruct Hk |]. apply in_app_iff in Hk.
      assert (D : In k p -> In k (concat ps) -> False) by (intros A B; revert ND A B; clear; induction p as [|a p IH]; cbn; [auto |]; intros ND [<- | A] B; apply NoDup_cons_iff in ND as [N1 N2]; [apply N1; apply in_app_iff; auto | eauto]).
      assert (NDp : NoDup (concat ps)) by (revert ND; clear; induction p; cbn; [auto |]; intros ND; apply NoDup_cons_iff in ND as [_ N2]; auto).
      destruct (in_dec Nat.eq_dec k p) as [A | A].
      - exists 0. split; [lia |]. split; [auto |]. intros [|j] Hj Hin; [auto |]. exfalso. apply D; [auto |]. apply in_concat. exists (nth j ps []). split; [apply nth_In; lia | auto].
      - destruct Hk as [Hk | Hk]; [contradiction |]. destruct (IH k NDp Hk) as (i & I1 & I2 & I3). exists (S i). split; [lia |]. split; [auto |]. intros [|j] Hj Hin; [contradiction |]. f_equal. apply I3; [lia | auto]. }
    destruct (U parts k ND IK) as (i & I1 & I2 & I3). rewrite L in *. exists i. split.
    + split; [auto |]. do 2 eexists. split; [apply FI; auto | auto].
    + intros j (J1 & tr & te & J2 & J3). rewrite FI in J2 by auto. injection J2 as <- <-. symmetry. apply I3; auto.
Qed.

(** the samples: every fold trains on and tests disjoint parts of them, the test parts together are all of them, and the result is the mean *)
Definition mean (l : list Q) : Q := (fold_right Qplus 0 l / inject_Z (Z.of_nat (length l)))%Q.
Lemma pick_perm {S} (samples : list S) idxs : Permutation idxs (seq 0 (length samples)) ->
  Permutation (flat_map (fun k => match nth_error samples k with Some s => [s] | None => [] end) idxs) samples.
Proof.
  intros H. etransitivity; [apply Permutation_flat_map; exact H |].
  assert (E : forall (l pre : list S), flat_map (fun k => match nth_error (pre ++ l) k with Some s => [s] | None => [] end) (seq (length pre) (length l)) = l).
  { induction l as [|x l IH]; intros pre; cbn [length seq flat_map]; [auto |]. rewrite nth_error_app2 by lia. rewrite Nat.sub_diag. cbn [nth_error app]. f_equal.
    specialize (IH (pre ++ [x])). rewrite app_length in IH. cbn [length] in IH. rewrite <- app_assoc in IH. cbn [app] in IH. replace (Datatypes.S (length pre)) with (length pre + 1) by lia. exact IH. }
  specialize (E samples []). cbn [app length] in E. rewrite E. apply Permutation_refl.
Qed.
Theorem C28_validate : forall (S : Type) (score : list S -> list S -> Q) samples n perm,
  Permutation perm (seq 0 (length samples)) -> 2 <= n -> n < length samples ->
  exists folds : list (list S * list S), length folds = n /\
    (forall f, In f folds -> Permutation (fst f ++ snd f) samples /\ length samples / n <= length (snd f) <= length samples / n + 1) /\
    Permutation (flat_map snd folds) samples /\
    exists r, validate score samples n perm = Ok r /\ (r == mean (map (fun f => score (fst f) (snd f)) folds))%Q.
Proof.
  intros S score samples n perm HP Hn Hl. unfold validate. rewrite (proj2 (Nat.leb_gt (length samples) n)) by auto.
  destruct (array_split_spec perm n ltac:(lia)) as (parts & E & L & C & SZ). assert (LP : length perm = length samples) by (rewrite (Permutation_length HP), seq_length; auto). rewrite LP in SZ.
  rewrite E. cbn [rbind]. set (pick := fun idxs => flat_map (fun k => match nth_error samples k with Some s => [s] | None => [] end) idxs).
  assert (FI : forall i, i < n -> fold_indices parts i = Ok (concat (firstn i parts ++ skipn (i + 1) parts), nth i parts [])).
  { intros i Hi. unfold fold_indices. destruct (firstn i parts ++ skipn (i + 1) parts) as [|a b] eqn:EO; [| auto]. apply (f_equal (@length _)) in EO. rewrite app_length, firstn_length, skipn_length in EO. cbn in EO. lia. }
  set (fd := fun i => (pick (concat (firstn i parts ++ skipn (i + 1) parts)), pick (nth i parts []))).
  exists (map fd (seq 0 n)). split; [now rewrite map_length, seq_length |].
  assert (PL : forall idxs, (forall k, In k idxs -> k < length samples) -> length (pick idxs) = length idxs).
  { induction idxs as [|k idxs IH]; intros H; cbn; [auto |]. destruct (nth_error samples k) eqn:EN; [cbn; f_equal; apply IH; intros; apply H; right; auto |]. apply nth_error_None in EN. specialize (H k ltac:(left; auto)). lia. }
  assert (PA : forall a b, pick (a ++ b) = pick a ++ pick b) by (intros; unfold pick; apply flat_map_app).
  split; [| split].
  - intros f Hf. apply in_map_iff in Hf as (i & <- & Hi). apply in_seq in Hi. unfold fd. cbn [fst snd]. split.
    + rewrite <- PA. apply pick_perm. etransitivity; [apply others_perm; lia |]. now rewrite C.
    + rewrite PL; [apply SZ; lia |]. intros k Hk. assert (In k perm) by (rewrite <- C; apply in_concat; exists (nth i parts []); split; [apply nth_In; lia | auto]).
      apply (Permutation_in _ HP) in H. apply in_seq in H. lia.
  - assert (EF : flat_map snd (map fd (seq 0 n)) = pick (concat parts)).
    { rewrite flat_map_concat_map, map_map. unfold fd. cbn [snd]. transitivity (pick (concat (map (fun i => nth i parts []) (seq 0 n)))).
      - clear -PA. induction (seq 0 n) as [|i l IH]; cbn [map concat]; [reflexivity |]. rewrite PA, IH. reflexivity.
      - do 2 f_equal. rewrite <- L. clear. induction parts as [|p parts IH] using rev_ind; [reflexivity |]. rewrite app_length. cbn [length]. rewrite Nat.add_1_r, seq_S, map_app. cbn [map Nat.add]. f_equal.
        + rewrite <- IH at 2. apply map_ext_in. intros i Hi. apply in_seq in Hi. now rewrite app_nth1 by lia.
        + now rewrite app_nth2, Nat.sub_diag by lia. }
    rewrite EF, C. now apply pick_perm.
  - assert (FL : forall is acc, (forall i, In i is -> i < n) ->
      exists r, fold_left (fun acc i => let! p := acc in let! f := fold_indices parts i in Ok (p + score (pick (fst f)) (pick (snd f)))%Q) is (Ok acc) = Ok r /\
      (r == acc + fold_right Qplus 0 (map (fun i => score (fst (fd i)) (snd (fd i))) is))%Q).
    { induction is as [|i is IH]; intros acc Hi; cbn [fold_left map fold_right]; [exists acc; split; [auto | lra] |].
      rewrite FI by (apply Hi; left; auto). cbn [rbind fst snd]. destruct (IH (acc + score (pick (concat (firstn i parts ++ skipn (i + 1) parts))) (pick (nth i parts [])))%Q) as (r & R1 & R2); [intros; apply Hi; right; auto |].
      exists r. split; [exact R1 |]. rewrite R2. unfold fd at 3 4. cbn [fst snd]. lra. }
    destruct (FL (seq 0 n) 0%Q) as (r & R1 & R2); [intros i Hi; apply in_seq in Hi; lia |]. fold pick. rewrite R1. cbn [rbind]. eexists. split; [reflexivity |].
    unfold mean. rewrite !map_length, seq_length, map_map. rewrite R2. apply Qmult_comp; [lra | reflexivity].
Qed.
Example C28_ex : exists r, validate (fun tr te => inject_Z (Z.of_nat (length te))) [10; 11; 12; 13; 14; 15; 16]%nat 3 [3; 1; 6; 0; 2; 5; 4] = Ok r /\ (r == 7 # 3)%Q /\
  array_split [3; 1; 6; 0; 2; 5; 4] 3 = Ok [[3; 1; 6]; [0; 2]; [5; 4]] /\ Permutation [3; 1; 6; 0; 2; 5; 4] (seq 0 7).
Proof.
  eexists. split; [vm_compute; reflexivity |]. split; [reflexivity |]. split; [reflexivity |].
  apply NoDup_Permutation; [repeat constructor; cbn; lia | apply seq_NoDup |]. intros x. cbn. lia.
Qed.
(** One fold cannot be trained, and leaving out one sample at a time is refused. *)
Theorem C28_leave_one_out_refuted : forall (S : Type) (score : list S -> list S -> Q) samples perm, validate score samples (length samples) perm = Err AssertionError.
Proof. intros. unfold validate. now rewrite Nat.leb_refl. Qed.
Theorem C28_one_fold_refuted : forall (S : Type) (score : list S -> list S -> Q) samples perm, 1 < length samples -> validate score samples 1 perm = Err ValueError.
Proof.
  intros S score samples perm H. unfold validate. rewrite (proj2 (Nat.leb_gt (length samples) 1)) by auto. destruct (array_split_spec perm 1 ltac:(lia)) as (parts & E & L & _). rewrite E. cbn [rbind seq fold_left].
  unfold fold_indices. destruct parts as [|p [|q parts]]; cbn in L; try lia. reflexivity.
Qed.

Print Assumptions C26_best_epoch.
Print Assumptions C26_terminates.
Print Assumptions C26_max_epochs_refuted.
Print Assumptions C26_initial_discarded_refuted.
Print Assumptions C26_returned_errors_refuted.
Print Assumptions C26_cancelling_errors_refuted.
Print Assumptions C28_folds.
Print Assumptions C28_validate.
Print Assumptions C28_leave_one_out_refuted.
Print Assumptions C28_one_fold_refuted.
