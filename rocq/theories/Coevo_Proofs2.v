From Coq Require Import QArith Qround Permutation Lia Sorting.Sorted Lqa Qabs.
From Verif Require Import Base StableSort Dict Coevo_Model Coevo_Spec Coevo_Proofs.

Lemma rmap_ok {A B} (f : A -> result B) (g : A -> B) l : (forall x, In x l -> f x = Ok (g x)) -> rmap f l = Ok (map g l).
Proof.
  induction l as [|x l IH]; intro H; cbn [rmap map]; [reflexivity|].
  rewrite (H x) by (left; reflexivity). cbn [rbind]. rewrite IH by (intros; apply H; right; auto). reflexivity.
Qed.
Lemma qsum_acc l x : (fold_left Qplus l x == x + qsum l)%Q.
Proof.
  unfold qsum. revert x. induction l as [|y l IH]; intro x; cbn [fold_left]; [ring|]. rewrite (IH (x + y)%Q), (IH (0 + y)%Q). ring.
Qed.
Lemma qsum_cons x l : (qsum (x :: l) == x + qsum l)%Q.
Proof. unfold qsum at 1. cbn [fold_left]. rewrite qsum_acc. ring. Qed.
Lemma qsum_app l m : (qsum (l ++ m) == qsum l + qsum m)%Q.
Proof. unfold qsum at 1. rewrite fold_left_app, qsum_acc. reflexivity. Qed.
Lemma qsum_bound l B : Forall (fun q => (Qabs q <= B)%Q) l -> (Qabs (qsum l) <= inject_Z (Z.of_nat (length l)) * B)%Q.
Proof.
  induction 1 as [|x l Hx _ IH].
  - change (Qabs (qsum [])) with 0%Q. change (inject_Z (Z.of_nat (@length Q []))) with 0%Q. lra.
  - rewrite qsum_cons. cbn [length]. rewrite Nat2Z.inj_succ, <- Z.add_1_r, inject_Z_plus.
    eapply Qle_trans; [apply Qabs_triangle|].
    change (inject_Z 1) with 1%Q. rewrite Qmult_plus_distr_l, Qmult_1_l. set (z := (inject_Z _ * B)%Q) in *. lra.
Qed.

Definition empirical (L : list game) (h p : nat) : Q := match scores L h p with [] => 0%Q | _ => meanScore L h p end.
Lemma Qdiv_0_r q : (q / 0 == 0)%Q.
Proof. unfold Qdiv. cbn. ring. Qed.
Lemma empirical_mean L h p : rounds L -> (empirical L h p == meanScore L h p)%Q.
Proof.
  intro R. unfold empirical. destruct (scores L h p) eqn:E; [|reflexivity].
  pose proof (rounds_pair _ h p R) as Hl. unfold meanScore. rewrite E in *. destruct (scores L p h); [|discriminate].
  cbn [length Nat.add Z.of_nat]. symmetry. apply Qdiv_0_r.
Qed.
Lemma mean_anti L h p : (meanScore L h p + meanScore L p h == 0)%Q.
Proof. unfold meanScore. rewrite (Nat.add_comm (length (scores L p h))). unfold Qdiv. ring. Qed.
Lemma mean_unmet L h p : rounds L -> ~ met L h p -> (meanScore L h p == 0)%Q.
Proof.
  intros R H. rewrite <- empirical_mean by exact R. unfold empirical. destruct (scores L h p) eqn:E; [reflexivity|].
  exfalso. apply H. apply scores_met. congruence.
Qed.
Lemma nat_Q_pos n : 0 < n -> (0 < inject_Z (Z.of_nat n))%Q.
Proof. intro H. change 0%Q with (inject_Z 0). rewrite <- Zlt_Qlt. lia. Qed.
Lemma genuine_score ev L p q r : genuine ev L -> In r (scores L p q) -> exists i, r = ev i p q.
Proof.
  intros G H. unfold scores in H. apply in_map_iff in H. destruct H as ([[a b] x] & E & H). cbn [snd] in E. subst x.
  apply filter_In in H. destruct H as [H Hb]. cbn [fst snd] in Hb. apply andb_prop in Hb. destruct Hb as [H1 H2].
  apply Nat.eqb_eq in H1, H2. subst. apply In_nth_error in H. destruct H as [i H]. exists i. apply (G _ _ _ _ H).
Qed.
Lemma mean_bound ev L h p B : genuine ev L -> (forall i a b, (Qabs (ev i a b) <= B)%Q) -> (Qabs (meanScore L h p) <= B)%Q.
Proof.
  intros G Hb. unfold meanScore. set (l := scores L h p). set (m := scores L p h).
  assert (Hl : (Qabs (qsum l) <= inject_Z (Z.of_nat (length l)) * B)%Q).
  { apply qsum_bound. apply Forall_forall. intros r Hr. destruct (genuine_score _ _ _ _ _ G Hr) as [i ->]. apply Hb. }
  assert (Hm : (Qabs (qsum m) <= inject_Z (Z.of_nat (length m)) * B)%Q).
  { apply qsum_bound. apply Forall_forall. intros r Hr. destruct (genuine_score _ _ _ _ _ G Hr) as [i ->]. apply Hb. }
  destruct (Nat.eq_dec (length l + length m) 0) as [E|E].
  - rewrite E. cbn [Z.of_nat]. rewrite Qdiv_0_r. change (Qabs 0) with 0%Q.
    eapply Qle_trans; [apply (Qabs_nonneg (ev 0 0 0))|apply Hb].
  - assert (Hn : (0 < inject_Z (Z.of_nat (length l + length m)))%Q) by (apply nat_Q_pos; lia).
    apply Qabs_Qle_condition. apply Qabs_Qle_condition in Hl, Hm.
    rewrite Nat2Z.inj_add, inject_Z_plus in Hn |- *. set (a := inject_Z (Z.of_nat (length l))) in *. set (b := inject_Z (Z.of_nat (length m))) in *.
    split.
    + apply Qle_shift_div_l; [exact Hn|]. nra.
    + apply Qle_shift_div_r; [exact Hn|]. nra.
Qed.
Lemma qsum_const l v : Forall (fun q => (q == v)%Q) l -> (qsum l == inject_Z (Z.of_nat (length l)) * v)%Q.
Proof.
  induction 1 as [|x l Hx _ IH]; [change (0 == 0 * v)%Q; ring|]. change (x == v)%Q in Hx.
  rewrite qsum_cons, IH. cbn [length]. rewrite Hx.
  rewrite Nat2Z.inj_succ, <- Z.add_1_r, inject_Z_plus. ring.
Qed.
(** against an anti-symmetric evaluator without noise, one meeting is enough *)
Lemma mean_exact ev L h p (r : nat -> nat -> Q) : rounds L -> genuine ev L -> (forall i a b, (ev i a b == r a b)%Q) -> (forall a b, (r a b == - r b a)%Q) ->
  met L h p -> (meanScore L h p == r h p)%Q.
Proof.
  intros R G He Ha Hm. pose proof (rounds_pair _ h p R) as Hl. apply scores_met in Hm.
  assert (H1 : (qsum (scores L h p) == inject_Z (Z.of_nat (length (scores L h p))) * r h p)%Q).
  { apply qsum_const. apply Forall_forall. intros x Hx. destruct (genuine_score _ _ _ _ _ G Hx) as [i ->]. apply He. }
  assert (H2 : (qsum (scores L p h) == inject_Z (Z.of_nat (length (scores L p h))) * r p h)%Q).
  { apply qsum_const. apply Forall_forall. intros x Hx. destruct (genuine_score _ _ _ _ _ G Hx) as [i ->]. apply He. }
  unfold meanScore. rewrite H1, H2, <- Hl. rewrite Nat2Z.inj_add, inject_Z_plus.
  assert (Hn : (0 < inject_Z (Z.of_nat (length (scores L h p))))%Q) by (apply nat_Q_pos; destruct (scores L h p); [congruence|cbn [length]; lia]).
  rewrite (Ha p h). field. lra.
Qed.
Section S.
Context {P : Type} (ev : nat -> nat -> nat -> Q) (d : nat -> nat).
Notation st := (@st P).
Notation good := (good ev).
Notation play := (play ev).
Lemma entry_some L p q : scores L p q <> [] -> entry_of L p q = Some {| e_won := wins (scores L p q); e_total := length (scores L p q); e_score := qsum (scores L p q); e_list := scores L p q |}.
Proof. unfold entry_of. destruct (scores L p q); [congruence|reflexivity]. Qed.
Lemma beats_spec L (s : st) h p : good L s -> beats s h p = Ok (empirical L h p).
Proof.
  intros ((_ & Hr & _) & R & _). unfold beats. rewrite !Hr. unfold empirical.
  destruct (scores L h p) as [|x l] eqn:E.
  - unfold entry_of. rewrite E. reflexivity.
  - pose proof (rounds_pair _ h p R) as Hl. rewrite !entry_some.
    + cbn [e_score e_total]. reflexivity.
    + intro E2. rewrite E, E2 in Hl. discriminate.
    + congruence.
Qed.
Lemma scoreSum_spec L (s : st) p ops a n : good L s -> (forall o, In o ops -> met L p o) ->
  exists q, scoreSum s p ops a n = Ok (q, n + list_sum (map (fun o => length (scores L p o) + length (scores L o p)) ops))
  /\ (q == a + qsum (map (fun o => qsum (scores L p o) - qsum (scores L o p)) ops))%Q.
Proof.
  intros G. pose proof G as ((_ & Hr & _) & R & _). revert a n. induction ops as [|o t IH]; intros a n H; cbn [scoreSum map list_sum fold_right].
  - exists a. split; [f_equal; f_equal; lia|]. cbn. ring.
  - assert (Hm : met L p o) by (apply H; left; auto). rewrite !Hr.
    assert (H1 : scores L p o <> []) by (apply scores_met; auto).
    assert (H2 : scores L o p <> []) by (apply scores_met; apply rounds_met; auto).
    rewrite (entry_some _ _ _ H1), (entry_some _ _ _ H2). cbn [e_score e_total].
    destruct (IH (a + qsum (scores L p o) - qsum (scores L o p))%Q (n + length (scores L p o) + length (scores L o p))) as (q & E & Hq).
    { intros o' Ho. apply H. right. auto. }
    exists q. rewrite E. split.
    + f_equal. f_equal. unfold list_sum. lia.
    + rewrite Hq, qsum_cons. ring.
Qed.
Definition gscore (s : st) (p : nat) : Q := match globalScore s p with Ok q => q | Err _ => 0%Q end.
Lemma gscore_spec L (s : st) p : good L s -> globalScore s p = Ok (gscore s p) /\ (gscore s p == weightedScore L p)%Q.
Proof.
  intros G. pose proof G as ((_ & _ & Ho) & R & _). unfold gscore, globalScore. rewrite Ho. unfold starts_of, weightedScore.
  destruct (started L p) as [|o ops] eqn:E.
  - split; [reflexivity|]. cbn. reflexivity.
  - destruct (scoreSum_spec L s p (o :: ops) 0%Q 0 G) as (q & Eq & Hq).
    { intros x Hx. apply started_In. rewrite E. exact Hx. }
    rewrite Eq. cbn [rbind fst snd Nat.add]. split; [reflexivity|]. rewrite Hq. rewrite Qplus_0_l. reflexivity.
Qed.
Lemma positive_spec L (s : st) p o : good L s -> positive s p o = Ok (negb (Qle_bool (empirical L p o) 0)).
Proof. intro G. unfold positive. rewrite (beats_spec _ _ _ _ G). reflexivity. Qed.
Lemma combine_filter {A} (f : A -> bool) l : map snd (filter (fun x => fst x) (combine (map f l) l)) = filter f l.
Proof. induction l as [|x l IH]; cbn [map combine filter fst]; [reflexivity|]. destruct (f x); cbn [map snd]; rewrite IH; reflexivity. Qed.
Definition beatenBy (L : list game) (p : nat) (l : list nat) : list nat := filter (fun o => negb (Qle_bool (empirical L p o) 0)) l.
Lemma beaten_spec L (s : st) p l : good L s -> beaten s p l = Ok (beatenBy L p l).
Proof.
  intro G. unfold beaten. rewrite (rmap_ok _ (fun o => negb (Qle_bool (empirical L p o) 0))) by (intros; apply positive_spec; auto).
  cbn [rbind]. rewrite combine_filter. reflexivity.
Qed.
Definition Wins (L : list game) (p q : nat) : Prop := (0 < meanScore L p q)%Q.
Lemma negb_Qle q : negb (Qle_bool q 0) = true <-> (0 < q)%Q.
Proof.
  split; intro H.
  - apply Qnot_le_lt. intro Hq. apply Qle_bool_iff in Hq. rewrite Hq in H. discriminate.
  - destruct (Qle_bool q 0) eqn:E; [|reflexivity]. apply Qle_bool_iff in E. lra.
Qed.
Lemma Wins_dec L p q : rounds L -> (negb (Qle_bool (empirical L p q) 0) = true <-> Wins L p q).
Proof. intro R. rewrite negb_Qle. unfold Wins. rewrite (empirical_mean _ _ _ R). reflexivity. Qed.
Lemma beatenBy_In L p l q : rounds L -> (In q (beatenBy L p l) <-> In q l /\ Wins L p q).
Proof. intro R. unfold beatenBy. rewrite filter_In, (Wins_dec _ _ _ R). reflexivity. Qed.

(** ** shared sampling *)
Lemma beat_total a b : beat_order a b = true \/ beat_order b a = true.
Proof.
  destruct a as [[n g] x], b as [[m h] y]. unfold beat_order.
  destruct (Nat.ltb_spec n m), (Nat.ltb_spec m n); auto. rewrite !Qle_bool_iff. destruct (Qlt_le_dec g h); [left; lra|auto].
Qed.
Lemma beat_trans a b e : beat_order a b = true -> beat_order b e = true -> beat_order a e = true.
Proof.
  destruct a as [[n g] x], b as [[m h] y], e as [[k i] z]. unfold beat_order.
  destruct (Nat.ltb_spec n m), (Nat.ltb_spec m n), (Nat.ltb_spec m k), (Nat.ltb_spec k m), (Nat.ltb_spec n k), (Nat.ltb_spec k n);
    try discriminate; try lia; auto; rewrite !Qle_bool_iff; intros; lra.
Qed.
Lemma beat_dominates n g x m h y : beat_order (n, g, x) (m, h, y) = true -> dominates (m, h) (n, g).
Proof.
  unfold beat_order, dominates. cbn [fst snd]. destruct (Nat.ltb_spec n m), (Nat.ltb_spec m n); intro E; try discriminate; auto.
  apply Qle_bool_iff in E. right. split; [lia|exact E].
Qed.
Lemma sorted_rev_head {A} (R : A -> A -> Prop) l x t : StronglySorted R l -> rev l = x :: t -> forall y, In y l -> y = x \/ R y x.
Proof.
  intros S E y Hy. assert (El : l = rev t ++ [x]) by (rewrite <- (rev_involutive l), E; reflexivity).
  subst l. apply in_app_or in Hy. destruct Hy as [Hy|[Hy|[]]]; [|auto]. right. clear E.
  induction (rev t) as [|z u IH]; [destruct Hy|]. cbn [app] in S. apply StronglySorted_inv in S. destruct S as [S F].
  destruct Hy as [->|Hy]; [|auto]. rewrite Forall_forall in F. apply F. apply in_or_app. right. left. reflexivity.
Qed.
Lemma nodup_id l : NoDup l -> nodup Nat.eq_dec l = l.
Proof. apply nodup_fixed_point. Qed.
Lemma remove_first_split x l : In x l -> NoDup l -> exists a b, l = a ++ x :: b /\ remove_first x l = a ++ b.
Proof.
  induction l as [|h t IH]; intros H N; [destruct H|]. cbn [remove_first]. apply NoDup_cons_iff in N. destruct N as [N1 N2].
  destruct (Nat.eqb_spec x h) as [->|Hne]; [exists [], t; auto|].
  destruct H as [->|H]; [congruence|]. destruct (IH H N2) as (a & b & -> & E). exists (h :: a), b. rewrite E. auto.
Qed.
Lemma tick_tick (s : st) a b : tick b (tick a s) = tick (a + b) s.
Proof. unfold tick. cbn. rewrite Nat.add_assoc. reflexivity. Qed.
Lemma gscore_tick (s : st) n p : gscore (tick n s) p = gscore s p.
Proof.
  unfold gscore, globalScore. cbn [tick opponents]. destruct (dget p (opponents s)) as [ops|]; [|reflexivity].
  assert (E : forall a k, scoreSum (tick n s) p ops a k = scoreSum s p ops a k).
  { induction ops as [|o t IH]; intros a k; cbn [scoreSum tick results]; [reflexivity|].
    destruct (rget (p, o) (results s)), (rget (o, p) (results s)); auto. }
  rewrite E. reflexivity.
Qed.
Lemma greedy_score_ext B sc sc' n from rel res : (forall p, sc p = sc' p) -> greedy B sc n from rel res -> greedy B sc' n from rel res.
Proof.
  intros E. induction 1 as [|n from rel best before after bb rel' res E1 E2 E3 E4 E5 _ IH]; [constructor|].
  econstructor; eauto. intros p Hp. rewrite <- !E. auto.
Qed.
Lemma shared_spec L n from rel (s : st) : good L s -> NoDup from -> NoDup rel ->
  (n <= length from -> exists res m, sharedSampling d n from rel s = Ok (res, tick m s) /\ greedy (Wins L) (gscore s) n from rel res)
  /\ (length from < n -> sharedSampling d n from rel s = Err IndexError).
Proof.
  intros G. pose proof G as (_ & R & _). revert from rel s G. induction n as [|n IH]; intros from rel s G Nf Nr; cbn [sharedSampling].
  - split; [|lia]. intros _. exists [], 0. split; [|constructor]. f_equal. f_equal. unfold tick. rewrite Nat.add_0_r. destruct s; reflexivity.
  - rewrite (nodup_id _ Nf).
    rewrite (rmap_ok _ (fun p => ((length (beatenBy L p rel), gscore s p, p) : bkey))).
    2:{ intros p _. rewrite (beaten_spec _ _ _ _ G). cbn [rbind]. rewrite (proj1 (gscore_spec _ _ p G)). reflexivity. }
    cbn [rbind]. unfold shuffle.
    set (keys := map _ from). pose proof (shuffled_perm (stream d s) keys) as Hp. set (sh := shuffled (stream d s) keys) in *.
    assert (Hlen : length (isort beat_order sh) = length from) by (rewrite isort_length, <- (Permutation_length Hp); apply map_length).
    destruct (rev (isort beat_order sh)) as [|[[nb g] best] t] eqn:E.
    { assert (length (isort beat_order sh) = 0) by (rewrite <- rev_length, E; reflexivity).
      split; [lia|reflexivity]. }
    assert (Hk : forall k, In k keys <-> In k (isort beat_order sh)).
    { intro k. rewrite isort_In. split; apply Permutation_in; [exact Hp|symmetry; exact Hp]. }
    assert (Hb : In ((nb, g, best) : bkey) keys).
    { apply Hk. apply in_rev. rewrite E. left. reflexivity. }
    apply in_map_iff in Hb. destruct Hb as (b' & Eb & Hin). injection Eb as <- <- <-. rename b' into best.
    rewrite (beaten_spec _ _ _ _ G). cbn [rbind].
    destruct (remove_first_split best from Hin Nf) as (bef & aft & Ef & Er).
    set (rel' := without (beatenBy L best rel) rel).
    assert (Nr' : NoDup rel') by (unfold rel', without; apply NoDup_filter, NoDup_nodup).
    assert (Hr' : forall q, In q rel' <-> In q rel /\ ~ Wins L best q).
    { intro q. unfold rel', without. rewrite filter_In, nodup_In. split; intros [H1 H2]; split; auto.
      - intro W. assert (Hq : existsb (Nat.eqb q) (beatenBy L best rel) = true)
          by (apply existsb_exists; exists q; split; [apply beatenBy_In; auto|apply Nat.eqb_refl]).
        rewrite Hq in H2. discriminate.
      - destruct (existsb (Nat.eqb q) (beatenBy L best rel)) eqn:Hq; [|reflexivity].
        apply existsb_exists in Hq. destruct Hq as (q' & H3 & H4). apply Nat.eqb_eq in H4. subst q'. apply beatenBy_In in H3; tauto. }
    assert (Nf' : NoDup (remove_first best from)) by (rewrite Er; rewrite Ef in Nf; apply NoDup_remove_1 in Nf; exact Nf).
    destruct (IH (remove_first best from) rel' (tick (length keys) s) (tick_good _ _ _ _ G) Nf' Nr') as [IH1 IH2].
    assert (Hl : length from = S (length (remove_first best from))) by (rewrite Er, Ef, !app_length; cbn [length]; lia).
    split; intro Hn.
    + destruct IH1 as (res & m & Es & Hg); [lia|]. rewrite Es. cbn [rbind fst snd].
      exists (best :: res), (length keys + m). rewrite tick_tick. split; [reflexivity|].
      apply (greedy_cons _ _ n from rel best bef aft (fun p => beatenBy L p rel) rel' res); auto.
      * intros p _. split; [apply NoDup_filter; auto|]. intro q. apply beatenBy_In. exact R.
      * intros p Hpf. assert (Hkp : In ((length (beatenBy L p rel), gscore s p, p) : bkey) (isort beat_order sh)).
        { apply Hk. apply in_map_iff. exists p. auto. }
        pose proof (isort_sorted _ beat_total beat_trans sh) as Hs.
        destruct (sorted_rev_head _ _ _ _ Hs E _ Hkp) as [Ek|Hle].
        -- injection Ek as <- <- <-. right. split; [reflexivity|]. cbn [snd]. apply Qle_refl.
        -- exact (beat_dominates _ _ _ _ _ _ Hle).
      * rewrite <- Er. eapply greedy_score_ext; [|exact Hg]. intro p. apply gscore_tick.
    + rewrite IH2 by lia. reflexivity.
Qed.
Lemma greedy_facts B sc n from rel res : greedy B sc n from rel res -> length res = n /\ exists rest, Permutation from (res ++ rest).
Proof.
  induction 1 as [from|n from rel best before after bb rel' res E1 E2 E3 E4 E5 _ [IH1 (rest & IH2)]].
  - split; [reflexivity|]. exists from. reflexivity.
  - split; [cbn [length]; congruence|]. exists rest. subst from. rewrite <- Permutation_middle. cbn [app]. constructor. exact IH2.
Qed.
End S.
