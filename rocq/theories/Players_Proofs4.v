(** The moves of the player that follows a module, on square boards. *)
From Coq Require Import Reals Lra.
From Verif Require Import Base Games_Model Games_Spec Games_Proofs Capture_Model Games_Props Functions_Model Functions_Proofs LinearFA_Model LinearFA_Proofs LinearFA_Proofs3 Players_Model Players_Spec Players_Proofs Players_Proofs3.

Lemma index_number n p : on_board (square n) p -> posToIndex n p = Z.of_nat (number (square n) p) /\ indexToPos n (number (square n) p) = p /\ (0 <= posToIndex n p < n * n)%Z.
Proof.
  intros [H1 H2]. cbn [square fst snd] in *. unfold posToIndex, indexToPos, number. cbn [square snd].
  assert (E : Z.of_nat (Z.to_nat (fst p * n + snd p)) = (fst p * n + snd p)%Z) by nia. split; [lia |]. split; [| nia].
  rewrite E. rewrite Z.add_comm, Z.div_add, Z.mod_add, Z.div_small, Z.mod_small by lia. destruct p. reflexivity.
Qed.
Lemma number_index n k : (1 <= n)%Z -> (Z.of_nat k < n * n)%Z -> on_board (square n) (indexToPos n k) /\ number (square n) (indexToPos n k) = k.
Proof.
  intros Hn Hk. unfold indexToPos, on_board, number. cbn [square fst snd]. pose proof (Z.mod_pos_bound (Z.of_nat k) n ltac:(lia)) as M.
  assert (D : (0 <= Z.of_nat k / n < n)%Z) by (split; [apply Z.div_pos; lia | apply Z.div_lt_upper_bound; lia]).
  split; [split; assumption |]. rewrite Z.mul_comm, <- Z.div_mod by lia. apply Nat2Z.id.
Qed.
Lemma pmem_In p l : pmem p l = true <-> In p l.
Proof.
  unfold pmem. rewrite existsb_exists. split.
  - intros (q & Hq & E). destruct p, q. unfold pos_eqb in E. cbn in E. apply andb_true_iff in E as [E1 E2]. apply Z.eqb_eq in E1, E2. subst. exact Hq.
  - intros H. exists p. split; [exact H |]. unfold pos_eqb. rewrite !Z.eqb_refl. reflexivity.
Qed.
Lemma map_NoDup_in {X Y} (f : X -> Y) l : (forall x y, In x l -> In y l -> f x = f y -> x = y) -> NoDup l -> NoDup (map f l).
Proof.
  induction l as [|x l IH]; intros H N; [constructor |]. apply NoDup_cons_iff in N as [N1 N2]. cbn [map]. constructor.
  - intros K. apply in_map_iff in K as (y & E & Hy). apply N1. rewrite (H x y) by (cbn; auto). exact Hy.
  - apply IH; [| exact N2]. intros y z Hy Hz. apply H; right; assumption.
Qed.
Local Open Scope R_scope.
Lemma where_eq_NoDup mx l : forall i, NoDup (where_eq mx i l) /\ forall x, In x (where_eq mx i l) -> (i <= x)%nat.
Proof.
  induction l as [|y l IH]; intros i; cbn [where_eq]; [split; [constructor | intros x []] |]. destruct (IH (S i)) as [A B]. destruct (Req_EM_T y mx).
  - split; [constructor; [intros K; apply B in K; lia | exact A] |]. intros x [<- | Hx]; [lia | apply B in Hx; lia].
  - split; [exact A |]. intros x Hx. apply B in Hx. lia.
Qed.

Section Square.
Variables (n : Z) (b : board) (T : R) (a : vec).
Hypothesis Hn : (1 <= n)%Z.
Hypothesis La : Z.of_nat (length a) = (n * n)%Z.
Hypothesis Pa : Forall (fun x => 0 <= x) a.
Let s := square n.
Let legal (k : nat) : Prop := free s b (indexToPos n k).

Lemma legal_cases k : legal k \/ ~ legal k.
Proof.
  unfold legal, free. destruct (b (indexToPos n k)) eqn:E; [| right; intros [_ X]; discriminate | right; intros [_ X]; discriminate].
  destruct (in_range s (indexToPos n k)) eqn:R; [left; split; [apply in_range_iff; exact R | reflexivity] |]. right. intros [X _]. apply in_range_iff in X. congruence.
Qed.
Lemma values : exists v, copyLegals n a (repeat (-100 * (1 + T)) (length a)) (getLegals s b) = Ok v /\ length v = length a /\
  (forall k, (k < length v)%nat -> legal k -> nth k v 0 = nth k a 0) /\
  (forall k, (k < length v)%nat -> ~ legal k -> nth k v 0 = -100 * (1 + T)).
Proof.
  assert (B : forall p, In p (getLegals s b) -> (0 <= posToIndex n p < Z.of_nat (length a))%Z).
  { intros p Hp. apply legals_free in Hp as [Hp _]. rewrite La. apply (index_number n p Hp). }
  destruct (copyLegals_ok n a (getLegals s b) B (repeat (-100 * (1 + T)) (length a)) (repeat_length _ _)) as (v & E & L & H).
  exists v. split; [exact E |]. split; [exact L |].
  assert (X : forall k, (k < length v)%nat -> ((exists p, In p (getLegals s b) /\ Z.to_nat (posToIndex n p) = k) <-> legal k)).
  { intros k Hk. rewrite L in Hk. destruct (number_index n k Hn ltac:(lia)) as [O N]. split.
    - intros (p & Hp & Ek). apply legals_free in Hp. destruct (index_number n p (proj1 Hp)) as (I1 & I2 & _). rewrite I1, Nat2Z.id in Ek. subst k. unfold legal. rewrite I2. exact Hp.
    - intros Hl. exists (indexToPos n k). split; [apply legals_free; exact Hl |]. destruct (index_number n _ O) as (I1 & _). rewrite I1, Nat2Z.id. exact N. }
  split.
  - intros k Hk Hl. destruct (H k) as [(_ & A) | (A & _)]; [exact A |]. exfalso. apply A, X; assumption.
  - intros k Hk Hl. destruct (H k) as [(A & _) | (_ & A)]; [exfalso; apply Hl, X; assumption |]. rewrite A. rewrite L in Hk.
    apply (repeat_spec (length a) (-100 * (1 + T))). apply nth_In. rewrite repeat_length. exact Hk.
Qed.
Lemma legalize r i : exists v, (length v = length a /\
  (forall k, (k < length v)%nat -> legal k -> nth k v 0 = nth k a 0) /\
  (forall k, (k < length v)%nat -> ~ legal k -> nth k v 0 = -100 * (1 + T))) /\
  legalizeIt n (getLegals s b) T a r i = let! k := drawGibbs v T r i in if pmem (indexToPos n k) (getLegals s b) then Ok (indexToPos n k) else Err AssertionError.
Proof.
  destruct values as (v & E & H). exists v. split; [exact H |]. unfold legalizeIt. destruct a as [|x a'] eqn:Ea; [exfalso; cbn in La; lia |].
  destruct (Forall_dec _ _ _) as [_ | N]; [| contradiction]. rewrite E. reflexivity.
Qed.
Lemma some_legal (v : vec) : length v = length a -> (exists p, free s b p) -> exists k, (k < length v)%nat /\ legal k.
Proof.
  intros L (p & Hp). exists (number s p). destruct (index_number n p (proj1 Hp)) as (I1 & I2 & I3). unfold s in *. split; [rewrite L; lia | unfold legal; rewrite I2; exact Hp].
Qed.
Lemma a_nonneg k : 0 <= nth k a 0.
Proof. destruct (lt_dec k (length a)) as [H | H]; [apply (proj1 (Forall_forall _ _) Pa), nth_In, H | rewrite nth_overflow by lia; lra]. Qed.

Definition best_move (p : pos) : Prop := free s b p /\ forall q, free s b q -> nth (number s q) a 0 <= nth (number s p) a 0.
Lemma greedy r : T = 0 -> (exists p, free s b p) -> equal_chances best_move (legalizeIt n (getLegals s b) T a r).
Proof.
  intros T0 EX. destruct values as (v & Ev & Lv & V1 & V2). destruct (some_legal v Lv EX) as (k0 & K1 & K2).
  assert (NE : v <> []) by (intros ->; cbn in K1; lia). destruct (vmax_spec v NE) as [M1 M2].
  assert (M0 : 0 <= vmax v). { apply Rle_trans with (nth k0 v 0); [rewrite V1 by assumption; apply a_nonneg | apply M2, nth_In, K1]. }
  set (L := where_eq (vmax v) 0 v).
  assert (HL : forall k, In k L <-> (k < length v)%nat /\ nth k v 0 = vmax v).
  { intros k. unfold L. rewrite where_eq_spec. split; [intros (j & J1 & -> & J2); cbn; auto | intros [J1 J2]; exists k; auto]. }
  assert (LL : forall k, In k L -> legal k).
  { intros k Hk. apply HL in Hk as [J1 J2]. destruct (legal_cases k) as [|N]; [assumption |]. exfalso. rewrite (V2 k J1 N), T0 in J2. lra. }
  assert (B : forall p, In p (map (indexToPos n) L) <-> best_move p).
  { intros p. rewrite in_map_iff. split.
    - intros (k & <- & Hk). pose proof (LL k Hk) as Lk. apply HL in Hk as [J1 J2]. destruct (number_index n k Hn ltac:(lia)) as [O N]. split; [exact Lk |].
      intros q Hq. unfold s. rewrite N. rewrite <- (V1 k J1 Lk), J2. destruct (index_number n q (proj1 Hq)) as (I1 & I2 & I3).
      assert (Q1 : (number (square n) q < length v)%nat) by lia. rewrite <- (V1 _ Q1) by (unfold legal; rewrite I2; exact Hq). apply M2, nth_In, Q1.
    - intros [F G]. exists (number s p). destruct (index_number n p (proj1 F)) as (I1 & I2 & I3). split; [exact I2 |]. assert (Q1 : (number s p < length v)%nat) by (unfold s; lia).
      apply HL. split; [exact Q1 |]. assert (Lp : legal (number s p)) by (unfold legal, s; rewrite I2; exact F). rewrite (V1 _ Q1 Lp). apply Rle_antisym; [rewrite <- (V1 _ Q1 Lp); apply M2, nth_In, Q1 |].
      apply In_nth with (d := 0) in M1 as (K & LK & EK). assert (InK : In K L) by (apply HL; auto). pose proof (LL K InK) as lK. rewrite <- EK, (V1 K LK lK).
      destruct (number_index n K Hn ltac:(lia)) as [O N]. pose proof (G _ lK) as X. unfold s in X at 1. rewrite N in X. exact X. }
  assert (NL : L <> []). { apply In_nth with (d := 0) in M1 as (K & LK & EK). intros X. assert (In K L) by (apply HL; auto). rewrite X in H. exact H. }
  apply (equal_ext _ (choice (map (indexToPos n) L))).
  - intros i. unfold legalizeIt. destruct a as [|x a'] eqn:Ea; [exfalso; cbn in La; lia |]. rewrite <- Ea in *.
    destruct (Forall_dec _ _ _) as [_ | N]; [| contradiction]. rewrite Ev. cbn [rbind]. unfold drawGibbs.
    assert (DG : (match v with [] => Err ValueError | _ :: _ => if Req_EM_T T 0 then choice (where_eq (vmax v) 0 v) i else drawReal (gibbsProbs v T) r i end) = choice L i).
    { destruct v; [congruence |]. destruct (Req_EM_T T 0); [reflexivity | contradiction]. }
    rewrite DG. unfold choice. rewrite map_length, nth_error_map. destruct (nth_error L (i mod length L)) as [k|] eqn:E; cbn [option_map rbind]; [| reflexivity].
    assert (Q : pmem (indexToPos n k) (getLegals s b) = true) by (apply pmem_In, legals_free, LL; eapply nth_error_In; eauto). rewrite Q. reflexivity.
  - apply choice_equal; [| destruct L; [congruence | discriminate] | exact B].
    apply map_NoDup_in; [| apply where_eq_NoDup].
    intros x y Hx Hy E. apply HL in Hx as [Hx _]. apply HL in Hy as [Hy _]. destruct (number_index n x Hn ltac:(lia)) as [_ N1], (number_index n y Hn ltac:(lia)) as [_ N2]. congruence.
Qed.

Lemma gibbs : 0 < T -> (exists p, free s b p) -> exists ps, length ps = length a /\ fold_right Rplus 0 ps = 1 /\
  (forall k, (k < length a)%nat -> 0 < nth k ps 0) /\
  (forall r i, 0 <= r < 1 -> exists k, picks ps r k /\ (legal k -> legalizeIt n (getLegals s b) T a r i = Ok (indexToPos n k)) /\
      (~ legal k -> legalizeIt n (getLegals s b) T a r i = Err AssertionError)) /\
  (forall k, (k < length a)%nat -> ~ legal k -> nth k ps 0 <= exp (-40)) /\
  (forall k j, (k < length a)%nat -> (j < length a)%nat -> legal k -> legal j -> 
     (forall q, free s b q -> nth (number s q) a 0 - 40 * T <= nth k a 0 /\ nth (number s q) a 0 - 40 * T <= nth j a 0) ->
     nth k ps 0 = nth j ps 0 * exp ((nth k a 0 - nth j a 0) / T)).
Proof.
  intros T0 EX. destruct values as (v & Ev & Lv & V1 & V2). pose proof (some_legal v Lv EX) as SL.
  assert (LP : forall k, (k < length v)%nat -> legal k -> 0 <= nth k v 0) by (intros k Hk Hl; rewrite (V1 k Hk Hl); apply a_nonneg).
  exists (gibbsProbs v T). split; [rewrite (probs_length v T); exact Lv |].
  split; [exact (probs_sum v T legal T0 LP V2 legal_cases SL) |]. split; [| split; [| split]].
  - intros k Hk. apply (probs_pos v T legal T0 LP V2 legal_cases SL). lia.
  - intros r i Hr. destruct (draw_picks (gibbsProbs v T) r i (probs_sum v T legal T0 LP V2 legal_cases SL) Hr) as (k & Ek & Pk). exists k. split; [exact Pk |].
    assert (E : legalizeIt n (getLegals s b) T a r i = if pmem (indexToPos n k) (getLegals s b) then Ok (indexToPos n k) else Err AssertionError).
    { unfold legalizeIt. destruct a as [|x a'] eqn:Ea; [exfalso; cbn in La; lia |]. rewrite <- Ea in *.
      destruct (Forall_dec _ _ _) as [_ | N]; [| contradiction]. rewrite Ev. cbn [rbind]. unfold drawGibbs. destruct v as [|y v'] eqn:Ev'; [exfalso; cbn in Lv; lia |]. rewrite <- Ev' in *.
      destruct (Req_EM_T T 0); [lra |]. rewrite Ek. reflexivity. }
    rewrite E. split; intros Hl.
    + assert (Q : pmem (indexToPos n k) (getLegals s b) = true) by (apply pmem_In, legals_free, Hl). rewrite Q. reflexivity.
    + destruct (pmem (indexToPos n k) (getLegals s b)) eqn:Q; [| reflexivity]. apply pmem_In, legals_free in Q. contradiction.
  - intros k Hk. apply (illegal_prob v T legal T0 LP V2 legal_cases SL). lia.
  - intros k j Hk Hj Lk Lj H. rewrite <- (V1 k ltac:(lia) Lk), <- (V1 j ltac:(lia) Lj). apply (legal_ratio v T legal T0 LP V2 legal_cases SL); [lia | lia |].
    rewrite (V1 k ltac:(lia) Lk), (V1 j ltac:(lia) Lj). intros x Hx. apply In_nth with (d := 0) in Hx as (i & Li & <-). destruct (number_index n i Hn ltac:(lia)) as [O N].
    destruct (legal_cases i) as [D | D].
    + rewrite (V1 i Li D). pose proof (H _ D) as X. unfold s in X. rewrite N in X. exact X.
    + rewrite (V2 i Li D). pose proof (a_nonneg k). pose proof (a_nonneg j). lra.
Qed.
End Square.
