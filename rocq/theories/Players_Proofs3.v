(** The player that follows a module. *)
From Coq Require Import Reals Lra.
From Verif Require Import Base Games_Model Games_Spec Games_Proofs Capture_Model Games_Props Functions_Model Functions_Proofs LinearFA_Model LinearFA_Proofs LinearFA_Proofs3 Players_Model Players_Spec Players_Proofs.

(** ** the points in the order of _iterPos *)
Lemma nth_list_prod {A B} (l : list A) (m : list B) i j x y : nth_error l i = Some x -> nth_error m j = Some y ->
  nth_error (list_prod l m) (i * length m + j) = Some (x, y).
Proof.
  revert i. induction l as [|a l IH]; intros i Hi Hj; [destruct i; discriminate |]. cbn [list_prod].
  assert (L : (j < length m)%nat) by (apply nth_error_Some; congruence). destruct i as [|i].
  - cbn in Hi. injection Hi as ->. cbn [Nat.mul Nat.add]. rewrite nth_error_app1 by (rewrite map_length; exact L). rewrite nth_error_map, Hj. reflexivity.
  - cbn in Hi. rewrite nth_error_app2 by (rewrite map_length; cbn; lia). rewrite map_length. replace (S i * length m + j - length m)%nat with (i * length m + j)%nat by (cbn; lia). apply IH; assumption.
Qed.
Lemma nth_zrange n x : (0 <= x < n)%Z -> nth_error (zrange n) (Z.to_nat x) = Some x.
Proof.
  intros H. unfold zrange. rewrite nth_error_map. rewrite (nth_error_nth' (seq 0 (Z.to_nat n)) 0%nat) by (rewrite seq_length; lia).
  rewrite seq_nth by lia. cbn. f_equal. lia.
Qed.
Lemma zrange_length n : length (zrange n) = Z.to_nat n.
Proof. unfold zrange. now rewrite map_length, seq_length. Qed.
Lemma iterPos_number s p : on_board s p -> nth_error (iterPos s) (number s p) = Some p.
Proof.
  intros [H1 H2]. unfold iterPos, number. pose proof (nth_list_prod (zrange (fst s)) (zrange (snd s)) _ _ _ _ (nth_zrange _ _ H1) (nth_zrange _ _ H2)) as E.
  rewrite zrange_length in E. rewrite <- Z2Nat.inj_mul, <- Z2Nat.inj_add in E by nia. etransitivity; [exact E | destruct p; reflexivity].
Qed.
Lemma number_bound s p : on_board s p -> (number s p < length (iterPos s))%nat.
Proof. intros H. apply nth_error_Some. rewrite (iterPos_number s p H). discriminate. Qed.

(** ** the input of the module *)
Local Open Scope R_scope.
Definition cells (b : board) (p : pos) : vec := match b p with Stone White => [1; 0] | Stone Black => [0; 1] | _ => [0; 0] end.
Lemma boardArray_length s b : length (boardArray s b) = (2 * length (iterPos s))%nat.
Proof.
  unfold boardArray. induction (iterPos s) as [|p l IH]; [reflexivity |]. cbn [flat_map]. rewrite app_length, IH. destruct (b p) as [|[]|]; cbn [length]; lia.
Qed.
Lemma boardArray_nth s b i p : nth_error (iterPos s) i = Some p ->
  nth (2 * i) (boardArray s b) 0 = nth 0 (cells b p) 0 /\ nth (2 * i + 1) (boardArray s b) 0 = nth 1 (cells b p) 0.
Proof.
  unfold boardArray. fold (cells b). change (fun p0 => cells b p0) with (cells b).
  assert (C : forall q, exists x y, cells b q = [x; y]) by (intros q; unfold cells; destruct (b q) as [|[]|]; eauto).
  revert i. induction (iterPos s) as [|q l IH]; intros i Hi; [destruct i; discriminate |]. cbn [flat_map]. fold (cells b q). destruct (C q) as (x & y & E).
  change (match b q with Empty => [0; 0] | Stone Black => [0; 1] | Stone White => [1; 0] | Mark => [0; 0] end) with (cells b q). rewrite E. destruct i as [|i].
  - cbn in Hi. injection Hi as <-. rewrite E. split; reflexivity.
  - cbn in Hi. destruct (IH i Hi) as [A B]. replace (2 * S i)%nat with (S (S (2 * i))) by lia. replace (S (S (2 * i)) + 1)%nat with (S (S (2 * i + 1))) by lia. cbn [app nth]. split; assumption.
Qed.
Lemma inverted_flip s b : inverted (boardArray s b) = boardArray s (flip b).
Proof.
  unfold boardArray. induction (iterPos s) as [|p l IH]; [reflexivity |]. cbn [flat_map]. unfold flip at 1. destruct (b p) as [|[]|]; cbn [app inverted opp]; rewrite IH; reflexivity.
Qed.
Lemma flip_flip b p : flip (flip b) p = b p.
Proof. unfold flip. destruct (b p) as [|[]|]; reflexivity. Qed.
Lemma boardArray_ext s b b' : (forall p, b p = b' p) -> boardArray s b = boardArray s b'.
Proof. intros E. unfold boardArray. induction (iterPos s) as [|p l IH]; [reflexivity |]. cbn [flat_map]. rewrite IH, E. reflexivity. Qed.
Lemma legals_flip s b : getLegals s (flip b) = getLegals s b.
Proof. unfold getLegals. apply filter_ext. intros p. unfold flip. destruct (b p) as [|[]|]; reflexivity. Qed.

(** ** the values of the illegal moves *)
Lemma nth_upd_same i x (l : vec) : (i < length l)%nat -> nth i (upd i x l) 0 = x.
Proof. revert i. induction l as [|y l IH]; intros [|i] H; cbn [length] in *; try lia; [reflexivity |]. cbn [upd nth]. apply IH. lia. Qed.
Lemma nth_upd_other i j x (l : vec) : i <> j -> nth j (upd i x l) 0 = nth j l 0.
Proof. revert i j. induction l as [|y l IH]; intros [|i] [|j] H; try reflexivity; [congruence |]. cbn [upd nth]. apply IH. congruence. Qed.
Lemma copyLegals_ok w a legals : (forall p, In p legals -> 0 <= posToIndex w p < Z.of_nat (length a))%Z -> forall vals, length vals = length a ->
  exists v, copyLegals w a vals legals = Ok v /\ length v = length a /\
    forall k, (exists p, In p legals /\ Z.to_nat (posToIndex w p) = k) /\ nth k v 0 = nth k a 0 \/
              ~ (exists p, In p legals /\ Z.to_nat (posToIndex w p) = k) /\ nth k v 0 = nth k vals 0.
Proof.
  induction legals as [|p l IH]; intros H vals L; cbn [copyLegals].
  - exists vals. split; [reflexivity |]. split; [exact L |]. intros k. right. split; [intros (p & [] & _) | reflexivity].
  - destruct (H p (or_introl eq_refl)) as [H0 H1]. assert (E : (posToIndex w p <? Z.of_nat (length a))%Z = true) by (apply Z.ltb_lt; exact H1). rewrite E.
    set (j := Z.to_nat (posToIndex w p)). destruct (IH (fun q Hq => H q (or_intror Hq)) (upd j (nth j a 0) vals) ltac:(rewrite upd_length; exact L)) as (v & Ev & Lv & Hv).
    exists v. split; [exact Ev |]. split; [exact Lv |]. intros k. destruct (Hv k) as [((q & Q1 & Q2) & Q3) | (Q1 & Q2)].
    + left. split; [exists q; split; [right; exact Q1 | exact Q2] | exact Q3].
    + destruct (Nat.eq_dec j k) as [<- | NE].
      * left. split; [exists p; split; [left; reflexivity | reflexivity] |]. rewrite Q2. apply nth_upd_same. unfold j. lia.
      * right. split; [| rewrite Q2; apply nth_upd_other; exact NE]. intros (q & [<- | Q] & Q'); [exact (NE Q') |]. apply Q1. exists q. split; assumption.
Qed.

(** ** drawing *)
Lemma drawLoop_picks ps : forall s r k0, s <= r < s + rsum ps -> exists j, drawLoop ps s r k0 = Some (k0 + j)%nat /\ (j < length ps)%nat /\
  s + rsum (firstn j ps) <= r < s + rsum (firstn (S j) ps).
Proof.
  induction ps as [|p ps IH]; intros s r k0 H; cbn [drawLoop]; [cbn in H; lra |]. rewrite rsum_cons in H. destruct (Rlt_dec r (s + p)) as [Hr | Hr].
  - exists 0%nat. split; [f_equal; lia |]. split; [cbn [length]; lia |]. cbn. lra.
  - destruct (IH (s + p) r (S k0) ltac:(lra)) as (j & E & L & B). exists (S j). split; [rewrite E; f_equal; lia |]. split; [cbn [length]; lia |].
    change (firstn (S (S j)) (p :: ps)) with (p :: firstn (S j) ps). change (firstn (S j) (p :: ps)) with (p :: firstn j ps). rewrite !rsum_cons. lra.
Qed.
Lemma draw_picks ps r i : rsum ps = 1 -> 0 <= r < 1 -> exists k, drawReal ps r i = Ok k /\ picks ps r k.
Proof.
  intros S1 Hr. destruct (drawLoop_picks ps 0 r 0 ltac:(lra)) as (j & E & L & B). unfold drawReal. rewrite E. exists j. split; [reflexivity |].
  split; [exact L |]. unfold rsum in B. lra.
Qed.
Lemma draw_zero p ps i : 0 < p -> drawReal (p :: ps) 0 i = Ok 0%nat.
Proof. intros H. unfold drawReal. cbn [drawLoop]. destruct (Rlt_dec 0 (0 + p)); [reflexivity | lra]. Qed.

Section Gibbs.
Variables (vals : vec) (T : R) (legal : nat -> Prop).
Hypothesis T_pos : 0 < T.
Hypothesis legal_pos : forall k, (k < length vals)%nat -> legal k -> 0 <= nth k vals 0.
Hypothesis illegal_val : forall k, (k < length vals)%nat -> ~ legal k -> nth k vals 0 = -100 * (1 + T).
Hypothesis legal_dec : forall k, legal k \/ ~ legal k.
Hypothesis legal_ex : exists k, (k < length vals)%nat /\ legal k.

Let temp := map (fun v => v / T) vals.
Let m := vmax temp.
Let ex (v : R) : R := exp (if Rlt_dec (v / T + (20 - m)) (-20) then -20 else v / T + (20 - m)).
Lemma probs_eq : gibbsProbs vals T = map (fun v => ex v / rsum (map ex vals)) vals.
Proof. unfold gibbsProbs. fold temp. fold m. unfold temp. rewrite !map_map. reflexivity. Qed.
Lemma nonnil : vals <> [].
Proof. destruct legal_ex as (k & L & _). destruct vals; [cbn in L; lia | discriminate]. Qed.
(** the best value is that of a legal move *)
Lemma best : exists K, (K < length vals)%nat /\ legal K /\ nth K vals 0 / T = m /\ 0 <= m /\ forall v, In v vals -> v / T <= m.
Proof.
  assert (NN : temp <> []) by (unfold temp; pose proof nonnil; destruct vals; [congruence | discriminate]).
  destruct (vmax_spec temp NN) as [A B]. fold m in A, B. unfold temp in A. apply in_map_iff in A as (v & Ev & Hv).
  assert (G : forall v, In v vals -> v / T <= m) by (intros v' Hv'; apply B; unfold temp; apply in_map_iff; eauto).
  destruct legal_ex as (k & Lk & Hk). pose proof (legal_pos k Lk Hk) as Pk.
  assert (M0 : 0 <= m). { apply Rle_trans with (nth k vals 0 / T); [apply Rmult_le_pos; [exact Pk | left; apply Rinv_0_lt_compat; exact T_pos] | apply G, nth_In, Lk]. }
  apply In_nth with (d := 0) in Hv as (K & LK & EK). exists K. split; [exact LK |]. subst v.
  destruct (legal_dec K) as [D | D]; [split; [exact D |]; split; [exact Ev |]; split; assumption |].
  exfalso. rewrite (illegal_val K LK D) in Ev. assert (-100 * (1 + T) / T < 0); [| lra].
  unfold Rdiv. rewrite <- Rmult_opp_opp. assert (0 < / T) by (apply Rinv_0_lt_compat; exact T_pos). nra.
Qed.
Lemma ex_pos v : 0 < ex v.
Proof. apply exp_pos. Qed.
Lemma total_ge : exp 20 <= rsum (map ex vals).
Proof.
  destruct best as (K & LK & _ & EK & _). assert (E : ex (nth K vals 0) = exp 20).
  { unfold ex. rewrite EK. replace (m + (20 - m)) with 20 by lra. destruct (Rlt_dec 20 (-20)); [lra | reflexivity]. }
  rewrite <- E. clear E EK. assert (I : In (nth K vals 0) vals) by (apply nth_In; exact LK). revert I. generalize (nth K vals 0). intros v Hv.
  assert (P : forall l, 0 <= rsum (map ex l)) by (intros l; apply rsum_pos; apply Forall_forall; intros x Hx; apply in_map_iff in Hx as (y & <- & _); left; apply ex_pos).
  clear - Hv P. revert Hv P. generalize ex. intros f. induction vals as [|x l IH]; intros Hv P; [destruct Hv |]. cbn [map]. rewrite rsum_cons. destruct Hv as [-> | Hv].
  - pose proof (P l). lra.
  - pose proof (IH Hv P). assert (0 <= rsum (map f [x])) by apply P. cbn in H0. lra.
Qed.
Lemma total_pos : 0 < rsum (map ex vals).
Proof. pose proof total_ge. pose proof (exp_pos 20). lra. Qed.
Lemma probs_sum : rsum (gibbsProbs vals T) = 1.
Proof.
  rewrite probs_eq. pose proof total_pos as P. set (t := rsum (map ex vals)) in *.
  assert (E : map (fun v => ex v / t) vals = map (fun x => x / t) (map ex vals)) by (rewrite map_map; reflexivity). rewrite E, rsum_map_div. fold t. field. lra.
Qed.
Lemma probs_nth k : (k < length vals)%nat -> nth k (gibbsProbs vals T) 0 = ex (nth k vals 0) / rsum (map ex vals).
Proof.
  intros L. rewrite probs_eq. rewrite (nth_indep _ 0 ((fun v => ex v / rsum (map ex vals)) 0)) by (rewrite map_length; exact L).
  exact (map_nth (fun v => ex v / rsum (map ex vals)) vals 0 k).
Qed.
Lemma probs_length : length (gibbsProbs vals T) = length vals.
Proof. rewrite probs_eq. apply map_length. Qed.
Lemma probs_pos k : (k < length vals)%nat -> 0 < nth k (gibbsProbs vals T) 0.
Proof. intros L. rewrite probs_nth by exact L. apply Rdiv_lt_0_compat; [apply ex_pos | apply total_pos]. Qed.
Lemma illegal_prob k : (k < length vals)%nat -> ~ legal k -> nth k (gibbsProbs vals T) 0 <= exp (-40).
Proof.
  intros L N. rewrite probs_nth by exact L. rewrite (illegal_val k L N). destruct best as (_ & _ & _ & _ & M0 & _).
  assert (E : ex (-100 * (1 + T)) = exp (-20)).
  { unfold ex. assert (X : -100 * (1 + T) / T = -100 / T - 100) by (field; lra). rewrite X.
    assert (0 < / T) by (apply Rinv_0_lt_compat; exact T_pos). destruct (Rlt_dec (-100 / T - 100 + (20 - m)) (-20)) as [_ | C]; [reflexivity |]. exfalso. unfold Rdiv in C. lra. }
  rewrite E. apply Rmult_le_reg_r with (rsum (map ex vals)); [apply total_pos |]. unfold Rdiv. rewrite Rmult_assoc, Rinv_l, Rmult_1_r by (pose proof total_pos; lra).
  apply Rle_trans with (exp (-40) * exp 20); [| apply Rmult_le_compat_l; [left; apply exp_pos | apply total_ge]]. rewrite <- exp_plus. right. f_equal. lra.
Qed.
Lemma legal_ratio k j : (k < length vals)%nat -> (j < length vals)%nat ->
  (forall v, In v vals -> v - 40 * T <= nth k vals 0 /\ v - 40 * T <= nth j vals 0) ->
  nth k (gibbsProbs vals T) 0 = nth j (gibbsProbs vals T) 0 * exp ((nth k vals 0 - nth j vals 0) / T).
Proof.
  intros Lk Lj H. rewrite !probs_nth by assumption. destruct best as (K & LK & _ & EK & _).
  assert (E : forall i, (i < length vals)%nat -> nth K vals 0 - 40 * T <= nth i vals 0 -> ex (nth i vals 0) = exp (nth i vals 0 / T + (20 - m))).
  { intros i Li Hi. unfold ex. destruct (Rlt_dec (nth i vals 0 / T + (20 - m)) (-20)) as [C | _]; [| reflexivity]. exfalso.
    assert (X : m - 40 <= nth i vals 0 / T). { rewrite <- EK. apply Rmult_le_reg_r with T; [exact T_pos |]. unfold Rdiv. rewrite Rmult_minus_distr_r, !Rmult_assoc, Rinv_l by lra. lra. } lra. }
  destruct (H (nth K vals 0) (nth_In _ _ LK)) as [H1 H2]. rewrite (E k Lk H1), (E j Lj H2).
  replace (nth k vals 0 / T + (20 - m)) with ((nth j vals 0 / T + (20 - m)) + (nth k vals 0 - nth j vals 0) / T) by (field; lra). rewrite exp_plus. unfold Rdiv. ring.
Qed.
End Gibbs.
