From Verif Require Import Base Utilities_Model Utilities_Spec.
From Coq Require Import QArith Lqa.
Open Scope nat_scope.

(** ** Sets and flood fill *)
Section Flood.
Context {A : Type} (eqb : A -> A -> bool).
Context (eqb_spec : forall x y, reflect (x = y) (eqb x y)).

Lemma mem_In x l : mem eqb x l = true <-> In x l.
Proof.
  unfold mem. rewrite existsb_exists. split.
  - intros (y & Hy & E). destruct (eqb_spec x y); congruence.
  - intro H. exists x. split; auto. destruct (eqb_spec x x); congruence.
Qed.
Lemma mem_nIn x l : mem eqb x l = false <-> ~ In x l.
Proof. rewrite <- mem_In. destruct (mem eqb x l); split; congruence. Qed.

Lemma add_new_In l x y : In y (add_new eqb l x) <-> In y l \/ y = x.
Proof.
  unfold add_new. destruct (mem eqb x l) eqn:E.
  - apply mem_In in E. split; auto. intros [| ->]; auto.
  - rewrite in_app_iff. simpl. intuition.
Qed.
Lemma union_In m : forall l y, In y (union eqb l m) <-> In y l \/ In y m.
Proof.
  unfold union. induction m as [|x m IH]; intros l y; simpl; [tauto|].
  rewrite IH, add_new_In. intuition.
Qed.
Lemma add_new_nodup l x : NoDup l -> NoDup (add_new eqb l x).
Proof.
  intro H. unfold add_new. destruct (mem eqb x l) eqn:E; auto.
  apply mem_nIn in E. rewrite <- (rev_involutive (l ++ [x])). apply NoDup_rev. rewrite rev_app_distr. simpl.
  constructor; [|apply NoDup_rev; auto]. rewrite <- in_rev. exact E.
Qed.
Lemma union_nodup m : forall l, NoDup l -> NoDup (union eqb l m).
Proof. unfold union. induction m; intros l H; simpl; auto. apply IHm, add_new_nodup, H. Qed.
Lemma set_of_In l y : In y (set_of eqb l) <-> In y l.
Proof. unfold set_of. rewrite union_In. simpl. tauto. Qed.
Lemma set_of_nodup l : NoDup (set_of eqb l).
Proof. apply union_nodup. constructor. Qed.
Lemma inter_In l m y : In y (inter eqb l m) <-> In y l /\ In y m.
Proof. unfold inter. rewrite filter_In, mem_In. tauto. Qed.
Lemma diff_In l m y : In y (diff eqb l m) <-> In y l /\ ~ In y m.
Proof. unfold diff. rewrite filter_In, negb_true_iff, mem_nIn. tauto. Qed.
Lemma subset_incl l m : subset eqb l m = true <-> incl l m.
Proof.
  unfold subset. rewrite forallb_forall. split; intros H x Hx; specialize (H x Hx); rewrite mem_In in *; auto.
Qed.

Context (step : A -> list A).
(** the positions flood may visit *)
Definition allowed (full : option (list A)) (x : A) : Prop :=
  match full with None => True | Some f => In x f end.

Lemma new_In full change : forall acc y,
  In y (fold_left (fun acc m => union eqb acc (match full with
                       | None => step m | Some f => inter eqb f (step m) end)) change acc)
  <-> In y acc \/ exists x, In x change /\ In y (step x) /\ allowed full y.
Proof.
  induction change as [|x l IH]; intros acc y; cbn [fold_left].
  - split; auto. intros [|(x & [] & _)]; auto.
  - rewrite IH, union_In. 
    assert (E : In y (match full with None => step x | Some f => inter eqb f (step x) end)
            <-> In y (step x) /\ allowed full y).
    { destruct full; simpl; [rewrite inter_In|]; tauto. }
    rewrite E. split.
    + intros [[H|[H1 H2]]|(z & H1 & H2)]; auto.
      * right. exists x. simpl; auto.
      * right. exists z. simpl; auto.
    + intros [H|(z & [->|H1] & H2)]; auto. right. exists z. auto.
Qed.

Section Loop.
Context (full : option (list A)) (init : list A).
Let R := reach step (allowed full) init.
Definition finv (flooded change : list A) : Prop :=
  NoDup flooded /\ (forall x, In x flooded -> R x) /\ incl change flooded /\
  (forall x, In x init -> allowed full x -> In x flooded) /\
  forall x y, In x flooded -> ~ In x change -> In y (step x) -> allowed full y -> In y flooded.

Lemma finv_closed flooded : finv flooded [] -> forall x, R x -> In x flooded.
Proof.
  intros (_ & _ & _ & Hi & Hc) x Hx. induction Hx; auto. eapply Hc; eauto.
Qed.

Definition round_new (change : list A) : list A :=
  fold_left (fun acc m => union eqb acc (match full with
                       | None => step m | Some f => inter eqb f (step m) end)) change [].

Lemma finv_round flooded change : finv flooded change ->
  finv (union eqb flooded (diff eqb (round_new change) flooded)) (diff eqb (round_new change) flooded).
Proof.
  intros (Hn & Hr & Hs & Hi & Hc). unfold round_new. repeat split.
  - apply union_nodup; auto.
  - intros x Hx. apply union_In in Hx. destruct Hx as [Hx|Hx]; auto.
    apply diff_In in Hx. destruct Hx as [Hx _]. apply new_In in Hx. destruct Hx as [[]|(z & Hz & Hst & Ha)].
    eapply reach_step; eauto. apply Hr. auto.
  - intros x Hx. apply union_In. auto.
  - intros x Hx Ha. apply union_In. left; auto.
  - intros x y Hx Hnx Hst Ha. apply union_In in Hx. destruct Hx as [Hx|Hx]; [|contradiction].
    apply union_In. 
    assert (Dec : In y flooded \/ ~ In y flooded).
    { destruct (mem eqb y flooded) eqn:E; [left; apply mem_In|right; apply mem_nIn]; auto. }
    destruct Dec as [|Hny]; auto.
    assert (Dec : In x change \/ ~ In x change).
    { destruct (mem eqb x change) eqn:E; [left; apply mem_In|right; apply mem_nIn]; auto. }
    destruct Dec as [Hxc|Hxc].
    + right. apply diff_In. split; auto. apply new_In. right. exists x. auto.
    + left. eapply Hc; eauto.
Qed.

(** what any terminating run returns *)
Lemma flood_loop_sound rel fuel : forall flooded change out, finv flooded change ->
  flood_loop eqb fuel step full rel flooded change = Ok out ->
  NoDup out /\ (forall x, In x out -> R x) /\
  ((forall x, R x -> In x out) \/ exists r, rel = Some (Ok r) /\ incl r out).
Proof.
  induction fuel as [|n IH]; intros flooded change out Hf H; cbn [flood_loop] in H; [discriminate|].
  destruct change as [|c0 ch].
  - injection H as <-. pose proof (finv_closed _ Hf). destruct Hf as (Hn & Hr & _). auto.
  - remember (c0 :: ch) as change eqn:Ech. clear c0 ch Ech.
    apply finv_round in Hf. unfold round_new in Hf.
    destruct rel as [[r|e]|].
    + destruct (subset eqb r _) eqn:Es in H.
      * injection H as <-. apply subset_incl in Es. destruct Hf as (Hn & Hr & _).
        split; auto. split; auto. right. exists r. auto.
      * eapply IH; eauto.
    + discriminate.
    + eapply IH; eauto.
Qed.

Lemma union_disjoint_length m : forall l, NoDup m -> (forall x, In x m -> ~ In x l) ->
  length (union eqb l m) = length l + length m.
Proof.
  unfold union. induction m as [|x m IH]; intros l Hn Hd; cbn [fold_left length]; [lia|].
  inversion Hn; subst. rewrite IH; auto.
  - unfold add_new. destruct (mem eqb x l) eqn:E.
    + apply mem_In in E. exfalso. apply (Hd x); auto. left; auto.
    + rewrite app_length. cbn [length]. lia.
  - intros y Hy Hin. apply add_new_In in Hin. destruct Hin as [Hin| ->]; auto. apply (Hd y); auto. right; auto.
Qed.

Lemma round_new_nodup change : NoDup (round_new change).
Proof.
  unfold round_new. generalize (NoDup_nil A). generalize (@nil A).
  induction change as [|x l IH]; intros acc H; cbn [fold_left]; auto. apply IH, union_nodup, H.
Qed.

(** enough rounds when the reachable positions fit in a finite list *)
Lemma flood_loop_total rel univ : (forall e, rel <> Some (Err e)) -> (forall x, R x -> In x univ) ->
  forall fuel flooded change, finv flooded change ->
  length univ + (if match change with [] => true | _ => false end then 0 else 1) < fuel + length flooded ->
  0 < fuel ->
  exists out, flood_loop eqb fuel step full rel flooded change = Ok out.
Proof.
  intros He Hu. induction fuel as [|n IH]; intros flooded change Hf Hlt Hpos; [lia|].
  cbn [flood_loop]. destruct change as [|c0 ch]; [eauto|].
  remember (c0 :: ch) as change eqn:Ech. assert (Hne : change <> []) by (subst; discriminate). clear c0 ch Ech.
  pose proof (finv_round _ _ Hf) as Hf'. pose proof (round_new_nodup change) as Hnd.
  fold (round_new change). set (new := round_new change) in *.
  assert (Hlen : length (union eqb flooded (diff eqb new flooded)) = length flooded + length (diff eqb new flooded)).
  { apply union_disjoint_length. - apply NoDup_filter; auto. - intros x Hx. apply diff_In in Hx. tauto. }
  assert (Hle : length (union eqb flooded (diff eqb new flooded)) <= length univ).
  { apply NoDup_incl_length; [apply Hf'|]. intros x Hx. apply Hu. apply Hf'; auto. }
  assert (Hgo : exists out, flood_loop eqb n step full rel (union eqb flooded (diff eqb new flooded)) (diff eqb new flooded) = Ok out).
  { destruct change as [|c0 ch]; [congruence|]. destruct (diff eqb new flooded) as [|d0 dh] eqn:Ed.
    - destruct n as [|n]; [cbn [length] in *; lia|]. eexists. reflexivity.
    - rewrite <- Ed in *. apply IH; auto; rewrite Ed in *; cbn [length] in *; lia. }
  destruct rel as [[r|e]|]; auto.
  - destruct (subset eqb r _); eauto.
  - exfalso. eapply He; reflexivity.
Qed.
End Loop.

Lemma finv_init full init :
  let flooded := match full with None => set_of eqb init | Some f => inter eqb (set_of eqb f) (set_of eqb init) end in
  finv (option_map (set_of eqb) full) init flooded flooded.
Proof.
  intro flooded. subst flooded. unfold finv. repeat split.
  - destruct full; [apply NoDup_filter|]; apply set_of_nodup.
  - intros x Hx. destruct full; simpl in *.
    + apply inter_In in Hx. rewrite !set_of_In in Hx. apply reach_init; [tauto|]. simpl. apply set_of_In. tauto.
    + rewrite set_of_In in Hx. apply reach_init; [exact Hx|exact I].
  - intros x Hx; auto.
  - intros x Hx Ha. destruct full; simpl in *.
    + apply inter_In. split; [exact Ha|]. apply set_of_In; auto.
    + apply set_of_In; auto.
  - intros x y H Hn. contradiction.
Qed.

Lemma reach_ext (P Q : A -> Prop) init x : (forall y, P y <-> Q y) -> reach step P init x -> reach step Q init x.
Proof. intros H. induction 1; [apply reach_init|eapply reach_step]; eauto; apply H; auto. Qed.

Lemma allowed_set_of full y : allowed (option_map (set_of eqb) full) y <-> allowed full y.
Proof. destruct full; simpl; [apply set_of_In|tauto]. Qed.

(** without [relevant]: exactly the reachable positions, whenever it returns *)
Lemma flood_exact fuel full init out : flood eqb fuel step full init None = Ok out ->
  NoDup out /\ forall x, In x out <-> reach step (allowed full) init x.
Proof.
  intro H. unfold flood in H. pose proof (finv_init full init) as Hf. cbv zeta in Hf.
  apply flood_loop_sound with (init := init) in H; auto.
  destruct H as (Hn & Hr & Hall). split; auto. intro x.
  assert (Hr' : In x out -> reach step (allowed full) init x).
  { intro Hx. eapply reach_ext; [|apply Hr, Hx]. intro; apply allowed_set_of. }
  split; auto. intro Hx. destruct Hall as [Hall|(r & Er & Hincl)].
  - apply Hall. eapply reach_ext; [|apply Hx]. intro; symmetry; apply allowed_set_of.
  - destruct full as [f|]; [|discriminate]. injection Er as <-. apply Hincl, set_of_In.
    destruct Hx; auto.
Qed.

(** with [relevant]: nothing unreachable, and complete up to the relevant positions *)
Lemma flood_relevant fuel full init rel out : flood eqb fuel step full init (Some rel) = Ok out ->
  NoDup out /\ (forall x, In x out -> reach step (allowed full) init x) /\
  forall x, In x rel -> reach step (allowed full) init x -> In x out.
Proof.
  intro H. unfold flood in H. pose proof (finv_init full init) as Hf. cbv zeta in Hf.
  destruct rel as [|r0 rt].
  - simpl. apply flood_loop_sound with (init := init) in H; auto. destruct H as (Hn & Hr & _). split; auto. split.
    + intros x Hx. eapply reach_ext; [|apply Hr, Hx]. intro; apply allowed_set_of.
    + intros ? [].
  - remember (r0 :: rt) as rel. clear Heqrel r0 rt.
    apply flood_loop_sound with (init := init) in H; auto.
    destruct H as (Hn & Hr & Hall). split; auto. split.
    + intros x Hx. eapply reach_ext; [|apply Hr, Hx]. intro; apply allowed_set_of.
    + intros x Hrel Hx. destruct Hall as [Hall|(r & Er & Hincl)].
      * apply Hall. eapply reach_ext; [|apply Hx]. intro; symmetry; apply allowed_set_of.
      * injection Er as <-. apply Hincl, set_of_In, Hrel.
Qed.

Lemma flood_total full init rel univ : rel <> Some [] ->
  (forall x, reach step (allowed full) init x -> In x univ) ->
  forall fuel, length univ + 1 < fuel -> exists out, flood eqb fuel step full init rel = Ok out.
Proof.
  intros Hrel Hu fuel Hf. unfold flood. apply flood_loop_total with (init := init) (univ := univ).
  - intros e. destruct rel as [[|]|]; try congruence. destruct full; congruence.
  - intros x Hx. apply Hu. eapply reach_ext; [|apply Hx]. intro; apply allowed_set_of.
  - apply finv_init.
  - destruct (match _ with [] => true | _ => false end); lia.
  - lia.
Qed.

Lemma flood_total_full f init fuel : S (length f) < fuel ->
  exists out, flood eqb fuel step (Some f) init None = Ok out.
Proof.
  intro H. apply flood_total with (univ := f); try discriminate; [|lia].
  intros x Hx. destruct Hx; auto.
Qed.
End Flood.

(** ** Drawing an index *)
Open Scope Q_scope.

Lemma cumul_all l : cumul l (length l) == Qsum l.
Proof. induction l; simpl; [reflexivity|]. rewrite IHl. reflexivity. Qed.

Lemma draw_loop_spec l : (forall p, In p l -> 0 <= p) -> forall i s r, s <= r -> 
  match draw_loop i s r l with
  | Some k => exists j, (k = i + j)%nat /\ (j < length l)%nat /\ s + cumul l j <= r /\ r < s + cumul l (S j)
  | None => s + Qsum l <= r
  end.
Proof.
  induction l as [|p l IH]; intros Hp i s r Hs; cbn [draw_loop].
  - cbn [Qsum fold_right]. lra.
  - destruct (Qle_bool (s + p) r) eqn:E; cbn [negb].
    + apply Qle_bool_iff in E. specialize (IH (fun p H => Hp p (or_intror H)) (S i) (s + p) r E).
      destruct (draw_loop (S i) (s + p) r l) as [k|].
      * destruct IH as (j & -> & Hj & H1 & H2). exists (S j). split; [lia|]. split; [simpl; lia|].
        split. { change (cumul (p :: l) (S j)) with (p + cumul l j). lra. }
        change (cumul (p :: l) (S (S j))) with (p + cumul l (S j)). lra.
      * change (Qsum (p :: l)) with (p + Qsum l). lra.
    + exists 0%nat. split; [lia|]. split; [simpl; lia|]. 
      assert (~ s + p <= r) by (rewrite <- Qle_bool_iff; congruence).
      assert (E1 : cumul (p :: l) 0 == 0) by reflexivity.
      assert (E2 : cumul (p :: l) 1 == p) by (simpl; destruct l; simpl; lra).
      rewrite E1, E2. split; lra.
Qed.

(** [drawIndex] returns the index whose cumulative interval contains the draw *)
Lemma drawIndex_spec probs r c : (forall p, In p probs -> 0 <= p) ->
  99999 # 100000 < Qsum probs < 100001 # 100000 -> 0 <= r < Qsum probs ->
  exists i, drawIndex probs false r c = Ok i /\ (i < length probs)%nat /\
    cumul probs i <= r < cumul probs (S i) /\ 0 < nth i probs 0.
Proof.
  intros Hp Hs [Hr0 Hr]. unfold drawIndex.
  assert (E1 : Qle_bool (100001 # 100000) (Qsum probs) = false).
  { destruct (Qle_bool _ _) eqn:E; auto. apply Qle_bool_iff in E. lra. }
  assert (E2 : Qle_bool (Qsum probs) (99999 # 100000) = false).
  { destruct (Qle_bool (Qsum probs) _) eqn:E; auto. apply Qle_bool_iff in E. lra. }
  rewrite E1, E2. cbn [negb andb rbind].
  pose proof (draw_loop_spec probs Hp 0%nat 0 r Hr0) as H.
  destruct (draw_loop 0 0 r probs) as [k|]; [|lra].
  destruct H as (j & -> & Hj & H1 & H2). exists (0 + j)%nat. cbn [Nat.add]. split; auto. split; auto. split; [lra|].
  assert (E : forall l j, (j < length l)%nat -> cumul l (S j) == cumul l j + nth j l 0).
  { clear. induction l as [|p l IH]; intros [|j] Hj; cbn [length] in Hj; try lia.
    - simpl. destruct l; simpl; lra.
    - change (cumul (p :: l) (S (S j))) with (p + cumul l (S j)). rewrite IH by lia. simpl. lra. }
  specialize (E probs j Hj). lra.
Qed.

(** the intervals tile [0, sum): every index has exactly its own probability mass *)
Lemma cumul_tile probs i j r : (forall p, In p probs -> 0 <= p) ->
  cumul probs i <= r < cumul probs (S i) -> cumul probs j <= r < cumul probs (S j) -> i = j.
Proof.
  intros Hp Hi Hj.
  assert (Hmono : forall l, (forall p, In p l -> 0 <= p) -> forall a b, (a <= b)%nat -> cumul l a <= cumul l b).
  { clear. induction l as [|p l IH]; intros Hp a b Hab.
    - destruct a, b; simpl; lra.
    - destruct a as [|a], b as [|b]; try lia; simpl.
      + lra.
      + assert (0 <= cumul l b).
        { specialize (IH (fun q H => Hp q (or_intror H)) 0%nat b ltac:(lia)). destruct b, l; simpl in *; lra. }
        assert (0 <= p) by (apply Hp; left; auto). lra.
      + specialize (IH (fun q H => Hp q (or_intror H)) a b ltac:(lia)). lra. }
  destruct (Nat.lt_trichotomy i j) as [H|[H|H]]; auto; exfalso.
  - specialize (Hmono probs Hp (S i) j ltac:(lia)). lra.
  - specialize (Hmono probs Hp (S j) i ltac:(lia)). lra.
Qed.

Lemma Qsum_div l s : ~ s == 0 -> Qsum (map (fun p => p / s) l) == Qsum l / s.
Proof.
  intro Hs. induction l as [|p l IH]; cbn [map Qsum fold_right].
  - field. auto.
  - unfold Qsum in *. rewrite IH. field. auto.
Qed.

Lemma cumul_div l s : ~ s == 0 -> forall i, cumul (map (fun p => p / s) l) i == cumul l i / s.
Proof.
  intro Hs. induction l as [|p l IH]; intros [|i]; cbn [map cumul]; try (field; auto).
  rewrite IH. field. auto.
Qed.

(** tolerant mode normalises first *)
Lemma drawIndex_tolerant probs r c : (forall p, In p probs -> 0 <= p) -> 0 < Qsum probs ->
  (Qsum probs <= 99999 # 100000 \/ 100001 # 100000 <= Qsum probs) -> 0 <= r < 1 ->
  exists i, drawIndex probs true r c = Ok i /\ (i < length probs)%nat /\
    cumul probs i <= r * Qsum probs < cumul probs (S i).
Proof.
  intros Hp Hs Hbad [Hr0 Hr]. unfold drawIndex.
  assert (E : negb (Qle_bool (100001 # 100000) (Qsum probs)) && negb (Qle_bool (Qsum probs) (99999 # 100000)) = false).
  { destruct Hbad as [H|H]; apply Qle_bool_iff in H; rewrite H; rewrite ?andb_false_r; reflexivity. }
  rewrite E. cbn [rbind].
  assert (Hne : ~ Qsum probs == 0) by lra.
  destruct (Qeq_bool (Qsum probs) 0) eqn:E0; [apply Qeq_bool_iff in E0; contradiction|]. cbn [rbind].
  set (q := map (fun p => p / Qsum probs) probs).
  assert (Hq : forall p, In p q -> 0 <= p).
  { intros p Hin. apply in_map_iff in Hin. destruct Hin as (x & <- & Hx).
    apply Qle_shift_div_l; auto. specialize (Hp x Hx). lra. }
  assert (Hsum : Qsum q == 1). { unfold q. rewrite Qsum_div; auto. field. auto. }
  pose proof (draw_loop_spec q Hq 0%nat 0 r Hr0) as H.
  destruct (draw_loop 0 0 r q) as [k|]; [|lra].
  destruct H as (j & -> & Hj & H1 & H2). exists (0 + j)%nat. cbn [Nat.add]. split; auto.
  unfold q in Hj. rewrite map_length in Hj. split; auto.
  unfold q in H1, H2. rewrite cumul_div in H1, H2 by auto.
  assert (M1 : cumul probs j == cumul probs j / Qsum probs * Qsum probs) by (field; auto).
  assert (M2 : cumul probs (S j) == cumul probs (S j) / Qsum probs * Qsum probs) by (field; auto).
  split.
  - rewrite M1. apply Qmult_le_compat_r; lra.
  - rewrite M2. apply Qmult_lt_compat_r; auto. lra.
Qed.
Open Scope nat_scope.

(** ** argmax *)
Lemma fold_max_ge l : forall a, (a <= fold_left Z.max l a)%Z /\ forall x, In x l -> (x <= fold_left Z.max l a)%Z.
Proof.
  induction l as [|b l IH]; intro a; cbn [fold_left].
  - split; [lia|intros ? []].
  - destruct (IH (Z.max a b)) as [H1 H2]. split; [lia|]. intros x [->|Hx]; auto. lia.
Qed.
Lemma fold_max_in l : forall a, fold_left Z.max l a = a \/ In (fold_left Z.max l a) l.
Proof.
  induction l as [|b l IH]; intro a; cbn [fold_left]; auto.
  destruct (IH (Z.max a b)) as [E|E]; [|right; right; auto].
  rewrite E. destruct (Z.max_spec a b) as [[_ ->]|[_ ->]]; auto. right; left; auto.
Qed.

Lemma in_combine_seq {A} (l : list A) : forall k i x,
  In (i, x) (combine (seq k (length l)) l) <-> k <= i /\ nth_error l (i - k) = Some x.
Proof.
  induction l as [|a l IH]; intros k i x; cbn [length seq combine].
  - split; [intros []|]. intros [_ H]. destruct (i - k); discriminate.
  - cbn [In]. rewrite IH. split.
    + intros [E|[H1 H2]].
      * injection E as <- <-. rewrite Nat.sub_diag. auto.
      * split; [lia|]. replace (i - k) with (S (i - S k)) by lia. auto.
    + intros [H1 H2]. destruct (Nat.eq_dec i k) as [->|Hne].
      * rewrite Nat.sub_diag in H2. injection H2 as ->. auto.
      * right. split; [lia|]. replace (i - k) with (S (i - S k)) in H2 by lia. auto.
Qed.

Definition is_max (x : list Z) (i : nat) : Prop :=
  exists v, nth_error x i = Some v /\ forall w, In w x -> (w <= v)%Z.

Lemma all_argmax_spec x : x <> [] -> exists l, all_argmax x = Ok l /\ l <> [] /\
  (forall i, In i l <-> is_max x i) /\ StronglySorted lt l.
Proof.
  intro Hne. destruct x as [|v t]; [congruence|]. unfold all_argmax.
  set (m := fold_left Z.max t v). set (x := v :: t).
  assert (Hge : forall w, In w x -> (w <= m)%Z).
  { intros w [<-|Hw]; [apply (proj1 (fold_max_ge t v))|]. apply (proj2 (fold_max_ge t v)); auto. }
  assert (Hin : In m x). { unfold m, x. destruct (fold_max_in t v) as [->|H]; [left|right]; auto. }
  eexists. split; [reflexivity|]. 
  assert (Hspec : forall i, In i (map fst (filter (fun iv => (snd iv =? m)%Z) (combine (seq 0 (length x)) x))) <-> is_max x i).
  { intro i. rewrite in_map_iff. split.
    - intros ([j w] & <- & H). apply filter_In in H. destruct H as [H E]. apply in_combine_seq in H.
      cbn [fst snd] in *. apply Z.eqb_eq in E. subst w. rewrite Nat.sub_0_r in H. exists m. split; tauto.
    - intros (w & Hw & Hall). exists (i, w). split; auto. apply filter_In. split.
      + apply in_combine_seq. rewrite Nat.sub_0_r. split; [lia|auto].
      + cbn. apply Z.eqb_eq. apply Z.le_antisymm; auto. apply Hge. eapply nth_error_In; eauto. }
  split; [|split]; auto.
  - intro E. apply In_nth_error in Hin. destruct Hin as [i Hi].
    assert (H : is_max x i) by (exists m; auto). apply Hspec in H. rewrite E in H. destruct H.
  - clear. assert (G : forall k, StronglySorted lt (map fst (filter (fun iv => (snd iv =? m)%Z) (combine (seq k (length x)) x)))).
    { induction x as [|a l IH]; intro k; cbn [length seq combine filter]; [constructor|].
      specialize (IH (S k)). destruct (snd (k, a) =? m)%Z; auto. cbn [map fst]. constructor; auto.
      apply Forall_forall. intros i Hi. apply in_map_iff in Hi. destruct Hi as ([j w] & <- & H).
      apply filter_In in H. destruct H as [H _]. apply in_combine_seq in H. cbn. lia. }
    apply G.
Qed.

(** ** cross product and permutation *)
Lemma crossproduct_spec {A} (ss : list (list A)) : ss <> [] -> (forall s, In s ss -> s <> []) ->
  forall row, exists l, crossproduct ss row = Ok l /\
    forall t, In t l <-> exists c, t = row ++ c /\ Forall2 (fun x s => In x s) c ss.
Proof.
  induction ss as [|s ss IH]; intros Hne Hall row; [congruence|].
  destruct ss as [|s' ss].
  - exists (map (fun i => row ++ [i]) s). split; [reflexivity|]. intro t. rewrite in_map_iff. split.
    + intros (i & <- & Hi). exists [i]. split; auto.
    + intros (c & -> & H). inversion H as [|x ? c' ? Hx Hc]; subst. inversion Hc; subst. eauto.
  - remember (s' :: ss) as rest eqn:Er. 
    assert (Hr : rest <> []) by (subst; discriminate).
    specialize (IH Hr (fun x Hx => Hall x (or_intror Hx))).
    assert (Hs : s <> []) by (apply Hall; left; auto).
    assert (Hgo : exists l, fold_left (fun acc i => let! l := acc in
              let! r := crossproduct rest (row ++ [i]) in Ok (l ++ r)) s (Ok []) = Ok l /\
              forall t, In t l <-> exists c, t = row ++ c /\ Forall2 (fun x s => In x s) c (s :: rest)).
    { assert (G : forall s1 pre acc, (forall t, In t acc <-> exists c, t = row ++ c /\ Forall2 (fun x s => In x s) c (pre :: rest)) ->
         exists l, fold_left (fun acc i => let! l := acc in
              let! r := crossproduct rest (row ++ [i]) in Ok (l ++ r)) s1 (Ok acc) = Ok l /\
              forall t, In t l <-> exists c, t = row ++ c /\ Forall2 (fun x s => In x s) c ((pre ++ s1) :: rest)).
      { induction s1 as [|a s1 IHs]; intros pre acc Hacc; cbn [fold_left].
        - exists acc. split; auto. rewrite app_nil_r. auto.
        - destruct (IH (row ++ [a])) as (r & Er' & Hr'). cbn [rbind]. rewrite Er'. cbn [rbind].
          destruct (IHs (pre ++ [a]) (acc ++ r)) as (l & El & Hl).
          + intro t. rewrite in_app_iff, Hacc, Hr'. split.
            * intros [(c & -> & H)|(c & -> & H)].
              -- exists c. split; auto. inversion H; subst. constructor; auto. apply in_or_app; auto.
              -- exists (a :: c). split; [rewrite <- app_assoc; auto|]. constructor; auto. apply in_or_app; right; left; auto.
            * intros (c & -> & H). inversion H as [|x ? c' ? Hx Hc]; subst. apply in_app_or in Hx. destruct Hx as [Hx|[<-|[]]].
              -- left. exists (x :: c'). split; auto.
              -- right. exists c'. rewrite <- app_assoc. split; auto.
          + exists l. split; auto. rewrite <- app_assoc in Hl. exact Hl. }
      destruct (G s [] []) as (l & El & Hl).
      - intro t. split; [intros []|]. intros (c & _ & H). inversion H as [|z zl c1 c2 Hz]; subst. destruct Hz.
      - exists l. split; auto. }
    subst rest. destruct s as [|a s]; [congruence|]. exact Hgo.
Qed.

Lemma permute_spec {A} (arr : list A) p out : permute arr p = Ok out <->
  length out = length p /\ forall i k, nth_error p i = Some k -> nth_error out i = nth_error arr k /\ k < length arr.
Proof.
  revert out. unfold permute. induction p as [|k p IH]; intro out; cbn [fold_right].
  - split.
    + intro H. injection H as <-. split; auto. intros [|i] k H; discriminate.
    + intros [H _]. destruct out; [auto|discriminate].
  - destruct (fold_right _ (Ok []) p) as [l|e] eqn:E; cbn [rbind].
    + destruct (proj1 (IH l) eq_refl) as [Hl Hp]. destruct (nth_error arr k) as [x|] eqn:Ek.
      * split.
        -- intro H. injection H as <-. split; [cbn; auto|]. intros [|i] j Hj; cbn in *.
           ++ injection Hj as <-. split; auto. apply nth_error_Some. congruence.
           ++ auto.
        -- intros [H1 H2]. f_equal. destruct out as [|y out]; [discriminate|].
           destruct (H2 0 k eq_refl) as [H3 _]. cbn in H3. rewrite Ek in H3. injection H3 as ->. f_equal.
           injection H1 as H1. assert (G : Ok l = Ok out) by (apply IH; split; auto; intros i j Hj; apply (H2 (S i)); auto).
           injection G as ->. reflexivity.
      * split; [discriminate|]. intros [_ H2]. destruct (H2 0 k eq_refl) as [_ H3]. apply nth_error_Some in H3. congruence.
    + split; [discriminate|]. intros [H1 H2]. destruct out as [|y out]; [discriminate|]. injection H1 as H1.
      assert (G : Err e = Ok out) by (apply IH; split; auto; intros i j Hj; apply (H2 (S i)); auto). discriminate.
Qed.
