(** Captures, suicides and legal moves, in terms of the board. *)
From Verif Require Import Base Games_Model Games_Spec Games_Proofs Capture_Model Capture_Spec Capture_Proofs Capture_Inv.
From Coq Require Import Lia Relations.
Local Open Scope Z_scope.

Lemma one_iff (s : list pos) p : NoDup s -> In p s -> (length s = 1%nat <-> forall e, In e s -> e = p).
Proof.
  intros Hn Hp. split.
  - destruct s as [|x [|y s]]; cbn; try discriminate. intros _ e [<- | []]. destruct Hp as [<- | []]. auto.
  - intros H. destruct s as [|x [|y s]]; [destruct Hp | reflexivity |]. exfalso. inversion Hn; subst.
    rewrite (H x), (H y) in * by (cbn; auto). cbn in *. tauto.
Qed.

Section Rules.
  Variables (n : Z) (g : cgame).
  Hypothesis I : cinv n g.
  Let s := square n.

  (** the liberties of a stone, as counted by the game *)
  Lemma libs_spec q c : on_board s q -> c_b g q = Stone c ->
    exists h l, c_groups g q = Some h /\ c_libs g h = Some l /\ NoDup l /\ forall e, In e l <-> liberty s (c_b g) q e.
  Proof.
    intros Hq Hc. destruct (ci_dom n g I q c Hq Hc) as (h & Hh). destruct (ci_libs n g I q h Hh) as (l & H1 & H2 & H3).
    exists h, l. do 3 (split; [auto |]). intros e. rewrite H3. unfold liberty. fold s.
    split; intros (A & B & r & C & D); (split; [auto |]); (split; [auto |]); exists r; (split; [| auto]); now apply (ci_conn n g I q r h Hh).
  Qed.
  Lemma libcount_spec q c : on_board s q -> c_b g q = Stone c ->
    exists l, libcount g q = Ok (Z.of_nat (length l)) /\ NoDup l /\ forall e, In e l <-> liberty s (c_b g) q e.
  Proof.
    intros Hq Hc. destruct (libs_spec q c Hq Hc) as (h & l & H1 & H2 & H3 & H4). exists l. unfold libcount. rewrite H1. cbn [oget rbind]. rewrite H2. auto.
  Qed.
  Lemma alive_dec q c : on_board s q -> c_b g q = Stone c -> alive s (c_b g) q \/ ~ alive s (c_b g) q.
  Proof.
    intros Hq Hc. destruct (libs_spec q c Hq Hc) as (_ & l & _ & _ & _ & H). destruct l as [|e l].
    - right. intros (e & He). now apply H in He.
    - left. exists e. apply H. left; auto.
  Qed.

  Variables (c : color) (p : pos).
  Hypothesis Hp : on_board s p.
  Hypothesis He : c_b g p = Empty.
  Let b' := placed (c_b g) p c.
  Let ns := neighbors n p.

  Lemma empty_placed e : b' e = Empty <-> e <> p /\ c_b g e = Empty.
  Proof.
    unfold b'. destruct (pos_dec e p) as [-> |Hep]; [rewrite placed_same; split; [discriminate | intros [[] ?]; auto] | rewrite placed_other by auto; tauto].
  Qed.
  Lemma other_liberty q e : Mg n g c p q = false -> (liberty s b' q e <-> liberty s (c_b g) q e /\ e <> p).
  Proof.
    intros H. unfold liberty. rewrite empty_placed. split.
    - intros (A & [B1 B2] & r & C & D). split; [| auto]. split; [auto |]. split; [auto |]. exists r. split; [| auto]. now apply (other_conn n g c p I Hp He) in C.
    - intros [(A & B & r & C & D) E]. split; [auto |]. split; [auto |]. exists r. split; [| auto]. apply (other_conn n g c p I Hp He); auto.
  Qed.
  Lemma Mg_color q c' : Mg n g c p q = true -> q <> p -> c_b g q = Stone c' -> c' = c.
  Proof. intros H Hq Hc. apply (Mg_stone n g c p I Hp He) in H as [_ H]. rewrite placed_other in H by auto. congruence. Qed.
  Lemma p_liberty q c' : In q ns -> c_b g q = Stone c' -> on_board s q /\ q <> p /\ liberty s (c_b g) q p.
  Proof.
    intros H Hc. apply neighbors_In in H as [H1 H2]; [| auto]. split; [auto |]. split; [intros ->; congruence |]. split; [auto |]. split; [auto |].
    exists q. split; [apply rt_refl | now apply adj_sym].
  Qed.
  Lemma enemy_one q : In q ns -> c_b g q = Stone (opp c) ->
    exists k, libcount g q = Ok k /\ (k = 1 <-> ~ alive s b' q).
  Proof.
    intros Hq Hc. destruct (p_liberty q _ Hq Hc) as (H1 & H2 & H3). destruct (libcount_spec q _ H1 Hc) as (l & E & Hn & Hl).
    assert (HM : Mg n g c p q = false).
    { apply not_true_iff_false. intros H. apply Mg_color with (c' := opp c) in H; auto. destruct c; discriminate. }
    exists (Z.of_nat (length l)). split; [auto |]. transitivity (length l = 1%nat); [lia |]. rewrite (one_iff l p Hn) by now apply Hl. split.
    - intros H (e & A). apply other_liberty in A as [A B]; [| auto]. apply B, H, Hl. auto.
    - intros H e A. destruct (pos_dec e p) as [|Hep]; [auto |]. exfalso. apply H. exists e. apply other_liberty; [auto |]. split; [now apply Hl | auto].
  Qed.
  Lemma friend_more q : In q ns -> c_b g q = Stone c ->
    exists k, libcount g q = Ok k /\ (1 < k <-> exists e, liberty s (c_b g) q e /\ e <> p).
  Proof.
    intros Hq Hc. destruct (p_liberty q _ Hq Hc) as (H1 & H2 & H3). destruct (libcount_spec q _ H1 Hc) as (l & E & Hn & Hl).
    exists (Z.of_nat (length l)). split; [auto |]. pose proof (one_iff l p Hn ltac:(now apply Hl)) as O.
    assert (L : length l <> 0%nat) by (destruct l; [apply Hl in H3; destruct H3 | discriminate]). split.
    - intros H. destruct (existsb (fun e => negb (pos_eqb e p)) l) eqn:X.
      + apply existsb_exists in X as (e & A & B). apply negb_true_iff, pos_eqb_neq in B. exists e. split; [now apply Hl | auto].
      + exfalso. assert (length l = 1%nat); [| lia]. apply O. intros e A. destruct (pos_dec e p) as [|Hep]; [auto |].
        assert (Y : existsb (fun e => negb (pos_eqb e p)) l = true); [| congruence]. apply existsb_exists. exists e. split; [auto |]. apply negb_true_iff. now apply pos_eqb_neq.
    - intros (e & A & B). assert (length l <> 1%nat); [| lia]. intros X. apply B. apply (proj1 O X). now apply Hl.
  Qed.

  Hypothesis Hlive : forall q c', on_board s q -> c_b g q = Stone c' -> alive s (c_b g) q.

  Lemma capture_loop_spec : forall l, (forall q, In q l -> In q ns) ->
    exists k, capture_loop g c l = Ok k /\ (k = true <-> exists q, In q l /\ c_b g q = Stone (opp c) /\ ~ alive s b' q).
  Proof.
    induction l as [|q l IH]; intros Hl; cbn [capture_loop]; [exists false; split; [auto | split; [discriminate | intros (q & [] & _)]] |].
    destruct IH as (k & IH1 & IH2); [intros; apply Hl; right; auto |]. destruct (cell_eqb (c_b g q) (Stone (opp c))) eqn:E.
    - apply cell_eqb_iff in E. destruct (enemy_one q (Hl q (or_introl eq_refl)) E) as (j & A & B). rewrite A. cbn [rbind]. destruct (j =? 1) eqn:EJ.
      + apply Z.eqb_eq in EJ. exists true. split; [auto |]. split; [| auto]. intros _. exists q. split; [left; auto |]. split; [auto |]. now apply B.
      + apply Z.eqb_neq in EJ. exists k. split; [auto |]. rewrite IH2. split; intros (r & C & D); exists r; [split; [right; auto | auto] |].
        destruct C as [<- | C]; [| auto]. destruct D as [_ D]. exfalso. apply EJ, B, D.
    - exists k. split; [auto |]. rewrite IH2. split; intros (r & C & D); exists r; [split; [right; auto | auto] |].
      destruct C as [<- | C]; [| auto]. destruct D as [D _]. apply cell_eqb_iff in D. congruence.
  Qed.
  (** a placement captures exactly when some enemy group loses its last liberty *)
  Lemma capture_spec : exists k, capture n g c p = Ok k /\ (k = true <-> some_dead s b' (opp c)).
  Proof.
    destruct (capture_loop_spec ns ltac:(auto)) as (k & A & B). exists k. split; [exact A |]. rewrite B. split.
    - intros (q & C & D & E). destruct (p_liberty q _ C D) as (H1 & H2 & _). exists q. split; [auto |]. split; [unfold b'; now rewrite placed_other | auto].
    - intros (q & C & D & E).
      assert (Hqp : q <> p) by (intros ->; unfold b' in D; rewrite placed_same in D; destruct c; discriminate).
      unfold b' in D. rewrite placed_other in D by auto.
      assert (HM : Mg n g c p q = false).
      { apply not_true_iff_false. intros H. apply Mg_color with (c' := opp c) in H; auto. destruct c; discriminate. }
      destruct (Hlive q _ C D) as (e & L).
      assert (e = p).
      { destruct (pos_dec e p) as [|Hep]; [auto |]. exfalso. apply E. exists e. apply other_liberty; auto. }
      subst e. destruct L as (_ & _ & r & C1 & C2). destruct (conn_color s (c_b g) (opp c) q r C1 (conj C D)) as [R1 R2].
      exists r. split; [apply neighbors_In; auto using adj_sym |]. split; [auto |]. intros (e & L'). apply E. exists e.
      destruct L' as (X & Y & z & Z1 & Z2). split; [auto |]. split; [auto |]. exists z. split; [| auto]. apply conn_trans with r; [| auto].
      now apply conn_placed.
  Qed.
  Lemma extra_loop_spec : forall l, (forall q, In q l -> In q ns) ->
    exists k, extra_loop g c l = Ok k /\ (k = true <-> exists q e, In q l /\ c_b g q = Stone c /\ liberty s (c_b g) q e /\ e <> p).
  Proof.
    induction l as [|q l IH]; intros Hl; cbn [extra_loop]; [exists false; split; [auto | split; [discriminate | intros (q & e & [] & _)]] |].
    destruct IH as (k & IH1 & IH2); [intros; apply Hl; right; auto |]. destruct (cell_eqb (c_b g q) (Stone c)) eqn:E.
    - apply cell_eqb_iff in E. destruct (friend_more q (Hl q (or_introl eq_refl)) E) as (j & A & B). rewrite A. cbn [rbind]. destruct (1 <? j) eqn:EJ.
      + apply Z.ltb_lt in EJ. exists true. split; [auto |]. split; [| auto]. intros _. apply B in EJ as (e & EJ). exists q, e. split; [left; auto | auto].
      + apply Z.ltb_ge in EJ. exists k. split; [auto |]. rewrite IH2. split; intros (r & e & C & D); exists r, e; [split; [right; auto | auto] |].
        destruct C as [<- | C]; [| auto]. destruct D as [_ D]. assert (1 < j) by (apply B; eauto). lia.
    - exists k. split; [auto |]. rewrite IH2. split; intros (r & e & C & D); exists r, e; [split; [right; auto | auto] |].
      destruct C as [<- | C]; [| auto]. destruct D as [D _]. apply cell_eqb_iff in D. congruence.
  Qed.
  (** the group of the new stone is alive exactly when it has an empty neighbour or a friend with another liberty *)
  Lemma alive_new : alive s b' p <->
    (exists q, In q ns /\ c_b g q = Empty) \/ exists q e, In q ns /\ c_b g q = Stone c /\ liberty s (c_b g) q e /\ e <> p.
  Proof.
    split.
    - intros (e & A & B & r & C & D). apply empty_placed in B as [B1 B2]. apply (Mg_conn n g c p I Hp He) in C. apply Mg_iff in C as [-> | (m & h & H1 & H2 & H3 & H4 & H5)]; [| | auto].
      + left. exists e. split; [apply neighbors_In; auto | auto].
      + right. exists m, e. split; [apply neighbors_In; auto |]. split; [auto |]. split; [| auto]. split; [auto |]. split; [auto |]. exists r.
        split; [| auto]. now apply (ci_conn n g I m r h H4).
    - intros [(q & A & B) | (q & e & A & B & C & D)].
      + apply neighbors_In in A as [A1 A2]; [| auto]. exists q. split; [auto |]. split; [apply empty_placed; split; [intros ->; now apply adj_irrefl in A2 | auto] |].
        exists p. split; [apply rt_refl | auto].
      + apply neighbors_In in A as [A1 A2]; [| auto]. destruct C as (C1 & C2 & r & C3 & C4). exists e. split; [auto |]. split; [apply empty_placed; auto |].
        exists r. split; [| auto]. apply conn_trans with q; [| now apply conn_placed]. apply rt_step. apply (mk_linked _ _ p q c); auto; [apply placed_same |].
        unfold b'. rewrite placed_other; [auto | congruence].
  Qed.
  Lemma suicide_spec : exists k, suicide n g c p = Ok k /\ (k = true <-> ~ alive s b' p /\ ~ some_dead s b' (opp c)).
  Proof.
    unfold suicide. fold ns. pose proof alive_new as AN. destruct (existsb (fun q => cell_eqb (c_b g q) Empty) ns) eqn:E.
    - exists false. split; [auto |]. split; [discriminate |]. intros [H _]. exfalso. apply H, AN. left. apply existsb_exists in E as (q & A & B). apply cell_eqb_iff in B. eauto.
    - assert (N : ~ exists q, In q ns /\ c_b g q = Empty).
      { intros (q & A & B). assert (X : existsb (fun q => cell_eqb (c_b g q) Empty) ns = true); [| congruence]. apply existsb_exists. exists q. split; [auto | now apply cell_eqb_iff]. }
      destruct (extra_loop_spec ns ltac:(auto)) as (k & A & B). rewrite A. cbn [rbind]. destruct k.
      + exists false. split; [auto |]. split; [discriminate |]. intros [H _]. exfalso. apply H, AN. right. now apply B.
      + destruct capture_spec as (j & C & D). rewrite C. cbn [rbind]. exists (negb j). split; [auto |]. rewrite negb_true_iff, <- not_true_iff_false, D.
        assert (~ alive s b' p); [| tauto]. rewrite AN. intros [H | H]; [contradiction |]. apply B in H. discriminate.
  Qed.
  (** if nothing dies, every group of the new board is alive *)
  Lemma live_after : (forall q c', on_board s q -> b' q = Stone c' -> alive s b' q \/ ~ alive s b' q) ->
    alive s b' p -> ~ some_dead s b' (opp c) -> forall q c', on_board s q -> b' q = Stone c' -> alive s b' q.
  Proof.
    intros Hdec Ha Hd q c' Hq Hc. destruct (Mg n g c p q) eqn:EM.
    - apply (Mg_conn n g c p I Hp He) in EM. destruct Ha as (e & A & B & r & C & D). exists e. split; [auto |]. split; [auto |]. exists r. split; [| auto].
      apply conn_trans with p; [now apply conn_sym | auto].
    - assert (Hqp : q <> p) by (intros ->; apply not_true_iff_false in EM; apply EM, Mg_iff; auto).
      pose proof Hc as Hc'. unfold b' in Hc'. rewrite placed_other in Hc' by auto.
      destruct (Hdec q c' Hq Hc) as [|N]; [auto |]. exfalso.
      assert (Eo : c' = opp c \/ c' = c) by (destruct c, c'; auto). destruct Eo as [-> | ->]; [apply Hd; exists q; auto |].
      destruct (Hlive q c Hq Hc') as (e & L). destruct (pos_dec e p) as [-> |Hep]; [| apply N; exists e; apply other_liberty; auto].
      destruct L as (_ & _ & r & C1 & C2). destruct (conn_color s (c_b g) c q r C1 (conj Hq Hc')) as [R1 R2].
      apply not_true_iff_false in EM. apply EM, Mg_iff; [auto |]. right. destruct (ci_dom n g I q c Hq Hc') as (h & Hh). exists r, h.
      split; [auto |]. split; [now apply adj_sym |]. split; [auto |]. split; [now apply (ci_conn n g I q r h Hh) | auto].
  Qed.
End Rules.
