(** Proofs about the particle swarm: what a step does, what a particle remembers. *)
From Verif Require Import Base RingOps Pso_Model Pso_Spec Pso_Proofs.

Lemma preferred_better {F} (ltb : F -> F -> bool) mi a b : preferred ltb mi a b <-> better ltb mi a b = true.
Proof.
  unfold preferred, better. destruct mi; split.
  - intros [[_ H]|[H _]]; [auto|discriminate]. - auto.
  - intros [[H _]|[_ H]]; [discriminate|auto]. - auto.
Qed.
Section Order.
Context {F : Type} (ltb : F -> F -> bool) (mi : bool) (SW : strict_weak ltb).
Notation bt := (better ltb mi).
Lemma bt_irr a : bt a a = false.
Proof. destruct SW as (H & _). unfold better. destruct mi; auto. Qed.
Lemma bt_trans a b c : bt a b = true -> bt b c = true -> bt a c = true.
Proof. destruct SW as (_ & H & _). unfold better. destruct mi; eauto. Qed.
Lemma bt_neg a b c : bt a b = false -> bt b c = false -> bt a c = false.
Proof. destruct SW as (_ & _ & H). unfold better. destruct mi; eauto. Qed.
(** extending the prefix by one value *)
Lemma first_best_keep v n k b a : first_best ltb mi v n k -> v k = Some b -> v n = Some a -> bt a b = false -> first_best ltb mi v (S n) k.
Proof.
  intros (Hk & b' & Hb & H1 & H2) Eb Ea Hab. rewrite Eb in Hb. injection Hb as <-. split; [lia|]. exists b. split; [auto|split; [|auto]].
  intros j Hj. destruct (Nat.eq_dec j n) as [->|]; [|apply H1; lia]. exists a. split; auto. rewrite preferred_better. congruence.
Qed.
Lemma first_best_new v n k b a : first_best ltb mi v n k -> v k = Some b -> v n = Some a -> bt a b = true -> first_best ltb mi v (S n) n.
Proof.
  intros (Hk & b' & Hb & H1 & H2) Eb Ea Hab. rewrite Eb in Hb. injection Hb as <-. split; [lia|]. exists a. split; [auto|].
  assert (Hall : forall j, j < n -> exists c, v j = Some c /\ bt a c = true).
  { intros j Hj. destruct (H1 j Hj) as (c & Hc & Hn). exists c. split; auto. rewrite preferred_better in Hn.
    destruct (bt a c) eqn:E; auto. exfalso. assert (bt c b = false) by (destruct (bt c b); congruence).
    rewrite (bt_neg a c b) in Hab; [discriminate|auto|auto]. }
  split; intros j Hj.
  - destruct (Nat.eq_dec j n) as [->|].
    + exists a. split; auto. rewrite preferred_better, bt_irr. discriminate.
    + destruct (Hall j ltac:(lia)) as (c & Hc & Hac). exists c. split; auto. rewrite preferred_better. intro Hca.
      pose proof (bt_trans a c a Hac Hca) as X. rewrite bt_irr in X. discriminate.
  - destruct (Hall j Hj) as (c & Hc & Hac). exists c. split; auto. apply preferred_better; auto.
Qed.
Lemma first_best_one v a : v 0 = Some a -> first_best ltb mi v 1 0.
Proof.
  intro H. split; [lia|]. exists a. split; [auto|]. split; intros j Hj; [|lia]. replace j with 0 by lia. exists a. split; auto.
  rewrite preferred_better, bt_irr. discriminate.
Qed.
Lemma first_best_ext v w n k : (forall j, j < n -> v j = w j) -> first_best ltb mi v n k -> first_best ltb mi w n k.
Proof.
  intros E (Hk & b & Hb & H1 & H2). split; auto. exists b. rewrite <- E by auto. split; auto. split; intros j Hj; rewrite <- E by lia; auto.
Qed.
End Order.

Section P.
Context {K : Type} {Ops : RingOps K} {Laws : RingLaws K}.
Add Ring KR2 : (Laws : ring_theory r0 r1 radd rmul rsub ropp eq).
Context {F : Type} (ltb : F -> F -> bool) (mi : bool).
Local Open Scope r_scope.
Notation vec := (list K).
Notation part := (particle K F).

Definition nb_fit (ps : list part) (l : list nat) (j : nat) : option F := match nth_error l j with Some n => fit_of ps n | None => None end.
Lemma best_first ps l b : strict_weak ltb -> best ltb mi ps l = Ok b -> (forall n, In n l -> fit_of ps n <> None) ->
  exists k, nth_error l k = Some b /\ first_best ltb mi (nb_fit ps l) (length l) k.
Proof.
  intros SW. destruct l as [|i r]; [discriminate|]. cbn [best]. intro H. injection H as <-.
  induction r as [|j r IH] using rev_ind; intro Hall.
  - exists 0%nat. split; auto. destruct (fit_of ps i) as [a|] eqn:E; [|exfalso; apply (Hall i); cbn; auto].
    cbn [length]. eapply first_best_one; [auto|]. unfold nb_fit. cbn. exact E.
  - rewrite fold_left_app. cbn [fold_left]. set (c := fold_left (prefer ltb mi ps) r i) in *.
    destruct IH as (k & Hk & Hf). { intros n Hn. apply Hall. destruct Hn; [left; auto|right; apply in_or_app; auto]. }
    assert (Hlen : length (i :: r ++ [j]) = S (length (i :: r))) by (cbn; rewrite app_length; cbn; lia).
    assert (Hkl : (k < length (i :: r))%nat) by (apply Hf).
    assert (Ek : nth_error (i :: r ++ [j]) k = Some c). { change (i :: r ++ [j]) with ((i :: r) ++ [j]). rewrite nth_error_app1; auto. }
    assert (Ej : nth_error (i :: r ++ [j]) (length (i :: r)) = Some j).
    { change (i :: r ++ [j]) with ((i :: r) ++ [j]). rewrite nth_error_app2, Nat.sub_diag; auto. }
    assert (Hf' : first_best ltb mi (nb_fit ps (i :: r ++ [j])) (length (i :: r)) k).
    { eapply first_best_ext; [|exact Hf]. intros n Hn. unfold nb_fit. change (i :: r ++ [j]) with ((i :: r) ++ [j]). rewrite nth_error_app1; auto. }
    destruct (fit_of ps j) as [a|] eqn:Ea; [|exfalso; apply (Hall j); [right; apply in_or_app; cbn; auto|auto]].
    destruct Hf as (_ & b & Hb & _). unfold nb_fit in Hb. rewrite Hk in Hb.
    unfold prefer. rewrite Ea, Hb. rewrite Hlen. destruct (better ltb mi a b) eqn:Eab.
    + exists (length (i :: r)). split; [exact Ej|]. eapply first_best_new; eauto.
      * unfold nb_fit. rewrite Ek. exact Hb. * unfold nb_fit. rewrite Ej. exact Ea.
    + exists k. split; [exact Ek|]. eapply first_best_keep; eauto.
      * unfold nb_fit. rewrite Ek. exact Hb. * unfold nb_fit. rewrite Ej. exact Ea.
Qed.

Context (me so ine : K) (nb : nat -> list nat).
Notation turn := (turn ltb me so ine mi nb).
Notation turns := (turns ltb me so ine mi nb).
(** the parts of a particle a turn leaves alone *)
Definition kept (p : part) := (fitness p, bestFitness p, bestPosition p).
Lemma turn_frame i d ps ps' : turn i d ps = Ok ps' ->
  (forall n, n <> i -> nth_error ps' n = nth_error ps n) /\ (forall n, option_map kept (nth_error ps' n) = option_map kept (nth_error ps n)).
Proof.
  unfold Pso_Model.turn. destruct (nth_error ps i) as [p|] eqn:Ei; [|intro H; injection H as <-; auto].
  destruct (best ltb mi ps (nb i)) as [b|e]; cbn [rbind]; [|discriminate].
  destruct (nth_error ps b) as [q|]; [|discriminate]. intro H. injection H as <-.
  assert (Hi : (i < length ps)%nat) by (apply nth_error_Some; congruence).
  split; intros n.
  - intro Hn. apply nth_error_upd_neq. auto.
  - destruct (Nat.eq_dec n i) as [->|Hn].
    + rewrite nth_error_upd_eq by auto. rewrite Ei. reflexivity.
    + rewrite nth_error_upd_neq by auto. reflexivity.
Qed.
Lemma kept_fit ps ps' : (forall n, option_map kept (nth_error ps' n) = option_map kept (nth_error ps n)) -> forall n, fit_of ps' n = fit_of ps n.
Proof.
  intros H n. specialize (H n). unfold fit_of. destruct (nth_error ps' n), (nth_error ps n); cbn in H; try discriminate; auto.
  unfold kept in H. congruence.
Qed.
Lemma turns_frame ds : forall i ps ps', turns i ds ps = Ok ps' ->
  (forall n, (n < i)%nat -> nth_error ps' n = nth_error ps n) /\ (forall n, option_map kept (nth_error ps' n) = option_map kept (nth_error ps n)).
Proof.
  induction ds as [|d ds IH]; intros i ps ps'; cbn [Pso_Model.turns].
  - intro H. injection H as <-. auto.
  - destruct (turn i d ps) as [ps1|e] eqn:Et; cbn [rbind]; [|discriminate]. intro H.
    destruct (IH _ _ _ H) as [H1 H2]. destruct (turn_frame _ _ _ _ Et) as [H3 H4]. split; intros n.
    + intro Hn. rewrite H1 by lia. apply H3. lia.
    + rewrite H2. apply H4.
Qed.
Lemma turns_at ds : forall i ps ps' j d, turns i ds ps = Ok ps' -> (i <= j)%nat -> nth_error ds (j - i) = Some d ->
  exists mid mid', turn j d mid = Ok mid' /\ (forall n, (n < j)%nat -> nth_error mid n = nth_error ps' n) /\
    (forall n, (j <= n)%nat -> nth_error mid n = nth_error ps n) /\ nth_error mid' j = nth_error ps' j /\
    (forall n, fit_of mid n = fit_of ps n).
Proof.
  induction ds as [|d0 ds IH]; intros i ps ps' j d H Hij Hd; [destruct (j - i)%nat; discriminate|]. cbn [Pso_Model.turns] in H.
  destruct (turn i d0 ps) as [ps1|e] eqn:Et; cbn [rbind] in H; [|discriminate].
  destruct (Nat.eq_dec i j) as [->|Hne].
  - rewrite Nat.sub_diag in Hd. cbn in Hd. injection Hd as <-. destruct (turns_frame _ _ _ _ H) as [H1 _].
    destruct (turn_frame _ _ _ _ Et) as [H3 _].
    exists ps, ps1. split; [auto|]. split; [|split; [|split]]; auto; [|symmetry; apply H1; lia].
    intros n Hn. rewrite H1 by lia. symmetry. apply H3. lia.
  - destruct (j - i)%nat as [|x] eqn:Ex; [lia|]. cbn in Hd.
    destruct (IH _ _ _ j d H ltac:(lia)) as (mid & mid' & A & B & C & D & E). { replace (j - S i)%nat with x by lia. exact Hd. }
    destruct (turn_frame _ _ _ _ Et) as [H3 H4]. exists mid, mid'. split; [auto|]. split; [auto|]. split; [|split; auto].
    + intros n Hn. rewrite C by auto. apply H3. lia.
    + intro n. rewrite E. apply kept_fit; auto.
Qed.

Context (f : vec -> F).
Notation evaluate := (map (fun p : part => setFitness ltb mi (f (position p)) p)).
Notation learnStep := (learnStep ltb me so ine mi nb f).
Notation steps := (steps ltb me so ine mi nb f).
Lemma set_position v (p : part) : position (setFitness ltb mi v p) = position p.
Proof. unfold setFitness. destruct (bestFitness p) as [b|]; [destruct (better ltb mi v b)|]; reflexivity. Qed.
Lemma set_velocity v (p : part) : velocity (setFitness ltb mi v p) = velocity p.
Proof. unfold setFitness. destruct (bestFitness p) as [b|]; [destruct (better ltb mi v b)|]; reflexivity. Qed.
Lemma set_fitness v (p : part) : fitness (setFitness ltb mi v p) = Some v.
Proof. unfold setFitness. destruct (bestFitness p) as [b|]; [destruct (better ltb mi v b)|]; reflexivity. Qed.
Lemma eval_nth (ps : list part) n : nth_error (evaluate ps) n = option_map (fun p => setFitness ltb mi (f (position p)) p) (nth_error ps n).
Proof. apply nth_error_map. Qed.
Lemma eval_fit (ps : list part) n : fit_of (evaluate ps) n = option_map (fun p => f (position p)) (nth_error ps n).
Proof. unfold fit_of. rewrite eval_nth. destruct (nth_error ps n); cbn; auto. apply set_fitness. Qed.

Lemma steps_app dss e ps : steps (dss ++ e) ps = rbind (steps dss ps) (steps e).
Proof.
  revert ps. induction dss as [|d dss IH]; intro ps; cbn [app Pso_Model.steps]; auto.
  destruct (learnStep d ps); cbn [rbind]; auto.
Qed.
Lemma steps_snoc dss d ps : steps (dss ++ [d]) ps = rbind (steps dss ps) (learnStep d).
Proof. rewrite steps_app. destruct (steps dss ps) as [ps'|]; cbn; auto. destruct (learnStep d ps'); auto. Qed.

(** where particle i is after k of the steps *)
Definition visited (starts : list vec) (dss : list (list (K * K))) (i k : nat) : option vec :=
  match steps (firstn k dss) (swarm starts) with Ok ps => option_map position (nth_error ps i) | Err _ => None end.
Lemma memory_inv starts i : strict_weak ltb -> forall dss ps p, steps dss (swarm starts) = Ok ps -> nth_error ps i = Some p ->
  (dss = [] /\ bestFitness p = None) \/
  exists k x, visited starts dss i k = Some x /\ bestPosition p = x /\ bestFitness p = Some (f x) /\
    first_best ltb mi (fun j => option_map f (visited starts dss i j)) (length dss) k.
Proof.
  intros SW dss. induction dss as [|d dss IH] using rev_ind; intros ps p H Hp.
  - left. split; auto. cbn in H. injection H as <-. unfold swarm in Hp. rewrite nth_error_map in Hp.
    destruct (nth_error starts i); cbn in Hp; [|discriminate]. injection Hp as <-. reflexivity.
  - right. rewrite steps_snoc in H. destruct (steps dss (swarm starts)) as [ps0|e] eqn:E0; cbn [rbind] in H; [|discriminate].
    unfold Pso_Model.learnStep in H. destruct (turns_frame _ _ _ _ H) as [_ Hk]. specialize (Hk i). rewrite Hp in Hk.
    rewrite eval_nth in Hk. destruct (nth_error ps0 i) as [p0|] eqn:Ep0; cbn in Hk; [|discriminate]. unfold kept in Hk. injection Hk as _ Hbf Hbp.
    assert (Hold : forall j, (j <= length dss)%nat -> visited starts (dss ++ [d]) i j = visited starts dss i j).
    { intros j Hj. unfold visited. rewrite firstn_app. replace (j - length dss)%nat with 0%nat by lia. cbn [firstn]. rewrite app_nil_r. reflexivity. }
    assert (Hnow : visited starts (dss ++ [d]) i (length dss) = Some (position p0)).
    { rewrite Hold by lia. unfold visited. rewrite firstn_all, E0, Ep0. reflexivity. }
    rewrite app_length. cbn [length]. replace (length dss + 1)%nat with (S (length dss)) by lia.
    rewrite Hbf, Hbp. unfold setFitness.
    destruct (IH ps0 p0 eq_refl Ep0) as [[-> Hn]|(k & x & Hx & E1 & E2 & Hf)].
    + rewrite Hn. exists 0%nat, (position p0). cbn [bestPosition bestFitness length] in *. split; [exact Hnow|]. split; [auto|]. split; [auto|].
      apply first_best_one with (a := f (position p0)); [auto|]. cbv beta. rewrite Hnow. reflexivity.
    + rewrite E2. assert (Hkl : (k < length dss)%nat) by apply Hf.
      assert (Hx' : visited starts (dss ++ [d]) i k = Some x) by (rewrite Hold by lia; auto).
      assert (Hf' : first_best ltb mi (fun j => option_map f (visited starts (dss ++ [d]) i j)) (length dss) k).
      { eapply first_best_ext; [|exact Hf]. intros j Hj. cbn. rewrite Hold by lia. reflexivity. }
      destruct (better ltb mi (f (position p0)) (f x)) eqn:Eb; cbn [bestPosition bestFitness].
      * exists (length dss), (position p0). split; [auto|]. split; [auto|]. split; [auto|].
        eapply first_best_new with (k := k) (b := f x) (a := f (position p0)); auto; cbn; rewrite ?Hx', ?Hnow; auto.
      * exists k, x. split; [auto|]. split; [auto|]. split; [auto|].
        eapply first_best_keep with (b := f x) (a := f (position p0)); auto; cbn; rewrite ?Hx', ?Hnow; auto.
Qed.

(** sizes *)
Definition sized (m : nat) (p : part) : Prop := length (position p) = m /\ length (velocity p) = m /\ length (bestPosition p) = m.
Lemma sized_set m v p : sized m p -> sized m (setFitness ltb mi v p).
Proof. intros (H1 & H2 & H3). unfold setFitness. destruct (bestFitness p) as [b|]; [destruct (better ltb mi v b)|]; split; cbn; auto. Qed.
Lemma turn_sized m i d ps ps' : turn i d ps = Ok ps' -> Forall (sized m) ps -> Forall (sized m) ps'.
Proof.
  intros H Hs. unfold Pso_Model.turn in H. destruct (nth_error ps i) as [p|] eqn:Ei; [|injection H as <-; auto].
  destruct (best ltb mi ps (nb i)) as [b|e]; cbn [rbind] in H; [|discriminate].
  destruct (nth_error ps b) as [q|] eqn:Eb; [|discriminate]. injection H as <-.
  rewrite Forall_forall in Hs. destruct (Hs p) as (P1 & P2 & P3). { eapply nth_error_In; eauto. }
  destruct (Hs q) as (Q1 & Q2 & Q3). { eapply nth_error_In; eauto. }
  rewrite <- Forall_forall in Hs. clear Eb.
  match goal with |- Forall _ (upd _ ?x _) => assert (Hn : sized m x) end.
  { cbn. split; [|split]; cbn; auto; repeat (apply vzip_length || rewrite ?vscale_length, ?map_length); auto. }
  clear -Hs Hn. revert i. induction Hs; intros [|i]; cbn; auto.
Qed.
Lemma turns_sized m ds : forall i ps ps', turns i ds ps = Ok ps' -> Forall (sized m) ps -> Forall (sized m) ps'.
Proof.
  induction ds as [|d ds IH]; intros i ps ps'; cbn [Pso_Model.turns]; intros H Hs; [injection H as <-; auto|].
  destruct (turn i d ps) as [ps1|] eqn:E; cbn [rbind] in H; [|discriminate]. eapply IH; eauto. eapply turn_sized; eauto.
Qed.
Lemma learn_sized m ds ps ps' : learnStep ds ps = Ok ps' -> Forall (sized m) ps -> Forall (sized m) ps'.
Proof.
  intros H Hs. eapply turns_sized; [exact H|]. clear -Hs. induction Hs; cbn [map]; constructor; auto using sized_set.
Qed.
Lemma steps_sized m dss : forall ps ps', steps dss ps = Ok ps' -> Forall (sized m) ps -> Forall (sized m) ps'.
Proof.
  induction dss as [|d dss IH]; intros ps ps'; cbn [Pso_Model.steps]; intros H Hs; [injection H as <-; auto|].
  destruct (learnStep d ps) as [ps1|] eqn:E; cbn [rbind] in H; [|discriminate]. eapply IH; eauto. eapply learn_sized; eauto.
Qed.
Lemma swarm_sized m starts : Forall (fun x => length x = m) starts -> Forall (sized m) (swarm (F := F) starts).
Proof. induction 1; cbn; constructor; auto. split; [|split]; cbn; rewrite ?map_length; auto. Qed.

(** no step fails when everybody has neighbours in the swarm *)
Definition connected (n : nat) : Prop := forall i, (i < n)%nat -> nb i <> [] /\ forall j, In j (nb i) -> (j < n)%nat.
Lemma fold_prefer_in (ps : list part) l : forall i, In (fold_left (prefer ltb mi ps) l i) (i :: l).
Proof.
  induction l as [|j l IH]; intro i; cbn [fold_left]; [left; auto|].
  destruct (IH (prefer ltb mi ps i j)) as [H|H].
  - rewrite <- H. unfold prefer. destruct (fit_of ps j) as [u|], (fit_of ps i) as [w|]; try (left; auto; fail). destruct (better ltb mi u w); cbn; auto.
  - right. right. auto.
Qed.
Lemma best_in (ps : list part) l b : best ltb mi ps l = Ok b -> In b l.
Proof. destruct l; cbn; [discriminate|]. intro H. injection H as <-. apply fold_prefer_in. Qed.
Lemma turn_ok n i d ps : connected n -> length ps = n -> exists ps', turn i d ps = Ok ps' /\ length ps' = n.
Proof.
  intros Hc Hl. unfold Pso_Model.turn. destruct (nth_error ps i) as [p|] eqn:Ei; [|eauto].
  assert (Hi : (i < n)%nat) by (rewrite <- Hl; apply nth_error_Some; congruence). destruct (Hc i Hi) as [H1 H2].
  destruct (best ltb mi ps (nb i)) as [b|e] eqn:Eb; cbn [rbind].
  - pose proof (H2 b (best_in _ _ _ Eb)) as Hb. destruct (nth_error ps b) eqn:E; [|apply nth_error_None in E; lia].
    eexists. split; [reflexivity|]. rewrite upd_length. auto.
  - destruct (nb i); [congruence|discriminate].
Qed.
Lemma turns_ok n ds : forall i ps, connected n -> length ps = n -> exists ps', turns i ds ps = Ok ps' /\ length ps' = n.
Proof.
  induction ds as [|d ds IH]; intros i ps Hc Hl; cbn [Pso_Model.turns]; eauto.
  destruct (turn_ok n i d ps Hc Hl) as (ps1 & -> & Hl1). cbn [rbind]. apply IH; auto.
Qed.
Lemma steps_ok n dss : forall ps, connected n -> length ps = n -> exists ps', steps dss ps = Ok ps' /\ length ps' = n.
Proof.
  induction dss as [|d dss IH]; intros ps Hc Hl; cbn [Pso_Model.steps]; eauto.
  unfold Pso_Model.learnStep. destruct (turns_ok n d 0 (evaluate ps) Hc) as (ps1 & -> & Hl1); [rewrite map_length; auto|]. cbn [rbind]. apply IH; auto.
Qed.

(** one step, particle by particle *)
Lemma step_law m draws ps ps' i d p p' : strict_weak ltb -> connected (length ps) -> Forall (sized m) ps ->
  learnStep draws ps = Ok ps' -> nth_error draws i = Some d -> nth_error ps i = Some p -> nth_error ps' i = Some p' ->
  exists k b q q', nth_error (nb i) k = Some b /\ nth_error ps b = Some q /\ nth_error ps' b = Some q' /\
    first_best ltb mi (fun j => match nth_error (nb i) j with Some n => option_map (fun r => f (position r)) (nth_error ps n) | None => None end) (length (nb i)) k /\
    let target := position (if (b <? i)%nat then q' else q) in
    (forall c, nth c (velocity p') 0 = ine * nth c (velocity p) 0 + me * snd d * (nth c (bestPosition p') 0 - nth c (position p) 0)
        + so * fst d * (nth c target 0 - nth c (position p) 0)) /\
    position p' = plus (position p) (velocity p').
Proof.
  intros SW Hc Hs H Hd Hp Hp'. pose proof (learn_sized _ _ _ _ H Hs) as Hs'.
  unfold Pso_Model.learnStep in H. destruct (turns_at _ _ _ _ i d H ltac:(lia)) as (mid & mid' & A & B & C & D & E).
  { rewrite Nat.sub_0_r. exact Hd. }
  destruct (turns_frame _ _ _ _ H) as [_ Hk].
  unfold Pso_Model.turn in A. assert (Emid : nth_error mid i = Some (setFitness ltb mi (f (position p)) p)).
  { rewrite C by lia. rewrite eval_nth, Hp. reflexivity. }
  rewrite Emid in A. destruct (best ltb mi mid (nb i)) as [b|e] eqn:Eb; cbn [rbind] in A; [|discriminate].
  destruct (nth_error mid b) as [q|] eqn:Eq; [|discriminate]. injection A as <-.
  assert (Hi : (i < length mid)%nat) by (apply nth_error_Some; congruence).
  rewrite nth_error_upd_eq in D by auto. rewrite Hp' in D. injection D as D.
  assert (Hil : (i < length ps)%nat) by (apply nth_error_Some; congruence). destruct (Hc i Hil) as [_ Hin].
  destruct (best_first mid (nb i) b SW Eb) as (k & Hkb & Hf).
  { intros n Hn. rewrite E, eval_fit. pose proof (Hin n Hn) as Hlt. apply nth_error_Some in Hlt. destruct (nth_error ps n); cbn; congruence. }
  pose proof (Hin b (nth_error_In _ _ Hkb)) as Hbl.
  destruct (nth_error ps b) as [q0|] eqn:Eq0; [|apply nth_error_None in Eq0; lia].
  pose proof (Hk b) as Hkb'. rewrite eval_nth, Eq0 in Hkb'. destruct (nth_error ps' b) as [q1|] eqn:Eq1; [|discriminate].
  exists k, b, q0, q1. split; [auto|]. split; [auto|]. split; [auto|]. split.
  { eapply first_best_ext; [|exact Hf]. intros j Hj. unfold nb_fit. destruct (nth_error (nb i) j); auto. rewrite E. apply eval_fit. }
  assert (Etarget : position (if (b <? i)%nat then q1 else q0) = position q).
  { destruct (b <? i)%nat eqn:Ebi.
    - apply Nat.ltb_lt in Ebi. rewrite B in Eq by auto. congruence.
    - apply Nat.ltb_ge in Ebi. rewrite C, eval_nth, Eq0 in Eq by auto. cbn in Eq. injection Eq as <-. rewrite set_position. reflexivity. }
  cbv zeta. rewrite Etarget.
  rewrite Forall_forall in Hs, Hs'.
  destruct (Hs p (nth_error_In _ _ Hp)) as (P1 & P2 & P3). destruct (Hs q0 (nth_error_In _ _ Eq0)) as (Q1 & Q2 & Q3).
  destruct (Hs' q1 (nth_error_In _ _ Eq1)) as (R1 & _ & _). destruct (Hs' p' (nth_error_In _ _ Hp')) as (S1 & S2 & S3).
  assert (Hq : length (position q) = m) by (rewrite <- Etarget; destruct (b <? i)%nat; auto).
  subst p'. cbn [position velocity bestPosition] in *. rewrite set_position, set_velocity in *. cbn [move position velocity bestPosition] in *.
  split; [|apply vzip_plus].
  intro c. rewrite !vzip_plus, !vzip_sub, mapr_l. unfold vscale.
  set (bp := bestPosition _) in *.
  rewrite !nth_plus, !nth_scale, !nth_plus, !nth_scale; try (repeat (rewrite ?map_length || rewrite plus_length with (m := m)); auto; rewrite ?map_length; lia).
  ring.
Qed.
End P.
