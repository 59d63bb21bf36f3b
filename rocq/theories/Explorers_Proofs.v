(** Proofs for C77: action values, and the runs of exploring agents. *)
From Coq Require Import Reals Lra Lia.
From Verif Require Import Base Functions_Model Functions_Proofs LinearFA_Model LinearFA_Proofs Players_Model Players_Spec Players_Proofs Players_Proofs3 Players_Proofs4 Explorers_Model Explorers_Spec.
Local Open Scope R_scope.

Lemma nth_map_seq {A} (f : nat -> A) d n k : (k < n)%nat -> nth k (map f (seq 0 n)) d = f k.
Proof.
  intros H. rewrite nth_indep with (d' := f 0%nat) by (rewrite map_length, seq_length; exact H). rewrite map_nth, seq_nth by exact H. reflexivity.
Qed.
Lemma hot_eq n a : (a < n)%nat -> one_to_n a n = Ok (hot n a).
Proof.
  intros H. unfold one_to_n. replace (a <? n)%nat with true by (symmetry; apply Nat.ltb_lt; exact H). f_equal. unfold hot.
  apply nth_ext with (d := 0) (d' := 0); [rewrite upd_length, repeat_length, map_length, seq_length; reflexivity |].
  intros k Hk. rewrite upd_length, repeat_length in Hk.
  rewrite nth_map_seq by exact Hk. destruct (k =? a)%nat eqn:E.
  - apply Nat.eqb_eq in E. subst k. apply nth_upd_same. rewrite repeat_length. exact H.
  - apply Nat.eqb_neq in E. rewrite nth_upd_other by auto. apply nth_repeat.
Qed.
Lemma hot_bad n a : (n <= a)%nat -> one_to_n a n = Err IndexError.
Proof. intros H. unfold one_to_n. replace (a <? n)%nat with false by (symmetry; apply Nat.ltb_ge; exact H). reflexivity. Qed.
Lemma mapM_ok {A B} (f : A -> result B) (g : A -> B) l : (forall x, In x l -> f x = Ok (g x)) -> mapM f l = Ok (map g l).
Proof.
  induction l as [|x l IH]; intros H; [reflexivity |]. cbn [mapM map]. rewrite (H x (or_introl eq_refl)). cbn [rbind].
  rewrite IH by (intros y Hy; apply H; right; exact Hy). reflexivity.
Qed.
Lemma nth_firstn_lt {A} (d : A) : forall l c k, (k < c)%nat -> nth k (firstn c l) d = nth k l d.
Proof. induction l as [|x l IH]; intros [|c] [|k] H; cbn; try reflexivity; try lia. apply IH. lia. Qed.
Lemma nth_skipn_add {A} (d : A) : forall r l k, nth k (skipn r l) d = nth (r + k) l d.
Proof. induction r as [|r IH]; intros [|x l] k; cbn; try reflexivity; [destruct k; reflexivity | apply IH]. Qed.

Section Values.
Context {St : Type} (rowOf : St -> nat) (inputOf : St -> vec) (net : vec -> vec -> R).
Notation worth := (worth rowOf inputOf net).
Notation values := (getActionValues rowOf inputOf net).
Lemma netValue_ok n p s a : (a < n)%nat -> netValue inputOf net n p s a = Ok (netWorth inputOf net n p s a).
Proof. intros H. unfold netValue. rewrite hot_eq by exact H. reflexivity. Qed.
Lemma netValues n p s : values (NetM n p) s = Ok (map (netWorth inputOf net n p s) (seq 0 n)).
Proof. unfold getActionValues. apply mapM_ok. intros a Ha. apply in_seq in Ha. apply netValue_ok. lia. Qed.
Lemma values_worth m s : fit_for rowOf m s -> values m s = Ok (map (worth m s) (seq 0 (numActions m))) /\ (0 < numActions m)%nat.
Proof.
  destruct m as [rows cols p | n p]; cbn [fit_for numActions].
  - intros (H1 & H2 & H3). split; [| exact H3]. unfold getActionValues. replace (rowOf s <? rows)%nat with true by (symmetry; apply Nat.ltb_lt; exact H1). f_equal.
    assert (L : (rowOf s * cols + cols <= length p)%nat) by (rewrite H2; nia).
    assert (F : length (firstn cols (skipn (rowOf s * cols) p)) = cols) by (rewrite firstn_length, skipn_length; lia).
    apply nth_ext with (d := 0) (d' := 0); [rewrite map_length, seq_length; exact F |]. intros k Hk. rewrite F in Hk. rewrite nth_map_seq by exact Hk. cbn [Explorers_Spec.worth].
    rewrite nth_firstn_lt by exact Hk. apply nth_skipn_add.
  - intros H. split; [apply netValues | exact H].
Qed.
Lemma values_length m s : length (map (worth m s) (seq 0 (numActions m))) = numActions m.
Proof. rewrite map_length, seq_length. reflexivity. Qed.
Lemma vmax_best m s a : (0 < numActions m)%nat -> let v := map (worth m s) (seq 0 (numActions m)) in
  (In a (where_eq (vmax v) 0 v) <-> best rowOf inputOf net m s a).
Proof.
  intros P v. assert (Lv : length v = numActions m) by apply values_length.
  assert (NE : v <> []) by (intros E; rewrite E in Lv; cbn in Lv; lia). destruct (vmax_spec v NE) as [I M]. rewrite where_eq_spec. unfold best. split.
  - intros (j & Hj & -> & E). cbn [Nat.add]. rewrite Lv in Hj. split; [exact Hj |]. intros b Hb. unfold v in E. rewrite nth_map_seq in E by exact Hj. rewrite E. apply M.
    unfold v. apply in_map, in_seq. lia.
  - intros [H1 H2]. exists a. rewrite Lv. split; [exact H1 |]. split; [reflexivity |]. unfold v at 1. rewrite nth_map_seq by exact H1. apply Rle_antisym.
    + apply M. unfold v. apply in_map, in_seq. lia.
    + unfold v in I. apply in_map_iff in I as (b & Eb & Hb). apply in_seq in Hb. unfold v. rewrite <- Eb. apply H2. lia.
Qed.
Lemma where_nonempty m s : (0 < numActions m)%nat -> let v := map (worth m s) (seq 0 (numActions m)) in where_eq (vmax v) 0 v <> [].
Proof.
  intros P v E. assert (Lv : length v = numActions m) by apply values_length.
  assert (NE : v <> []) by (intros Q; rewrite Q in Lv; cbn in Lv; lia). destruct (vmax_spec v NE) as [I _].
  apply In_nth with (d := 0) in I as (j & Hj & Ej). assert (K : In j (where_eq (vmax v) 0 v)) by (apply where_eq_spec; exists j; auto). rewrite E in K. exact K.
Qed.
Lemma max_table rows cols p s : fit_for rowOf (TableM rows cols p) s ->
  equal_chances (best rowOf inputOf net (TableM rows cols p) s) (getMaxAction rowOf inputOf net (TableM rows cols p) s).
Proof.
  intros F. destruct (values_worth _ _ F) as [E P]. set (m := TableM rows cols p) in *. set (v := map (worth m s) (seq 0 (numActions m))) in *.
  apply equal_ext with (d := choice (where_eq (vmax v) 0 v)).
  - intros i. unfold getMaxAction. rewrite E. cbn [rbind]. unfold m. destruct v as [|x l] eqn:Ev; [| reflexivity].
    exfalso. assert (L : length v = numActions m) by apply values_length. rewrite Ev in L. cbn [length] in L. lia.
  - apply choice_equal; [apply where_eq_NoDup | apply where_nonempty; exact P | intros a; apply vmax_best; exact P].
Qed.
Lemma where_eq_sorted mx l : forall i k t, where_eq mx i l = k :: t -> (i <= k)%nat /\ forall j, (i + j < k)%nat -> (j < length l)%nat -> nth j l 0 <> mx.
Proof.
  induction l as [|x l IH]; intros i k t H; cbn [where_eq] in H; [discriminate |]. destruct (Req_EM_T x mx) as [E | N].
  - injection H as <- _. split; [lia |]. intros j Hj. lia.
  - apply IH in H as [H1 H2]. split; [lia |]. intros [|j] Hj Hl; [exact N |]. cbn [nth]. apply H2; [lia | cbn in Hl; lia].
Qed.
Lemma max_net n p s i : (0 < n)%nat -> exists a, getMaxAction rowOf inputOf net (NetM n p) s i = Ok a /\ best rowOf inputOf net (NetM n p) s a /\
  forall b, (b < a)%nat -> netWorth inputOf net n p s b < netWorth inputOf net n p s a.
Proof.
  intros P. unfold getMaxAction. rewrite netValues. cbn [rbind]. unfold argmax. pose proof (where_nonempty (NetM n p) s P) as NE. pose proof (fun a => vmax_best (NetM n p) s a P) as B.
  cbn [numActions] in NE, B. cbv zeta in NE, B. change (worth (NetM n p) s) with (netWorth inputOf net n p s) in NE, B.
  set (v := map (netWorth inputOf net n p s) (seq 0 n)) in *. destruct (where_eq (vmax v) 0 v) as [|a t] eqn:E; [contradiction |]. exists a. split; [reflexivity |].
  assert (Ba : best rowOf inputOf net (NetM n p) s a) by (apply B; left; reflexivity). split; [exact Ba |]. intros b Hb.
  destruct Ba as [Ha Hm]. cbn [numActions] in Ha, Hm. destruct (where_eq_sorted _ _ _ _ _ E) as [_ W]. specialize (W b Hb). assert (Lv : length v = n) by (unfold v; rewrite map_length, seq_length; reflexivity). rewrite Lv in W.
  specialize (W ltac:(lia)). specialize (Hm b ltac:(lia)). cbn [Explorers_Spec.worth] in Hm.
  assert (K : nth a v 0 = vmax v). { assert (I : In a (where_eq (vmax v) 0 v)) by (rewrite E; left; reflexivity). apply where_eq_spec in I as (j & _ & -> & J). exact J. }
  unfold v in K at 1. rewrite nth_map_seq in K by exact Ha. unfold v in W at 1. rewrite nth_map_seq in W by lia. destruct Hm as [Hm | Hm]; [exact Hm |]. exfalso. apply W. rewrite Hm. exact K.
Qed.
Lemma max_best m s i a : fit_for rowOf m s -> getMaxAction rowOf inputOf net m s i = Ok a -> best rowOf inputOf net m s a.
Proof.
  destruct m as [rows cols p | n p]; intros F H.
  - destruct (max_table _ _ _ _ F) as (N & _ & A & _). destruct (A i) as (x & Hx & Bx). rewrite Hx in H. injection H as <-. exact Bx.
  - destruct (max_net n p s i F) as (x & Hx & Bx & _). rewrite Hx in H. injection H as <-. exact Bx.
Qed.
Lemma max_ok m s i : fit_for rowOf m s -> exists a, getMaxAction rowOf inputOf net m s i = Ok a.
Proof.
  destruct m as [rows cols p | n p]; intros F.
  - destruct (max_table _ _ _ _ F) as (N & _ & A & _). destruct (A i) as (x & Hx & _). eauto.
  - destruct (max_net n p s i F) as (x & Hx & _). eauto.
Qed.

(** ** runs *)
Notation agentRun := (agentRun rowOf inputOf net).
Notation agentStep := (agentStep rowOf inputOf net).
Lemma run_app es : forall g es', agentRun g (es ++ es') =
  (let! r := agentRun g es in let! r' := agentRun (snd r) es' in Ok (fst r ++ fst r', snd r')).
Proof.
  induction es as [|e es IH]; intros g es'; cbn [app Explorers_Model.agentRun].
  - cbn [rbind fst snd app]. destruct (agentRun g es') as [[a h]|x]; reflexivity.
  - destruct (agentStep g e) as [[o g']|x]; cbn [rbind fst snd]; [| reflexivity]. rewrite IH. destruct (agentRun g' es) as [[a h]|x]; cbn [rbind fst snd]; [| reflexivity].
    destruct (agentRun h es') as [[a' h']|x]; cbn [rbind fst snd]; [| reflexivity]. rewrite app_assoc. reflexivity.
Qed.
Lemma setParams_twice m p q : setParams (setParams m p) q = setParams m q.
Proof. destruct m; reflexivity. Qed.
Lemma setParams_same m : setParams m (paramsOf m) = m.
Proof. destruct m; reflexivity. Qed.
Lemma run_module es : forall g acts g', agentRun g es = Ok (acts, g') -> ag_module g' = setParams (ag_module g) (learned (paramsOf (ag_module g)) es).
Proof.
  induction es as [|e es IH]; intros g acts g' H; cbn [Explorers_Model.agentRun] in H; [injection H as _ <-; unfold learned; cbn; symmetry; apply setParams_same |].
  destruct (agentStep g e) as [[o h]|x] eqn:E; cbn [rbind fst snd] in H; [| discriminate]. destruct (agentRun h es) as [[a' h']|x] eqn:R; cbn [rbind fst snd] in H; [| discriminate].
  injection H as _ <-. rewrite (IH _ _ _ R). destruct e as [s tie u i | s tie | p | noise]; cbn [Explorers_Model.agentStep] in E.
  - destruct (getMaxAction _ _ _ _ _ _) as [a|]; cbn [rbind] in E; [| discriminate]. destruct (explore _ _ _ _ _ _ _ _ _) as [[b x]|]; cbn [rbind] in E; [| discriminate]. injection E as _ <-. reflexivity.
  - destruct (getMaxAction _ _ _ _ _ _) as [a|]; cbn [rbind] in E; [| discriminate]. injection E as _ <-. reflexivity.
  - injection E as _ <-. cbn [ag_module]. rewrite setParams_twice. unfold learned. cbn [fold_left]. destruct (ag_module g); reflexivity.
  - destruct (explorerNewEpisode _ _ _) as [x|]; cbn [rbind] in E; [| discriminate]. injection E as _ <-. reflexivity.
Qed.
Lemma run_numActions es g acts g' : agentRun g es = Ok (acts, g') -> numActions (ag_module g') = numActions (ag_module g).
Proof. intros H. rewrite (run_module _ _ _ _ H). destruct (ag_module g); reflexivity. Qed.
(** the explorer's own numbers *)
Lemma run_egreedy es : forall eps dec m acts g', agentRun {| ag_module := m; ag_explorer := EGreedy eps dec |} es = Ok (acts, g') ->
  ag_explorer g' = EGreedy (eps * dec ^ explored es) dec.
Proof.
  induction es as [|e es IH]; intros eps dec m acts g' H; cbn [Explorers_Model.agentRun] in H; [injection H as _ <-; cbn; f_equal; lra |].
  destruct e as [s tie u i | s tie | p | noise]; cbn [Explorers_Model.agentStep ag_module ag_explorer] in H.
  - destruct (getMaxAction _ _ _ _ _ _) as [a|]; cbn [rbind] in H; [| discriminate]. unfold explore in H.
    destruct (if Rlt_dec u eps then randint (numActions m) i else Ok a) as [b|]; cbn [rbind fst snd] in H; [| discriminate].
    destruct (agentRun _ es) as [[a' h']|x] eqn:R; cbn [rbind fst snd] in H; [| discriminate]. injection H as _ <-. rewrite (IH _ _ _ _ _ R). unfold explored. cbn [filter length]. f_equal. rewrite <- tech_pow_Rmult. ring.
  - destruct (getMaxAction _ _ _ _ _ _) as [a|]; cbn [rbind fst snd] in H; [| discriminate].
    destruct (agentRun _ es) as [[a' h']|x] eqn:R; cbn [rbind fst snd] in H; [| discriminate]. injection H as _ <-. rewrite (IH _ _ _ _ _ R). reflexivity.
  - cbn [rbind fst snd] in H. destruct (agentRun _ es) as [[a' h']|x] eqn:R; cbn [rbind fst snd] in H; [| discriminate]. injection H as _ <-. rewrite (IH _ _ _ _ _ R). reflexivity.
  - cbn [explorerNewEpisode rbind fst snd] in H. destruct (agentRun _ es) as [[a' h']|x] eqn:R; cbn [rbind fst snd] in H; [| discriminate]. injection H as _ <-. rewrite (IH _ _ _ _ _ R). reflexivity.
Qed.
Lemma run_boltzmann es : forall tau dec m acts g', agentRun {| ag_module := m; ag_explorer := Boltzmann tau dec |} es = Ok (acts, g') ->
  ag_explorer g' = Boltzmann (tau * dec ^ explored es) dec.
Proof.
  induction es as [|e es IH]; intros tau dec m acts g' H; cbn [Explorers_Model.agentRun] in H; [injection H as _ <-; cbn; f_equal; lra |].
  destruct e as [s tie u i | s tie | p | noise]; cbn [Explorers_Model.agentStep ag_module ag_explorer] in H.
  - destruct (getMaxAction _ _ _ _ _ _) as [a|]; cbn [rbind] in H; [| discriminate]. unfold explore in H.
    destruct (values m s) as [v|]; cbn [rbind] in H; [| discriminate]. destruct (drawGibbs v tau u i) as [b|]; cbn [rbind fst snd] in H; [| discriminate].
    destruct (agentRun _ es) as [[a' h']|x] eqn:R; cbn [rbind fst snd] in H; [| discriminate]. injection H as _ <-. rewrite (IH _ _ _ _ _ R). unfold explored. cbn [filter length]. f_equal. rewrite <- tech_pow_Rmult. ring.
  - destruct (getMaxAction _ _ _ _ _ _) as [a|]; cbn [rbind fst snd] in H; [| discriminate].
    destruct (agentRun _ es) as [[a' h']|x] eqn:R; cbn [rbind fst snd] in H; [| discriminate]. injection H as _ <-. rewrite (IH _ _ _ _ _ R). reflexivity.
  - cbn [rbind fst snd] in H. destruct (agentRun _ es) as [[a' h']|x] eqn:R; cbn [rbind fst snd] in H; [| discriminate]. injection H as _ <-. rewrite (IH _ _ _ _ _ R). reflexivity.
  - cbn [explorerNewEpisode rbind fst snd] in H. destruct (agentRun _ es) as [[a' h']|x] eqn:R; cbn [rbind fst snd] in H; [| discriminate]. injection H as _ <-. rewrite (IH _ _ _ _ _ R). reflexivity.
Qed.
Lemma disturbed (p noise : vec) : vadd p (vscale (1 / 100) noise) = map (fun xz => fst xz + snd xz / 100) (combine p noise).
Proof.
  unfold vadd. revert noise. induction p as [|x p IH]; intros [|z noise]; cbn [vscale map rzip combine fst snd]; try reflexivity. f_equal; [lra |]. apply IH.
Qed.
Lemma run_sde es : forall m c acts g', agentRun {| ag_module := m; ag_explorer := SDE (Some (setParams m c)) |} es = Ok (acts, g') ->
  ag_explorer g' = SDE (Some (setParams m (snd (fold_left (fun pc e => match e with
                              | Learn q => (q, snd pc)
                              | NewEpisode noise => (fst pc, map (fun xz => fst xz + snd xz / 100) (combine (fst pc) noise))
                              | _ => pc
                              end) es (paramsOf m, c))))).
Proof.
  induction es as [|e es IH]; intros m c acts g' H; cbn [Explorers_Model.agentRun] in H; [injection H as _ <-; reflexivity |].
  destruct e as [s tie u i | s tie | p | noise]; cbn [Explorers_Model.agentStep ag_module ag_explorer] in H; cbn [fold_left fst snd].
  - destruct (getMaxAction _ _ _ _ _ _) as [a|]; cbn [rbind] in H; [| discriminate]. unfold explore in H.
    destruct (if Rlt_dec u (1 / 1000) then _ else _) as [b|]; cbn [rbind fst snd] in H; [| discriminate].
    destruct (agentRun _ es) as [[a' h']|x] eqn:R; cbn [rbind fst snd] in H; [| discriminate]. injection H as _ <-. exact (IH _ _ _ _ R).
  - destruct (getMaxAction _ _ _ _ _ _) as [a|]; cbn [rbind fst snd] in H; [| discriminate].
    destruct (agentRun _ es) as [[a' h']|x] eqn:R; cbn [rbind fst snd] in H; [| discriminate]. injection H as _ <-. exact (IH _ _ _ _ R).
  - cbn [rbind fst snd] in H. replace (setParams m c) with (setParams (setParams m p) c) in H by apply setParams_twice.
    destruct (agentRun _ es) as [[a' h']|x] eqn:R; cbn [rbind fst snd] in H; [| discriminate]. injection H as _ <-. rewrite (IH _ _ _ _ R).
    destruct m; reflexivity.
  - cbn [explorerNewEpisode rbind fst snd] in H. replace (mutated m noise) with (setParams m (map (fun xz => fst xz + snd xz / 100) (combine (paramsOf m) noise))) in H by (destruct m; cbn [mutated setParams paramsOf]; rewrite disturbed; reflexivity).
    destruct (agentRun _ es) as [[a' h']|x] eqn:R; cbn [rbind fst snd] in H; [| discriminate]. injection H as _ <-. exact (IH _ _ _ _ R).
Qed.
End Values.
