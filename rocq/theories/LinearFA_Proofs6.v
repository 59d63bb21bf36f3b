(** C66: LSPI's reward for features never seen. *)
From Coq Require Import Reals Lra.
From Verif Require Import Base Functions_Model Functions_Proofs FiniteDiff_Proofs LinearFA_Model LinearFA_Spec LinearFA_Proofs LinearFA_Proofs2 LinearFA_Proofs3.
Local Open Scope R_scope.

Lemma nth_ravel m M i c : Forall (fun r => length r = m) M -> (i < length M)%nat -> (c < m)%nat -> nth (i * m + c) (ravel M) 0 = ent M i c.
Proof.
  unfold ravel, ent. intros F. revert i. induction F as [|x M Hx F IH]; intros [|i] Hi Hc; cbn [length] in Hi; try lia; cbn [concat nth].
  - cbn. rewrite app_nth1; [reflexivity | lia].
  - rewrite app_nth2 by (cbn; lia). rewrite Hx. replace (S i * m + c - m)%nat with (i * m + c)%nat by (cbn; lia). apply IH; auto. lia.
Qed.
Lemma band_len a b : length a = length b -> length (band a b) = length a.
Proof. revert b. induction a as [|x a IH]; intros [|y b] H; try discriminate; cbn; auto. Qed.
Lemma nth_band a b i : length a = length b -> nth i (band a b) false = (nth i a false && nth i b false)%bool.
Proof. revert b i. induction a as [|x a IH]; intros [|y b] [|i] H; try discriminate; cbn; auto. Qed.
Lemma is_zero_true x : is_zero x = true <-> x = 0.
Proof. unfold is_zero. destruct (Req_EM_T x 0); split; congruence. Qed.

Section Bonus.
Context (p : params).
Notation n := (num_actions p).
Notation m := (num_features p).
Notation k := (n * m)%nat.
(** the entries still untouched are those no transition touched *)
Definition mark (l : learner) (es : list event) : Prop := length (untouched l) = k /\
  forall i c, (i < n)%nat -> (c < m)%nat -> (nth (i * m + c) (untouched l) false = true <-> ~ touched es i c).
Lemma index_lt i c : (i < n)%nat -> (c < m)%nat -> (i * m + c < k)%nat.
Proof. intros. nia. Qed.
Lemma mark_step l l' es s a r s' b d : exploring p = true -> lazyInversions p = None -> mark l es -> (a < n)%nat -> length s = m ->
  l' = update_lspi p l s a r s' b -> mark l' (es ++ [Transition s a r s' (Some b) d]).
Proof.
  intros EX LZ [L M] Ha Hs ->. unfold update_lspi. rewrite EX, LZ. cbn [andb untouched]. assert (SP : shape n m (phi_of p a s)) by (apply shape_phi; auto).
  assert (LB : length (map is_zero (ravel (phi_of p a s))) = k) by (rewrite map_length, (ravel_len n m); auto). unfold mark. cbn [untouched]. split; [rewrite band_len; congruence |].
  intros i c Hi Hc. rewrite nth_band by congruence. rewrite Bool.andb_true_iff, M by auto. 
  rewrite (nth_indep _ false (is_zero 0)) by (rewrite LB; apply index_lt; auto). rewrite map_nth, is_zero_true. destruct SP as [L1 F1]. rewrite nth_ravel by (auto; lia).
  unfold phi_of. rewrite (ent_addrow n m) by (auto; apply shape_zeros2). rewrite ent_zeros2. split.
  - intros [A B] (s0 & r0 & s0' & nx & d0 & I & Z). apply in_app_or in I as [I | [E | []]]; [apply A; unfold touched; eauto 10 |]. injection E; intros; subst. rewrite Nat.eqb_refl in B. lra.
  - intros T. split; [intros (s0 & r0 & s0' & nx & d0 & I & Z); apply T; exists s0, r0, s0', nx, d0; split; [apply in_or_app; auto | auto] |].
    destruct (Nat.eqb_spec a i) as [-> | N]; [| lra]. rewrite Rplus_0_l. destruct (Req_EM_T (nth c s 0) 0) as [Z | Z]; [exact Z |]. exfalso. apply T. exists s, r, s', (Some b), d. split; [apply in_or_app; right; now left | auto].
Qed.
Lemma mark_start l es : mark l es -> mark (newEpisode p l) (es ++ [Start]).
Proof.
  intros [L M]. split; [exact L |]. intros i c Hi Hc. change (untouched (newEpisode p l)) with (untouched l). rewrite M by auto. split; intros T (s0 & r0 & s0' & nx & d0 & I & Z); apply T.
  - apply in_app_or in I as [I | [E | []]]; [| discriminate]. unfold touched; eauto 10.
  - exists s0, r0, s0', nx, d0. split; [apply in_or_app; auto | auto].
Qed.
Lemma mark_run beh : exploring p = true -> lazyInversions p = None -> forall es es0 l l', mark l es0 -> Forall (in_range p) es -> tell_all LSPI p beh l es = Ok l' -> mark l' (es0 ++ es).
Proof.
  intros EX LZ. induction es as [|e es IH]; intros es0 l l' M F H; cbn [tell_all] in H.
  - injection H as <-. now rewrite app_nil_r.
  - apply Forall_cons_iff in F as [F1 F]. destruct (tell LSPI p beh l e) as [l1|] eqn:E; [| discriminate]. cbn [rbind] in H. change (e :: es) with ([e] ++ es). rewrite app_assoc. eapply IH; [| exact F | exact H].
    destruct e as [|s a r s' [b|] [[d1 d2] d3]]; cbn [tell updateWeights] in E; try discriminate; injection E as <-; [apply mark_start; auto |]. destruct F1 as (H1 & H2 & _). eapply mark_step; eauto.
Qed.
Lemma bonus_run beh es l s a r s' b d l' : exploring p = true -> lazyInversions p = None -> untouched l = repeat true k -> Forall (in_range p) (es ++ [Transition s a r s' (Some b) d]) ->
  tell_all LSPI p beh l (es ++ [Transition s a r s' (Some b) d]) = Ok l' ->
  exists bonus, theta l' = reshape n m (mat_vec (pinv2 p (mA l')) (vadd (vb l') bonus)) /\ length bonus = k /\
    forall i c, (i < n)%nat -> (c < m)%nat ->
      (touched (es ++ [Transition s a r s' (Some b) d]) i c -> nth (i * m + c) bonus 0 = 0) /\
      (~ touched (es ++ [Transition s a r s' (Some b) d]) i c -> nth (i * m + c) bonus 0 = explorationReward p).
Proof.
  intros EX LZ U F H. exists (map (fun t : bool => if t then explorationReward p else 0) (untouched l')).
  assert (M0 : mark l []). { unfold mark. rewrite U. split; [apply repeat_length |]. intros i c Hi Hc. rewrite nth_repeat0, (proj2 (Nat.ltb_lt _ _) (index_lt i c Hi Hc)). split; [| auto]. intros _ (s0 & r0 & s0' & nx & d0 & [] & _). }
  destruct (mark_run beh EX LZ _ [] l l' M0 F H) as [L M]. cbn [app] in M. split; [| split; [rewrite map_length; auto |]].
  - rewrite (tell_all_app p) in H. destruct (tell_all LSPI p beh l es) as [l1|]; [| discriminate]. cbn [rbind tell_all tell] in H. destruct d as [[d1 d2] d3]. cbn [updateWeights rbind] in H. injection H as <-.
    unfold update_lspi. rewrite EX, LZ. reflexivity.
  - intros i c Hi Hc. specialize (M i c Hi Hc). assert (E : nth (i * m + c) (map (fun t : bool => if t then explorationReward p else 0) (untouched l')) 0 = if nth (i * m + c) (untouched l') false then explorationReward p else 0).
    { apply (map_nth (fun t : bool => if t then explorationReward p else 0) (untouched l') false). }
    rewrite E. destruct (nth (i * m + c) (untouched l') false); split; intros T; auto; exfalso; [apply M in T; auto | ]. assert (false = true) by (apply M; auto). discriminate.
Qed.
End Bonus.
