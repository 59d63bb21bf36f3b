(** The tasks. *)
From Coq Require Import Reals Lra Psatz.
From Verif Require Import Base Functions_Model Poles_Model Poles_Spec Poles_Proofs.
Local Open Scope R_scope.

Lemma gtb_true x y : gtb x y = true <-> y < x.
Proof. unfold gtb. destruct (Rlt_dec y x); split; intros; try discriminate; auto; contradiction. Qed.
Lemma gtb_false x y : gtb x y = false <-> x <= y.
Proof. unfold gtb. destruct (Rlt_dec y x); split; intros; try discriminate; auto; lra. Qed.
Lemma ltb_true x y : ltb x y = true <-> x < y.
Proof. unfold ltb. destruct (Rlt_dec x y); split; intros; try discriminate; auto; contradiction. Qed.
Lemma ltb_false x y : ltb x y = false <-> y <= x.
Proof. unfold ltb. destruct (Rlt_dec x y); split; intros; try discriminate; auto; lra. Qed.

(** ** a single pole *)
Lemma lostb x : gtb (Rabs (th x)) (7 / 10) || gtb (Rabs (po x)) (24 / 10) = true <-> fallen x.
Proof. rewrite orb_true_iff, !gtb_true. reflexivity. Qed.
Lemma lostb_false x : gtb (Rabs (th x)) (7 / 10) || gtb (Rabs (po x)) (24 / 10) = false <-> ~ fallen x.
Proof. rewrite <- lostb. destruct (_ || _); split; intros; congruence || (exfalso; auto) || auto. Qed.
Lemma centredb x : ltb (Rabs (th x)) (5 / 100) && ltb (Rabs (po x)) (5 / 100) = true <-> centred x.
Proof. rewrite andb_true_iff, !ltb_true. reflexivity. Qed.
Lemma centredb_false x : ltb (Rabs (th x)) (5 / 100) && ltb (Rabs (po x)) (5 / 100) = false <-> ~ centred x.
Proof. rewrite <- centredb. destruct (_ && _); split; intros; congruence || (exfalso; auto) || auto. Qed.
Lemma uprightb_false x : ltb (Rabs (th x)) (5 / 100) = false <-> ~ upright x.
Proof. unfold upright. rewrite ltb_false. split; intros; lra. Qed.
Lemma centred_not_fallen x : centred x -> ~ fallen x.
Proof. intros (U & V) [H | H]; unfold upright in U; lra. Qed.

Definition onePole (k : kind) : Prop := k <> DoubleRbf.
Lemma reward_pays k n c x : onePole k -> pays k n x (reward k n (Single false c x)).
Proof.
  intro K. unfold reward, angles. cbn [getPoleAngles getCartPosition sensorsOf nth map maxl minl fold_left]. rewrite Rabs_Rabsolu.
  destruct k; try (exfalso; apply K; reflexivity).
  - destruct (ltb (Rabs (th x)) (5 / 100) && ltb (Rabs (po x)) (5 / 100)) eqn:C.
    + apply pays_centred, centredb, C.
    + apply centredb_false in C. destruct (gtb _ _ || gtb _ _) eqn:L.
      * apply pays_fallen, lostb, L.
      * apply pays_else; [exact C | apply lostb_false, L].
  - destruct (ltb (Rabs (th x)) (5 / 100)) eqn:C.
    + apply pays_just_upright, ltb_true, C.
    + apply uprightb_false in C. destruct (gtb _ _ || gtb _ _) eqn:L.
      * apply pays_just_fallen; [exact C | apply lostb, L].
      * apply pays_just_else; [exact C | apply lostb_false, L].
  - destruct (ltb (Rabs (th x)) (5 / 100) && ltb (Rabs (po x)) (5 / 100)) eqn:C.
    + apply pays_easy_centred, centredb, C.
    + apply centredb_false in C. destruct (gtb _ _ || gtb _ _) eqn:L.
      * apply pays_easy_fallen, lostb, L.
      * apply pays_easy_else; [exact C | apply lostb_false, L].
  - destruct (ltb (Rabs (th x)) (5 / 100)) eqn:C.
    + apply pays_discrete_upright; [auto | apply ltb_true, C].
    + apply uprightb_false in C. destruct (gtb _ _ || gtb _ _) eqn:L.
      * replace (-1 * IZR n) with (- IZR n) by ring. apply pays_discrete_fallen; [auto | exact C | apply lostb, L].
      * apply pays_discrete_else; [auto | exact C | apply lostb_false, L].
  - destruct (gtb _ _ || gtb _ _) eqn:L.
    + replace (-1 * IZR n) with (- IZR n) by ring. apply pays_nohelp_fallen, lostb, L.
    + apply pays_nohelp_else, lostb_false, L.
  - destruct (ltb (Rabs (th x)) (5 / 100)) eqn:C.
    + apply pays_discrete_upright; [auto | apply ltb_true, C].
    + apply uprightb_false in C. destruct (gtb _ _ || gtb _ _) eqn:L.
      * replace (-1 * IZR n) with (- IZR n) by ring. apply pays_discrete_fallen; [auto | exact C | apply lostb, L].
      * apply pays_discrete_else; [auto | exact C | apply lostb_false, L].
  - destruct (gtb _ _) eqn:L.
    + apply pays_rbf_fallen, gtb_true, L.
    + apply pays_rbf_else, gtb_false, L.
Qed.
Lemma pays_det k n x r r' : pays k n x r -> pays k n x r' -> r = r'.
Proof.
  intros H H'. destruct H; inversion H'; subst; try reflexivity; try contradiction;
    try (exfalso; match goal with A : centred ?x, B : fallen ?x |- _ => exact (centred_not_fallen x A B) end);
    try (exfalso; intuition congruence); try (exfalso; lra).
Qed.
Lemma finished_single T c x : onePole (t_kind T) -> t_env T = Single false c x ->
  isFinished T = true <-> lost (t_kind T) x \/ (t_N T <= t_t T)%Z.
Proof.
  intros K E. unfold isFinished. rewrite E. unfold angles. cbn [getPoleAngles getCartPosition sensorsOf nth map maxl fold_left].
  destruct (t_kind T); try (exfalso; apply K; reflexivity); cbn [lost];
    rewrite ?orb_true_iff, ?gtb_true, Z.leb_le; unfold fallen; tauto.
Qed.
Lemma finished_single_false T c x : onePole (t_kind T) -> t_env T = Single false c x ->
  isFinished T = false -> ~ lost (t_kind T) x /\ (t_t T < t_N T)%Z.
Proof.
  intros K E H. pose proof (finished_single T c x K E) as I. rewrite H in I. split.
  - intro L. assert (false = true) by (apply I; left; exact L). discriminate.
  - destruct (Z.lt_ge_cases (t_t T) (t_N T)) as [?|G]; [assumption|].
    assert (false = true) by (apply I; right; exact G). discriminate.
Qed.

(** ** forces *)
Lemma clip_range x lo hi : lo <= hi -> lo <= clip x lo hi <= hi.
Proof. intro. unfold clip, Rmin, Rmax. destruct (Rle_dec x lo), (Rle_dec _ hi); lra. Qed.
Lemma clip_id x lo hi : lo <= x <= hi -> clip x lo hi = x.
Proof. intro. unfold clip, Rmin, Rmax. destruct (Rle_dec x lo), (Rle_dec _ hi); lra. Qed.
Lemma force_range k a F : force k a = Ok F -> -50 <= F <= 50.
Proof.
  unfold force, denormalize. destruct (if isDiscrete k then _ else _) as [|y [|]]; intro H; inversion H. apply clip_range. lra.
Qed.
Lemma force_ok k a : length a = 1%nat -> exists F, force k a = Ok F.
Proof. intro L. destruct a as [|y [|]]; try discriminate. unfold force. destruct (isDiscrete k); eexists; reflexivity. Qed.
Lemma force_bad k a : length a <> 1%nat -> force k a = Err AssertionError.
Proof. intro L. destruct a as [|y [|z a]]; unfold force; destruct (isDiscrete k); try reflexivity; exfalso; apply L; reflexivity. Qed.
Lemma clip_mirror x : clip (- x) (-50) 50 = - clip x (-50) 50.
Proof. unfold clip, Rmin, Rmax. repeat destruct (Rle_dec _ _); lra. Qed.
Definition mirrorAction (k : kind) (a : list R) : list R := map (fun x => if isDiscrete k then 2 - x else - x) a.
Lemma force_mirror k a : force k (mirrorAction k a) = (let! F := force k a in Ok (- F)).
Proof.
  destruct a as [|y [|z a]]; unfold force, mirrorAction; destruct (isDiscrete k); try reflexivity; cbn [map denormalize rbind]; f_equal;
    rewrite <- clip_mirror; f_equal; field.
Qed.

(** ** runs of a single pole *)
Definition fits (T : task) : Prop :=
  exists c x, t_env T = Single false c x /\ t_limits T = limitsFor (t_kind T) (t_env T) /\ onePole (t_kind T).
Lemma perform_ok T a T' : performAction T a = Ok T' ->
  exists F, force (t_kind T) a = Ok F /\ t_env T' = e_perform F (t_env T) /\ t_kind T' = t_kind T /\ t_N T' = t_N T /\ t_t T' = (t_t T + 1)%Z /\
    t_limits T' = t_limits T /\ t_samples T' = S (t_samples T) /\
    t_cum T' = t_cum T + reward (t_kind T) (t_N T - (t_t T + 1)) (e_perform F (t_env T)).
Proof.
  unfold performAction. destruct (force (t_kind T) a) as [F|] eqn:E; cbn [rbind]; [|discriminate]. intro H. inversion H; subst. exists F. repeat (split; [reflexivity|]). reflexivity.
Qed.
Lemma observe_single T c x : t_env T = Single false c x -> t_limits T = limitsFor (t_kind T) (t_env T) -> onePole (t_kind T) ->
  exists o, getObservation T = Ok (o, with_env T (t_env T)).
Proof.
  intros E L K. unfold getObservation. rewrite L, E. cbn [getSensors]. destruct (t_kind T); try (exfalso; apply K; reflexivity);
    cbn -[PI rbf]; try (eexists; reflexivity).
  all: unfold rbf; cbn; eexists; reflexivity.
Qed.
Lemma with_env_id T : with_env T (t_env T) = T.
Proof. destruct T. reflexivity. Qed.
Section Run.
Context {W : Type}.
Variable module : W -> list R -> W * list R.
Lemma run_single fuel : forall w T c x w' T', onePole (t_kind T) -> t_env T = Single false c x -> t_limits T = limitsFor (t_kind T) (t_env T) ->
  runLoop module fuel w T = Ok (w', T') ->
  exists y r, t_env T' = Single false c y /\ t_cum T' = t_cum T + r /\ play (t_kind T) c (t_N T) (t_t T) x (t_t T') y r /\
    (Z.of_nat (t_samples T') - t_t T' = Z.of_nat (t_samples T) - t_t T)%Z /\ t_N T' = t_N T /\ t_kind T' = t_kind T.
Proof.
  induction fuel as [|fuel IH]; intros w T c x w' T' K E L H; [discriminate|]. cbn [runLoop] in H.
  destruct (isFinished T) eqn:Fi.
  - inversion H; subst. exists x, 0. split; [exact E|]. split; [ring|]. split; [|auto]. apply play_end. apply (finished_single T' c x K E), Fi.
  - destruct (finished_single_false T c x K E Fi) as (NL & Lt).
    destruct (observe_single T c x E L K) as (o & Ob). rewrite Ob, with_env_id in H. cbn [rbind fst snd] in H.
    destruct (module w o) as [w1 a] eqn:Mo. destruct (performAction T a) as [T1|] eqn:Pe; [|discriminate]. cbn [rbind] in H.
    destruct (perform_ok T a T1 Pe) as (F & Fo & Ev & Kd & Nn & Tt & Ll & Ss & Cc).
    rewrite E in Ev. cbn [e_perform] in Ev.
    destruct (IH w1 T1 c (step (4 / 3) c F x) w' T') as (y & r & Y1 & Y2 & Y3 & Y4 & Y5 & Y6).
    + rewrite Kd. exact K.
    + exact Ev.
    + rewrite Ll, L, Kd, Ev, E. reflexivity.
    + exact H.
    + exists y, (reward (t_kind T) (t_N T - (t_t T + 1)) (Single false c (step (4 / 3) c F x)) + r).
      split; [exact Y1|]. split; [rewrite Y2, Cc, E; cbn [e_perform]; ring|]. split.
      * rewrite Kd, Nn, Tt in Y3. apply (play_step _ _ _ _ _ F); auto.
        -- exact (force_range _ _ _ Fo).
        -- apply reward_pays, K.
      * rewrite Tt, Ss, Kd, Nn in *. split; [lia|]. split; congruence.
Qed.
Lemma run_total fuel : (forall w o, length (snd (module w o)) = 1%nat) -> forall w T c x, onePole (t_kind T) -> t_env T = Single false c x ->
  t_limits T = limitsFor (t_kind T) (t_env T) -> (t_N T - t_t T < Z.of_nat fuel)%Z -> (0 < fuel)%nat -> exists w' T', runLoop module fuel w T = Ok (w', T').
Proof.
  intro Mo. induction fuel as [|fuel IH]; intros w T c x K E L Hf Hp; [lia|]. cbn [runLoop].
  destruct (isFinished T) eqn:Fi; [eauto|]. destruct (finished_single_false T c x K E Fi) as (NL & Lt).
  destruct (observe_single T c x E L K) as (o & Ob). rewrite Ob, with_env_id. cbn [rbind fst snd].
  pose proof (Mo w o) as Len. destruct (module w o) as [w1 a]. cbn [snd] in Len.
  destruct (force_ok (t_kind T) a Len) as (F & Fo). unfold performAction. rewrite Fo. cbn [rbind t_kind t_N t_t t_env t_cum t_samples t_limits].
  eapply IH; cbn [t_kind t_N t_t t_env t_cum t_samples t_limits]; rewrite ?E; cbn [e_perform]; auto; try (rewrite L, E; reflexivity); lia.
Qed.
End Run.

(** ** what an episode of BalanceTask can be worth *)
Lemma play_count k c N n x m y r : play k c N n x m y r -> (n <= m)%Z /\ (n <= N -> m <= N)%Z.
Proof. intro H. induction H; lia. Qed.
Lemma play_last k c N n x m y r : play k c N n x m y r -> lost k y \/ (N <= m)%Z.
Proof. intro H. induction H; auto. Qed.
Lemma play_bounds c N n x m y r : play Balance c N n x m y r -> (n <= N)%Z -> ~ fallen x ->
  (fallen y -> - IZR (m - n - 1) - 2 * IZR (N - m) <= r <= -2 * IZR (N - m)) /\ (~ fallen y -> m = N /\ - IZR (N - n) <= r <= 0).
Proof.
  intro H. induction H as [n x Hl | n x F r m y rs NL Lt HF Pa Pl IH]; intros Hn Hx.
  - split; [intro; contradiction|]. intros _. destruct Hl as [Hl|Hl]; [cbn in Hl; contradiction|]. assert (n = N) by lia. subst. split; [reflexivity|].
    rewrite Z.sub_diag. lra.
  - assert (Hn' : (n + 1 <= N)%Z) by lia. cbn [lost] in NL.
    destruct (lostb (step (4 / 3) c F x)) as (LA & LB).
    destruct (gtb (Rabs (th (step (4 / 3) c F x))) (7 / 10) || gtb (Rabs (po (step (4 / 3) c F x))) (24 / 10)) eqn:Q.
    + specialize (LA eq_refl). assert (r = -2 * IZR (N - (n + 1))) by (eapply pays_det; [exact Pa | apply pays_fallen; exact LA]). subst r.
      destruct (play_count _ _ _ _ _ _ _ _ Pl) as (C1 & C2).
      assert (E : m = (n + 1)%Z /\ y = step (4 / 3) c F x /\ rs = 0).
      { inversion Pl; subst; [auto|]. cbn [lost] in *. contradiction. }
      destruct E as (-> & -> & ->). split; [|intro; contradiction]. intros _. replace (n + 1 - n - 1)%Z with 0%Z by lia. lra.
    + assert (NF : ~ fallen (step (4 / 3) c F x)) by (apply lostb_false; exact Q).
      destruct (IH Hn' NF) as (I1 & I2).
      assert (B : -1 <= r <= 0) by (inversion Pa; subst; try lra; try contradiction; match goal with H : Balance = _ \/ _ |- _ => destruct H; discriminate end).
      split; intro Hy.
      * specialize (I1 Hy). destruct (play_count _ _ _ _ _ _ _ _ Pl) as (C1 & C2).
        replace (m - n - 1)%Z with ((m - (n + 1) - 1) + 1)%Z by lia. rewrite plus_IZR. lra.
      * destruct (I2 Hy) as (-> & I3). split; [reflexivity|]. replace (N - n)%Z with ((N - (n + 1)) + 1)%Z by lia. rewrite plus_IZR. lra.
Qed.
Lemma start_fine u1 u2 : 0 <= u1 <= 1 -> 0 <= u2 <= 1 -> Rabs (th (start true u1 u2)) <= 2 / 10 /\ Rabs (po (start true u1 u2)) <= 5 / 10.
Proof.
  intros H1 H2. unfold start, uniform. cbn [th po]. split; apply Rabs_le; nra.
Qed.

(** ** the mirror *)
Definition mirrored (T T' : task) : Prop :=
  exists c x, t_env T = Single false c x /\ t_env T' = Single false c (mirror x) /\ t_kind T' = t_kind T /\ t_N T' = t_N T /\ t_t T' = t_t T /\
    t_cum T' = t_cum T.
Lemma reward_mirror k n c x : reward k n (Single false c (mirror x)) = reward k n (Single false c x).
Proof.
  unfold reward, angles. cbn [getPoleAngles getCartPosition sensorsOf nth map maxl minl fold_left mirror th po]. rewrite !Rabs_Ropp. reflexivity.
Qed.
Lemma finished_mirror T T' : mirrored T T' -> isFinished T' = isFinished T.
Proof.
  intros (c & x & E1 & E2 & E3 & E4 & E5 & _). unfold isFinished. rewrite E1, E2, E3, E4, E5. unfold angles.
  cbn [getPoleAngles getCartPosition sensorsOf nth map maxl minl fold_left mirror th po]. rewrite !Rabs_Ropp. reflexivity.
Qed.
Fixpoint performAll (T : task) (l : list (list R)) : result task :=
  match l with [] => Ok T | a :: l => let! T := performAction T a in performAll T l end.
Lemma performAll_mirror l : forall T T' U, mirrored T T' -> performAll T l = Ok U ->
  exists U', performAll T' (map (mirrorAction (t_kind T)) l) = Ok U' /\ mirrored U U'.
Proof.
  induction l as [|a l IH]; intros T T' U M H.
  - inversion H; subst. exists T'. split; [reflexivity | exact M].
  - cbn [performAll map] in *. destruct (performAction T a) as [T1|] eqn:P; [|discriminate]. cbn [rbind] in H.
    destruct M as (c & x & E1 & E2 & E3 & E4 & E5 & E6).
    destruct (perform_ok T a T1 P) as (F & Fo & Ev & Kd & Nn & Tt & Ll & Ss & Cc).
    assert (P' : exists T1', performAction T' (mirrorAction (t_kind T) a) = Ok T1' /\ mirrored T1 T1').
    { unfold performAction. rewrite E3, force_mirror, Fo. cbn [rbind]. eexists. split; [reflexivity|].
      exists c, (step (4 / 3) c F x). cbn [t_kind t_N t_t t_env t_cum t_samples t_limits]. rewrite Ev, E1, E2. cbn [e_perform].
      rewrite step_mirror. split; [reflexivity|]. split; [reflexivity|]. split; [congruence|]. split; [congruence|]. split; [lia|].
      rewrite Cc, E6, E1. cbn [e_perform]. unfold getReward. cbn [t_kind t_N t_t t_env]. rewrite reward_mirror, E4, E5. reflexivity. }
    destruct P' as (T1' & P' & M'). rewrite P'. cbn [rbind]. rewrite <- Kd. exact (IH T1 T1' U M' H).
Qed.
