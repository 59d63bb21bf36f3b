From Coq Require Import QArith Lqa.
From Verif Require Import Base Dataset_Model Dataset_Spec Dataset_Proofs2 Sequential_Model Sequential_Spec Sequential_Proofs Sequential_Proofs2 Grid_Model Errors_Model Errors_Spec.
Local Open Scope Q_scope.
Notation total := Errors_Spec.total.

(** ** Sums *)
Lemma qsum_acc l : forall a, fold_left Qplus l a == a + qsum l.
Proof.
  unfold qsum. induction l as [|x l IH]; intro a; cbn [fold_left]; [lra|]. rewrite IH. rewrite (IH (0 + x)). lra.
Qed.
Lemma qsum_cons x l : qsum (x :: l) == x + qsum l.
Proof. unfold qsum at 1. cbn [fold_left]. rewrite qsum_acc. lra. Qed.
Lemma qsum_app a b : qsum (a ++ b) == qsum a + qsum b.
Proof. induction a as [|x a IH]; [cbn [app]; unfold qsum at 2; cbn; lra|]. cbn [app]. rewrite !qsum_cons, IH. lra. Qed.
Lemma total_cons {A} (f : A -> Q) a l : total f (a :: l) = f a + total f l.
Proof. reflexivity. Qed.
Lemma total_app {A} (f : A -> Q) a b : total f (a ++ b) == total f a + total f b.
Proof. induction a as [|x a IH]; [change (total f []) with 0; cbn [app]; lra|]. cbn [app]. rewrite !total_cons, IH. lra. Qed.
Lemma total_ext {A} (f g : A -> Q) l : (forall a, In a l -> f a == g a) -> total f l == total g l.
Proof. induction l as [|x l IH]; intro H; [reflexivity|]. rewrite !total_cons, (H x) by (left; auto). rewrite IH by (intros; apply H; right; auto). reflexivity. Qed.
Lemma total_map {A B} (f : B -> Q) (g : A -> B) l : total f (map g l) = total (fun a => f (g a)) l.
Proof. induction l as [|x l IH]; [reflexivity|]. cbn [map]. rewrite !total_cons, IH. reflexivity. Qed.
Lemma total_concat {A} (f : A -> Q) ls : total f (concat ls) == total (total f) ls.
Proof. induction ls as [|l ls IH]; [reflexivity|]. cbn [concat]. rewrite total_app, total_cons, IH. reflexivity. Qed.
Lemma qsum_total {A} (f : A -> Q) l : qsum (map f l) == total f l.
Proof. induction l as [|x l IH]; [reflexivity|]. cbn [map]. rewrite qsum_cons, total_cons, IH. reflexivity. Qed.
Lemma total_seq_S (f : nat -> Q) n a : total f (seq a (S n)) = f a + total (fun i => f (S i)) (seq a n).
Proof. cbn [seq]. rewrite total_cons, <- seq_shift, total_map. reflexivity. Qed.

Lemma zipq_len f a : forall b, length a = length b -> length (zipq f a b) = length a.
Proof. induction a as [|x a IH]; intros [|y b] H; cbn in *; try discriminate; auto. Qed.
Lemma zipq_app f a : forall b a' b', length a = length b -> zipq f (a ++ a') (b ++ b') = zipq f a b ++ zipq f a' b'.
Proof. induction a as [|x a IH]; intros [|y b] a' b' H; cbn in *; try discriminate; auto. f_equal. apply IH. lia. Qed.

(** one sample *)
Lemma plain_error t : forall y, length y = length t -> qsum (map (fun d => d * d) (zipq Qminus t y)) == total (fun i => 1 * (nth i t 0 - nth i y 0) ^ 2) (seq 0 (length t)).
Proof.
  induction t as [|a t IH]; intros [|b y] H; cbn in H; try discriminate; [reflexivity|]. cbn [zipq map length]. rewrite qsum_cons, total_seq_S, IH by lia. cbn [nth]. lra.
Qed.
Lemma plain_error' t : forall y, length y = length t -> qdot (map (fun d => d * d) (zipq Qminus y t)) (map (fun _ => 1) y) == total (fun i => 1 * (nth i t 0 - nth i y 0) ^ 2) (seq 0 (length t)).
Proof.
  unfold qdot. induction t as [|a t IH]; intros [|b y] H; cbn in H; try discriminate; [reflexivity|]. cbn [zipq map length]. rewrite qsum_cons, total_seq_S, IH by lia. cbn [nth]. lra.
Qed.
Lemma imp_error t : forall y w, length y = length t -> length w = length t ->
  qdot w (map (fun d => d * d) (zipq Qminus t y)) == total (fun i => nth i w 0 * (nth i t 0 - nth i y 0) ^ 2) (seq 0 (length t)).
Proof.
  unfold qdot. induction t as [|a t IH]; intros [|b y] [|c w] H H'; cbn in H, H'; try discriminate; [reflexivity|]. cbn [zipq map length]. rewrite qsum_cons, total_seq_S, IH by lia. cbn [nth]. lra.
Qed.
Lemma imp_error' t : forall y w, length y = length t -> length w = length t ->
  qdot (map (fun d => d * d) (zipq Qminus y t)) w == total (fun i => nth i w 0 * (nth i t 0 - nth i y 0) ^ 2) (seq 0 (length t)).
Proof.
  unfold qdot. induction t as [|a t IH]; intros [|b y] [|c w] H H'; cbn in H, H'; try discriminate; [reflexivity|]. cbn [zipq map length]. rewrite qsum_cons, total_seq_S, IH by lia. cbn [nth]. lra.
Qed.
Lemma ones_total n : total (fun _ => 1) (seq 0 n) == inject_Z (Z.of_nat n).
Proof. induction n as [|n IH]; [reflexivity|]. rewrite total_seq_S, IH. rewrite Nat2Z.inj_succ. unfold Z.succ. rewrite inject_Z_plus. change (inject_Z 1) with 1. lra. Qed.
Lemma list_total w : total (fun i => nth i w 0) (seq 0 (length w)) == qsum w.
Proof. induction w as [|a w IH]; [reflexivity|]. cbn [length]. rewrite total_seq_S, qsum_cons. cbn [nth]. rewrite IH. reflexivity. Qed.

Section Core.
Context {M : Type} (mreset : M -> M) (activate : M -> qrow -> M * qrow) (imp : bool) (outdim : nat).
Context (Hout : out_ok activate outdim).
Notation outputs := (outputs activate).
Notation err := (sample_error imp outdim).
Notation wt := (sample_weight imp outdim).

Definition shape (smp : qsample) : Prop :=
  length smp = (if imp then 3 else 2)%nat /\ length (s_target smp) = outdim /\ (imp = true -> length (nth 2 smp []) = outdim).

Lemma outputs_len xs : forall m, length (outputs m xs) = length xs.
Proof. induction xs as [|x xs IH]; intro m; cbn; auto. Qed.
Lemma outputs_dim xs : forall m y, In y (outputs m xs) -> length y = outdim.
Proof. induction xs as [|x xs IH]; intros m y H; cbn in H; [contradiction|]. destruct H as [<-|H]; [apply Hout|eapply IH; eauto]. Qed.

Lemma evaluate_acc sq : Forall shape sq -> forall m e p, exists m' e' p',
  (if imp then evaluateSequence_imp activate sq m e p else evaluateSequence activate sq m e p) = Ok (m', e', p') /\
  e' == e + (1 # 2) * total err (combine sq (outputs m (map s_input sq))) /\ p' == p + total wt sq.
Proof.
  induction sq as [|smp sq IH]; intros Hs m e p.
  - exists m, e, p. destruct imp; cbn; (split; [reflexivity|split; lra]).
  - inversion Hs as [|? ? (L & T & W) Hs']; subst.
    pose proof (Hout m (s_input smp)) as Ho. destruct imp eqn:Ei.
    + destruct smp as [|x [|t [|w [|]]]]; cbn in L; try discriminate. specialize (W eq_refl). change (s_input [x; t; w]) with x in Ho. change (s_target [x; t; w]) with t in T. cbn [nth] in W.
      cbn [evaluateSequence_imp map Errors_Spec.outputs]. change (s_input [x; t; w]) with x. destruct (activate m x) as [m1 y]. cbn [fst snd] in *.
      destruct (IH Hs' m1 (e + (1 # 2) * qdot w (map (fun d => d * d) (zipq Qminus t y))) (p + qsum w)) as (m' & e' & p' & E & He & Hp).
      exists m', e', p'. split; [exact E|]. cbn [combine]. rewrite !total_cons. split.
      * rewrite He. unfold sample_error at 2. cbn [fst snd]. unfold s_weight, s_target. cbn [nth]. rewrite <- T at 2. rewrite imp_error by congruence. lra.
      * rewrite Hp. unfold sample_weight at 2, s_weight. cbn [nth]. rewrite <- W at 2. rewrite list_total. lra.
    + destruct smp as [|x [|t [|]]]; cbn in L; try discriminate. change (s_input [x; t]) with x in Ho. change (s_target [x; t]) with t in T.
      cbn [evaluateSequence map Errors_Spec.outputs]. change (s_input [x; t]) with x. destruct (activate m x) as [m1 y]. cbn [fst snd] in *.
      destruct (IH Hs' m1 (e + (1 # 2) * qsum (map (fun d => d * d) (zipq Qminus t y))) (p + inject_Z (Z.of_nat (length t)))) as (m' & e' & p' & E & He & Hp).
      exists m', e', p'. split; [exact E|]. cbn [combine]. rewrite !total_cons. split.
      * rewrite He. unfold sample_error at 2. cbn [fst snd]. unfold s_weight, s_target. cbn [nth]. rewrite <- T at 2. rewrite plain_error by congruence. lra.
      * rewrite Hp. unfold sample_weight at 2, s_weight. rewrite ones_total, T. lra.
Qed.
Lemma evaluate_ok sq m : Forall shape sq -> exists m' e p,
  evaluate activate imp sq m = Ok (m', e, p) /\ e == (1 # 2) * total err (combine sq (outputs m (map s_input sq))) /\ p == total wt sq.
Proof.
  intro H. destruct (evaluate_acc sq H m 0 0) as (m' & e & p & E & He & Hp). exists m', e, p. split; [unfold evaluate; destruct imp; exact E|]. split; [rewrite He|rewrite Hp]; lra.
Qed.

Section Resettable.
Context (Hreset : resettable mreset activate).
Lemma error_state m m' ss : total_error mreset activate imp outdim m ss = total_error mreset activate imp outdim m' ss.
Proof. unfold total_error, answers. induction ss as [|sq ss IH]; [reflexivity|]. rewrite !total_cons, IH, (Hreset m m'). reflexivity. Qed.

Notation terr := (total_error mreset activate imp outdim).
Notation twt := (total_weight imp outdim).
Lemma reset_loop_ok ss : Forall (Forall shape) ss -> forall m e p, exists m' e' p',
  reset_loop mreset activate imp ss m e p = Ok (m', e', p') /\ e' == e + (1 # 2) * terr m ss /\ p' == p + twt ss.
Proof.
  induction ss as [|sq ss IH]; intros Hs m e p; [exists m, e, p; cbn; split; [reflexivity|split; lra]|].
  inversion Hs as [|? ? Hsq Hs']; subst. cbn [reset_loop]. destruct (evaluate_ok sq (mreset m) Hsq) as (m1 & e1 & p1 & -> & He & Hp). cbn [rbind].
  destruct (IH Hs' m1 (e + e1) (p + p1)) as (m' & e' & p' & E & He' & Hp'). exists m', e', p'. split; [exact E|].
  rewrite (error_state m1 m) in He'. unfold total_error, total_weight in *. rewrite !total_cons. split; [rewrite He', He|rewrite Hp', Hp]; unfold answers; lra.
Qed.
Lemma positive_iff x : positive x = true <-> 0 < x.
Proof.
  unfold positive. rewrite negb_true_iff. split; intro H.
  - apply Qnot_le_lt. intro A. apply Qle_bool_iff in A. congruence.
  - destruct (Qle_bool x 0) eqn:E; auto. apply Qle_bool_iff in E. exfalso. lra.
Qed.
Lemma seq_mse_loop_ok n ss : Forall (Forall shape) ss -> 0 < twt ss -> forall m r, exists m' r',
  seq_mse_loop mreset activate imp n ss m r = Ok (m', r') /\ r' == r + inject_Z (Z.of_nat n) * (terr m ss / 2 / twt ss).
Proof.
  intros Hs Hw. induction n as [|n IH]; intros m r; [exists m, r; split; [reflexivity|change (inject_Z (Z.of_nat 0)) with 0; ring]|].
  cbn [seq_mse_loop]. destruct (reset_loop_ok ss Hs m 0 0) as (m1 & e1 & p1 & -> & He & Hp). cbn [rbind].
  replace (positive p1) with true by (symmetry; apply positive_iff; lra). destruct (IH m1 (r + e1 / p1)) as (m' & r' & E & Hr). exists m', r'. split; [exact E|].
  rewrite Hr, (error_state m1 m), He, Hp, Nat2Z.inj_succ. unfold Z.succ. rewrite inject_Z_plus. change (inject_Z 1) with 1. field. lra.
Qed.
Lemma test_loop_ok ss : Forall (Forall shape) ss -> Forall (fun sq => sq <> []) ss -> forall m es ps, exists m' es' ps',
  test_loop mreset activate imp ss m es ps = Ok (m', es', ps') /\ qsum es' == qsum es + (1 # 2) * terr m ss /\ qsum ps' == qsum ps + twt ss.
Proof.
  induction ss as [|sq ss IH]; intros Hs Hn m es ps; [exists m, es, ps; cbn; split; [reflexivity|split; lra]|].
  inversion Hs as [|? ? Hsq Hs']; subst. inversion Hn as [|? ? Hsn Hn']; subst. cbn [test_loop]. destruct (evaluate_ok sq (mreset m) Hsq) as (m1 & e1 & p1 & -> & He & Hp). cbn [rbind].
  destruct (IH Hs' Hn' m1 (es ++ [e1]) (ps ++ [p1])) as (m' & es' & ps' & E & He' & Hp'). exists m', es', ps'. split; [destruct sq; [contradiction|exact E]|].
  rewrite (error_state m1 m) in He'. rewrite qsum_app in He', Hp'. unfold total_error, total_weight in *. rewrite !total_cons. rewrite He', Hp'. rewrite !qsum_cons, He, Hp. unfold answers. unfold qsum at 2 5. cbn [fold_left]. split; lra.
Qed.
Lemma testOnSeqs_ok ss m : Forall (Forall shape) ss -> Forall (fun sq => sq <> []) ss -> 0 < twt ss ->
  exists m' v, testOnSeqs mreset activate imp ss m = Ok (m', v) /\ v == terr m ss / 2 / twt ss.
Proof.
  intros Hs Hn Hw. unfold testOnSeqs. destruct (test_loop_ok ss Hs Hn m [] []) as (m1 & es & ps & -> & He & Hp). cbn [rbind]. change (qsum []) with 0 in *.
  replace (positive (qsum ps)) with true by (symmetry; apply positive_iff; lra). eexists _, _. split; [reflexivity|]. rewrite He, Hp. field. lra.
Qed.
Lemma test_loop_empty a : Forall (Forall shape) a -> forall m es ps, test_loop mreset activate imp (a ++ [[]]) m es ps = Err ZeroDivisionError.
Proof.
  induction a as [|sq a IH]; intros Hs m es ps.
  - cbn. destruct (evaluate_ok [] (mreset m) (Forall_nil _)) as (m1 & e1 & p1 & -> & _). reflexivity.
  - inversion Hs as [|? ? Hsq Hs']; subst. cbn [app test_loop]. destruct (evaluate_ok sq (mreset m) Hsq) as (m1 & e1 & p1 & -> & _). cbn [rbind]. destruct sq; [reflexivity|]. apply IH. auto.
Qed.

(** the outputs collected by ModuleValidator *)
Lemma out_seq_is sq : forall m, snd (out_seq activate sq m) = outputs m (map s_input sq).
Proof.
  induction sq as [|smp sq IH]; intro m; [reflexivity|]. cbn [out_seq map Errors_Spec.outputs]. change (nth 0 smp []) with (s_input smp). destruct (activate m (s_input smp)) as [m1 y]. cbn [fst snd].
  specialize (IH m1). destruct (out_seq activate sq m1) as [m2 ys]. cbn [snd] in *. congruence.
Qed.
Lemma out_seqs_is ss : forall m m0, snd (out_seqs mreset activate ss m) = concat (map (answers mreset activate m0) ss).
Proof.
  induction ss as [|sq ss IH]; intros m m0; [reflexivity|]. cbn [out_seqs map concat]. pose proof (out_seq_is sq (mreset m)) as E. destruct (out_seq activate sq (mreset m)) as [m1 ys]. cbn [snd] in E.
  specialize (IH m1 m0). destruct (out_seqs mreset activate ss m1) as [m2 zs]. cbn [snd] in *. rewrite IH, E. unfold answers. rewrite (Hreset m m0). reflexivity.
Qed.
End Resettable.

Lemma combine_app {A B} (a : list A) : forall (b : list B) a' b', length a = length b -> combine (a ++ a') (b ++ b') = combine a b ++ combine a' b'.
Proof. induction a as [|x a IH]; intros [|y b] a' b' H; cbn in *; try discriminate; auto. f_equal. apply IH. lia. Qed.
Lemma flat_error ss m : total_error mreset activate imp outdim m ss == total err (combine (concat ss) (concat (map (answers mreset activate m) ss))).
Proof.
  unfold total_error. induction ss as [|sq ss IH]; [reflexivity|]. cbn [concat map]. rewrite combine_app by (unfold answers; rewrite outputs_len, map_length; auto).
  rewrite total_app, total_cons, IH. reflexivity.
Qed.
Lemma answers_len ss m : length (concat (map (answers mreset activate m) ss)) = length (concat ss).
Proof. induction ss as [|sq ss IH]; [reflexivity|]. cbn [map concat]. rewrite !app_length, IH. unfold answers. rewrite outputs_len, map_length. reflexivity. Qed.
Lemma answers_dim ss m y : In y (concat (map (answers mreset activate m) ss)) -> length y = outdim.
Proof. intro H. apply in_concat in H. destruct H as (l & Hl & Hy). apply in_map_iff in Hl. destruct Hl as (sq & <- & _). eapply outputs_dim; eauto. Qed.

Lemma same_shape_ok a b : a <> [] -> length a = length b -> (forall x, In x a -> length x = outdim) -> (forall x, In x b -> length x = outdim) -> same_shape a b = true.
Proof.
  intros Hne Hl Ha Hb. unfold same_shape. rewrite Hl, Nat.eqb_refl. destruct b as [|y b]; [destruct a; [contradiction|discriminate]|]. cbn [length Nat.eqb negb andb].
  apply forallb_forall. intros [x z] Hin. cbn. pose proof (in_combine_l _ _ _ _ Hin). pose proof (in_combine_r _ _ _ _ Hin). apply Nat.eqb_eq. rewrite Ha, Hb; auto.
Qed.
Lemma flat_squares smps : Forall shape smps -> forall ys : list qrow, length ys = length smps -> (forall y, In y ys -> length y = outdim) ->
  qdot (map (fun d => d * d) (zipq Qminus (concat ys) (concat (map s_target smps)))) (if imp then concat (map (fun smp : qsample => nth 2 smp []) smps) else map (fun _ => 1) (concat ys))
  == total err (combine smps ys).
Proof.
  induction 1 as [|smp smps (L & T & W) _ IH]; intros [|y ys] Hl Hd; cbn in Hl; try discriminate; [destruct imp; reflexivity|].
  cbn [concat map combine]. rewrite total_cons. assert (Ly : length y = outdim) by (apply Hd; left; auto).
  rewrite zipq_app by congruence. rewrite map_app. destruct imp eqn:Ei.
  - specialize (W eq_refl). unfold qdot in *. rewrite zipq_app by (rewrite map_length, zipq_len; congruence). rewrite qsum_app. rewrite IH by (auto; intros; apply Hd; right; auto).
    change (qsum (zipq Qmult (map (fun d => d * d) (zipq Qminus y (s_target smp))) (nth 2 smp []))) with (qdot (map (fun d => d * d) (zipq Qminus y (s_target smp))) (nth 2 smp [])).
    rewrite imp_error' by congruence. unfold sample_error at 2, s_weight. cbn [fst snd]. rewrite T. lra.
  - unfold qdot in *. rewrite map_app. rewrite zipq_app by (rewrite !map_length, zipq_len; congruence). rewrite qsum_app. rewrite IH by (auto; intros; apply Hd; right; auto).
    change (qsum (zipq Qmult (map (fun d => d * d) (zipq Qminus y (s_target smp))) (map (fun _ => 1) y))) with (qdot (map (fun d => d * d) (zipq Qminus y (s_target smp))) (map (fun _ => 1) y)).
    rewrite plain_error' by congruence. unfold sample_error at 2, s_weight. cbn [fst snd]. rewrite T. lra.
Qed.
Lemma flat_weights smps : Forall shape smps -> forall ys : list qrow, length ys = length smps -> (forall y, In y ys -> length y = outdim) ->
  qsum (if imp then concat (map (fun smp : qsample => nth 2 smp []) smps) else map (fun _ => 1) (concat ys)) == total wt smps.
Proof.
  induction 1 as [|smp smps (L & T & W) _ IH]; intros [|y ys] Hl Hd; cbn in Hl; try discriminate; [destruct imp; reflexivity|].
  cbn [concat map]. rewrite total_cons. assert (Ly : length y = outdim) by (apply Hd; left; auto). specialize (IH ys ltac:(lia) ltac:(intros; apply Hd; right; auto)). destruct imp eqn:Ei.
  - specialize (W eq_refl). rewrite qsum_app, IH. unfold sample_weight at 2, s_weight. rewrite <- W at 2. rewrite list_total. reflexivity.
  - rewrite map_app, qsum_app, IH. unfold sample_weight at 2, s_weight. rewrite <- Ly at 2. rewrite (qsum_total (fun _ => 1)). apply Qplus_comp; [|reflexivity].
    clear. induction y as [|a y IHy]; [reflexivity|]. cbn [length]. rewrite total_seq_S, total_cons, IHy. reflexivity.
Qed.
Lemma mse_ok smps ys : Forall shape smps -> smps <> [] -> length ys = length smps -> (forall y, In y ys -> length y = outdim) -> ~ total wt smps == 0 ->
  exists v, MSE ys (map s_target smps) (if imp then Some (map (fun smp : qsample => nth 2 smp []) smps) else None) = Ok (Some v) /\ v == total err (combine smps ys) / total wt smps.
Proof.
  intros Hs Hne Hl Hd Hw. unfold MSE. rewrite same_shape_ok; auto.
  - pose proof (flat_squares smps Hs ys Hl Hd) as E1. pose proof (flat_weights smps Hs ys Hl Hd) as E2. rewrite <- Forall_forall in Hd. cbn [negb]. destruct imp eqn:Ei.
    + rewrite same_shape_ok; cbn [negb].
      * unfold mse_value. destruct (Qeq_bool _ 0) eqn:Z; [apply Qeq_bool_iff in Z; rewrite E2 in Z; contradiction|]. eexists. split; [reflexivity|]. rewrite E1, E2. reflexivity.
      * destruct smps; [contradiction|discriminate].
      * rewrite !map_length. reflexivity.
      * intros x Hx. apply in_map_iff in Hx. destruct Hx as (smp & <- & Hin). eapply Forall_forall in Hs; [|exact Hin]. apply Hs. exact Ei.
      * intros x Hx. apply in_map_iff in Hx. destruct Hx as (smp & <- & Hin). eapply Forall_forall in Hs; [|exact Hin]. apply Hs.
    + unfold mse_value. destruct (Qeq_bool _ 0) eqn:Z; [apply Qeq_bool_iff in Z; rewrite E2 in Z; contradiction|]. eexists. split; [reflexivity|]. rewrite E1, E2. reflexivity.
  - destruct ys; [destruct smps; [contradiction|discriminate]|discriminate].
  - rewrite map_length. auto.
  - intros x Hx. apply in_map_iff in Hx. destruct Hx as (smp & <- & Hin). eapply Forall_forall in Hs; [|exact Hin]. apply Hs.
Qed.
End Core.

(** ** Sessions *)
Lemma good_schema imp i o : good (schema imp i o).
Proof.
  unfold good, schema. split; [destruct imp; discriminate|]. destruct imp; cbn; split; repeat constructor; cbn; intuition discriminate.
Qed.
Lemma fit_len n r r' : @fit Q n r = Some r' -> length r' = n.
Proof.
  unfold fit. destruct (Nat.eqb_spec (length r) n); [intro H; inversion H; subst; auto|]. destruct r as [|x [|]]; intro H; inversion H; subst. apply repeat_length.
Qed.
Lemma built_facts imp i o s ss : built imp i o s ss ->
  Forall (Forall (shape imp o)) ss /\ seqs s = starts 0 ss /\ getLength (body s) = Ok (length (concat ss)) /\ wfs ss /\
  getField (body s) "target"%string = Ok (map s_target (concat ss)) /\
  (imp = true -> getField (body s) "importance"%string = Ok (map (fun smp : qsample => nth 2 smp []) (concat ss))) /\ iter_seqs s = Ok ss.
Proof.
  intros (os & Hc & -> & Hi). pose proof (good_schema imp i o) as Hg. destruct (session_is_sequence_list 0 _ os Hg Hc) as [HR _]. cbv zeta in HR.
  pose proof (fitted_run (schema imp i o) os ([[]], 0%nat)) as Hf. set (st := fst (aqrun (schema imp i o) ([[]], 0%nat) os)) in *. rewrite (RS_iter _ _ _ Hg HR) in Hi. injection Hi as Hi.
  assert (Hf' : fitted (schema imp i o) ss) by (rewrite <- Hi; apply Hf; constructor).
  split.
  { apply Forall_forall. intros sq Hsq. apply Forall_forall. intros smp Hsmp. unfold fitted in Hf'. eapply Forall_forall in Hf'; [|apply in_concat; exists sq; split; eauto].
    unfold shape, s_target. unfold schema in Hf'. destruct imp; cbn [app fit_all] in Hf'; destruct smp as [|x [|t smp]]; try discriminate;
      try (destruct (fit i x); discriminate); destruct (fit i x); try discriminate; destruct (fit o t) eqn:Et; try discriminate; destruct smp as [|w smp]; try discriminate.
    - destruct (fit o w) eqn:Ew; try discriminate. destruct smp; try discriminate. inversion Hf'; subst. cbn. split; [reflexivity|]. split; [eapply fit_len; eauto|intros _; eapply fit_len; eauto].
    - inversion Hf'; subst. cbn. split; [reflexivity|]. split; [eapply fit_len; eauto|discriminate]. }
  split; [rewrite (RS_seqs _ _ _ HR); congruence|]. split; [rewrite (RS_length 0 _ _ _ Hg HR); unfold Sequential_Spec.total; congruence|]. split; [rewrite <- Hi; apply HR|].
  split; [|split].
  - rewrite (RS_getField _ _ _ "target"%string 1 o Hg HR) by (destruct imp; reflexivity). rewrite Hi. reflexivity.
  - intros ->. rewrite (RS_getField _ _ _ "importance"%string 2 o Hg HR) by reflexivity. rewrite Hi. reflexivity.
  - rewrite (RS_iter _ _ _ Hg HR). congruence.
Qed.
