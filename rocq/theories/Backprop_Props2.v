(** C61, continued: batch training of a network descends its total error; examples and refuted readings. *)
From Coq Require Import Ring Reals Lra FunctionalExtensionality.
From Verif Require Import Base RingOps Net_Model Net_Spec Conn_Adjoint Net_Adjoint Net_Gradient Net_Gradient2 Net_Props Net_Gradient_Props
  Layers_R  Backprop_Model Backprop_Spec Backprop_Proofs Backprop_Gradient Backprop_Props.

Section Descends.
Local Open Scope R_scope.
Context (N : rnet) (ks : list nat) (pdim : nat -> nat).
Notation size := (list_sum (map pdim ks)).
Notation err := (net_err N ks pdim).
Notation pond := (net_pond N ks pdim).
Notation grad := (net_grad N ks pdim).

Lemma grad_len th sq : length th = size -> length (grad th sq) = size.
Proof. intros _. apply flat_len. Qed.

Lemma dsum {A} (l : list A) (f : A -> R -> R) (d : A -> R) x : (forall a, In a l -> derivable_pt_lim (f a) x (d a)) ->
  derivable_pt_lim (fun z => suml l (fun a => f a z)) x (suml l d).
Proof.
  induction l as [|a l IH]; intro H; cbn [suml].
  - intros eps He. exists (mkposreal 1 Rlt_0_1). intros h Hh _. cbn. replace ((0 - 0) / h - 0) with 0 by (field; auto). rewrite Rabs_R0. exact He.
  - apply (derivable_pt_lim_plus (f a) (fun z => suml l (fun a => f a z))); [apply H; left; auto|apply IH; intros; apply H; right; auto].
Qed.

Lemma suml_opp {A} (L : list A) (f : A -> R) : suml L (fun a => - f a) = - suml L f.
Proof. induction L as [|a t IH]; cbn [suml]; [cbn; ring|]. rewrite IH. cbn. ring. Qed.
Lemma suml_dot {A} (L : list A) (Dq : A -> nat -> rvec) (v : nat -> rvec) :
  suml L (fun a => suml ks (fun k => dot (pdim k) (Dq a k) (v k))) = suml ks (fun k => dot (pdim k) (fun q => suml L (fun a => Dq a k q)) (v k)).
Proof.
  induction L as [|a t IH]; cbn [suml].
  - symmetry. apply (suml_zero (L := RLaws)). intros k _. unfold dot. apply (sumn_zero' (L := RLaws)). intros. cbn. ring.
  - rewrite IH. rewrite <- (suml_add (L := RLaws)). apply suml_ext. intros k _. unfold dot. rewrite <- (sumn_add (L := RLaws)). apply sumn_ext. intros q _. cbn. ring.
Qed.

Context (HT : trainable N ks pdim) (th : list R) (l : list (list (@sample R))).
Context (Hth : length th = size) (Hl : l <> []) (Hsm : forall sq, In sq l -> smooth_run N (unflat pdim ks th) sq fresh).
Context (momentum alphadecay weightdecay : R).
Notation train := (train err pond grad momentum alphadecay weightdecay).
Definition total (th : list R) : R := suml l (err th).

Lemma first_epoch owns rate derivs : length derivs = size ->
  exists t', train true owns l (new_trainer rate th derivs) = Ok (t', total th, suml l (pond th)) /\ length (t_params t') = size /\
    forall i, nth i (t_params t') 0 = nth i th 0 + rate * suml l (fun sq => nth i (grad th sq) 0).
Proof.
  intro Hd. assert (W : wf_t (new_trainer rate th derivs)). { unfold wf_t. cbn. rewrite map_length. repeat split; congruence. }
  destruct (C61_batch_epoch (Lw := RLaws) err pond grad momentum alphadecay weightdecay size grad_len owns l (new_trainer rate th derivs) W Hth eq_refl Hl)
    as (t' & E & W' & S' & (_ & _ & _ & M) & _ & _ & L). exists t'. split; [exact E|]. split; [cbn in L; congruence|]. intro i.
  destruct (Nat.lt_ge_cases i size) as [Hi|Hi].
  - destruct (M i) as [M1 M2]; [cbn; congruence|]. cbn [here pt_theta pt_mom pt_rate new_trainer t_values t_momvec t_alpha] in M1, M2.
    rewrite S'. cbn [r0 ROps radd rmul] in *. rewrite M2, M1. cbn [t_params t_values new_trainer].
    rewrite (nth_zeros (Ops := ROps)). cbn [r0 ROps]. ring.
  - rewrite !nth_overflow by (cbn in L; lia). rewrite (suml_zero (L := RLaws)); [cbn; ring|]. intros sq _. apply nth_overflow. rewrite grad_len; auto.
Qed.

(** batch training moves every parameter against the partial derivative of the total error *)
Theorem C61_batch_descends owns rate derivs : length derivs = size ->
  exists t', train true owns l (new_trainer rate th derivs) = Ok (t', total th, suml l (pond th)) /\ length (t_params t') = size /\
    forall j, (j < size)%nat -> exists D, derivable_pt_lim (fun z => total (upd j z th)) (nth j th 0) D /\ nth j (t_params t') 0 = nth j th 0 - rate * D.
Proof.
  intro Hd. destruct (first_epoch owns rate derivs Hd) as (t' & E & L & M). exists t'. split; [exact E|]. split; [exact L|]. intros j Hj.
  exists (suml l (fun sq => - nth j (grad th sq) 0)). split.
  - apply (dsum l (fun sq z => err (upd j z th) sq)). intros sq Hin. apply C61_partial_derivatives; auto.
  - rewrite M. replace (suml l (fun sq => - nth j (grad th sq) 0)) with (- suml l (fun sq => nth j (grad th sq) 0)); [ring|].
    symmetry. apply suml_opp.
Qed.

Lemma unflat_line (a b c : list R) z : (forall i, nth i a 0 = nth i b 0 + z * nth i c 0) ->
  unflat pdim ks a = fun k q => unflat pdim ks b k q + z * unflat pdim ks c k q.
Proof.
  intro H. apply functional_extensionality. intro k. apply functional_extensionality. intro q.
  clear - H. revert a b c H. induction ks as [|k0 t IH]; intros a b c H; cbn [unflat r0 ROps]; [ring|].
  destruct (k =? k0)%nat; [destruct (q <? pdim k0)%nat; [apply H|ring]|].
  apply IH. intro i. rewrite !nth_skip. apply H.
Qed.
Lemma unflat_flat (D : nat -> rvec) k q : NoDup ks -> In k ks -> (q < pdim k)%nat -> unflat pdim ks (flat pdim ks D) k q = D k q.
Proof.
  intros ND Hk Hq. unfold flat. clear - ND Hk Hq. induction ks as [|k0 t IH]; [contradiction|]. inversion ND as [|? ? Hni ND']; subst. cbn [unflat flat_map].
  destruct (Nat.eqb_spec k k0) as [->|Hne].
  - apply Nat.ltb_lt in Hq as Hb. rewrite Hb. rewrite app_nth1 by (rewrite map_length, seq_length; auto). cbn [r0 ROps].
    rewrite (nth_indep _ 0 (D k0 0%nat)) by (rewrite map_length, seq_length; auto). rewrite map_nth, seq_nth by auto. reflexivity.
  - destruct Hk as [->|Hk]; [congruence|]. rewrite skipn_app, skipn_all2 by (rewrite map_length, seq_length; auto).
    rewrite map_length, seq_length, Nat.sub_diag. cbn. apply IH; auto.
Qed.
Lemma sum_pos {A} (L : list A) (f : A -> R) a : (forall x, In x L -> 0 <= f x) -> In a L -> 0 < f a -> 0 < suml L f.
Proof.
  intros H Hin Ha. assert (G : forall L, (forall x, In x L -> 0 <= f x) -> 0 <= suml L f).
  { clear. induction L as [|x t IH]; intro H; cbn; [lra|]. specialize (H x (or_introl eq_refl)) as H0. specialize (IH ltac:(intros; apply H; right; auto)). lra. }
  induction L as [|x t IH]; [contradiction|]. cbn. destruct Hin as [->|Hin].
  - specialize (G t ltac:(intros; apply H; right; auto)). lra.
  - specialize (IH ltac:(intros; apply H; right; auto) Hin). specialize (H x (or_introl eq_refl)). lra.
Qed.
Lemma dot_sq n (v : rvec) : 0 <= dot n v v.
Proof. unfold dot. induction n as [|n IH]; cbn; [lra|]. cbn in IH. pose proof (Rle_0_sqr (v n)) as H. unfold Rsqr in H. lra. Qed.
Lemma dot_sq_pos n (v : rvec) q : (q < n)%nat -> v q <> 0 -> 0 < dot n v v.
Proof.
  intros Hq Hv. unfold dot. induction n as [|n IH]; [lia|]. cbn. destruct (Nat.eq_dec q n) as [->|Hne].
  - pose proof (dot_sq n v) as H. unfold dot in H. cbn in H. pose proof (Rsqr_pos_lt _ Hv) as H2. unfold Rsqr in H2. lra.
  - specialize (IH ltac:(lia)). cbn in IH. pose proof (Rle_0_sqr (v n)) as H2. unfold Rsqr in H2. lra.
Qed.

(** at a point that is not stationary, every small enough learning rate reduces the total error *)
Theorem C61_small_rate_reduces_error j D : (j < size)%nat -> derivable_pt_lim (fun z => total (upd j z th)) (nth j th 0) D -> D <> 0 ->
  exists eta, 0 < eta /\ forall owns rate derivs, 0 < rate < eta -> length derivs = size ->
    exists t', train true owns l (new_trainer rate th derivs) = Ok (t', total th, suml l (pond th)) /\ total (t_params t') < total th.
Proof.
  intros Hj HD Hnz. pose proof HT as (W & HL & Hg & (ND & Hks)).
  set (Dq := fun sq => r_d (fst (fst (rec_calc (/ 2) N (unflat pdim ks th) sq fresh)))).
  set (Da := fun k q => suml l (fun sq => Dq sq k q)). set (g := flat pdim ks Da).
  assert (Hgi : forall i, suml l (fun sq => nth i (grad th sq) 0) = nth i g 0).
  { intro i. destruct (Nat.lt_ge_cases i size) as [Hi|Hi].
    - destruct (locate ks pdim i th ND Hth Hi) as (k & q & _ & _ & HF & _). unfold g. rewrite HF. unfold Da. apply suml_ext. intros sq _. unfold net_grad. rewrite HF. reflexivity.
    - unfold g. rewrite nth_overflow by (rewrite flat_len; auto). apply (suml_zero (L := RLaws)). intros sq _. apply nth_overflow. unfold net_grad. rewrite flat_len. auto. }
  assert (Hgj : nth j g 0 = - D).
  { assert (HD' : derivable_pt_lim (fun z => total (upd j z th)) (nth j th 0) (suml l (fun sq => - nth j (grad th sq) 0))).
    { apply (dsum l (fun sq z => err (upd j z th) sq)). intros sq Hin. apply C61_partial_derivatives; auto. }
    rewrite (uniqueness_limite _ _ _ _ HD HD'), <- Hgi. rewrite suml_opp. ring. }
  set (dP := unflat pdim ks g).
  set (F := fun z => suml l (fun sq => sequence_error N sq (rec_outs N (fun k q => unflat pdim ks th k q + z * dP k q) sq fresh))).
  set (c := suml ks (fun k => dot (pdim k) (Da k) (Da k))).
  assert (Hc : 0 < c).
  { destruct (locate ks pdim j th ND Hth Hj) as (k & q & Hk & Hq & HF & _). apply (sum_pos ks _ k); auto.
    - intros x _. apply dot_sq.
    - apply (dot_sq_pos _ _ q); auto. rewrite <- HF. fold g. rewrite Hgj. lra. }
  assert (HF : derivable_pt_lim F 0 (- c)).
  { replace (- c) with (suml l (fun sq => - suml ks (fun k => dot (pdim k) (Dq sq k) (dP k)))).
    - apply (dsum l (fun sq z => sequence_error N sq (rec_outs N (fun k q => unflat pdim ks th k q + z * dP k q) sq fresh))). intros sq Hin.
      destruct (rec_calc_gradient N (unflat pdim ks th) dP sq fresh ks pdim W HL Hg (conj ND Hks) ltac:(cbn; lia) (Hsm sq Hin)) as (s' & Ec & Hcg).
      unfold Dq. rewrite Ec. cbn [fst]. eapply dlim_val; [|exact Hcg]. f_equal. apply suml_ext. intros k _. unfold dot. apply sumn_ext. intros q _. cbn. unfold zvec. cbn. ring.
    - unfold c. transitivity (- suml l (fun sq => suml ks (fun k => dot (pdim k) (Dq sq k) (dP k)))).
      { apply suml_opp. }
      f_equal. transitivity (suml l (fun sq => suml ks (fun k => dot (pdim k) (Dq sq k) (Da k)))).
      { apply suml_ext. intros sq _. apply suml_ext. intros k Hk. unfold dot. apply sumn_ext. intros q Hq. unfold dP, g. rewrite unflat_flat by auto. reflexivity. }
      apply suml_dot. }
  assert (HTot : forall th', total th' = suml l (fun sq => sequence_error N sq (rec_outs N (unflat pdim ks th') sq fresh))).
  { intro th'. unfold total. apply suml_ext. intros sq _. apply net_err_E. exact HT. }
  destruct (HF (c / 2) ltac:(lra)) as (del & Hdel). exists del. split; [apply cond_pos|]. intros owns rate derivs Hr Hd.
  destruct (first_epoch owns rate derivs Hd) as (t' & E & L & M). exists t'. split; [exact E|].
  assert (E1 : total (t_params t') = F rate).
  { rewrite HTot. unfold F. apply suml_ext. intros sq _. rewrite (unflat_line (t_params t') th g rate); [reflexivity|]. intro i. rewrite M, Hgi. reflexivity. }
  assert (E0 : total th = F 0).
  { rewrite HTot. unfold F. apply suml_ext. intros sq _. rewrite (unflat_line th th g 0) at 1; [reflexivity|]. intro i. ring. }
  rewrite E1, E0. specialize (Hdel rate ltac:(lra) ltac:(rewrite Rabs_right; lra)). rewrite Rplus_0_l in Hdel.
  apply Rabs_def2 in Hdel. destruct Hdel as [H1 _].
  assert (H2 : (F rate - F 0) / rate < 0) by lra.
  assert (H3 : F rate - F 0 = (F rate - F 0) / rate * rate) by (field; lra).
  pose proof (Rmult_lt_compat_r rate _ 0 (proj1 Hr) H2) as H4. rewrite <- H3, Rmult_0_l in H4. lra.
Qed.
End Descends.
Print Assumptions C61_batch_descends.
Print Assumptions C61_small_rate_reduces_error.

(** ** Cases *)
(** the recurrent network of C18_example can be trained, and is smooth on every sequence *)
Example C61_example_trainable rec : trainable (rN rec) [0; 1; 2; 3; 4; 5]%nat rpdim /\ forall P sq s, smooth_run (rN rec) P sq s.
Proof. destruct (C18_example rec) as (A & B & C & D & E & _). split; [split; auto|]. intros P sq s m t Hm _. apply E. exact Hm. Qed.

(** one linear unit behind one weight 2; input 3, target 5: the output is 6, the derivative -3 *)
Definition oneN : rnet := mknet (fun _ => linear_layer 1) [0; 1]%nat
  (fun m => match m with 0%nat => [mkconn 0 1 0 1 0 1 CFull 0] | _ => [] end) [] [0]%nat [1]%nat.
Definition oneS : @sample R := mksample (fun _ => 3%R) (fun _ => 5%R) None.
Example C61_example_one : trainable oneN [0]%nat (fun _ => 1%nat) /\ (forall P sq s, smooth_run oneN P sq s) /\
  net_grad oneN [0]%nat (fun _ => 1%nat) [2%R] [oneS] = [(-3)%R] /\ net_err oneN [0]%nat (fun _ => 1%nat) [2%R] [oneS] = (/ 2)%R.
Proof.
  split; [split; [|split; [|split]]|split; [|split]].
  - split.
    + repeat constructor; cbn; intuition discriminate.
    + assert (B : before 0%nat 1%nat [0; 1]%nat) by (exists [], [], []; reflexivity).
      intros m c Hm Hc. cbn in Hm, Hc. destruct Hm as [<-|[<-|[]]]; cbn in Hc; intuition; subst c; cbn; auto; unfold wf_conn; cbn; lia.
    + intros c [].
    + split; [repeat constructor; cbn; intuition discriminate|]. intros a [<-|[]]. cbn; auto.
    + split; [repeat constructor; cbn; intuition discriminate|]. intros a [<-|[]]. cbn; auto.
  - intros m _. apply linear_local.
  - intros c Hc. cbn in Hc. intuition; subst c; unfold good_conn; cbn; auto.
  - split; [repeat constructor; cbn; intuition discriminate|]. intros c Hc. cbn in Hc. intuition; subst c; cbn; auto.
  - intros P sq s m t Hm _. apply linear_diff.
  - unfold net_grad, flat. cbn. f_equal. unfold zvec. cbn. ring.
  - unfold net_err. cbn. unfold sample_error. cbn. unfold zvec. cbn. field.
Qed.
Example C61_example_reduces : exists eta, (0 < eta)%R /\ forall owns rate derivs, (0 < rate < eta)%R -> length derivs = 1%nat ->
  exists t', train (net_err oneN [0]%nat (fun _ => 1%nat)) (net_pond oneN [0]%nat (fun _ => 1%nat)) (net_grad oneN [0]%nat (fun _ => 1%nat)) 0%R 1%R 0%R
    true owns [[oneS]] (new_trainer rate [2%R] derivs) = Ok (t', total oneN [0]%nat (fun _ => 1%nat) [[oneS]] [2%R], suml [[oneS]] (net_pond oneN [0]%nat (fun _ => 1%nat) [2%R])) /\
    (total oneN [0]%nat (fun _ => 1%nat) [[oneS]] (t_params t') < total oneN [0]%nat (fun _ => 1%nat) [[oneS]] [2%R])%R.
Proof.
  destruct C61_example_one as (A & B & C & _).
  apply (C61_small_rate_reduces_error oneN [0]%nat (fun _ => 1%nat) A [2%R] [[oneS]] eq_refl ltac:(discriminate) (fun sq _ => B _ sq fresh) 0%R 1%R 0%R 0%nat 3%R); [cbn; lia| |lra].
  pose proof (C61_partial_derivatives oneN [0]%nat (fun _ => 1%nat) [2%R] [oneS] 0%nat A eq_refl ltac:(cbn; lia) (B _ _ _)) as H. rewrite C in H. cbn [nth] in *.
  intros eps He. destruct (H eps He) as (del & Hd). exists del. intros h Hh Hb. specialize (Hd h Hh Hb). unfold total. cbn [suml]. cbn [radd r0 ROps].
  rewrite !Rplus_0_r. replace (- -3)%R with 3%R in Hd by ring. exact Hd.
Qed.

(** whole numbers: a sample s asks for the parameter to be s; half of the squared distance is the error *)
Local Open Scope Z_scope.
Definition zerr (th : list Z) (s : Z) : Z := (s - nth 0 th 0) * (s - nth 0 th 0).
Definition zgrad (th : list Z) (s : Z) : list Z := [s - nth 0 th 0].
Definition ztrain := train zerr (fun _ _ => 1) zgrad.
Definition zrun := trun zerr (fun _ _ => 1) zgrad.
Lemma zgrad_len th s : length th = 1%nat -> length (zgrad th s) = 1%nat.
Proof. reflexivity. Qed.
(** online 5 then 7 with rate 1, momentum 2, then a batch epoch of 1 and 4 *)
Example C61_nonvacuous : let r := zrun 2 1 0 false (new_trainer 1 [0] [9]) [OTrain false [5; 7]; OTrain true [1; 4]; OTrain false [3]] in
  match r with Ok t => t_params t = t_values t /\ t_params t = [-7] /\ t_epoch t = 3%nat /\ t_shared t = true | Err _ => False end.
Proof. vm_compute. auto. Qed.

(** Read as "train() improves the module it is given": parameters written into the module are lost.  This is
    what trainUntilConvergence does when it puts the best parameters back, and what loading parameters by hand does. *)
Theorem C61_outside_write_refuted : exists t0 t1 t2,
  zrun 0 1 0 false (new_trainer 1 [0] [0]) [OTrain false [5]] = Ok t0 /\ t_params t0 = [5] /\
  write_params [100] t0 = Ok t1 /\ t_params t1 = [100] /\
  zrun 0 1 0 false t1 [OTrain false [7]] = Ok t2 /\ t_params t2 = [-88].     (* descent from 100 would have given 7 *)
Proof. eexists. eexists. eexists. vm_compute. repeat split; reflexivity. Qed.
(** after a batch epoch the arrays are shared, and the write counts *)
Example C61_shared_write : exists t0 t1 t2,
  zrun 0 1 0 false (new_trainer 1 [0] [0]) [OTrain true [5]] = Ok t0 /\ t_shared t0 = true /\
  write_params [100] t0 = Ok t1 /\ zrun 0 1 0 false t1 [OTrain false [7]] = Ok t2 /\ t_params t2 = [7].
Proof. eexists. eexists. eexists. vm_compute. repeat split; reflexivity. Qed.

(** Weight decay: in batch mode it has no effect at all; online it has. *)
Theorem C61_batch_ignores_weightdecay (K : Type) (Ops : RingOps K) (X : Type) (err pond : list K -> X -> K) grad momentum alphadecay w w' owns l (t : @trainer K) :
  train err pond grad momentum alphadecay w true owns l t = train err pond grad momentum alphadecay w' true owns l t.
Proof.
  unfold train. destruct l as [|s r]; [reflexivity|]. generalize (s :: r). intro l.
  assert (H : forall l t e p, train_loop err pond grad momentum alphadecay w true l t e p = train_loop err pond grad momentum alphadecay w' true l t e p).
  { induction l0 as [|a t0 IH]; intros; cbn [train_loop]; auto. }
  rewrite H. reflexivity.
Qed.
Theorem C61_weightdecay_refuted : exists t1 t2 t3 e p e' p' e'' p'',
  ztrain 0 1 0 true false [5] (new_trainer 1 [2] [0]) = Ok (t1, e, p) /\ ztrain 0 1 1 true false [5] (new_trainer 1 [2] [0]) = Ok (t2, e', p') /\
  t_params t1 = t_params t2 /\
  ztrain 0 1 1 false false [5] (new_trainer 1 [2] [0]) = Ok (t3, e'', p'') /\ t_params t3 <> t_params t1.
Proof. do 9 eexists. split; [vm_compute; reflexivity|]. split; [vm_compute; reflexivity|]. split; [reflexivity|]. split; [vm_compute; reflexivity|]. vm_compute. discriminate. Qed.
Print Assumptions C61_online_epoch.
Print Assumptions C61_batch_epoch.
Print Assumptions C61_batch_order.
Print Assumptions C61_in_sync.
Print Assumptions C61_outside_write.
Print Assumptions C61_outside_write_refuted.
Print Assumptions C61_batch_ignores_weightdecay.
Print Assumptions C61_weightdecay_refuted.
