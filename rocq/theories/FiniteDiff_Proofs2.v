(** Proofs about the finite-difference searches: invariants of SPSA and PGPE, regression in FiniteDifferences. *)
From Coq Require Import Reals Lra.
From Verif Require Import Base Functions_Model FiniteDiff_Model FiniteDiff_Spec FiniteDiff_Proofs.
Local Open Scope R_scope.

Lemma iter_snoc {A S} (step : A -> S -> result S) l a s : iter step (l ++ [a]) s = rbind (iter step l s) (step a).
Proof.
  revert s. induction l as [|x l IH]; intro s; cbn [app iter].
  - cbn. destruct (step a s); auto.
  - destruct (step x s); cbn [rbind]; auto.
Qed.

Section S.
Context (decay : R) (mi : bool) (f : vec -> R).

(** ** SPSA *)
Definition spsa_inv (n k : nat) (alpha eps gamma : R) (s : spsa) : Prop :=
  length (sp_current s) = n /\ gd_values (sp_gd s) = sp_current s /\ length (gd_mv (sp_gd s)) = n /\
  gd_alpha (sp_gd s) = alpha * decay ^ k /\ sp_epsilon s = eps * gamma ^ k /\
  (if (k =? 0)%nat then sp_baseline s = None /\ sp_best s = None else sp_baseline s <> None /\ sp_best s <> None).
Definition is_sign (a : R) : Prop := a = 1 \/ a = -1.
Lemma spsa_init_inv n alpha eps gamma x0 : length x0 = n -> spsa_inv n 0 alpha eps gamma (spsa_init alpha eps x0).
Proof. intro H. repeat split; cbn; rewrite ?map_length; auto; ring. Qed.
Lemma spsa_step_inv n k alpha eps gamma signs s : spsa_inv n k alpha eps gamma s -> eps * gamma ^ k <> 0 -> length signs = n -> Forall is_sign signs ->
  let d := map (fun a => a * (eps * gamma ^ k)) signs in
  let r1 := f (along (sp_current s) 1 d) in
  let r2 := f (along (sp_current s) (-1) d) in
  exists s' phi, spsa_learnStep 0 decay mi f gamma signs s = Ok s' /\ spsa_inv n (S k) alpha eps gamma s' /\
    sp_current s' = along (sp_current s) (alpha * decay ^ k * (phi * gamma ^ 2)) d /\ Rabs phi <= 1 /\
    (k = 0%nat -> phi = 0) /\ ((0 < k)%nat -> (better_than mi r1 r2 -> 0 < phi) /\ (better_than mi r2 r1 -> phi < 0) /\ (r1 = r2 -> phi = 0)).
Proof.
  intros (Hc & Hv & Hm & Ha & He & Hb) Hne Hs Hsig. cbv zeta. destruct s as [cur g e bl be]. cbn [sp_current sp_gd sp_epsilon sp_baseline sp_best] in *.
  subst e. set (e := eps * gamma ^ k) in *. set (d := map (fun a => a * e) signs).
  assert (Hd : length d = n) by (unfold d; rewrite map_length; auto).
  unfold spsa_learnStep. cbn [sp_current sp_gd sp_epsilon sp_baseline sp_best]. fold d.
  assert (E1 : rzip Rplus cur d = along cur 1 d).
  { apply vec_eq with (n := n); [apply rzip_length; auto|apply along_length; auto|]. intros i Hi.
    rewrite nth_along, nth_rzip with (d := 0) (e := 0) by lia. ring. }
  assert (E2 : rzip Rminus cur d = along cur (-1) d).
  { apply vec_eq with (n := n); [apply rzip_length; auto|apply along_length; auto|]. intros i Hi.
    rewrite nth_along, nth_rzip with (d := 0) (e := 0) by lia. ring. }
  rewrite E1, E2. set (r1 := f (along cur 1 d)). set (r2 := f (along cur (-1) d)).
  set (best := upd_best mi (Some (upd_best mi be r1)) r2).
  assert (Hstep : forall b phi, exists s', (let! g0 := gd_call 0 decay g (map (fun x => phi * (e * gamma) * (e * gamma) / x) d) in
       Ok (mkspsa (gd_values g0) g0 (e * gamma) (Some b) (Some best))) = Ok s' /\ spsa_inv n (S k) alpha eps gamma s' /\
       sp_current s' = along cur (alpha * decay ^ k * (phi * gamma ^ 2)) d).
  { intros b phi. destruct g as [gv gm ga]. cbn [gd_values gd_mv gd_alpha] in *. subst gv ga.
    destruct (gd_step decay (alpha * decay ^ k) cur gm (map (fun x => phi * (e * gamma) * (e * gamma) / x) d) n) as (g' & -> & Hg1 & Hg2 & Hg3); auto.
    { rewrite map_length; auto. }
    cbn [rbind]. eexists. split; [reflexivity|].
    assert (Hcur : gd_values g' = along cur (alpha * decay ^ k * (phi * gamma ^ 2)) d).
    { rewrite Hg1. apply vec_eq with (n := n).
      - apply along_length; auto. rewrite map_length; auto. - apply along_length; auto.
      - intros i Hi. rewrite !nth_along by (rewrite ?map_length; lia). rewrite nth_map0 by lia.
        assert (Hdi : nth i d 0 * nth i d 0 = e * e /\ nth i d 0 <> 0).
        { unfold d. rewrite nth_map0 by lia. rewrite Forall_forall in Hsig.
          destruct (Hsig (nth i signs 0)) as [->| ->]; [apply nth_In; lia| |]; split; try ring; lra. }
        destruct Hdi as [Hdd Hd0]. f_equal. transitivity (alpha * decay ^ k * (phi * gamma ^ 2) * (e * e / nth i d 0)).
        { field. auto. } rewrite <- Hdd. field. auto. }
    split; [|exact Hcur]. cbn [sp_current]. repeat split; cbn; auto.
    - rewrite Hcur. apply along_length; auto.
    - rewrite Hg2. ring. - unfold e. ring. - discriminate. - discriminate. }
  destruct k as [|k].
  - cbn [Nat.eqb] in Hb. destruct Hb as [-> _]. cbn [rbind fst snd].
    destruct (Hstep (0.9 * ((r1 + r2) / 2 * 0.99) + 0.1 * ((r1 + r2) / 2)) 0) as (s' & A & B & C).
    exists s', 0. split; [exact A|]. split; [exact B|]. split; [exact C|]. rewrite Rabs_R0. repeat split; try lra; lia.
  - cbn [Nat.eqb] in Hb. destruct Hb as [Hb _]. destruct bl as [b0|]; [|congruence].
    destruct (fakt_ok mi best r1 r2 (best_two mi be r1 r2)) as (phi & -> & F1 & F2 & F3 & F4). cbn [rbind fst snd].
    destruct (Hstep (0.9 * b0 + 0.1 * ((r1 + r2) / 2)) phi) as (s' & A & B & C).
    exists s', phi. split; [exact A|]. split; [exact B|]. split; [exact C|]. split; [exact F1|]. split; [lia|]. auto.
Qed.
Lemma spsa_reach n alpha eps gamma x0 : length x0 = n -> eps <> 0 -> gamma <> 0 -> forall hist, Forall (fun g => length g = n /\ Forall is_sign g) hist ->
  exists s, iter (spsa_learnStep 0 decay mi f gamma) hist (spsa_init alpha eps x0) = Ok s /\ spsa_inv n (length hist) alpha eps gamma s.
Proof.
  intros Hx He Hg hist. induction hist as [|signs hist IH] using rev_ind; intro Hh.
  - eexists. split; [reflexivity|]. apply spsa_init_inv; auto.
  - apply Forall_app in Hh. destruct Hh as [Hh Hl]. inversion Hl as [|? ? [L1 L2] _]; subst. destruct (IH Hh) as (s & E & I).
    rewrite iter_snoc, E. cbn [rbind].
    destruct (spsa_step_inv _ _ _ _ _ signs s I) as (s' & phi & A & B & _); auto.
    { apply Rmult_integral_contrapositive_currified; auto. apply pow_nonzero; auto. }
    exists s'. split; [exact A|]. rewrite app_length. cbn. rewrite Nat.add_1_r. exact B.
Qed.

(** ** PGPE *)
Definition not_beyond (best b : R) : Prop := if mi then best <= b else b <= best.
Definition pgpe_inv (n k : nat) (alpha asig : R) (s : pgpe) : Prop :=
  length (pg_current s) = n /\ gd_values (pg_gd s) = pg_current s /\ length (gd_mv (pg_gd s)) = n /\ gd_alpha (pg_gd s) = alpha * decay ^ k /\
  length (pg_sig s) = n /\ gd_values (pg_gdsig s) = pg_sig s /\ length (gd_mv (pg_gdsig s)) = n /\ gd_alpha (pg_gdsig s) = asig /\
  Forall (fun x => 0 < x) (pg_sig s) /\
  match k with
  | O => pg_baseline s = None /\ pg_best s = None
  | S _ => exists b be, pg_baseline s = Some b /\ pg_best s = Some be /\ not_beyond be b
  end.
Lemma pgpe_init_inv n alpha asig eps x0 : length x0 = n -> 0 < eps -> pgpe_inv n 0 alpha asig (pgpe_init alpha asig eps x0).
Proof.
  intros H He. repeat split; cbn; rewrite ?map_length; auto; try ring. apply Forall_forall. intros x Hx. apply in_map_iff in Hx.
  destruct Hx as (? & <- & _). auto.
Qed.
Lemma fakt2_facts best m b : not_beyond best m -> not_beyond best b ->
  let y := if Req_EM_T (best - b) 0 then 0 else (m - b) / (best - b) in y <= 1 /\ (0 < y <-> better_than mi m b).
Proof.
  unfold not_beyond, better_than. intros Hm Hb. cbv zeta. destruct (Req_EM_T (best - b) 0) as [E|E].
  - split; [lra|]. destruct mi; split; lra.
  - set (q := best - b) in *. assert (Hy : (m - b) / q * q = m - b) by (field; auto). set (y := (m - b) / q) in *.
    split; [|split; intro].
    + apply Rnot_lt_le. intro. destruct mi; unfold q in *; nra.
    + destruct mi; unfold q in *; nra.
    + destruct mi; unfold q in *; apply Rnot_le_lt; intro; nra.
Qed.
Lemma Forall_nth_pos (l : vec) : Forall (fun x => 0 < x) l <-> forall i, (i < length l)%nat -> 0 < nth i l 0.
Proof.
  split.
  - intros H i Hi. rewrite Forall_forall in H. apply H. apply nth_In; auto.
  - intro H. apply Forall_forall. intros x Hx. apply In_nth with (d := 0) in Hx. destruct Hx as (i & Hi & <-). auto.
Qed.
Lemma pgpe_step_inv n k alpha asig w d s : pgpe_inv n k alpha asig s -> 0 <= asig < 1 -> length d = n ->
  let r1 := f (along (pg_current s) 1 d) in
  let r2 := f (along (pg_current s) (-1) d) in
  let m := (r1 + r2) / 2 in
  exists s' phi psi, pgpe_learnStep 0 decay mi f Local w d s = Ok s' /\ pgpe_inv n (S k) alpha asig s' /\
    (forall i, (i < n)%nat -> nth i (pg_current s') 0 = nth i (pg_current s) 0
        + alpha * decay ^ k * (phi * nth i d 0 - nth i (pg_current s) 0 * nth i (pg_sig s) 0 * w)) /\
    (forall i, (i < n)%nat -> nth i (pg_sig s') 0 = nth i (pg_sig s) 0 + asig * psi * (nth i d 0 ^ 2 - nth i (pg_sig s) 0 ^ 2) / nth i (pg_sig s) 0) /\
    Rabs phi <= 1 /\ 0 <= psi <= 1 /\
    (k = 0%nat -> phi = 0 /\ psi = 0 /\ pg_baseline s' = Some m) /\
    ((0 < k)%nat -> exists b, pg_baseline s = Some b /\ pg_baseline s' = Some (0.9 * b + 0.1 * m) /\ (0 < psi <-> better_than mi m b) /\
        (better_than mi r1 r2 -> 0 < phi) /\ (better_than mi r2 r1 -> phi < 0) /\ (r1 = r2 -> phi = 0)).
Proof.
  intros (Hc & Hv & Hm & Ha & Hsl & Hsv & Hsm & Hsa & Hpos & Hb) Has Hd. cbv zeta.
  destruct s as [cur g sg gs bl be]. cbn [pg_current pg_gd pg_sig pg_gdsig pg_baseline pg_best] in *.
  unfold pgpe_learnStep. cbn [pg_current pg_gd pg_sig pg_gdsig pg_baseline pg_best].
  assert (E1 : rzip Rplus cur d = along cur 1 d).
  { apply vec_eq with (n := n); [apply rzip_length; auto|apply along_length; auto|]. intros i Hi.
    rewrite nth_along, nth_rzip with (d := 0) (e := 0) by lia. ring. }
  assert (E2 : rzip Rminus cur d = along cur (-1) d).
  { apply vec_eq with (n := n); [apply rzip_length; auto|apply along_length; auto|]. intros i Hi.
    rewrite nth_along, nth_rzip with (d := 0) (e := 0) by lia. ring. }
  rewrite E1, E2. set (r1 := f (along cur 1 d)). set (r2 := f (along cur (-1) d)). set (m := (r1 + r2) / 2).
  set (best := upd_best mi (Some (upd_best mi be r1)) r2).
  destruct g as [gv gm ga], gs as [sv sm sa]. cbn [gd_values gd_mv gd_alpha] in *. subst gv ga sv sa.
  pose proof (best_two mi be r1 r2) as Htwo. cbv zeta in Htwo. fold best in Htwo.
  assert (Hbm : not_beyond best m) by (unfold not_beyond, m; destruct mi; lra).
  (* the common end of all cases *)
  assert (Hend : forall b phi y, Rabs phi <= 1 -> y <= 1 -> not_beyond best b ->
    exists s' psi, (let! g := gd_call 0 decay (mkgd cur gm (alpha * decay ^ k)) (rzip Rminus (map (fun d => phi * d) d) (map (fun a => a * w) (rzip Rmult cur sg))) in
      if Rlt_dec 0 y then let! gs := gd_call 0 1 (mkgd sg sm asig) (rzip (fun d sg => y * (d * d - sg * sg) / sg) d sg) in
        Ok (mkpgpe (gd_values g) g (gd_values gs) gs (Some (0.9 * b + 0.1 * m)) (Some best))
      else Ok (mkpgpe (gd_values g) g sg (mkgd sg sm asig) (Some (0.9 * b + 0.1 * m)) (Some best))) = Ok s' /\ pgpe_inv n (S k) alpha asig s' /\
      (forall i, (i < n)%nat -> nth i (pg_current s') 0 = nth i cur 0 + alpha * decay ^ k * (phi * nth i d 0 - nth i cur 0 * nth i sg 0 * w)) /\
      (forall i, (i < n)%nat -> nth i (pg_sig s') 0 = nth i sg 0 + asig * psi * (nth i d 0 ^ 2 - nth i sg 0 ^ 2) / nth i sg 0) /\
      0 <= psi <= 1 /\ (0 < psi <-> 0 < y) /\ pg_baseline s' = Some (0.9 * b + 0.1 * m)).
  { intros b phi y Hphi Hy Hbb.
    set (gr := rzip Rminus (map (fun d => phi * d) d) (map (fun a => a * w) (rzip Rmult cur sg))).
    assert (Hgr : length gr = n) by (unfold gr; apply rzip_length; rewrite map_length; auto; apply rzip_length; auto).
    destruct (gd_step decay (alpha * decay ^ k) cur gm gr n Hc Hm Hgr) as (g' & -> & Hg1 & Hg2 & Hg3). cbn [rbind].
    assert (Hcur : forall i, (i < n)%nat -> nth i (gd_values g') 0 = nth i cur 0 + alpha * decay ^ k * (phi * nth i d 0 - nth i cur 0 * nth i sg 0 * w)).
    { intros i Hi. rewrite Hg1, nth_along by lia. f_equal. f_equal. unfold gr.
      rewrite nth_rzip with (d := 0) (e := 0) by (rewrite ?map_length, ?rzip_length with (n := n); auto; lia).
      rewrite !nth_map0 by (rewrite ?rzip_length with (n := n); auto; lia). rewrite nth_rzip with (d := 0) (e := 0) by lia. reflexivity. }
    assert (Hlen' : length (gd_values g') = n) by (rewrite Hg1; apply along_length; auto).
    assert (Hbl : not_beyond best (0.9 * b + 0.1 * m)) by (unfold not_beyond in *; destruct mi; lra).
    destruct (Rlt_dec 0 y) as [Yp|Yn].
    - set (gr2 := rzip (fun d sg => y * (d * d - sg * sg) / sg) d sg).
      assert (Hgr2 : length gr2 = n) by (unfold gr2; apply rzip_length; auto).
      destruct (gd_step 1 asig sg sm gr2 n Hsl Hsm Hgr2) as (g2 & -> & Hh1 & Hh2 & Hh3). cbn [rbind].
      eexists _, y. split; [reflexivity|].
      assert (Hsig : forall i, (i < n)%nat -> nth i (gd_values g2) 0 = nth i sg 0 + asig * y * (nth i d 0 ^ 2 - nth i sg 0 ^ 2) / nth i sg 0).
      { intros i Hi. rewrite Hh1, nth_along by lia. f_equal. unfold gr2. rewrite nth_rzip with (d := 0) (e := 0) by lia. unfold Rdiv. ring. }
      assert (Hl2 : length (gd_values g2) = n) by (rewrite Hh1; apply along_length; auto).
      assert (Hp2 : Forall (fun x => 0 < x) (gd_values g2)).
      { apply Forall_nth_pos. rewrite Hl2. intros i Hi. rewrite Hsig by auto. rewrite Forall_nth_pos in Hpos. specialize (Hpos i ltac:(lia)).
        replace (nth i sg 0 + asig * y * (nth i d 0 ^ 2 - nth i sg 0 ^ 2) / nth i sg 0)
          with (nth i sg 0 * (1 - asig * y) + asig * y * (nth i d 0 ^ 2 * / nth i sg 0)) by (field; lra).
        assert (0 <= asig * y) by nra. assert (asig * y < 1) by nra.
        assert (0 <= nth i d 0 ^ 2) by nra. assert (0 < / nth i sg 0) by (apply Rinv_0_lt_compat; auto).
        apply Rplus_lt_le_0_compat; [apply Rmult_lt_0_compat; lra|]. apply Rmult_le_pos; [auto|]. apply Rmult_le_pos; lra. }
      split; [|split; [exact Hcur|split; [exact Hsig|split; [lra|split; [tauto|reflexivity]]]]].
      unfold pgpe_inv. cbn [pg_current pg_gd pg_sig pg_gdsig pg_baseline pg_best]. repeat split; auto.
      + rewrite Hg2. cbn. ring. + rewrite Hh2. ring. + eauto.
    - eexists _, 0. split; [reflexivity|].
      split; [|split; [exact Hcur|split; [|split; [lra|split; [split; intro; lra|reflexivity]]]]].
      + unfold pgpe_inv. cbn [pg_current pg_gd pg_sig pg_gdsig pg_baseline pg_best]. repeat split; auto.
        * rewrite Hg2. cbn. ring. * eauto.
      + intros i Hi. cbn [pg_sig]. unfold Rdiv. ring. }
  destruct k as [|k].
  - destruct Hb as [-> _]. cbn [rbind].
    destruct (Hend m 0 0) as (s' & psi & A & B & C & D & E & G & H); [rewrite Rabs_R0; lra|lra|auto|].
    exists s', 0, psi. split; [exact A|]. split; [exact B|]. split; [exact C|]. split; [exact D|]. split; [rewrite Rabs_R0; lra|]. split; [exact E|].
    split; [|lia]. intros _. split; [auto|]. split; [lra|]. rewrite H. f_equal. lra.
  - destruct Hb as (b & be' & -> & -> & Hbb).
    assert (Hbb' : not_beyond best b).
    { pose proof (upd_best_mono mi (upd_best mi (Some be') r1) r2). pose proof (upd_best_mono mi be' r1). unfold not_beyond, best in *. destruct mi; lra. }
    destruct (fakt_ok mi best r1 r2 Htwo) as (phi & -> & F1 & F2 & F3 & F4). cbn [rbind].
    destruct (fakt2_facts best m b Hbm Hbb') as [Y1 Y2]. set (y := if Req_EM_T (best - b) 0 then 0 else (m - b) / (best - b)) in *.
    destruct (Hend b phi y F1 Y1 Hbb') as (s' & psi & A & B & C & D & E & G & H).
    exists s', phi, psi. split; [exact A|]. split; [exact B|]. split; [exact C|]. split; [exact D|]. split; [exact F1|]. split; [exact E|].
    split; [lia|]. intros _. exists b. split; [auto|]. split; [exact H|]. split; [rewrite G; exact Y2|]. auto.
Qed.
Lemma pgpe_reach n alpha asig eps w x0 : length x0 = n -> 0 < eps -> 0 <= asig < 1 -> forall hist, Forall (fun d => length d = n) hist ->
  exists s, iter (pgpe_learnStep 0 decay mi f Local w) hist (pgpe_init alpha asig eps x0) = Ok s /\ pgpe_inv n (length hist) alpha asig s.
Proof.
  intros Hx He Hg hist. induction hist as [|d hist IH] using rev_ind; intro Hh.
  - eexists. split; [reflexivity|]. apply pgpe_init_inv; auto.
  - apply Forall_app in Hh. destruct Hh as [Hh Hl]. inversion Hl as [|? ? L1 _]; subst. destruct (IH Hh) as (s & E & I).
    rewrite iter_snoc, E. cbn [rbind].
    destruct (pgpe_step_inv _ _ _ _ w d s I Hg L1) as (s' & phi & psi & A & B & _).
    exists s'. split; [exact A|]. rewrite app_length. cbn. rewrite Nat.add_1_r. exact B.
Qed.
End S.

(** ** two runs whose fitness differs by an affine change *)
Definition res_rel {A B} (Rl : A -> B -> Prop) (x : result A) (y : result B) : Prop :=
  match x, y with Ok u, Ok v => Rl u v | Err e, Err e' => e = e' | _, _ => False end.
Lemma iter_rel {A S S'} (Rl : S -> S' -> Prop) (st : A -> S -> result S) (st' : A -> S' -> result S') :
  (forall x s s', Rl s s' -> res_rel Rl (st x s) (st' x s')) -> forall l s s', Rl s s' -> res_rel Rl (iter st l s) (iter st' l s').
Proof.
  intros H l. induction l as [|x l IH]; intros s s' Hr; cbn [iter]; auto.
  pose proof (H x s s' Hr) as Hx. destruct (st x s), (st' x s'); cbn [rbind res_rel] in *; try tauto. apply IH; auto.
Qed.
Section Two.
Context (mi mi' : bool) (a b : R).
Hypothesis Hdir : (0 < a /\ mi' = mi) \/ (a < 0 /\ mi' = negb mi).
Context (f f' : vec -> R).
Hypothesis Hf : forall x, f' x = a * f x + b.
Context (momentum decay : R).
Notation om := (option_map (fun x => a * x + b)).
Definition pg_rel (s s' : pgpe) : Prop :=
  pg_current s' = pg_current s /\ pg_gd s' = pg_gd s /\ pg_sig s' = pg_sig s /\ pg_gdsig s' = pg_gdsig s /\ pg_baseline s' = om (pg_baseline s) /\ pg_best s' = om (pg_best s).
Definition sp_rel (s s' : spsa) : Prop :=
  sp_current s' = sp_current s /\ sp_gd s' = sp_gd s /\ sp_epsilon s' = sp_epsilon s /\ (sp_baseline s' = None <-> sp_baseline s = None) /\ sp_best s' = om (sp_best s).
Lemma best2 be r1 r2 : upd_best mi' (Some (upd_best mi' (om be) (a * r1 + b))) (a * r2 + b) = a * upd_best mi (Some (upd_best mi be r1)) r2 + b.
Proof.
  rewrite (upd_best_affine mi mi' a b Hdir). change (Some (a * upd_best mi be r1 + b)) with (om (Some (upd_best mi be r1))).
  apply (upd_best_affine mi mi' a b Hdir).
Qed.
Lemma pg_step_rel ex w d s s' : pg_rel s s' -> res_rel pg_rel (pgpe_learnStep momentum decay mi f ex w d s) (pgpe_learnStep momentum decay mi' f' ex w d s').
Proof.
  intros (E1 & E2 & E3 & E4 & E5 & E6). unfold pgpe_learnStep. rewrite E1, E2, E3, E4, E5, E6, !Hf, best2.
  set (r1 := f (rzip Rplus (pg_current s) d)). set (r2 := f (rzip Rminus (pg_current s) d)).
  set (be := upd_best mi (Some (upd_best mi (pg_best s) r1)) r2).
  assert (Ha : a <> 0) by (destruct Hdir as [[? _]|[? _]]; lra).
  assert (Em : (a * r1 + b + (a * r2 + b)) / 2 = a * ((r1 + r2) / 2) + b) by field.
  rewrite Em. set (m := (r1 + r2) / 2).
  assert (Hend : forall bl phi y, res_rel pg_rel
     (let! g := gd_call momentum decay (pg_gd s) (rzip Rminus (map (fun d0 => phi * d0) d) (map (fun a0 => a0 * w) (rzip Rmult (pg_current s) (pg_sig s)))) in
      if Rlt_dec 0 y then match ex with Global => Err AttributeError | Cma | Other => Err NotImplementedError
        | Local => let! gs := gd_call 0 1 (pg_gdsig s) (rzip (fun d0 sg => y * (d0 * d0 - sg * sg) / sg) d (pg_sig s)) in
            Ok (mkpgpe (gd_values g) g (gd_values gs) gs (Some (0.9 * bl + 0.1 * m)) (Some be)) end
      else Ok (mkpgpe (gd_values g) g (pg_sig s) (pg_gdsig s) (Some (0.9 * bl + 0.1 * m)) (Some be)))
     (let! g := gd_call momentum decay (pg_gd s) (rzip Rminus (map (fun d0 => phi * d0) d) (map (fun a0 => a0 * w) (rzip Rmult (pg_current s) (pg_sig s)))) in
      if Rlt_dec 0 y then match ex with Global => Err AttributeError | Cma | Other => Err NotImplementedError
        | Local => let! gs := gd_call 0 1 (pg_gdsig s) (rzip (fun d0 sg => y * (d0 * d0 - sg * sg) / sg) d (pg_sig s)) in
            Ok (mkpgpe (gd_values g) g (gd_values gs) gs (Some (0.9 * (a * bl + b) + 0.1 * (a * m + b))) (Some (a * be + b))) end
      else Ok (mkpgpe (gd_values g) g (pg_sig s) (pg_gdsig s) (Some (0.9 * (a * bl + b) + 0.1 * (a * m + b))) (Some (a * be + b))))).
  { intros bl phi y. destruct (gd_call momentum decay (pg_gd s) _) as [g|e]; cbn [rbind]; [|reflexivity].
    assert (Eb : Some (0.9 * (a * bl + b) + 0.1 * (a * m + b)) = om (Some (0.9 * bl + 0.1 * m))) by (cbn; f_equal; lra).
    rewrite Eb. destruct (Rlt_dec 0 y).
    - destruct ex; cbn; auto. destruct (gd_call 0 1 (pg_gdsig s) _) as [gs|e]; cbn [rbind]; [|reflexivity]. repeat split.
    - repeat split. }
  destruct (pg_baseline s) as [bl|]; cbn [option_map rbind].
  - rewrite (fakt_affine mi mi' a b Hdir). destruct (fakt_of be r1 r2) as [phi|e]; cbn [rbind]; [|reflexivity].
    assert (Ey : (if Req_EM_T (a * be + b - (a * bl + b)) 0 then 0 else (a * m + b - (a * bl + b)) / (a * be + b - (a * bl + b)))
                 = (if Req_EM_T (be - bl) 0 then 0 else (m - bl) / (be - bl))).
    { replace (a * be + b - (a * bl + b)) with (a * (be - bl)) by ring.
      destruct (Req_EM_T (a * (be - bl)) 0) as [Z|Z], (Req_EM_T (be - bl) 0) as [Z'|Z']; auto.
      - exfalso. apply Rmult_integral in Z. tauto.
      - exfalso. apply Z. rewrite Z'. ring.
      - field. auto. }
    rewrite Ey. apply Hend.
  - apply Hend.
Qed.
Lemma sp_step_rel gamma d s s' : sp_rel s s' -> res_rel sp_rel (spsa_learnStep momentum decay mi f gamma d s) (spsa_learnStep momentum decay mi' f' gamma d s').
Proof.
  intros (E1 & E2 & E3 & E5 & E6). unfold spsa_learnStep. rewrite E1, E2, E3, E6, !Hf, best2.
  set (dd := map (fun a0 => a0 * sp_epsilon s) d).
  set (r1 := f (rzip Rplus (sp_current s) dd)). set (r2 := f (rzip Rminus (sp_current s) dd)).
  set (be := upd_best mi (Some (upd_best mi (sp_best s) r1)) r2).
  assert (Hend : forall bl bl' phi, res_rel sp_rel
     (let! g := gd_call momentum decay (sp_gd s) (map (fun x => phi * (sp_epsilon s * gamma) * (sp_epsilon s * gamma) / x) dd) in
      Ok (mkspsa (gd_values g) g (sp_epsilon s * gamma) (Some bl) (Some be)))
     (let! g := gd_call momentum decay (sp_gd s) (map (fun x => phi * (sp_epsilon s * gamma) * (sp_epsilon s * gamma) / x) dd) in
      Ok (mkspsa (gd_values g) g (sp_epsilon s * gamma) (Some bl') (Some (a * be + b))))).
  { intros bl bl' phi. destruct (gd_call momentum decay (sp_gd s) _) as [g|e]; cbn; [|reflexivity]. repeat split; discriminate. }
  destruct (sp_baseline s) as [bl|], (sp_baseline s') as [bl'|]; try (exfalso; destruct E5 as [U V]; (discriminate (U eq_refl) || discriminate (V eq_refl))); cbn [rbind].
  - rewrite (fakt_affine mi mi' a b Hdir). destruct (fakt_of be r1 r2) as [phi|e]; cbn [rbind fst snd]; [|reflexivity]. apply Hend.
  - cbn [fst snd]. apply Hend.
Qed.
End Two.

(** ** FiniteDifferences *)
Lemma rdot_cons a b x y : rdot (a :: x) (b :: y) = a * b + rdot x y.
Proof. reflexivity. Qed.
Lemma rdot_along p : forall u k v, length p = length u -> length u = length v -> rdot p (along u k v) = rdot p u + k * rdot p v.
Proof.
  induction p as [|a p IH]; intros [|x u] k [|y v]; cbn [length]; intros H1 H2; try lia; [unfold rdot; cbn; ring|].
  change (along (x :: u) k (y :: v)) with ((x + k * y) :: along u k v). rewrite !rdot_cons, IH by lia. ring.
Qed.
Section FdP.
Context (momentum decay : R) (mi : bool) (f : vec -> R).
Lemma batch_facts gamma us : forall s s' D Rs, fd_batch mi f gamma us s = (s', D, Rs) ->
  fd_current s' = fd_current s /\ fd_gd s' = fd_gd s /\ fd_epsilon s' = fd_epsilon s * gamma ^ length us /\
  D = map (fun iu => map (fun a => fd_epsilon s * gamma ^ fst iu * a) (snd iu)) (combine (seq 0 (length us)) us) /\
  Rs = map (fun d => f (rzip Rplus (fd_current s) d)) D.
Proof.
  induction us as [|u us IH]; intros s s' D Rs; cbn [fd_batch].
  - intro H. injection H as <- <- <-. repeat split; cbn; ring.
  - set (s1 := mkfd _ _ _ _). destruct (fd_batch mi f gamma us s1) as [[s2 D2] R2] eqn:E. intro H. injection H as <- <- <-.
    destruct (IH _ _ _ _ E) as (A & B & C & D & F). subst s1. cbn [fd_current fd_gd fd_epsilon] in *.
    split; [auto|]. split; [auto|]. split; [rewrite C; cbn; ring|].
    assert (E0 : map (fun a => fd_epsilon s * a) u = map (fun a => fd_epsilon s * gamma ^ 0 * a) u) by (apply map_ext; intro; cbn; ring).
    split.
    + cbn [length seq combine map fst snd]. rewrite E0. f_equal. rewrite D. rewrite <- (seq_shift (length us) 0). clear.
      generalize (seq 0 (length us)) as l. induction us as [|v us IH]; intros [|i l]; cbn [combine map fst snd]; auto. f_equal; [|apply IH].
      apply map_ext. intro x. cbn. ring.
    + cbn [map]. f_equal. exact F.
Qed.
(** the deviations actually tried in one step *)
Definition deviations (eps gamma : R) (us : list vec) : list vec :=
  map (fun iu => map (fun a => eps * gamma ^ fst iu * a) (snd iu)) (combine (seq 0 (length us)) us).
Lemma fd_step_eq pinv gamma us s : fd_learnStep momentum decay mi f pinv gamma us s =
  let D := deviations (fd_epsilon s) gamma us in
  let! g := gd_call momentum decay (fd_gd s) (mat_vec (pinv D) (map (fun d => f (rzip Rplus (fd_current s) d)) D)) in
  Ok (mkfd (gd_values g) g (fd_epsilon s * gamma ^ length us) (fd_best (fst (fst (fd_batch mi f gamma us s))))).
Proof.
  unfold fd_learnStep. destruct (fd_batch mi f gamma us s) as [[s' D] Rs] eqn:E. destruct (batch_facts _ _ _ _ _ _ E) as (A & B & C & D' & F).
  cbv zeta. unfold deviations. rewrite <- D', <- F, B, C. reflexivity.
Qed.
End FdP.
Lemma regression n (D P : list vec) a c vals : inverts n D P -> spanning n D -> length a = n -> Forall (fun p => length p = length D) P ->
  vals = map (fun d => rdot d a + c) D ->
  mat_vec P vals = along a c (mat_vec P (map (fun _ => 1) D)).
Proof.
  intros [HP Hi] Hs Ha HPl ->.
  assert (E : map (fun d => rdot d a + c) D = along (mat_vec D a) c (map (fun _ => 1) D)).
  { unfold mat_vec. clear. induction D as [|d D IH]; auto. change (along (map (fun row : list R => rdot row a) (d :: D)) c (map (fun _ => 1) (d :: D)))
      with ((rdot d a + c * 1) :: along (map (fun row : list R => rdot row a) D) c (map (fun _ => 1) D)). cbn [map]. rewrite IH. f_equal. ring. }
  rewrite E. unfold mat_vec at 1.
  assert (E2 : map (fun p => rdot p (along (mat_vec D a) c (map (fun _ => 1) D))) P = along (mat_vec P (mat_vec D a)) c (mat_vec P (map (fun _ => 1) D))).
  { clear -HPl. induction HPl as [|p P Hp _ IH]; auto. cbn [map mat_vec]. unfold mat_vec in *. rewrite IH.
    change (along (rdot p (map (fun row : list R => rdot row a) D) :: ?u) c (rdot p (map (fun _ => 1) D) :: ?v)) with
      ((rdot p (map (fun row : list R => rdot row a) D) + c * rdot p (map (fun _ => 1) D)) :: along u c v).
    rewrite rdot_along; rewrite ?map_length; auto. }
  rewrite E2. f_equal. apply Hs; auto. { unfold mat_vec. rewrite map_length; auto. } apply Hi; auto.
Qed.
