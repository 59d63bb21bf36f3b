(** C65: finite differences, SPSA and PGPE. *)
From Coq Require Import Reals Lra.
From Verif Require Import Base Functions_Model FiniteDiff_Model FiniteDiff_Spec FiniteDiff_Proofs FiniteDiff_Proofs2.
Local Open Scope R_scope.

(** SPSA after any history: a step goes along the deviation that was tried, towards the better of the two probes,
    by at most gamma^2 times the learning rate; the very first step does not move; nothing is ever divided by zero *)
Theorem C65_spsa_step decay mi (f : vec -> R) alpha eps gamma x0 hist signs s :
  eps <> 0 -> gamma <> 0 -> Forall (fun g => length g = length x0 /\ Forall (fun a => a = 1 \/ a = -1) g) (hist ++ [signs]) ->
  iter (spsa_learnStep 0 decay mi f gamma) hist (spsa_init alpha eps x0) = Ok s ->
  let k := length hist in
  let d := map (fun a => a * (eps * gamma ^ k)) signs in
  let r1 := f (along (sp_current s) 1 d) in
  let r2 := f (along (sp_current s) (-1) d) in
  exists s' phi, spsa_learnStep 0 decay mi f gamma signs s = Ok s' /\ sp_epsilon s' = eps * gamma ^ S k /\
    sp_current s' = along (sp_current s) (alpha * decay ^ k * (phi * gamma ^ 2)) d /\ Rabs phi <= 1 /\
    (k = 0%nat -> phi = 0) /\ ((0 < k)%nat -> (better_than mi r1 r2 -> 0 < phi) /\ (better_than mi r2 r1 -> phi < 0) /\ (r1 = r2 -> phi = 0)).
Proof.
  intros He Hg Hh Hs. cbv zeta. apply Forall_app in Hh. destruct Hh as [Hh Hl]. inversion Hl as [|? ? [L1 L2] _]; subst.
  destruct (spsa_reach decay mi f (length x0) alpha eps gamma x0 eq_refl He Hg hist Hh) as (s0 & E & I). rewrite Hs in E. injection E as <-.
  destruct (spsa_step_inv decay mi f _ _ _ _ _ signs s I) as (s' & phi & A & B & C & D & F & G); auto.
  { apply Rmult_integral_contrapositive_currified; auto. apply pow_nonzero; auto. }
  exists s', phi. split; [exact A|]. split; [apply B|]. auto.
Qed.

(** PGPE with local exploration after any history: the same with gamma = 1 (and the weight decay); each deviation moves towards what was
    tried, exactly when the pair was better than the average so far; the standard deviations stay positive *)
Theorem C65_pgpe_step decay mi (f : vec -> R) alpha asig eps w x0 hist d s :
  0 < eps -> 0 <= asig < 1 -> Forall (fun g => length g = length x0) (hist ++ [d]) ->
  iter (pgpe_learnStep 0 decay mi f Local w) hist (pgpe_init alpha asig eps x0) = Ok s ->
  let k := length hist in
  let r1 := f (along (pg_current s) 1 d) in
  let r2 := f (along (pg_current s) (-1) d) in
  let m := (r1 + r2) / 2 in
  exists s' phi psi, pgpe_learnStep 0 decay mi f Local w d s = Ok s' /\
    Forall (fun x => 0 < x) (pg_sig s) /\ Forall (fun x => 0 < x) (pg_sig s') /\
    (forall i, (i < length x0)%nat -> nth i (pg_current s') 0 = nth i (pg_current s) 0
        + alpha * decay ^ k * (phi * nth i d 0 - nth i (pg_current s) 0 * nth i (pg_sig s) 0 * w)) /\
    (forall i, (i < length x0)%nat -> nth i (pg_sig s') 0 = nth i (pg_sig s) 0 + asig * psi * (nth i d 0 ^ 2 - nth i (pg_sig s) 0 ^ 2) / nth i (pg_sig s) 0) /\
    Rabs phi <= 1 /\ 0 <= psi <= 1 /\
    (k = 0%nat -> phi = 0 /\ psi = 0 /\ pg_baseline s' = Some m) /\
    ((0 < k)%nat -> exists b, pg_baseline s = Some b /\ pg_baseline s' = Some (0.9 * b + 0.1 * m) /\ (0 < psi <-> better_than mi m b) /\
        (better_than mi r1 r2 -> 0 < phi) /\ (better_than mi r2 r1 -> phi < 0) /\ (r1 = r2 -> phi = 0)).
Proof.
  intros He Ha Hh Hs. cbv zeta. apply Forall_app in Hh. destruct Hh as [Hh Hl]. inversion Hl as [|? ? L1 _]; subst.
  destruct (pgpe_reach decay mi f (length x0) alpha asig eps w x0 eq_refl He Ha hist Hh) as (s0 & E & I). rewrite Hs in E. injection E as <-.
  destruct (pgpe_step_inv decay mi f _ _ _ _ w d s I Ha L1) as (s' & phi & psi & A & B & C & D & F & G & H & K).
  exists s', phi, psi. split; [exact A|]. split; [apply I|]. split; [apply B|]. auto 10.
Qed.

(** both searches see the fitness only up to scale and shift; minimizing f is maximizing -f *)
Theorem C65_pgpe_invariance momentum decay mi mi' (f f' : vec -> R) a b ex w alpha asig eps x0 draws :
  (0 < a /\ mi' = mi) \/ (a < 0 /\ mi' = negb mi) -> (forall x, f' x = a * f x + b) ->
  match iter (pgpe_learnStep momentum decay mi f ex w) draws (pgpe_init alpha asig eps x0),
        iter (pgpe_learnStep momentum decay mi' f' ex w) draws (pgpe_init alpha asig eps x0) with
  | Ok s, Ok s' => pg_current s' = pg_current s /\ pg_sig s' = pg_sig s
  | Err e, Err e' => e = e'
  | _, _ => False
  end.
Proof.
  intros Hd Hf. pose proof (iter_rel (pg_rel a b) (pgpe_learnStep momentum decay mi f ex w) (pgpe_learnStep momentum decay mi' f' ex w)) as H.
  specialize (H (fun x s s' => pg_step_rel mi mi' a b Hd f f' Hf momentum decay ex w x s s') draws (pgpe_init alpha asig eps x0) (pgpe_init alpha asig eps x0)).
  assert (H0 : pg_rel a b (pgpe_init alpha asig eps x0) (pgpe_init alpha asig eps x0)) by (repeat split).
  specialize (H H0). unfold res_rel in H.
  destruct (iter _ draws _), (iter _ draws _); auto. destruct H as (-> & _ & -> & _). auto.
Qed.
Theorem C65_spsa_invariance momentum decay mi mi' (f f' : vec -> R) a b gamma alpha eps x0 draws :
  (0 < a /\ mi' = mi) \/ (a < 0 /\ mi' = negb mi) -> (forall x, f' x = a * f x + b) ->
  match iter (spsa_learnStep momentum decay mi f gamma) draws (spsa_init alpha eps x0),
        iter (spsa_learnStep momentum decay mi' f' gamma) draws (spsa_init alpha eps x0) with
  | Ok s, Ok s' => sp_current s' = sp_current s
  | Err e, Err e' => e = e'
  | _, _ => False
  end.
Proof.
  intros Hd Hf. pose proof (iter_rel (sp_rel a b) (spsa_learnStep momentum decay mi f gamma) (spsa_learnStep momentum decay mi' f' gamma)) as H.
  specialize (H (fun x s s' => sp_step_rel mi mi' a b Hd f f' Hf momentum decay gamma x s s') draws (spsa_init alpha eps x0) (spsa_init alpha eps x0)).
  assert (H0 : sp_rel a b (spsa_init alpha eps x0) (spsa_init alpha eps x0)) by (repeat split).
  specialize (H H0). unfold res_rel in H.
  destruct (iter _ draws _), (iter _ draws _); auto. destruct H as (-> & _). auto.
Qed.

(** with global exploration the standard deviations never change: where they would, the step fails *)
Theorem C65_global_never_adapts momentum decay mi (f : vec -> R) w alpha asig eps x0 draws s :
  iter (pgpe_learnStep momentum decay mi f Global w) draws (pgpe_init alpha asig eps x0) = Ok s -> pg_sig s = map (fun _ => eps) x0.
Proof.
  revert s. induction draws as [|d draws IH] using rev_ind; intros s; [intro H; injection H as <-; reflexivity|].
  rewrite iter_snoc. destruct (iter _ draws _) as [s0|e]; cbn [rbind]; [|discriminate]. specialize (IH s0 eq_refl).
  unfold pgpe_learnStep. destruct (match pg_baseline s0 with Some _ => _ | None => _ end) as [[[b phi] y]|e]; cbn [rbind]; [|discriminate].
  destruct (gd_call momentum decay (pg_gd s0) _) as [g|e]; cbn [rbind]; [|discriminate].
  destruct (Rlt_dec 0 y); [discriminate|]. intro H. injection H as <-. exact IH.
Qed.
Theorem C65_global_refuted : exists (f : vec -> R) s,
  iter (pgpe_learnStep 0 1 false f Global 0) [[0]] (pgpe_init 0.2 0.1 2 [0]) = Ok s /\
  pgpe_learnStep 0 1 false f Global 0 [1] s = Err AttributeError.
Proof.
  exists (fun x => match x with [a] => a * a | _ => 0 end). eexists. split.
  - cbn. destruct (Rlt_dec 0 0) as [H|_]; [exfalso; lra|]. reflexivity.
  - unfold pgpe_learnStep. cbn [pg_baseline pg_best pg_current pg_gd pg_sig rzip gd_values gd_mv map].
    set (c := 0 + (0 * 0 + 0.2 * (0 * 0 - 0 * 2 * 0))).
    assert (Hc : c = 0) by (unfold c; lra). rewrite Hc. clear c Hc.
    match goal with |- context [upd_best false (Some (upd_best false (Some ?x) ?y)) ?z] => assert (E1 : upd_best false (Some (upd_best false (Some x) y)) z = 1) end.
    { cbn. repeat (destruct (Rle_dec _ _)); lra. }
    rewrite E1. unfold fakt_of. destruct (Req_EM_T ((0 + 1) * (0 + 1)) ((0 - 1) * (0 - 1))) as [_|H]; [|exfalso; lra]. cbn [rbind].
    match goal with |- context [Req_EM_T ?x 0] => destruct (Req_EM_T x 0) as [H|_]; [exfalso; lra|] end.
    cbn [rbind]. unfold gd_call. cbn.
    match goal with |- context [Rlt_dec 0 ?x] => destruct (Rlt_dec 0 x) as [_|H]; [reflexivity|exfalso; apply H] end. lra.
Qed.

(** FiniteDifferences after any history, where the fitness is affine on the deviations that are tried: the step is the
    gradient plus the value at the current point times the regression of the constant *)
Theorem C65_fd_step decay mi (f : vec -> R) pinv gamma alpha eps x0 hist us s a c :
  iter (fd_learnStep 0 decay mi f pinv gamma) hist (fd_init alpha eps x0) = Ok s ->
  let k := length hist in
  let D := deviations (eps * gamma ^ length (concat hist)) gamma us in
  let P := pinv D in
  let n := length x0 in
  inverts n D P -> spanning n D -> Forall (fun p => length p = length D) P -> Forall (fun d => length d = n) D -> length a = n ->
  (forall d, In d D -> f (along (fd_current s) 1 d) = c + rdot d a) ->
  exists s', fd_learnStep 0 decay mi f pinv gamma us s = Ok s' /\
    fd_current s' = along (fd_current s) (alpha * decay ^ k) (along a c (map (fun p => rdot p (map (fun _ => 1) D)) P)).
Proof.
  intro Hs. cbv zeta.
  assert (Hinv : length (fd_current s) = length x0 /\ gd_values (fd_gd s) = fd_current s /\ length (gd_mv (fd_gd s)) = length x0 /\
                 gd_alpha (fd_gd s) = alpha * decay ^ length hist /\ fd_epsilon s = eps * gamma ^ length (concat hist)).
  { revert s Hs. induction hist as [|u hist IH] using rev_ind; intros s Hs.
    - injection Hs as <-. cbn. rewrite map_length. repeat split; auto; ring.
    - rewrite iter_snoc in Hs. destruct (iter _ hist _) as [s0|e]; cbn [rbind] in Hs; [|discriminate].
      destruct (IH s0 eq_refl) as (A & B & C & D & E). rewrite fd_step_eq in Hs. cbv zeta in Hs.
      match type of Hs with context [gd_call 0 decay (fd_gd s0) ?g] => set (gr := g) in * end.
      unfold gd_call in Hs. destruct (length gr =? length (gd_values (fd_gd s0)))%nat eqn:El; cbn [negb rbind] in Hs; [|discriminate].
      apply Nat.eqb_eq in El. injection Hs as <-. cbn [fd_current fd_gd gd_values gd_mv gd_alpha fd_epsilon].
      assert (Hmv : length (rzip Rplus (map (fun m : R => m * 0) (gd_mv (fd_gd s0))) (map (fun x : R => gd_alpha (fd_gd s0) * x) gr)) = length x0).
      { apply rzip_length; rewrite map_length; congruence. }
      split; [apply rzip_length; congruence|]. split; [reflexivity|]. split; [exact Hmv|].
      split; [rewrite D, app_length; cbn; rewrite Nat.add_1_r; cbn; ring|].
      rewrite concat_app, app_length. cbn [concat]. rewrite app_nil_r. rewrite pow_add, E. ring. }
  destruct Hinv as (A & B & C & D & E). intros HP Hsp Hrow HD Ha Hf. rewrite fd_step_eq. cbv zeta. rewrite E.
  set (De := deviations (eps * gamma ^ length (concat hist)) gamma us) in *.
  assert (Hvals : map (fun d => f (rzip Rplus (fd_current s) d)) De = map (fun d => rdot d a + c) De).
  { apply map_ext_in. intros d Hd. assert (Hld : length d = length x0) by (rewrite Forall_forall in HD; auto).
    replace (rzip Rplus (fd_current s) d) with (along (fd_current s) 1 d).
    - rewrite Hf by auto. ring.
    - symmetry. apply vec_eq with (n := length x0); [apply rzip_length; auto|apply along_length; auto|]. intros i Hi.
      rewrite nth_along, nth_rzip with (d := 0) (e := 0) by lia. ring. }
  rewrite (regression (length x0) De (pinv De) a c _ HP Hsp Ha Hrow Hvals). fold (mat_vec (pinv De) (map (fun _ => 1) De)).
  destruct s as [cur [gv gm ga] ep be]. cbn [fd_current fd_gd gd_values gd_mv gd_alpha] in *. subst gv ga.
  destruct (gd_step decay (alpha * decay ^ length hist) cur gm (along a c (mat_vec (pinv De) (map (fun _ => 1) De))) (length x0)) as (g' & -> & G1 & _); auto.
  { apply along_length; auto. unfold mat_vec. rewrite map_length. apply HP. }
  cbn [rbind]. eexists. split; [reflexivity|]. exact G1.
Qed.
(** the direction is not looked at: the same points whatever [minimize] says *)
Theorem C65_fd_ignores_direction momentum decay (f : vec -> R) pinv gamma alpha eps x0 draws :
  match iter (fd_learnStep momentum decay true f pinv gamma) draws (fd_init alpha eps x0),
        iter (fd_learnStep momentum decay false f pinv gamma) draws (fd_init alpha eps x0) with
  | Ok s, Ok s' => fd_current s' = fd_current s
  | Err e, Err e' => e = e'
  | _, _ => False
  end.
Proof.
  set (Rl := fun s s' : fd => fd_current s' = fd_current s /\ fd_gd s' = fd_gd s /\ fd_epsilon s' = fd_epsilon s).
  pose proof (iter_rel Rl (fd_learnStep momentum decay true f pinv gamma) (fd_learnStep momentum decay false f pinv gamma)) as H.
  assert (Hstep : forall x s s', Rl s s' -> res_rel Rl (fd_learnStep momentum decay true f pinv gamma x s) (fd_learnStep momentum decay false f pinv gamma x s')).
  { intros x s s' (E1 & E2 & E3). rewrite !fd_step_eq. cbv zeta. rewrite E1, E2, E3.
    destruct (gd_call momentum decay (fd_gd s) _) as [g|e]; cbn; [|reflexivity]. repeat split. }
  specialize (H Hstep draws (fd_init alpha eps x0) (fd_init alpha eps x0)). assert (H0 : Rl (fd_init alpha eps x0) (fd_init alpha eps x0)) by (repeat split).
  specialize (H H0). unfold res_rel in H. destruct (iter _ draws _), (iter _ draws _); auto. apply H.
Qed.

(** pseudo-inverse of a single number *)
Definition pinv1 (D : list vec) : list vec := match D with [[d]] => [[/ d]] | _ => [] end.
Lemma pinv1_ok d : d <> 0 -> inverts 1 [[d]] (pinv1 [[d]]) /\ spanning 1 [[d]].
Proof.
  intro Hd. split.
  - split; [reflexivity|]. intros [|a [|? ?]] H; try discriminate. unfold rdot. cbn. f_equal. field. auto.
  - intros [|a [|? ?]] [|b [|? ?]] H H'; try discriminate. unfold rdot. cbn. intro E. injection E as E. f_equal. apply Rmult_eq_reg_l with d; lra.
Qed.
(** so a constant fitness is climbed for ever, and minimizing x goes up *)
Theorem C65_fd_refuted :
  (exists s, fd_learnStep 0 1 false (fun _ => 1) pinv1 0.999 [[0.5]] (fd_init 0.1 1 [0]) = Ok s /\ fd_current s = [0.2]) /\
  (exists s, fd_learnStep 0 1 true (fun x => hd 0 x) pinv1 0.999 [[0.5]] (fd_init 0.1 1 [0]) = Ok s /\ fd_current s = [0.1]).
Proof.
  split.
  - eexists. split; [reflexivity|]. cbn. f_equal. replace (/ (1 * 0.5)) with 2 by (replace (1 * 0.5) with (/ 2) by lra; rewrite Rinv_inv; reflexivity). lra.
  - eexists. split; [reflexivity|]. cbn. f_equal. replace (/ (1 * 0.5)) with 2 by (replace (1 * 0.5) with (/ 2) by lra; rewrite Rinv_inv; reflexivity). lra.
Qed.

Example C65_example :
  (** minimizing x^2 from 3: the second step goes down *)
  (exists s s', iter (spsa_learnStep 0 1 true (fun x => hd 0 x ^ 2) 0.5) [[1]] (spsa_init 0.1 2 [3]) = Ok s /\ sp_current s = [3] /\
     spsa_learnStep 0 1 true (fun x => hd 0 x ^ 2) 0.5 [-1] s = Ok s' /\ nth 0 (sp_current s') 0 < 3) /\
  deviations 2 0.5 [[1; -0.5]; [0.25; 1]] = [[2 * 0.5 ^ 0 * 1; 2 * 0.5 ^ 0 * -0.5]; [2 * 0.5 ^ 1 * 0.25; 2 * 0.5 ^ 1 * 1]] /\
  inverts 1 [[0.5]] (pinv1 [[0.5]]) /\ spanning 1 [[0.5]].
Proof.
  split; [|split; [reflexivity|apply pinv1_ok; lra]].
  destruct (C65_spsa_step 1 true (fun x => hd 0 x ^ 2) 0.1 2 0.5 [3] [] [1] (spsa_init 0.1 2 [3])) as (s & phi & A & B & C & D & E & _); try lra; auto.
  { repeat constructor; cbn; lra. }
  assert (Hs : iter (spsa_learnStep 0 1 true (fun x => hd 0 x ^ 2) 0.5) [[1]] (spsa_init 0.1 2 [3]) = Ok s) by (cbn [iter]; rewrite A; reflexivity).
  assert (Hc : sp_current s = [3]). { rewrite C, (E eq_refl). cbn. f_equal. lra. }
  destruct (C65_spsa_step 1 true (fun x => hd 0 x ^ 2) 0.1 2 0.5 [3] [[1]] [-1] s) as (s' & phi' & A' & B' & C' & D' & _ & G); try lra; auto.
  { repeat constructor; cbn; lra. }
  exists s, s'. split; [exact Hs|]. split; [exact Hc|]. split; [exact A'|]. rewrite C', Hc. cbn.
  destruct (G ltac:(cbn; lia)) as (G1 & _). rewrite Hc in G1. cbn in G1. specialize (G1 ltac:(lra)). lra.
Qed.

Print Assumptions C65_spsa_step. Print Assumptions C65_pgpe_step. Print Assumptions C65_pgpe_invariance. Print Assumptions C65_spsa_invariance.
Print Assumptions C65_global_never_adapts. Print Assumptions C65_global_refuted. Print Assumptions C65_fd_step. Print Assumptions C65_fd_ignores_direction.
Print Assumptions C65_fd_refuted. Print Assumptions C65_example.
