(** C59: networks as modules of networks. *)
From Coq Require Import Ring Reals Lra ZArith FunctionalExtensionality.
From Verif Require Import Base RingOps Net_Model Net_Spec Propagate Net_Events Net_Forward Conn_Adjoint Net_Backward Net_Adjoint Net_Gradient Net_Gradient2 Layers_R Nested_Model Nested_Spec Nested_Proofs Nested_Proofs2.

Notation rtmod := (@tmod R).

(** what the parameters of the networks in t contribute for input v and output error e *)
Fixpoint contrib (P dP : path -> nat -> rvec) (Kp : path -> list nat) (pdim : path -> nat -> nat) (t : rtmod) (p : path) (v e : rvec) : R :=
  match t with
  | TLayer _ => 0%R
  | TNet mods sorted conns inm outm =>
      let N := flat P p mods sorted conns inm outm in
      let F := ff_forward N (P p) reset_bufs v in
      let s2 := fst (ff_backActivate N (P p) (F, fun _ => zvec) e) in
      (suml (Kp p) (fun k => dot (pdim p k) (snd s2 k) (dP p k)) +
       suml sorted (fun m => contrib P dP Kp pdim (mods m) (m :: p) (b_in (F m 0%nat)) (b_oute (fst s2 m 0%nat))))%R
  end.
Fixpoint ldiff (P : path -> nat -> rvec) (t : rtmod) (p : path) (v : rvec) : Prop :=
  match t with
  | TLayer l => layer_diff_at l v
  | TNet mods sorted conns inm outm =>
      let N := flat P p mods sorted conns inm outm in
      forall m, In m sorted -> ldiff P (mods m) (m :: p) (b_in (ff_forward N (P p) reset_bufs v m 0))
  end.

Theorem lay_pdiff (Ps : R -> path -> nat -> rvec) (dP : path -> nat -> rvec) Kp pdim :
  (forall p k q, dlim (fun s => Ps s p k q) (dP p k q)) ->
  forall t p v, tree_ok Kp pdim t p -> ldiff (Ps 0%R) t p v ->
  pdiff_at (fun s => lay (Ps s) t p) v (contrib (Ps 0%R) dP Kp pdim t p v).
Proof.
  intro HPs. induction t as [l|mods IH sorted conns inm outm]; intros p v Hok Hd.
  - cbn [lay contrib]. apply pdiff_plain. exact Hd.
  - assert (Hdims : forall s m, l_in (lay (Ps s) (mods m) (m :: p)) = l_in (lay (Ps 0%R) (mods m) (m :: p)) /\ l_out (lay (Ps s) (mods m) (m :: p)) = l_out (lay (Ps 0%R) (mods m) (m :: p))).
    { intros s m. destruct (lay_dims (Ps s) (mods m) (m :: p)) as [-> ->]. destruct (lay_dims (Ps 0%R) (mods m) (m :: p)) as [-> ->]. auto. }
    split.
    { intro s. destruct (lay_dims (Ps s) (TNet mods sorted conns inm outm) p) as [-> ->]. destruct (lay_dims (Ps 0%R) (TNet mods sorted conns inm outm) p) as [-> ->]. auto. }
    intros w d Hw Hdl. destruct Hok as [(W & Hg & Hks) Hok]. cbn [ldiff] in Hd.
    destruct (pff_gradient sorted conns inm outm (fun s m => lay (Ps s) (mods m) (m :: p)) (fun s => Ps s p) (dP p) w d (Kp p) (pdim p)
      (fun m => contrib (Ps 0%R) dP Kp pdim (mods m) (m :: p) (b_in (ff_forward (flat (Ps 0%R) p mods sorted conns inm outm) (Ps 0%R p) reset_bufs v m 0)))) as (g & G1 & G2).
    + exact Hdims.
    + intros k q. apply HPs.
    + exact Hdl.
    + exact (flat_wf (Ps 0%R) p mods sorted conns inm outm W).
    + exact Hg.
    + exact Hks.
    + intros m Hm. rewrite Hw. apply IH; [apply Hok; auto|]. apply Hd. auto.
    + exists g. split; [exact G1|]. intro e. specialize (G2 e (fun _ => zvec)). cbv zeta in G2. rewrite Hw in G2.
      refine (eq_trans G2 _). cbn [contrib]. rewrite Rplus_assoc. f_equal. f_equal.
      apply suml_ext. intros k Hk. apply dot_ext; auto. intros i _. unfold zvec. cbn. apply Rminus_0_r.
Qed.

Lemma leaves_ldiff P t : forall p B, settled P t p B -> leaves layer_diff_at B t p -> ldiff P t p (b_in (B p)).
Proof.
  induction t as [l|mods IH sorted conns inm outm]; intros p B Hs Hl; [exact Hl|].
  destruct Hs as [Hv Hs]. cbn [ldiff leaves] in *. intros m Hm. rewrite <- Hv. cbn [view]. apply IH; auto.
Qed.

Lemma contrib_sum P dP Kp pdim t : forall p (B : @tbufs R) (D : @tderivs R) (s' : @tbufs R * @tderivs R), settled P t p B -> bsettled P t p (B, D) s' ->
  contrib P dP Kp pdim t p (b_in (B p)) (b_oute (fst s' p)) =
  suml (nets t p) (fun q => suml (Kp q) (fun k => dot (pdim q k) (fun i => snd s' q k i - D q k i)%R (dP q k))).
Proof.
  induction t as [l|mods IH sorted conns inm outm]; intros p B D s' Hs Hb; [reflexivity|].
  destruct Hs as [Hv Hs]. destruct Hb as [Ev Hb]. cbn [contrib nets suml].
  set (N := flat P p mods sorted conns inm outm) in *. rewrite <- Hv. unfold pview in Ev. cbn [fst snd] in Ev.
  destruct (backActivate_derivs N (P p) (view p B) (D p) (b_oute (fst s' p))) as (X & _ & Y).
  assert (E1 : view p (fst s') = fst (fst (ff_backActivate N (P p) (view p B, fun _ => zvec) (b_oute (fst s' p))))) by (refine (eq_trans (f_equal fst Ev) X)).
  assert (E2 : forall k i, (snd s' p k i - D p k i)%R = snd (fst (ff_backActivate N (P p) (view p B, fun _ => zvec) (b_oute (fst s' p)))) k i).
  { intros k i. pose proof (f_equal (fun z : @bufs R * @derivs R => snd z k i) Ev) as Z. cbn beta in Z. cbn [snd] in Z. rewrite Y in Z.
    refine (eq_trans (f_equal (fun z => (z - D p k i)%R) Z) _). cbn [radd ROps]. ring. }
  apply (f_equal2 Rplus).
  - apply suml_ext. intros k Hk. apply dot_ext; [|reflexivity]. intros i _. symmetry. apply E2.
  - rewrite <- E1. clear -IH Hs Hb.
    assert (G : forall l, incl l sorted ->
      suml l (fun m => contrib P dP Kp pdim (mods m) (m :: p) (b_in (view p B m 0)) (b_oute (view p (fst s') m 0%nat))) =
      suml (flat_map (fun m => nets (mods m) (m :: p)) l) (fun q => suml (Kp q) (fun k => dot (pdim q k) (fun i => snd s' q k i - D q k i)%R (dP q k)))).
    { induction l as [|m l IHl]; intro Hi; cbn [suml flat_map]; [reflexivity|]. rewrite (suml_app (L := RLaws)), IHl by (intros a Ha; apply Hi; right; auto). apply (f_equal2 Rplus); [|reflexivity].
      apply IH; [apply Hs|apply Hb]; apply Hi; left; auto. }
    apply G. apply incl_refl.
Qed.

(** One activate and one backActivate on a network with networks inside, to any depth. *)
Theorem C59_nested_gradient (t : rtmod) (P dP : path -> nat -> rvec) (Kp : path -> list nat) (pdim : path -> nat -> nat) (x dx e : rvec) (D : @tderivs R) :
  tree_ok Kp pdim t [] ->
  let B1 := fst (t_activate P t x) in
  let r := t_backActivate P t (B1, D) e in
  leaves layer_diff_at B1 t [] ->
  derivable_pt_lim
    (fun s => dot (t_out t) e (snd (t_activate (fun p k i => P p k i + s * dP p k i)%R t (fun j => x j + s * dx j)%R))) 0%R
    (dot (t_in t) (snd r) dx
     + suml (nets t []) (fun p => suml (Kp p) (fun k => dot (pdim p k) (fun i => snd (fst r) p k i - D p k i) (dP p k))))%R.
Proof.
  intros Hok B1 r Hl.
  set (Ps := (fun s p k i => (P p k i + s * dP p k i)%R) : R -> path -> nat -> rvec).
  set (xs := (fun s j => (x j + s * dx j)%R) : R -> rvec).
  assert (P0 : Ps 0%R = P) by (repeat (apply functional_extensionality; intro); unfold Ps; ring).
  assert (x0 : xs 0%R = x) by (apply functional_extensionality; intro; unfold xs; ring).
  assert (Hz : forall y q, below [] q -> tset (@treset R ROps) [] (mkbuf y zvec zvec zvec) q = zbuf).
  { intros y q Hq. rewrite tset_other; [reflexivity|]. intros ->. exact (not_below_self _ Hq). }
  assert (Act : forall Q y, snd (t_activate Q t y) = l_fwd (lay Q t []) y zvec).
  { intros Q y. destruct (fwd_spec Q Kp pdim t [] (tset treset [] (mkbuf y zvec zvec zvec)) Hok (Hz y)) as (_ & E & _).
    rewrite tset_same in E. cbn [b_in b_out] in E. cbn [t_activate snd]. rewrite E. reflexivity. }
  destruct (fwd_spec P Kp pdim t [] (tset treset [] (mkbuf x zvec zvec zvec)) Hok (Hz x)) as (_ & E1 & S1).
  change (t_forward P t [] (tset treset [] (mkbuf x zvec zvec zvec))) with B1 in E1, S1. rewrite tset_same in E1. cbn [b_in b_out b_ine b_oute] in E1.
  set (sb := (tset B1 [] (mkbuf (b_in (B1 [])) (b_out (B1 [])) (b_ine (B1 [])) e), D) : @tbufs R * @tderivs R).
  assert (Sb : settled P t [] (fst sb)).
  { apply (settled_frame P t [] B1); [| |exact S1].
    - intros q Hq. apply tset_other. intros ->. exact (not_below_self _ Hq).
    - unfold sb. cbn [fst]. rewrite tset_same. reflexivity. }
  destruct (bwd_spec P Kp pdim t [] sb Hok Sb) as (_ & E2 & S2).
  change (t_backward P t [] sb) with (fst r) in E2, S2.
  assert (Esb : fst sb [] = mkbuf x (l_fwd (lay P t []) x zvec) zvec e) by (unfold sb; cbn [fst]; rewrite tset_same, E1; reflexivity).
  rewrite Esb in E2. cbn [b_in b_out b_ine b_oute] in E2.
  assert (Er : snd r = l_bwd (lay P t []) e zvec (l_fwd (lay P t []) x zvec) x).
  { change (snd r) with (b_ine (fst (fst r) [])). rewrite E2. reflexivity. }
  assert (Hld : ldiff (Ps 0%R) t [] x).
  { rewrite P0. replace x with (b_in (B1 [])) by (rewrite E1; reflexivity). apply leaves_ldiff; auto. }
  destruct (lay_pdiff Ps dP Kp pdim (fun p k q => dlim_line (P p k q) (dP p k q)) t [] x Hok Hld) as [_ G].
  destruct (G xs dx x0 (fun i _ => dlim_line (x i) (dx i))) as (g & G1 & G2). clear G.
  rewrite P0 in G1, G2. destruct (lay_dims P t []) as [Di Do]. rewrite Do in G1. rewrite Di, Do in G2.
  eapply dlim_ext; [|eapply dlim_val; [|apply (dlim_sumn (t_out t) (fun i s => e i * l_fwd (lay (Ps s) t []) (xs s) zvec i)%R (fun i => e i * g i)%R)]].
  - intro s. change (snd (t_activate (fun p k i => P p k i + s * dP p k i)%R t (fun j => x j + s * dx j)%R)) with (snd (t_activate (Ps s) t (xs s))). rewrite Act. reflexivity.
  - refine (eq_trans (G2 e) _). rewrite <- Er. apply (f_equal2 Rplus); [reflexivity|].
    pose proof (contrib_sum P dP Kp pdim t [] (fst sb) D (fst r) Sb S2) as C. rewrite Esb, E2 in C. exact C.
  - intros i Hi. eapply dlim_val; [|apply (dlim_mul (fun _ => e i)); [apply dlim_const|apply G1; exact Hi]]. cbn. ring.
Qed.

(** The output is that of the network whose modules are the inner networks' functions, and
    every inner network ends up as if it had been activated on its own. *)
Theorem C59_nested_activation (K : Type) (Ops : RingOps K) (Lw : RingLaws K) P Kp pdim (mods : nat -> @tmod K) sorted conns inm outm (x : @vec K) s :
  let t := TNet mods sorted conns inm outm in
  tree_ok Kp pdim t [] ->
  snd (t_activate P t x) = snd (ff_activate (flat P [] mods sorted conns inm outm) (P []) s x) /\
  settled P t [] (fst (t_activate P t x)).
Proof.
  intros t Hok. destruct (fwd_spec P Kp pdim t [] (tset treset [] (mkbuf x zvec zvec zvec)) Hok) as (_ & E & S).
  { intros q Hq. rewrite tset_other; [reflexivity|]. intros ->. exact (not_below_self _ Hq). }
  split; [|exact S]. rewrite tset_same in E. cbn [t_activate snd]. rewrite E. reflexivity.
Qed.

Lemma nets_under {K} (t : @tmod K) : forall p q, In q (nets t p) -> under p q.
Proof.
  induction t as [l|mods IH sorted conns inm outm]; intros p q Hq; cbn [nets] in Hq; [destruct Hq|].
  destruct Hq as [<-|Hq]; [apply under_refl|]. apply in_flat_map in Hq. destruct Hq as (m & _ & Hq). apply below_under. apply (under_cons m). apply (IH m). exact Hq.
Qed.
Lemma nets_nodup {K} {Ops : RingOps K} Kp pdim (t : @tmod K) : forall p, tree_ok Kp pdim t p -> NoDup (nets t p).
Proof.
  induction t as [l|mods IH sorted conns inm outm]; intros p Hok; cbn [nets]; [constructor|].
  destruct Hok as [(W & _ & _) Hok]. pose proof (wf_nodup _ W) as Hnd. cbn [n_sorted shape] in Hnd. constructor.
  - intro Hq. apply in_flat_map in Hq. destruct Hq as (m & _ & Hq). apply nets_under in Hq. exact (under_not_self _ _ Hq).
  - clear W. induction sorted as [|m l IHl]; cbn [flat_map]; [constructor|]. inversion Hnd as [|? ? Hm Hl]; subst.
    assert (A : NoDup (nets (mods m) (m :: p))) by (apply IH, Hok; left; auto).
    assert (B : NoDup (flat_map (fun m => nets (mods m) (m :: p)) l)) by (apply IHl; auto; intros; apply Hok; right; auto).
    assert (C : forall q, In q (nets (mods m) (m :: p)) -> ~ In q (flat_map (fun m => nets (mods m) (m :: p)) l)).
    { intros q Hq Hf. apply in_flat_map in Hf. destruct Hf as (a & Ha & Hf). apply nets_under in Hq, Hf.
      apply Hm. rewrite (under_disjoint _ _ _ _ Hq Hf). exact Ha. }
    clear -A B C. induction A as [|q l' Hq Hl' IHA]; cbn [app]; auto. constructor; [|apply IHA; intros; apply C; right; auto].
    intro Hi. apply in_app_or in Hi. destruct Hi; [auto|]. apply (C q); [left|]; auto.
Qed.

(** One parameter at any depth: entry i of container k of the network at p. *)
Theorem C59_partial_derivative (t : rtmod) (P : path -> nat -> rvec) (Kp : path -> list nat) (pdim : path -> nat -> nat) (x e : rvec) (D : @tderivs R) p k i :
  tree_ok Kp pdim t [] -> In p (nets t []) -> NoDup (Kp p) -> In k (Kp p) -> i < pdim p k ->
  let B1 := fst (t_activate P t x) in
  let r := t_backActivate P t (B1, D) e in
  leaves layer_diff_at B1 t [] ->
  derivable_pt_lim
    (fun s => dot (t_out t) e (snd (t_activate (fun p' k' i' => P p' k' i' + s * (if peqb p' p && (k' =? k)%nat && (i' =? i)%nat then 1 else 0))%R t x))) 0%R
    (snd (fst r) p k i - D p k i)%R.
Proof.
  intros Hok Hp Hkn Hk Hi B1 r Hl.
  pose proof (C59_nested_gradient t P (fun p' k' i' => if peqb p' p && (k' =? k)%nat && (i' =? i)%nat then 1%R else 0%R) Kp pdim x zvec e D Hok Hl) as G.
  cbv zeta in G. fold B1 in G. fold r in G.
  assert (X : forall s, (fun j => x j + s * (@zvec R ROps j))%R = x) by (intro s; apply functional_extensionality; intro j; unfold zvec; cbn; ring).
  eapply dlim_ext; [|eapply dlim_val; [|exact G]].
  - intro s. cbv beta. rewrite X. reflexivity.
  - transitivity (0 + (snd (fst r) p k i - D p k i))%R; [|ring]. apply (f_equal2 Rplus).
    + apply (sumn_zero' (L := RLaws)). intros j Hj. unfold zvec. cbn. ring.
    + etransitivity; [refine (suml_single (list_eq_dec Nat.eq_dec) (nets t []) p _ (nets_nodup _ _ _ _ Hok) Hp _)|].
      * intros q Hq Hne. apply (suml_zero (L := RLaws)). intros k' _. apply (sumn_zero' (L := RLaws)). intros j Hj. rewrite (peqb_neq q p Hne). cbn. ring.
      * cbv beta. rewrite peqb_refl. cbn [andb].
        etransitivity; [refine (suml_single Nat.eq_dec (Kp p) k _ Hkn Hk _)|].
        -- intros a Ha Hne. apply (sumn_zero' (L := RLaws)). intros j Hj. destruct (Nat.eqb_spec a k); [contradiction|]. cbn. ring.
        -- cbv beta. rewrite Nat.eqb_refl. cbn [andb]. unfold dot. etransitivity; [refine (sumn_single (L := RLaws) (pdim p k) i _ Hi _)|].
           ++ intros j Hj Hne. destruct (Nat.eqb_spec j i); [contradiction|]. cbn. ring.
           ++ cbv beta. rewrite Nat.eqb_refl. cbn. ring.
Qed.

(** A network 2-2-1 whose middle module is a network 2-1 (input, hidden). *)
Definition exin {K} {Ops : RingOps K} (hid : @layer K) : @tmod K :=
  TNet (fun m => match m with 0 => TLayer (linear_layer 2) | _ => TLayer hid end) [0; 1]
       (fun m => match m with 0 => [mkconn 0 1 0 2 0 1 CFull 0] | _ => [] end) [0] [1].
Definition exout {K} {Ops : RingOps K} (hid : @layer K) : @tmod K :=
  TNet (fun m => match m with 0 => TLayer (linear_layer 2) | 1 => exin hid | _ => TLayer (linear_layer 1) end) [0; 1; 2]
       (fun m => match m with 0 => [mkconn 0 1 0 2 0 2 CFull 0] | 1 => [mkconn 1 2 0 1 0 1 CFull 1] | _ => [] end) [0] [2].
Definition exK (p : path) : list nat := match p with [] => [0; 1] | _ => [0] end.
Definition exdim (p : path) (k : nat) : nat := match p, k with [], 0 => 4 | [], _ => 1 | _, _ => 2 end.

Lemma ex_tree_ok {K} {Ops : RingOps K} (hid : @layer K) : l_in hid = 1 -> l_out hid = 1 -> tree_ok exK exdim (exout hid) [].
Proof.
  intros Hi Ho. cbn [tree_ok exout]. split; [split; [|split]|].
  - split.
    + repeat constructor; cbn; intuition discriminate.
    + intros m c [<-|[<-|[<-|[]]]] Hc; cbn in Hc; try tauto; destruct Hc as [<-|[]]; (split; [reflexivity|split]).
      * exists [], [], [2]. reflexivity.
      * unfold wf_conn. cbn. lia.
      * exists [0], [], []. reflexivity.
      * unfold wf_conn. cbn. rewrite Ho. lia.
    + intros c [].
    + split; [repeat constructor; cbn; tauto|]. intros a [<-|[]]; cbn; auto.
    + split; [repeat constructor; cbn; tauto|]. intros a [<-|[]]; cbn; auto.
  - intros c Hc. cbn in Hc. destruct Hc as [<-|[<-|[]]]; cbn; split; exact I.
  - split; [repeat constructor; cbn; intuition discriminate|]. intros c Hc. cbn in Hc. destruct Hc as [<-|[<-|[]]]; cbn; auto.
  - intros m [<-|[<-|[<-|[]]]]; try exact I. cbn [tree_ok exin]. split; [split; [|split]|].
    + split.
      * repeat constructor; cbn; intuition discriminate.
      * intros m c [<-|[<-|[]]] Hc; cbn in Hc; try tauto; destruct Hc as [<-|[]]; (split; [reflexivity|split]).
        -- exists [], [], []. reflexivity.
        -- unfold wf_conn. cbn. rewrite Hi. lia.
      * intros c [].
      * split; [repeat constructor; cbn; tauto|]. intros a [<-|[]]; cbn; auto.
      * split; [repeat constructor; cbn; tauto|]. intros a [<-|[]]; cbn; auto.
    + intros c Hc. cbn in Hc. destruct Hc as [<-|[]]; cbn; split; exact I.
    + split; [repeat constructor; cbn; tauto|]. intros c Hc. cbn in Hc. destruct Hc as [<-|[]]; cbn; auto.
    + intros m [<-|[<-|[]]]; exact I.
Qed.

(** the hypotheses of C59_nested_gradient hold of it with a tanh hidden layer *)
Example C59_nonvacuous P x : tree_ok exK exdim (exout (tanh_layer 1)) [] /\
  leaves layer_diff_at (fst (t_activate P (exout (tanh_layer 1)) x)) (exout (tanh_layer 1)) [] /\
  nets (exout (tanh_layer 1)) [] = [[]; [1]].
Proof.
  split; [apply ex_tree_ok; reflexivity|]. split; [|reflexivity].
  cbn [leaves exout]. intros m [<-|[<-|[<-|[]]]]; [apply linear_diff| |apply linear_diff].
  cbn [leaves exin]. intros m [<-|[<-|[]]]; [apply linear_diff|apply tanh_diff].
Qed.

Open Scope Z_scope.
Definition exPZ (p : path) (k : nat) : @vec Z :=
  match p, k with
  | [], 0%nat => fun i => nth i [1; 2; -1; 1] 0 | [], _ => fun i => nth i [3] 0
  | _, _ => fun i => nth i [2; 5] 0
  end.
Close Scope Z_scope.
From Verif Require Import Net_Props.
(** over the integers with a linear hidden layer: y = 3 (2 (x0 + 2 x1) + 5 (-x0 + x1)) *)
Example C59_values :
  let t := exout (linear_layer 1) in
  let '(B, y) := t_activate exPZ t (fun i => nth i [1; 4] 0)%Z in
  let '((_, D), inerr) := t_backActivate exPZ t (B, fun _ _ => zvec) (fun _ => 2%Z) in
  (y 0%nat, map (D [] 0%nat) [0; 1; 2; 3], D [] 1%nat 0%nat, map (D [1%nat] 0%nat) [0; 1], map inerr [0; 1])
  = (99, [12; 48; 30; 120], 66, [54; 18], [-18; 54])%Z.
Proof. vm_compute. reflexivity. Qed.

Print Assumptions C59_nested_gradient.
Print Assumptions C59_nested_activation.
Print Assumptions C59_partial_derivative.
