(** The loops of the model as event lists, and their equations. *)
From Coq Require Import Ring.
From Verif Require Import Base RingOps Net_Model Net_Spec Propagate.

Section Events.
Context {K : Type} {Ops : RingOps K} {Lw : RingLaws K}.
Add Ring Kring3 : (@rlaws K Ops Lw).
Notation vec := (@vec K).
Notation net := (@net K).
Notation bufs := (@bufs K).

(** ** Forward *)
Definition pf (b : bufs) : gstate := fun n => match n with NB m o => (b_in (b m o), b_out (b m o)) | ND _ => (zvec, zvec) end.
Definition ff_f (L : nat -> layer) : node -> vec -> vec -> vec :=
  fun n => match n with NB m _ => l_fwd (L m) | ND _ => fun _ v => v end.
Definition cg (P : nat -> vec) (c : conn) : vec -> vec := fun x i => delivers P c x i.

Fixpoint lev (L : nat -> @layer K) (o : nat) (ms : list nat) (index : nat) (x : vec) : list gev :=
  match ms with [] => [] | m :: t => GL (NB m o) (bslice x index) :: lev L o t (index + l_in (L m)) x end.
Definition cev (P : nat -> vec) (io oo : nat) (c : conn) : gev := GC (NB (c_in c) io) (NB (c_out c) oo) (cg P c).
Definition mev (N : net) (P : nat -> vec) (o : nat) (ms : list nat) : list gev :=
  flat_map (fun m => GN (NB m o) :: map (cev P o o) (n_conns N m)) ms.
Definition rev_ (N : net) (P : nat -> vec) (t : nat) : list gev :=
  if 0 <? t then map (cev P (t - 1) t) (n_rec N) else [].
Definition tev (N : net) (P : nat -> vec) (t : nat) (x : vec) : list gev :=
  lev (n_layer N) t (n_inmods N) 0 x ++ rev_ N P t ++ mev N P t (n_sorted N).
Fixpoint evs (N : net) (P : nat -> vec) (t : nat) (xs : list vec) : list gev :=
  match xs with [] => [] | x :: r => tev N P t x ++ evs N P (S t) r end.

(** what a pass leaves alone *)
Definition same_err (b b' : bufs) := forall m o, b_ine (b' m o) = b_ine (b m o) /\ b_oute (b' m o) = b_oute (b m o).
Lemma same_err_refl b : same_err b b.
Proof. split; auto. Qed.
Lemma same_err_trans a b c : same_err a b -> same_err b c -> same_err a c.
Proof. intros H1 H2 m o. destruct (H1 m o), (H2 m o). split; congruence. Qed.

Lemma mod_forward_ev L m o b : (forall n, pf (mod_forward L m o b) n = gstep (ff_f L) (pf b) (GN (NB m o)) n) /\
  same_err b (mod_forward L m o b).
Proof.
  split.
  - intros [m' o'|k]; cbn; auto. unfold mod_forward, bset. destruct ((m' =? m) && (o' =? o)); reflexivity.
  - intros m' o'. unfold mod_forward, bset. destruct ((m' =? m) && (o' =? o)) eqn:E; auto.
    apply andb_prop in E. destruct E as [E1 E2]. apply Nat.eqb_eq in E1, E2. subst. auto.
Qed.
Lemma conn_forward_ev L P c io oo b : (forall n, pf (conn_forward P c io oo b) n = gstep (ff_f L) (pf b) (cev P io oo c) n) /\
  same_err b (conn_forward P c io oo b).
Proof.
  split.
  - intros [m' o'|k]; cbn; auto. unfold conn_forward, bset. destruct ((m' =? c_out c) && (o' =? oo)); reflexivity.
  - intros m' o'. unfold conn_forward, bset. destruct ((m' =? c_out c) && (o' =? oo)) eqn:E; auto.
    apply andb_prop in E. destruct E as [E1 E2]. apply Nat.eqb_eq in E1, E2. subst. auto.
Qed.
Lemma conns_forward_ev L P io oo cs : forall b,
  (forall n, pf (fold_left (fun b c => conn_forward P c io oo b) cs b) n = gexec (ff_f L) (pf b) (map (cev P io oo) cs) n) /\
  same_err b (fold_left (fun b c => conn_forward P c io oo b) cs b).
Proof.
  induction cs as [|c cs IH]; intro b; cbn [fold_left map].
  - split; [reflexivity|apply same_err_refl].
  - destruct (IH (conn_forward P c io oo b)) as [E S]. destruct (conn_forward_ev L P c io oo b) as [E1 S1]. split.
    + intro n. rewrite E. unfold gexec at 2. cbn [fold_left]. apply gexec_ext. exact E1.
    + eapply same_err_trans; eauto.
Qed.
Lemma load_in_ev L ms o x : forall index b,
  (forall n, pf (load_in L o ms index x b) n = gexec (ff_f L) (pf b) (lev L o ms index x) n) /\
  same_err b (load_in L o ms index x b).
Proof.
  induction ms as [|m ms IH]; intros index b; cbn [load_in lev].
  - split; [reflexivity|apply same_err_refl].
  - match goal with |- context [bset b m o ?x] => set (b1 := bset b m o x) end.
    destruct (IH (index + l_in (L m)) b1) as [E S]. split.
    + intro n. rewrite E. unfold gexec at 2. cbn [fold_left]. apply gexec_ext.
      intros [m' o'|k]; cbn; auto. unfold b1, bset. destruct ((m' =? m) && (o' =? o)); reflexivity.
    + eapply same_err_trans; [|exact S]. intros m' o'. unfold b1, bset.
      destruct ((m' =? m) && (o' =? o)) eqn:E'; auto. apply andb_prop in E'. destruct E' as [E1 E2].
      apply Nat.eqb_eq in E1, E2. subst. auto.
Qed.
Lemma forward_modules_ev N P o b : (forall n, pf (forward_modules N P o b) n = gexec (ff_f (n_layer N)) (pf b) (mev N P o (n_sorted N)) n) /\
  same_err b (forward_modules N P o b).
Proof.
  unfold forward_modules. generalize (n_sorted N). intro ms. revert b.
  induction ms as [|m ms IH]; intro b; cbn [fold_left mev flat_map].
  - split; [reflexivity|apply same_err_refl].
  - set (b1 := mod_forward (n_layer N) m o b). set (b2 := fold_left _ (n_conns N m) b1).
    destruct (IH b2) as [E S]. destruct (conns_forward_ev (n_layer N) P o o (n_conns N m) b1) as [E2 S2].
    destruct (mod_forward_ev (n_layer N) m o b) as [E1 S1]. split.
    + intro n. rewrite E. rewrite gexec_app. apply gexec_ext. intro n'. fold b2 in E2. rewrite E2.
      unfold gexec at 2. cbn [fold_left]. apply gexec_ext. exact E1.
    + eapply same_err_trans; [exact S1|]. eapply same_err_trans; [exact S2|exact S].
Qed.

Definition step_bufs N P o x (b : bufs) : bufs :=
  forward_modules N P o
    (if 0 <? o then fold_left (fun b c => conn_forward P c (o - 1) o b) (n_rec N) (load_in (n_layer N) o (n_inmods N) 0 x b)
     else load_in (n_layer N) o (n_inmods N) 0 x b).
Lemma step_bufs_ev N P o x b :
  (forall n, pf (step_bufs N P o x b) n = gexec (ff_f (n_layer N)) (pf b) (tev N P o x) n) /\ same_err b (step_bufs N P o x b).
Proof.
  unfold step_bufs, tev, rev_. destruct (load_in_ev (n_layer N) (n_inmods N) o x 0 b) as [E1 S1].
  set (b1 := load_in _ _ _ _ _ _) in *. destruct (0 <? o).
  - destruct (conns_forward_ev (n_layer N) P (o - 1) o (n_rec N) b1) as [E2 S2].
    set (b2 := fold_left _ _ b1) in *. destruct (forward_modules_ev N P o b2) as [E3 S3]. split.
    + intro n. rewrite E3, !gexec_app. apply gexec_ext. intro n'. rewrite E2. apply gexec_ext. exact E1.
    + eapply same_err_trans; [exact S1|]. eapply same_err_trans; [exact S2|exact S3].
  - destruct (forward_modules_ev N P o b1) as [E3 S3]. split.
    + intro n. rewrite E3, !gexec_app. apply gexec_ext. intro n'. exact (E1 n').
    + eapply same_err_trans; [exact S1|exact S3].
Qed.

(** ** The forward schedule *)
Definition tlt (t : nat) (e : @gev K) : Prop :=
  match e with
  | GN (NB _ o) => o < t
  | GC (NB _ a) (NB _ b) _ => a < t /\ b < t
  | GL (NB _ o) _ => o < t
  | _ => False
  end.
Lemma tlt_mono t t' e : t <= t' -> tlt t e -> tlt t' e.
Proof. intro H. destruct e as [[m o|k]|[m a|k] [m' b|k'] g|[m o|k] v]; cbn; lia. Qed.

Lemma before_split {A} (u v : A) d t : NoDup (d ++ u :: t) -> before u v (d ++ u :: t) -> In v t.
Proof.
  intros Hn (l1 & l2 & l3 & E).
  assert (Hd : forall d l1 (t r : list A), NoDup (d ++ u :: t) -> d ++ u :: t = l1 ++ u :: r -> t = r).
  { clear. induction d as [|x d IH]; intros [|y l1] t r Hn E; cbn in *.
    - congruence.
    - injection E as <- ->. inversion Hn; subst. exfalso. apply H1. apply in_or_app. right; left; auto.
    - injection E as -> <-. inversion Hn; subst. exfalso. apply H1. apply in_or_app. right; left; auto.
    - injection E as <- E. inversion Hn; subst. eapply IH; eauto. }
  apply (Hd d l1 t (l2 ++ v :: l3) Hn) in E. subst t. apply in_or_app. right. left. auto.
Qed.

Lemma evs_tlt N P xs : forall t t', t + length xs <= t' -> Forall (tlt t') (evs N P t xs).
Proof.
  induction xs as [|x xs IH]; intros t t' Ht; cbn [evs]; [constructor|]. cbn [length] in Ht.
  apply Forall_app. split; [|apply IH; lia]. unfold tev. apply Forall_app. split; [|apply Forall_app; split].
  - generalize 0. generalize (n_inmods N). induction l as [|m l IHl]; intro i; cbn; constructor; auto. cbn. lia.
  - unfold rev_. destruct (Nat.ltb_spec 0 t); [|constructor]. apply Forall_forall. intros e He. apply in_map_iff in He.
    destruct He as (c & <- & _). cbn. lia.
  - apply Forall_forall. intros e He. apply in_flat_map in He. destruct He as (m & _ & [<-|He]); [cbn; lia|].
    apply in_map_iff in He. destruct He as (c & <- & _). cbn. lia.
Qed.

Lemma tev_sched N P t x p : wf_net N -> gsched p -> Forall (tlt t) p -> gsched (p ++ tev N P t x).
Proof.
  intros W Hp Ht. rewrite Forall_forall in Ht. unfold tev.
  (* loads *)
  assert (H1 : gsched (p ++ lev (n_layer N) t (n_inmods N) 0 x) /\
               forall e, In e (lev (n_layer N) t (n_inmods N) 0 x) -> exists m v, e = GL (NB m t) v).
  { generalize (n_inmods N). generalize 0.
    assert (G : forall l i q, gsched (p ++ q) -> (forall e, In e q -> exists m v, e = GL (NB m t) v) ->
       gsched (p ++ q ++ lev (n_layer N) t l i x) /\ forall e, In e (q ++ lev (n_layer N) t l i x) -> exists m v, e = GL (NB m t) v).
    { induction l as [|m l IH]; intros i q Hq Hf; cbn [lev].
      - rewrite app_nil_r. auto.
      - replace (q ++ GL (NB m t) (bslice x i) :: lev (n_layer N) t l (i + l_in (n_layer N m)) x)
          with ((q ++ [GL (NB m t) (bslice x i)]) ++ lev (n_layer N) t l (i + l_in (n_layer N m)) x) by (rewrite <- app_assoc; reflexivity).
        apply IH.
        + rewrite app_assoc. apply gs_L; auto.
          * intro Hin. apply in_app_or in Hin. destruct Hin as [Hin|Hin].
            -- apply Ht in Hin. cbn in Hin. lia.
            -- apply Hf in Hin. destruct Hin as (? & ? & ?). discriminate.
          * intros src g Hin. apply in_app_or in Hin. destruct Hin as [Hin|Hin].
            -- apply Ht in Hin. destruct src; cbn in Hin; lia.
            -- apply Hf in Hin. destruct Hin as (? & ? & ?). discriminate.
        + intros e He. apply in_app_or in He. destruct He as [He|[<-|[]]]; eauto. }
    intros i l. apply (G l i []); [rewrite app_nil_r; auto|intros e []]. }
  destruct H1 as [H1 H1f]. set (p1 := p ++ lev (n_layer N) t (n_inmods N) 0 x) in *.
  rewrite app_assoc. fold p1.
  assert (P1N : forall m, ~ In (GN (NB m t)) p1).
  { intros m Hin. apply in_app_or in Hin. destruct Hin as [Hin|Hin].
    - apply Ht in Hin. cbn in Hin. lia.
    - apply H1f in Hin. destruct Hin as (? & ? & ?). discriminate. }
  assert (P1C : forall src dst g, In (GC src dst g) p1 -> In (GC src dst g) p).
  { intros src dst g Hin. apply in_app_or in Hin. destruct Hin as [Hin|Hin]; auto.
    apply H1f in Hin. destruct Hin as (? & ? & ?). discriminate. }
  (* recurrent connections *)
  assert (H2 : gsched (p1 ++ rev_ N P t) /\ forall e, In e (rev_ N P t) -> exists c, e = cev P (t - 1) t c /\ 0 < t).
  { unfold rev_. destruct (Nat.ltb_spec 0 t) as [H0|H0]; [|rewrite app_nil_r; split; auto; intros e []].
    split.
    - assert (G : forall l q, gsched (p1 ++ q) -> (forall m, ~ In (GN (NB m t)) (p1 ++ q)) -> gsched (p1 ++ q ++ map (cev P (t - 1) t) l)).
      { induction l as [|c l IH]; intros q Hq Hn; cbn [map]; [rewrite app_nil_r; auto|].
        replace (q ++ cev P (t - 1) t c :: map (cev P (t - 1) t) l) with ((q ++ [cev P (t - 1) t c]) ++ map (cev P (t - 1) t) l) by (rewrite <- app_assoc; reflexivity).
        apply IH.
        - rewrite app_assoc. apply gs_C; auto.
        - intros m Hin. rewrite app_assoc in Hin. apply in_app_or in Hin. destruct Hin as [Hin|[Hin|[]]]; [apply (Hn m Hin)|discriminate]. }
      apply (G (n_rec N) []); rewrite app_nil_r; auto.
    - intros e He. apply in_map_iff in He. destruct He as (c & <- & _). eauto. }
  destruct H2 as [H2 H2f]. set (p2 := p1 ++ rev_ N P t) in *. rewrite app_assoc. fold p2.
  assert (P2N : forall m, ~ In (GN (NB m t)) p2).
  { intros m Hin. apply in_app_or in Hin. destruct Hin as [Hin|Hin]; [apply (P1N m Hin)|].
    apply H2f in Hin. destruct Hin as (? & ? & ?). discriminate. }
  assert (P2C : forall m dst g, ~ In (GC (NB m t) dst g) p2).
  { intros m dst g Hin. apply in_app_or in Hin. destruct Hin as [Hin|Hin].
    - apply P1C, Ht in Hin. destruct dst; cbn in Hin; lia.
    - apply H2f in Hin. destruct Hin as (c & E & H0). unfold cev in E. injection E as _ E _ _. lia. }
  (* modules *)
  assert (G : forall todo done q, n_sorted N = done ++ todo -> gsched (p2 ++ q) ->
     (forall m, In (GN (NB m t)) q -> In m done) ->
     (forall m dst g, In (GC (NB m t) dst g) q -> In m done) -> gsched (p2 ++ q ++ mev N P t todo)).
  { induction todo as [|m todo IH]; intros done q Es Hq HqN HqC; cbn [mev flat_map]; [rewrite app_nil_r; auto|].
    pose proof (wf_nodup _ W) as Hnd. rewrite Es in Hnd.
    assert (Hmd : ~ In m done).
    { intro Hin. apply NoDup_remove_2 in Hnd. apply Hnd. apply in_or_app; auto. }
    replace (q ++ (GN (NB m t) :: map (cev P t t) (n_conns N m)) ++ flat_map (fun m0 => GN (NB m0 t) :: map (cev P t t) (n_conns N m0)) todo)
      with ((q ++ GN (NB m t) :: map (cev P t t) (n_conns N m)) ++ mev N P t todo) by (rewrite <- app_assoc; reflexivity).
    apply (IH (done ++ [m])).
    - rewrite <- app_assoc. exact Es.
    - assert (Gc : forall cs r, gsched (p2 ++ r) -> (forall c, In c cs -> ~ In (GN (NB (c_out c) t)) r) -> gsched (p2 ++ r ++ map (cev P t t) cs)).
      { induction cs as [|c cs IHc]; intros r Hr Hn; cbn [map]; [rewrite app_nil_r; auto|].
        replace (r ++ cev P t t c :: map (cev P t t) cs) with ((r ++ [cev P t t c]) ++ map (cev P t t) cs) by (rewrite <- app_assoc; reflexivity).
        apply IHc.
        - rewrite app_assoc. apply gs_C; auto. intro Hin. apply in_app_or in Hin. destruct Hin as [Hin|Hin]; [apply (P2N _ Hin)|].
          revert Hin. apply Hn. left; auto.
        - intros c' Hc' Hin. apply in_app_or in Hin. destruct Hin as [Hin|[Hin|[]]]; [|discriminate].
          revert Hin. apply Hn. right; auto. }
      replace (q ++ GN (NB m t) :: map (cev P t t) (n_conns N m)) with ((q ++ [GN (NB m t)]) ++ map (cev P t t) (n_conns N m)) by (rewrite <- app_assoc; reflexivity).
      apply Gc.
      + rewrite app_assoc. apply gs_N; auto.
        * intro Hin. apply in_app_or in Hin. destruct Hin as [Hin|Hin]; [apply (P2N _ Hin)|]. apply Hmd. auto.
        * intros src dst g Hin ->. apply in_app_or in Hin. destruct Hin as [Hin|Hin]; [apply (P2C _ _ _ Hin)|].
          apply Hmd. eapply HqC; eauto.
      + intros c Hc Hin. assert (Hms : In m (n_sorted N)) by (rewrite Es; apply in_or_app; right; left; auto).
        destruct (wf_conns _ W m c Hms Hc) as (_ & Hb & _). rewrite Es in Hb. apply before_split in Hb; auto.
        apply in_app_or in Hin. destruct Hin as [Hin|[Hin|[]]].
        * apply HqN in Hin. revert Hnd Hin Hb. generalize (c_out c). clear. intros v Hnd H1 H2. induction done as [|d done IHd]; [destruct H1|].
          cbn in Hnd. inversion Hnd; subst. destruct H1 as [<-|H1]; [|apply IHd; auto].
          apply H3. apply in_or_app. right. right. auto.
        * injection Hin as ->. apply NoDup_remove_2 in Hnd. apply Hnd. apply in_or_app; auto.
    - intros m' Hin. apply in_app_or in Hin. apply in_or_app. destruct Hin as [Hin|[Hin|Hin]].
      + left; auto.
      + injection Hin as ->. right; left; auto.
      + apply in_map_iff in Hin. destruct Hin as (c & E & _). discriminate.
    - intros m' dst g Hin. apply in_app_or in Hin. apply in_or_app. destruct Hin as [Hin|[Hin|Hin]].
      + left; eauto.
      + discriminate.
      + apply in_map_iff in Hin. destruct Hin as (c & E & Hc). unfold cev in E. injection E as <- _ _.
        assert (Hms : In m (n_sorted N)) by (rewrite Es; apply in_or_app; right; left; auto).
        destruct (wf_conns _ W m c Hms Hc) as (-> & _). right; left; auto. }
  apply (G (n_sorted N) [] []); auto; try contradiction. rewrite app_nil_r; auto.
Qed.

Lemma evs_sched N P xs : wf_net N -> forall t p, gsched p -> Forall (tlt t) p -> gsched (p ++ evs N P t xs).
Proof.
  intro W. induction xs as [|x xs IH]; intros t p Hp Ht; cbn [evs]; [rewrite app_nil_r; auto|].
  rewrite app_assoc. apply IH.
  - apply tev_sched; auto.
  - apply Forall_app. split.
    + eapply Forall_impl; [|exact Ht]. intros e He. eapply tlt_mono; [|exact He]. lia.
    + pose proof (evs_tlt N P [x] t (S t)) as H. cbn [evs length] in H. rewrite app_nil_r in H. apply H. lia.
Qed.
End Events.
