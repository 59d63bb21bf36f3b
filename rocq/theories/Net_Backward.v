(** The backward loops as event lists, and their equations. *)
From Coq Require Import Ring.
From Verif Require Import Base RingOps Net_Model Net_Spec Propagate Net_Events Net_Forward Conn_Adjoint.

Section Backward.
Context {K : Type} {Ops : RingOps K} {Lw : RingLaws K}.
Add Ring Kring7 : (@rlaws K Ops Lw).
Notation vec := (@vec K).
Notation net := (@net K).
Notation bufs := (@bufs K).
Notation rstate := (@rstate K).

(** errors and derivatives *)
Definition pb (s : bufs * derivs) : gstate :=
  fun n => match n with NB m o => (b_oute (fst s m o), b_ine (fst s m o)) | ND k => (snd s k, zvec) end.
Definition bf_f (L : nat -> layer) (fb : bufs) : node -> vec -> vec -> vec :=
  fun n => match n with NB m o => fun oute ine => l_bwd (L m) oute ine (b_out (fb m o)) (b_in (fb m o)) | ND _ => fun _ v => v end.
Definition same_fwd (fb : bufs) (b : bufs) := forall m o, b_in (b m o) = b_in (fb m o) /\ b_out (b m o) = b_out (fb m o).

Definition bcev (P : nat -> vec) (fb : bufs) (io oo : nat) (c : conn) : list gev :=
  [GC (NB (c_out c) oo) (NB (c_in c) io) (fun e j => collects P c e j);
   GC (NB (c_out c) oo) (ND (c_par c)) (dder c (b_out (fb (c_in c) io)))].
Fixpoint elev (L : nat -> @layer K) (o : nat) (ms : list nat) (index : nat) (e : vec) : list gev :=
  match ms with [] => [] | m :: t => GL (NB m o) (bslice e index) :: elev L o t (index + l_out (L m)) e end.
Definition bmev (N : net) (P : nat -> vec) (fb : bufs) (o : nat) (ms : list nat) : list gev :=
  flat_map (fun m => flat_map (bcev P fb o o) (n_conns N m) ++ [GN (NB m o)]) ms.
Definition brev (N : net) (P : nat -> vec) (fb : bufs) (mo o : nat) : list gev :=
  if o =? mo then [] else flat_map (bcev P fb o (o + 1)) (n_rec N).
Definition bev (N : net) (P : nat -> vec) (fb : bufs) (mo o : nat) (e : vec) : list gev :=
  elev (n_layer N) o (n_outmods N) 0 e ++ brev N P fb mo o ++ bmev N P fb o (rev (n_sorted N)).

Lemma same_fwd_bset fb b m o x : same_fwd fb b -> b_in x = b_in (b m o) -> b_out x = b_out (b m o) -> same_fwd fb (bset b m o x).
Proof.
  intros H E1 E2 m' o'. unfold bset. destruct ((m' =? m) && (o' =? o)) eqn:E; auto.
  apply andb_prop in E. destruct E as [A B]. apply Nat.eqb_eq in A, B. subst. rewrite E1, E2. apply H.
Qed.
Lemma mod_backward_ev L fb m o b d : same_fwd fb b ->
  (forall n, pb (mod_backward L m o b, d) n = gstep (bf_f L fb) (pb (b, d)) (GN (NB m o)) n) /\ same_fwd fb (mod_backward L m o b).
Proof.
  intro H. split.
  - intros [m' o'|k]; cbn; auto. unfold mod_backward, bset. destruct ((m' =? m) && (o' =? o)); auto.
    cbn. destruct (H m o) as [-> ->]. auto.
  - unfold mod_backward. apply same_fwd_bset; auto.
Qed.
Lemma conn_backward_ev L P fb c io oo s : same_fwd fb (fst s) ->
  (forall n, pb (conn_backward P c io oo s) n = gexec (bf_f L fb) (pb s) (bcev P fb io oo c) n) /\ same_fwd fb (fst (conn_backward P c io oo s)).
Proof.
  destruct s as [b d]. intro H. cbn in H. split.
  - intros [m' o'|k]; cbn.
    + unfold bset. destruct ((m' =? c_in c) && (o' =? io)) eqn:E; auto.
    + unfold dadd. destruct (Nat.eqb_spec k (c_par c)); auto. subst. f_equal.
      destruct (H (c_in c) io) as [_ ->].
      replace (snd (if (c_out c =? c_in c) && (oo =? io) then _ else _)) with (b_ine (b (c_out c) oo)); [reflexivity|].
      destruct ((c_out c =? c_in c) && (oo =? io)) eqn:E; auto. apply andb_prop in E. destruct E as [A B]. apply Nat.eqb_eq in A, B. rewrite A, B. auto.
  - cbn. apply same_fwd_bset; auto.
Qed.
Lemma conns_backward_ev L P fb io oo cs : forall s, same_fwd fb (fst s) ->
  (forall n, pb (fold_left (fun s c => conn_backward P c io oo s) cs s) n = gexec (bf_f L fb) (pb s) (flat_map (bcev P fb io oo) cs) n) /\
  same_fwd fb (fst (fold_left (fun s c => conn_backward P c io oo s) cs s)).
Proof.
  induction cs as [|c cs IH]; intros s H; cbn [fold_left flat_map]; [split; auto|].
  destruct (conn_backward_ev L P fb c io oo s H) as [E1 S1]. destruct (IH _ S1) as [E2 S2]. split; auto.
  intro n. rewrite E2, gexec_app. apply gexec_ext. exact E1.
Qed.
Lemma backward_modules_ev N P fb o s : same_fwd fb (fst s) ->
  (forall n, pb (backward_modules N P o s) n = gexec (bf_f (n_layer N) fb) (pb s) (bmev N P fb o (rev (n_sorted N))) n) /\
  same_fwd fb (fst (backward_modules N P o s)).
Proof.
  unfold backward_modules. generalize (rev (n_sorted N)). intro ms. revert s.
  induction ms as [|m ms IH]; intros s H; cbn [fold_left bmev flat_map]; [split; auto|].
  destruct (conns_backward_ev (n_layer N) P fb o o (n_conns N m) s H) as [E1 S1].
  set (s1 := fold_left (fun s c => conn_backward P c o o s) (n_conns N m) s) in *.
  destruct (mod_backward_ev (n_layer N) fb m o (fst s1) (snd s1) S1) as [E2 S2].
  destruct (IH (mod_backward (n_layer N) m o (fst s1), snd s1) S2) as [E3 S3]. split; [|exact S3].
  intro n. rewrite E3, <- app_assoc, !gexec_app. apply gexec_ext. intro n'. rewrite E2.
  unfold gexec at 1. cbn [fold_left]. apply gstep_ext. intro n''. rewrite <- E1. destruct s1; auto.
Qed.
Lemma load_err_ev L fb ms o e d : forall index b, same_fwd fb b ->
  (forall n, pb (load_err L o ms index e b, d) n = gexec (bf_f L fb) (pb (b, d)) (elev L o ms index e) n) /\
  same_fwd fb (load_err L o ms index e b).
Proof.
  induction ms as [|m ms IH]; intros index b H; cbn [load_err elev]; [split; auto|].
  match goal with |- context [bset b m o ?x] => set (b1 := bset b m o x) end.
  assert (H1 : same_fwd fb b1) by (apply same_fwd_bset; auto).
  destruct (IH (index + l_out (L m)) b1 H1) as [E S]. split; auto.
  intro n. rewrite E. unfold gexec at 2. cbn [fold_left]. apply gexec_ext.
  intros [m' o'|k]; cbn; auto. unfold b1, bset. destruct ((m' =? m) && (o' =? o)); reflexivity.
Qed.

(** one call of backActivate *)
Lemma rec_back_ev N P fb s e : same_fwd fb (r_b s) ->
  let r := rec_backActivate N P s e in
  (forall n, pb (r_b (fst r), r_d (fst r)) n =
             gexec (bf_f (n_layer N) fb) (pb (r_b s, r_d s)) (bev N P fb (r_maxoffset s) (r_offset s - 1) e) n) /\
  same_fwd fb (r_b (fst r)) /\ r_offset (fst r) = r_offset s - 1 /\ r_maxoffset (fst r) = r_maxoffset s /\ r_len (fst r) = r_len s /\
  snd r = inputerrors N (r_offset s - 1) (r_b (fst r)).
Proof.
  intros H r. unfold r, rec_backActivate. set (o := r_offset s - 1). cbn [fst snd r_b r_d r_offset r_maxoffset r_len].
  destruct (load_err_ev (n_layer N) fb (n_outmods N) o e (r_d s) 0 (r_b s) H) as [E1 S1].
  set (b1 := load_err _ _ _ _ _ _) in *. unfold bev, brev.
  set (s1 := if o =? r_maxoffset s then (b1, r_d s) else fold_left _ (n_rec N) (b1, r_d s)).
  assert (E2 : (forall n, pb s1 n = gexec (bf_f (n_layer N) fb) (pb (b1, r_d s)) (if o =? r_maxoffset s then [] else flat_map (bcev P fb o (o + 1)) (n_rec N)) n) /\ same_fwd fb (fst s1)).
  { unfold s1. destruct (o =? r_maxoffset s); [split; auto|]. apply conns_backward_ev. exact S1. }
  destruct E2 as [E2 S2]. destruct (backward_modules_ev N P fb o s1 S2) as [E3 S3].
  repeat apply conj; auto; try apply S3. intro n. rewrite <- surjective_pairing, E3, !gexec_app. apply gexec_ext. intro n'.
  rewrite E2. apply gexec_ext. exact E1.
Qed.
Lemma ff_back_ev N P fb s e : same_fwd fb (fst s) ->
  let r := ff_backActivate N P s e in
  (forall n, pb (fst r) n = gexec (bf_f (n_layer N) fb) (pb s) (bev N P fb 0 0 e) n) /\
  same_fwd fb (fst (fst r)) /\ snd r = inputerrors N 0 (fst (fst r)).
Proof.
  intros H r. unfold r, ff_backActivate. cbn [fst snd].
  destruct (load_err_ev (n_layer N) fb (n_outmods N) 0 e (snd s) 0 (fst s) H) as [E1 S1].
  set (b1 := load_err _ _ _ _ _ _) in *. unfold bev, brev. cbn [Nat.eqb].
  destruct (backward_modules_ev N P fb 0 (b1, snd s) S1) as [E3 S3].
  split; [|split; [exact S3|reflexivity]]. intro n. rewrite E3, !gexec_app. apply gexec_ext. intro n'.
  destruct s as [b d]. cbn [fst snd] in *. exact (E1 n').
Qed.

(** ** The backward schedule: times descending *)
Definition tge (t : nat) (e : @gev K) : Prop :=
  match e with
  | GN (NB _ o) => t <= o
  | GC (NB _ a) (NB _ b) _ => t <= a /\ t <= b
  | GC (NB _ a) (ND _) _ => t <= a
  | GL (NB _ o) _ => t <= o
  | _ => False
  end.
Lemma tge_mono t t' e : t' <= t -> tge t e -> tge t' e.
Proof. intro H. destruct e as [[m o|k]|[m a|k] [m' b|k'] g|[m o|k] v]; cbn; lia. Qed.

Lemma bev_tge N P fb mo o e : Forall (tge o) (bev N P fb mo o e).
Proof.
  unfold bev. apply Forall_app. split; [|apply Forall_app; split].
  - generalize 0. generalize (n_outmods N). induction l as [|m l IHl]; intro i; cbn; constructor; auto. cbn. lia.
  - unfold brev. destruct (o =? mo); [constructor|]. apply Forall_forall. intros x Hx. apply in_flat_map in Hx.
    destruct Hx as (c & _ & [<-|[<-|[]]]); cbn; lia.
  - apply Forall_forall. intros x Hx. apply in_flat_map in Hx. destruct Hx as (m & _ & Hx). apply in_app_or in Hx.
    destruct Hx as [Hx|[<-|[]]]; [|cbn; lia]. apply in_flat_map in Hx. destruct Hx as (c & _ & [<-|[<-|[]]]); cbn; lia.
Qed.

Lemma bcev_in P fb io oo c e : In e (bcev P fb io oo c) -> exists dst g, e = GC (NB (c_out c) oo) dst g /\ (dst = NB (c_in c) io \/ dst = ND (c_par c)).
Proof. intros [<-|[<-|[]]]; eauto. Qed.

Lemma gs_bcevs P fb io oo p cs : forall q, gsched (p ++ q) -> (forall k, ~ In (GN (ND k)) (p ++ q)) ->
  (forall c, In c cs -> ~ In (GN (NB (c_in c) io)) (p ++ q)) -> gsched (p ++ q ++ flat_map (bcev P fb io oo) cs).
Proof.
  induction cs as [|c cs IH]; intros q Hq Hk Hn; cbn [flat_map]; [rewrite app_nil_r; auto|].
  rewrite (app_assoc q). apply IH.
  - unfold bcev. replace (q ++ [GC (NB (c_out c) oo) (NB (c_in c) io) (fun e j => collects P c e j); GC (NB (c_out c) oo) (ND (c_par c)) (dder c (b_out (fb (c_in c) io)))])
      with ((q ++ [GC (NB (c_out c) oo) (NB (c_in c) io) (fun e j => collects P c e j)]) ++ [GC (NB (c_out c) oo) (ND (c_par c)) (dder c (b_out (fb (c_in c) io)))]) by (rewrite <- app_assoc; reflexivity).
    rewrite !app_assoc. apply gs_C; [apply gs_C; auto|].
    + apply Hn. left; auto.
    + intro Hin. apply in_app_or in Hin. destruct Hin as [Hin|[Hin|[]]]; [apply (Hk _ Hin)|discriminate].
  - intros k Hin. rewrite app_assoc in Hin. apply in_app_or in Hin. destruct Hin as [Hin|Hin]; [apply (Hk _ Hin)|].
    apply bcev_in in Hin. destruct Hin as (? & ? & ? & _). discriminate.
  - intros c' Hc' Hin. rewrite app_assoc in Hin. apply in_app_or in Hin. destruct Hin as [Hin|Hin]; [revert Hin; apply Hn; right; auto|].
    apply bcev_in in Hin. destruct Hin as (? & ? & ? & _). discriminate.
Qed.

Lemma bev_sched N P fb mo t e p : wf_net N -> gsched p -> Forall (tge (S t)) p -> gsched (p ++ bev N P fb mo t e).
Proof.
  intros W Hp Ht. rewrite Forall_forall in Ht. unfold bev.
  assert (PD : forall k, ~ In (GN (ND k)) p) by (intros k Hin; apply Ht in Hin; exact Hin).
  assert (PN : forall m, ~ In (GN (NB m t)) p) by (intros m Hin; apply Ht in Hin; cbn in Hin; lia).
  assert (PC : forall m dst g, ~ In (GC (NB m t) dst g) p) by (intros m dst g Hin; apply Ht in Hin; destruct dst; cbn in Hin; lia).
  assert (PT : forall m src g, ~ In (GC src (NB m t) g) p) by (intros m src g Hin; apply Ht in Hin; destruct src; cbn in Hin; lia).
  (* loads *)
  assert (H1 : gsched (p ++ elev (n_layer N) t (n_outmods N) 0 e) /\
               forall x, In x (elev (n_layer N) t (n_outmods N) 0 e) -> exists m v, x = GL (NB m t) v).
  { generalize (n_outmods N). generalize 0.
    assert (G : forall l i q, gsched (p ++ q) -> (forall x, In x q -> exists m v, x = GL (NB m t) v) ->
       gsched (p ++ q ++ elev (n_layer N) t l i e) /\ forall x, In x (q ++ elev (n_layer N) t l i e) -> exists m v, x = GL (NB m t) v).
    { induction l as [|m l IH]; intros i q Hq Hf; cbn [elev].
      - rewrite app_nil_r. auto.
      - replace (q ++ GL (NB m t) (bslice e i) :: elev (n_layer N) t l (i + l_out (n_layer N m)) e)
          with ((q ++ [GL (NB m t) (bslice e i)]) ++ elev (n_layer N) t l (i + l_out (n_layer N m)) e) by (rewrite <- app_assoc; reflexivity).
        apply IH.
        + rewrite app_assoc. apply gs_L; auto.
          * intro Hin. apply in_app_or in Hin. destruct Hin as [Hin|Hin]; [apply (PN _ Hin)|].
            apply Hf in Hin. destruct Hin as (? & ? & ?). discriminate.
          * intros src g Hin. apply in_app_or in Hin. destruct Hin as [Hin|Hin]; [apply (PT _ _ _ Hin)|].
            apply Hf in Hin. destruct Hin as (? & ? & ?). discriminate.
        + intros x Hx. apply in_app_or in Hx. destruct Hx as [Hx|[<-|[]]]; eauto. }
    intros i l. apply (G l i []); [rewrite app_nil_r; auto|intros x []]. }
  destruct H1 as [H1 H1f]. set (p1 := p ++ elev (n_layer N) t (n_outmods N) 0 e) in *.
  rewrite app_assoc. fold p1.
  assert (P1D : forall k, ~ In (GN (ND k)) p1).
  { intros k Hin. apply in_app_or in Hin. destruct Hin as [Hin|Hin]; [apply (PD _ Hin)|]. apply H1f in Hin. destruct Hin as (? & ? & ?). discriminate. }
  assert (P1N : forall m, ~ In (GN (NB m t)) p1).
  { intros m Hin. apply in_app_or in Hin. destruct Hin as [Hin|Hin]; [apply (PN _ Hin)|]. apply H1f in Hin. destruct Hin as (? & ? & ?). discriminate. }
  assert (P1C : forall m dst g, ~ In (GC (NB m t) dst g) p1).
  { intros m dst g Hin. apply in_app_or in Hin. destruct Hin as [Hin|Hin]; [apply (PC _ _ _ Hin)|]. apply H1f in Hin. destruct Hin as (? & ? & ?). discriminate. }
  (* recurrent connections *)
  assert (H2 : gsched (p1 ++ brev N P fb mo t) /\ forall x, In x (brev N P fb mo t) -> exists c dst g, x = GC (NB (c_out c) (t + 1)) dst g).
  { unfold brev. destruct (t =? mo); [rewrite app_nil_r; split; auto; intros x []|]. split.
    - apply (gs_bcevs P fb t (t + 1) p1 (n_rec N) []); rewrite ?app_nil_r; auto.
    - intros x Hx. apply in_flat_map in Hx. destruct Hx as (c & _ & Hx). apply bcev_in in Hx. destruct Hx as (d & g & -> & _). eauto. }
  destruct H2 as [H2 H2f]. set (p2 := p1 ++ brev N P fb mo t) in *. rewrite app_assoc. fold p2.
  assert (P2D : forall k, ~ In (GN (ND k)) p2).
  { intros k Hin. apply in_app_or in Hin. destruct Hin as [Hin|Hin]; [apply (P1D _ Hin)|]. apply H2f in Hin. destruct Hin as (? & ? & ? & ?). discriminate. }
  assert (P2N : forall m, ~ In (GN (NB m t)) p2).
  { intros m Hin. apply in_app_or in Hin. destruct Hin as [Hin|Hin]; [apply (P1N _ Hin)|]. apply H2f in Hin. destruct Hin as (? & ? & ? & ?). discriminate. }
  assert (P2C : forall m dst g, ~ In (GC (NB m t) dst g) p2).
  { intros m dst g Hin. apply in_app_or in Hin. destruct Hin as [Hin|Hin]; [apply (P1C _ _ _ Hin)|]. apply H2f in Hin.
    destruct Hin as (? & ? & ? & E). injection E as _ E _ _. lia. }
  (* modules *)
  assert (G : forall todo done q, rev (n_sorted N) = done ++ todo -> gsched (p2 ++ q) ->
     (forall k, ~ In (GN (ND k)) q) ->
     (forall m, In (GN (NB m t)) q -> In m done) ->
     (forall m dst g, In (GC (NB m t) dst g) q -> exists m' c, In m' done /\ In c (n_conns N m') /\ c_out c = m) ->
     gsched (p2 ++ q ++ bmev N P fb t todo)).
  { induction todo as [|m todo IH]; intros done q Es Hq HqD HqN HqC; cbn [bmev flat_map]; [rewrite app_nil_r; auto|].
    assert (Hnd : NoDup (done ++ m :: todo)) by (rewrite <- Es; apply NoDup_rev, (wf_nodup _ W)).
    assert (Hms : In m (n_sorted N)) by (apply in_rev; rewrite Es; apply in_or_app; right; left; auto).
    assert (Hmd : ~ In m done).
    { intro Hin. apply NoDup_remove_2 in Hnd. apply Hnd. apply in_or_app; auto. }
    fold (bmev N P fb t todo). rewrite (app_assoc q).
    assert (Hc1 : gsched (p2 ++ q ++ flat_map (bcev P fb t t) (n_conns N m))).
    { apply gs_bcevs; auto.
      - intros k Hin. apply in_app_or in Hin. destruct Hin as [Hin|Hin]; [apply (P2D _ Hin)|apply (HqD _ Hin)].
      - intros c Hc Hin. destruct (wf_conns _ W m c Hms Hc) as (Ec & _ & _). rewrite Ec in Hin.
        apply in_app_or in Hin. destruct Hin as [Hin|Hin]; [apply (P2N _ Hin)|]. apply Hmd. auto. }
    apply (IH (done ++ [m])).
    - rewrite <- app_assoc. exact Es.
    - rewrite (app_assoc q), app_assoc. apply gs_N; auto.
      + intro Hin. apply in_app_or in Hin. destruct Hin as [Hin|Hin]; [apply (P2N _ Hin)|]. apply in_app_or in Hin.
        destruct Hin as [Hin|Hin]; [apply Hmd; auto|]. apply in_flat_map in Hin. destruct Hin as (c & _ & Hin).
        apply bcev_in in Hin. destruct Hin as (? & ? & ? & _). discriminate.
      + intros src dst g Hin ->.
        assert (Hb : exists m' c, In m' (done ++ [m]) /\ In c (n_conns N m') /\ c_out c = m).
        { apply in_app_or in Hin. destruct Hin as [Hin|Hin]; [destruct (P2C _ _ _ Hin)|]. apply in_app_or in Hin.
          destruct Hin as [Hin|Hin].
          - destruct (HqC _ _ _ Hin) as (m' & c & A & B & C). exists m', c. split; auto. apply in_or_app; auto.
          - apply in_flat_map in Hin. destruct Hin as (c & Hc & Hin). apply bcev_in in Hin. destruct Hin as (? & ? & E & _).
            injection E as E _ _. exists m, c. split; [apply in_or_app; right; left; auto|]. auto. }
        destruct Hb as (m' & c & Hm' & Hc & Eo).
        assert (Hm's : In m' (n_sorted N)).
        { apply in_rev. rewrite Es. apply in_app_or in Hm'. apply in_or_app. destruct Hm' as [?|[<-|[]]]; [left|right; left]; auto. }
        destruct (wf_conns _ W m' c Hm's Hc) as (_ & Hbef & _). rewrite Eo in Hbef.
        (* m' is before m in the sorted list, so after it in the reversed one *)
        assert (Hbr : before m m' (done ++ m :: todo)).
        { rewrite <- Es. destruct Hbef as (l1 & l2 & l3 & El). rewrite El. exists (rev l3), (rev l2), (rev l1).
          rewrite rev_app_distr. cbn [rev]. rewrite rev_app_distr. cbn [rev]. rewrite <- !app_assoc. reflexivity. }
        apply before_split in Hbr; auto.
        apply in_app_or in Hm'. destruct Hm' as [Hm'|[<-|[]]].
        * revert Hnd Hm' Hbr. clear. intros Hnd H1 H2. induction done as [|d done IHd]; [destruct H1|].
          cbn in Hnd. inversion Hnd as [|? ? Hd Hr]; subst. destruct H1 as [<-|H1]; [|apply IHd; auto].
          apply Hd. apply in_or_app. right. right. auto.
        * apply NoDup_remove_2 in Hnd. apply Hnd. apply in_or_app; auto.
    - intros k Hin. apply in_app_or in Hin. destruct Hin as [Hin|Hin]; [apply (HqD _ Hin)|]. apply in_app_or in Hin.
      destruct Hin as [Hin|[Hin|[]]]; [|discriminate]. apply in_flat_map in Hin. destruct Hin as (c & _ & Hin).
      apply bcev_in in Hin. destruct Hin as (? & ? & ? & _). discriminate.
    - intros m' Hin. apply in_app_or in Hin. apply in_or_app. destruct Hin as [Hin|Hin]; [left; auto|]. apply in_app_or in Hin.
      destruct Hin as [Hin|[Hin|[]]].
      + apply in_flat_map in Hin. destruct Hin as (c & _ & Hin). apply bcev_in in Hin. destruct Hin as (? & ? & ? & _). discriminate.
      + injection Hin as ->. right; left; auto.
    - intros m' dst g Hin. apply in_app_or in Hin. destruct Hin as [Hin|Hin].
      + destruct (HqC _ _ _ Hin) as (m1 & c & A & B & C). exists m1, c. split; auto. apply in_or_app; auto.
      + apply in_app_or in Hin. destruct Hin as [Hin|[Hin|[]]]; [|discriminate].
        apply in_flat_map in Hin. destruct Hin as (c & Hc & Hin). apply bcev_in in Hin. destruct Hin as (? & ? & E & _).
        injection E as E _ _. exists m, c. split; [apply in_or_app; right; left; auto|]. auto. }
  apply (G (rev (n_sorted N)) [] []); auto; try contradiction; try (intros; contradiction). rewrite app_nil_r; auto.
Qed.

(** errors E T-1, ..., E 0 for T time steps *)
Fixpoint bevs (N : net) (P : nat -> vec) (fb : bufs) (mo T : nat) (E : nat -> vec) : list gev :=
  match T with 0 => [] | S t => bev N P fb mo t (E t) ++ bevs N P fb mo t E end.
Lemma bevs_sched N P fb mo E T : wf_net N -> forall p, gsched p -> Forall (tge T) p -> gsched (p ++ bevs N P fb mo T E).
Proof.
  intro W. induction T as [|t IH]; intros p Hp Ht; cbn [bevs]; [rewrite app_nil_r; auto|].
  rewrite app_assoc. apply IH; [apply bev_sched; auto|]. apply Forall_app. split; [|apply bev_tge].
  eapply Forall_impl; [|exact Ht]. intros x Hx. eapply tge_mono; [|exact Hx]. lia.
Qed.

(** ** Sums of the events *)
Definition err_at (N : net) (e : vec) (m : nat) : vec :=
  (fix go (ms : list nat) (index : nat) : vec :=
     match ms with [] => zvec | a :: t => if a =? m then (fun i => e (index + i)) else go t (index + l_out (n_layer N a)) end) (n_outmods N) 0.

Lemma suml_elev L o ms e n val i : forall index, suml (elev L o ms index e) (gin n val i) = r0.
Proof. induction ms as [|m ms IH]; intro index; cbn; auto. rewrite IH. ring. Qed.
Lemma suml_bcevs_B P fb a b cs m t val i : suml (flat_map (bcev P fb a b) cs) (gin (NB m t) val i) =
  if a =? t then suml (filter (fun c => c_in c =? m) cs) (fun c => collects P c (val (NB (c_out c) b)) i) else r0.
Proof.
  induction cs as [|c cs IH]; cbn [flat_map suml filter]; [destruct (a =? t); auto|]. rewrite suml_app, IH. cbn.
  destruct (Nat.eqb_spec a t); [|rewrite andb_false_r; ring]. rewrite andb_true_r. destruct (c_in c =? m); cbn; ring.
Qed.
Lemma suml_bcevs_D P fb a b cs k val q : suml (flat_map (bcev P fb a b) cs) (gin (ND k) val q) =
  suml (filter (fun c => c_par c =? k) cs) (fun c => dder c (b_out (fb (c_in c) a)) (val (NB (c_out c) b)) q).
Proof.
  induction cs as [|c cs IH]; cbn [flat_map suml filter]; auto. rewrite suml_app, IH. cbn.
  destruct (c_par c =? k); cbn; ring.
Qed.
Lemma suml_bmev_B N P fb o ms m t val i : suml (bmev N P fb o ms) (gin (NB m t) val i) =
  if o =? t then suml (filter (fun c => c_in c =? m) (flat_map (n_conns N) ms)) (fun c => collects P c (val (NB (c_out c) o)) i) else r0.
Proof.
  induction ms as [|m' ms IH]; cbn [bmev flat_map suml filter]; [destruct (o =? t); auto|].
  fold (bmev N P fb o ms). rewrite !suml_app, IH, suml_bcevs_B. cbn. destruct (o =? t); [|ring].
  rewrite filter_app, suml_app. ring.
Qed.
Lemma suml_bmev_D N P fb o ms k val q : suml (bmev N P fb o ms) (gin (ND k) val q) =
  suml (filter (fun c => c_par c =? k) (flat_map (n_conns N) ms)) (fun c => dder c (b_out (fb (c_in c) o)) (val (NB (c_out c) o)) q).
Proof.
  induction ms as [|m' ms IH]; cbn [bmev flat_map suml filter]; auto.
  fold (bmev N P fb o ms). rewrite !suml_app, IH, suml_bcevs_D. cbn. rewrite filter_app, suml_app. ring.
Qed.
Lemma flat_rev_perm (N : net) : Permutation (flat_map (n_conns N) (rev (n_sorted N))) (all_conns N).
Proof. unfold all_conns. apply Permutation_flat_map. symmetry. apply Permutation_rev. Qed.
Lemma filter_perm {A} (p : A -> bool) l l' : Permutation l l' -> Permutation (filter p l) (filter p l').
Proof.
  induction 1; cbn; auto.
  - destruct (p x); auto.
  - destruct (p x), (p y); auto. apply perm_swap.
  - eapply perm_trans; eauto.
Qed.

Definition recsum_B (N : net) P (mo t : nat) (val : node -> vec) m i : K :=
  if t =? mo then r0 else suml (filter (fun c => c_in c =? m) (n_rec N)) (fun c => collects P c (val (NB (c_out c) (S t))) i).
Definition recsum_D (N : net) (fb : bufs) (mo t : nat) (val : node -> vec) k q : K :=
  if t =? mo then r0 else suml (filter (fun c => c_par c =? k) (n_rec N)) (fun c => dder c (b_out (fb (c_in c) t)) (val (NB (c_out c) (S t))) q).

Lemma suml_bev_B N P fb mo o e m t val i : suml (bev N P fb mo o e) (gin (NB m t) val i) =
  if o =? t then radd (suml (filter (fun c => c_in c =? m) (all_conns N)) (fun c => collects P c (val (NB (c_out c) t)) i)) (recsum_B N P mo t val m i) else r0.
Proof.
  unfold bev, brev, recsum_B. rewrite !suml_app, suml_elev, suml_bmev_B.
  rewrite (suml_perm _ _ _ (filter_perm _ _ _ (flat_rev_perm N))).
  destruct (Nat.eqb_spec o mo) as [->|Hm].
  - cbn [suml]. destruct (Nat.eqb_spec mo t) as [->|]; [rewrite Nat.eqb_refl|]; ring.
  - rewrite suml_bcevs_B, Nat.add_1_r. destruct (Nat.eqb_spec o t) as [->|]; [|ring]. destruct (Nat.eqb_spec t mo); [contradiction|ring].
Qed.
Lemma suml_bev_D N P fb mo o e k val q : suml (bev N P fb mo o e) (gin (ND k) val q) =
  radd (suml (filter (fun c => c_par c =? k) (all_conns N)) (fun c => dder c (b_out (fb (c_in c) o)) (val (NB (c_out c) o)) q)) (recsum_D N fb mo o val k q).
Proof.
  unfold bev, brev, recsum_D. rewrite !suml_app, suml_elev, suml_bmev_D.
  rewrite (suml_perm _ _ _ (filter_perm _ _ _ (flat_rev_perm N))).
  destruct (Nat.eqb_spec o mo) as [->|Hm]; [cbn [suml]; ring|]. rewrite suml_bcevs_D, Nat.add_1_r. ring.
Qed.
Lemma suml_bevs_B N P fb mo E m t val i T : suml (bevs N P fb mo T E) (gin (NB m t) val i) =
  if t <? T then radd (suml (filter (fun c => c_in c =? m) (all_conns N)) (fun c => collects P c (val (NB (c_out c) t)) i)) (recsum_B N P mo t val m i) else r0.
Proof.
  induction T as [|T IH]; cbn [bevs suml]; [reflexivity|]. rewrite suml_app, IH, suml_bev_B.
  destruct (Nat.eqb_spec T t), (Nat.ltb_spec t T), (Nat.ltb_spec t (S T)); try lia; ring.
Qed.
Lemma suml_bevs_D N P fb mo E k val q T : suml (bevs N P fb mo T E) (gin (ND k) val q) =
  sumn T (fun t => radd (suml (filter (fun c => c_par c =? k) (all_conns N)) (fun c => dder c (b_out (fb (c_in c) t)) (val (NB (c_out c) t)) q)) (recsum_D N fb mo t val k q)).
Proof.
  induction T as [|T IH]; cbn [bevs suml sumn]; auto. rewrite suml_app, IH, suml_bev_D. ring.
Qed.

Lemma gload_bcevs P fb a b cs n : forall d : vec, gload (flat_map (bcev P fb a b) cs) n d = d.
Proof. induction cs as [|c cs IH]; intro d; cbn; auto. Qed.
Lemma gload_bmev N P fb o ms n : forall d : vec, gload (bmev N P fb o ms) n d = d.
Proof.
  induction ms as [|m ms IH]; intro d; cbn [bmev flat_map]; auto. rewrite gload_app, gload_app, gload_bcevs. cbn. apply IH.
Qed.
Lemma gload_elev_other L o ms e n : (forall m, n <> NB m o) -> forall index (d : vec), gload (elev L o ms index e) n d = d.
Proof.
  intro H. induction ms as [|a ms IH]; intros index d; cbn [elev gload]; auto. rewrite IH.
  rewrite neqb_neq; auto.
Qed.
Lemma gload_elev_notin L t ms e m : ~ In m ms -> forall index (d : vec), gload (elev L t ms index e) (NB m t) d = d.
Proof.
  induction ms as [|a ms IH]; intros H index d; cbn; auto. rewrite IH by (intro; apply H; right; auto).
  destruct (Nat.eqb_spec a m); auto. exfalso. apply H. left; auto.
Qed.
Lemma gload_elev N t e m d : NoDup (n_outmods N) -> gload (elev (n_layer N) t (n_outmods N) 0 e) (NB m t) d = if existsb (Nat.eqb m) (n_outmods N) then err_at N e m else d.
Proof.
  intro H. unfold err_at. generalize 0. induction H as [|a ms Ha Hn IH]; intro index; cbn; auto. rewrite Nat.eqb_refl, andb_true_r, (Nat.eqb_sym m a).
  destruct (Nat.eqb_spec a m).
  - subst. cbn. rewrite gload_elev_notin; auto.
  - cbn. apply IH.
Qed.
Lemma gload_bev N P fb mo o e n (d : vec) : gload (bev N P fb mo o e) n d = gload (elev (n_layer N) o (n_outmods N) 0 e) n d.
Proof.
  unfold bev, brev. rewrite !gload_app, gload_bmev. destruct (o =? mo); [|rewrite gload_bcevs]; auto.
Qed.
Lemma gload_bevs_high N P fb mo E T n : (forall m o, o < T -> n <> NB m o) -> forall d : vec, gload (bevs N P fb mo T E) n d = d.
Proof.
  induction T as [|T IH]; intros H d; cbn [bevs]; auto. rewrite gload_app, gload_bev, gload_elev_other.
  - apply IH. intros m o Ho. apply H. lia.
  - intro m. apply H. lia.
Qed.
Lemma gload_bevs N P fb mo E T m t (d : vec) : NoDup (n_outmods N) -> t < T ->
  gload (bevs N P fb mo T E) (NB m t) d = if existsb (Nat.eqb m) (n_outmods N) then err_at N (E t) m else d.
Proof.
  intro H. revert d. induction T as [|T IH]; intros d Ht; [lia|]. cbn [bevs]. rewrite gload_app, gload_bev.
  destruct (Nat.eq_dec t T) as [->|Hne].
  - rewrite gload_elev by auto. apply gload_bevs_high. intros m' o Ho Eq. injection Eq as _ Eq. lia.
  - rewrite gload_elev_other; [apply IH; lia|]. intros m' Eq. injection Eq as _ Eq. lia.
Qed.
Lemma hasN_bevs N P fb mo E T m t : In m (n_sorted N) -> hasN (bevs N P fb mo T E) (NB m t) = (t <? T).
Proof.
  intro Hm. destruct (Nat.ltb_spec t T).
  - induction T as [|T IH]; [lia|]. cbn [bevs]. rewrite hasN_app. apply orb_true_iff.
    destruct (Nat.eq_dec t T) as [->|Hne]; [left|right; apply IH; lia].
    apply hasN_In. unfold bev. apply in_or_app. right. apply in_or_app. right. apply in_flat_map. exists m. split; [apply in_rev; rewrite rev_involutive; auto|].
    apply in_or_app. right. left; auto.
  - apply hasN_false. induction T as [|T IH]; cbn [bevs]; [intros []|]. intro Hin. apply in_app_or in Hin. destruct Hin as [Hin|Hin].
    + unfold bev in Hin. apply in_app_or in Hin. destruct Hin as [Hin|Hin].
      * revert Hin. generalize (n_outmods N). generalize 0. intros i l. revert i. induction l as [|a l IHl]; intros i Hin; [destruct Hin|].
        destruct Hin as [Hin|Hin]; [discriminate|apply IHl in Hin; auto].
      * apply in_app_or in Hin. destruct Hin as [Hin|Hin].
        -- unfold brev in Hin. destruct (T =? mo); [destruct Hin|]. apply in_flat_map in Hin. destruct Hin as (c & _ & Hin).
           apply bcev_in in Hin. destruct Hin as (? & ? & ? & _). discriminate.
        -- apply in_flat_map in Hin. destruct Hin as (m' & _ & Hin). apply in_app_or in Hin. destruct Hin as [Hin|[Hin|[]]].
           ++ apply in_flat_map in Hin. destruct Hin as (c & _ & Hin). apply bcev_in in Hin. destruct Hin as (? & ? & ? & _). discriminate.
           ++ injection Hin as _ E'. lia.
    + revert Hin. apply IH. lia.
Qed.

(** ** The equations of back-propagation from any state of the error buffers *)
Theorem backward_equations N P fb mo E T b d s' : wf_net N ->
  (forall n, pb s' n = gexec (bf_f (n_layer N) fb) (pb (b, d)) (bevs N P fb mo T E) n) ->
  let oute := fun m t => b_oute (fst s' m t) in
  let ine := fun m t => b_ine (fst s' m t) in
  let val := fun n => snd (pb s' n) in
  (forall m t i, In m (n_sorted N) -> t < T ->
     oute m t i = radd (radd (if existsb (Nat.eqb m) (n_outmods N) then err_at N (E t) m i else b_oute (b m t) i)
                    (suml (filter (fun c => c_in c =? m) (all_conns N)) (fun c => collects P c (ine (c_out c) t) i)))
                    (recsum_B N P mo t val m i)) /\
  (forall m t, In m (n_sorted N) -> ine m t = if t <? T then l_bwd (n_layer N m) (oute m t) (b_ine (b m t)) (b_out (fb m t)) (b_in (fb m t)) else b_ine (b m t)) /\
  (forall k q, snd s' k q = radd (d k q)
     (sumn T (fun t => radd (suml (filter (fun c => c_par c =? k) (all_conns N)) (fun c => dder c (b_out (fb (c_in c) t)) (ine (c_out c) t) q)) (recsum_D N fb mo t val k q)))).
Proof.
  intros W Hs oute ine val.
  assert (Hsch : gsched (bevs N P fb mo T E)) by (apply (bevs_sched N P fb mo E T W []); constructor).
  pose proof (gexec_equations (bf_f (n_layer N) fb) (pb (b, d)) _ Hsch) as G.
  assert (Ev : forall n, snd (gexec (bf_f (n_layer N) fb) (pb (b, d)) (bevs N P fb mo T E) n) = val n).
  { intro n. unfold val. rewrite Hs. auto. }
  repeat apply conj.
  - intros m t i Hm Ht. destruct (G (NB m t)) as [E1 _]. specialize (E1 i). rewrite <- Hs in E1. cbn [fst pb] in E1.
    unfold oute. rewrite E1. rewrite gload_bevs by (auto; apply (proj1 (wf_out _ W))). rewrite suml_bevs_B.
    destruct (Nat.ltb_spec t T); [|lia].
    rewrite (suml_ext _ _ (fun c => collects P c (ine (c_out c) t) i)) by (intros; rewrite Ev; auto).
    unfold recsum_B. rewrite (suml_ext (filter _ (n_rec N)) _ (fun c => collects P c (val (NB (c_out c) (S t))) i)) by (intros; rewrite Ev; auto).
    cbn [fst]. destruct (existsb (Nat.eqb m) (n_outmods N)); ring.
  - intros m t Hm. destruct (G (NB m t)) as [_ E2]. rewrite hasN_bevs in E2 by auto. rewrite <- Hs in E2. cbn in E2. exact E2.
  - intros k q. destruct (G (ND k)) as [E1 _]. specialize (E1 q). rewrite <- Hs in E1. cbn [fst pb snd] in E1.
    rewrite E1. rewrite gload_bevs_high by (intros; discriminate). rewrite suml_bevs_D. f_equal. apply sumn_ext. intros t Ht. f_equal.
    + apply suml_ext. intros. rewrite Ev. auto.
    + unfold recsum_D. destruct (t =? mo); auto. apply suml_ext. intros. rewrite Ev. auto.
Qed.
End Backward.
