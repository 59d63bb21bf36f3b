(** Activation computes the unique solution of the recurrence. *)
From Coq Require Import Ring.
From Verif Require Import Base RingOps Net_Model Net_Spec Propagate Net_Events.

Section Forward.
Context {K : Type} {Ops : RingOps K} {Lw : RingLaws K}.
Add Ring Kring4 : (@rlaws K Ops Lw).
Notation vec := (@vec K).
Notation net := (@net K).
Notation bufs := (@bufs K).
Notation rstate := (@rstate K).

Definition target (e : @gev K) : node := match e with GN n => n | GC _ d _ => d | GL n _ => n end.
Lemma gexec_untouched (f : node -> vec -> vec -> vec) p : forall s n, (forall e, In e p -> target e <> n) -> gexec f s p n = s n.
Proof.
  induction p as [|e p IH]; intros s n H; [reflexivity|]. unfold gexec. cbn [fold_left].
  fold (gexec f (gstep f s e) p). rewrite IH by (intros; apply H; right; auto).
  assert (Ht : target e <> n) by (apply H; left; auto).
  destruct e; cbn in Ht |- *; rewrite neqb_neq; auto.
Qed.
Lemma evs_target N P xs : forall t e, In e (evs N P t xs) -> exists m o, target e = NB m o /\ t <= o < t + length xs.
Proof.
  induction xs as [|x xs IH]; intros t e He; cbn [evs] in He; [destruct He|]. cbn [length].
  apply in_app_or in He. destruct He as [He|He].
  - unfold tev in He. apply in_app_or in He. destruct He as [He|He]; [|apply in_app_or in He; destruct He as [He|He]].
    + revert He. generalize (n_inmods N). generalize 0. intros i l. revert i. induction l as [|m l IHl]; intros i He; [destruct He|].
      destruct He as [<-|He]; [exists m, t; cbn; split; [auto|lia]|]. apply IHl in He. exact He.
    + unfold rev_ in He. destruct (0 <? t); [|destruct He]. apply in_map_iff in He. destruct He as (c & <- & _).
      exists (c_out c), t. cbn. split; [auto|lia].
    + apply in_flat_map in He. destruct He as (m & _ & [<-|He]); [exists m, t; cbn; split; [auto|lia]|].
      apply in_map_iff in He. destruct He as (c & <- & _). exists (c_out c), t. cbn. split; [auto|lia].
  - apply IH in He. destruct He as (m & o & E & Ho). exists m, o. split; [auto|lia].
Qed.
Lemma mbuf_eq (x y : @mbuf K) : b_in x = b_in y -> b_out x = b_out y -> b_ine x = b_ine y -> b_oute x = b_oute y -> x = y.
Proof. destruct x, y; cbn. congruence. Qed.

Lemma step_bufs_row N P o x b m o' : o' <> o -> step_bufs N P o x b m o' = b m o'.
Proof.
  intro Ho. destruct (step_bufs_ev N P o x b) as [E S].
  assert (Hp : pf (step_bufs N P o x b) (NB m o') = pf b (NB m o')).
  { rewrite E. apply gexec_untouched. intros e He.
    destruct (evs_target N P [x] o e) as (m1 & o1 & Et & Ho1); [cbn [evs]; apply in_or_app; left; exact He|].
    rewrite Et. cbn in Ho1. intro Ee. injection Ee as _ E'. lia. }
  cbn in Hp. destruct (S m o'). apply mbuf_eq; congruence.
Qed.

(** ** Sequences *)
(** a state between two calls *)
Record rinv (s : rstate) : Prop := {
  ri_off : r_offset s < r_len s;
  ri_zero : forall m o, r_len s <= o -> r_b s m o = zbuf }.

Lemma rec_activate_step N P s x : rinv s ->
  exists s', rec_activate N P s x = (s', outputs N (r_offset s) (r_b s')) /\ rinv s' /\
    r_offset s' = S (r_offset s) /\ r_d s' = r_d s /\ r_maxoffset s' = Nat.max (S (r_offset s)) (r_maxoffset s) /\
    (forall m o, r_b s' m o = step_bufs N P (r_offset s) x (r_b s) m o).
Proof.
  intros [H1 H2]. unfold rec_activate.
  destruct (Nat.ltb_spec (r_offset s + 1) (r_len s)) as [Hlt|Hge].
  - exists (mkr (step_bufs N P (r_offset s) x (r_b s)) (r_d s) (r_offset s + 1) (Nat.max (r_offset s + 1) (r_maxoffset s)) (r_len s)).
    split; [reflexivity|]. cbn [r_offset r_b r_d r_maxoffset r_len].
    split; [|split; [lia|split; [reflexivity|split; [f_equal; lia|auto]]]].
    split; cbn; [lia|]. intros m o Ho. rewrite step_bufs_row by lia. auto.
  - assert (Hg : forall m o, grow (r_len s) (r_b s) m o = r_b s m o).
    { intros m o. unfold grow. destruct (Nat.ltb_spec o (r_len s)); auto. rewrite H2 by lia. auto. }
    exists (mkr (step_bufs N P (r_offset s) x (grow (r_len s) (r_b s))) (r_d s) (r_offset s + 1) (Nat.max (r_offset s + 1) (r_maxoffset s)) (2 * r_len s)).
    split; [reflexivity|]. cbn [r_offset r_b r_d r_maxoffset r_len].
    split; [|split; [lia|split; [reflexivity|split; [f_equal; lia|]]]].
    + split; cbn; [lia|]. intros m o Ho. rewrite step_bufs_row by lia. rewrite Hg. apply H2. lia.
    + intros m o. apply mbuf_eq.
      * destruct (step_bufs_ev N P (r_offset s) x (grow (r_len s) (r_b s))) as [E _], (step_bufs_ev N P (r_offset s) x (r_b s)) as [E' _].
        specialize (E (NB m o)). specialize (E' (NB m o)).
        rewrite (gexec_ext _ (tev N P (r_offset s) x) _ (pf (r_b s))) in E; [|intros [m' o'|k]; cbn; rewrite ?Hg; auto].
        rewrite <- E' in E. cbn in E. congruence.
      * destruct (step_bufs_ev N P (r_offset s) x (grow (r_len s) (r_b s))) as [E _], (step_bufs_ev N P (r_offset s) x (r_b s)) as [E' _].
        specialize (E (NB m o)). specialize (E' (NB m o)).
        rewrite (gexec_ext _ (tev N P (r_offset s) x) _ (pf (r_b s))) in E; [|intros [m' o'|k]; cbn; rewrite ?Hg; auto].
        rewrite <- E' in E. cbn in E. congruence.
      * destruct (step_bufs_ev N P (r_offset s) x (grow (r_len s) (r_b s))) as [_ E], (step_bufs_ev N P (r_offset s) x (r_b s)) as [_ E'].
        destruct (E m o), (E' m o). rewrite Hg in *. congruence.
      * destruct (step_bufs_ev N P (r_offset s) x (grow (r_len s) (r_b s))) as [_ E], (step_bufs_ev N P (r_offset s) x (r_b s)) as [_ E'].
        destruct (E m o), (E' m o). rewrite Hg in *. congruence.
Qed.

Lemma gather_ext dim (g g' : nat -> vec) ms : (forall m, In m ms -> g m = g' m) -> gather dim g ms = gather dim g' ms.
Proof.
  induction ms as [|m ms IH]; intro H; cbn; auto. rewrite (H m) by (left; auto). rewrite IH; auto.
  intros; apply H; right; auto.
Qed.

Lemma run_acts_spec N P xs : forall s, rinv s ->
  exists s' ys, run_acts (rec_activate N P) s xs = (s', ys) /\ rinv s' /\
    r_offset s' = r_offset s + length xs /\ r_d s' = r_d s /\
    r_maxoffset s' = match xs with [] => r_maxoffset s | _ => Nat.max (r_offset s + length xs) (r_maxoffset s) end /\
    (forall n, pf (r_b s') n = gexec (ff_f (n_layer N)) (pf (r_b s)) (evs N P (r_offset s) xs) n) /\
    same_err (r_b s) (r_b s') /\
    (forall m o, o < r_offset s -> r_b s' m o = r_b s m o) /\
    length ys = length xs /\
    forall t y, nth_error ys t = Some y -> y = outputs N (r_offset s + t) (r_b s').
Proof.
  induction xs as [|x xs IH]; intros s Hs; cbn [run_acts].
  - exists s, []. cbn [length]. repeat apply conj; auto; try lia; try (intros [|]; discriminate); try apply same_err_refl; try apply Hs.
  - destruct (rec_activate_step N P s x Hs) as (s1 & -> & Hs1 & Ho1 & Hd1 & Hm1 & Hb1).
    destruct (IH s1 Hs1) as (s2 & ys & -> & Hs2 & Ho2 & Hd2 & Hm2 & Hb2 & He2 & Hr2 & Hl2 & Hy2).
    exists s2. eexists. split; [reflexivity|]. cbn [length].
    destruct (step_bufs_ev N P (r_offset s) x (r_b s)) as [Es Ss].
    repeat apply conj; auto; try lia; try congruence; try apply Hs2.
    + rewrite Hm2. destruct xs; cbn [length]; lia.
    + intro n. rewrite Hb2, Ho1. cbn [evs]. rewrite gexec_app. apply gexec_ext. intros n'. rewrite <- Es.
      destruct n'; cbn; rewrite ?Hb1; auto.
    + eapply same_err_trans; [|exact He2]. intros m o. rewrite Hb1. apply Ss.
    + intros m o Ho. rewrite Hr2 by lia. rewrite Hb1. apply step_bufs_row. lia.
    + intros [|t] y Hy; cbn in Hy.
      * injection Hy as <-. rewrite Nat.add_0_r. unfold outputs. apply gather_ext. intros m _. rewrite Hr2 by lia. auto.
      * rewrite (Hy2 _ _ Hy). f_equal. lia.
Qed.

(** ** Equations *)
Lemma suml_lev L o ms x n val i : forall index, suml (lev L o ms index x) (gin n val i) = r0.
Proof. induction ms as [|m ms IH]; intro index; cbn; auto. rewrite IH. cbn. ring. Qed.
Lemma suml_filter {A} (l : list A) (p : A -> bool) (f : A -> K) : suml (filter p l) f = suml l (fun a => if p a then f a else r0).
Proof. induction l as [|a l IH]; cbn; auto. destruct (p a); cbn; rewrite IH; ring. Qed.
Lemma suml_cev P a b cs m t val i : suml (map (cev P a b) cs) (gin (NB m t) val i) =
  if b =? t then suml (filter (fun c => c_out c =? m) cs) (fun c => delivers P c (val (NB (c_in c) a)) i) else r0.
Proof.
  induction cs as [|c cs IH]; cbn [map suml filter]; [destruct (b =? t); auto|]. cbn. rewrite IH.
  destruct (Nat.eqb_spec b t); [|rewrite andb_false_r; ring]. rewrite andb_true_r. destruct (c_out c =? m); cbn; [auto|ring].
Qed.
Lemma suml_mev N P o ms m t val i : suml (mev N P o ms) (gin (NB m t) val i) =
  if o =? t then suml (filter (fun c => c_out c =? m) (flat_map (n_conns N) ms)) (fun c => delivers P c (val (NB (c_in c) o)) i) else r0.
Proof.
  induction ms as [|m' ms IH]; cbn [mev flat_map suml filter]; [destruct (o =? t); auto|].
  cbn [app suml]. fold (mev N P o ms). rewrite suml_app, IH, suml_cev. cbn. destruct (o =? t); [|ring].
  rewrite filter_app, suml_app. ring.
Qed.
Lemma suml_evs N P xs m t val i : forall t0, suml (evs N P t0 xs) (gin (NB m t) val i) =
  if (t0 <=? t) && (t <? t0 + length xs) then
    radd (suml (filter (fun c => c_out c =? m) (all_conns N)) (fun c => delivers P c (val (NB (c_in c) t)) i))
         (match t with 0 => r0 | S t' => suml (filter (fun c => c_out c =? m) (n_rec N)) (fun c => delivers P c (val (NB (c_in c) t')) i) end)
  else r0.
Proof.
  induction xs as [|x xs IH]; intro t0; cbn [evs suml length].
  - destruct (Nat.leb_spec t0 t), (Nat.ltb_spec t (t0 + 0)); cbn; auto; lia.
  - rewrite suml_app, IH. unfold tev. rewrite !suml_app, suml_lev, suml_mev. unfold rev_.
    assert (E : suml (if 0 <? t0 then map (cev P (t0 - 1) t0) (n_rec N) else []) (gin (NB m t) val i) =
      if t0 =? t then match t with 0 => r0 | S t' => suml (filter (fun c => c_out c =? m) (n_rec N)) (fun c => delivers P c (val (NB (c_in c) t')) i) end else r0).
    { destruct (Nat.ltb_spec 0 t0).
      - rewrite suml_cev. destruct (Nat.eqb_spec t0 t); auto. subst. destruct t; [lia|]. replace (S t - 1) with t by lia. auto.
      - cbn. destruct (Nat.eqb_spec t0 t); auto. subst. destruct t; [auto|lia]. }
    rewrite E. fold (all_conns N).
    destruct (Nat.eqb_spec t0 t), (Nat.leb_spec (S t0) t), (Nat.leb_spec t0 t), (Nat.ltb_spec t (S t0 + length xs)), (Nat.ltb_spec t (t0 + S (length xs)));
      cbn; try lia; subst; ring.
Qed.
Lemma gload_cev P a b cs n : forall d : vec, gload (map (cev P a b) cs) n d = d.
Proof. induction cs as [|c cs IH]; intro d; cbn; auto. Qed.
Lemma gload_mev N P o ms n : forall d : vec, gload (mev N P o ms) n d = d.
Proof. induction ms as [|m ms IH]; intro d; cbn; auto. rewrite gload_app, gload_cev. apply IH. Qed.
Lemma gload_lev_other L o ms x m t : o <> t -> forall index (d : vec), gload (lev L o ms index x) (NB m t) d = d.
Proof.
  intro H. induction ms as [|a ms IH]; intros index d; cbn; auto. rewrite IH.
  destruct (Nat.eqb_spec o t); [contradiction|]. rewrite andb_false_r. auto.
Qed.
Lemma gload_lev_notin L t ms x m : ~ In m ms -> forall index (d : vec), gload (lev L t ms index x) (NB m t) d = d.
Proof.
  induction ms as [|a ms IH]; intros H index d; cbn; auto. rewrite IH by (intro; apply H; right; auto).
  destruct (Nat.eqb_spec a m); auto. exfalso. apply H. left; auto.
Qed.
Lemma gload_lev L t ms x m : NoDup ms -> forall index, gload (lev L t ms index x) (NB m t) zvec = external L ms index x m.
Proof.
  induction 1 as [|a ms Ha Hn IH]; intro index; cbn; auto. rewrite Nat.eqb_refl, andb_true_r.
  destruct (Nat.eqb_spec a m).
  - subst. rewrite gload_lev_notin; auto.
  - apply IH.
Qed.
Lemma gload_tev N P t x m o : forall d : vec, gload (tev N P t x) (NB m o) d = gload (lev (n_layer N) t (n_inmods N) 0 x) (NB m o) d.
Proof.
  intro d. unfold tev. rewrite !gload_app, gload_mev. unfold rev_. destruct (0 <? t); [rewrite gload_cev|]; auto.
Qed.
Lemma gload_evs_low N P xs m t : forall t0 (d : vec), t < t0 -> gload (evs N P t0 xs) (NB m t) d = d.
Proof.
  induction xs as [|x xs IH]; intros t0 d H; cbn [evs]; auto. rewrite gload_app, gload_tev, gload_lev_other by lia. apply IH. lia.
Qed.
Lemma gload_evs N P xs m t x : NoDup (n_inmods N) -> forall t0, t0 <= t -> nth_error xs (t - t0) = Some x ->
  gload (evs N P t0 xs) (NB m t) zvec = external (n_layer N) (n_inmods N) 0 x m.
Proof.
  intro Hn. induction xs as [|y xs IH]; intros t0 Ht Hx.
  - destruct (t - t0); discriminate.
  - cbn [evs]. rewrite gload_app, gload_tev. destruct (Nat.eq_dec t0 t) as [->|Hne].
    + rewrite Nat.sub_diag in Hx. cbn in Hx. injection Hx as ->. rewrite gload_lev by auto. apply gload_evs_low. lia.
    + rewrite gload_lev_other by auto. apply IH; [lia|]. replace (t - t0) with (S (t - S t0)) in Hx by lia. exact Hx.
Qed.
Lemma hasN_evs N P xs m t : forall t0, In m (n_sorted N) -> t0 <= t -> t < t0 + length xs -> hasN (evs N P t0 xs) (NB m t) = true.
Proof.
  induction xs as [|x xs IH]; intros t0 Hm H1 H2; cbn [length] in H2; [lia|]. cbn [evs]. rewrite hasN_app. apply orb_true_iff.
  destruct (Nat.eq_dec t0 t) as [->|Hne]; [left|right; apply IH; auto; lia].
  apply hasN_In. unfold tev. apply in_or_app. right. apply in_or_app. right. apply in_flat_map. exists m. split; auto. left; auto.
Qed.

Definition fresh (d : nat -> vec) (mo len : nat) : rstate := mkr reset_bufs d 0 mo len.

Lemma fresh_inv d mo len : 0 < len -> rinv (fresh d mo len).
Proof. split; cbn; auto. Qed.

(** the buffers solve the recurrence, at every position of every vector *)
Lemma exec_recurrence N P xs (b : bufs) : wf_net N ->
  (forall n, pf b n = gexec (ff_f (n_layer N)) (pf reset_bufs) (evs N P 0 xs) n) ->
  forall t x m, nth_error xs t = Some x -> In m (n_sorted N) ->
    (forall i, b_in (b m t) i = radd (radd (external (n_layer N) (n_inmods N) 0 x m i)
                   (suml (filter (fun c => c_out c =? m) (all_conns N)) (fun c => delivers P c (b_out (b (c_in c) t)) i)))
                   (match t with
                    | O => r0
                    | S t' => suml (filter (fun c => c_out c =? m) (n_rec N)) (fun c => delivers P c (b_out (b (c_in c) t')) i)
                    end)) /\
    b_out (b m t) = l_fwd (n_layer N m) (b_in (b m t)) zvec.
Proof.
  intros W Hb t x m Hx Hm.
  assert (Hs : gsched (evs N P 0 xs)) by (apply (evs_sched N P xs W 0 []); constructor).
  destruct (gexec_equations (ff_f (n_layer N)) (pf reset_bufs) (evs N P 0 xs) Hs (NB m t)) as [E1 E2].
  assert (Ht : t < length xs) by (apply nth_error_Some; congruence).
  assert (Ev : forall m o, snd (gexec (ff_f (n_layer N)) (pf reset_bufs) (evs N P 0 xs) (NB m o)) = b_out (b m o)).
  { intros m' o. rewrite <- Hb. reflexivity. }
  split.
  - intro i. specialize (E1 i). rewrite <- Hb in E1. cbn [fst pf] in E1. rewrite E1.
    change (fst (pf reset_bufs (NB m t))) with (@zvec K Ops).
    replace (b_in (reset_bufs m t)) with (@zvec K Ops) by reflexivity.
    rewrite (gload_evs N P xs m t x (proj1 (wf_in _ W)) 0 (Nat.le_0_l _)) by (rewrite Nat.sub_0_r; auto).
    rewrite suml_evs. cbn [Nat.leb andb Nat.add]. destruct (Nat.ltb_spec t (length xs)); [|lia].
    rewrite (suml_ext _ _ (fun c => delivers P c (b_out (b (c_in c) t)) i)) by (intros; rewrite Ev; auto).
    destruct t as [|t']; [ring|].
    rewrite (suml_ext (filter _ (n_rec N)) _ (fun c => delivers P c (b_out (b (c_in c) t')) i)) by (intros; rewrite Ev; auto).
    ring.
  - rewrite hasN_evs in E2 by (auto; lia). rewrite <- Hb in E2. cbn in E2. exact E2.
Qed.

(** ** Uniqueness *)
Lemma delivers_local (L : nat -> @layer K) P c (x y : vec) i : wf_conn L c ->
  (forall j, j < l_out (L (c_in c)) -> x j = y j) -> delivers P c x i = delivers P c y i.
Proof.
  intros (H1 & H2 & H3 & H4 & Hk) H. unfold delivers.
  destruct (Nat.leb_spec (c_outFrom c) i); cbn [andb]; auto. destruct (Nat.ltb_spec i (c_outTo c)); auto.
  unfold c_indim, c_outdim in *. unfold op_fwd. destruct (c_kind c) as [| | | |perm bs].
  - apply sumn_ext. intros j Hj. rewrite H; auto. lia.
  - apply H. lia.
  - rewrite H; auto. lia.
  - apply sumn_ext. intros j Hj. rewrite H; auto. lia.
  - destruct Hk as (Hk & Hb & Hl & Hp). apply H.
    assert (Hq : (i - c_outFrom c) / bs < length perm).
    { apply Nat.div_lt_upper_bound; lia. }
    assert (Hn : nth ((i - c_outFrom c) / bs) perm 0 < length perm).
    { assert (Hin : In (nth ((i - c_outFrom c) / bs) perm 0) (seq 0 (length perm))).
      { eapply Permutation_in; [exact Hp|]. apply nth_In. auto. }
      apply in_seq in Hin. lia. }
    assert (Hm : (i - c_outFrom c) mod bs < bs) by (apply Nat.mod_upper_bound; lia).
    nia.
Qed.

Lemma before_done {A} (u v : A) d t : NoDup (d ++ v :: t) -> before u v (d ++ v :: t) -> In u d.
Proof.
  intros Hn (l1 & l2 & l3 & E).
  assert (Hd : forall d l1 (t r : list A), NoDup (d ++ v :: t) -> d ++ v :: t = l1 ++ v :: r -> d = l1).
  { clear. induction d as [|x d IH]; intros [|y l1] t r Hn E; cbn in *; auto.
    - injection E as <- ->. inversion Hn; subst. exfalso. apply H1. apply in_or_app. right; left; auto.
    - injection E as -> <-. inversion Hn; subst. exfalso. apply H1. apply in_or_app. right; left; auto.
    - injection E as <- E. inversion Hn; subst. f_equal. eapply IH; eauto. }
  replace (l1 ++ u :: l2 ++ v :: l3) with ((l1 ++ u :: l2) ++ v :: l3) in E by (rewrite <- app_assoc; reflexivity).
  apply (Hd d _ t l3 Hn) in E. subst d. apply in_or_app. right. left. auto.
Qed.

Theorem recurrence_unique N P xs I O I' O' : wf_net N -> (forall m, In m (n_sorted N) -> layer_local (n_layer N m)) ->
  recurrence N P xs I O -> recurrence N P xs I' O' ->
  forall t m, t < length xs -> In m (n_sorted N) ->
    (forall i, i < l_in (n_layer N m) -> I m t i = I' m t i) /\ (forall i, i < l_out (n_layer N m) -> O m t i = O' m t i).
Proof.
  intros W HL R R' t. induction t as [t IHt] using lt_wf_ind. intros m Ht.
  assert (G : forall todo done, n_sorted N = done ++ todo ->
     (forall m, In m done -> (forall i, i < l_in (n_layer N m) -> I m t i = I' m t i) /\ (forall i, i < l_out (n_layer N m) -> O m t i = O' m t i)) ->
     forall m, In m todo -> (forall i, i < l_in (n_layer N m) -> I m t i = I' m t i) /\ (forall i, i < l_out (n_layer N m) -> O m t i = O' m t i)).
  { induction todo as [|m0 todo IH]; intros done Es Hd m1 Hm1; [destruct Hm1|].
    assert (Hm0 : In m0 (n_sorted N)) by (rewrite Es; apply in_or_app; right; left; auto).
    assert (H0 : (forall i, i < l_in (n_layer N m0) -> I m0 t i = I' m0 t i) /\ (forall i, i < l_out (n_layer N m0) -> O m0 t i = O' m0 t i)).
    { destruct (nth_error xs t) as [x|] eqn:Ex; [|apply nth_error_None in Ex; lia].
      destruct (R t x m0 Ex Hm0) as [A1 A2], (R' t x m0 Ex Hm0) as [B1 B2].
      assert (HI : forall i, i < l_in (n_layer N m0) -> I m0 t i = I' m0 t i).
      { intros i Hi. rewrite A1, B1 by auto. f_equal; [f_equal|].
        - apply suml_ext. intros c Hc. apply filter_In in Hc. destruct Hc as [Hc Ec]. apply Nat.eqb_eq in Ec.
          unfold all_conns in Hc. apply in_flat_map in Hc. destruct Hc as (u & Hu & Hc).
          destruct (wf_conns _ W u c Hu Hc) as (Eu & Hb & Hw). rewrite Ec in Hb. rewrite Es in Hb.
          apply before_done in Hb; [|rewrite <- Es; apply (wf_nodup _ W)].
          apply (delivers_local (n_layer N)); auto. rewrite Eu. apply Hd. auto.
        - destruct t as [|t']; auto. apply suml_ext. intros c Hc. apply filter_In in Hc. destruct Hc as [Hc Ec].
          destruct (wf_rec _ W c Hc) as (Hi1 & _ & Hw). apply (delivers_local (n_layer N)); auto. apply IHt; auto; lia. }
      split; auto. intros i Hi. rewrite A2, B2 by auto. apply (HL m0 Hm0); auto. }
    destruct Hm1 as [<-|Hm1]; auto. apply (IH (done ++ [m0])); auto.
    - rewrite <- app_assoc. auto.
    - intros m2 Hm2. apply in_app_or in Hm2. destruct Hm2 as [Hm2|[<-|[]]]; auto. }
  apply (G (n_sorted N) []); auto. intros ? [].
Qed.

Lemma gather_ext_in dim (g g' : nat -> vec) ms : (forall m i, In m ms -> i < dim m -> g m i = g' m i) -> forall i, gather dim g ms i = gather dim g' ms i.
Proof.
  induction ms as [|m ms IH]; intros H i; cbn [gather]; auto. destruct (Nat.ltb_spec i (dim m)).
  - apply H; [left|]; auto.
  - apply IH. intros; apply H; [right|]; auto.
Qed.

(** what activate returns, for the modules' outputs O at time t *)
Definition net_output (N : net) (O : nat -> nat -> vec) (t : nat) : vec :=
  gather (fun m => l_out (n_layer N m)) (fun m => O m t) (n_outmods N).

(** C21 *)
Theorem rec_solution N P d mo len xs : wf_net N -> 0 < len ->
  exists s' ys, run_acts (rec_activate N P) (fresh d mo len) xs = (s', ys) /\ length ys = length xs /\ r_d s' = d /\
    exists I O, recurrence N P xs I O /\ forall t y, nth_error ys t = Some y -> forall i, y i = net_output N O t i.
Proof.
  intros W Hl. destruct (run_acts_spec N P xs (fresh d mo len) (fresh_inv d mo len Hl))
    as (s' & ys & E & _ & _ & Hd & _ & Hb & _ & _ & Hly & Hy).
  exists s', ys. split; [exact E|]. split; [exact Hly|]. split; [exact Hd|].
  exists (fun m t => b_in (r_b s' m t)), (fun m t => b_out (r_b s' m t)). split.
  - intros t x m Hx Hm. destruct (exec_recurrence N P xs (r_b s') W Hb t x m Hx Hm) as [A B]. split; [intros; apply A|].
    intros i _. rewrite B. auto.
  - intros t y Hty i. rewrite (Hy t y Hty). reflexivity.
Qed.
Theorem rec_outputs N P d mo len xs I O : wf_net N -> (forall m, In m (n_sorted N) -> layer_local (n_layer N m)) -> 0 < len ->
  recurrence N P xs I O ->
  forall t y, nth_error (snd (run_acts (rec_activate N P) (fresh d mo len) xs)) t = Some y -> forall i, y i = net_output N O t i.
Proof.
  intros W HL Hl R t y Hy i. destruct (rec_solution N P d mo len xs W Hl) as (s' & ys & E & Hly & _ & I' & O' & R' & Ho).
  rewrite E in Hy. cbn in Hy. rewrite (Ho t y Hy). unfold net_output. apply gather_ext_in. intros m j Hm Hj.
  assert (Ht : t < length xs) by (rewrite <- Hly; apply nth_error_Some; congruence).
  symmetry. apply (recurrence_unique N P xs I O I' O' W HL R R' t m Ht); auto. apply (proj2 (wf_out _ W)); auto.
Qed.

(** C17: a feed-forward network is the one-step case *)
Lemma ff_forward_step N P b x : ff_forward N P b x = step_bufs N P 0 x b.
Proof. reflexivity. Qed.
Theorem ff_solution N P s x : wf_net N ->
  exists I O, recurrence N P [x] I O /\ forall i, snd (ff_activate N P s x) i = net_output N O 0 i.
Proof.
  intros W. set (b := ff_forward N P reset_bufs x).
  assert (Hb : forall n, pf b n = gexec (ff_f (n_layer N)) (pf reset_bufs) (evs N P 0 [x]) n).
  { intro n. unfold b. rewrite ff_forward_step. cbn [evs]. rewrite app_nil_r. apply step_bufs_ev. }
  exists (fun m t => b_in (b m t)), (fun m t => b_out (b m t)). split.
  - intros t y m Hx Hm. destruct (exec_recurrence N P [x] b W Hb t y m Hx Hm) as [A B]. split; [intros; apply A|].
    intros i _. rewrite B. auto.
  - intro i. reflexivity.
Qed.
Theorem ff_outputs N P s x I O : wf_net N -> (forall m, In m (n_sorted N) -> layer_local (n_layer N m)) ->
  recurrence N P [x] I O -> forall i, snd (ff_activate N P s x) i = net_output N O 0 i.
Proof.
  intros W HL R i. destruct (ff_solution N P s x W) as (I' & O' & R' & Ho). rewrite Ho. apply gather_ext_in. intros m j Hm Hj.
  symmetry. apply (recurrence_unique N P [x] I O I' O' W HL R R' 0 m); auto. apply (proj2 (wf_out _ W)); auto.
Qed.
End Forward.
