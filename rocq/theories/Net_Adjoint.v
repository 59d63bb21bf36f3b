(** Back-propagation is the adjoint of the linearised recurrence. *)
From Coq Require Import Ring.
From Verif Require Import Base RingOps Net_Model Net_Spec Propagate Net_Events Net_Forward Conn_Adjoint Net_Backward.

Section NetAdjoint.
Context {K : Type} {Ops : RingOps K} {Lw : RingLaws K}.
Add Ring Kring8 : (@rlaws K Ops Lw).
Notation vec := (@vec K).
Notation net := (@net K).
Notation bufs := (@bufs K).
Local Open Scope r_scope.

Lemma dot_ext n (u v u' v' : vec) : (forall i, (i < n)%nat -> u i = u' i) -> (forall i, (i < n)%nat -> v i = v' i) -> dot n u v = dot n u' v'.
Proof. intros H H'. apply sumn_ext. intros i Hi. rewrite H, H'; auto. Qed.
Lemma dot_add_l n (u v w : vec) : dot n (fun i => u i + v i) w = dot n u w + dot n v w.
Proof. unfold dot. rewrite <- sumn_add. apply sumn_ext. intros; ring. Qed.
Lemma dot_add_r n (u v w : vec) : dot n u (fun i => v i + w i) = dot n u v + dot n u w.
Proof. unfold dot. rewrite <- sumn_add. apply sumn_ext. intros; ring. Qed.
Lemma dot_zero_l n (w : vec) : dot n zvec w = 0.
Proof. unfold dot, zvec. apply sumn_zero'. intros; ring. Qed.
Lemma dot_zero_r n (w : vec) : dot n w zvec = 0.
Proof. unfold dot, zvec. apply sumn_zero'. intros; ring. Qed.
Lemma dot_suml_l {A} n (l : list A) (g : A -> vec) (w : vec) : dot n (fun i => suml l (fun a => g a i)) w = suml l (fun a => dot n (g a) w).
Proof.
  unfold dot. rewrite suml_sumn_swap. apply sumn_ext. intros i _. rewrite suml_mul_r. auto.
Qed.
Lemma dot_suml_r {A} n (l : list A) (g : A -> vec) (w : vec) : dot n w (fun i => suml l (fun a => g a i)) = suml l (fun a => dot n w (g a)).
Proof.
  unfold dot. rewrite suml_sumn_swap. apply sumn_ext. intros i _. rewrite suml_mul_l. auto.
Qed.
Lemma dot_sumn_l n T (g : nat -> vec) (w : vec) : dot n (fun i => sumn T (fun t => g t i)) w = sumn T (fun t => dot n (g t) w).
Proof.
  unfold dot. rewrite sumn_swap. apply sumn_ext. intros i _. rewrite sumn_mul_r. auto.
Qed.

(** ** Grouping *)
Lemma suml_group {A} (key : A -> nat) ms cs (g : nat -> A -> K) : NoDup ms -> (forall c, In c cs -> In (key c) ms) ->
  suml ms (fun m => suml (filter (fun c => (key c =? m)%nat) cs) (g m)) = suml cs (fun c => g (key c) c).
Proof.
  intros Hn Hk. rewrite (suml_ext _ _ (fun m => suml cs (fun c => if (key c =? m)%nat then g m c else 0))) by (intros; apply suml_filter).
  rewrite suml_swap. apply suml_ext. intros c Hc.
  rewrite (suml_single Nat.eq_dec ms (key c)); auto.
  - rewrite Nat.eqb_refl. auto.
  - intros a Ha Hne. destruct (Nat.eqb_spec (key c) a); congruence.
Qed.
Lemma suml_subset (ms l : list nat) (f : nat -> K) : NoDup ms -> NoDup l -> incl ms l -> (forall m, In m l -> ~ In m ms -> f m = 0) -> suml l f = suml ms f.
Proof.
  intros Hm Hl Hi H0. transitivity (suml l (fun m => suml ms (fun a => if (a =? m)%nat then f a else 0))).
  - apply suml_ext. intros m Hin. destruct (in_dec Nat.eq_dec m ms) as [Hx|Hx].
    + rewrite (suml_single Nat.eq_dec ms m); auto; [rewrite Nat.eqb_refl; auto|].
      intros a _ Hne. destruct (Nat.eqb_spec a m); congruence.
    + rewrite H0 by auto. symmetry. apply suml_zero. intros a Ha. destruct (Nat.eqb_spec a m); congruence.
  - rewrite suml_swap. apply suml_ext. intros a Ha.
    rewrite (suml_single Nat.eq_dec l a); auto; [rewrite Nat.eqb_refl; auto|].
    intros b _ Hne. destruct (Nat.eqb_spec a b); congruence.
Qed.
Lemma suml_filter_split {A} (p : A -> bool) l (f : A -> K) : suml l f = suml (filter p l) f + suml (filter (fun a => negb (p a)) l) f.
Proof. rewrite !suml_filter, <- suml_add. apply suml_ext. intros a _. destruct (p a); cbn; ring. Qed.

(** ** Parts of the external vectors *)
Fixpoint part (dim : nat -> nat) (ms : list nat) (index : nat) (x : vec) (m : nat) : vec :=
  match ms with [] => zvec | a :: t => if (a =? m)%nat then (fun i => x (index + i)%nat) else part dim t (index + dim a)%nat x m end.
Lemma external_part (L : nat -> layer) ms x m : forall index, external L ms index x m = part (fun a => l_in (L a)) ms index x m.
Proof. induction ms as [|a ms IH]; intro index; cbn; auto. destruct (a =? m)%nat; auto. Qed.
Lemma err_part (N : net) x m : err_at N x m = part (fun a => l_out (n_layer N a)) (n_outmods N) 0 x m.
Proof.
  unfold err_at. generalize 0%nat. induction (n_outmods N) as [|a ms IH]; intro index; cbn; auto. destruct (a =? m)%nat; auto.
Qed.
Lemma part_notin dim ms x m : ~ In m ms -> forall index, part dim ms index x m = zvec.
Proof.
  induction ms as [|a ms IH]; intros H index; cbn; auto. destruct (Nat.eqb_spec a m); [exfalso; apply H; left; auto|].
  apply IH. intro; apply H; right; auto.
Qed.
Fixpoint dims (dim : nat -> nat) (ms : list nat) : nat := match ms with [] => 0 | m :: t => dim m + dims dim t end.
Lemma gather_dot dim ms (v : vec) (g : nat -> vec) : NoDup ms -> forall index,
  dot (dims dim ms) (fun i => v (index + i)%nat) (gather dim g ms) = suml ms (fun m => dot (dim m) (part dim ms index v m) (g m)).
Proof.
  induction 1 as [|a ms Ha Hn IH]; intro index; cbn [dims suml]; [reflexivity|]. unfold dot at 1. rewrite sumn_app.
  f_equal.
  - unfold dot. apply sumn_ext. intros i Hi. cbn [gather part]. destruct (Nat.ltb_spec i (dim a)); [|lia].
    rewrite Nat.eqb_refl. auto.
  - rewrite (suml_ext _ _ (fun m => dot (dim m) (part dim ms (index + dim a)%nat v m) (g m))).
    + rewrite <- IH. unfold dot. apply sumn_ext. intros i Hi. cbn [gather]. destruct (Nat.ltb_spec (dim a + i) (dim a)); [lia|].
      replace (dim a + i - dim a)%nat with i by lia. rewrite Nat.add_assoc. auto.
    + intros m Hm. cbn [part]. destruct (Nat.eqb_spec a m); [subst; contradiction|auto].
Qed.

(** ** The adjoint identity *)
(** connections whose backward pass is right (C20) *)
Definition good_conn (c : conn) : Prop := ok_kind (c_kind c) /\ deriv_ok (c_kind c).
Definition conns_good (N : net) : Prop := forall c, In c (all_conns N ++ n_rec N) -> good_conn c.

Definition has_params (c : conn) : Prop := match c_kind c with CIdentity | CPerm _ _ => False | _ => True end.
(** the parameter containers: distinct, with the dimension the connections ask for *)
Definition params_of (N : net) (ks : list nat) (pdim : nat -> nat) : Prop :=
  NoDup ks /\ forall c, In c (all_conns N ++ n_rec N) -> In (c_par c) ks /\ (has_params c -> pdim (c_par c) = paramdim c).

Definition in_dim (N : net) : nat := dims (fun m => l_in (n_layer N m)) (n_inmods N).
Definition out_dim (N : net) : nat := dims (fun m => l_out (n_layer N m)) (n_outmods N).

Definition tangent_in (N : net) (P dP : nat -> vec) (dX : nat -> vec) (O : nat -> nat -> vec) (dO : nat -> nat -> vec) (m t : nat) (i : nat) : K :=
  external (n_layer N) (n_inmods N) 0 (dX t) m i
  + suml (filter (fun c => (c_out c =? m)%nat) (all_conns N)) (fun c => delivers P c (dO (c_in c) t) i + dpar dP c (O (c_in c) t) i)
  + match t with
    | 0%nat => 0
    | S t' => suml (filter (fun c => (c_out c =? m)%nat) (n_rec N)) (fun c => delivers P c (dO (c_in c) t') i + dpar dP c (O (c_in c) t') i)
    end.

Lemma sumn_shift T (f : nat -> K) : f T = 0 -> sumn T (fun t => f (S t)) = sumn T (fun t => match t with 0%nat => 0 | S _ => f t end).
Proof.
  intro H. set (h := fun t => match t with 0%nat => 0 | S _ => f t end).
  assert (E : sumn (1 + T) h = h 0%nat + sumn T (fun t => h (S t))) by (rewrite sumn_app; cbn [sumn]; rewrite (sumn_ext T (fun i => h (1 + i)%nat) (fun t => h (S t))) by auto; ring).
  cbn [Nat.add sumn] in E. assert (h T = 0) by (unfold h; destruct T; auto).
  transitivity (sumn T (fun t => h (S t))); [reflexivity|]. cbn in E. rewrite H0 in E.
  transitivity (sumn T h + 0); [rewrite E; unfold h; ring|ring].
Qed.

(** xt m t e: what module m at time t contributes through parameters of its own *)
Theorem adjoint_identity_x N P dP E dX T mo fb b d s' dI dO ks pdim (xt : nat -> nat -> vec -> K) :
  wf_net N -> conns_good N -> params_of N ks pdim ->
  (T <= mo)%nat \/ n_rec N = [] ->
  (forall n, pb s' n = gexec (bf_f (n_layer N) fb) (pb (b, d)) (bevs N P fb mo T E) n) ->
  (forall c, In c (n_rec N) -> forall i, b_ine (b (c_out c) T) i = 0) ->
  let O := fun m t => b_out (fb m t) in
  (forall m t, In m (n_sorted N) -> (t < T)%nat -> forall i, (i < l_in (n_layer N m))%nat -> dI m t i = tangent_in N P dP dX O dO m t i) ->
  (forall m t, In m (n_sorted N) -> (t < T)%nat -> forall e,
     dot (l_out (n_layer N m)) e (dO m t) =
     dot (l_in (n_layer N m)) (l_bwd (n_layer N m) e (b_ine (b m t)) (O m t) (b_in (fb m t))) (dI m t) + xt m t e) ->
  sumn T (fun t => dot (out_dim N) (E t) (net_output N dO t)) +
  sumn T (fun t => suml (filter (fun m => negb (existsb (Nat.eqb m) (n_outmods N))) (n_sorted N))
                        (fun m => dot (l_out (n_layer N m)) (b_oute (b m t)) (dO m t))) =
  sumn T (fun t => dot (in_dim N) (inputerrors N t (fst s')) (dX t)) +
  suml ks (fun k => dot (pdim k) (fun q => snd s' k q - d k q) (dP k)) +
  sumn T (fun t => suml (n_sorted N) (fun m => xt m t (b_oute (fst s' m t)))).
Proof.
  intros W Hg Hks Hmo Hs Hlast O HdI HdO.
  destruct (backward_equations N P fb mo E T b d s' W Hs) as (Eo & Ei & Ed).
  set (oute := fun m t => b_oute (fst s' m t)). set (ine := fun m t => b_ine (fst s' m t)).
  set (val := fun n => snd (pb s' n)).
  change (forall m t i, In m (n_sorted N) -> (t < T)%nat -> oute m t i =
     (if existsb (Nat.eqb m) (n_outmods N) then err_at N (E t) m i else b_oute (b m t) i)
     + suml (filter (fun c => (c_in c =? m)%nat) (all_conns N)) (fun c => collects P c (ine (c_out c) t) i)
     + recsum_B N P mo t val m i) in Eo.
  change (forall m t, In m (n_sorted N) -> ine m t = if (t <? T)%nat then l_bwd (n_layer N m) (oute m t) (b_ine (b m t)) (O m t) (b_in (fb m t)) else b_ine (b m t)) in Ei.
  change (forall k q, snd s' k q = d k q + sumn T (fun t => suml (filter (fun c => (c_par c =? k)%nat) (all_conns N)) (fun c => dder c (O (c_in c) t) (ine (c_out c) t) q) + recsum_D N fb mo t val k q)) in Ed.
  assert (HcA : forall c, In c (all_conns N) -> In (c_in c) (n_sorted N) /\ In (c_out c) (n_sorted N) /\ wf_conn (n_layer N) c).
  { intros c Hc. unfold all_conns in Hc. apply in_flat_map in Hc. destruct Hc as (m & Hm & Hc).
    destruct (wf_conns _ W m c Hm Hc) as (-> & (l1 & l2 & l3 & El) & Hw). split; auto. split; auto.
    rewrite El. apply in_or_app. right. right. apply in_or_app. right. left. auto. }
  assert (HcR : forall c, In c (n_rec N) -> In (c_in c) (n_sorted N) /\ In (c_out c) (n_sorted N) /\ wf_conn (n_layer N) c) by (apply (wf_rec _ W)).
  assert (HgA : forall c, In c (all_conns N) -> good_conn c) by (intros; apply Hg; apply in_or_app; auto).
  assert (HgR : forall c, In c (n_rec N) -> good_conn c) by (intros; apply Hg; apply in_or_app; auto).
  pose proof (wf_nodup _ W) as Hnd.
  (* the quantities summed *)
  set (A := fun t => suml (all_conns N) (fun c => dot (l_in (n_layer N (c_out c))) (ine (c_out c) t) (delivers P c (dO (c_in c) t)))).
  set (D := fun t => suml (all_conns N) (fun c => dot (l_in (n_layer N (c_out c))) (ine (c_out c) t) (dpar dP c (O (c_in c) t)))).
  set (rho := fun t => suml (n_rec N) (fun c => dot (l_in (n_layer N (c_out c))) (ine (c_out c) t) (delivers P c (dO (c_in c) (t - 1)%nat)))).
  set (del := fun t => suml (n_rec N) (fun c => dot (l_in (n_layer N (c_out c))) (ine (c_out c) t) (dpar dP c (O (c_in c) (t - 1)%nat)))).
  set (LHS := fun t => dot (out_dim N) (E t) (net_output N dO t)).
  set (stale := fun t => suml (filter (fun m => negb (existsb (Nat.eqb m) (n_outmods N))) (n_sorted N)) (fun m => dot (l_out (n_layer N m)) (b_oute (b m t)) (dO m t))).
  set (IN := fun t => dot (in_dim N) (inputerrors N t (fst s')) (dX t)).
  set (XT := fun t => suml (n_sorted N) (fun m => xt m t (oute m t))).
  assert (Hlast' : forall c, In c (n_rec N) -> forall i, ine (c_out c) T i = 0).
  { intros c Hc i. rewrite (Ei (c_out c) T) by apply (HcR c Hc). destruct (Nat.ltb_spec T T); [lia|]. auto. }
  assert (HrT : rho T = 0 /\ del T = 0).
  { split; apply suml_zero; intros c Hc; unfold dot; apply sumn_zero'; intros i _; rewrite (Hlast' c Hc); ring. }
  assert (Hrec : forall t, (t < T)%nat -> forall m i, recsum_B N P mo t val m i = suml (filter (fun c => (c_in c =? m)%nat) (n_rec N)) (fun c => collects P c (ine (c_out c) (S t)) i)).
  { intros t Ht m i. unfold recsum_B. destruct (Nat.eqb_spec t mo); [|reflexivity].
    destruct Hmo as [Hmo|Hmo]; [lia|]. rewrite Hmo. reflexivity. }
  assert (HrecD : forall t, (t < T)%nat -> forall k q, recsum_D N fb mo t val k q = suml (filter (fun c => (c_par c =? k)%nat) (n_rec N)) (fun c => dder c (O (c_in c) t) (ine (c_out c) (S t)) q)).
  { intros t Ht k q. unfold recsum_D. destruct (Nat.eqb_spec t mo); [|reflexivity].
    destruct Hmo as [Hmo|Hmo]; [lia|]. rewrite Hmo. reflexivity. }
  (* first way *)
  assert (S1 : forall t, (t < T)%nat -> suml (n_sorted N) (fun m => dot (l_out (n_layer N m)) (oute m t) (dO m t)) = LHS t + stale t + A t + rho (S t)).
  { intros t Ht.
    rewrite (suml_ext _ _ (fun m =>
       dot (l_out (n_layer N m)) (fun i => if existsb (Nat.eqb m) (n_outmods N) then err_at N (E t) m i else b_oute (b m t) i) (dO m t)
       + suml (filter (fun c => (c_in c =? m)%nat) (all_conns N)) (fun c => dot (l_out (n_layer N m)) (collects P c (ine (c_out c) t)) (dO m t))
       + suml (filter (fun c => (c_in c =? m)%nat) (n_rec N)) (fun c => dot (l_out (n_layer N m)) (collects P c (ine (c_out c) (S t))) (dO m t)))).
    2:{ intros m Hm. rewrite <- !dot_suml_l, <- !dot_add_l. apply dot_ext; auto. intros i _. rewrite (Eo m t i Hm Ht), Hrec by auto. auto. }
    rewrite !suml_add. f_equal; [f_equal|].
    - rewrite (suml_filter_split (fun m => existsb (Nat.eqb m) (n_outmods N))). f_equal.
      + unfold LHS, out_dim, net_output. transitivity (suml (n_outmods N) (fun m => dot (l_out (n_layer N m)) (err_at N (E t) m) (dO m t))).
        * rewrite suml_filter.
          rewrite (suml_subset (n_outmods N)).
          -- apply suml_ext. intros m Hm.
             replace (existsb (Nat.eqb m) (n_outmods N)) with true; [reflexivity|].
             symmetry. apply existsb_exists. exists m. split; auto. apply Nat.eqb_refl.
          -- apply (proj1 (wf_out _ W)).
          -- auto.
          -- apply (proj2 (wf_out _ W)).
          -- intros m _ Hm. destruct (existsb (Nat.eqb m) (n_outmods N)) eqn:Ex; auto. apply existsb_exists in Ex.
             destruct Ex as (a & Ha & Ea). apply Nat.eqb_eq in Ea. subst. contradiction.
        * pose proof (gather_dot (fun m => l_out (n_layer N m)) (n_outmods N) (E t) (fun m => dO m t) (proj1 (wf_out _ W)) 0) as G.
          cbn [Nat.add] in G. change (dot (dims (fun m => l_out (n_layer N m)) (n_outmods N)) (E t) (gather (fun m => l_out (n_layer N m)) (fun m => dO m t) (n_outmods N)) =
              suml (n_outmods N) (fun m => dot (l_out (n_layer N m)) (part (fun m => l_out (n_layer N m)) (n_outmods N) 0 (E t) m) (dO m t))) in G.
          rewrite G. apply suml_ext. intros m _. rewrite err_part. auto.
      + unfold stale. apply suml_ext. intros m Hm. apply filter_In in Hm. destruct Hm as [_ Hm]. apply negb_true_iff in Hm.
        apply dot_ext; auto. intros i _. rewrite Hm. auto.
    - rewrite (suml_group c_in (n_sorted N) (all_conns N) (fun m c => dot (l_out (n_layer N m)) (collects P c (ine (c_out c) t)) (dO m t))); auto.
      + unfold A. apply suml_ext. intros c Hc. symmetry. apply conn_transpose; [apply HcA; auto|apply HgA; auto].
      + intros c Hc. apply HcA; auto.
    - rewrite (suml_group c_in (n_sorted N) (n_rec N) (fun m c => dot (l_out (n_layer N m)) (collects P c (ine (c_out c) (S t))) (dO m t))); auto.
      + unfold rho. apply suml_ext. intros c Hc. replace (S t - 1)%nat with t by lia. symmetry. apply conn_transpose; [apply HcR; auto|apply HgR; auto].
      + intros c Hc. apply HcR; auto. }
  (* second way *)
  assert (S2 : forall t, (t < T)%nat -> suml (n_sorted N) (fun m => dot (l_out (n_layer N m)) (oute m t) (dO m t)) =
     IN t + A t + D t + match t with 0%nat => 0 | S _ => rho t + del t end + XT t).
  { intros t Ht.
    rewrite (suml_ext _ _ (fun m =>
       dot (l_in (n_layer N m)) (ine m t) (external (n_layer N) (n_inmods N) 0 (dX t) m)
       + suml (filter (fun c => (c_out c =? m)%nat) (all_conns N)) (fun c => dot (l_in (n_layer N m)) (ine m t) (fun i => delivers P c (dO (c_in c) t) i + dpar dP c (O (c_in c) t) i))
       + match t with 0%nat => 0 | S t' => suml (filter (fun c => (c_out c =? m)%nat) (n_rec N)) (fun c => dot (l_in (n_layer N m)) (ine m t) (fun i => delivers P c (dO (c_in c) t') i + dpar dP c (O (c_in c) t') i)) end
       + xt m t (oute m t))).
    2:{ intros m Hm. rewrite (HdO m t Hm Ht). rewrite (Ei m t Hm). destruct (Nat.ltb_spec t T); [|lia].
        set (u := l_bwd _ _ _ _ _).
        rewrite (dot_ext _ u (dI m t) u (fun i => tangent_in N P dP dX O dO m t i)); auto.
        unfold tangent_in. rewrite !dot_add_r, dot_suml_r. f_equal. f_equal. destruct t as [|t']; [apply dot_zero_r|]. apply dot_suml_r. }
    rewrite !suml_add.
    transitivity (IN t + (A t + D t) + match t with 0%nat => 0 | S _ => rho t + del t end + XT t); [|ring]. f_equal. f_equal; [f_equal|].
    - rewrite (suml_subset (n_inmods N)).
      + unfold IN, inputerrors, in_dim.
        transitivity (dot (dims (fun m => l_in (n_layer N m)) (n_inmods N)) (dX t) (gather (fun m => l_in (n_layer N m)) (fun m => ine m t) (n_inmods N))).
        * pose proof (gather_dot (fun m => l_in (n_layer N m)) (n_inmods N) (dX t) (fun m => ine m t) (proj1 (wf_in _ W)) 0) as G. cbn [Nat.add] in G.
          change (dot (dims (fun m => l_in (n_layer N m)) (n_inmods N)) (dX t) (gather (fun m => l_in (n_layer N m)) (fun m => ine m t) (n_inmods N)) =
             suml (n_inmods N) (fun m => dot (l_in (n_layer N m)) (part (fun m => l_in (n_layer N m)) (n_inmods N) 0 (dX t) m) (ine m t))) in G.
          rewrite G. apply suml_ext. intros m _. rewrite external_part. unfold dot. apply sumn_ext. intros; ring.
        * unfold dot. apply sumn_ext. intros. unfold ine. ring.
      + apply (proj1 (wf_in _ W)).
      + auto.
      + apply (proj2 (wf_in _ W)).
      + intros m _ Hm. rewrite external_part, part_notin by auto. apply dot_zero_r.
    - rewrite (suml_group c_out (n_sorted N) (all_conns N) (fun m c => dot (l_in (n_layer N m)) (ine m t) (fun i => delivers P c (dO (c_in c) t) i + dpar dP c (O (c_in c) t) i))); auto.
      + unfold A, D. rewrite <- suml_add. apply suml_ext. intros c _. apply dot_add_r.
      + intros c Hc. apply HcA; auto.
    - destruct t as [|t'].
      + apply suml_zero. auto.
      + rewrite (suml_group c_out (n_sorted N) (n_rec N) (fun m c => dot (l_in (n_layer N m)) (ine m (S t')) (fun i => delivers P c (dO (c_in c) t') i + dpar dP c (O (c_in c) t') i))); auto.
        * unfold rho, del. rewrite <- suml_add. apply suml_ext. intros c _. replace (S t' - 1)%nat with t' by lia. apply dot_add_r.
        * intros c Hc. apply HcR; auto. }
  (* derivatives *)
  assert (S3 : suml ks (fun k => dot (pdim k) (fun q => snd s' k q - d k q) (dP k)) = sumn T (fun t => D t + del (S t))).
  { destruct Hks as [Hkn Hkp].
    assert (Hpd : forall c x e, In c (all_conns N ++ n_rec N) -> deriv_ok (c_kind c) -> dot (pdim (c_par c)) (dder c x e) (dP (c_par c)) = dot (paramdim c) (dder c x e) (dP (c_par c))).
    { intros c x e Hc Hd. destruct (Hkp c Hc) as [_ Hp]. unfold has_params in Hp. unfold dder. destruct (c_kind c); cbn in Hd; try contradiction.
      - rewrite Hp; auto.
      - unfold dot. cbn. rewrite !sumn_zero'; auto; intros; unfold zvec; ring.
      - unfold dot. cbn. rewrite !sumn_zero'; auto; intros; unfold zvec; ring. }
    rewrite (suml_ext _ _ (fun k => sumn T (fun t =>
        suml (filter (fun c => (c_par c =? k)%nat) (all_conns N)) (fun c => dot (pdim k) (dder c (O (c_in c) t) (ine (c_out c) t)) (dP k))
      + suml (filter (fun c => (c_par c =? k)%nat) (n_rec N)) (fun c => dot (pdim k) (dder c (O (c_in c) t) (ine (c_out c) (S t))) (dP k))))).
    2:{ intros k _. transitivity (dot (pdim k) (fun q => sumn T (fun t => suml (filter (fun c => (c_par c =? k)%nat) (all_conns N)) (fun c => dder c (O (c_in c) t) (ine (c_out c) t) q)
              + suml (filter (fun c => (c_par c =? k)%nat) (n_rec N)) (fun c => dder c (O (c_in c) t) (ine (c_out c) (S t)) q))) (dP k)).
        - apply dot_ext; auto. intros q _. rewrite Ed.
          rewrite (sumn_ext T _ (fun t => suml (filter (fun c => (c_par c =? k)%nat) (all_conns N)) (fun c => dder c (O (c_in c) t) (ine (c_out c) t) q)
              + suml (filter (fun c => (c_par c =? k)%nat) (n_rec N)) (fun c => dder c (O (c_in c) t) (ine (c_out c) (S t)) q))); [ring|].
          intros t Ht. rewrite HrecD by auto. reflexivity.
        - rewrite (dot_sumn_l (pdim k) T (fun t q => suml (filter (fun c => (c_par c =? k)%nat) (all_conns N)) (fun c => dder c (O (c_in c) t) (ine (c_out c) t) q)
              + suml (filter (fun c => (c_par c =? k)%nat) (n_rec N)) (fun c => dder c (O (c_in c) t) (ine (c_out c) (S t)) q))).
          apply sumn_ext. intros t _. rewrite dot_add_l, !dot_suml_l. auto. }
    rewrite suml_sumn_swap. apply sumn_ext. intros t Ht. rewrite suml_add. f_equal.
    - rewrite (suml_group c_par ks (all_conns N) (fun k c => dot (pdim k) (dder c (O (c_in c) t) (ine (c_out c) t)) (dP k))); auto.
      + unfold D. apply suml_ext. intros c Hc. destruct (HcA c Hc) as (_ & _ & Hw). destruct (HgA c Hc) as [_ Hd].
        rewrite (conn_derivative (n_layer N) dP c _ _ Hw Hd). apply Hpd; auto. apply in_or_app; auto.
      + intros c Hc. apply Hkp. apply in_or_app; auto.
    - rewrite (suml_group c_par ks (n_rec N) (fun k c => dot (pdim k) (dder c (O (c_in c) t) (ine (c_out c) (S t))) (dP k))); auto.
      + unfold del. apply suml_ext. intros c Hc. destruct (HcR c Hc) as (_ & _ & Hw). destruct (HgR c Hc) as [_ Hd].
        replace (S t - 1)%nat with t by lia.
        rewrite (conn_derivative (n_layer N) dP c _ _ Hw Hd). apply Hpd; auto. apply in_or_app; auto.
      + intros c Hc. apply Hkp. apply in_or_app; auto. }
  rewrite S3. destruct HrT as [HrT HdT].
  fold LHS stale IN.
  change (sumn T (fun t => suml (n_sorted N) (fun m => xt m t (b_oute (fst s' m t))))) with (sumn T XT).
  assert (E4 : sumn T (fun t => LHS t + stale t + A t + rho (S t)) = sumn T (fun t => IN t + A t + D t + match t with 0%nat => 0 | S _ => rho t + del t end + XT t)).
  { apply sumn_ext. intros t Ht. rewrite <- S1, <- S2 by auto. auto. }
  rewrite !sumn_add in E4.
  assert (E5 : sumn T (fun t => match t with 0%nat => 0 | S _ => rho t + del t end) = sumn T (fun t => rho (S t)) + sumn T (fun t => del (S t))).
  { rewrite <- sumn_add. symmetry. apply (sumn_shift T (fun t => rho t + del t)). rewrite HrT, HdT. ring. }
  rewrite E5 in E4. rewrite sumn_add.
  set (sL := sumn T LHS) in *. set (sS := sumn T stale) in *. set (sA := sumn T A) in *. set (sR := sumn T (fun t => rho (S t))) in *. change (sumn T (fun t => XT t)) with (sumn T XT) in E4. set (sX := sumn T XT) in *.
  transitivity (sL + sS + sA + sR - sA - sR); [ring|]. rewrite E4. ring.
Qed.

Theorem adjoint_identity N P dP E dX T mo fb b d s' dI dO ks pdim :
  wf_net N -> conns_good N -> params_of N ks pdim ->
  (T <= mo)%nat \/ n_rec N = [] ->
  (forall n, pb s' n = gexec (bf_f (n_layer N) fb) (pb (b, d)) (bevs N P fb mo T E) n) ->
  (forall c, In c (n_rec N) -> forall i, b_ine (b (c_out c) T) i = 0) ->
  let O := fun m t => b_out (fb m t) in
  (forall m t, In m (n_sorted N) -> (t < T)%nat -> forall i, (i < l_in (n_layer N m))%nat -> dI m t i = tangent_in N P dP dX O dO m t i) ->
  (forall m t, In m (n_sorted N) -> (t < T)%nat -> forall e,
     dot (l_out (n_layer N m)) e (dO m t) =
     dot (l_in (n_layer N m)) (l_bwd (n_layer N m) e (b_ine (b m t)) (O m t) (b_in (fb m t))) (dI m t)) ->
  sumn T (fun t => dot (out_dim N) (E t) (net_output N dO t)) +
  sumn T (fun t => suml (filter (fun m => negb (existsb (Nat.eqb m) (n_outmods N))) (n_sorted N))
                        (fun m => dot (l_out (n_layer N m)) (b_oute (b m t)) (dO m t))) =
  sumn T (fun t => dot (in_dim N) (inputerrors N t (fst s')) (dX t)) +
  suml ks (fun k => dot (pdim k) (fun q => snd s' k q - d k q) (dP k)).
Proof.
  intros W Hg Hks Hmo Hs Hlast O HdI HdO.
  rewrite (adjoint_identity_x N P dP E dX T mo fb b d s' dI dO ks pdim (fun _ _ _ => 0) W Hg Hks Hmo Hs Hlast HdI).
  - rewrite (sumn_zero' T (fun t => suml (n_sorted N) (fun _ => 0))) by (intros; apply suml_zero; auto). ring.
  - intros m t Hm Ht e. etransitivity; [apply (HdO m t Hm Ht e)|]. cbv beta. unfold O. ring.
Qed.
End NetAdjoint.
