(** C18: the gradient theorem for the networks. *)
From Coq Require Import Ring Reals Lra.
From Verif Require Import Base RingOps Net_Model Net_Spec Propagate Net_Events Net_Forward Conn_Adjoint Net_Backward Net_Adjoint Net_Gradient.

Lemma external_ext (L : nat -> rlayer) ms (x y : rvec) m i : (forall j, x j = y j) -> forall index, external L ms index x m i = external L ms index y m i.
Proof.
  intro H. induction ms as [|a ms IH]; intro index; cbn; auto. destruct (a =? m); auto.
Qed.
Lemma delivers_ext (P P' : nat -> rvec) c (x : rvec) i : (forall k q, P k q = P' k q) -> delivers P c x i = delivers P' c x i.
Proof.
  intro H. unfold delivers. destruct (_ && _); auto. unfold op_fwd. destruct (c_kind c); auto.
  - apply sumn_ext. intros. rewrite H. auto.
  - rewrite H. auto.
  - apply sumn_ext. intros. rewrite H. auto.
Qed.
Lemma nth_error_map_seq {A} (f : nat -> A) T t : t < T -> nth_error (map f (seq 0 T)) t = Some (f t).
Proof.
  intro H. rewrite nth_error_map. rewrite (nth_error_nth' (seq 0 T) 0) by (rewrite seq_length; auto). rewrite seq_nth by auto. reflexivity.
Qed.
Lemma nth_error_map_seq_inv {A} (f : nat -> A) T t x : nth_error (map f (seq 0 T)) t = Some x -> t < T /\ x = f t.
Proof.
  intro H. assert (Ht : t < T). { assert (t < length (map f (seq 0 T))) by (apply nth_error_Some; congruence). rewrite map_length, seq_length in H0. auto. }
  split; auto. rewrite nth_error_map_seq in H by auto. congruence.
Qed.
Lemma recurrence_ext N (P P' : nat -> rvec) (X X' : nat -> rvec) T I O : (forall k q, P k q = P' k q) -> (forall t j, X t j = X' t j) ->
  recurrence N P (map X (seq 0 T)) I O -> recurrence N P' (map X' (seq 0 T)) I O.
Proof.
  intros HP HX R t x m Hx Hm. apply nth_error_map_seq_inv in Hx. destruct Hx as [Ht ->].
  destruct (R t (X t) m (nth_error_map_seq X T t Ht) Hm) as [A B]. split; auto. intros i Hi. rewrite A by auto. f_equal; [f_equal|].
  - apply external_ext. auto.
  - apply suml_ext. intros. apply delivers_ext; auto.
  - destruct t; auto. apply suml_ext. intros. apply delivers_ext; auto.
Qed.

Lemma gather_deriv (dim : nat -> nat) (g : R -> nat -> rvec) (dg : nat -> rvec) ms :
  (forall m i, In m ms -> i < dim m -> dlim (fun s => g s m i) (dg m i)) ->
  forall i, i < dims dim ms -> dlim (fun s => gather dim (g s) ms i) (gather dim dg ms i).
Proof.
  induction ms as [|m ms IH]; intros H i Hi; cbn [dims] in Hi; [lia|]. cbn [gather]. destruct (Nat.ltb_spec i (dim m)).
  - apply H; [left|]; auto.
  - apply IH; [intros; apply H; [right|]; auto|lia].
Qed.

(** the layer's backward pass does not add to what is left in its input error *)
Definition bwd_fresh (l : rlayer) (ine : rvec) : Prop :=
  forall e o i k, k < l_in l -> l_bwd l e ine o i k = l_bwd l e zvec o i k.
Definition hidden (N : rnet) : list nat := filter (fun m => negb (existsb (Nat.eqb m) (n_outmods N))) (n_sorted N).

Section Core.
Variables (N : rnet) (P dP : nat -> rvec) (X dX E : nat -> rvec) (T mo : nat) (ks : list nat) (pdim : nat -> nat).
Let Ps (s : R) : nat -> rvec := fun k q => (P k q + s * dP k q)%R.
Let Xs (s : R) (t : nat) : rvec := fun j => (X t j + s * dX t j)%R.
Variables (Fs : R -> @bufs R) (F0 b : @bufs R) (d : @derivs R) (s' : @bufs R * @derivs R).
Hypothesis W : wf_net N.
Hypothesis HL : forall m, In m (n_sorted N) -> layer_local (n_layer N m).
Hypothesis Hg : conns_good N.
Hypothesis Hks : params_of N ks pdim.
Hypothesis Hmo : T <= mo \/ n_rec N = [].
Hypothesis HFs : forall s n, pf (Fs s) n = gexec (ff_f (n_layer N)) (pf reset_bufs) (evs N (Ps s) 0 (map (Xs s) (seq 0 T))) n.
Hypothesis HF0 : forall n, pf F0 n = gexec (ff_f (n_layer N)) (pf reset_bufs) (evs N P 0 (map X (seq 0 T))) n.
Hypothesis Hlast : forall c, In c (n_rec N) -> forall i, b_ine (b (c_out c) T) i = 0%R.
Hypothesis Hfresh : forall m t, In m (n_sorted N) -> t < T -> bwd_fresh (n_layer N m) (b_ine (b m t)).
Hypothesis Hs' : forall n, pb s' n = gexec (bf_f (n_layer N) F0) (pb (b, d)) (bevs N P F0 mo T E) n.
Hypothesis Hdiff : forall m t, In m (n_sorted N) -> t < T -> layer_diff_at (n_layer N m) (b_in (F0 m t)).

Theorem gradient_core_stale :
  dlim (fun s => sumn T (fun t => dot (out_dim N) (E t) (outputs N t (Fs s))) +
                 sumn T (fun t => suml (hidden N) (fun m => dot (l_out (n_layer N m)) (b_oute (b m t)) (b_out (Fs s m t)))))%R
       (sumn T (fun t => dot (in_dim N) (inputerrors N t (fst s')) (dX t)) +
        suml ks (fun k => dot (pdim k) (fun q => snd s' k q - d k q) (dP k)))%R.
Proof.
  set (I := fun m t => b_in (F0 m t)). set (O := fun m t => b_out (F0 m t)).
  set (Is := fun s m t => b_in (Fs s m t)). set (Os := fun s m t => b_out (Fs s m t)).
  assert (Q0 : forall t m, t < T -> In m (n_sorted N) -> _) by (intros t m Ht Hm; exact (exec_recurrence N P _ F0 W HF0 t (X t) m (nth_error_map_seq X T t Ht) Hm)).
  assert (Qs : forall s t m, t < T -> In m (n_sorted N) -> _) by (intros s t m Ht Hm; exact (exec_recurrence N (Ps s) _ (Fs s) W (HFs s) t (Xs s t) m (nth_error_map_seq (Xs s) T t Ht) Hm)).
  assert (R0 : recurrence N P (map X (seq 0 T)) I O).
  { intros t x m Hx Hm. apply nth_error_map_seq_inv in Hx. destruct Hx as [Ht ->]. destruct (Q0 t m Ht Hm) as [A B].
    split; [intros; apply A|]. intros i _. unfold O. rewrite B. reflexivity. }
  assert (Rs : recurrence N P (map X (seq 0 T)) (Is 0%R) (Os 0%R)).
  { apply (recurrence_ext N (Ps 0) P (Xs 0) X).
    - intros. unfold Ps. ring.
    - intros. unfold Xs. ring.
    - intros t x m Hx Hm. apply nth_error_map_seq_inv in Hx. destruct Hx as [Ht ->]. destruct (Qs 0%R t m Ht Hm) as [A B].
      split; [intros; apply A|]. intros i _. unfold Os. rewrite B. reflexivity. }
  assert (U : forall t m, t < T -> In m (n_sorted N) -> (forall i, i < l_in (n_layer N m) -> Is 0%R m t i = I m t i) /\ (forall i, i < l_out (n_layer N m) -> Os 0%R m t i = O m t i)).
  { intros t m Ht Hm. refine (recurrence_unique N P _ _ _ _ _ W HL Rs R0 t m _ Hm). rewrite map_length, seq_length. exact Ht. }
  destruct (tangent_exists N P dP X dX T I O Is Os W) as (dI & dO & Htan).
  - intros m t Hm Ht. apply (Q0 t m Ht Hm).
  - intros s m t Hm Ht i. apply (Qs s t m Ht Hm).
  - intros s m t Hm Ht. apply (Qs s t m Ht Hm).
  - intros m t i Hm Ht Hi. apply (U t m Ht Hm); auto.
  - intros m t i Hm Ht Hi. apply (U t m Ht Hm); auto.
  - exact Hdiff.
  - eapply dlim_val.
    + pose proof (adjoint_identity N P dP E dX T mo F0 b d s' dI dO ks pdim W Hg Hks Hmo Hs' Hlast) as Adj.
      cbn zeta in Adj.
      assert (A2 : forall m t, In m (n_sorted N) -> t < T -> forall i, i < l_in (n_layer N m) -> dI m t i = tangent_in N P dP dX (fun m t => b_out (F0 m t)) dO m t i).
      { intros m t Hm Ht i _. apply (Htan m t Hm Ht). }
      assert (A3 : forall m t, In m (n_sorted N) -> t < T -> forall e,
         dot (l_out (n_layer N m)) e (dO m t) = dot (l_in (n_layer N m)) (l_bwd (n_layer N m) e (b_ine (b m t)) (b_out (F0 m t)) (b_in (F0 m t))) (dI m t)).
      { intros m t Hm Ht e. destruct (Htan m t Hm Ht) as (_ & A & _). refine (eq_trans (A e) _). apply sumn_ext. intros i Hi.
        rewrite (Hfresh m t Hm Ht) by auto. reflexivity. }
      exact (Adj A2 A3).
    + apply dlim_add.
      * apply dlim_sumn. intros t Ht. unfold dot. apply dlim_sumn. intros i Hi.
        eapply dlim_val; [|apply (dlim_mul (fun _ => E t i) (fun s => outputs N t (Fs s) i) 0%R (net_output N dO t i)); [apply dlim_const|]].
        -- cbn. ring.
        -- unfold outputs, net_output. apply (gather_deriv (fun m => l_out (n_layer N m)) (fun s m => b_out (Fs s m t))); auto.
           intros m j Hm Hj. apply (Htan m t); auto. apply (proj2 (wf_out _ W)). auto.
      * apply dlim_sumn. intros t Ht. apply dlim_suml. intros m Hm. apply filter_In in Hm. destruct Hm as [Hm _]. unfold dot. apply dlim_sumn. intros i Hi.
        eapply dlim_val; [|apply (dlim_mul (fun _ => b_oute (b m t) i) (fun s => b_out (Fs s m t) i) 0%R (dO m t i)); [apply dlim_const|]].
        -- cbn. ring.
        -- apply (Htan m t); auto.
Qed.

Hypothesis He0 : forall m o, b_oute (b m o) = zvec.
Theorem gradient_core :
  dlim (fun s => sumn T (fun t => dot (out_dim N) (E t) (outputs N t (Fs s))))
       (sumn T (fun t => dot (in_dim N) (inputerrors N t (fst s')) (dX t)) +
        suml ks (fun k => dot (pdim k) (fun q => snd s' k q - d k q) (dP k)))%R.
Proof.
  eapply dlim_ext; [|exact gradient_core_stale]. intro s. cbv beta.
  match goal with |- (?A + ?B)%R = _ => assert (Z : B = 0%R) end.
  { apply (sumn_zero' (L := RLaws)). intros t Ht. apply (suml_zero (L := RLaws)). intros m Hm. rewrite (He0 m t). apply (sumn_zero' (L := RLaws)). intros i _. cbn. ring. }
  rewrite Z. apply Rplus_0_r.
Qed.
End Core.

Lemma zvec_fresh (l : rlayer) v : v = zvec -> bwd_fresh l v.
Proof. intros ->. intros e o i k Hk. reflexivity. Qed.

(** ** Feed-forward networks *)
Theorem ff_gradient (N : rnet) (P dP : nat -> rvec) (x dx e : rvec) (s0 : @bufs R * @derivs R) (ks : list nat) (pdim : nat -> nat) :
  wf_net N -> n_rec N = [] -> (forall m, In m (n_sorted N) -> layer_local (n_layer N m)) -> conns_good N -> params_of N ks pdim ->
  let s1 := fst (ff_activate N P s0 x) in
  let s2 := fst (ff_backActivate N P s1 e) in
  let inerr := snd (ff_backActivate N P s1 e) in
  (forall m, In m (n_sorted N) -> layer_diff_at (n_layer N m) (b_in (fst s1 m 0))) ->
  derivable_pt_lim
    (fun s => dot (out_dim N) e (snd (ff_activate N (fun k q => P k q + s * dP k q)%R s0 (fun j => x j + s * dx j)%R))) 0%R
    (dot (in_dim N) inerr dx + suml ks (fun k => dot (pdim k) (fun q => snd s2 k q - snd s1 k q) (dP k)))%R.
Proof.
  intros W Hr HL Hg Hks s1 s2 inerr Hdiff.
  assert (HF : forall Q y n, pf (ff_forward N Q reset_bufs y) n = gexec (ff_f (n_layer N)) (pf reset_bufs) (evs N Q 0 (map (fun _ => y) (seq 0 1))) n).
  { intros Q y n. rewrite ff_forward_step. cbn [seq map evs]. rewrite app_nil_r. apply step_bufs_ev. }
  assert (He : forall Q y m o, b_ine (ff_forward N Q reset_bufs y m o) = zvec /\ b_oute (ff_forward N Q reset_bufs y m o) = zvec).
  { intros Q y m o. rewrite ff_forward_step. destruct (step_bufs_ev N Q 0 y reset_bufs) as [_ S]. destruct (S m o) as [-> ->]. split; reflexivity. }
  set (F0 := ff_forward N P reset_bufs x).
  destruct (ff_back_ev N P F0 s1 e) as (Hb & _ & Hin); [split; reflexivity|].
  assert (Hb' : forall n, pb s2 n = gexec (bf_f (n_layer N) F0) (pb (F0, snd s1)) (bevs N P F0 0 1 (fun _ => e)) n).
  { intro n. cbn [bevs]. rewrite app_nil_r. unfold s2. rewrite Hb. reflexivity. }
  pose proof (gradient_core N P dP (fun _ => x) (fun _ => dx) (fun _ => e) 1 0 ks pdim
     (fun s => ff_forward N (fun k q => P k q + s * dP k q)%R reset_bufs (fun j => x j + s * dx j)%R) F0 F0 (snd s1) s2
     W HL Hg Hks (or_intror Hr) (fun s => HF _ _) (HF P x)) as G.
  specialize (G ltac:(intros c Hc; rewrite Hr in Hc; destruct Hc) (fun m t _ _ => zvec_fresh _ _ (proj1 (He P x m t))) Hb').
  specialize (G (fun m t Hm Ht => ltac:(replace t with 0 by lia; exact (Hdiff m Hm))) (fun m t => proj2 (He P x m t))).
  eapply dlim_ext; [|eapply dlim_val; [|exact G]].
  - intro s. cbn [sumn]. cbn [radd ROps r0]. rewrite Rplus_0_l. reflexivity.
  - cbn [sumn]. cbn [radd ROps r0]. rewrite Rplus_0_l. unfold inerr. rewrite Hin. reflexivity.
Qed.

(** ** Recurrent networks: back-propagation through time *)
Lemma bevs_target (N : rnet) P fb mo E T e : In e (bevs N P fb mo T E) -> (exists m o, target e = NB m o /\ o < T) \/ exists k, target e = ND k.
Proof.
  induction T as [|T IH]; cbn [bevs]; intro H; [destruct H|]. apply in_app_or in H. destruct H as [H|H].
  - unfold bev in H. apply in_app_or in H. destruct H as [H|H]; [|apply in_app_or in H; destruct H as [H|H]].
    + left. revert H. generalize (n_outmods N). generalize 0. intros i l. revert i. induction l as [|m l IHl]; intros i H; [destruct H|].
      destruct H as [<-|H]; [exists m, T; cbn; auto|]. apply (IHl _ H).
    + unfold brev in H. destruct (T =? mo); [destruct H|]. apply in_flat_map in H. destruct H as (c & _ & H). apply bcev_in in H.
      destruct H as (dst & g & -> & [->| ->]); cbn; [left; exists (c_in c), T; auto|right; eauto].
    + apply in_flat_map in H. destruct H as (m & _ & H). apply in_app_or in H. destruct H as [H|[<-|[]]]; [|left; exists m, T; cbn; auto].
      apply in_flat_map in H. destruct H as (c & _ & H). apply bcev_in in H.
      destruct H as (dst & g & -> & [->| ->]); cbn; [left; exists (c_in c), T; auto|right; eauto].
  - destruct (IH H) as [(m & o & A & B)|A]; [left; exists m, o; auto|right; auto].
Qed.
Lemma run_back (N : rnet) P fb E T : forall s, same_fwd fb (r_b s) -> r_offset s = T ->
  let r := run_acts (rec_backActivate N P) s (map E (rev (seq 0 T))) in
  (forall n, pb (r_b (fst r), r_d (fst r)) n = gexec (bf_f (n_layer N) fb) (pb (r_b s, r_d s)) (bevs N P fb (r_maxoffset s) T E) n) /\
  r_offset (fst r) = 0 /\ length (snd r) = T /\
  forall t, t < T -> forall i, nth (T - 1 - t) (snd r) zvec i = inputerrors N t (r_b (fst r)) i.
Proof.
  induction T as [|T IH]; intros s Hf Ho.
  - cbn. repeat split; auto; lia.
  - rewrite seq_S. rewrite rev_app_distr. cbn [rev app map Nat.add run_acts].
    destruct (rec_back_ev N P fb s (E T) Hf) as (E1 & F1 & O1 & M1 & L1 & Y1).
    destruct (rec_backActivate N P s (E T)) as [s1 y]. cbn [fst snd] in *.
    destruct (IH s1 F1 ltac:(lia)) as (E2 & O2 & Ln & Y2).
    destruct (run_acts (rec_backActivate N P) s1 (map E (rev (seq 0 T)))) as [s2 ys]. cbn [fst snd] in *.
    replace (r_offset s - 1) with T in * by lia.
    split; [|split; [auto|split; [cbn; auto|]]].
    + intro n. rewrite E2, M1. cbn [bevs]. rewrite gexec_app. apply gexec_ext. auto.
    + intros t Ht i. destruct (Nat.eq_dec t T) as [->|Hne].
      * replace (S T - 1 - T) with 0 by lia. cbn [nth]. rewrite Y1. unfold inputerrors. apply (f_equal (fun v : rvec => v i)). apply gather_ext. intros m _.
        pose proof (E2 (NB m T)) as Eq. rewrite gexec_untouched in Eq.
        -- cbn in Eq. congruence.
        -- intros e He. apply bevs_target in He. destruct He as [(m' & o & -> & Hlt)|(k & ->)]; [|discriminate]. intro Eq'. injection Eq' as _ Eq'. lia.
      * replace (S T - 1 - t) with (S (T - 1 - t)) by lia. cbn [nth]. apply Y2. lia.
Qed.

Theorem rec_gradient (N : rnet) (P dP : nat -> rvec) (X dX E : nat -> rvec) (T : nat) (d : @derivs R) (mo len : nat) (ks : list nat) (pdim : nat -> nat) :
  wf_net N -> (forall m, In m (n_sorted N) -> layer_local (n_layer N m)) -> conns_good N -> params_of N ks pdim -> 0 < len ->
  let fwd := run_acts (rec_activate N P) (mkr reset_bufs d 0 mo len) (map X (seq 0 T)) in
  let bwd := run_acts (rec_backActivate N P) (fst fwd) (map E (rev (seq 0 T))) in
  (forall m t, In m (n_sorted N) -> t < T -> layer_diff_at (n_layer N m) (b_in (r_b (fst fwd) m t))) ->
  derivable_pt_lim
    (fun s => sumn T (fun t => dot (out_dim N) (E t)
        (nth t (snd (run_acts (rec_activate N (fun k q => P k q + s * dP k q)%R) (mkr reset_bufs d 0 mo len)
                              (map (fun t j => X t j + s * dX t j)%R (seq 0 T)))) zvec))) 0%R
    (sumn T (fun t => dot (in_dim N) (nth (T - 1 - t) (snd bwd) zvec) (dX t)) +
     suml ks (fun k => dot (pdim k) (fun q => r_d (fst bwd) k q - d k q) (dP k)))%R.
Proof.
  intros W HL Hg Hks Hl fwd bwd Hdiff.
  set (Ps := (fun s k q => (P k q + s * dP k q)%R) : R -> nat -> rvec). set (Xs := (fun s t j => (X t j + s * dX t j)%R) : R -> nat -> rvec).
  assert (HR : forall Q Y, exists s' ys, run_acts (rec_activate N Q) (fresh d mo len) (map Y (seq 0 T)) = (s', ys) /\ rinv s' /\
    r_offset s' = 0 + length (map Y (seq 0 T)) /\ r_d s' = d /\
    r_maxoffset s' = match map Y (seq 0 T) with [] => mo | _ => Nat.max (0 + length (map Y (seq 0 T))) mo end /\
    (forall n, pf (r_b s') n = gexec (ff_f (n_layer N)) (pf reset_bufs) (evs N Q 0 (map Y (seq 0 T))) n) /\
    same_err reset_bufs (r_b s') /\ (forall m o, o < 0 -> r_b s' m o = reset_bufs m o) /\ length ys = length (map Y (seq 0 T)) /\
    forall t y, nth_error ys t = Some y -> y = outputs N (0 + t) (r_b s')).
  { intros Q Y. exact (run_acts_spec N Q (map Y (seq 0 T)) (fresh d mo len) (fresh_inv d mo len Hl)). }
  destruct (HR P X) as (s1 & ys & Ef & _ & Ho & Hd & Hm & Hp & He & _).
  change (mkr reset_bufs d 0 mo len) with (fresh d mo len) in *.
  assert (Ef' : fst fwd = s1) by (unfold fwd; rewrite Ef; reflexivity). rewrite Ef' in Hdiff. unfold bwd. rewrite Ef'.
  rewrite map_length, seq_length, Nat.add_0_l in Ho.
  destruct (run_back N P (r_b s1) E T s1) as (Hb & _ & _ & Hy); [split; reflexivity|exact Ho|].
  set (r := run_acts (rec_backActivate N P) s1 (map E (rev (seq 0 T)))) in *. rewrite Hd in Hb.
  assert (Hmo : T <= r_maxoffset s1).
  { rewrite Hm, map_length, seq_length. destruct T; [lia|]. cbn [seq map]. lia. }
  set (Fs := fun s => r_b (fst (run_acts (rec_activate N (Ps s)) (fresh d mo len) (map (Xs s) (seq 0 T))))).
  assert (HFs : forall s n, pf (Fs s) n = gexec (ff_f (n_layer N)) (pf reset_bufs) (evs N (Ps s) 0 (map (Xs s) (seq 0 T))) n).
  { intros s n. destruct (HR (Ps s) (Xs s)) as (s2 & ys2 & E2 & _ & _ & _ & _ & Hp2 & _). replace (Fs s) with (r_b s2); [apply Hp2|]. unfold Fs. f_equal. exact (f_equal fst (eq_sym E2)). }
  assert (He0 : forall m o, b_ine (r_b s1 m o) = zvec /\ b_oute (r_b s1 m o) = zvec).
  { intros m o. destruct (He m o) as [-> ->]. split; reflexivity. }
  pose proof (gradient_core N P dP X dX E T (r_maxoffset s1) ks pdim Fs (r_b s1) (r_b s1) d (r_b (fst r), r_d (fst r))
    W HL Hg Hks (or_introl Hmo) HFs Hp (fun c _ i => f_equal (fun v : rvec => v i) (proj1 (He0 (c_out c) T)))
    (fun m t _ _ => zvec_fresh _ _ (proj1 (He0 m t))) Hb Hdiff (fun m t => proj2 (He0 m t))) as G.
  eapply dlim_ext; [|eapply dlim_val; [|exact G]].
  - intro s. apply sumn_ext. intros t Ht. apply (f_equal (dot (out_dim N) (E t))).
    destruct (HR (Ps s) (Xs s)) as (s2 & ys2 & E2 & _ & _ & _ & _ & _ & _ & _ & Hl2 & Hy2).
    assert (Hn : nth t ys2 zvec = outputs N t (r_b s2)).
    { destruct (nth_error ys2 t) as [y|] eqn:Ey.
      + rewrite (nth_error_nth _ _ _ Ey). apply (Hy2 t y Ey).
      + apply nth_error_None in Ey. rewrite Hl2, map_length, seq_length in Ey. lia. }
    assert (E3 : Fs s = r_b s2) by (unfold Fs; f_equal; exact (f_equal fst E2)).
    rewrite E3, <- Hn. exact (f_equal (fun r => nth t (snd r) zvec) (eq_sym E2)).
  - cbn [fst snd]. f_equal. apply sumn_ext. intros t Ht. apply dot_ext; auto. intros i _. symmetry. apply Hy. auto.
Qed.

(** ** A second backActivate *)
Theorem ff_second (N : rnet) (P dP : nat -> rvec) (x dx e1 e2 : rvec) (s0 : @bufs R * @derivs R) (ks : list nat) (pdim : nat -> nat) :
  wf_net N -> n_rec N = [] -> (forall m, In m (n_sorted N) -> layer_local (n_layer N m)) -> conns_good N -> params_of N ks pdim ->
  let s1 := fst (ff_activate N P s0 x) in
  let s2 := fst (ff_backActivate N P s1 e1) in
  let s3 := fst (ff_backActivate N P s2 e2) in
  let inerr := snd (ff_backActivate N P s2 e2) in
  (forall m, In m (n_sorted N) -> layer_diff_at (n_layer N m) (b_in (fst s1 m 0))) ->
  (forall m ine, In m (n_sorted N) -> bwd_fresh (n_layer N m) ine) ->
  derivable_pt_lim
    (fun s => let r := ff_activate N (fun k q => P k q + s * dP k q)%R s0 (fun j => x j + s * dx j)%R in
       dot (out_dim N) e2 (snd r) +
       suml (hidden N) (fun m => dot (l_out (n_layer N m)) (b_oute (fst s2 m 0%nat)) (b_out (fst (fst r) m 0%nat))))%R 0%R
    (dot (in_dim N) inerr dx + suml ks (fun k => dot (pdim k) (fun q => snd s3 k q - snd s2 k q) (dP k)))%R.
Proof.
  intros W Hr HL Hg Hks s1 s2 s3 inerr Hdiff Hfr.
  assert (HF : forall Q y n, pf (ff_forward N Q reset_bufs y) n = gexec (ff_f (n_layer N)) (pf reset_bufs) (evs N Q 0 (map (fun _ => y) (seq 0 1))) n).
  { intros Q y n. rewrite ff_forward_step. cbn [seq map evs]. rewrite app_nil_r. apply step_bufs_ev. }
  set (F0 := ff_forward N P reset_bufs x).
  destruct (ff_back_ev N P F0 s1 e1) as (_ & Hf & _); [split; reflexivity|].
  destruct (ff_back_ev N P F0 s2 e2 Hf) as (Hb & _ & Hin).
  assert (Hb' : forall n, pb s3 n = gexec (bf_f (n_layer N) F0) (pb (fst s2, snd s2)) (bevs N P F0 0 1 (fun _ => e2)) n).
  { intro n. cbn [bevs]. rewrite app_nil_r. unfold s3. rewrite Hb. destruct s2. reflexivity. }
  pose proof (gradient_core_stale N P dP (fun _ => x) (fun _ => dx) (fun _ => e2) 1 0 ks pdim
     (fun s => ff_forward N (fun k q => P k q + s * dP k q)%R reset_bufs (fun j => x j + s * dx j)%R) F0 (fst s2) (snd s2) s3
     W HL Hg Hks (or_intror Hr) (fun s => HF _ _) (HF P x)) as G.
  specialize (G ltac:(intros c Hc; rewrite Hr in Hc; destruct Hc) (fun m t Hm _ => Hfr m _ Hm) Hb').
  specialize (G (fun m t Hm Ht => ltac:(replace t with 0 by lia; exact (Hdiff m Hm)))).
  eapply dlim_ext; [|eapply dlim_val; [|exact G]].
  - intro s. cbn [sumn]. cbn [radd ROps r0]. rewrite !Rplus_0_l. reflexivity.
  - cbn [sumn]. cbn [radd ROps r0]. rewrite Rplus_0_l. unfold inerr. rewrite Hin. reflexivity.
Qed.
