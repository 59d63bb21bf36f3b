(** The forgetful mode: constant memory, same outputs. *)
From Coq Require Import Ring.
From Verif Require Import Base RingOps Net_Model Net_Spec Propagate Net_Events Net_Forward.

Section Forget.
Context {K : Type} {Ops : RingOps K} {Lw : RingLaws K}.
Add Ring Kring5 : (@rlaws K Ops Lw).
Notation vec := (@vec K).
Notation net := (@net K).
Notation bufs := (@bufs K).
Notation rstate := (@rstate K).

(** the recurrence started from the outputs [prev] instead of zero *)
Definition recurrence_from (prev : nat -> vec) (N : net) (P : nat -> vec) (xs : list vec) (I O : nat -> nat -> vec) : Prop :=
  forall t x m, nth_error xs t = Some x -> In m (n_sorted N) ->
    (forall i, I m t i = radd (radd (external (n_layer N) (n_inmods N) 0 x m i)
                   (suml (filter (fun c => c_out c =? m) (all_conns N)) (fun c => delivers P c (O (c_in c) t) i)))
                   (suml (filter (fun c => c_out c =? m) (n_rec N))
                         (fun c => delivers P c (match t with 0 => prev (c_in c) | S t' => O (c_in c) t' end) i))) /\
    O m t = l_fwd (n_layer N m) (I m t) zvec.

Lemma delivers_zero P c i : delivers P c zvec i = r0.
Proof.
  unfold delivers. destruct (_ && _); auto. unfold op_fwd, zvec. destruct (c_kind c); auto; try ring.
  - apply sumn_zero'. intros. ring.
  - apply sumn_zero'. intros. ring.
Qed.
Lemma recurrence_from_zero N P xs I O : recurrence_from (fun _ => zvec) N P xs I O -> recurrence N P xs I O.
Proof.
  intros R t x m Hx Hm. destruct (R t x m Hx Hm) as [A B]. split.
  - intros i _. rewrite A. f_equal. destruct t; auto.
    rewrite (suml_ext _ _ (fun _ => r0)) by (intros; apply delivers_zero). apply suml_zero. auto.
  - intros i _. rewrite B. auto.
Qed.

(** one step of the loop at offset 1, on top of row 0 *)
Lemma step1 N P x (b : bufs) : wf_net N -> (forall m, b m 1 = zbuf) -> forall m, In m (n_sorted N) ->
  let b' := step_bufs N P 1 x b in
  (forall i, b_in (b' m 1) i = radd (radd (external (n_layer N) (n_inmods N) 0 x m i)
                   (suml (filter (fun c => c_out c =? m) (all_conns N)) (fun c => delivers P c (b_out (b' (c_in c) 1)) i)))
                   (suml (filter (fun c => c_out c =? m) (n_rec N)) (fun c => delivers P c (b_out (b (c_in c) 0)) i))) /\
  b_out (b' m 1) = l_fwd (n_layer N m) (b_in (b' m 1)) zvec.
Proof.
  intros W Hz m Hm b'. destruct (step_bufs_ev N P 1 x b) as [Hb _]. fold b' in Hb.
  assert (Ee : tev N P 1 x = evs N P 1 [x]) by (cbn [evs]; rewrite app_nil_r; auto). rewrite Ee in Hb.
  assert (Hs : gsched (evs N P 1 [x])) by (apply (evs_sched N P [x] W 1 []); constructor).
  destruct (gexec_equations (ff_f (n_layer N)) (pf b) (evs N P 1 [x]) Hs (NB m 1)) as [E1 E2].
  assert (Ev : forall m o, snd (gexec (ff_f (n_layer N)) (pf b) (evs N P 1 [x]) (NB m o)) = b_out (b' m o)).
  { intros m' o. rewrite <- Hb. reflexivity. }
  assert (E0 : forall m, b_out (b' m 0) = b_out (b m 0)).
  { intro m'. unfold b'. rewrite step_bufs_row; auto. }
  split.
  - intro i. specialize (E1 i). rewrite <- Hb in E1. cbn [fst pf] in E1. rewrite E1, Hz. cbn [b_in zbuf].
    rewrite (gload_evs N P [x] m 1 x (proj1 (wf_in _ W)) 1 (Nat.le_refl _) eq_refl).
    rewrite suml_evs. cbn [Nat.leb Nat.ltb andb Nat.add length].
    rewrite (suml_ext _ _ (fun c => delivers P c (b_out (b' (c_in c) 1)) i)) by (intros; rewrite Ev; auto).
    rewrite (suml_ext (filter _ (n_rec N)) _ (fun c => delivers P c (b_out (b (c_in c) 0)) i)) by (intros; rewrite Ev, E0; auto).
    ring.
  - rewrite hasN_evs in E2 by (cbn; auto). rewrite <- Hb in E2. cbn [snd pf fst ff_f] in E2. rewrite Hz in E2. exact E2.
Qed.

Record finv (s : rstate) : Prop := {
  fi_off : r_offset s = 0;
  fi_len : 0 < r_len s;
  fi_zero : forall m o, 1 <= o -> r_b s m o = zbuf }.

Lemma rec_forget_step N P s x : wf_net N -> finv s ->
  exists s', rec_activate_forget N P s x = (s', outputs N 0 (r_b s')) /\ finv s' /\ r_d s' = r_d s /\
    r_len s' = Nat.max 2 (r_len s) /\
    forall m, In m (n_sorted N) ->
      (forall i, b_in (r_b s' m 0) i = radd (radd (external (n_layer N) (n_inmods N) 0 x m i)
                   (suml (filter (fun c => c_out c =? m) (all_conns N)) (fun c => delivers P c (b_out (r_b s' (c_in c) 0)) i)))
                   (suml (filter (fun c => c_out c =? m) (n_rec N)) (fun c => delivers P c (b_out (r_b s (c_in c) 0)) i))) /\
      b_out (r_b s' m 0) = l_fwd (n_layer N m) (b_in (r_b s' m 0)) zvec.
Proof.
  intros W [H1 H2 H3]. unfold rec_activate_forget. rewrite H1.
  set (p := if 0 + 1 <? r_len s then (r_b s, r_len s) else (grow (r_len s) (r_b s), 2 * r_len s)).
  assert (Hp : snd p = Nat.max 2 (r_len s) /\ forall m o, fst p m o = r_b s m o).
  { unfold p. destruct (Nat.ltb_spec (0 + 1) (r_len s)); cbn [fst snd]; split; auto; try lia.
    intros m o. unfold grow. destruct (Nat.ltb_spec o (r_len s)); auto. symmetry. apply H3. lia. }
  destruct p as [b0 len]. cbn [fst snd] in Hp. destruct Hp as [Hl Hb0].
  exists (mkr (shift1 len (step_bufs N P 1 x b0)) (r_d s) 0 (Nat.max 0 (r_maxoffset s)) len).
  split; [reflexivity|]. cbn [r_b r_d r_offset r_len].
  assert (Hr : forall m, shift1 len (step_bufs N P 1 x b0) m 0 = step_bufs N P 1 x b0 m 1).
  { intro m. unfold shift1. destruct (Nat.ltb_spec (0 + 1) len); auto. lia. }
  split; [|split; [auto|split; [auto|]]].
  - split; cbn [r_b r_offset r_len]; auto; [lia|]. intros m o Ho. unfold shift1.
    destruct (Nat.ltb_spec (o + 1) len).
    + rewrite step_bufs_row by lia. rewrite Hb0. apply H3. lia.
    + destruct (Nat.ltb_spec o len); auto. rewrite step_bufs_row by lia. rewrite Hb0. apply H3. lia.
  - intros m Hm. rewrite Hr.
    destruct (step1 N P x b0 W) with (m := m) as [A B]; auto.
    { intro m'. rewrite Hb0. apply H3. auto. }
    split; auto. intro i. rewrite A. f_equal; [f_equal|].
    + apply suml_ext. intros c _. rewrite Hr. auto.
    + apply suml_ext. intros c _. rewrite Hb0. auto.
Qed.

Lemma run_forget N P xs : wf_net N -> forall s, finv s ->
  exists s' ys, run_acts (rec_activate_forget N P) s xs = (s', ys) /\ finv s' /\ r_len s' <= Nat.max 2 (r_len s) /\ length ys = length xs /\
    exists I O, recurrence_from (fun m => b_out (r_b s m 0)) N P xs I O /\
      forall t y, nth_error ys t = Some y -> y = net_output N O t.
Proof.
  intro W. induction xs as [|x xs IH]; intros s Hs; cbn [run_acts].
  - exists s, []. split; [auto|]. split; [auto|]. split; [lia|]. split; [auto|].
    exists (fun _ _ => zvec), (fun _ _ => zvec). split; [intros [|]; discriminate|intros [|]; discriminate].
  - destruct (rec_forget_step N P s x W Hs) as (s1 & -> & Hs1 & _ & Hl1 & He1).
    destruct (IH s1 Hs1) as (s2 & ys & -> & Hs2 & Hl2 & Hly & I & O & R & Hy).
    eexists _, _. split; [reflexivity|]. split; [auto|]. split; [lia|]. split; [cbn; auto|].
    exists (fun m t => match t with 0 => b_in (r_b s1 m 0) | S t' => I m t' end),
           (fun m t => match t with 0 => b_out (r_b s1 m 0) | S t' => O m t' end). split.
    + intros [|t] y m Hx Hm; cbn in Hx.
      * injection Hx as <-. apply He1. auto.
      * exact (R t y m Hx Hm).
    + intros [|t] y Hty; cbn in Hty.
      * injection Hty as <-. reflexivity.
      * rewrite (Hy t y Hty). reflexivity.
Qed.

Lemma fresh_finv d mo len : 0 < len -> finv (fresh d mo len).
Proof. split; cbn; auto. Qed.

Theorem forget_solution N P d mo len xs : wf_net N -> 0 < len ->
  exists s' ys, run_acts (rec_activate_forget N P) (fresh d mo len) xs = (s', ys) /\ length ys = length xs /\
    r_len s' <= Nat.max 2 len /\
    exists I O, recurrence N P xs I O /\ forall t y, nth_error ys t = Some y -> forall i, y i = net_output N O t i.
Proof.
  intros W Hl. destruct (run_forget N P xs W (fresh d mo len) (fresh_finv d mo len Hl)) as (s' & ys & E & _ & Hl' & Hly & I & O & R & Hy).
  exists s', ys. split; [auto|]. split; [auto|]. split; [exact Hl'|]. exists I, O. split.
  - apply recurrence_from_zero. exact R.
  - intros t y Hty i. rewrite (Hy t y Hty). auto.
Qed.

(** C22 *)
Theorem forget_same_outputs N P d d' mo mo' len len' xs : wf_net N -> (forall m, In m (n_sorted N) -> layer_local (n_layer N m)) ->
  0 < len -> 0 < len' ->
  forall t y y',
    nth_error (snd (run_acts (rec_activate_forget N P) (fresh d mo len) xs)) t = Some y ->
    nth_error (snd (run_acts (rec_activate N P) (fresh d' mo' len') xs)) t = Some y' ->
    forall i, y i = y' i.
Proof.
  intros W HL Hl Hl' t y y' Hy Hy' i. destruct (forget_solution N P d mo len xs W Hl) as (s' & ys & E & Hly & _ & I & O & R & Ho).
  rewrite E in Hy. cbn in Hy. rewrite (Ho t y Hy). symmetry. eapply rec_outputs; eauto.
Qed.
End Forget.
