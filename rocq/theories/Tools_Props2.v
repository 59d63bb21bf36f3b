(** Property C87 (small tools): the adaptive resampler. *)
From Verif Require Import Base Tools_Model Tools_Spec Tools_Props.
From Coq Require Import Reals Lra.
Local Open Scope nat_scope.

Lemma setAt_length {A} (l : list A) i x : length (setAt l i x) = length l.
Proof. unfold setAt. destruct (Nat.ltb_spec i (length l)); [| auto]. rewrite !app_length, firstn_length, skipn_length. cbn. lia. Qed.
Lemma setAt_nth {A} (l : list A) i x j d : i < length l -> nth j (setAt l i x) d = if j =? i then x else nth j l d.
Proof.
  intros H. unfold setAt. destruct (Nat.ltb_spec i (length l)); [| lia]. assert (Lf : length (firstn i l) = i) by (rewrite firstn_length; lia). destruct (Nat.eqb_spec j i) as [-> | N].
  - rewrite app_nth2 by lia. rewrite Lf, Nat.sub_diag. reflexivity.
  - replace (nth j l d) with (nth j (firstn i l ++ skipn i l) d) by (now rewrite firstn_skipn). destruct (Nat.lt_ge_cases j i) as [K | K].
    + rewrite (app_nth1 (firstn i l) (skipn i l)), (app_nth1 (firstn i l) ([x] ++ skipn (S i) l)) by lia. reflexivity.
    + rewrite (app_nth2 (firstn i l) (skipn i l)), (app_nth2 (firstn i l) ([x] ++ skipn (S i) l)) by lia. rewrite Lf. destruct (skipn i l) as [| y r] eqn:E.
      * apply (f_equal (@length A)) in E. rewrite skipn_length in E. cbn in E. lia.
      * assert (Er : skipn (S i) l = r). { clear - E. revert l E. induction i as [| i IH]; intros [| z l] E; try discriminate; [now injection E as -> -> | cbn [skipn] in E |- *; now apply IH]. }
        rewrite Er. replace (j - i) with (S (j - S i)) by lia. reflexivity.
Qed.
Section Resampler.
  Context (batchsize : nat) (update_factor threshold : R) (max_resampling : option R).
  (** the values of the last calls are there *)
  Definition filled (s : resampler) : Prop := length (rs_recents s) = batchsize /\ forall i, i < batchsize -> i < rs_evals s -> nth i (rs_recents s) None <> None.
  (** between 1 and the maximum *)
  Definition limited (s : resampler) : Prop := (1 <= rs_over s)%R /\ forall m, max_resampling = Some m -> (rs_over s <= m)%R.
  Definition sane : Prop := (1 <= update_factor)%R /\ forall m, max_resampling = Some m -> (1 <= m)%R.
  Lemma rank_ok res alt l : Forall (fun x => x <> None) l -> exists n, rankChanges res alt l = Ok n /\ n <= length l.
  Proof.
    induction 1 as [| x l Nx _ (n & E & B)]; cbn [rankChanges length]; [exists 0; auto |]. destruct x as [x |]; [| congruence]. rewrite E. cbn [rbind]. destruct (Rlt_dec _ _); eexists; split; eauto; lia.
  Qed.
  Lemma adapt_ok s res alt : batchsize <> 0 -> filled s -> batchsize <= rs_evals s -> exists o, adaptResampling batchsize update_factor threshold max_resampling s res alt = Ok o /\ (sane -> limited s ->
    limited {| rs_recents := rs_recents s; rs_over := o; rs_evals := rs_evals s |}).
  Proof.
    intros Nb [L F] B. unfold adaptResampling. destruct (rank_ok res alt (tl (rs_recents s))) as (rc & E & _).
    { apply Forall_forall. intros x Hx. apply (In_nth _ _ None) in Hx. destruct Hx as (k & Hk & <-). destruct (rs_recents s) as [| y r] eqn:Er; [cbn in Hk; lia |]. cbn [tl length] in *.
      apply (F (S k)); lia. }
    rewrite E. cbn [rbind]. assert (Div : sane -> limited s -> (rs_over s / update_factor <= rs_over s)%R).
    { intros [S1 _] [L1 _]. apply (Rmult_le_reg_r update_factor); [lra |]. unfold Rdiv. rewrite Rmult_assoc, Rinv_l by lra. nra. }
    destruct (Rle_dec _ _).
    - destruct max_resampling as [m |] eqn:Em; eexists; (split; [reflexivity |]); intros [S1 S2] [L1 L2]; unfold limited; cbn [rs_over]; rewrite Em.
      + specialize (S2 m Em). specialize (L2 m Em). destruct (Rlt_dec _ _); (split; [nra | intros m' [= <-]; lra]).
      + split; [nra | discriminate].
    - destruct (rc =? 0); eexists; (split; [reflexivity |]); intros Hs Hl; [| exact Hl]. specialize (Div Hs Hl). destruct Hs as [S1 S2], Hl as [L1 L2]. split; cbn [rs_over]; [apply Rmax_r |].
      intros m Hm. specialize (S2 m Hm). specialize (L2 m Hm). apply Rmax_lub; lra.
  Qed.
  Lemma resample_ok s res alt : batchsize <> 0 -> filled s -> exists r s', resample batchsize update_factor threshold max_resampling s res alt = Ok (r, s') /\ filled s' /\ rs_evals s' = rs_evals s + 1 /\
    (sane -> limited s -> limited s') /\ (r = res \/ r = (res + alt) / 2)%R.
  Proof.
    intros Nb Hf. pose proof Hf as [L F]. unfold resample. assert (E0 : batchsize =? 0 = false) by (apply Nat.eqb_neq; exact Nb). rewrite E0. set (i := rs_evals s mod batchsize). assert (Hi : i < batchsize) by (now apply Nat.mod_upper_bound).
    assert (Fill : forall r o, filled {| rs_recents := setAt (rs_recents s) i (Some r); rs_over := o; rs_evals := rs_evals s + 1 |}).
    { intros r o. split; cbn [rs_recents rs_evals]; [now rewrite setAt_length |]. intros j Hj Hj2. rewrite setAt_nth by lia. destruct (Nat.eqb_spec j i) as [| N]; [discriminate |]. apply F; [auto |].
      destruct (Nat.lt_ge_cases (rs_evals s) batchsize) as [K | K]; [| lia]. assert (i = rs_evals s) by (unfold i; now apply Nat.mod_small). lia. }
    destruct ((i =? 0) && negb (rs_evals s =? 0)) eqn:C.
    - apply andb_true_iff in C. destruct C as [C1 C2]. apply Nat.eqb_eq in C1. apply negb_true_iff, Nat.eqb_neq in C2.
      assert (B : batchsize <= rs_evals s). { destruct (Nat.lt_ge_cases (rs_evals s) batchsize) as [K | K]; [| exact K]. exfalso. apply C2. rewrite <- (Nat.mod_small _ _ K). exact C1. }
      destruct (adapt_ok s res alt Nb Hf B) as (o & E & Lm). rewrite E. cbn [rbind]. eexists _, _. split; [reflexivity |]. split; [apply Fill |]. split; [reflexivity |].
      split; [intros Hs Hl; destruct (Lm Hs Hl) as [A1 A2]; split; [exact A1 | exact A2] | right; lra].
    - eexists _, _. split; [reflexivity |]. split; [apply Fill |]. split; [reflexivity |]. split; [intros _ [A1 A2]; split; [exact A1 | exact A2] | now left].
  Qed.
End Resampler.

(** whatever the noisy values are, the calls never fail, each gives the median or the mean of two medians, and at every time the
    number of samples is at least one and at most the maximum *)
Theorem C87_resampler batchsize update_factor threshold max_resampling l : batchsize <> 0 -> sane update_factor max_resampling ->
  exists rs s, resamples batchsize update_factor threshold max_resampling (newResampler batchsize) l = Ok (rs, s) /\ rs_evals s = length l /\
    (1 <= rs_over s)%R /\ (forall m, max_resampling = Some m -> (rs_over s <= m)%R) /\ Forall2 (fun v r => r = fst v \/ r = ((fst v + snd v) / 2)%R) l rs.
Proof.
  intros Nb Hs. assert (H : forall s, filled batchsize s -> limited max_resampling s -> exists rs s', resamples batchsize update_factor threshold max_resampling s l = Ok (rs, s') /\ rs_evals s' = rs_evals s + length l /\
    limited max_resampling s' /\ Forall2 (fun v r => r = fst v \/ r = ((fst v + snd v) / 2)%R) l rs).
  { induction l as [| [res alt] l IH]; intros s Hf Hl; cbn [resamples length]; [exists [], s; auto 6 |].
    destruct (resample_ok batchsize update_factor threshold max_resampling s res alt Nb Hf) as (r & s1 & E & F1 & N1 & L1 & R1). rewrite E. cbn [rbind fst snd].
    destruct (IH s1 F1 (L1 Hs Hl)) as (rs & s' & E2 & N2 & L2 & R2). rewrite E2. cbn [rbind fst snd]. exists (r :: rs), s'. split; [reflexivity |]. split; [lia |]. split; [exact L2 |]. constructor; auto. }
  destruct (H (newResampler batchsize)) as (rs & s & E & N & [L1 L2] & F2).
  - split; cbn [newResampler rs_recents rs_evals]; [apply repeat_length | intros; lia].
  - split; cbn [newResampler rs_over]; [lra |]. intros m Hm. destruct Hs as [_ Hs]. now apply Hs.
  - exists rs, s. cbn [newResampler rs_evals] in N. auto 6.
Qed.
(** the mean of the two medians is given, and the number of samples adapted, at the calls whose number is a positive multiple of the
    batch size and at no others; the value given is remembered in place of the one of a batch before *)
Theorem C87_resample batchsize u t mx s res alt r s' : filled batchsize s -> resample batchsize u t mx s res alt = Ok (r, s') ->
  (rs_evals s <> 0 /\ (exists k, rs_evals s = k * batchsize) -> r = ((res + alt) / 2)%R /\ adaptResampling batchsize u t mx s res alt = Ok (rs_over s')) /\
  (~ (rs_evals s <> 0 /\ exists k, rs_evals s = k * batchsize) -> r = res /\ rs_over s' = rs_over s) /\
  rs_evals s' = rs_evals s + 1 /\ nth_error (rs_recents s') (rs_evals s mod batchsize) = Some (Some r) /\
  forall j, j < batchsize -> j <> rs_evals s mod batchsize -> nth_error (rs_recents s') j = nth_error (rs_recents s) j.
Proof.
  intros [L _]. unfold resample. destruct (Nat.eqb_spec batchsize 0) as [| Nb]; [discriminate |]. set (i := rs_evals s mod batchsize). assert (Hi : i < batchsize) by (now apply Nat.mod_upper_bound).
  assert (Hm : (i = 0) <-> exists k, rs_evals s = k * batchsize). { unfold i. split; [intros H; apply Nat.mod_divides in H; [destruct H as [k ->]; exists k; lia | exact Nb] | intros [k ->]; now apply Nat.mod_mul]. }
  assert (Put : forall x : R, nth_error (setAt (rs_recents s) i (Some x)) i = Some (Some x) /\ forall j, j < batchsize -> j <> i -> nth_error (setAt (rs_recents s) i (Some x)) j = nth_error (rs_recents s) j).
  { intros x. assert (N : forall j, j < batchsize -> nth_error (setAt (rs_recents s) i (Some x)) j = Some (if j =? i then Some x else nth j (rs_recents s) None)).
    { intros j Hj. rewrite (nth_error_nth' _ None) by (rewrite setAt_length; lia). now rewrite setAt_nth by lia. }
    split; [rewrite N by exact Hi; now rewrite Nat.eqb_refl |]. intros j Hj Nj. rewrite N by exact Hj. apply Nat.eqb_neq in Nj. rewrite Nj. symmetry. apply nth_error_nth'. lia. }
  destruct ((i =? 0) && negb (rs_evals s =? 0)) eqn:C.
  - apply andb_true_iff in C. destruct C as [C1 C2]. apply Nat.eqb_eq in C1. apply negb_true_iff, Nat.eqb_neq in C2. destruct (adaptResampling _ _ _ _ _ _ _) as [o | e] eqn:Ea; cbn [rbind]; [| discriminate].
    intros [= <- <-]. cbn [rs_over rs_evals rs_recents]. split; [intros _; split; [lra | reflexivity] |]. split; [intros H; exfalso; apply H; split; [exact C2 | now apply Hm] |]. split; [reflexivity |]. apply Put.
  - intros [= <- <-]. cbn [rs_over rs_evals rs_recents]. split; [| split; [auto |]; split; [reflexivity |]; apply Put].
    intros [H1 H2]. exfalso. apply Hm in H2. rewrite H2, Nat.eqb_refl in C. apply Nat.eqb_neq in H1. now rewrite H1 in C.
Qed.
(** how it adapts: upwards when at least the given part of the others changes place, downwards when none does *)
Theorem C87_adapt batchsize u t mx s res alt rc : rankChanges res alt (tl (rs_recents s)) = Ok rc ->
  ((t * (INR batchsize - 1) <= INR rc)%R -> adaptResampling batchsize u t mx s res alt = Ok (match mx with Some m => Rmin m (rs_over s * u) | None => rs_over s * u end)%R) /\
  (rc = 0 -> (0 < t * (INR batchsize - 1))%R -> adaptResampling batchsize u t mx s res alt = Ok (Rmax (rs_over s / u) 1)) /\
  (rc <> 0 -> (INR rc < t * (INR batchsize - 1))%R -> adaptResampling batchsize u t mx s res alt = Ok (rs_over s)).
Proof.
  intros E. unfold adaptResampling. rewrite E. cbn [rbind]. split; [| split].
  - intros H. destruct (Rle_dec _ _); [| contradiction]. destruct mx as [m |]; [| reflexivity]. unfold Rmin. destruct (Rlt_dec _ _), (Rle_dec _ _); try reflexivity; try (f_equal; lra).
  - intros -> H. cbn [INR]. destruct (Rle_dec _ _); [lra | reflexivity].
  - intros N H. destruct (Rle_dec _ _); [lra |]. apply Nat.eqb_neq in N. now rewrite N.
Qed.
(** the changes of place counted are the recent values strictly between the two *)
Theorem C87_rank_changes res alt l : rankChanges res alt (map Some l) = Ok (length (filter (fun x => if Rlt_dec ((x - res) * (x - alt)) 0 then true else false) l)) /\
  forall x, ((x - res) * (x - alt) < 0)%R <-> (Rmin res alt < x < Rmax res alt)%R.
Proof.
  split.
  - induction l as [| x l IH]; [reflexivity |]. cbn [map rankChanges filter]. rewrite IH. cbn [rbind]. destruct (Rlt_dec _ _); cbn [length]; [f_equal; lia | reflexivity].
  - intros x. unfold Rmin, Rmax. destruct (Rle_dec res alt) as [K | K]; split.
    + intros H. split; destruct (Rlt_dec res x), (Rlt_dec x alt); try assumption; exfalso; nra.
    + intros [H1 H2]. nra.
    + intros H. split; destruct (Rlt_dec alt x), (Rlt_dec x res); try assumption; exfalso; nra.
    + intros [H1 H2]. nra.
Qed.
(** with batches of one there are no others, so that "none changes place" is taken for enough: the number of samples only grows *)
Theorem C87_batch_one_refuted u t l : exists rs s, resamples 1 u t None (newResampler 1) l = Ok (rs, s) /\ rs_over s = (u ^ (length l - 1))%R.
Proof.
  assert (H : forall l s, length (rs_recents s) = 1 -> rs_evals s <> 0 -> exists rs s', resamples 1 u t None s l = Ok (rs, s') /\ rs_over s' = (rs_over s * u ^ length l)%R).
  { induction l0 as [| [res alt] l0 IH]; intros s L N; cbn [resamples length pow]; [exists [], s; split; [reflexivity | ring] |].
    unfold resample. cbn [Nat.eqb]. rewrite Nat.mod_1_r. cbn [Nat.eqb andb]. apply Nat.eqb_neq in N. rewrite N. cbn [negb]. unfold adaptResampling.
    destruct (rs_recents s) as [| y [| z r]] eqn:Er; cbn in L; try lia. cbn [tl rankChanges rbind]. destruct (Rle_dec _ _) as [_ | K]; [| exfalso; apply K; cbn [INR]; lra]. cbn [rbind fst snd].
    match goal with |- context [resamples 1 u t None ?x l0] => destruct (IH x) as (rs & s' & E & O) end; [reflexivity | cbn [rs_evals]; lia |].
    rewrite E. cbn [rbind fst snd]. eexists _, _. split; [reflexivity |]. rewrite O. cbn [rs_over]. ring. }
  destruct l as [| [res alt] l]; cbn [resamples length]; [eexists _, _; split; [reflexivity |]; reflexivity |].
  unfold resample. cbn [Nat.eqb newResampler rs_evals rs_over rs_recents repeat]. rewrite Nat.mod_1_r. cbn [Nat.eqb andb negb rbind fst snd].
  match goal with |- context [resamples 1 u t None ?x l] => destruct (H l x) as (rs & s' & E & O) end; [reflexivity | cbn [rs_evals]; lia |].
  rewrite E. cbn [rbind fst snd]. eexists _, _. split; [reflexivity |]. rewrite O. cbn [rs_over]. replace (S (length l) - 1) with (length l) by lia. ring.
Qed.
Theorem C87_batch_none u t mx s res alt : resample 0 u t mx s res alt = Err ZeroDivisionError.
Proof. reflexivity. Qed.
Example C87_resampler_case : sane (3 / 2) (Some 10%R) /\ sane (3 / 2) None.
Proof. split; (split; [lra |]); intros m; [intros [= <-]; lra | discriminate]. Qed.

Print Assumptions C87_sparse.
Print Assumptions C87_sparse_length.
Print Assumptions C87_sparse_refuted.
Print Assumptions C87_load.
Print Assumptions C87_padded.
Print Assumptions C87_load_raises.
Print Assumptions C87_samples.
Print Assumptions C87_samples_refuted.
Print Assumptions C87_histogram.
Print Assumptions C87_histogram_first.
Print Assumptions C87_histogram_refuted.
Print Assumptions C87_raw.
Print Assumptions C87_raw_refuted.
Print Assumptions C87_files.
Print Assumptions C87_files_refuted.
Print Assumptions C87_select.
Print Assumptions C87_select_any.
Print Assumptions C87_kwargs_add.
Print Assumptions C87_kwargs.
Print Assumptions C87_resampler.
Print Assumptions C87_resample.
Print Assumptions C87_adapt.
Print Assumptions C87_rank_changes.
Print Assumptions C87_batch_one_refuted.
Print Assumptions C87_batch_none.
