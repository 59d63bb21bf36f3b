(** Proofs for C74: copies that share structure. *)
From Verif Require Import Base Masked_Model Copies_Model Copies_Spec.
From Coq Require Import QArith Lia.
Import ListNotations.
Local Open Scope nat_scope.

Lemma nth_error_upd {A} (l : list A) : forall i j x, nth_error (upd i x l) j = if j =? i then (if i <? length l then Some x else None) else nth_error l j.
Proof.
  induction l as [|y l IH]; intros [|i] [|j] x; cbn [upd nth_error length]; auto.
  - cbn. destruct (j =? i); reflexivity.
  - rewrite IH. change (S j =? S i) with (j =? i). destruct (j =? i); [|reflexivity]. change (S i <? S (length l)) with (i <? length l). reflexivity.
Qed.
Lemma nth_upd_d {A} (l : list A) i j x d : i < length l -> nth j (upd i x l) d = if j =? i then x else nth j l d.
Proof.
  intro H. assert (E := nth_error_upd l i j x). destruct (Nat.ltb_spec i (length l)); [|lia]. destruct (j =? i) eqn:EJ.
  - apply nth_error_nth with (d := d) in E. exact E.
  - destruct (nth_error l j) eqn:EN; [apply nth_error_nth with (d := d) in E; apply nth_error_nth with (d := d) in EN; congruence|].
    apply nth_error_None in E. apply nth_error_None in EN. rewrite !nth_overflow; auto.
Qed.
Lemma nth_both {A C} (l : list A) (l' : list C) i : length l = length l' -> (exists a m, nth_error l i = Some a /\ nth_error l' i = Some m) \/ nth_error l i = None /\ nth_error l' i = None.
Proof.
  intro H. destruct (nth_error l i) as [a|] eqn:E.
  - left. assert (Hi : i < length l) by (apply nth_error_Some; congruence). destruct (nth_error l' i) as [m|] eqn:E'; [eauto|]. apply nth_error_None in E'. lia.
  - right. split; auto. apply nth_error_None in E. apply nth_error_None. lia.
Qed.
Lemma nodup_addr (l : list nat) i j a : NoDup l -> nth_error l i = Some a -> nth_error l j = Some a -> i = j.
Proof. intros H Hi Hj. apply (proj1 (NoDup_nth_error l) H); [apply nth_error_Some; congruence|congruence]. Qed.
Lemma nodup_upd (l : list nat) i a : NoDup l -> ~ In a l -> NoDup (upd i a l).
Proof.
  intros H Ha. apply NoDup_nth_error. intros j k Hj E. rewrite upd_length in Hj. rewrite !nth_error_upd in E.
  destruct (Nat.eqb_spec j i) as [->|Nj]; destruct (Nat.eqb_spec k i) as [->|Nk]; auto.
  - destruct (Nat.ltb_spec i (length l)); [|lia]. exfalso. apply Ha. eapply nth_error_In. symmetry. exact E.
  - destruct (i <? length l); [exfalso; apply Ha; eapply nth_error_In; exact E|]. apply nth_error_None in E. lia.
  - apply (proj1 (NoDup_nth_error l) H); auto.
Qed.
Lemma plus_length x d : length d = length x -> length (plus x d) = length x.
Proof. intro H. unfold plus. rewrite map_length, combine_length. lia. Qed.

(** The state of the shared world for the given independent ones. *)
Record sim {B : Type} (n : nat) (memory derivs : option nat) (w : world B) (v : list (own B)) : Prop := {
  sim_len : length (cops w) = length v;
  sim_n : length (s_params w) = n;
  sim_dn : length (s_derivs w) = n;
  sim_addr : forall i a, nth_error (cops w) i = Some a -> a < length (arrays w);
  sim_own : NoDup (cops w);
  sim_params : forall i a m, nth_error (cops w) i = Some a -> nth_error v i = Some m -> arr w a = o_params m;
  sim_mem : forall i, memory = Some i -> i < length v;
  sim_drv : forall i, derivs = Some i -> i < length v;
  sim_buf : forall i m, memory = Some i -> nth_error v i = Some m -> s_buf w = o_buf m;
  sim_der : forall i m, derivs = Some i -> nth_error v i = Some m -> s_derivs w = o_derivs m }.

Section Sim.
  Context {B : Type} (M : module B) (n : nat).

  Lemma sim_stored memory derivs (w : world B) v p : sim n memory derivs w v -> length p = n -> sim n memory derivs (with_stored w p) v.
  Proof using. intros [] H. split; auto. Qed.
  Lemma sim_with_buf memory derivs (w : world B) v i m b : sim n memory derivs w v -> nth_error v i = Some m ->
    sim n (Some i) derivs (with_buf w b) (upd i {| o_params := o_params m; o_buf := b; o_derivs := o_derivs m |} v).
  Proof using.
    intros [A1 A2 A3 A4 A5 A6 A7 A8 A9 A10] H. assert (Hi : i < length v) by (apply nth_error_Some; congruence).
    split; cbn [with_buf s_params s_buf s_derivs arrays cops]; rewrite ?upd_length; auto.
    - intros j a m' Hj Hv. change (arr (with_buf w b) a) with (arr w a). rewrite nth_error_upd in Hv. destruct (Nat.eqb_spec j i) as [->|N]; [|apply (A6 j); auto].
      destruct (Nat.ltb_spec i (length v)); [|lia]. injection Hv as <-. exact (A6 i a m Hj H).
    - intros j E. injection E as <-. exact Hi.
    - intros j m' E Hv. injection E as <-. rewrite nth_error_upd, Nat.eqb_refl in Hv. destruct (Nat.ltb_spec i (length v)); [|lia]. injection Hv as <-. reflexivity.
    - intros j m' E Hv. rewrite nth_error_upd in Hv. destruct (Nat.eqb_spec j i) as [->|N]; [|apply (A10 j); auto].
      destruct (Nat.ltb_spec i (length v)); [|lia]. injection Hv as <-. exact (A10 i m E H).
  Qed.
  Lemma sim_with_derivs memory derivs (w : world B) v i m d : sim n memory derivs w v -> nth_error v i = Some m -> length d = n ->
    sim n memory (Some i) (with_derivs w d) (upd i {| o_params := o_params m; o_buf := o_buf m; o_derivs := d |} v).
  Proof using.
    intros [A1 A2 A3 A4 A5 A6 A7 A8 A9 A10] H Hd. assert (Hi : i < length v) by (apply nth_error_Some; congruence).
    split; cbn [with_derivs s_params s_buf s_derivs arrays cops]; rewrite ?upd_length; auto.
    - intros j a m' Hj Hv. change (arr (with_derivs w d) a) with (arr w a). rewrite nth_error_upd in Hv. destruct (Nat.eqb_spec j i) as [->|N]; [|apply (A6 j); auto].
      destruct (Nat.ltb_spec i (length v)); [|lia]. injection Hv as <-. exact (A6 i a m Hj H).
    - intros j E. injection E as <-. exact Hi.
    - intros j m' E Hv. rewrite nth_error_upd in Hv. destruct (Nat.eqb_spec j i) as [->|N]; [|apply (A9 j); auto].
      destruct (Nat.ltb_spec i (length v)); [|lia]. injection Hv as <-. exact (A9 i m E H).
    - intros j m' E Hv. injection E as <-. rewrite nth_error_upd, Nat.eqb_refl in Hv. destruct (Nat.ltb_spec i (length v)); [|lia]. injection Hv as <-. reflexivity.
  Qed.
  Lemma sim_with_array memory derivs (w : world B) v i a m u : sim n memory derivs w v -> nth_error (cops w) i = Some a -> nth_error v i = Some m ->
    sim n memory derivs (with_array w a u) (upd i {| o_params := u; o_buf := o_buf m; o_derivs := o_derivs m |} v).
  Proof using.
    intros [A1 A2 A3 A4 A5 A6 A7 A8 A9 A10] Ha H. assert (Hi : i < length v) by (apply nth_error_Some; congruence). assert (Hr := A4 i a Ha).
    split; cbn [with_array s_params s_buf s_derivs arrays cops]; rewrite ?upd_length; auto.
    - intros j b m' Hj Hv. unfold arr. cbn [with_array arrays]. rewrite nth_upd_d by exact Hr. rewrite nth_error_upd in Hv. destruct (Nat.eqb_spec j i) as [->|N].
      + rewrite Ha in Hj. injection Hj as <-. rewrite Nat.eqb_refl. destruct (Nat.ltb_spec i (length v)); [|lia]. injection Hv as <-. reflexivity.
      + destruct (Nat.eqb_spec b a) as [->|N']; [exfalso; apply N; apply (nodup_addr (cops w) j i a); auto|]. apply (A6 j); auto.
    - intros j m' E Hv. rewrite nth_error_upd in Hv. destruct (Nat.eqb_spec j i) as [->|N]; [|apply (A9 j); auto].
      destruct (Nat.ltb_spec i (length v)); [|lia]. injection Hv as <-. exact (A9 i m E H).
    - intros j m' E Hv. rewrite nth_error_upd in Hv. destruct (Nat.eqb_spec j i) as [->|N]; [|apply (A10 j); auto].
      destruct (Nat.ltb_spec i (length v)); [|lia]. injection Hv as <-. exact (A10 i m E H).
  Qed.
  Lemma fresh_addr memory derivs (w : world B) v : sim n memory derivs w v -> ~ In (length (arrays w)) (cops w).
  Proof using. intros S Hin. apply In_nth_error in Hin as (k & Hk). assert (H := sim_addr _ _ _ _ _ S k _ Hk). lia. Qed.
  Lemma sim_list memory derivs (w : world B) v i m u : sim n memory derivs w v -> nth_error v i = Some m ->
    sim n memory derivs (with_cop (new_array w u) i (length (arrays w))) (upd i {| o_params := u; o_buf := o_buf m; o_derivs := o_derivs m |} v).
  Proof using.
    intros S H. assert (HF := fresh_addr _ _ _ _ S). destruct S as [A1 A2 A3 A4 A5 A6 A7 A8 A9 A10]. assert (Hi : i < length v) by (apply nth_error_Some; congruence).
    split; cbn [with_cop new_array s_params s_buf s_derivs arrays cops]; rewrite ?upd_length; auto.
    - intros j b Hj. rewrite nth_error_upd in Hj. rewrite app_length. cbn [length]. destruct (Nat.eqb_spec j i) as [->|N]; [|specialize (A4 j b Hj); lia].
      destruct (Nat.ltb_spec i (length (cops w))); [|lia]. injection Hj as <-. lia.
    - apply nodup_upd; auto.
    - intros j b m' Hj Hv. unfold arr. cbn [with_cop new_array arrays]. rewrite nth_error_upd in Hj. rewrite nth_error_upd in Hv. destruct (Nat.eqb_spec j i) as [->|N].
      + destruct (Nat.ltb_spec i (length (cops w))); [|lia]. injection Hj as <-. destruct (Nat.ltb_spec i (length v)); [|lia]. injection Hv as <-. rewrite app_nth2, Nat.sub_diag by lia. reflexivity.
      + rewrite app_nth1 by (apply (A4 j); auto). apply (A6 j); auto.
    - intros j m' E Hv. rewrite nth_error_upd in Hv. destruct (Nat.eqb_spec j i) as [->|N]; [|apply (A9 j); auto].
      destruct (Nat.ltb_spec i (length v)); [|lia]. injection Hv as <-. exact (A9 i m E H).
    - intros j m' E Hv. rewrite nth_error_upd in Hv. destruct (Nat.eqb_spec j i) as [->|N]; [|apply (A10 j); auto].
      destruct (Nat.ltb_spec i (length v)); [|lia]. injection Hv as <-. exact (A10 i m E H).
  Qed.
  Lemma sim_copy memory derivs (w : world B) v p b d : sim n memory derivs w v -> 
    sim n memory derivs (new_cop (new_array w p) (length (arrays w))) (v ++ [{| o_params := p; o_buf := b; o_derivs := d |}]).
  Proof using.
    intro S. assert (HF := fresh_addr _ _ _ _ S). destruct S as [A1 A2 A3 A4 A5 A6 A7 A8 A9 A10]. split; cbn [new_cop new_array s_params s_buf s_derivs arrays cops]; auto.
    - rewrite !app_length. cbn. lia.
    - intros k c Hk. rewrite app_length. cbn. destruct (Nat.lt_ge_cases k (length (cops w))) as [Hl|Hl].
      + rewrite nth_error_app1 in Hk by exact Hl. specialize (A4 k c Hk). lia.
      + rewrite nth_error_app2 in Hk by exact Hl. destruct (k - length (cops w)) as [|[|?]]; cbn in Hk; try discriminate. injection Hk as <-. lia.
    - apply (NoDup_Add (a := length (arrays w)) (l := cops w)); [|split; [exact A5|exact HF]].
      assert (G := Add_app (length (arrays w)) (cops w) []). rewrite app_nil_r in G. exact G.
    - intros k c m' Hk Hv. unfold arr. cbn [new_cop new_array arrays]. destruct (Nat.lt_ge_cases k (length (cops w))) as [Hl|Hl].
      + rewrite nth_error_app1 in Hk by exact Hl. rewrite nth_error_app1 in Hv by lia. rewrite app_nth1 by (apply (A4 k); auto). apply (A6 k c m' Hk Hv).
      + rewrite nth_error_app2 in Hk by exact Hl. rewrite nth_error_app2 in Hv by lia. rewrite <- A1 in Hv.
        destruct (k - length (cops w)) as [|[|?]]; cbn in Hk, Hv; try discriminate. injection Hk as <-. injection Hv as <-. cbn [o_params]. rewrite app_nth2, Nat.sub_diag by lia. reflexivity.
    - intros k E. rewrite app_length. specialize (A7 k E). lia.
    - intros k E. rewrite app_length. specialize (A8 k E). lia.
    - intros k m' E Hv. rewrite nth_error_app1 in Hv by auto. apply (A9 k); auto.
    - intros k m' E Hv. rewrite nth_error_app1 in Hv by auto. apply (A10 k); auto.
  Qed.

  Lemma install_ok memory derivs (w : world B) v i a m : sim n memory derivs w v -> nth_error (cops w) i = Some a -> nth_error v i = Some m ->
    install w a = if length (o_params m) =? n then Ok (with_stored w (o_params m)) else Err ValueError.
  Proof using. intros S E1 E2. unfold install. rewrite (sim_params _ _ _ _ _ S i a m E1 E2), (sim_n _ _ _ _ _ S). reflexivity. Qed.

  Lemma step_sim o memory derivs w v : (forall p b d e, length (fst (back M p b d e)) = length d) ->
    sim n memory derivs w v -> no_sharing o -> allowed memory (uses_memory o) -> allowed derivs (uses_derivs o) -> snd (ideal M n v o) <> Err IndexError ->
    snd (perform M w o) = snd (ideal M n v o) /\
    sim n (passes memory (resets_memory o)) (passes derivs (resets_derivs o)) (fst (perform M w o)) (fst (ideal M n v o)).
  Proof using.
    intros HB S HS HM HD HE.
    assert (NB := fun i => nth_both (cops w) v i (sim_len _ _ _ _ _ S)).
    destruct o as [i|i x|i e|i|i|i|i|i d|i u|i u|i j]; cbn [perform ideal uses_memory uses_derivs resets_memory resets_derivs allowed passes no_sharing] in *; try contradiction;
      destruct (NB i) as [(a & m & E1 & E2)|(E1 & E2)]; rewrite E2 in HE |- *; rewrite ?E1; try (exfalso; apply HE; reflexivity); clear HE.
    - rewrite (install_ok _ _ _ _ i a m S E1 E2). destruct (Nat.eqb_spec (length (o_params m)) n) as [EN|EN]; [|split; [reflexivity|exact S]]. cbn [fst snd]. split; [reflexivity|].
      apply sim_copy. apply sim_stored; auto.
    - rewrite (install_ok _ _ _ _ i a m S E1 E2). destruct (Nat.eqb_spec (length (o_params m)) n) as [EN|EN]; [|split; [reflexivity|exact S]]. cbn [fst snd].
      change (s_buf (with_stored w (o_params m))) with (s_buf w). change (s_params (with_stored w (o_params m))) with (o_params m).
      rewrite (sim_buf _ _ _ _ _ S i m HM E2). split; [reflexivity|]. rewrite HM. apply (sim_with_buf memory); auto. apply sim_stored; auto.
    - rewrite (install_ok _ _ _ _ i a m S E1 E2). destruct (Nat.eqb_spec (length (o_params m)) n) as [EN|EN]; [|split; [reflexivity|exact S]]. cbn [fst snd].
      change (s_buf (with_stored w (o_params m))) with (s_buf w). change (s_params (with_stored w (o_params m))) with (o_params m). change (s_derivs (with_stored w (o_params m))) with (s_derivs w).
      rewrite (sim_buf _ _ _ _ _ S i m HM E2), (sim_der _ _ _ _ _ S i m HD E2). split; [reflexivity|]. rewrite HD. apply (sim_with_derivs memory derivs); auto; [apply sim_stored; auto|].
      rewrite HB, <- (sim_der _ _ _ _ _ S i m HD E2). apply (sim_dn _ _ _ _ _ S).
    - cbn [fst snd]. split; [reflexivity|]. apply (sim_with_buf memory); auto.
    - cbn [fst snd]. split; [reflexivity|]. replace (map (fun _ => 0%Q) (s_derivs w)) with (repeat 0%Q n).
      + apply (sim_with_derivs memory derivs); auto. apply repeat_length.
      + rewrite <- (sim_dn _ _ _ _ _ S). clear. induction (s_derivs w); cbn; congruence.
    - cbn [fst snd]. split; [|exact S]. rewrite (sim_der _ _ _ _ _ S i m HD E2). reflexivity.
    - cbn [fst snd]. split; [|exact S]. rewrite (sim_params _ _ _ _ _ S i a m E1 E2). reflexivity.
    - rewrite (sim_params _ _ _ _ _ S i a m E1 E2). destruct (Nat.eqb_spec (length d) (length (o_params m))) as [ED|ED]; [|split; [reflexivity|exact S]].
      assert (S1 := sim_with_array memory derivs w v i a m (plus (o_params m) d) S E1 E2). 
      assert (E3 : nth_error (upd i {| o_params := plus (o_params m) d; o_buf := o_buf m; o_derivs := o_derivs m |} v) i = Some {| o_params := plus (o_params m) d; o_buf := o_buf m; o_derivs := o_derivs m |}).
      { rewrite nth_error_upd, Nat.eqb_refl. assert (Hi : i < length v) by (apply nth_error_Some; congruence). destruct (Nat.ltb_spec i (length v)); [reflexivity|lia]. }
      rewrite (install_ok _ _ _ _ i a _ S1 E1 E3). cbn [o_params]. rewrite plus_length by exact ED. destruct (Nat.eqb_spec (length (o_params m)) n) as [EN|EN]; cbn [fst snd]; split; auto.
      apply sim_stored; auto. rewrite plus_length; auto.
    - rewrite (sim_params _ _ _ _ _ S i a m E1 E2). destruct (Nat.eqb_spec (length u) (length (o_params m))) as [ED|ED]; [|split; [reflexivity|exact S]].
      assert (S1 := sim_with_array memory derivs w v i a m u S E1 E2). 
      assert (E3 : nth_error (upd i {| o_params := u; o_buf := o_buf m; o_derivs := o_derivs m |} v) i = Some {| o_params := u; o_buf := o_buf m; o_derivs := o_derivs m |}).
      { rewrite nth_error_upd, Nat.eqb_refl. assert (Hi : i < length v) by (apply nth_error_Some; congruence). destruct (Nat.ltb_spec i (length v)); [reflexivity|lia]. }
      rewrite (install_ok _ _ _ _ i a _ S1 E1 E3). cbn [o_params]. rewrite ED. destruct (Nat.eqb_spec (length (o_params m)) n) as [EN|EN]; cbn [fst snd]; split; auto.
      apply sim_stored; auto. lia.
    - cbn [fst snd]. split; [reflexivity|]. apply sim_list; auto.
  Qed.

  Lemma run_sim : (forall p b d e, length (fst (back M p b d e)) = length d) -> forall os memory derivs w v,
    sim n memory derivs w v -> Forall no_sharing os -> in_turn memory derivs os -> ~ In (Err IndexError) (snd (ideal_all M n v os)) ->
    snd (perform_all M w os) = snd (ideal_all M n v os).
  Proof using.
    intro HB. induction os as [|o os IH]; intros memory derivs w v S HS HT HE; [reflexivity|]. apply Forall_cons_iff in HS as (HS1 & HS2). destruct HT as (T1 & T2 & T3).
    cbn [perform_all ideal_all] in *. destruct (ideal M n v o) as [v1 r] eqn:EI. destruct (ideal_all M n v1 os) as [v2 rs] eqn:EIA. cbn [snd] in HE.
    assert (ST := step_sim o memory derivs w v HB S HS1 T1 T2). rewrite EI in ST. cbn [fst snd] in ST. destruct ST as (A & A'); [intro HR; apply HE; left; exact HR|].
    destruct (perform M w o) as [w1 r1]. cbn [fst snd] in A, A'. assert (HI := IH _ _ w1 v1 A' HS2 T3). rewrite EIA in HI. cbn [snd] in HI.
    destruct (perform_all M w1 os) as [w2 rs1]. cbn [snd] in *. rewrite A, HI; [reflexivity|]. intro HR. apply HE. right. exact HR.
  Qed.

  (** A module without memory: no turns are needed, as long as nobody asks for derivatives. *)
  Definition no_derivs (o : op) : Prop := match o with BackActivate _ _ | Derivs _ => False | _ => True end.
  Lemma step_stateless o w v : (forall p b b' x, snd (act M p b x) = snd (act M p b' x)) ->
    sim n None None w v -> no_sharing o -> no_derivs o ->
    snd (perform M w o) = snd (ideal M n v o) /\ sim n None None (fst (perform M w o)) (fst (ideal M n v o)).
  Proof using.
    intros HA S HS HD.
    assert (NB := fun i => nth_both (cops w) v i (sim_len _ _ _ _ _ S)).
    assert (CL : forall a b (w : world B) v, sim n a b w v -> sim n None None w v) by (intros ? ? ? ? []; split; auto; discriminate).
    destruct o as [i|i x|i e|i|i|i|i|i d|i u|i u|i j]; cbn [no_sharing no_derivs] in *; try contradiction.
    3: { cbn [perform ideal]. destruct (NB i) as [(a & m & E1 & E2)|(E1 & E2)]; rewrite E1, E2; [|split; [reflexivity|exact S]]. cbn [fst snd]. split; [reflexivity|]. apply (CL (Some i) None). apply (sim_with_buf None); auto. }
    2: { cbn [perform ideal]. destruct (NB i) as [(a & m & E1 & E2)|(E1 & E2)]; rewrite E1, E2; [|split; [reflexivity|exact S]].
      rewrite (install_ok _ _ _ _ i a m S E1 E2). destruct (Nat.eqb_spec (length (o_params m)) n) as [EN|EN]; [|split; [reflexivity|exact S]]. cbn [fst snd].
      change (s_params (with_stored w (o_params m))) with (o_params m). split; [f_equal; apply HA|].
      assert (S2 := sim_with_buf None None _ v i m (fst (act M (o_params m) (s_buf (with_stored w (o_params m))) x)) (sim_stored _ _ _ _ _ S EN) E2).
      apply CL in S2. destruct S2 as [A1 A2 A3 A4 A5 A6 A7 A8 A9 A10]. rewrite upd_length in A1. split; auto; try discriminate; rewrite ?upd_length; auto.
      intros j b m' Hj Hv. rewrite nth_error_upd in Hv. assert (Hi : i < length v) by (apply nth_error_Some; congruence). destruct (Nat.ltb_spec i (length v)); [|lia].
      destruct (Nat.eqb_spec j i) as [->|N].
      - injection Hv as <-. exact (sim_params _ _ _ _ _ S i b m Hj E2).
      - apply (sim_params _ _ _ _ _ S j); auto. }
    2: { cbn [perform ideal]. destruct (NB i) as [(a & m & E1 & E2)|(E1 & E2)]; rewrite E1, E2; [|split; [reflexivity|exact S]]. cbn [fst snd]. split; [reflexivity|].
      apply (CL None (Some i)). replace (map (fun _ => 0%Q) (s_derivs w)) with (repeat 0%Q n).
      - apply (sim_with_derivs None None); auto. apply repeat_length.
      - rewrite <- (sim_dn _ _ _ _ _ S). clear. induction (s_derivs w); cbn; congruence. }
    all: cbn [perform ideal]; destruct (NB i) as [(a & m & E1 & E2)|(E1 & E2)]; rewrite E1, E2; [|split; [reflexivity|exact S]].
    - rewrite (install_ok _ _ _ _ i a m S E1 E2). destruct (Nat.eqb_spec (length (o_params m)) n) as [EN|EN]; [|split; [reflexivity|exact S]]. cbn [fst snd]. split; [reflexivity|].
      apply sim_copy. apply sim_stored; auto.
    - cbn [fst snd]. split; [|exact S]. rewrite (sim_params _ _ _ _ _ S i a m E1 E2). reflexivity.
    - rewrite (sim_params _ _ _ _ _ S i a m E1 E2). destruct (Nat.eqb_spec (length d) (length (o_params m))) as [ED|ED]; [|split; [reflexivity|exact S]].
      assert (S1 := sim_with_array None None w v i a m (plus (o_params m) d) S E1 E2). 
      assert (E3 : nth_error (upd i {| o_params := plus (o_params m) d; o_buf := o_buf m; o_derivs := o_derivs m |} v) i = Some {| o_params := plus (o_params m) d; o_buf := o_buf m; o_derivs := o_derivs m |}).
      { rewrite nth_error_upd, Nat.eqb_refl. assert (Hi : i < length v) by (apply nth_error_Some; congruence). destruct (Nat.ltb_spec i (length v)); [reflexivity|lia]. }
      rewrite (install_ok _ _ _ _ i a _ S1 E1 E3). cbn [o_params]. rewrite plus_length by exact ED. destruct (Nat.eqb_spec (length (o_params m)) n) as [EN|EN]; cbn [fst snd]; split; auto.
      apply sim_stored; auto. rewrite plus_length; auto.
    - rewrite (sim_params _ _ _ _ _ S i a m E1 E2). destruct (Nat.eqb_spec (length u) (length (o_params m))) as [ED|ED]; [|split; [reflexivity|exact S]].
      assert (S1 := sim_with_array None None w v i a m u S E1 E2). 
      assert (E3 : nth_error (upd i {| o_params := u; o_buf := o_buf m; o_derivs := o_derivs m |} v) i = Some {| o_params := u; o_buf := o_buf m; o_derivs := o_derivs m |}).
      { rewrite nth_error_upd, Nat.eqb_refl. assert (Hi : i < length v) by (apply nth_error_Some; congruence). destruct (Nat.ltb_spec i (length v)); [reflexivity|lia]. }
      rewrite (install_ok _ _ _ _ i a _ S1 E1 E3). cbn [o_params]. rewrite ED. destruct (Nat.eqb_spec (length (o_params m)) n) as [EN|EN]; cbn [fst snd]; split; auto.
      apply sim_stored; auto. lia.
    - cbn [fst snd]. split; [reflexivity|]. apply sim_list; auto.
  Qed.
  Lemma run_stateless : (forall p b b' x, snd (act M p b x) = snd (act M p b' x)) -> forall os w v,
    sim n None None w v -> Forall no_sharing os -> Forall no_derivs os -> snd (perform_all M w os) = snd (ideal_all M n v os).
  Proof using.
    intro HA. induction os as [|o os IH]; intros w v S HS HD; [reflexivity|]. apply Forall_cons_iff in HS as (HS1 & HS2). apply Forall_cons_iff in HD as (HD1 & HD2).
    cbn [perform_all ideal_all]. destruct (step_stateless o w v HA S HS1 HD1) as (A & A').
    destruct (perform M w o) as [w1 r1]. destruct (ideal M n v o) as [v1 r]. cbn [fst snd] in A, A'. assert (HI := IH w1 v1 A' HS2 HD2).
    destruct (perform_all M w1 os) as [w2 rs1]. destruct (ideal_all M n v1 os) as [v2 rs]. cbn [snd] in *. congruence.
  Qed.
End Sim.

(** ** MaskedModule *)
Lemma mrun f os : forall last w v m, objects w = v -> nth_error v last = Some m -> container w = applyMask m -> own_turn last os ->
  Forall (fun r => exists x, r = Ok x) (snd (mideal_all f v os)) ->
  snd (mperform_all f w os) = snd (mideal_all f v os).
Proof.
  induction os as [|o os IH]; intros last w v m HO HN HC HT HE; [reflexivity|]. cbn [mperform_all mideal_all] in *.
  assert (SET : forall i m' u, nth_error v i = Some u -> own_turn i os -> 
     Forall (fun r => exists x, r = Ok x) (snd (mideal_all f (upd i m' v) os)) ->
     snd (mperform_all f {| container := applyMask m'; objects := upd i m' v |} os) = snd (mideal_all f (upd i m' v) os)).
  { intros i m' u Hu HT' HE'. apply (IH i _ _ m'); auto. rewrite nth_error_upd, Nat.eqb_refl. assert (Hi : i < length v) by (apply nth_error_Some; congruence). destruct (Nat.ltb_spec i (length v)); [reflexivity|lia]. }
  destruct o as [i|i x|i d|i fl pk|i x]; cbn [mperform mideal] in *; rewrite HO; destruct (nth_error v i) as [u|] eqn:EU;
    try (cbn [snd] in HE; destruct (mideal_all f v os); cbn [snd] in HE; apply Forall_cons_iff in HE as ((y & HE) & _); discriminate).
  - assert (G := IH last {| container := container w; objects := v ++ [u] |} (v ++ [u]) m eq_refl).
    destruct (mideal_all f (v ++ [u]) os) as [v2 rs]. destruct (mperform_all f {| container := container w; objects := v ++ [u] |} os) as [w2 rs'].
    cbn [snd] in *. apply Forall_cons_iff in HE as (_ & HE). rewrite G; auto. rewrite nth_error_app1; auto. apply nth_error_Some. congruence.
  - destruct HT as (-> & HT). rewrite HN in EU. injection EU as <-. assert (G := IH last w v m HO HN HC HT).
    destruct (mideal_all f v os) as [v2 rs]. destruct (mperform_all f w os) as [w2 rs']. cbn [snd] in *. apply Forall_cons_iff in HE as (_ & HE). rewrite G, HC; auto.
  - assert (G := SET i (mutate d u) u EU HT).
    destruct (mideal_all f (upd i (mutate d u) v) os) as [v2 rs]. destruct (mperform_all f {| container := applyMask (mutate d u); objects := upd i (mutate d u) v |} os) as [w2 rs'].
    cbn [snd] in *. apply Forall_cons_iff in HE as (_ & HE). rewrite G; auto.
  - destruct (topologyMutate fl pk u) as [m'|e]; [|destruct (mideal_all f v os); cbn [snd] in HE; apply Forall_cons_iff in HE as ((y & HE) & _); discriminate].
    assert (G := SET i m' u EU HT).
    destruct (mideal_all f (upd i m' v) os) as [v2 rs]. destruct (mperform_all f {| container := applyMask m'; objects := upd i m' v |} os) as [w2 rs'].
    cbn [snd] in *. apply Forall_cons_iff in HE as (_ & HE). rewrite G; auto.
  - destruct (setParameters u x) as [m'|e]; [|destruct (mideal_all f v os); cbn [snd] in HE; apply Forall_cons_iff in HE as ((y & HE) & _); discriminate].
    assert (G := SET i m' u EU HT).
    destruct (mideal_all f (upd i m' v) os) as [v2 rs]. destruct (mperform_all f {| container := applyMask m'; objects := upd i m' v |} os) as [w2 rs'].
    cbn [snd] in *. apply Forall_cons_iff in HE as (_ & HE). rewrite G; auto.
Qed.
