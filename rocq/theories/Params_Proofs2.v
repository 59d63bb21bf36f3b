From Verif Require Import Base Params_Model Params_Spec Params_Proofs.

Section Proofs2.
Context {V : Type}.
Notation heap := (heap V).
Implicit Types (h : heap) (f : field) (a : astate V) (ids : list nat) (cs : list view).

(** arrays a field refers to *)
Definition fp (f : field) (k : nat) : Prop :=
  (exists w, In w (f_comps f) /\ v_arr w = k) \/ (exists w, f_net f = Some w /\ v_arr w = k).

Lemma comp_In f i : i < length (f_comps f) -> In (comp f i) (f_comps f).
Proof. intro. unfold comp. apply nth_In; auto. Qed.

Lemma RF_fp h f a k : RF h f a -> fp f k -> k < length h.
Proof.
  intros H [(w & Hw & <-)|(w & Hw & <-)].
  - apply In_nth with (d := mkview 0 0 0) in Hw. destruct Hw as (i & Hi & <-). rewrite (r_len _ _ _ H) in Hi.
    apply (r_inb _ _ _ H i Hi).
  - pose proof (r_net _ _ _ H) as Hn. destruct (a_order a) as [ids|]; [|congruence].
    destruct Hn as (_ & _ & _ & _ & k & total & En & Hk & _). rewrite En in Hw. injection Hw as <-. auto.
Qed.

Lemma RF_frame h h' f a : RF h f a -> length h <= length h' -> (forall k, fp f k -> arr h' k = arr h k) -> RF h' f a.
Proof.
  intros H Hl Hk.
  assert (Hc : forall i, i < length (a_vals a) -> arr h' (v_arr (comp f i)) = arr h (v_arr (comp f i))).
  { intros i Hi. apply Hk. left. exists (comp f i). split; auto. apply comp_In. rewrite (r_len _ _ _ H); auto. }
  destruct H as [A1 A2 A3 A4 A5 A6 A7 A8]. constructor; auto.
  - intros i Hi. destruct (A4 i Hi) as [B1 B2]. split; [lia|]. rewrite Hc; auto.
  - intros i Hi. rewrite <- (A5 i Hi). unfold read. specialize (Hc i Hi). unfold arr in Hc. rewrite Hc. reflexivity.
  - destruct (a_order a) as [ids|]; auto. destruct A8 as (Ho & Hnd & Hne & Hi & k & total & En & Hkl & Hkt & HL & Hout).
    split; auto. split; auto. split; auto. split; auto. exists k, total. split; auto. split; [lia|].
    rewrite Hk; [auto|]. right. eexists; split; eauto.
Qed.

Lemma upd_In {A} n (x y : A) l : In y (upd n x l) -> y = x \/ In y l.
Proof.
  revert n. induction l as [|z l IH]; intros [|n]; cbn; auto.
  - intros [|]; auto.
  - intros [|]; auto. apply IH in H. intuition.
Qed.

Lemma distribute_arr w ids : forall off cs u, In u (distribute w off ids cs) -> v_arr u = v_arr w \/ In u cs.
Proof.
  induction ids as [|i t IH]; intros off cs u H; cbn in H; auto.
  apply IH in H. destruct H as [H|H]; auto. apply upd_In in H. destruct H as [->|H]; auto.
Qed.

Lemma arr_app_old h x k : k < length h -> arr (h ++ x) k = arr h k.
Proof. intro. unfold arr. apply app_nth1; auto. Qed.

Lemma write_arr_other h w vals k : v_arr w <> k -> arr (write h w vals) k = arr h k.
Proof. intro. rewrite write_eq. unfold arr. apply nth_upd_neq; auto. Qed.

Lemma fstep_frame h f o h' f' : fstep (h, f) o = Ok (h', f') ->
  length h <= length h' /\ (forall k, k < length h -> ~ fp f k -> arr h' k = arr h k) /\
  (forall k, fp f' k -> fp f k \/ length h <= k).
Proof.
  intro E. destruct o as [v|ids|i g|g|p|i p]; cbn [fstep] in E.
  - cbn [alloc] in E. injection E as <- <-. rewrite app_length. split; [lia|]. split.
    + intros k Hk _. apply arr_app_old; auto.
    + intros k [(w & Hw & <-)|(w & Hw & <-)]; cbn in Hw.
      * apply in_app_or in Hw. destruct Hw as [Hw|[<-|[]]]; [left; left; eauto|right; cbn; lia].
      * left; right; eauto.
  - destruct (concat _) as [|x v] eqn:Ev.
    + injection E as <- <-. split; [lia|]. split; auto. intros k [(w & Hw & <-)|(w & Hw & <-)]; cbn in Hw; [left; left; eauto|discriminate].
    + cbn [alloc] in E. injection E as <- <-. rewrite app_length. split; [lia|]. split.
      * intros k Hk _. apply arr_app_old; auto.
      * intros k [(w & Hw & <-)|(w & Hw & <-)]; cbn [f_comps f_net] in Hw.
        -- apply distribute_arr in Hw. destruct Hw as [->|Hw]; [right; cbn; lia|left; left; eauto].
        -- injection Hw as <-. right; cbn; lia.
  - destruct (i <? length (f_comps f)) eqn:Hi; [|discriminate]. apply Nat.ltb_lt in Hi. injection E as <- <-.
    rewrite write_heap_length. split; [lia|]. split; auto.
    intros k Hk Hn. apply write_arr_other. intros <-. apply Hn. left. exists (comp f i). split; auto. apply comp_In; auto.
  - destruct (f_net f) as [w|] eqn:En; [|discriminate]. injection E as <- <-.
    rewrite write_heap_length. split; [lia|]. split; auto.
    intros k Hk Hn. apply write_arr_other. intros <-. apply Hn. right. exists w. auto.
  - destruct (f_net f) as [w|] eqn:En; [|discriminate]. cbn [alloc] in E. injection E as <- <-. rewrite app_length. split; [lia|]. split.
    + intros k Hk _. apply arr_app_old; auto.
    + intros k [(u & Hw & <-)|(u & Hw & <-)]; cbn [f_comps f_net] in Hw.
      * apply distribute_arr in Hw. destruct Hw as [->|Hw]; [right; cbn; lia|left; left; eauto].
      * injection Hw as <-. right; cbn; lia.
  - destruct (nth_error (f_owned f) i) as [[|]|] eqn:Eow; try discriminate. cbn [alloc] in E. injection E as <- <-.
    rewrite app_length. split; [lia|]. split.
    + intros k Hk _. apply arr_app_old; auto.
    + intros k [(u & Hw & <-)|(u & Hw & <-)]; cbn [f_comps f_net] in Hw.
      * apply upd_In in Hw. destruct Hw as [->|Hw]; [right; cbn; lia|left; left; eauto].
      * left; right; eauto.
Qed.

(** ** Two fields *)
Definition RF2 h f1 f2 a1 a2 := RF h f1 a1 /\ RF h f2 a2 /\ forall k, fp f1 k -> fp f2 k -> False.

Definition part (s : side) (l : list (side * fop V)) : list (fop V) :=
  map snd (filter (fun o => match s, fst o with OnFirst, OnFirst | OnSecond, OnSecond => true | _, _ => false end) l).

Lemma sim2 l : forall h f1 f2 a1 a2, RF2 h f1 f2 a1 a2 ->
  legal_run a1 (part OnFirst l) -> legal_run a2 (part OnSecond l) ->
  forall h' f1' f2', run2 (h, f1, f2) l = Ok (h', f1', f2') ->
  exists a1' a2', arun a1 (part OnFirst l) = Ok a1' /\ arun a2 (part OnSecond l) = Ok a2' /\ RF2 h' f1' f2' a1' a2'.
Proof.
  induction l as [|[sd o] l IH]; intros h f1 f2 a1 a2 (H1 & H2 & Hd) L1 L2 h' f1' f2' E.
  - cbn in *. injection E as <- <- <-. exists a1, a2. split; [reflexivity|]. split; [reflexivity|]. split; auto.
  - cbn [run2 step2 fst snd] in E. destruct sd.
    + change (part OnFirst ((OnFirst, o) :: l)) with (o :: part OnFirst l) in *.
      change (part OnSecond ((OnFirst, o) :: l)) with (part OnSecond l) in *.
      destruct L1 as [Lo L1]. pose proof (sim_step h f1 a1 o H1 Lo) as Hs.
      destruct (fstep (h, f1) o) as [[hx fx]|e] eqn:Es; cbn [rbind] in E; [|discriminate].
      destruct (astep a1 o) as [ax|e] eqn:Ea; cbn [rel] in Hs; [|contradiction].
      destruct (fstep_frame _ _ _ _ _ Es) as (F1 & F2 & F3).
      assert (H2' : RF hx f2 a2).
      { apply (RF_frame h hx f2 a2 H2 F1). intros k Hk. apply F2; [exact (RF_fp _ _ _ _ H2 Hk)|intro K; exact (Hd k K Hk)]. }
      destruct (IH hx fx f2 ax a2) with (h' := h') (f1' := f1') (f2' := f2') as (a1' & a2' & E1 & E2 & E3); auto.
      { split; [|split]; auto. intros k K1 K2. destruct (F3 k K1) as [K|K]; [eapply Hd; eauto|].
        pose proof (RF_fp _ _ _ _ H2 K2). lia. }
      exists a1', a2'. cbn [arun]. rewrite Ea. cbn [rbind]. auto.
    + change (part OnSecond ((OnSecond, o) :: l)) with (o :: part OnSecond l) in *.
      change (part OnFirst ((OnSecond, o) :: l)) with (part OnFirst l) in *.
      destruct L2 as [Lo L2]. pose proof (sim_step h f2 a2 o H2 Lo) as Hs.
      destruct (fstep (h, f2) o) as [[hx fx]|e] eqn:Es; cbn [rbind] in E; [|discriminate].
      destruct (astep a2 o) as [ax|e] eqn:Ea; cbn [rel] in Hs; [|contradiction].
      destruct (fstep_frame _ _ _ _ _ Es) as (F1 & F2 & F3).
      assert (H1' : RF hx f1 a1).
      { apply (RF_frame h hx f1 a1 H1 F1). intros k Hk. apply F2; [exact (RF_fp _ _ _ _ H1 Hk)|intro K; exact (Hd k Hk K)]. }
      destruct (IH hx f1 fx a1 ax) with (h' := h') (f1' := f1') (f2' := f2') as (a1' & a2' & E1 & E2 & E3); auto.
      { split; [|split]; auto. intros k K1 K2. destruct (F3 k K2) as [K|K]; [eapply Hd; eauto|].
        pose proof (RF_fp _ _ _ _ H1 K1). lia. }
      exists a1', a2'. cbn [arun]. rewrite Ea. cbn [rbind]. auto.
Qed.

Lemma sim2_progress l : forall h f1 f2 a1 a2, RF2 h f1 f2 a1 a2 ->
  legal_run a1 (part OnFirst l) -> legal_run a2 (part OnSecond l) ->
  (exists a1', arun a1 (part OnFirst l) = Ok a1') -> (exists a2', arun a2 (part OnSecond l) = Ok a2') ->
  exists h' f1' f2', run2 (h, f1, f2) l = Ok (h', f1', f2').
Proof.
  induction l as [|[sd o] l IH]; intros h f1 f2 a1 a2 (H1 & H2 & Hd) L1 L2 P1 P2.
  - cbn. eauto.
  - cbn [run2 step2 fst snd]. destruct sd.
    + change (part OnFirst ((OnFirst, o) :: l)) with (o :: part OnFirst l) in *.
      change (part OnSecond ((OnFirst, o) :: l)) with (part OnSecond l) in *.
      destruct L1 as [Lo L1]. pose proof (sim_step h f1 a1 o H1 Lo) as Hs.
      destruct P1 as (a1' & P1). cbn [arun] in P1.
      destruct (astep a1 o) as [ax|e] eqn:Ea; cbn [rbind] in P1; [|discriminate].
      destruct (fstep (h, f1) o) as [[hx fx]|e] eqn:Es; cbn [rel] in Hs; [|contradiction].
      destruct (fstep_frame _ _ _ _ _ Es) as (F1 & F2 & F3). cbn [rbind].
      assert (H2' : RF hx f2 a2).
      { apply (RF_frame h hx f2 a2 H2 F1). intros k Hk. apply F2; [exact (RF_fp _ _ _ _ H2 Hk)|intro K; exact (Hd k K Hk)]. }
      apply (IH hx fx f2 ax a2); eauto.
      { split; [|split]; auto. intros k K1 K2. destruct (F3 k K1) as [K|K]; [eapply Hd; eauto|].
        pose proof (RF_fp _ _ _ _ H2 K2). lia. }
    + change (part OnSecond ((OnSecond, o) :: l)) with (o :: part OnSecond l) in *.
      change (part OnFirst ((OnSecond, o) :: l)) with (part OnFirst l) in *.
      destruct L2 as [Lo L2]. pose proof (sim_step h f2 a2 o H2 Lo) as Hs.
      destruct P2 as (a2' & P2). cbn [arun] in P2.
      destruct (astep a2 o) as [ax|e] eqn:Ea; cbn [rbind] in P2; [|discriminate].
      destruct (fstep (h, f2) o) as [[hx fx]|e] eqn:Es; cbn [rel] in Hs; [|contradiction].
      destruct (fstep_frame _ _ _ _ _ Es) as (F1 & F2 & F3). cbn [rbind].
      assert (H1' : RF hx f1 a1).
      { apply (RF_frame h hx f1 a1 H1 F1). intros k Hk. apply F2; [exact (RF_fp _ _ _ _ H1 Hk)|intro K; exact (Hd k Hk K)]. }
      apply (IH hx f1 fx a1 ax); eauto.
      { split; [|split]; auto. intros k K1 K2. destruct (F3 k K2) as [K|K]; [eapply Hd; eauto|].
        pose proof (RF_fp _ _ _ _ H1 K1). lia. }
Qed.

(** ** Deep copies *)
Lemma deepcopy_views_spec l : forall h, (forall w, In w l -> v_arr w < length h) ->
  forall h' l', deepcopy_views h l = (h', l') ->
  h' = h ++ map (read h) l /\ length l' = length l /\
  forall i w, nth_error l i = Some w -> nth_error l' i = Some (mkview (length h + i) 0 (length (read h w))).
Proof.
  induction l as [|w t IH]; intros h Hl h' l' E; cbn [deepcopy_views] in E.
  - injection E as <- <-. cbn. rewrite app_nil_r. split; auto. split; auto. intros [|]; discriminate.
  - cbn [alloc] in E. destruct (deepcopy_views (h ++ [read h w]) t) as [h2 t'] eqn:E2. injection E as <- <-.
    destruct (IH (h ++ [read h w])) with (h' := h2) (l' := t') as (A1 & A2 & A3); auto.
    { intros u Hu. rewrite app_length. specialize (Hl u (or_intror Hu)). lia. }
    assert (Eread : forall u, In u t -> read (h ++ [read h w]) u = read h u).
    { intros u Hu. apply alloc_old. apply Hl. right; auto. }
    split; [|split].
    + rewrite A1. rewrite <- app_assoc. cbn [map app]. do 2 f_equal. apply map_ext_in. exact Eread.
    + cbn. auto.
    + intros [|i] u Eu; cbn in Eu |- *.
      * injection Eu as <-. rewrite Nat.add_0_r. reflexivity.
      * specialize (A3 i u Eu). rewrite app_length in A3. cbn [length] in A3. rewrite A3.
        rewrite Eread by (eapply nth_error_In; eauto). do 2 f_equal. lia.
Qed.

(** what a copied field looks like: separate arrays throughout *)
Lemma deepcopy_spec h f a : RF h f a -> forall h' f', deepcopy h f = (h', f') ->
  (exists ext, h' = h ++ ext) /\ f_owned f' = f_owned f /\ f_order f' = f_order f /\
  length (f_comps f') = length (a_vals a) /\
  (forall i, i < length (a_vals a) -> comp f' i = mkview (length h + i) 0 (length (a_get a i)) /\ arr h' (length h + i) = a_get a i) /\
  match a_net a with
  | None => f_net f' = None /\ length h' = length h + length (a_vals a)
  | Some v => f_net f' = Some (mkview (length h + length (a_vals a)) 0 (length v)) /\
              arr h' (length h + length (a_vals a)) = v /\ length h' = length h + length (a_vals a) + 1
  end.
Proof.
  intros H h' f' E. unfold deepcopy in E.
  destruct (deepcopy_views h (f_comps f)) as [h1 cs] eqn:E1.
  destruct (deepcopy_views_spec (f_comps f) h) with (h' := h1) (l' := cs) as (A1 & A2 & A3); auto.
  { intros w Hw. eapply RF_fp; eauto. left. eauto. }
  assert (Hl1 : length h1 = length h + length (a_vals a)).
  { rewrite A1, app_length, map_length, (r_len _ _ _ H). reflexivity. }
  assert (Hc : forall ext i, i < length (a_vals a) ->
      nth i cs (mkview 0 0 0) = mkview (length h + i) 0 (length (a_get a i)) /\ arr (h1 ++ ext) (length h + i) = a_get a i).
  { intros ext i Hi. pose proof Hi as Hi'. rewrite <- (r_len _ _ _ H) in Hi'.
    pose proof (A3 i _ (comp_nth_error f i Hi')) as E3. rewrite (r_val _ _ _ H i Hi) in E3.
    split; [apply nth_error_nth; auto|]. rewrite arr_app_old by lia. rewrite A1. unfold arr.
    rewrite app_nth2 by lia. replace (length h + i - length h) with i by lia.
    rewrite <- (r_val _ _ _ H i Hi). apply nth_error_nth. rewrite nth_error_map, (comp_nth_error f i Hi'). reflexivity. }
  pose proof (RF_read_net h f a H) as En. unfold read_net in En. cbn [fst snd] in En.
  destruct (f_net f) as [w|] eqn:Ew; cbn [option_map] in En.
  - cbn [alloc] in E. injection E as <- <-. cbn [f_comps f_owned f_order f_net comp].
    assert (Ewr : read h1 w = read h w).
    { rewrite A1. unfold read. rewrite app_nth1; auto. eapply RF_fp; eauto. right. eauto. }
    split; [exists (map (read h) (f_comps f) ++ [read h1 w]); rewrite A1, <- app_assoc; reflexivity|].
    split; auto. split; auto. split; [rewrite A2; apply H|]. split.
    + intros i Hi. unfold comp. cbn [f_comps]. apply Hc; auto.
    + rewrite <- En. rewrite Ewr, app_length, Hl1. split; auto. split; [|cbn; lia].
      rewrite <- Hl1. apply alloc_arr_new.
  - injection E as <- <-. cbn [f_comps f_owned f_order f_net comp].
    split; [exists (map (read h) (f_comps f)); rewrite A1; reflexivity|].
    split; auto. split; auto. split; [rewrite A2; apply H|]. split.
    + intros i Hi. unfold comp. cbn [f_comps]. rewrite <- (app_nil_r h1). apply Hc; auto.
    + rewrite <- En. split; auto.
Qed.

Lemma copy_params_spec h f a : RF h f a ->
  exists h' f', copy_params h f = Ok (h', f') /\ (exists ext, h' = h ++ ext) /\ RF2 h' f f' a a.
Proof.
  intro H. unfold copy_params. destruct (deepcopy h f) as [h1 f1] eqn:E.
  destruct (deepcopy_spec h f a H h1 f1 E) as ((ext & Eh) & Eow & Eor & Elen & Hc & Hnet).
  assert (Hlen1 : length h <= length h1) by (rewrite Eh, app_length; lia).
  (* the copy without the network's vector *)
  assert (R0 : RF h1 (mkfield (f_comps f1) (f_owned f1) (f_order f1) None) (mka (a_vals a) (a_owned a) None)).
  { assert (Hl1 : length h + length (a_vals a) <= length h1) by (destruct (a_net a); intuition lia).
    constructor; cbn [f_comps f_owned f_order f_net a_vals a_owned a_order]; auto.
    - rewrite Eow. apply H.
    - apply H.
    - intros i Hi. destruct (Hc i Hi) as [C1 C2]. unfold comp in *. cbn [f_comps]. rewrite C1. split; cbn [v_arr v_off v_len]; [lia|]. rewrite C2. lia.
    - intros i Hi. destruct (Hc i Hi) as [C1 C2]. unfold comp in *. cbn [f_comps]. rewrite C1. unfold read. cbn [v_arr v_off v_len Nat.add].
      fold (arr h1 (length h + i)). rewrite C2. unfold slice. rewrite firstn_all. reflexivity.
    - intros i Hi. apply (r_pos _ _ _ H i Hi).
    - intros i j Hi Hj Hne. destruct (Hc i Hi) as [C1 _]. destruct (Hc j Hj) as [C2 _]. unfold comp in *. cbn [f_comps]. rewrite C1, C2. left. cbn. lia. }
  assert (Hfp1 : forall k, fp f1 k -> length h <= k).
  { intros k [(w & Hw & <-)|(w & Hw & <-)].
    - apply In_nth with (d := mkview 0 0 0) in Hw. destruct Hw as (i & Hi & <-). rewrite Elen in Hi.
      destruct (Hc i Hi) as [C1 _]. unfold comp in C1. rewrite C1. cbn. lia.
    - destruct (a_net a); destruct Hnet as [En Hnet]; rewrite En in Hw; [|discriminate]. injection Hw as <-. cbn. lia. }
  assert (Hold : forall k, fp f k -> k < length h) by (intros; eapply RF_fp; eauto).
  pose proof (RF_read_net h f a H) as En. unfold read_net in En. cbn [fst snd] in En. unfold a_net in *.
  pose proof (r_net _ _ _ H) as Hn.
  destruct (a_order a) as [ids|] eqn:Eo; cbn [option_map] in *.
  - destruct Hn as (Ho & Hnd & Hne & Hi & k & total & Enet & Hk & Hkt & HL & Hout).
    rewrite Enet in *. cbn [option_map] in En.
    destruct Hnet as (En1 & Ea1 & Hl1).
    assert (Er : read h1 (mkview k 0 total) = concat (map (a_get a) ids)).
    { injection En as <-. rewrite Eh. unfold read. rewrite app_nth1; auto. }
    rewrite Er.
    assert (Lsort : legal (mka (a_vals a) (a_owned a) None) (FSort ids)).
    { cbn. split; auto. split; auto. split; [intros; apply Hi; auto|discriminate]. }
    pose proof (sim_step _ _ _ _ R0 Lsort) as Hs. cbn [astep a_vals a_owned a_order] in Hs.
    set (v := concat (map (a_get a) ids)) in *.
    exists (h1 ++ [v]). eexists. cbn [fstep]. rewrite En1. cbn [alloc]. split; [reflexivity|].
    split; [exists (ext ++ [v]); rewrite Eh, app_assoc; reflexivity|].
    split; [|split].
    + eapply RF_frame; eauto; [rewrite app_length; lia|]. intros k' Hk'. rewrite arr_app_old by (specialize (Hold k' Hk'); lia).
      rewrite Eh, arr_app_old; auto.
    + cbn [fstep] in Hs.
      assert (Etmp : map (fun i => read h1 (comp (mkfield (f_comps f1) (f_owned f1) (f_order f1) None) i)) ids = map (a_get a) ids).
      { apply map_ext_in. intros i Hin. apply (r_val _ _ _ R0). cbn. apply Hi; auto. }
      rewrite Etmp in Hs. fold v in Hs.
      assert (Hv : v <> []).
      { intro Ev. destruct ids as [|i0 ids]; [congruence|]. unfold v in Ev. cbn [map concat] in Ev.
        apply app_eq_nil in Ev. destruct Ev as [Ev _]. apply (r_pos _ _ _ H i0); auto. apply Hi; left; auto. }
      destruct v as [|x0 v0]; [congruence|]. cbn [alloc rel f_comps f_owned] in Hs.
      rewrite Eor, Ho.
      (* the owners were already set *)
      assert (Eown : fold_left (fun o i => upd i true o) ids (a_owned a) = a_owned a).
      { assert (Hin : forall i, In i ids -> nth_error (a_owned a) i = Some true).
        { intros i Hin. destruct (Hi i Hin) as [Hil Htrue]. rewrite <- Htrue. apply nth_error_nth'. rewrite (r_olen _ _ _ H); auto. }
        clear -Hin. induction ids as [|i t IH]; cbn [fold_left]; auto.
        assert (Eu : upd i true (a_owned a) = a_owned a).
        { apply nth_error_ext. intro j. destruct (Nat.eq_dec i j) as [<-|Hne]; [|apply nth_error_upd_neq; auto].
          rewrite nth_error_upd_eq; [symmetry; apply Hin; left; auto|].
          apply nth_error_Some. rewrite Hin by (left; auto). discriminate. }
        rewrite Eu. apply IH. intros; apply Hin; right; auto. }
      rewrite Eow, (r_owned _ _ _ H) in *. rewrite Eown in Hs.
      replace a with (mka (a_vals a) (a_owned a) (Some ids)) by (destruct a; cbn in *; congruence).
      exact Hs.
    + intros k' K1 K2. specialize (Hold k' K1).
      destruct K2 as [(w & Hw & Ek)|(w & Hw & Ek)]; cbn [f_comps f_net] in Hw.
      * apply distribute_arr in Hw. destruct Hw as [Hw|Hw]; [cbn in Hw; lia|].
        assert (length h <= k') by (apply Hfp1; left; eauto). lia.
      * injection Hw as <-. cbn in Ek. lia.
  - rewrite Hn in *. destruct Hnet as (En1 & Hl1).
    exists h1, f1. split; auto. split; [eauto|]. split; [|split].
    + eapply RF_frame; eauto. intros k Hk. rewrite Eh. apply arr_app_old. auto.
    + replace a with (mka (a_vals a) (a_owned a) None) by (destruct a; cbn in *; congruence).
      replace f1 with (mkfield (f_comps f1) (f_owned f1) (f_order f1) None) by (destruct f1; cbn in *; congruence).
      exact R0.
    + intros k K1 K2. specialize (Hold k K1). specialize (Hfp1 k K2). lia.
Qed.

(** ** Copied derivatives *)
Definition comp_op (o : fop V) : Prop := match o with FUpdComp _ _ => True | _ => False end.

Lemma copy_derivs_stuck h f a v l : RF h f a -> a_net a = Some v -> Forall comp_op l ->
  read_net (copy_derivs h f) = Some v /\
  (forall i, i < length (a_vals a) -> read_comp (copy_derivs h f) i = a_get a i) /\
  forall s', frun (copy_derivs h f) l = Ok s' -> read_net s' = Some v.
Proof.
  intros H Ev Hl. unfold copy_derivs. destruct (deepcopy h f) as [h1 f1] eqn:E.
  destruct (deepcopy_spec h f a H h1 f1 E) as ((ext & Eh) & Eow & Eor & Elen & Hc & Hnet).
  rewrite Ev in Hnet. destruct Hnet as (En & Ea & Hl1). split; [|split].
  - unfold read_net. cbn [fst snd]. rewrite En. cbn [option_map]. f_equal. unfold read. cbn [v_arr v_off v_len Nat.add].
    fold (arr h1 (length h + length (a_vals a))). rewrite Ea. unfold slice. rewrite firstn_all. reflexivity.
  - intros i Hi. destruct (Hc i Hi) as [C1 C2]. unfold read_comp. cbn [fst snd]. rewrite C1. unfold read. cbn [v_arr v_off v_len Nat.add].
    fold (arr h1 (length h + i)). rewrite C2. unfold slice. rewrite firstn_all. reflexivity.
  - assert (G : forall l h1, Forall comp_op l -> arr h1 (length h + length (a_vals a)) = v ->
        forall s', frun (h1, f1) l = Ok s' -> read_net s' = Some v).
    { assert (Hc' : forall i, i < length (f_comps f1) -> v_arr (comp f1 i) <> length h + length (a_vals a)).
      { intros i Hi. rewrite Elen in Hi. destruct (Hc i Hi) as [C1 _]. rewrite C1. cbn. lia. }
      clear l Hl Ea Hl1 Eh E Hc. clear h1. intros l.
      induction l as [|o l IH]; intros h1 Hl Ea s' Er; cbn [frun] in Er.
      - injection Er as <-. unfold read_net. cbn [fst snd]. rewrite En. cbn [option_map]. f_equal. unfold read. cbn [v_arr v_off v_len Nat.add].
        fold (arr h1 (length h + length (a_vals a))). rewrite Ea. unfold slice. rewrite firstn_all. reflexivity.
      - inversion Hl as [|? ? Ho Hl']; subst. destruct o; try contradiction. cbn [fstep] in Er.
        destruct (i <? length (f_comps f1)) eqn:Hi; [|discriminate]. apply Nat.ltb_lt in Hi. cbn [rbind] in Er.
        eapply IH; [exact Hl'| |exact Er]. rewrite write_arr_other; auto. }
    eapply G; eauto.
Qed.
End Proofs2.
