(** C34: the crowding distance keeps the extreme points; the constrained front. *)
From Coq Require Import QArith Lqa.
From Verif Require Import Base StableSort Nondom_Model Nondom_Proofs Nondom_Proofs2.
Local Open Scope nat_scope.

Section Crowd.
Context {A : Type} (eq_dec : forall x y : A, {x = y} + {x <> y}).
Context (fitnesses : A -> list Z).
Local Notation f := (fun i x => kth (fitnesses x) i).
Local Notation leb i := (fun x y => (kth (fitnesses x) i <=? kth (fitnesses y) i)%Z).

Lemma sorted_at i inds : StronglySorted (fun x y => leb i x y = true) (isort (leb i) inds).
Proof.
  apply (isort_sorted (leb i)).
  - intros x y. destruct (Z.leb_spec (f i x) (f i y)); [auto|right; apply Z.leb_le; lia].
  - intros x y z H1 H2. apply Z.leb_le in H1, H2. apply Z.leb_le. lia.
Qed.
Lemma sorted_first i a l : StronglySorted (fun x y => leb i x y = true) (a :: l) -> forall x, In x (a :: l) -> (f i a <= f i x)%Z.
Proof. intros H x [->|Hx]; [lia|]. inversion H; subst. rewrite Forall_forall in H3. apply Z.leb_le, H3. auto. Qed.
Lemma sorted_last i l d : StronglySorted (fun x y => leb i x y = true) l -> forall x, In x l -> (f i x <= f i (last l d))%Z.
Proof.
  induction l as [|a l IH]; intros H x Hx; [destruct Hx|]. inversion H; subst. destruct l as [|b l].
  - destruct Hx as [->|[]]. cbn. lia.
  - change (last (a :: b :: l) d) with (last (b :: l) d). destruct Hx as [->|Hx]; [|apply IH; auto].
    rewrite Forall_forall in H3. assert (In (last (b :: l) d) (b :: l)).
    { clear. revert b. induction l as [|c l IH]; intro b; [left; auto|]. right. apply IH. }
    apply Z.leb_le, H3. auto.
Qed.
Lemma last_In {X} (l : list X) d : l <> [] -> In (last l d) l.
Proof. induction l as [|a l IH]; intro H; [contradiction|]. destruct l as [|b l]; [left; auto|]. right. apply IH. discriminate. Qed.

(** middles of the triples *)
Lemma triples_spec i l : StronglySorted (fun x y => leb i x y = true) l -> NoDup l ->
  NoDup (map (fun t => snd (fst t)) (triples l)) /\
  forall pre ind post, In (pre, ind, post) (triples l) -> In pre l /\ In post l /\ In ind (tl l) /\ (f i pre <= f i post)%Z.
Proof.
  induction l as [|a l IH]; intros Hs Hn; [split; [constructor|intros ? ? ? []]|].
  inversion Hs as [|? ? Hs' Hf]; subst. inversion Hn as [|? ? Ha Hn']; subst. specialize (IH Hs' Hn'). destruct IH as [IHn IHi].
  destruct l as [|b [|c l]]; cbn [triples map] in *; [split; [constructor|intros ? ? ? []]..|].
  split.
  - constructor; auto. intro Hb. apply in_map_iff in Hb. destruct Hb as ([[p m] q] & E & Hin). cbn in E. subst m.
    change (triples (b :: c :: l)) with (triples (b :: c :: l)) in Hin. apply IHi in Hin. destruct Hin as (_ & _ & Hm & _).
    inversion Hn'; subst. apply H1. auto.
  - intros pre ind post [H|H].
    + injection H as <- <- <-. split; [left; auto|split; [right; right; left; auto|split; [left; auto|]]].
      rewrite Forall_forall in Hf. apply Z.leb_le. apply Hf. right; left; auto.
    + apply IHi in H. destruct H as (H1 & H2 & H3 & H4). split; [right; auto|split; [right; auto|split; auto]].
      cbn [tl] in *. right. auto.
Qed.

Lemma fold_triples (q : A * A * A -> Q) ts : NoDup (map (fun t => snd (fst t)) ts) ->
  (forall t, In t ts -> 0 <= q t /\ q t <= 1)%Q ->
  forall d x, (d x <= fold_left (fun d t => dset eq_dec d (snd (fst t)) (d (snd (fst t)) + q t)%Q) ts d x /\
               fold_left (fun d t => dset eq_dec d (snd (fst t)) (d (snd (fst t)) + q t)%Q) ts d x <= d x + 1)%Q.
Proof.
  intros Hn Hq d x.
  assert (G : forall ts d, ~ In x (map (fun t : A * A * A => snd (fst t)) ts) ->
    fold_left (fun d t => dset eq_dec d (snd (fst t)) (d (snd (fst t)) + q t)%Q) ts d x = d x).
  { clear. induction ts as [|t ts IH]; intros d Hx; cbn; auto. rewrite IH; [|cbn in Hx; tauto]. unfold dset.
    destruct (eq_dec x (snd (fst t))) as [->|]; auto. destruct Hx. left; auto. }
  revert d. induction ts as [|t ts IH]; intro d; cbn [fold_left]; [lra|].
  cbn in Hn. inversion Hn; subst.
  destruct (eq_dec x (snd (fst t))) as [->|Hne].
  - rewrite G by auto. unfold dset. destruct (eq_dec _ _) as [_|]; [|contradiction]. destruct (Hq t (or_introl eq_refl)). lra.
  - specialize (IH H2 (fun t' Ht => Hq t' (or_intror Ht)) (dset eq_dec d (snd (fst t)) (d (snd (fst t)) + q t)%Q)).
    assert (Ex : dset eq_dec d (snd (fst t)) (d (snd (fst t)) + q t)%Q x = d x) by (unfold dset; destruct (eq_dec x (snd (fst t))); [contradiction|auto]).
    rewrite Ex in IH. auto.
Qed.

(** invariant of the loop over the objectives: B holds the boundary points seen *)
Definition Inv (front : list A) (i : nat) (st : list A * (A -> Q)) (B : list A) : Prop :=
  Permutation (fst st) front /\ length B <= 2 * i /\
  (forall x, 0 <= snd st x)%Q /\
  (forall x, In x B -> big <= snd st x)%Q /\
  (forall x, ~ In x B -> snd st x <= inject_Z (Z.of_nat i))%Q /\
  (forall k, k < i -> (exists x, In x B /\ In x front /\ forall y, In y front -> (f k x <= f k y)%Z) /\
                      (exists x, In x B /\ In x front /\ forall y, In y front -> (f k y <= f k x)%Z)).

Lemma crowd_obj_inv front i st st' B : NoDup front -> Inv front i st B ->
  crowd_obj eq_dec fitnesses i (Ok st) = Ok st' -> exists B', Inv front (S i) st' B'.
Proof.
  intros Hn (Hp & Hl & H0 & Hb & Hi & Hk) E. unfold crowd_obj in E. cbn [rbind] in E.
  assert (Hs := sorted_at i (fst st)). assert (Hp' : Permutation (isort (leb i) (fst st)) front).
  { etransitivity; [apply isort_perm|auto]. }
  assert (Hn' : NoDup (isort (leb i) (fst st))) by (eapply Permutation_NoDup; [symmetry; exact Hp'|auto]).
  destruct (isort (leb i) (fst st)) as [|first inds] eqn:Ei; [discriminate|].
  set (lst := last (first :: inds) first) in *.
  set (norm := (kth (fitnesses first) i - kth (fitnesses lst) i)%Z) in *.
  set (d0 := dset eq_dec (dset eq_dec (snd st) first big) lst big) in *.
  destruct ((norm =? 0)%Z && _) eqn:Ez; [discriminate|]. injection E as <-.
  set (q := fun t : A * A * A => (inject_Z (kth (fitnesses (fst (fst t))) i - kth (fitnesses (snd t)) i) / inject_Z norm)%Q).
  assert (Ef : fold_left (fun d t => let '(pre, ind, post) := t in
                 dset eq_dec d ind (d ind + inject_Z (kth (fitnesses pre) i - kth (fitnesses post) i) / inject_Z norm)%Q) (triples (first :: inds)) d0
             = fold_left (fun d t => dset eq_dec d (snd (fst t)) (d (snd (fst t)) + q t)%Q) (triples (first :: inds)) d0).
  { generalize (triples (first :: inds)) as ts. intro ts. clearbody d0. clear. revert d0. induction ts as [|[[p m] o] ts IH]; intro d; cbn [fold_left]; [reflexivity|apply IH]. }
  destruct (triples_spec i _ Hs Hn') as [Tn Ti].
  assert (Hfirst := sorted_first i _ _ Hs). assert (Hlast := sorted_last i _ first Hs). fold lst in Hlast.
  assert (Hq : forall t, In t (triples (first :: inds)) -> (0 <= q t /\ q t <= 1)%Q).
  { intros [[p m] o] Ht. pose proof (Ti p m o Ht) as (Hpin & Hoin & _ & Hpo).
    assert (norm <> 0)%Z.
    { intro En. rewrite En in Ez. destruct (triples (first :: inds)); [destruct Ht|discriminate]. }
    assert (Hneg : (norm < 0)%Z) by (unfold norm in *; specialize (Hfirst _ (last_In (first :: inds) first ltac:(discriminate))); fold lst in Hfirst; lia).
    unfold q. cbn [fst snd]. specialize (Hfirst _ Hpin). specialize (Hlast _ Hoin). set (u := (kth (fitnesses p) i - kth (fitnesses o) i)%Z) in *.
    assert (Hu : (norm <= u <= 0)%Z) by (unfold norm, u in *; lia). clearbody u norm. clear - Hneg Hu.
    assert (Eq : (inject_Z u / inject_Z norm == inject_Z (- u) / inject_Z (- norm))%Q).
    { rewrite !inject_Z_opp. field. intro E. unfold Qeq in E. cbn in E. lia. }
    rewrite Eq. clear Eq. assert (Hpos : (0 < inject_Z (- norm))%Q) by (unfold Qlt; cbn; lia).
    split.
    - apply Qle_shift_div_l; auto. rewrite Qmult_0_l. unfold Qle. cbn. lia.
    - apply Qle_shift_div_r; auto. rewrite Qmult_1_l. unfold Qle. cbn. lia. }
  pose proof (fold_triples q _ Tn Hq d0) as Hd. cbn [fst snd]. 
  change (match inds with [] => [] | [_] => [] | b :: c :: _ => (first, b, c) :: triples inds end) with (triples (first :: inds)).
  rewrite Ef.
  assert (Hbig : (0 <= big)%Q) by (vm_compute; discriminate).
  assert (Hin : forall x, In x (first :: inds) <-> In x front) by (intro x; split; apply Permutation_in; [|symmetry]; auto).
  exists (first :: lst :: B). unfold Inv. cbn [fst snd]. split; [auto|split; [cbn; lia|split; [|split; [|split]]]].
  - intro x. destruct (Hd x) as [Hx _]. eapply Qle_trans; [|exact Hx]. unfold d0, dset.
    destruct (eq_dec x lst); auto. destruct (eq_dec x first); auto.
  - intros x Hx. destruct (Hd x) as [Hx' _]. eapply Qle_trans; [|exact Hx']. unfold d0, dset.
    destruct (eq_dec x lst); [apply Qle_refl|]. destruct (eq_dec x first); [apply Qle_refl|].
    destruct Hx as [Hx|[Hx|Hx]]; [congruence|congruence|auto].
  - intros x Hx. destruct (Hd x) as [_ Hx']. eapply Qle_trans; [exact Hx'|]. unfold d0, dset.
    destruct (eq_dec x lst) as [->|]; [destruct Hx; right; left; auto|]. destruct (eq_dec x first) as [->|]; [destruct Hx; left; auto|].
    assert (HxB : ~ In x B) by (intro; apply Hx; right; right; auto). specialize (Hi x HxB).
    rewrite Nat2Z.inj_succ, <- Z.add_1_r, inject_Z_plus. change (inject_Z 1) with 1%Q. lra.
  - intros k Hk'. destruct (Nat.eq_dec k i) as [->|Hne].
    + split.
      * exists first. split; [left; auto|split; [apply Hin; left; auto|]]. intros y Hy. apply Hin in Hy. apply Hfirst; auto.
      * exists lst. split; [right; left; auto|split; [apply Hin; apply last_In; discriminate|]]. intros y Hy. apply Hin in Hy. apply Hlast; auto.
    + destruct (Hk k ltac:(lia)) as [(x & Hx & Hx') (y & Hy & Hy')]. split; [exists x|exists y]; split; auto; right; right; auto.
Qed.

Lemma crowd_fold front : NoDup front -> forall n st', 
  fold_left (fun st i => crowd_obj eq_dec fitnesses i st) (seq 0 n) (Ok (front, fun _ => 0%Q)) = Ok st' -> exists B, Inv front n st' B.
Proof.
  intros Hn. induction n as [|n IH]; intros st' E.
  - cbn in E. injection E as <-. exists []. unfold Inv. cbn [fst snd]. split; [auto|split; [cbn; lia|split; [|split; [intros x []|split]]]].
    + intro. apply Qle_refl.
    + intros x _. apply Qle_refl.
    + intros k Hk. lia.
  - rewrite seq_S, fold_left_app in E. cbn [fold_left plus] in E.
    destruct (fold_left _ (seq 0 n) _) as [st|e] eqn:E1; [|discriminate].
    destruct (IH st eq_refl) as (B & HB). eapply crowd_obj_inv; eauto.
Qed.

Lemma crowd_cut_perm ord : (forall l, Permutation (ord l) l) -> forall fr r, crowd_cut eq_dec ord fitnesses fr = Ok r -> Permutation r fr.
Proof.
  intros Hord fr r E. unfold crowd_cut in E. destruct (crowding_distance _ _ _) as [d|]; [|discriminate]. cbn in E. injection E as <-.
  etransitivity; [apply isort_perm|apply Hord].
Qed.
Lemma crowd_cut_extremes ord dim : (forall l, Permutation (ord l) l) -> forall fr r, NoDup fr -> (forall x, In x fr -> length (fitnesses x) = dim) ->
  (Z.of_nat dim < 10 ^ 100)%Z -> crowd_cut eq_dec ord fitnesses fr = Ok r ->
  forall n k, 2 * dim <= n -> n <= length fr -> k < dim ->
  (exists x, In x (firstn n r) /\ forall y, In y fr -> (f k x <= f k y)%Z) /\ (exists x, In x (firstn n r) /\ forall y, In y fr -> (f k y <= f k x)%Z).
Proof.
  intros Hord fr r Hn Hd Hdim E n k Hnd Hnl Hk. pose proof (crowd_cut_perm ord Hord _ _ E) as Hp.
  unfold crowd_cut in E. destruct (crowding_distance eq_dec (ord fr) fitnesses) as [d|] eqn:Ed; [|discriminate]. cbn in E. injection E as <-.
  unfold crowding_distance in Ed. pose proof (Hord fr) as Ho. destruct (ord fr) as [|i0 rest] eqn:Eo; [discriminate|].
  rewrite (Hd i0) in Ed by (apply (Permutation_in _ Ho); left; auto).
  destruct (fold_left _ (seq 0 dim) _) as [st|] eqn:Ef; [|discriminate]. cbn in Ed. injection Ed as <-.
  assert (Hno : NoDup (i0 :: rest)) by (eapply Permutation_NoDup; [symmetry; exact Ho|auto]).
  destruct (crowd_fold _ Hno dim st Ef) as (B & _ & Hl & _ & Hb & Hs & Hk').
  set (srt := isort (fun x y => Qle_bool (snd st y) (snd st x)) (i0 :: rest)) in *.
  assert (Hsort : StronglySorted (fun x y => Qle_bool (snd st y) (snd st x) = true) srt).
  { apply (isort_sorted (fun x y => Qle_bool (snd st y) (snd st x))).
    - intros x y. rewrite !Qle_bool_iff. destruct (Qlt_le_dec (snd st x) (snd st y)); [right; apply Qlt_le_weak; auto|left; auto].
    - intros x y z. rewrite !Qle_bool_iff. intros H1 H2. eapply Qle_trans; eauto. }
  assert (Hns : NoDup srt) by (eapply Permutation_NoDup; [symmetry; exact Hp|auto]).
  assert (Key : forall b, In b B -> In b fr -> In b (firstn n srt)).
  { intros b HbB Hbf. destruct (in_dec eq_dec b (firstn n srt)) as [|Hnot]; auto. exfalso.
    assert (Hbs : In b (skipn n srt)).
    { assert (In b srt) by (apply (Permutation_in _ (Permutation_sym Hp)); auto). rewrite <- (firstn_skipn n srt) in H.
      apply in_app_or in H. tauto. }
    assert (HinB : incl (b :: firstn n srt) B).
    { intros x [->|Hx]; auto. destruct (in_dec eq_dec x B) as [|HxB]; auto. exfalso.
      specialize (Hs x HxB). specialize (Hb b HbB).
      assert (Hle : (snd st b <= snd st x)%Q).
      { rewrite <- (firstn_skipn n srt) in Hsort. clear - Hsort Hx Hbs. induction (firstn n srt) as [|a l IH]; [destruct Hx|].
        cbn in Hsort. inversion Hsort; subst. destruct Hx as [->|Hx]; auto.
        rewrite Forall_forall in H2. apply Qle_bool_iff. apply H2. apply in_or_app. auto. }
      assert (Hc : (big <= inject_Z (Z.of_nat dim))%Q) by (eapply Qle_trans; [exact Hb|]; eapply Qle_trans; eauto).
      unfold big in Hc. rewrite <- Zle_Qle in Hc. lia. }
    assert (HN : NoDup (b :: firstn n srt)).
    { constructor; auto. rewrite <- (firstn_skipn n srt) in Hns. eapply NoDup_app_l; eauto. }
    pose proof (NoDup_incl_length HN HinB) as Hlen. cbn [length] in Hlen. rewrite firstn_length in Hlen.
    rewrite (Permutation_length Hp) in Hlen. lia. }
  assert (Hin : forall x, In x (i0 :: rest) <-> In x fr) by (intro x; split; apply Permutation_in; [|symmetry]; auto).
  destruct (Hk' k Hk) as [(x & Hx & Hxf & Hxm) (y & Hy & Hyf & Hym)]. split; [exists x|exists y].
  - split; [apply Key; auto; apply Hin; auto|]. intros z Hz. apply Hxm, Hin. auto.
  - split; [apply Key; auto; apply Hin; auto|]. intros z Hz. apply Hym, Hin. auto.
Qed.
End Crowd.

(** ** the constrained front *)
Section Const.
Context {A : Type} (eq_dec : forall x y : A, {x = y} + {x <> y}).
Context (ord : list A -> list A) (Hord : forall l, Permutation (ord l) l).
Context (ordn : list nat -> list nat) (Hordn : forall l, Permutation (ordn l) l).
(** fitness, feasible, constraint values: a feasible item beats every infeasible one, feasible
    items compare by fitness, infeasible ones by the size of the summed violation *)
Definition violation (c : list Z) : Z := Z.abs (fold_right Z.add 0%Z c).
Definition beats (q : bool) (dim : nat) (a b : list Z * bool * list Z) : Prop :=
  match snd (fst a), snd (fst b) with
  | true, true => dominates q dim (fst (fst a)) (fst (fst b))
  | true, false => True
  | false, true => False
  | false, false => (violation (snd a) <= violation (snd b))%Z
  end.
Lemma beats_trans q dim a b c : beats q dim a b -> beats q dim b c -> beats q dim a c.
Proof. unfold beats. destruct (snd (fst a)), (snd (fst b)), (snd (fst c)); try tauto; [apply dominates_trans|lia]. Qed.
Lemma const_dom_iff q dim fits j i : j < length fits -> i < length fits ->
  const_dom q dim fits j i = true <-> beats q dim (nth j fits ([], false, [])) (nth i fits ([], false, [])).
Proof.
  intros Hj Hi. unfold const_dom, beats. set (x := map _ fits).
  assert (E : forall p, nth p x [] = fst (fst (nth p fits ([], false, [])))).
  { intro p. unfold x. change [] with ((fun f : list Z * bool * list Z => fst (fst f)) ([], false, [])) at 1. apply map_nth. }
  pose proof (ndom_iff q dim x j i) as N1. rewrite !E in N1.
  destruct (snd (fst (nth j fits _))), (snd (fst (nth i fits _))); cbn [andb negb]; rewrite ?andb_true_r, ?andb_false_r.
  - destruct (negb (ndom q dim x j i)); [tauto|]. destruct (negb (ndom q dim x i j)); rewrite <- N1; tauto.
  - tauto.
  - split; [discriminate|tauto].
  - rewrite negb_true_iff, Z.ltb_ge. unfold violation, sumz. tauto.
Qed.
Lemma const_arr_front (key : A -> list Z * bool * list Z) q dim items : (forall x, In x items -> length (fst (fst (key x))) = dim) ->
  exists R, const_front_arr eq_dec ordn key q items = Ok R /\ is_front (fun a b => beats q dim (key a) (key b)) items R.
Proof.
  intros Hd. unfold const_front_arr. eexists. split; [reflexivity|]. fold (pick items).
  destruct items as [|i0 items].
  { assert (E0 : ordn [] = []) by (apply Permutation_nil, Permutation_sym, Hordn). cbn. rewrite E0. cbn.
    split; [apply NoDup_nil|split; [intros ? []|split; [intros ? ? []|intros ? []]]]. }
  set (its := i0 :: items) in *.
  assert (Ed : length (fst (fst (hd ([], false, []) (map key its)))) = dim) by (apply Hd; left; auto). rewrite Ed.
  assert (Hn : forall i x, nth_error its i = Some x -> i < length (map key its) /\ nth i (map key its) ([], false, []) = key x).
  { intros i x Hi. rewrite map_length. split; [apply nth_error_Some; congruence|].
    rewrite (nth_indep _ _ (key x)) by (rewrite map_length; apply nth_error_Some; congruence). rewrite map_nth. f_equal. apply nth_error_nth. auto. }
  apply (index_front eq_dec ordn Hordn _ (const_dom q dim (map key its))).
  - intros i j x y Hi Hj. destruct (Hn i x Hi) as [Li Ei], (Hn j y Hj) as [Lj Ej]. rewrite const_dom_iff, Ei, Ej by auto. tauto.
  - (* outside the list the key is the default one, so transitivity holds everywhere *)
    apply (loop_front Nat.eq_dec ordn Hordn); [|apply seq_NoDup].
    assert (G : forall j i, const_dom q dim (map key its) j i = true <-> beats q dim (nth j (map key its) ([], false, [])) (nth i (map key its) ([], false, []))).
    { intros j i. clear. unfold const_dom, beats. set (fits := map key its). set (x := map _ fits).
      assert (E : forall p, nth p x [] = fst (fst (nth p fits ([], false, [])))).
      { intro p. unfold x. change [] with ((fun f : list Z * bool * list Z => fst (fst f)) ([], false, [])) at 1. apply map_nth. }
      pose proof (ndom_iff q dim x j i) as N1. rewrite !E in N1.
      destruct (snd (fst (nth j fits _))), (snd (fst (nth i fits _))); cbn [andb negb]; rewrite ?andb_true_r, ?andb_false_r.
      - destruct (negb (ndom q dim x j i)); [tauto|]. destruct (negb (ndom q dim x i j)); rewrite <- N1; tauto.
      - tauto.
      - split; [discriminate|tauto].
      - rewrite negb_true_iff, Z.ltb_ge. unfold violation, sumz. tauto. }
    intros a b c. rewrite !G. apply beats_trans.
Qed.
Lemma const_front (key : A -> list Z * bool * list Z) q dim items : items <> [] -> (forall x, In x items -> length (fst (fst (key x))) = dim) ->
  exists R, const_non_dominated_front eq_dec ord ordn key q items = Ok R /\ is_front (fun a b => beats q dim (key a) (key b)) items R.
Proof.
  intros Hn Hd. apply (merge_front ord Hord _ (fun x => length (fst (fst (key x))) = dim)); auto; [intros a b c; apply beats_trans|lia|].
  intros its _ Hq. apply const_arr_front; auto.
Qed.
End Const.
