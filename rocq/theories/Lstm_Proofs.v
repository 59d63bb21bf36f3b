(** C58: the forward pass is the textbook recurrence, the backward pass its adjoint. *)
From Coq Require Import Ring.
From Verif Require Import Base RingOps Net_Model Net_Spec Conn_Adjoint Lstm_Model Lstm_Spec.

Lemma fupd_same {A} (b : nat -> A) o a : fupd b o a o = a.
Proof. unfold fupd. rewrite Nat.eqb_refl. reflexivity. Qed.
Lemma fupd_other {A} (b : nat -> A) o a o' : o' <> o -> fupd b o a o' = b o'.
Proof. intro H. unfold fupd. apply Nat.eqb_neq in H. rewrite H. reflexivity. Qed.

Section LstmProofs.
Context {K : Type} {Ops : RingOps K} {Lw : RingLaws K}.
Add Ring Kring58 : (@rlaws K Ops Lw).
Notation vec := (@vec K).
Local Open Scope r_scope.
Context (f fprime g gprime h hprime : K -> K) (dim : nat) (peep : bool).

(** peephole weights, zero without peepholes *)
Definition pw (p : vec) (q : nat) : K := if peep then p q else 0.
Definition cst (p : vec) (X : nat -> vec) (i t : nat) : K :=
  cell_state f g (pw p i) (pw p (dim + i)) (fun t => X t i) (fun t => X t (dim + i)%nat) (fun t => X t (dim * 2 + i)%nat) t.
Definition cout (p : vec) (X : nat -> vec) (i t : nat) : K :=
  cell_out f g h (pw p i) (pw p (dim + i)) (pw p (dim * 2 + i)) (fun t => X t i) (fun t => X t (dim + i)%nat)
    (fun t => X t (dim * 2 + i)%nat) (fun t => X t (dim * 3 + i)%nat) t.
Definition ca p (X : nat -> vec) i t := X t i + pw p i * cst p X i t.
Definition cb p (X : nat -> vec) i t := X t (dim + i)%nat + pw p (dim + i) * cst p X i t.
Definition cq p (X : nat -> vec) i t := X t (dim * 3 + i)%nat + pw p (dim * 2 + i) * cst p X i (S t).

Lemma cst_S p X i t : cst p X i (S t) = f (ca p X i t) * g (X t (dim * 2 + i)%nat) + f (cb p X i t) * cst p X i t.
Proof. reflexivity. Qed.

(** row o of the forward buffers holds the values of the recurrence at step o *)
Definition row_ok (p : vec) (X : nat -> vec) (r : @frow K) (o : nat) : Prop := forall i,
  ingatex r i = ca p X i o /\ forgetgatex r i = cb p X i o /\ outgatex r i = cq p X i o /\
  ingate r i = f (ca p X i o) /\ forgetgate r i = f (cb p X i o) /\ outgate r i = f (cq p X i o) /\
  state r i = cst p X i (S o).

Lemma forward_row p X o st : (o <> 0%nat -> forall i, state (frows st (o - 1)) i = cst p X i o) ->
  let '(st1, y) := lstm_forward f g h dim peep p o (X o) st in
  frows st1 = fupd (frows st) o (frows st1 o) /\ erows st1 = erows st /\ lderivs st1 = lderivs st /\
  maxoffset st1 = max (o + 1) (maxoffset st) /\ row_ok p X (frows st1 o) o /\ (forall i, y i = cout p X i o).
Proof.
  intro Hp. unfold lstm_forward. cbn [frows erows lderivs maxoffset]. rewrite !fupd_same.
  assert (Hall : forall i,
    (if peep && (0 <? o)%nat then X o i + p i * state (frows st (o - 1)) i else X o i) = ca p X i o /\
    (if peep && (0 <? o)%nat then X o (dim + i)%nat + p (dim + i)%nat * state (frows st (o - 1)) i else X o (dim + i)%nat) = cb p X i o).
  { intro i. unfold ca, cb, pw. destruct (Nat.ltb_spec 0 o) as [Ho|Ho].
    - rewrite (Hp ltac:(lia)). destruct peep; cbn; split; ring.
    - assert (o = 0%nat) by lia. subst o. unfold cst. cbn. destruct peep; cbn; split; ring. }
  assert (Hs : forall i, let ig := f (if peep && (0 <? o)%nat then X o i + p i * state (frows st (o - 1)) i else X o i) in
     let fg := f (if peep && (0 <? o)%nat then X o (dim + i)%nat + p (dim + i)%nat * state (frows st (o - 1)) i else X o (dim + i)%nat) in
     (if (0 <? o)%nat then ig * g (X o (dim * 2 + i)%nat) + fg * state (frows st (o - 1)) i else ig * g (X o (dim * 2 + i)%nat)) = cst p X i (S o)).
  { intro i. destruct (Hall i) as [Ha Hb]. cbn zeta. rewrite Ha, Hb, cst_S.
    destruct (Nat.ltb_spec 0 o) as [Ho|Ho]; [rewrite (Hp ltac:(lia)); reflexivity|].
    assert (o = 0%nat) by lia. subst o. unfold cst at 1. cbn. ring. }
  assert (Hq : forall i s, s = cst p X i (S o) -> (if peep then X o (dim * 3 + i)%nat + p (dim * 2 + i)%nat * s else X o (dim * 3 + i)%nat) = cq p X i o).
  { intros i s ->. unfold cq, pw. destruct peep; ring. }
  split; [reflexivity|]. split; [reflexivity|]. split; [reflexivity|]. split; [reflexivity|]. split.
  - intro i. destruct (Hall i) as [Ha Hb]. specialize (Hs i). cbn zeta in Hs.
    cbn [ingatex forgetgatex outgatex ingate forgetgate outgate state].
    rewrite (Hq i _ Hs). rewrite Hs, Ha, Hb. repeat split.
  - intro i. specialize (Hs i). cbn zeta in Hs. rewrite (Hq i _ Hs), Hs. reflexivity.
Qed.

Lemma forwards_rows p X T : forall st,
  let '(st1, Y) := lstm_forwards f g h dim peep p X T st in
  (forall o, (o < T)%nat -> row_ok p X (frows st1 o) o /\ forall i, Y o i = cout p X i o) /\
  (forall o, (T <= o)%nat -> frows st1 o = frows st o) /\ erows st1 = erows st /\ lderivs st1 = lderivs st /\
  maxoffset st1 = max T (maxoffset st).
Proof.
  induction T as [|T IH]; intro st; cbn [lstm_forwards].
  - repeat split; auto; try lia.
  - specialize (IH st). destruct (lstm_forwards f g h dim peep p X T st) as [st1 Y]. destruct IH as (Hr & Ho & He & Hd & Hm).
    pose proof (forward_row p X T st1) as HF.
    assert (Hp : T <> 0%nat -> forall i, state (frows st1 (T - 1)) i = cst p X i T).
    { intros HT i. destruct (Hr (T - 1)%nat ltac:(lia)) as [Hk _]. destruct (Hk i) as (_ & _ & _ & _ & _ & _ & ->). f_equal. lia. }
    specialize (HF Hp). destruct (lstm_forward f g h dim peep p T (X T) st1) as [st2 y]. destruct HF as (Hf & He2 & Hd2 & Hm2 & Hrow & Hy).
    split; [|split; [|split; [|split]]].
    + intros o Hlt. destruct (Nat.eq_dec o T) as [->|Hne].
      * rewrite fupd_same. auto.
      * rewrite Hf. rewrite !fupd_other by auto. apply Hr. lia.
    + intros o Hle. rewrite Hf, fupd_other by lia. apply Ho. lia.
    + congruence.
    + congruence.
    + rewrite Hm2, Hm. lia.
Qed.

(** tangents of the recurrence *)
Section Tangent.
Context (p dp : vec) (X dX : nat -> vec).
Definition dca (ds : K) i t := dX t i + pw dp i * cst p X i t + pw p i * ds.
Definition dcb (ds : K) i t := dX t (dim + i)%nat + pw dp (dim + i) * cst p X i t + pw p (dim + i) * ds.
Fixpoint dcst (i t : nat) : K :=
  match t with
  | O => 0
  | S t => let ds := dcst i t in
      fprime (ca p X i t) * dca ds i t * g (X t (dim * 2 + i)%nat) + f (ca p X i t) * (gprime (X t (dim * 2 + i)%nat) * dX t (dim * 2 + i)%nat)
      + (fprime (cb p X i t) * dcb ds i t * cst p X i t + f (cb p X i t) * ds)
  end.
Definition dcq i t := dX t (dim * 3 + i)%nat + pw dp (dim * 2 + i) * cst p X i (S t) + pw p (dim * 2 + i) * dcst i (S t).
Definition dcout i t := fprime (cq p X i t) * dcq i t * h (cst p X i (S t)) + f (cq p X i t) * (hprime (cst p X i (S t)) * dcst i (S t)).

(** what step o of the backward pass takes over from step o+1 *)
Definition carry (st : @lstm K) (o i : nat) : K :=
  stateError (erows st o) i * forgetgate (frows st o) i +
  (ingateError (erows st o) i * pw p i + forgetgateError (erows st o) i * pw p (dim + i)).

Lemma backward_step E t st : (forall o, (o <= t)%nat -> row_ok p X (frows st o) o) -> maxoffset st <> t ->
  (t = 0%nat -> forall i, forgetgateError (erows st 0) i = 0) ->
  let '(st1, J) := lstm_backward fprime g gprime h hprime dim peep p t E (X t) st in
  frows st1 = frows st /\ maxoffset st1 = maxoffset st /\ (forall o, o <> t -> erows st1 o = erows st o) /\
  forall i, (i < dim)%nat ->
    E i * dcout i t + carry st (S t) i * dcst i (S t) =
    J i * dX t i + J (dim + i)%nat * dX t (dim + i)%nat + J (dim * 2 + i)%nat * dX t (dim * 2 + i)%nat + J (dim * 3 + i)%nat * dX t (dim * 3 + i)%nat
    + ((lderivs st1 i - lderivs st i) * pw dp i + (lderivs st1 (dim + i)%nat - lderivs st (dim + i)%nat) * pw dp (dim + i)
       + (lderivs st1 (dim * 2 + i)%nat - lderivs st (dim * 2 + i)%nat) * pw dp (dim * 2 + i))
    + carry st1 t i * dcst i t.
Proof.
  intros Hrow Hmo Hz. unfold lstm_backward. unfold isLastTimestep. apply Nat.eqb_neq in Hmo. rewrite Hmo.
  cbn [frows erows lderivs maxoffset]. split; [reflexivity|]. split; [reflexivity|]. split; [intros o Ho; apply fupd_other; auto|].
  intros i Hi. unfold carry. cbn [frows erows]. rewrite !fupd_same. cbn [ingateError outgateError forgetgateError stateError].
  assert (B1 : (i <? dim)%nat = true) by (apply Nat.ltb_lt; lia).
  assert (B2 : (dim + i <? dim)%nat = false) by (apply Nat.ltb_ge; lia).
  assert (B3 : (dim + i <? dim * 2)%nat = true) by (apply Nat.ltb_lt; lia).
  assert (B4 : (dim * 2 + i <? dim)%nat = false) by (apply Nat.ltb_ge; lia).
  assert (B5 : (dim * 2 + i <? dim * 2)%nat = false) by (apply Nat.ltb_ge; lia).
  assert (B6 : (dim * 2 + i <? dim * 3)%nat = true) by (apply Nat.ltb_lt; lia).
  assert (B7 : (dim * 3 + i <? dim)%nat = false) by (apply Nat.ltb_ge; lia).
  assert (B8 : (dim * 3 + i <? dim * 2)%nat = false) by (apply Nat.ltb_ge; lia).
  assert (B9 : (dim * 3 + i <? dim * 3)%nat = false) by (apply Nat.ltb_ge; lia).
  rewrite B1, B2, B3, B4, B5, B6, B7, B8, B9.
  replace (dim + i - dim)%nat with i by lia. replace (dim * 2 + i - dim * 2)%nat with i by lia. replace (dim * 3 + i - dim * 3)%nat with i by lia.
  destruct (Hrow t ltac:(lia) i) as (-> & -> & -> & -> & -> & -> & ->).
  replace (t + 1)%nat with (S t) by lia.
  assert (Hprev : t <> 0%nat -> state (frows st (t - 1)) i = cst p X i t).
  { intro Ht. destruct (Hrow (t - 1)%nat ltac:(lia) i) as (_ & _ & _ & _ & _ & _ & ->). f_equal. lia. }
  unfold dcout, dcq. cbn [dcst]. unfold dca, dcb.
  generalize (ca p X i t) (cb p X i t) (cq p X i t) (cst p X i (S t)). intros a b q s.
  destruct (Nat.ltb_spec 0 t) as [Ht|Ht].
  - rewrite (Hprev ltac:(lia)). generalize (cst p X i t) (dcst i t). intros s' ds. clear -Lw.
    unfold pw. destruct peep; cbn [negb]; ring.
  - assert (t = 0%nat) by lia. subst t. rewrite (Hz eq_refl i).
    change (dcst i 0) with (0 : K). change (cst p X i 0) with (0 : K). clear -Lw.
    unfold pw. destruct peep; cbn [negb]; ring.
Qed.

Definition dterm (J : nat -> vec) i t : K :=
  J t i * dX t i + J t (dim + i)%nat * dX t (dim + i)%nat + J t (dim * 2 + i)%nat * dX t (dim * 2 + i)%nat + J t (dim * 3 + i)%nat * dX t (dim * 3 + i)%nat.

Lemma backwards_cell E T : forall st, (forall o, (o < T)%nat -> row_ok p X (frows st o) o) -> (T <= maxoffset st)%nat ->
  (forall i, forgetgateError (erows st 0) i = 0) ->
  let '(st1, J) := lstm_backwards fprime g gprime h hprime dim peep p X E T st in
  forall i, (i < dim)%nat ->
    sumn T (fun t => E t i * dcout i t) + carry st T i * dcst i T =
    sumn T (dterm J i)
    + ((lderivs st1 i - lderivs st i) * pw dp i + (lderivs st1 (dim + i)%nat - lderivs st (dim + i)%nat) * pw dp (dim + i)
       + (lderivs st1 (dim * 2 + i)%nat - lderivs st (dim * 2 + i)%nat) * pw dp (dim * 2 + i)).
Proof.
  induction T as [|t IH]; intros st Hrow Hmo Hz; cbn [lstm_backwards].
  - intros i Hi. cbn. ring.
  - pose proof (backward_step (E t) t st ltac:(intros; apply Hrow; lia) ltac:(lia) ltac:(auto)) as HB.
    destruct (lstm_backward fprime g gprime h hprime dim peep p t (E t) (X t) st) as [st1 e].
    destruct HB as (Hf & Hm & He & Hid).
    destruct t as [|t'].
    + cbn [lstm_backwards]. intros i Hi. specialize (Hid i Hi). cbn [sumn]. unfold dterm. rewrite fupd_same.
      change (dcst i 0) with (0 : K) in Hid. transitivity (E 0%nat i * dcout i 0 + carry st 1 i * dcst i 1); [ring|]. rewrite Hid. ring.
    + set (t := S t') in *.
      specialize (IH st1). rewrite Hf, Hm in IH.
      assert (Hz1 : forall i, forgetgateError (erows st1 0) i = 0) by (intro i; rewrite (He 0%nat) by (unfold t; lia); apply Hz).
      specialize (IH ltac:(intros; apply Hrow; lia) ltac:(lia) Hz1).
      destruct (lstm_backwards fprime g gprime h hprime dim peep p X E t st1) as [st2 J]. intros i Hi.
      specialize (Hid i Hi). specialize (IH i Hi). cbn [sumn].
      rewrite (sumn_ext t (dterm (fupd J t e) i) (dterm J i)) by (intros k Hk; unfold dterm; rewrite fupd_other by lia; reflexivity).
      unfold dterm at 2. rewrite fupd_same.
      transitivity (sumn t (fun t0 => E t0 i * dcout i t0) + (E t i * dcout i t + carry st (S t) i * dcst i (S t))); [ring|].
      rewrite Hid.
      transitivity ((sumn t (fun t0 => E t0 i * dcout i t0) + carry st1 t i * dcst i t) +
        (e i * dX t i + e (dim + i)%nat * dX t (dim + i)%nat + e (dim * 2 + i)%nat * dX t (dim * 2 + i)%nat + e (dim * 3 + i)%nat * dX t (dim * 3 + i)%nat
         + ((lderivs st1 i - lderivs st i) * pw dp i + (lderivs st1 (dim + i)%nat - lderivs st (dim + i)%nat) * pw dp (dim + i)
            + (lderivs st1 (dim * 2 + i)%nat - lderivs st (dim * 2 + i)%nat) * pw dp (dim * 2 + i)))); [ring|].
      rewrite IH. ring.
Qed.
End Tangent.

Lemma sumn4 n F : sumn (4 * n) F = sumn n (fun i => F i + F (n + i)%nat + F (n * 2 + i)%nat + F (n * 3 + i)%nat).
Proof.
  replace (4 * n)%nat with (n + (n + (n + n)))%nat by lia. rewrite !sumn_app, !sumn_add.
  rewrite (sumn_ext n (fun i => F (n + (n + i))%nat) (fun i => F (n * 2 + i)%nat)) by (intros; f_equal; lia).
  rewrite (sumn_ext n (fun i => F (n + (n + (n + i)))%nat) (fun i => F (n * 3 + i)%nat)) by (intros; f_equal; lia). ring.
Qed.
Lemma sumn3 n F : sumn (3 * n) F = sumn n (fun i => F i + F (n + i)%nat + F (n * 2 + i)%nat).
Proof.
  replace (3 * n)%nat with (n + (n + n))%nat by lia. rewrite !sumn_app, !sumn_add.
  rewrite (sumn_ext n (fun i => F (n + (n + i))%nat) (fun i => F (n * 2 + i)%nat)) by (intros; f_equal; lia). ring.
Qed.

(** the adjoint identity of a whole pass *)
Lemma pass_adjoint p dp X dX E T st : 
  let '(st1, Y) := lstm_forwards f g h dim peep p X T (lstm_reset st) in
  let '(st2, J) := lstm_backwards fprime g gprime h hprime dim peep p X E T st1 in
  sumn T (fun t => dot dim (E t) (fun i => dcout p dp X dX i t)) =
  sumn T (fun t => dot (4 * dim) (J t) (dX t)) + dot (3 * dim) (fun q => lderivs st2 q - lderivs st q) (pw dp).
Proof.
  pose proof (forwards_rows p X T (lstm_reset st)) as HF.
  destruct (lstm_forwards f g h dim peep p X T (lstm_reset st)) as [st1 Y]. destruct HF as (Hr & Ho & He & Hd & Hm).
  pose proof (backwards_cell p dp X dX E T st1 (fun o Ho => proj1 (Hr o Ho)) ltac:(lia) ltac:(intro; rewrite He; reflexivity)) as HB.
  destruct (lstm_backwards fprime g gprime h hprime dim peep p X E T st1) as [st2 J].
  change (lderivs (lstm_reset st)) with (lderivs st) in Hd. rewrite Hd in HB.
  unfold dot. rewrite sumn_swap. rewrite sumn3.
  rewrite (sumn_ext T (fun t => sumn (4 * dim) (fun j => J t j * dX t j)) (fun t => sumn dim (fun i => dterm dX J i t))).
  2:{ intros t Ht. rewrite sumn4. reflexivity. }
  rewrite (sumn_swap T dim). rewrite <- sumn_add. apply sumn_ext. intros i Hi.
  specialize (HB i Hi). unfold carry in HB. rewrite He in HB. cbn [erows lstm_reset zerow stateError ingateError forgetgateError] in HB. unfold zvec in HB.
  etransitivity; [|exact (eq_trans HB eq_refl)]. ring.
Qed.
End LstmProofs.
