(** The ladder of handicaps. *)
From Coq Require Import QArith Qround Lqa.
From Verif Require Import Base Dict Duel_Model Duel_Spec.

Lemma Qlt_bool_iff x y : Qlt_bool x y = true <-> (x < y)%Q.
Proof.
  unfold Qlt_bool. rewrite negb_true_iff. destruct (Qle_bool y x) eqn:E.
  - apply Qle_bool_iff in E. split; [discriminate | intros H; exfalso; apply (Qlt_not_le _ _ H E)].
  - split; [| auto]. intros _. apply Qnot_le_lt. intros H. apply Qle_bool_iff in H. congruence.
Qed.
Definition tally (l : glog) (h : Z) : hres := {| h_w := wins l h; h_t := plays l h; h_wm := wmoves l h; h_lm := lmoves l h |}.
Lemma inject_nz z : (z <> 0)%Z -> ~ inject_Z z == 0.
Proof. intros H E. apply H. unfold Qeq in E. cbn in E. lia. Qed.
Lemma winProp1_rate l h : winProp1 (tally l h) == rate l h.
Proof.
  unfold winProp1, rate, tally. cbn [h_w h_t h_wm h_lm]. destruct (Z.ltb_spec 0 (plays l h)) as [H|H]; destruct (Z_le_dec (plays l h) 0) as [H'|H']; try lia; [| reflexivity].
  pose proof (inject_nz (plays l h) ltac:(lia)) as N.
  destruct (Z.ltb_spec 0 (wmoves l h)) as [A|A]; destruct (Z_lt_dec 0 (wmoves l h)) as [A'|A']; try lia;
  destruct (Z.ltb_spec 0 (lmoves l h)) as [B|B]; destruct (Z_lt_dec 0 (lmoves l h)) as [B'|B']; try lia;
  try pose proof (inject_nz (wmoves l h) ltac:(lia)) as NA; try pose proof (inject_nz (lmoves l h) ltac:(lia)) as NB;
  rewrite ?inject_Z_mult; field; auto.
Qed.

Lemma zcount_app {X} (f : X -> bool) l x : zcount f (l ++ [x]) = (zcount f l + if f x then 1 else 0)%Z.
Proof. unfold zcount. rewrite filter_app, app_length. cbn [filter]. destruct (f x); cbn [length]; lia. Qed.
Lemma zsum_app {X} (f : X -> Z) l x : zsum f (l ++ [x]) = (zsum f l + f x)%Z.
Proof. unfold zsum. induction l as [|a l IH]; cbn [app fold_right]; [lia |]. rewrite IH. lia. Qed.
Lemma tally_app l h w m h' : tally (l ++ [(h, w, m)]) h' =
  if (h =? h')%Z then (if w then {| h_w := wins l h' + 1; h_t := plays l h' + 1; h_wm := wmoves l h' + m; h_lm := lmoves l h' |}
                       else {| h_w := wins l h'; h_t := plays l h' + 1; h_wm := wmoves l h'; h_lm := lmoves l h' + m |})
  else tally l h'.
Proof.
  unfold tally, wins, plays, wmoves, lmoves. rewrite !zcount_app, !zsum_app. cbn [e_h e_win e_mv fst snd].
  destruct (h =? h')%Z; destruct w; cbn [andb negb]; f_equal; lia.
Qed.
Lemma top_app l e : (-1 <= e_h e)%Z -> top_played (l ++ [e]) = Z.max (top_played l) (e_h e).
Proof.
  intros H. unfold top_played. induction l as [|a l IH]; cbn [app fold_right]; [lia |]. rewrite IH. now rewrite Z.max_assoc.
Qed.
Lemma fold_max_seq n a b : (a <= b)%nat -> fold_left Nat.max (seq b (S n)) a = (b + n)%nat.
Proof. revert a b. induction n as [|n IH]; intros a b H; [cbn; lia |]. change (seq b (S (S n))) with (b :: seq (S b) (S n)). cbn [fold_left]. rewrite IH by lia. lia. Qed.

(** the results table after the games of l, with m levels opened above 0 *)
Record hinv (d : dict hres) (m : nat) (l : glog) (cur : Z) : Prop := {
  hi_keys : dkeys d = seq 0 (S m);
  hi_get : forall h, (h <= m)%nat -> dget h d = Some (tally l (Z.of_nat h));
  hi_top : top_played l = (Z.of_nat m - 1)%Z;
  hi_cur : (0 <= cur <= Z.of_nat m)%Z;
  hi_nn : forall e, In e l -> (0 <= e_h e)%Z }.
Lemma hget_ok d m l cur h : hinv d m l cur -> (0 <= h <= Z.of_nat m)%Z -> hget d h = Ok (tally l h).
Proof.
  intros I H. unfold hget. destruct (Z.ltb_spec h 0); [lia |]. rewrite (hi_get _ _ _ _ I) by lia. now rewrite Z2Nat.id by lia.
Qed.
Lemma best_ok d m l cur : hinv d m l cur -> bestHandicap d = top_played l.
Proof. intros I. unfold bestHandicap. rewrite (hi_keys _ _ _ _ I), (hi_top _ _ _ _ I), fold_max_seq by lia. reflexivity. Qed.

Section Ladder.
Variable c : hcfg.
Let ev := hc_evals c.
Let top := hc_top c.
Lemma up_ok d m l cur h : hinv d m l cur -> (0 <= h <= Z.of_nat m)%Z -> exists b, goUp c d h = Ok b /\ (b = true <-> up ev l h).
Proof.
  intros I H. unfold goUp. rewrite (hget_ok d m l cur h I H). cbn [rbind]. eexists. split; [reflexivity |].
  rewrite andb_true_iff, Qlt_bool_iff, winProp1_rate, Z.leb_le. reflexivity.
Qed.
Lemma down_ok d m l cur h : hinv d m l cur -> (0 <= h <= Z.of_nat m)%Z -> exists b, goDown c d h = Ok b /\ (b = true <-> down ev l h).
Proof.
  intros I H. unfold goDown. rewrite (hget_ok d m l cur h I H). cbn [rbind]. eexists. split; [reflexivity |].
  rewrite andb_true_iff, Qlt_bool_iff, winProp1_rate, Z.leb_le. reflexivity.
Qed.
Lemma fluct_ok d m l cur : hinv d m l cur -> exists b, fluctuating c d = Ok b /\ (b = true <-> unsettled ev l).
Proof.
  intros I. unfold fluctuating, unsettled. rewrite (best_ok d m l cur I). cbv zeta. pose proof (hi_top _ _ _ _ I) as T.
  destruct (Z.ltb_spec 0 (top_played l)) as [H|H]; [| exists false; split; [auto | split; [discriminate | lia]]].
  rewrite (hget_ok d m l cur (top_played l) I) by lia. cbn [rbind]. change (h_t (tally l (top_played l))) with (plays l (top_played l)). fold ev.
  destruct (Z.leb_spec (2 * ev) (plays l (top_played l))) as [H1|H1]; [| exists false; split; [auto | split; [discriminate | lia]]].
  rewrite (hget_ok d m l cur (top_played l - 1) I) by lia. cbn [rbind]. change (h_t (tally l (top_played l - 1))) with (plays l (top_played l - 1)).
  destruct (Z.leb_spec (2 * ev) (plays l (top_played l - 1))) as [H2|H2]; [| exists false; split; [auto | split; [discriminate | lia]]].
  destruct (up_ok d m l cur (top_played l - 1) I ltac:(lia)) as (u & -> & Hu). cbn [rbind].
  destruct (down_ok d m l cur (top_played l) I ltac:(lia)) as (w & Hw & Hw').
  destruct u; [exists w; split; [auto |]; intuition | exists false; split; [auto |]; split; [discriminate |]; intuition congruence].
Qed.
Lemma stable_ok d m l cur : hinv d m l cur -> exists b, stable c d cur = Ok b /\ (b = true <-> settled ev top l cur).
Proof.
  intros I. unfold stable, settled. destruct (fluct_ok d m l cur I) as (f & -> & Hf). cbn [rbind].
  destruct f; [exists true; split; [auto |]; intuition |].
  pose proof (hi_cur _ _ _ _ I) as Hc. rewrite (hget_ok d m l cur cur I Hc). cbn [rbind].
  destruct (up_ok d m l cur cur I Hc) as (u & -> & Hu). cbn [rbind]. destruct (down_ok d m l cur cur I Hc) as (w & -> & Hw). cbn [rbind].
  eexists. split; [reflexivity |]. rewrite andb_true_iff, !orb_true_iff, !andb_true_iff, !negb_true_iff, Z.leb_le, Z.leb_le, Z.eqb_eq. change (h_t (tally l cur)) with (plays l cur). fold ev top.
  assert (~ unsettled ev l) by (intros X; apply Hf in X; discriminate).
  assert (u = false <-> ~ up ev l cur) by (rewrite <- Hu; destruct u; split; congruence).
  assert (w = false <-> ~ down ev l cur) by (rewrite <- Hw; destruct w; split; congruence). tauto.
Qed.

Lemma top_ge l e : In e l -> (e_h e <= top_played l)%Z.
Proof. unfold top_played. induction l as [|a l IH]; intros []; cbn [fold_right]; [subst; lia |]. specialize (IH H). lia. Qed.
Lemma zcount_none {X} (f : X -> bool) l : (forall e, In e l -> f e = false) -> zcount f l = 0%Z.
Proof. intros H. unfold zcount. induction l as [|a l IH]; [reflexivity |]. cbn [filter]. rewrite (H a) by now left. apply IH. intros; apply H; now right. Qed.
Lemma zsum_none {X} (f : X -> Z) l : (forall e, In e l -> f e = 0%Z) -> zsum f l = 0%Z.
Proof. intros H. unfold zsum. induction l as [|a l IH]; [reflexivity |]. cbn [fold_right]. rewrite (H a) by now left. apply IH. intros; apply H; now right. Qed.
Lemma tally_fresh l h : (top_played l < h)%Z -> tally l h = hzero.
Proof.
  intros H. assert (Z0 : forall e, In e l -> (e_h e =? h)%Z = false) by (intros e He; apply Z.eqb_neq; pose proof (top_ge l e He); lia).
  unfold tally, wins, plays, wmoves, lmoves, hzero. f_equal; (apply zcount_none || apply zsum_none); intros e He; rewrite (Z0 e He); reflexivity.
Qed.
Lemma dkeys_dset_in k v (d : dict hres) : In k (dkeys d) -> dkeys (dset k v d) = dkeys d.
Proof.
  unfold dkeys. induction d as [|[a b] d IH]; cbn [dset map In fst]; [intros [] |]. intros H. destruct (Nat.eqb_spec k a) as [->|N]; cbn [map fst]; [reflexivity |].
  f_equal. apply IH. destruct H; [congruence | auto].
Qed.
Lemma dkeys_dset_new k v (d : dict hres) : ~ In k (dkeys d) -> dkeys (dset k v d) = dkeys d ++ [k].
Proof.
  unfold dkeys. induction d as [|[a b] d IH]; cbn [dset map In fst app]; [auto |]. intros H. destruct (Nat.eqb_spec k a) as [->|N]; [tauto |]. cbn [map fst]. f_equal. apply IH. tauto.
Qed.

Lemma add_ok d m l cur w mv : hinv d m l cur -> exists d', addResult d cur w mv = Ok d' /\ hinv d' (Nat.max m (S (Z.to_nat cur))) (l ++ [(cur, w, mv)]) cur.
Proof.
  intros I. pose proof (hi_cur _ _ _ _ I) as Hc. pose proof (hi_keys _ _ _ _ I) as K. pose proof (hi_get _ _ _ _ I) as Gt. pose proof (hi_top _ _ _ _ I) as T.
  unfold addResult. set (k1 := S (Z.to_nat cur)).
  set (d1 := match dget k1 d with None => dset k1 hzero d | Some _ => d end).
  assert (I1 : dkeys d1 = seq 0 (S (Nat.max m k1)) /\ forall h, (h <= Nat.max m k1)%nat -> dget h d1 = Some (tally l (Z.of_nat h))).
  { unfold d1. destruct (dget k1 d) as [r|] eqn:E.
    - assert (k1 <= m)%nat by (assert (X : In k1 (dkeys d)) by (apply dget_keys; eauto); rewrite K, in_seq in X; lia).
      rewrite Nat.max_l by auto. auto.
    - assert (~ In k1 (dkeys d)) as N by now apply dget_none.
      assert (k1 = S m) as E1 by (rewrite K, in_seq in N; unfold k1 in *; lia). rewrite Nat.max_r by lia. split.
      + rewrite dkeys_dset_new, K by auto. rewrite E1. rewrite (seq_S (S m)). reflexivity.
      + intros h Hh. rewrite dget_dset. destruct (Nat.eqb_spec h k1) as [->|Nh]; [| apply Gt; lia]. rewrite tally_fresh; [reflexivity | lia]. }
  destruct I1 as [K1 G1].
  assert (Eg : hget d1 cur = Ok (tally l cur)).
  { unfold hget. destruct (Z.ltb_spec cur 0); [lia |]. rewrite G1 by (unfold k1; lia). now rewrite Z2Nat.id by lia. }
  cbv zeta. rewrite Eg. cbn [rbind]. eexists. split; [reflexivity |]. constructor.
  - rewrite dkeys_dset_in, K1; [reflexivity |]. rewrite K1, in_seq. unfold k1. lia.
  - intros h Hh. rewrite dget_dset, tally_app. destruct (Nat.eqb_spec h (Z.to_nat cur)) as [->|N].
    + rewrite Z2Nat.id, Z.eqb_refl by lia. f_equal.
    + destruct (Z.eqb_spec cur (Z.of_nat h)); [lia |]. now apply G1.
  - rewrite top_app by (cbn [e_h fst]; lia). cbn [e_h fst]. rewrite T. unfold k1. lia.
  - unfold k1. lia.
  - intros e He. apply in_app_or in He as [He|[<-|[]]]; [now apply (hi_nn _ _ _ _ I) | cbn [e_h fst]; lia].
Qed.
Lemma hinv_cur d m l cur cur' : hinv d m l cur -> (0 <= cur' <= Z.of_nat m)%Z -> hinv d m l cur'.
Proof. intros [] H. constructor; auto. Qed.

Variable play : nat -> Z -> result (bool * Z).
Lemma hloop_ok todo : (forall i h, exists w m, play i h = Ok (w, m)) -> forall d m l cur, hinv d m l cur -> ladder ev top play l cur ->
  exists d' cur' m' l', hloop c play todo (length l) cur d l = Ok (d', cur', l') /\ hinv d' m' l' cur' /\ ladder ev top play l' cur' /\
    (length l <= length l' <= length l + todo)%nat /\ ((length l' < length l + todo)%nat -> settled ev top l' cur').
Proof.
  intros HP. induction todo as [|todo IH]; intros d m l cur I L; cbn [hloop].
  - exists d, cur, m, l. split; [reflexivity |]. split; [exact I |]. split; [exact L |]. split; [lia | intros; lia].
  - destruct (stable_ok d m l cur I) as (b & -> & Hb). cbn [rbind]. destruct b.
    { exists d, cur, m, l. split; [reflexivity |]. split; [exact I |]. split; [exact L |]. split; [lia | intros _; now apply Hb]. }
    destruct (HP (length l) cur) as (w & mv & E). rewrite E. cbn [rbind fst snd].
    destruct (add_ok d m l cur w mv I) as (d1 & -> & I1). cbn [rbind].
    pose proof (hi_cur _ _ _ _ I1) as Hc. destruct (up_ok d1 _ _ cur cur I1 Hc) as (u & -> & Hu). cbn [rbind].
    destruct (down_ok d1 _ _ cur cur I1 Hc) as (dn & Ed & Hd).
    assert (Len : S (length l) = length (l ++ [(cur, w, mv)])) by (rewrite app_length; cbn; lia). rewrite Len.
    assert (NS : ~ settled ev top l cur) by (intros X; apply Hb in X; discriminate).
    assert (Go : forall cur', (0 <= cur' <= Z.of_nat (Nat.max m (S (Z.to_nat cur))))%Z -> next ev top (l ++ [(cur, w, mv)]) cur cur' ->
      exists d' cur'' m' l', hloop c play todo (length (l ++ [(cur, w, mv)])) cur' d1 (l ++ [(cur, w, mv)]) = Ok (d', cur'', l') /\ hinv d' m' l' cur'' /\ ladder ev top play l' cur'' /\
        (length l <= length l' <= length l + S todo)%nat /\ ((length l' < length l + S todo)%nat -> settled ev top l' cur'')).
    { intros cur' Hc' Nx. destruct (IH d1 _ _ cur' (hinv_cur _ _ _ _ cur' I1 Hc') (ladder_game ev top play l cur w mv cur' L NS E Nx)) as (d' & c' & m' & l' & Q1 & Q2 & Q3 & Q4 & Q5).
      exists d', c', m', l'. split; [exact Q1 |]. split; [exact Q2 |]. split; [exact Q3 |]. split; [lia | intros; apply Q5; lia]. }
    fold top in Go |- *. destruct (u && (cur <? top)%Z) eqn:EU.
    + apply andb_true_iff in EU as [U1 U2]. apply Z.ltb_lt in U2. apply Go; [lia |]. left. repeat split; auto; now apply Hu.
    + assert (NU : ~ (up ev (l ++ [(cur, w, mv)]) cur /\ (cur < top)%Z)) by (intros [U1 U2]; apply Hu in U1; apply Z.ltb_lt in U2; rewrite U1, U2 in EU; discriminate).
      rewrite Ed. cbn [rbind]. destruct (dn && (1 <? cur)%Z) eqn:ED.
      * apply andb_true_iff in ED as [D1 D2]. apply Z.ltb_lt in D2. apply Go; [lia |]. right; left. split; [auto |]. split; [now apply Hd |]. lia.
      * apply Go; [lia |]. right; right. split; [auto |]. split; [| auto]. intros [D1 D2]. apply Hd in D1. apply Z.ltb_lt in D2. rewrite D1, D2 in ED. discriminate.
Qed.
Lemma score_ok d m l cur : hinv d m l cur -> l <> [] -> exists v, hscore c d = Ok v /\ ladder_score ev l v.
Proof.
  intros I N. unfold hscore, ladder_score. cbv zeta. destruct (fluct_ok d m l cur I) as (f & -> & Hf). cbn [rbind]. rewrite (best_ok d m l cur I).
  pose proof (hi_top _ _ _ _ I) as T. unfold winProp.
  assert (P : (0 <= top_played l)%Z -> hget d (top_played l) = Ok (tally l (top_played l))) by (intros; apply (hget_ok d m l cur); auto; lia).
  destruct f; cbn [negb].
  - pose proof (proj1 Hf eq_refl) as U. pose proof U as (U1 & _). rewrite P by lia. cbn [rbind]. rewrite (hget_ok d m l cur) by (auto; lia). cbn [rbind].
    eexists. split; [reflexivity |]. right. split; [auto |]. now rewrite !winProp1_rate.
  - assert (0 <= top_played l)%Z.
    { destruct l as [|e l']; [congruence |]. pose proof (hi_nn _ _ _ _ I e (or_introl eq_refl)). pose proof (top_ge (e :: l') e (or_introl eq_refl)). lia. }
    rewrite P by auto. cbn [rbind]. eexists. split; [reflexivity |]. left. split; [intros X; apply Hf in X; discriminate |]. now rewrite winProp1_rate.
Qed.

(** consequences of the rule *)
Lemma ladder_range l h : ladder ev top play l h -> (0 <= h <= Z.max 0 top)%Z /\ forall e, In e l -> (0 <= e_h e <= Z.max 0 top)%Z.
Proof.
  induction 1 as [|l h w m h' L [IH1 IH2] NS E Nx]; [split; [lia | intros e []] |]. split.
  - destruct Nx as [(_ & A & B) | [(_ & _ & A & B) | (_ & _ & A)]]; lia.
  - intros e He. apply in_app_or in He as [He|[<-|[]]]; [auto | cbn [e_h fst]; lia].
Qed.
Lemma ladder_step l h i e : ladder ev top play l h -> nth_error l i = Some e ->
  (match nth_error l (S i) with Some e' => e_h e' | None => h end = e_h e - 1 \/
   match nth_error l (S i) with Some e' => e_h e' | None => h end = e_h e \/
   match nth_error l (S i) with Some e' => e_h e' | None => h end = e_h e + 1)%Z /\
  (1 <= e_h e -> 1 <= match nth_error l (S i) with Some e' => e_h e' | None => h end)%Z.
Proof.
  intros L. revert i e. induction L as [|l h w m h' L IH NS E Nx]; intros i e He; [destruct i; discriminate |].
  destruct (Nat.lt_ge_cases i (length l)) as [Hi|Hi].
  - rewrite nth_error_app1 in He by auto. specialize (IH i e He). destruct (Nat.eq_dec (S i) (length l)) as [Ei|Ni].
    + rewrite (proj2 (nth_error_None l (S i))) in IH by lia. rewrite nth_error_app2 by lia. rewrite Ei, Nat.sub_diag. cbn [nth_error e_h fst]. exact IH.
    + rewrite nth_error_app1 by lia. destruct (nth_error l (S i)) eqn:E1; [exact IH |]. apply nth_error_None in E1. lia.
  - rewrite nth_error_app2 in He by auto. destruct (i - length l)%nat as [|j] eqn:Ej; cbn [nth_error] in He; [| destruct j; discriminate]. injection He as <-.
    rewrite (proj2 (nth_error_None (l ++ [(h, w, m)]) (S i))) by (rewrite app_length; cbn; lia). cbn [e_h fst].
    destruct Nx as [(_ & A & B) | [(_ & _ & A & B) | (_ & _ & A)]]; lia.
Qed.
End Ladder.
