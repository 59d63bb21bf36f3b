(** Arrays, traces and updates (C66). *)
From Coq Require Import Reals Lra.
From Verif Require Import Base Functions_Model Functions_Proofs FiniteDiff_Proofs LinearFA_Model LinearFA_Spec.
Local Open Scope R_scope.

Lemma rzip_len f a b : length (rzip f a b) = Nat.min (length a) (length b).
Proof. revert b. induction a as [|x a IH]; intros [|y b]; cbn; auto. Qed.
Lemma nth_vadd a b j : length a = length b -> nth j (vadd a b) 0 = nth j a 0 + nth j b 0.
Proof.
  unfold vadd. revert b j. induction a as [|x a IH]; intros [|y b] j H; try discriminate; cbn [rzip].
  - destruct j; cbn; lra.
  - destruct j; cbn [nth]; [auto |]. apply IH. now injection H.
Qed.
Lemma nth_vsub a b j : length a = length b -> nth j (vsub a b) 0 = nth j a 0 - nth j b 0.
Proof.
  unfold vsub. revert b j. induction a as [|x a IH]; intros [|y b] j H; try discriminate; cbn [rzip].
  - destruct j; cbn; lra.
  - destruct j; cbn [nth]; [auto |]. apply IH. now injection H.
Qed.
Lemma nth_vscale c a j : nth j (vscale c a) 0 = c * nth j a 0.
Proof. unfold vscale. revert j. induction a as [|x a IH]; intros [|j]; cbn [map nth]; auto; lra. Qed.
Lemma vscale_len c a : length (vscale c a) = length a.
Proof. apply map_length. Qed.
Lemma vadd_len a b n : length a = n -> length b = n -> length (vadd a b) = n.
Proof. intros. unfold vadd. rewrite rzip_len. lia. Qed.
Lemma vsub_len a b n : length a = n -> length b = n -> length (vsub a b) = n.
Proof. intros. unfold vsub. rewrite rzip_len. lia. Qed.
Lemma vext (a b : vec) : length a = length b -> (forall j, nth j a 0 = nth j b 0) -> a = b.
Proof. intros L H. apply (vec_eq a b (length a)); auto. Qed.

(** inner products *)
Lemma rdot_nil_r a : rdot a [] = 0.
Proof. destruct a; reflexivity. Qed.
Lemma rdot_cons x a y b : rdot (x :: a) (y :: b) = x * y + rdot a b.
Proof. reflexivity. Qed.
Lemma rdot_comm a b : rdot a b = rdot b a.
Proof. revert b. induction a as [|x a IH]; intros [|y b]; auto. rewrite !rdot_cons, IH. lra. Qed.
Lemma rdot_vadd a b s : length a = length b -> rdot (vadd a b) s = rdot a s + rdot b s.
Proof.
  unfold vadd. revert b s. induction a as [|x a IH]; intros [|y b] [|z s] H; try discriminate; cbn [rzip]; try (unfold rdot; cbn; lra).
  rewrite !rdot_cons, IH by (now injection H). lra.
Qed.
Lemma rdot_vsub a b s : length a = length b -> rdot (vsub a b) s = rdot a s - rdot b s.
Proof.
  unfold vsub. revert b s. induction a as [|x a IH]; intros [|y b] [|z s] H; try discriminate; cbn [rzip]; try (unfold rdot; cbn; lra).
  rewrite !rdot_cons, IH by (now injection H). lra.
Qed.
Lemma rdot_vscale c a s : rdot (vscale c a) s = c * rdot a s.
Proof. unfold vscale. revert s. induction a as [|x a IH]; intros [|y s]; cbn [map]; try (unfold rdot; cbn; lra). rewrite !rdot_cons, IH. lra. Qed.
Lemma rdot_self s : rdot s s = sq_norm s.
Proof. unfold sq_norm. induction s as [|x s IH]; [reflexivity |]. rewrite rdot_cons, IH. reflexivity. Qed.
Lemma rdot_zeros_l k s : rdot (zeros k) s = 0.
Proof. unfold zeros. revert s. induction k as [|k IH]; intros [|y s]; try (unfold rdot; cbn; lra). cbn [repeat]. rewrite rdot_cons, IH. lra. Qed.
Lemma rdot_app a b c d : length a = length c -> rdot (a ++ b) (c ++ d) = rdot a c + rdot b d.
Proof.
  revert c. induction a as [|x a IH]; intros [|y c] H; try discriminate; cbn [app].
  - unfold rdot at 2. cbn. lra.
  - rewrite !rdot_cons, IH by (now injection H). lra.
Qed.

(** shapes *)
Lemma shape_row n m M i : shape n m M -> (i < n)%nat -> length (nth i M []) = m.
Proof. intros [L F] H. rewrite Forall_forall in F. apply F, nth_In. lia. Qed.
Lemma shape_zeros2 n m : shape n m (zeros2 n m).
Proof. split; [apply repeat_length |]. apply Forall_repeat, repeat_length. Qed.
Lemma nth_repeat0 {A} (d a : A) k j : nth j (repeat a k) d = if (j <? k)%nat then a else d.
Proof. revert j. induction k as [|k IH]; intros [|j]; cbn [repeat nth]; auto. rewrite IH. destruct (Nat.ltb_spec j k), (Nat.ltb_spec (S j) (S k)); auto; lia. Qed.
Lemma nth_upd {A} (d : A) i j (x : A) l : nth j (upd i x l) d = if (j =? i)%nat && (i <? length l)%nat then x else nth j l d.
Proof.
  revert i j. induction l as [|y l IH]; intros i j.
  - replace (i <? length (@nil A))%nat with false by (destruct i; reflexivity). rewrite Bool.andb_false_r. destruct i; auto.
  - destruct i as [|i], j as [|j]; cbn [upd nth length]; auto. rewrite IH. reflexivity.
Qed.
Lemma ent_zeros2 n m i j : ent (zeros2 n m) i j = 0.
Proof. unfold ent, zeros2, zeros. rewrite nth_repeat0. destruct (i <? n)%nat; [| destruct j; auto]. rewrite nth_repeat0. destruct (j <? m)%nat; auto. Qed.
Lemma upd_In {A} i (x y : A) l : In y (upd i x l) -> y = x \/ In y l.
Proof. revert i. induction l as [|z l IH]; intros [|i]; cbn [upd In]; auto; intros [H | H]; auto. destruct (IH _ H); auto. Qed.
Lemma upd_oob {A} i (x : A) l : (length l <= i)%nat -> upd i x l = l.
Proof. revert i. induction l as [|y l IH]; intros [|i] H; cbn [upd length] in *; auto; [lia |]. f_equal. apply IH. lia. Qed.
Lemma shape_addrow n m a v M : shape n m M -> length v = m -> shape n m (addrow a v M).
Proof.
  intros [L F] Hv. split; [unfold addrow; rewrite upd_length; auto |]. rewrite Forall_forall in *. intros r Hr. unfold addrow in Hr.
  destruct (Nat.ltb_spec a n) as [Ha | Ha].
  - apply upd_In in Hr as [-> | Hr]; [| auto]. apply vadd_len; [| auto]. apply F, nth_In. lia.
  - rewrite upd_oob in Hr by lia. auto.
Qed.
Lemma ent_addrow n m a v M i j : shape n m M -> length v = m -> (a < n)%nat -> ent (addrow a v M) i j = ent M i j + (if (a =? i)%nat then nth j v 0 else 0).
Proof.
  intros S Hv Ha. unfold ent, addrow. rewrite nth_upd. destruct S as [L F]. rewrite L, (proj2 (Nat.ltb_lt _ _) Ha).
  rewrite (Nat.eqb_sym a i). destruct (Nat.eqb_spec i a) as [-> |]; cbn [andb]; [| lra].
  rewrite nth_vadd; auto. rewrite (shape_row n m); auto. split; auto.
Qed.
Lemma shape_mscale n m c M : shape n m M -> shape n m (mscale c M).
Proof. intros [L F]. unfold mscale. split; [rewrite map_length; auto |]. apply Forall_map. eapply Forall_impl; [| exact F]. cbn. intros. rewrite vscale_len. auto. Qed.
Lemma nth_mscale c M i : nth i (mscale c M) [] = vscale c (nth i M []).
Proof. unfold mscale. change [] with (vscale c []). now rewrite map_nth. Qed.
Lemma ent_mscale c M i j : ent (mscale c M) i j = c * ent M i j.
Proof. unfold ent. rewrite nth_mscale. apply nth_vscale. Qed.
Lemma mzip_len f a b : length (mzip f a b) = Nat.min (length a) (length b).
Proof. revert b. induction a as [|x a IH]; intros [|y b]; cbn; auto. Qed.
Lemma shape_madd n m A B : shape n m A -> shape n m B -> shape n m (madd A B).
Proof.
  intros [LA FA] [LB FB]. unfold madd. split; [rewrite mzip_len; lia |]. clear n LA LB. revert B FB. induction A as [|x A IH]; intros [|y B] FB; cbn [mzip]; constructor.
  - inversion FA; inversion FB; subst. now apply vadd_len.
  - inversion FA; inversion FB; subst. apply IH; auto.
Qed.
Lemma nth_madd n m A B i : shape n m A -> shape n m B -> (i < n)%nat -> nth i (madd A B) [] = vadd (nth i A []) (nth i B []).
Proof.
  intros [LA _] [LB _]. subst n. unfold madd. revert B LB i. induction A as [|x A IH]; intros [|y B] LB i H; try discriminate; cbn [length] in *; [lia |].
  destruct i; cbn [mzip nth]; auto. apply IH; lia.
Qed.
Lemma ent_madd n m A B i j : shape n m A -> shape n m B -> ent (madd A B) i j = ent A i j + ent B i j.
Proof.
  intros SA SB. destruct (Nat.ltb_spec i n) as [H | H].
  - unfold ent. rewrite (nth_madd n m) by auto. apply nth_vadd. rewrite !(shape_row n m); auto.
  - unfold ent. rewrite !nth_overflow with (n := i); [destruct j; cbn; lra | destruct SB; lia | destruct SA; lia | destruct (shape_madd n m A B SA SB); lia].
Qed.
Lemma mat_ext n m A B : shape n m A -> shape n m B -> (forall i j, ent A i j = ent B i j) -> A = B.
Proof.
  intros SA SB H. apply nth_ext with (d := []) (d' := []); [destruct SA, SB; congruence |]. intros i Hi. destruct (proj1 SA).
  apply vext; [rewrite !(shape_row (length A) m); auto |]. intros j. apply H.
Qed.
Lemma shape_phi n m p a s : num_actions p = n -> num_features p = m -> length s = m -> shape n m (phi_of p a s).
Proof. intros <- <- H. apply shape_addrow; auto. apply shape_zeros2. Qed.
Lemma shape_outer u v : shape (length u) (length v) (outer u v).
Proof. unfold outer. split; [apply map_length |]. apply Forall_map, Forall_forall. intros. apply vscale_len. Qed.
Lemma nth_outer u v i : (i < length u)%nat -> nth i (outer u v) [] = vscale (nth i u 0) v.
Proof. intros H. unfold outer. rewrite nth_indep with (d' := vscale 0 v) by (rewrite map_length; auto). now rewrite (map_nth (fun x => vscale x v)). Qed.
Lemma ent_outer u v i j : ent (outer u v) i j = nth i u 0 * nth j v 0.
Proof.
  unfold ent. destruct (Nat.ltb_spec i (length u)).
  - rewrite nth_outer by auto. apply nth_vscale.
  - rewrite (nth_overflow (outer u v)) by (unfold outer; rewrite map_length; auto). rewrite (nth_overflow u) by auto. destruct j; cbn [nth]; lra.
Qed.

(** ravel, reshape, matrix times vector *)
Lemma ravel_len n m M : shape n m M -> length (ravel M) = (n * m)%nat.
Proof. intros [<- F]. unfold ravel. induction F as [|x M Hx F IH]; [auto |]. cbn [concat length]. rewrite app_length, IH. lia. Qed.
Lemma reshape_ravel n m M : shape n m M -> reshape n m (ravel M) = M.
Proof.
  intros [<- F]. unfold reshape, ravel. induction F as [|x M Hx F IH]; [auto |]. cbn [length seq map concat]. f_equal.
  - cbn [Nat.mul skipn]. rewrite <- Hx, firstn_app, Nat.sub_diag, firstn_all. apply app_nil_r.
  - rewrite <- seq_shift, map_map. etransitivity; [| exact IH]. apply map_ext. intros i. f_equal. cbn [Nat.mul]. rewrite skipn_app, Hx.
    rewrite skipn_all2 by lia. cbn [app]. f_equal. lia.
Qed.
Lemma rv_dot_rows A B : rv_dot (A) (B) = rdot (ravel A) (ravel B).
Proof. reflexivity. Qed.
Lemma rv_dot_cons x A y B : length x = length y -> rv_dot (x :: A) (y :: B) = rdot x y + rv_dot A B.
Proof. intros H. unfold rv_dot, ravel. cbn [concat]. now apply rdot_app. Qed.
Lemma rv_dot_zeros n m B : rv_dot (zeros2 n m) B = 0.
Proof.
  unfold rv_dot, ravel, zeros2. replace (concat (repeat (zeros m) n)) with (zeros (n * m)); [apply rdot_zeros_l |].
  unfold zeros. induction n as [|n IH]; [auto |]. cbn [repeat concat Nat.mul]. now rewrite repeat_app, IH.
Qed.
(** only one row is not zero *)
Lemma rv_dot_phi p a s th : shape (num_actions p) (num_features p) th -> (a < num_actions p)%nat -> length s = num_features p -> rv_dot (phi_of p a s) th = value th s a.
Proof.
  unfold phi_of. generalize (num_actions p) as n, (num_features p) as m. clear p. intros n m [L F] Ha Hs. subst n. unfold value. revert a Ha. induction F as [|x th Hx F IH]; intros a Ha; [cbn in Ha; lia |].
  unfold addrow, zeros2 in *. cbn [repeat length]. destruct a as [|a]; cbn [nth upd].
  - rewrite rv_dot_cons by (rewrite vadd_len with (n := m); auto; apply repeat_length). fold (zeros2 (length th) m). rewrite rv_dot_zeros.
    rewrite rdot_vadd by (unfold zeros; rewrite repeat_length; auto). rewrite rdot_zeros_l, rdot_comm. lra.
  - rewrite rv_dot_cons by (unfold zeros; rewrite repeat_length; auto). rewrite rdot_zeros_l, IH by (cbn in Ha; lia). lra.
Qed.
Lemma rv_dot_comm A B : rv_dot A B = rv_dot B A.
Proof. apply rdot_comm. Qed.
Lemma rv_dot_outer q s th : length q = length th -> Forall (fun r => length r = length s) th -> rv_dot th (outer q s) = rdot q (qValues th s).
Proof.
  revert q. induction th as [|x th IH]; intros [|y q] H F; try discriminate; [reflexivity |]. inversion F; subst.
  unfold outer. cbn [map]. rewrite rv_dot_cons by (rewrite vscale_len; auto). fold (outer q s). rewrite IH by (auto; now injection H).
  unfold qValues, mat_vec. cbn [map]. rewrite rdot_cons. rewrite (rdot_comm x), rdot_vscale, (rdot_comm s). reflexivity.
Qed.
Lemma rdot_onehot n g v : (g < n)%nat -> length v = n -> rdot (upd g 1 (zeros n)) v = nth g v 0.
Proof.
  unfold zeros. revert g v. induction n as [|n IH]; intros g [|x v] H L; try discriminate; [lia |]. cbn [repeat]. destruct g as [|g]; cbn [upd nth].
  - rewrite rdot_cons. fold (zeros n). rewrite rdot_zeros_l. lra.
  - rewrite rdot_cons, IH; [lra | lia | now injection L].
Qed.
Lemma nth_qValues th s a : (a < length th)%nat -> nth a (qValues th s) 0 = value th s a.
Proof. intros H. unfold qValues, mat_vec, value. rewrite nth_indep with (d' := rdot [] s) by (rewrite map_length; auto). now rewrite (map_nth (fun row => rdot row s)). Qed.
Lemma mat_vec_madd n m A B v : shape n m A -> shape n m B -> mat_vec (madd A B) v = vadd (mat_vec A v) (mat_vec B v).
Proof.
  intros [LA FA] [LB FB]. subst n. unfold mat_vec, madd, vadd. revert B LB FB. induction FA as [|x A Hx FA IH]; intros [|y B] LB FB; try discriminate; [auto |]. inversion FB; subst.
  cbn [mzip map rzip]. f_equal; [apply rdot_vadd; auto |]. apply IH; auto.
Qed.
Lemma mat_vec_outer u w v : mat_vec (outer u w) v = vscale (rdot w v) u.
Proof. unfold mat_vec, outer, vscale. rewrite map_map. apply map_ext. intros x. change (map (fun x0 => x * x0) w) with (vscale x w). rewrite rdot_vscale. lra. Qed.
Lemma mat_vec_len A v : length (mat_vec A v) = length A.
Proof. apply map_length. Qed.

(** greatest *)
Lemma fold_max_spec l x : In (fold_left Rmax l x) (x :: l) /\ forall y, In y (x :: l) -> y <= fold_left Rmax l x.
Proof.
  revert x. induction l as [|z l IH]; intros x; cbn [fold_left]; [split; [left; auto | intros y [<- | []]; lra] |].
  destruct (IH (Rmax x z)) as [A B]. split.
  - destruct A as [A | A]; [| right; right; auto]. rewrite <- A. unfold Rmax. destruct (Rle_dec x z); [right; left | left]; auto.
  - intros y [<- | [<- | Hy]]; [| | apply B; right; auto]; (eapply Rle_trans; [| apply B; left; reflexivity]); [apply Rmax_l | apply Rmax_r].
Qed.
Lemma vmax_spec v : v <> [] -> In (vmax v) v /\ forall y, In y v -> y <= vmax v.
Proof. destruct v as [|x l]; [congruence | intros _; apply fold_max_spec]. Qed.
Lemma vmax_greatest n m th s : shape n m th -> (0 < n)%nat -> greatest th n s (vmax (qValues th s)).
Proof.
  intros [L _] Hn. assert (NE : qValues th s <> []) by (unfold qValues, mat_vec; destruct th; [cbn in L; lia | discriminate]).
  destruct (vmax_spec _ NE) as [A B]. split.
  - apply (In_nth _ _ 0) in A as (b & Hb & E). unfold qValues in Hb. rewrite mat_vec_len, L in Hb. exists b. split; [auto |]. rewrite <- E. symmetry. apply nth_qValues. lia.
  - intros b Hb. apply B. rewrite <- nth_qValues by lia. apply nth_In. unfold qValues. rewrite mat_vec_len. lia.
Qed.
Lemma greatest_unique th n s v w : greatest th n s v -> greatest th n s w -> v = w.
Proof. intros [(b & Hb & Eb) A] [(c & Hc & Ec) B]. specialize (A c Hc). specialize (B b Hb). lra. Qed.
Lemma where_eq_spec mx l i x : In x (where_eq mx i l) <-> exists j, (j < length l)%nat /\ x = (i + j)%nat /\ nth j l 0 = mx.
Proof.
  revert i. induction l as [|y l IH]; intros i; cbn [where_eq length].
  - split; [intros [] | intros (j & H & _); lia].
  - assert (Rr : In x (where_eq mx (S i) l) <-> exists j, (S j < S (length l))%nat /\ x = (i + S j)%nat /\ nth (S j) (y :: l) 0 = mx).
    { rewrite IH. split; intros (j & A & B & C); exists j; repeat split; auto; lia. }
    destruct (Req_EM_T y mx) as [E | E]; cbn [In]; rewrite Rr; split.
    + intros [<- | (j & H)]; [exists 0%nat; repeat split; auto; lia | exists (S j); auto].
    + intros ([|j] & A & B & C); [left; lia | right; exists j; auto].
    + intros (j & H). exists (S j); auto.
    + intros ([|j] & A & B & C); [exfalso; cbn in C; congruence | exists j; auto].
Qed.
Lemma r_argmax_spec v d : v <> [] -> (r_argmax v d < length v)%nat /\ nth (r_argmax v d) v 0 = vmax v.
Proof.
  intros NE. destruct (vmax_spec v NE) as [A _]. apply (In_nth _ _ 0) in A as (b & Hb & E).
  assert (IW : In b (where_eq (vmax v) 0 v)) by (apply where_eq_spec; exists b; auto). unfold r_argmax. set (best := where_eq (vmax v) 0 v) in *.
  assert (IB : In (nth (d mod length best) best 0%nat) best) by (apply nth_In, Nat.mod_upper_bound; destruct best; [destruct IW | discriminate]).
  apply where_eq_spec in IB as (j & J1 & J2 & J3). cbn [Nat.add] in J2. rewrite J2. auto.
Qed.
