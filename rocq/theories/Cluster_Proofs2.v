(** Lemmas for C81: seeds, buffets, components. *)
From Coq Require Import Reals Lra Sorting.Sorted Permutation.
From Verif Require Import Base StableSort Functions_Model Functions_Proofs LinearFA_Model Cluster_Model Cluster_Spec Cluster_Proofs.
Local Open Scope R_scope.

(** ** seeds *)
Lemma nearest_snoc cs c x : cs <> [] -> toNearest (cs ++ [c]) x = Rmin (toNearest cs x) (sqdist x c).
Proof. destruct cs as [|c0 cs]; [congruence|]. intros _. cbn [app toNearest]. rewrite fold_left_app. reflexivity. Qed.
Lemma map_seq_nth (f : vec -> R) (g : R -> vec -> R) : forall X, map (fun j => g (nth j (map f X) 0) (nth j X [])) (seq 0 (length X)) = map (fun x => g (f x) x) X.
Proof.
  induction X as [|x X IH]; [reflexivity|]. cbn [length seq map nth]. f_equal. rewrite <- IH, <- seq_shift, map_map. reflexivity.
Qed.
Lemma dsum_potential X cs i : cs <> [] -> dsum X (map (toNearest cs) X) i = potential X (cs ++ [nth i X []]).
Proof.
  intro Ne. unfold dsum, potential. rewrite (map_seq_nth (toNearest cs) (fun d x => Rmin d (sqdist x (nth i X [])))). f_equal. apply map_ext. intro x. symmetry. apply nearest_snoc, Ne.
Qed.
Lemma toNearest_pos cs x : 0 <= toNearest cs x.
Proof.
  destruct cs as [|c cs]; [cbn; lra|]. cbn [toNearest]. assert (H : 0 <= sqdist x c) by apply sqdist_pos. revert H. generalize (sqdist x c).
  induction cs as [|d cs IH]; intros r H; [exact H|]. cbn [fold_left]. apply IH. apply Rmin_glb; [exact H | apply sqdist_pos].
Qed.
Lemma potential_pos X cs : 0 <= potential X cs.
Proof. apply rsum_pos, Forall_map, Forall_forall. intros. apply toNearest_pos. Qed.
Lemma toNearest_le cs x : forall c, In c cs -> toNearest cs x <= sqdist x c.
Proof.
  assert (M : forall cs r, fold_left (fun m c => Rmin m (sqdist x c)) cs r <= r /\ forall c, In c cs -> fold_left (fun m c => Rmin m (sqdist x c)) cs r <= sqdist x c).
  { clear. induction cs as [|d cs IH]; intro r; cbn [fold_left]; [split; [lra | intros c []]|]. destruct (IH (Rmin r (sqdist x d))) as (I1 & I2). split.
    - pose proof (Rmin_l r (sqdist x d)). lra.
    - intros c [<-|H]; [pose proof (Rmin_r r (sqdist x d)); lra | apply I2, H]. }
  destruct cs as [|c0 cs]; intros c []; cbn [toNearest]; destruct (M cs (sqdist x c0)) as (M1 & M2); [subst; exact M1 | apply M2; assumption].
Qed.
Lemma toNearest_in cs x : cs <> [] -> exists c, In c cs /\ toNearest cs x = sqdist x c.
Proof.
  induction cs as [|c cs IH] using rev_ind; [congruence|]. intros _. destruct cs as [|d cs]; [exists c; split; [now left | reflexivity]|].
  destruct (IH ltac:(discriminate)) as (e & He & Ee). rewrite nearest_snoc by discriminate. unfold Rmin. destruct (Rle_dec _ _).
  - exists e. split; [apply in_or_app; now left | exact Ee].
  - exists c. split; [apply in_or_app; right; now left | reflexivity].
Qed.
Lemma best_spec X D : X <> [] -> (forall i, 0 <= dsum X D i) -> exists b, bestOf X D = (dsum X D b, Some b) /\ (b < length X)%nat /\
  (forall i, (i < length X)%nat -> dsum X D b <= dsum X D i) /\ (forall i, (i < b)%nat -> dsum X D b < dsum X D i).
Proof.
  intros Ne Pos. unfold bestOf. destruct (length X) as [|n] eqn:E; [destruct X; [congruence | discriminate]|]. clear E Ne.
  induction n as [|n IH].
  - exists 0%nat. cbn [seq fold_left fst]. destruct (Rlt_dec (-1) 0); [|lra]. repeat split; intros; try lia. assert (i = 0)%nat by lia. subst. lra.
  - destruct IH as (b & Eb & Lb & M & M'). rewrite seq_S, fold_left_app, Eb. cbn [fold_left fst Nat.add]. specialize (Pos b) as Pb. destruct (Rlt_dec (dsum X D b) 0); [lra|].
    destruct (Rlt_dec (dsum X D (S n)) (dsum X D b)) as [L|L].
    + exists (S n). split; [reflexivity|]. split; [lia|]. split; intros i Hi.
      * destruct (Nat.eq_dec i (S n)) as [->|]; [lra|]. specialize (M i ltac:(lia)). lra.
      * specialize (M i ltac:(lia)). lra.
    + exists b. split; [reflexivity|]. split; [lia|]. split; [|exact M']. intros i Hi. destruct (Nat.eq_dec i (S n)) as [->|]; [lra | apply M; lia].
Qed.
Section Seeds.
Context (X : list vec) (d draw : nat) (Ne : X <> []) (Ld : Forall (fun x => length x = d) X).
(** the choices so far were the best ones *)
Definition greedy (cs : list vec) : Prop :=
  forall m, (0 < m < length cs)%nat -> forall x, In x X -> potential X (firstn (S m) cs) <= potential X (firstn m cs ++ [x]).
Lemma seeds_spec n : exists cs, Nat.iter n (kstep X) (kfirst X draw) = (map (toNearest cs) X, cs) /\ length cs = S n /\ incl cs X /\
  nth_error cs 0 = nth_error X (draw mod length X) /\ greedy cs.
Proof.
  clear d Ld. assert (P : (0 < length X)%nat) by (destruct X; [congruence | cbn; lia]). assert (Pm : (draw mod length X < length X)%nat) by (apply Nat.mod_upper_bound; lia).
  induction n as [|n (cs & E & L & I & F & G)].
  - cbn [Nat.iter nat_rect]. unfold kfirst. exists [nth (draw mod length X) X []]. split; [reflexivity|]. split; [reflexivity|].
    split; [intros x [<-|[]]; apply nth_In, Pm|]. split; [cbn [nth_error]; symmetry; apply nth_error_nth', Pm|]. intros m Hm. cbn [length] in Hm. lia.
  - cbn [Nat.iter nat_rect]. change (nat_rect (fun _ => (list R * list vec)%type) (kfirst X draw) (fun _ => kstep X) n) with (Nat.iter n (kstep X) (kfirst X draw)). rewrite E.
    assert (Nc : cs <> []) by (destruct cs; discriminate).
    destruct (best_spec X (map (toNearest cs) X) Ne) as (b & Eb & Lb & M & _); [intro i; rewrite dsum_potential by exact Nc; apply potential_pos|].
    unfold kstep. rewrite Eb. cbn [snd]. set (c := nth b X []). exists (cs ++ [c]). split.
    + f_equal. rewrite (map_seq_nth (toNearest cs) (fun r x => Rmin r (sqdist x c))). apply map_ext. intro x. symmetry. apply nearest_snoc, Nc.
    + split; [rewrite app_length; cbn [length]; lia|]. split; [intros x Hx; apply in_app_iff in Hx as [Hx|[<-|[]]]; [apply I, Hx | apply nth_In, Lb]|].
      split; [rewrite nth_error_app1 by lia; exact F|]. intros m Hm x Hx. rewrite app_length in Hm. cbn [length] in Hm. destruct (Nat.eq_dec m (length cs)) as [->|Nm].
      * rewrite firstn_all2 by (rewrite app_length; cbn [length]; lia). rewrite firstn_app, Nat.sub_diag, firstn_O, app_nil_r, firstn_all.
        apply In_nth with (d := []) in Hx as (i & Hi & <-). pose proof (M i Hi) as Q. rewrite !dsum_potential in Q by exact Nc. exact Q.
      * rewrite !firstn_app. replace (S m - length cs)%nat with 0%nat by lia. replace (m - length cs)%nat with 0%nat by lia. rewrite firstn_O, !app_nil_r. apply G; [lia | exact Hx].
Qed.
Lemma potential_snoc_le cs x : cs <> [] -> potential X (cs ++ [x]) <= potential X cs.
Proof. intro Nc. unfold potential. apply rsum_le. intros y _. rewrite nearest_snoc by exact Nc. apply Rmin_l. Qed.
Lemma potential_zero cs : cs <> [] -> incl cs X -> potential X cs = 0 -> incl X cs.
Proof.
  intros Nc I H x Hx. unfold potential in H. apply rsum_zero in H; [|apply Forall_map, Forall_forall; intros; apply toNearest_pos]. apply Forall_map in H. rewrite Forall_forall in H. specialize (H x Hx). cbv beta in H.
  destruct (toNearest_in cs x Nc) as (c & Hc & E). rewrite E in H. rewrite Forall_forall in Ld. apply sqdist_zero in H; [congruence|]. rewrite !Ld; auto.
Qed.
Lemma potential_known cs x : In x cs -> cs <> [] -> potential X (cs ++ [x]) = potential X cs.
Proof.
  intros I Nc. unfold potential. f_equal. apply map_ext. intro y. rewrite nearest_snoc by exact Nc. apply Rmin_left, toNearest_le, I.
Qed.
Lemma rsum_lt {A} (f g : A -> R) l : (forall a, In a l -> f a <= g a) -> (exists a, In a l /\ f a < g a) -> rsum (map f l) < rsum (map g l).
Proof.
  induction l as [|a l IH]; intros H (b & Hb & L); [destruct Hb|]. cbn [map]. rewrite !rsum_cons. assert (Ha : f a <= g a) by (apply H; now left).
  destruct Hb as [->|Hb].
  - assert (rsum (map f l) <= rsum (map g l)) by (apply rsum_le; intros; apply H; now right). lra.
  - assert (rsum (map f l) < rsum (map g l)); [|lra]. apply IH; [intros; apply H; now right | exists b; auto].
Qed.
Lemma potential_drop cs : cs <> [] -> 0 < potential X cs -> exists x, In x X /\ potential X (cs ++ [x]) < potential X cs.
Proof.
  intros Nc H. destruct (Forall_Exists_dec (fun x => toNearest cs x = 0) (fun x => Req_EM_T (toNearest cs x) 0) X) as [F|Ex].
  - exfalso. assert (potential X cs = 0); [|lra]. apply rsum_zeros, Forall_map, F.
  - apply Exists_exists in Ex as (x & Hx & Nz). exists x. split; [exact Hx|]. unfold potential. apply rsum_lt.
    + intros y _. rewrite nearest_snoc by exact Nc. apply Rmin_l.
    + exists x. split; [exact Hx|]. rewrite nearest_snoc by exact Nc. rewrite sqdist_self. pose proof (toNearest_pos cs x). rewrite Rmin_right; lra.
Qed.
Lemma seeds_new cs : greedy cs -> cs <> [] -> incl cs X -> forall m, (0 < m < length cs)%nat -> 0 < potential X (firstn m cs) ->
  potential X (firstn (S m) cs) < potential X (firstn m cs) /\ ~ In (nth m cs []) (firstn m cs).
Proof.
  intros G Nc I m Hm Pos. assert (Nf : firstn m cs <> []) by (intro E; apply (f_equal (@length vec)) in E; rewrite firstn_length in E; cbn in E; lia).
  destruct (potential_drop _ Nf Pos) as (x & Hx & Lx). pose proof (G m Hm x Hx) as Gm. split; [lra|]. intro K.
  assert (E : firstn (S m) cs = firstn m cs ++ [nth m cs []]).
  { clear - Hm. revert m Hm. induction cs as [|c cs IH]; intros m Hm; [cbn in Hm; lia|]. destruct m as [|m]; [lia|]. cbn [firstn app nth]. f_equal.
    destruct m as [|m]; [destruct cs; [cbn in Hm; lia | reflexivity]|]. apply IH. cbn in Hm. lia. }
  rewrite E, potential_known in Gm by assumption. lra.
Qed.
Lemma seeds_prefix cs : greedy cs -> incl cs X -> forall m, (0 < m < length cs)%nat -> potential X (firstn (S m) cs) <= potential X (firstn m cs).
Proof.
  intros G I m Hm. assert (Nf : firstn m cs <> []) by (intro E; apply (f_equal (@length vec)) in E; rewrite firstn_length in E; cbn in E; lia).
  assert (Hx : In (nth 0 cs []) X) by (apply I, nth_In; lia). pose proof (G m Hm _ Hx) as Gm. pose proof (potential_snoc_le (firstn m cs) (nth 0 cs []) Nf). lra.
Qed.
Lemma seeds_mono cs : greedy cs -> incl cs X -> forall m k, (0 < m)%nat -> (m + k <= length cs)%nat -> potential X (firstn (m + k) cs) <= potential X (firstn m cs).
Proof.
  intros G I m k Hm. induction k as [|k IH]; intro Hk; [rewrite Nat.add_0_r; lra|]. specialize (IH ltac:(lia)). pose proof (seeds_prefix cs G I (m + k)%nat ltac:(lia)) as Q.
  replace (m + S k)%nat with (S (m + k)) by lia. lra.
Qed.
Lemma nodup_prefixes : forall cs : list vec, (forall m, (m < length cs)%nat -> ~ In (nth m cs []) (firstn m cs)) -> NoDup cs.
Proof.
  induction cs as [|c cs IH] using rev_ind; intro H; [constructor|]. apply (Permutation_NoDup (Permutation_cons_append cs c)). constructor.
  - specialize (H (length cs)). rewrite app_length, app_nth2, Nat.sub_diag, firstn_app, Nat.sub_diag, firstn_O, app_nil_r, firstn_all in H by lia. cbn [length nth] in H. apply H. lia.
  - apply IH. intros m Hm. specialize (H m). rewrite app_length, app_nth1, firstn_app in H by lia. replace (m - length cs)%nat with 0%nat in H by lia. rewrite firstn_O, app_nil_r in H. apply H. lia.
Qed.
Lemma seeds_nodup cs : greedy cs -> cs <> [] -> incl cs X -> 0 < potential X cs -> NoDup cs.
Proof.
  intros G Nc I Pos. apply nodup_prefixes. intros [|m] Hm; [cbn [firstn]; intros []|]. apply (seeds_new cs G Nc I (S m)); [lia|].
  pose proof (seeds_mono cs G I (S m) (length cs - S m) ltac:(lia) ltac:(lia)) as Q. replace (S m + (length cs - S m))%nat with (length cs) in Q by lia. rewrite firstn_all in Q. lra.
Qed.
Lemma seeds_all cs u : greedy cs -> cs <> [] -> incl cs X -> incl X u -> (length u <= length cs)%nat -> incl X cs.
Proof.
  intros G Nc I Iu L. destruct (Req_dec (potential X cs) 0) as [Z|Z]; [apply potential_zero; assumption|].
  pose proof (potential_pos X cs) as Pp. assert (Pos : 0 < potential X cs) by lra. pose proof (seeds_nodup cs G Nc I Pos) as Nd. intros x Hx.
  destruct (in_dec (list_eq_dec Req_EM_T) x cs) as [Y|Y]; [exact Y|]. exfalso.
  assert (N2 : NoDup (x :: cs)) by (constructor; assumption). apply (NoDup_incl_length (l' := u)) in N2; [cbn [length] in N2; lia|].
  intros y [<-|Hy]; apply Iu; [exact Hx | apply I, Hy].
Qed.
End Seeds.
