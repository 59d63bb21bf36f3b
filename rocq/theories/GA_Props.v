(** Property C32: the genetic algorithm. *)
From Verif Require Import Base StableSort Opt_Model Opt_Spec Opt_Proofs GA_Model.
From Coq Require Import QArith Qround Lia Lqa Permutation Sorted.
Local Open Scope nat_scope.

(** ** Spec *)
(** what a draw may be *)
Definition fair (d : draws) : Prop := (forall l, Permutation l (d_shuffle1 d l)) /\ (forall l, Permutation l (d_shuffle2 d l)).
Definition well_formed (g : ga) (pop : list indiv) : Prop := length pop = g_popSize g /\ forall x, In x pop -> length x = g_dim g.
Definition within (b : option (list Q * list Q)) (x : indiv) : Prop :=
  match b with
  | None => True
  | Some (mins, maxs) => forall i, i < length x -> (nth i mins 0 <= nth i x 0 /\ nth i x 0 <= nth i maxs 0)%Q
  end.
Definition good_bounds (g : ga) : Prop :=
  match g_bounds g with None => True | Some (mins, maxs) => forall i, i < g_dim g -> (nth i mins 0 <= nth i maxs 0)%Q end.
(** y is the point of [lo,hi] nearest to v *)
Definition clamped (lo hi v y : Q) : Prop := ((lo <= v <= hi)%Q -> y = v) /\ ((v < lo)%Q -> y = lo) /\ ((hi < v)%Q -> y = hi).
(** a coordinate of a child: taken over from x, or moved by the noise drawn for it and, with bounds, put back into them *)
Definition gene_of (b : option (list Q * list Q)) (noise : nat -> option Q) (i : nat) (x y : Q) : Prop :=
  match noise i, b with
  | None, _ => y = x
  | Some e, None => y = (x + e)%Q
  | Some e, Some (mins, maxs) => clamped (nth i mins 0%Q) (nth i maxs 0%Q) (x + e)%Q y
  end.
(** a child of p and q: one parent before some point, the other one from there on *)
Definition child_of (b : option (list Q * list Q)) (dim : nat) (noise : nat -> option Q) (p q c : indiv) : Prop :=
  exists point, forall i, i < dim -> gene_of b noise i (if i <? point then nth i p 0%Q else nth i q 0%Q) (nth i c 0%Q).

(** ** Lemmas *)
Lemma mutate_length b noise : forall l i, length (mutate_from b noise i l) = length l.
Proof. induction l as [|x l IH]; intros i; cbn; [auto | now rewrite IH]. Qed.
Lemma mutate_nth b noise : forall l i k, k < length l ->
  nth k (mutate_from b noise i l) 0%Q = match noise (i + k) with Some q => mutate_gene b (i + k) (nth k l 0%Q) q | None => nth k l 0%Q end.
Proof.
  induction l as [|x l IH]; intros i k Hk; cbn in Hk; [lia |]. destruct k; cbn [mutate_from nth]; [now rewrite Nat.add_0_r |].
  rewrite IH by lia. now replace (S i + k) with (i + S k) by lia.
Qed.
Lemma clip_clamped lo hi v : (lo <= hi)%Q -> clamped lo hi v (pymax (pymin v hi) lo).
Proof.
  intros H. unfold clamped, pymax, pymin. split; [| split].
  - intros [H1 H2]. apply Qle_bool_iff in H1, H2. now rewrite H2, H1.
  - intros H1. rewrite (proj2 (Qle_bool_iff v hi)) by lra. destruct (Qle_bool lo v) eqn:E; [apply Qle_bool_iff in E; lra | auto].
  - intros H1. destruct (Qle_bool v hi) eqn:E; [apply Qle_bool_iff in E; lra |]. now rewrite (proj2 (Qle_bool_iff lo hi) H).
Qed.
Lemma mutate_gene_of g noise i x : good_bounds g -> i < g_dim g ->
  gene_of (g_bounds g) noise i x (match noise i with Some q => mutate_gene (g_bounds g) i x q | None => x end).
Proof.
  unfold gene_of, mutate_gene, good_bounds. intros HB Hi. destruct (noise i); [| auto]. destruct (g_bounds g) as [[mins maxs]|]; [| auto]. apply clip_clamped. auto.
Qed.
Lemma clip_within lo hi v : (lo <= hi)%Q -> (lo <= pymax (pymin v hi) lo /\ pymax (pymin v hi) lo <= hi)%Q.
Proof.
  intros H. unfold pymax, pymin. destruct (Qle_bool v hi) eqn:E1.
  - destruct (Qle_bool lo v) eqn:E2; [apply Qle_bool_iff in E1, E2; lra | lra].
  - destruct (Qle_bool lo hi) eqn:E2; [apply Qle_bool_iff in E2; lra | lra].
Qed.
Lemma mutated_within g noise c : good_bounds g -> length c = g_dim g -> within (g_bounds g) c -> within (g_bounds g) (mutated g noise c).
Proof.
  unfold good_bounds, within, mutated. destruct (g_bounds g) as [[mins maxs]|] eqn:EB; [| auto]. intros HB HL HW i Hi. rewrite mutate_length in Hi.
  rewrite mutate_nth by auto. cbn [Nat.add]. destruct (noise i); [| auto]. cbn [mutate_gene]. apply clip_within. apply HB. lia.
Qed.

Lemma fit_leb_total x y : fit_leb x y = true \/ fit_leb y x = true.
Proof. unfold fit_leb. rewrite !Qle_bool_iff. destruct (Qlt_le_dec (fst x) (fst y)); [left | right]; lra. Qed.
Lemma fit_leb_trans x y z : fit_leb x y = true -> fit_leb y z = true -> fit_leb x z = true.
Proof. unfold fit_leb. rewrite !Qle_bool_iff. intros; lra. Qed.

(** sorted in descending order: what is cut off is never better than what is kept *)
Lemma ssorted_app {A} (R : A -> A -> Prop) : forall l1 l2, StronglySorted R (l1 ++ l2) -> forall x y, In x l1 -> In y l2 -> R x y.
Proof.
  induction l1 as [|a l1 IH]; intros l2 H x y Hx Hy; [destruct Hx |]. cbn in H. apply StronglySorted_inv in H as [H1 H2].
  destruct Hx as [<- | Hx]; [| eauto]. rewrite Forall_forall in H2. apply H2. apply in_app_iff. auto.
Qed.
Lemma select_spec g fits pop parents : select g fits pop = Ok parents ->
  exists ranked, Permutation (combine fits pop) ranked /\ parents = map snd (firstn (selectionSize g) ranked) /\
    forall n x y, In x (firstn n ranked) -> In y (skipn n ranked) -> (fst y <= fst x)%Q.
Proof.
  unfold select. destruct (g_tournament g); [discriminate |]. intros [= <-]. exists (rev (isort fit_leb (combine fits pop))).
  split; [etransitivity; [symmetry; apply (isort_perm fit_leb) | apply Permutation_rev] |]. split; [auto |].
  intros n x y Hx Hy. assert (HS := isort_sorted fit_leb fit_leb_total fit_leb_trans (combine fits pop)).
  set (s := isort fit_leb (combine fits pop)) in *. clearbody s.
  assert (E : s = rev (skipn n (rev s)) ++ rev (firstn n (rev s))) by (rewrite <- rev_app_distr, firstn_skipn, rev_involutive; auto).
  rewrite E in HS. apply in_rev in Hx, Hy. pose proof (ssorted_app _ _ _ HS y x Hy Hx) as K. now apply Qle_bool_iff in K.
Qed.

Lemma cross_spec g p q ch c : In c (cross g p q ch) -> length p = g_dim g -> length q = g_dim g ->
  length c = g_dim g /\ exists point, (forall i, i < g_dim g -> nth i c 0%Q = if i <? point then nth i p 0%Q else nth i q 0%Q) \/
                                      (forall i, i < g_dim g -> nth i c 0%Q = if i <? point then nth i q 0%Q else nth i p 0%Q).
Proof.
  assert (T : forall p q pt, length p = g_dim g -> length q = g_dim g -> pt <= g_dim g \/ pt > g_dim g ->
    length (firstn pt p ++ skipn pt q) = g_dim g /\ forall i, i < g_dim g -> nth i (firstn pt p ++ skipn pt q) 0%Q = if i <? pt then nth i p 0%Q else nth i q 0%Q).
  { clear. intros p q pt Hp Hq _. split; [rewrite app_length, firstn_length, skipn_length; lia |]. intros i Hi. destruct (Nat.ltb_spec i pt).
    - rewrite app_nth1 by (rewrite firstn_length; lia). rewrite <- (firstn_skipn pt p) at 2. rewrite app_nth1 by (rewrite firstn_length; lia). auto.
    - rewrite app_nth2 by (rewrite firstn_length; lia). rewrite firstn_length. replace (i - Nat.min pt (length p)) with (i - pt) by lia.
      rewrite <- (firstn_skipn pt q) at 2. rewrite app_nth2 by (rewrite firstn_length; lia). rewrite firstn_length. f_equal. lia. }
  unfold cross. intros Hc Hp Hq. destruct (g_dim g <? 2).
  - destruct Hc as [<- | [<- | []]]; (split; [auto |]); exists (g_dim g); [left | right]; intros i Hi; now rewrite (proj2 (Nat.ltb_lt i (g_dim g)) Hi).
  - destruct Hc as [<- | [<- | []]].
    + destruct (T p q (ch + 1) Hp Hq) as [T1 T2]; [lia |]. split; [auto |]. exists (ch + 1). auto.
    + destruct (T q p (ch + 1) Hq Hp) as [T1 T2]; [lia |]. split; [auto |]. exists (ch + 1). auto.
Qed.
Lemma cross_length g p q ch : length (cross g p q ch) = 2.
Proof. unfold cross. destruct (g_dim g <? 2); auto. Qed.
Lemma flat_map_length2 {A B} (f : A -> list B) k : (forall a, length (f a) = k) -> forall l, length (flat_map f l) = k * length l.
Proof. intros H. induction l as [|a l IH]; cbn; [lia |]. rewrite app_length, H, IH. lia. Qed.

Lemma refill_spec pick : forall n (cs : list indiv), cs <> [] -> exists cs', refill n pick cs = Ok cs' /\ length cs' = length cs + n /\ forall c, In c cs' -> In c cs.
Proof.
  induction n as [|n IH]; intros cs Hc; cbn [refill].
  - exists cs. split; [auto |]. split; [lia | auto].
  - assert (HL : length cs <> 0) by (destruct cs; [congruence | discriminate]).
    destruct (nth_error cs (pick (S n) mod length cs)) as [c|] eqn:E.
    + destruct (IH (cs ++ [c])) as (cs' & E1 & E2 & E3); [destruct cs; discriminate |]. exists cs'. split; [auto |]. split; [rewrite E2, app_length; cbn; lia |].
      intros x Hx. specialize (E3 x Hx). apply in_app_iff in E3 as [|[<- | []]]; [auto |]. eapply nth_error_In; eauto.
    + apply nth_error_None in E. pose proof (Nat.mod_upper_bound (pick (S n)) (length cs) HL). lia.
Qed.
Lemma crossOver_spec g d (parents : list indiv) nb : fair d -> 2 <= length parents -> (forall p : indiv, In p parents -> length p = g_dim g) ->
  exists cs, crossOver g d parents nb = Ok cs /\ length cs = nb /\
    forall c, In c cs -> length c = g_dim g /\ exists p q point, In p parents /\ In q parents /\
      forall i, i < g_dim g -> nth i c 0%Q = if i <? point then nth i p 0%Q else nth i q 0%Q.
Proof.
  intros [F1 F2] Hn Hdim. unfold crossOver. cbn zeta. set (ps := d_shuffle1 d parents). assert (HP := F1 parents). fold ps in HP.
  assert (HL := Permutation_length HP). clearbody ps. set (half := length ps / 2).
  assert (Hh : 1 <= half) by (unfold half; apply Nat.div_le_lower_bound; lia).
  assert (Hh2 : 2 * half <= length ps) by (unfold half; apply Nat.mul_div_le; lia).
  set (raw := flat_map (fun i => cross g (nth i ps []) (nth (i + half) ps []) (d_point d i)) (seq 0 half)).
  assert (LR : length raw = 2 * half) by (unfold raw; rewrite flat_map_length2 with (k := 2) by (intros; apply cross_length); now rewrite seq_length).
  assert (PR : forall c, In c raw -> length c = g_dim g /\ exists p q point, In p parents /\ In q parents /\
      forall i, i < g_dim g -> nth i c 0%Q = if i <? point then nth i p 0%Q else nth i q 0%Q).
  { intros c Hc. unfold raw in Hc. apply in_flat_map in Hc as (i & Hi & Hc). apply in_seq in Hi.
    assert (I1 : In (nth i ps []) parents) by (eapply Permutation_in; [symmetry; exact HP | apply nth_In; lia]).
    assert (I2 : In (nth (i + half) ps []) parents) by (eapply Permutation_in; [symmetry; exact HP | apply nth_In; lia]).
    destruct (cross_spec _ _ _ _ _ Hc (Hdim _ I1) (Hdim _ I2)) as (L & point & [K | K]); (split; [auto |]).
    - exists (nth i ps []), (nth (i + half) ps []), point. auto.
    - exists (nth (i + half) ps []), (nth i ps []), point. auto. }
  clearbody raw. assert (HP2 := F2 raw). set (cs := d_shuffle2 d raw) in *. assert (HL2 := Permutation_length HP2). clearbody cs.
  destruct (Nat.ltb_spec nb (length cs)).
  - exists (firstn nb cs). split; [auto |]. split; [rewrite firstn_length; lia |]. intros c Hc. apply PR. eapply Permutation_in; [symmetry; exact HP2 |].
    rewrite <- (firstn_skipn nb cs). apply in_app_iff. auto.
  - destruct (refill_spec (d_pick d) (nb - length cs) cs) as (cs' & E1 & E2 & E3); [destruct cs; [cbn in HL2; lia | discriminate] |].
    exists cs'. split; [auto |]. split; [lia |]. intros c Hc. apply PR. eapply Permutation_in; [symmetry; exact HP2 |]. auto.
Qed.
Lemma mutate_all_length g d cs : length (mutate_all g d cs) = length cs.
Proof. unfold mutate_all. rewrite map_length, combine_length, seq_length. lia. Qed.
Lemma mutate_all_nth g d cs k c : nth_error (mutate_all g d cs) k = Some c -> exists c0, In c0 cs /\ c = mutated g (d_noise d k) c0.
Proof.
  unfold mutate_all. rewrite nth_error_map. destruct (nth_error (combine (seq 0 (length cs)) cs) k) as [[j c0]|] eqn:E; [| discriminate]. intros [= <-]. cbn [fst snd].
  assert (K : forall (l : list indiv) a k, nth_error (combine (seq a (length l)) l) k = Some (j, c0) -> j = a + k /\ In c0 l).
  { clear. induction l as [|x l IH]; intros a [|k]; cbn; try discriminate; [intros [= <- <-]; split; [lia | auto] |]. intros H. apply IH in H as [-> H]. split; [lia | auto]. }
  apply K in E as [-> E]. exists c0. auto.
Qed.
Lemma mutate_all_In g d cs c : In c (mutate_all g d cs) -> exists noise c0, In c0 cs /\ c = mutated g noise c0.
Proof.
  unfold mutate_all. intros H. apply in_map_iff in H as ([k c0] & <- & Hi). apply in_combine_r in Hi. eauto.
Qed.
Lemma combine_snd {A B} (l : list A) (m : list B) : length l = length m -> map snd (combine l m) = m.
Proof. revert m. induction l as [|a l IH]; intros [|b m] H; cbn in *; try lia; [auto |]. f_equal. apply IH. lia. Qed.

(** ** One generation *)
(** [kept] survive, [cut] do not *)
Theorem C32_generation : forall g d fits pop,
  fair d -> g_tournament g = false -> good_bounds g -> well_formed g pop -> length fits = length pop ->
  2 <= g_popSize g -> 2 <= selectionSize g -> elites g < g_popSize g ->
  exists elite children, produceOffspring g d fits pop = Ok (elite ++ children) /\
    well_formed g (elite ++ children) /\
    (* the elite are the best, unchanged *)
    (exists kept cut, Permutation (combine fits pop) (kept ++ cut) /\ elite = map snd kept /\
       length elite = Nat.min (elites g) (length pop) /\
       forall x y, In x kept -> In y cut -> (fst y <= fst x)%Q) /\
    (* the others are children of two parents among the selected *)
    (exists parents rejected, Permutation (combine fits pop) (parents ++ rejected) /\
       length parents = Nat.min (selectionSize g) (length pop) /\
       (forall x y, In x parents -> In y rejected -> (fst y <= fst x)%Q) /\
       forall k c, nth_error children k = Some c -> exists p q, In p (map snd parents) /\ In q (map snd parents) /\ child_of (g_bounds g) (g_dim g) (d_noise d k) p q c) /\
    ((forall x, In x pop -> within (g_bounds g) x) -> forall x, In x (elite ++ children) -> within (g_bounds g) x).
Proof.
  intros g d fits pop HF HT HB [W1 W2] HL H2 HS HE. unfold produceOffspring.
  destruct (select g fits pop) as [parents|e] eqn:ES; [| unfold select in ES; rewrite HT in ES; discriminate]. cbn [rbind].
  destruct (select_spec _ _ _ _ ES) as (ranked & R1 & R2 & R3). set (es := elites g) in *.
  assert (LR : length ranked = length pop) by (rewrite <- (Permutation_length R1), combine_length; lia).
  assert (LP : length parents = Nat.min (selectionSize g) (length pop)) by (rewrite R2, map_length, firstn_length; lia).
  assert (PI : forall p, In p parents -> In p pop).
  { intros p Hp. rewrite R2 in Hp. apply in_map_iff in Hp as ([f x] & <- & Hx). cbn. assert (Hx' : In (f, x) ranked) by (rewrite <- (firstn_skipn (selectionSize g) ranked); apply in_app_iff; auto).
    apply (Permutation_in _ (Permutation_sym R1)) in Hx'. now apply in_combine_r in Hx'. }
  rewrite (proj2 (Nat.leb_gt (g_popSize g) es) HE).
  destruct (crossOver_spec g d parents (g_popSize g - es) HF) as (cs & C1 & C2 & C3); [lia | auto |]. rewrite C1. cbn [rbind].
  assert (ES' : es <= selectionSize g) by (unfold es, elites; lia).
  exists (firstn es parents), (mutate_all g d cs). split; [auto |].
  assert (CH : forall k c, nth_error (mutate_all g d cs) k = Some c -> length c = g_dim g /\ exists p q, In p parents /\ In q parents /\ child_of (g_bounds g) (g_dim g) (d_noise d k) p q c).
  { intros k c Hc. apply mutate_all_nth in Hc as (c0 & Hc0 & ->). destruct (C3 _ Hc0) as (L0 & p & q & point & P1 & P2 & P3).
    split; [unfold mutated; now rewrite mutate_length |]. exists p, q. split; [auto |]. split; [auto |]. exists point. intros i Hi. unfold mutated. rewrite mutate_nth by lia. cbn [Nat.add].
    rewrite <- (P3 i Hi). now apply mutate_gene_of. }
  assert (EI : forall x, In x (firstn es parents) -> In x pop) by (intros x Hx; apply PI; rewrite <- (firstn_skipn es parents); apply in_app_iff; auto).
  split; [| split; [| split]].
  - split.
    + rewrite app_length, firstn_length, mutate_all_length. rewrite C2, LP. lia.
    + intros x Hx. apply in_app_iff in Hx as [Hx | Hx]; [auto |]. apply In_nth_error in Hx as [k Hx]. now apply (CH k).
  - exists (firstn es ranked), (skipn es ranked). split; [now rewrite firstn_skipn |]. split; [rewrite R2, firstn_map, firstn_firstn; now rewrite Nat.min_l by lia |]. split; [rewrite firstn_length; lia |]. apply R3.
  - exists (firstn (selectionSize g) ranked), (skipn (selectionSize g) ranked). split; [now rewrite firstn_skipn |]. split; [rewrite firstn_length; lia |]. split; [apply R3 |].
    rewrite <- R2. intros k c Hc. now apply (CH k).
  - intros HW x Hx. apply in_app_iff in Hx as [Hx | Hx]; [auto |]. apply mutate_all_In in Hx as (noise & c0 & Hc0 & ->).
    destruct (C3 _ Hc0) as (L0 & p & q & point & P1 & P2 & P3). apply mutated_within; [auto | auto |].
    pose proof (HW p (PI p P1)) as Wp. pose proof (HW q (PI q P2)) as Wq. pose proof (W2 p (PI p P1)) as Lp. pose proof (W2 q (PI q P2)) as Lq.
    unfold within in *. destruct (g_bounds g) as [[mins maxs]|]; [| auto]. intros i Hi. rewrite P3 by lia. destruct (i <? point); [apply Wp | apply Wq]; lia.
Qed.

(** With elitism the best fitness never decreases (deterministic fitness f). *)
Theorem C32_elitism_monotone : forall g d (f : indiv -> Q) pop,
  fair d -> g_tournament g = false -> good_bounds g -> well_formed g pop -> 2 <= g_popSize g -> 2 <= selectionSize g -> 1 <= elites g < g_popSize g ->
  exists pop', produceOffspring g d (map f pop) pop = Ok pop' /\ exists b, In b pop' /\ In b pop /\ forall x, In x pop -> (f x <= f b)%Q.
Proof.
  intros g d f pop HF HT HB HW H2 HS HE. destruct (C32_generation g d (map f pop) pop HF HT HB HW (map_length _ _) H2 HS (proj2 HE)) as (el & ch & E & _ & (kept & cut & K1 & K2 & K3 & K4) & _).
  exists (el ++ ch). split; [auto |].
  assert (FX : forall a, In a (kept ++ cut) -> In (snd a) pop /\ fst a = f (snd a)).
  { intros [q x] Ha. apply (Permutation_in _ (Permutation_sym K1)) in Ha. assert (EC : combine (map f pop) pop = map (fun x => (f x, x)) pop) by (clear; induction pop; cbn; congruence).
    rewrite EC in Ha. apply in_map_iff in Ha as (z & [= <- <-] & Hz). auto. }
  assert (NK : kept <> []). { intros ->. rewrite K2 in K3. cbn in K3. destruct HW as [W1 _]. lia. }
  assert (MX : forall l : list (Q * indiv), l <> [] -> exists b, In b l /\ forall a, In a l -> (fst a <= fst b)%Q).
  { clear. induction l as [|[q x] l IH]; [congruence |]. intros _. destruct l as [|y l]; [exists (q, x); split; [left; auto |]; intros a [<- | []]; lra |].
    destruct IH as (b & B1 & B2); [discriminate |]. destruct (Qlt_le_dec (fst b) q).
    - exists (q, x). split; [left; auto |]. intros a [<- | Ha]; [cbn; lra |]. specialize (B2 a Ha). cbn. lra.
    - exists b. split; [right; auto |]. intros a [<- | Ha]; [cbn; lra | auto]. }
  destruct (MX kept NK) as (b & B1 & B2).
  exists (snd b). split; [apply in_app_iff; left; rewrite K2; now apply in_map |]. destruct (FX b) as [F1 F2]; [apply in_app_iff; auto |]. split; [auto |].
  intros x Hx. rewrite <- F2. assert (Ha : In (f x, x) (kept ++ cut)).
  { eapply Permutation_in; [exact K1 |]. assert (EC : combine (map f pop) pop = map (fun x => (f x, x)) pop) by (clear; induction pop; cbn; congruence). rewrite EC. now apply (in_map (fun x => (f x, x))). }
  apply in_app_iff in Ha as [Ha | Ha]; [apply (B2 _ Ha) | apply (K4 _ _ B1 Ha)].
Qed.

(** ** All generations *)
Lemma evaluate_all_run {X S} : forall (l : list X) (k : list Q -> prog X S) o o' r log,
  run (evaluate_all l k) o = (o', r, log) ->
  (exists e, r = Err e /\ length log <= length l) \/
  (exists vs o1 log2, length vs = length l /\ run (k vs) o1 = (o', r, log2) /\ log = combine l vs ++ log2).
Proof.
  induction l as [|x l IH]; intros k o o' r log H; cbn [evaluate_all run] in H.
  - right. exists [], o, log. auto.
  - destruct (oneEvaluation o x) as [[o1 v]|e] eqn:E; [| injection H as <- <- <-; left; exists e; cbn; split; [auto | lia]].
    destruct (run (evaluate_all l (fun vs => k (v :: vs))) o1) as [[o2 r2] l2] eqn:ER. injection H as <- <- <-.
    destruct (IH _ _ _ _ _ ER) as [(e & E1 & E2) | (vs & o3 & log2 & E1 & E2 & E3)].
    + left. exists e. cbn. split; [auto | lia].
    + right. exists (v :: vs), o3, log2. cbn. rewrite E3. auto.
Qed.
(** a loop invariant of the algorithm's state *)
Lemma loop_inv {X S} (P : S -> Prop) (Er : option (evaluator X) -> exn -> Prop) (step : S -> opt X -> prog X S) (bt : Z) :
  (forall s o o' r l, P s -> run (step s o) o = (o', r, l) -> (Z.of_nat (length l) <= bt)%Z /\ match r with Ok s' => P s' | Err e => Er (o_eval o) e end) ->
  forall fuel s o o2 s2 w l, o_batch o = bt -> P s -> loop fuel step s o = (o2, s2, w, l) ->
  P s2 /\ (forall M, o_maxEval o = Some M -> (o_nEval o2 <= Z.max (o_nEval o) M)%Z) /\ (forall e, w = Broke e \/ w = Raised e -> Er (o_eval o) e).
Proof.
  intros HS. induction fuel as [|fuel IH]; intros s o o2 s2 w l HB HP E; cbn [loop] in E; destruct (stoppingCriterion o) eqn:EC;
    try (injection E as <- <- <- <-; split; [auto |]; split; [intros; lia | intros e [K | K]; discriminate]).
  destruct (run (step s o) o) as [[o' r] l1] eqn:ER. destruct (HS _ _ _ _ _ HP ER) as [HL HR]. destruct (run_spec _ _ _ _ _ ER) as (A1 & A2 & _).
  assert (BD : forall M, o_maxEval o = Some M -> (o_nEval o' <= M)%Z).
  { intros M HM. unfold stoppingCriterion in EC. apply orb_false_iff in EC as [EC _]. apply orb_false_iff in EC as [EC _]. unfold budget_reached in EC. rewrite HM in EC. apply Z.ltb_ge in EC. lia. }
  destruct r as [s'|e].
  - destruct (loop fuel step s' (set_steps o' (o_maxSteps o') (o_nSteps o' + 1))) as [[[o3 s3] w3] l3] eqn:EL. injection E as <- <- <- <-.
    assert (HB' : o_batch (set_steps o' (o_maxSteps o') (o_nSteps o' + 1)) = bt) by (cbn; rewrite (sd8 _ _ A1); auto).
    destruct (IH _ _ _ _ _ _ HB' HR EL) as (P3 & N3 & W3). split; [auto |]. cbn [set_steps o_maxEval o_nEval o_eval] in N3, W3. rewrite (sd7 _ _ A1) in N3. rewrite (sd5 _ _ A1) in W3.
    split; [| auto]. intros M HM. specialize (N3 M HM). specialize (BD M HM). lia.
  - assert (K : forall w0, (w0 = Broke e \/ w0 = Raised e) -> P s /\ (forall M, o_maxEval o = Some M -> (o_nEval o' <= Z.max (o_nEval o) M)%Z) /\ (forall e, w0 = Broke e \/ w0 = Raised e -> Er (o_eval o) e)).
    { intros w0 Hw. split; [auto |]. split; [intros M HM; specialize (BD M HM); lia |]. intros e' He. destruct Hw as [-> | ->], He as [He | He]; try discriminate; injection He as <-; auto. }
    destruct e; injection E as <- <- <- <-; apply K; auto.
Qed.
Lemma evaluate_all_err {X S} : forall (l : list X) (k : list Q -> prog X S) (o : opt X) o' e log, (forall vs, length vs = length l -> exists s', k vs = Ret s') ->
  run (evaluate_all l k) o = (o', Err e, log) -> e = DivergenceError \/ (e = TypeError /\ o_eval o = None).
Proof.
  assert (ONE : forall (o : opt X) x e, oneEvaluation o x = Err e -> e = DivergenceError \/ (e = TypeError /\ o_eval o = None)).
  { clear. intros o x e. unfold oneEvaluation. destruct (o_eval o) as [f|]; [destruct (f (o_nEval o) x); [discriminate |] |]; intros [= <-]; auto. }
  induction l as [|x l IH]; intros k0 o o' e log Hk H; cbn [evaluate_all run] in H.
  - destruct (Hk [] eq_refl) as (s' & E). rewrite E in H. discriminate.
  - destruct (oneEvaluation o x) as [[o1 v]|e1] eqn:EO; [| injection H as <- <- <-; eauto].
    destruct (run (evaluate_all l (fun vs => k0 (v :: vs))) o1) as [[o2 r2] l2] eqn:ER. injection H as <- -> <-.
    destruct (IH (fun vs => k0 (v :: vs)) o1 o2 e l2) as [D | [D1 D2]]; [intros vs Hv; apply Hk; cbn; now rewrite Hv | exact ER | auto |].
    right. split; [auto |]. destruct (oneEvaluation_spec _ _ _ _ EO) as (SD & _). now rewrite <- (sd5 _ _ SD).
Qed.

Theorem C32_all_generations : forall g rnd fuel add n pop o o2 n2 pop2 w l,
  (forall k, fair (rnd k)) -> g_tournament g = false -> good_bounds g -> 2 <= g_popSize g -> 2 <= selectionSize g -> elites g < g_popSize g ->
  well_formed g pop -> o_batch o = Z.of_nat (g_popSize g) ->
  learn fuel add (ga_step g rnd) (n, pop) o = (o2, (n2, pop2), w, l) ->
  well_formed g pop2 /\
  ((forall x, In x pop -> within (g_bounds g) x) -> forall x, In x pop2 -> within (g_bounds g) x) /\
  (forall M, o_maxEval o = Some M -> (o_nEval o2 <= Z.max (o_nEval o) M)%Z) /\
  (forall e, w = Broke e \/ w = Raised e -> e = DivergenceError \/ (e = TypeError /\ o_eval o = None)).
Proof.
  intros g rnd fuel add n pop o o2 n2 pop2 w l HF HT HG H2 HS HE HW HB H.
  set (P := fun s : nat * list indiv => well_formed g (snd s) /\
    ((forall x, In x pop -> within (g_bounds g) x) -> forall x, In x (snd s) -> within (g_bounds g) x)).
  set (Er := fun (ev : option (evaluator indiv)) (e : exn) => e = DivergenceError \/ (e = TypeError /\ ev = None)).
  assert (STEP : forall s o o' r l, P s -> run (ga_step g rnd s o) o = (o', r, l) -> (Z.of_nat (length l) <= Z.of_nat (g_popSize g))%Z /\ match r with Ok s' => P s' | Err e => Er (o_eval o) e end).
  { intros [k p] o0 o' r l0 [P1 P2] ER. cbn [snd] in *. unfold ga_step in ER. cbn [fst snd] in ER. pose proof P1 as [L1 _].
    destruct (evaluate_all_run _ _ _ _ _ _ ER) as [(e & E1 & E2) | (vs & o1 & log2 & E1 & E2 & E3)].
    - split; [lia |]. subst r. eapply evaluate_all_err; [| exact ER]. intros vs Hv. cbn beta.
      destruct (C32_generation g (rnd k) vs p (HF k) HT HG P1 Hv H2 HS HE) as (el & ch & G1 & _). rewrite G1. eauto.
    - destruct (C32_generation g (rnd k) vs p (HF k) HT HG P1 E1 H2 HS HE) as (el & ch & G1 & G2 & _ & _ & G5). rewrite G1 in E2. cbn [run] in E2. injection E2 as <- <- <-.
      split; [rewrite E3, app_nil_r, combine_length; lia |]. split; [exact G2 |]. cbn [snd]. intros B2. apply G5; auto. }
  unfold learn in H. set (o1 := match add with Some n => _ | None => o end) in H.
  assert (E : o_maxEval o1 = o_maxEval o /\ o_batch o1 = o_batch o /\ o_nEval o1 = o_nEval o /\ o_eval o1 = o_eval o) by (subst o1; destruct add; auto). destruct E as (E1 & E2 & E3 & E4).
  destruct (loop_inv P Er (ga_step g rnd) (Z.of_nat (g_popSize g)) STEP fuel (n, pop) o1 o2 (n2, pop2) w l) as ([P1 P2] & N2 & W2); [congruence | split; [exact HW | intros Hx; exact Hx] | exact H |].
  split; [exact P1 |]. split; [exact P2 |]. split; [intros M HM; rewrite <- E3; apply N2; congruence |]. rewrite <- E4. exact W2.
Qed.

(** The initial population is well-formed; with bounds all but the start point are inside. *)
Theorem C32_initial : forall g start rnd, 1 <= g_popSize g -> length start = g_dim g -> (forall k, length (rnd k) = g_dim g) ->
  (match g_bounds g with Some (mins, maxs) => length mins = g_dim g /\ length maxs = g_dim g | None => True end) ->
  well_formed g (initPopulation g start rnd) /\
  (good_bounds g -> (forall k q, In q (rnd k) -> (0 <= q /\ q <= 1)%Q) -> forall x, In x (tl (initPopulation g start rnd)) -> within (g_bounds g) x).
Proof.
  intros g start rnd H1 HL HR HB. unfold initPopulation. split.
  - split; [cbn [length]; rewrite map_length, seq_length; lia |]. intros x [<- | Hx]; [auto |]. apply in_map_iff in Hx as (k & <- & _).
    destruct (g_bounds g) as [[mins maxs]|]; unfold place, vadd; rewrite ?map_length, ?combine_length, ?map_length, ?combine_length, ?map_length, ?combine_length, ?HR; lia.
  - intros HG HU x Hx. cbn [tl] in Hx. apply in_map_iff in Hx as (k & <- & _). unfold within, good_bounds in *. destruct (g_bounds g) as [[mins maxs]|]; [| auto]. destruct HB as [B1 B2].
    intros i Hi. specialize (HR k). specialize (HU k). set (u := rnd k) in *. clearbody u.
    assert (N : forall (a b : list Q) i (f : Q -> Q -> Q), i < length a -> i < length b -> nth i (map (fun xy => f (fst xy) (snd xy)) (combine a b)) 0%Q = f (nth i a 0%Q) (nth i b 0%Q)).
    { clear. induction a as [|x a IH]; intros [|y b] [|i] f Ha Hb; cbn in *; try lia; [auto |]. apply IH; lia. }
    unfold place, vadd in *. rewrite ?map_length, ?combine_length, ?map_length, ?combine_length, ?map_length, ?combine_length in Hi.
    rewrite (N _ _ i Qplus) by (rewrite ?map_length, ?combine_length, ?map_length, ?combine_length; lia).
    rewrite (N _ _ i Qmult) by (rewrite ?map_length, ?combine_length; lia). rewrite (N _ _ i Qminus) by lia.
    assert (HI : In (nth i u 0%Q) u) by (apply nth_In; lia). apply HU in HI. specialize (HG i ltac:(lia)).
    set (a := nth i mins 0%Q) in *. set (b := nth i maxs 0%Q) in *. set (r := nth i u 0%Q) in *. split; nra.
Qed.

(** ** Examples and refutations *)
Definition id_draws : draws := {| d_shuffle1 := fun l => l; d_shuffle2 := fun l => rev l; d_point := fun _ => 0; d_pick := fun n => n; d_noise := fun k i => if (k =? 0) && (i =? 1) then Some 100%Q else None |}.
Lemma id_fair : fair id_draws.
Proof. split; intros l; cbn; [reflexivity | apply Permutation_rev]. Qed.
Definition ga4 : ga := {| g_popSize := 4; g_top := 1 # 2; g_elitism := true; g_eliteProp := 1 # 4; g_eliteSize := None; g_tournament := false; g_dim := 2;
  g_bounds := Some ([0; 0]%Q, [9; 9]%Q) |}.
Definition pop4 : list indiv := [[1; 2]; [3; 4]; [5; 6]; [7; 8]]%Q.
Example C32_generation_ex : produceOffspring ga4 id_draws [5; 9; 1; 7]%Q pop4 = Ok [[3; 4]; [7; 9]; [3; 8]; [3; 8]]%Q /\
  well_formed ga4 pop4 /\ selectionSize ga4 = 2 /\ elites ga4 = 1 /\ good_bounds ga4 /\ (forall x, In x pop4 -> within (g_bounds ga4) x).
Proof.
  split; [vm_compute; reflexivity |]. split; [split; [reflexivity |]; intros x [<- | [<- | [<- | [<- | []]]]]; reflexivity |]. split; [reflexivity |]. split; [reflexivity |]. split.
  - intros i Hi. cbn in Hi. destruct i as [|[|i]]; [cbn; lra | cbn; lra | lia].
  - intros x [<- | [<- | [<- | [<- | []]]]] i Hi; cbn in Hi; (destruct i as [|[|i]]; [cbn; lra | cbn; lra | lia]).
Qed.
(** A whole run: three generations. *)
Example C32_run_ex : let '(o1, _, _) := setEvaluator (fresh false true false None (Some 13%Z) 4 None) (fun _ x => Val (nth 0 x 0 - nth 1 x 0)%Q) None [1; 2]%Q (Ret tt) in
  let '(o2, (n2, pop2), w, l) := learn 9 None (ga_step ga4 (fun _ => id_draws)) (0, pop4) o1 in
  n2 = 3 /\ length pop2 = 4 /\ o_nEval o2 = 12%Z /\ w = Stopped.
Proof. vm_compute. auto. Qed.

(** With at most one selected parent there is nothing to cross and reproduction raises ValueError, which learn takes as a reason to stop ... *)
Theorem C32_single_parent : forall g d fits pop, fair d -> g_tournament g = false -> selectionSize g <= 1 -> elites g < g_popSize g ->
  produceOffspring g d fits pop = Err ValueError.
Proof.
  intros g d fits pop [F1 F2] HT HS HE. unfold produceOffspring. destruct (select g fits pop) as [parents|e] eqn:ES; [| unfold select in ES; rewrite HT in ES; discriminate]. cbn [rbind].
  destruct (select_spec _ _ _ _ ES) as (ranked & _ & R2 & _). assert (LP : length parents <= 1) by (rewrite R2, map_length, firstn_length; lia).
  rewrite (proj2 (Nat.leb_gt (g_popSize g) (elites g)) HE). unfold crossOver. cbn zeta. rewrite <- (Permutation_length (F1 parents)).
  rewrite (Nat.div_small (length parents) 2) by lia. cbn [seq flat_map].
  assert (E0 : d_shuffle2 d [] = []) by (apply Permutation_nil; apply F2). rewrite E0. cbn [length]. rewrite (proj2 (Nat.ltb_ge (g_popSize g - elites g) 0)) by lia.
  rewrite Nat.sub_0_r. destruct (g_popSize g - elites g) as [|m] eqn:EM; [lia |]. cbn [refill length]. destruct (nth_error [] _) eqn:EN; [destruct (d_pick d (S m) mod 0); discriminate |]. reflexivity.
Qed.
(** ... so a population of 9 with the default settings never gets a second generation. *)
Definition ga9 : ga := {| g_popSize := 9; g_top := 1 # 5; g_elitism := false; g_eliteProp := 1 # 2; g_eliteSize := None; g_tournament := false; g_dim := 1; g_bounds := None |}.
Theorem C32_population_of_nine_refuted : exists pop : list indiv, well_formed ga9 pop /\
  let '(o1, _, _) := setEvaluator (fresh false true false None None 9 None) (fun _ x => Val (nth 0 x 0)%Q) None [1]%Q (Ret tt) in
  let '(o2, (n2, pop2), w, l) := learn 9 (Some 5%Z) (ga_step ga9 (fun _ => id_draws)) (0, pop) o1 in
  w = Broke ValueError /\ n2 = 0 /\ o_nEval o2 = 9%Z /\ o_nSteps o2 = 0%Z.
Proof. exists (repeat [1%Q] 9). split; [split; [reflexivity |]; intros x Hx; apply repeat_spec in Hx; now subst |]. vm_compute. auto. Qed.
(** When everybody belongs to the elite the population doubles. *)
Theorem C32_full_elite_refuted : exists g d fits pop pop', fair d /\ well_formed g pop /\ elites g = g_popSize g /\
  produceOffspring g d fits pop = Ok pop' /\ length pop' = 2 * g_popSize g /\ 0 < g_popSize g.
Proof.
  exists {| g_popSize := 2; g_top := 1; g_elitism := true; g_eliteProp := 1; g_eliteSize := None; g_tournament := false; g_dim := 1; g_bounds := None |}, id_draws, [1; 2]%Q, [[1]; [2]]%Q.
  eexists. split; [apply id_fair |]. split; [split; [reflexivity |]; intros x [<- | [<- | []]]; reflexivity |]. split; [reflexivity |]. split; [vm_compute; reflexivity |]. cbn. lia.
Qed.
(** The start point is taken into the population even when it lies outside the bounds. *)
Theorem C32_start_out_of_bounds_refuted : exists start rnd, length start = g_dim ga4 /\ (forall k, length (rnd k) = g_dim ga4) /\ good_bounds ga4 /\
  exists x, In x (initPopulation ga4 start rnd) /\ ~ within (g_bounds ga4) x.
Proof.
  exists [20; 1]%Q, (fun _ => [1 # 2; 1 # 3]%Q). split; [reflexivity |]. split; [reflexivity |]. split; [apply C32_generation_ex |].
  exists [20; 1]%Q. split; [left; reflexivity |]. intros H. specialize (H 0 ltac:(cbn; lia)). cbn in H. lra.
Qed.

Print Assumptions C32_generation.
Print Assumptions C32_elitism_monotone.
Print Assumptions C32_all_generations.
Print Assumptions C32_initial.
Print Assumptions C32_single_parent.
Print Assumptions C32_population_of_nine_refuted.
Print Assumptions C32_full_elite_refuted.
Print Assumptions C32_start_out_of_bounds_refuted.
