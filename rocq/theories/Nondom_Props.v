(** C33 and C34: non-dominated fronts, sorting and NSGA-II selection. *)
From Coq Require Import QArith.
From Verif Require Import Base StableSort Nondom_Model Nondom_Proofs Nondom_Proofs2 Nondom_Crowd.
Local Open Scope nat_scope.

(** y is strictly smaller than x in every one of the dim objectives (objectives are minimised) *)
Definition strictly_better (dim : nat) (y x : list Z) : Prop := forall k, k < dim -> (nth k y 0 < nth k x 0)%Z.
(** y is at least as good everywhere and strictly better somewhere *)
Definition pareto_better (dim : nat) (y x : list Z) : Prop :=
  (forall k, k < dim -> (nth k y 0 <= nth k x 0)%Z) /\ exists k, k < dim /\ (nth k y 0 < nth k x 0)%Z.

Section Props.
Context {A : Type} (eq_dec : forall x y : A, {x = y} + {x <> y}).
Context (ord : list A -> list A) (Hord : forall l, Permutation (ord l) l).
Context (ordn : list nat -> list nat) (Hordn : forall l, Permutation (ordn l) l).
Context (key : A -> list Z) (dim : nat) (Hdim : 0 < dim).

Definition exact_front (items R : list A) : Prop :=
  NoDup R /\ forall x, In x R <-> In x items /\ forall y, In y items -> ~ strictly_better dim (key y) (key x).
(** members are Pareto optimal, and every Pareto optimal value has exactly one member *)
Definition representative_front (items R : list A) : Prop :=
  NoDup R /\ incl R items /\
  (forall x y, In x R -> In y items -> ~ pareto_better dim (key y) (key x)) /\
  (forall x, In x items -> (forall y, In y items -> ~ pareto_better dim (key y) (key x)) ->
     exists r, In r R /\ key r = key x /\ forall r', In r' R -> key r' = key x -> r' = r).

Lemma exact_of items R : is_front (fun a b => dominates true dim (key a) (key b)) items R -> exact_front items R.
Proof.
  intro H. split; [apply H|]. intro x.
  apply (is_front_exact (fun a b => dominates true dim (key a) (key b))); auto.
  - intros a b c. apply dominates_trans.
  - intros a. apply dominates_irrefl; auto.
Qed.
Lemma atmost_dec (a b : list Z) : {forall k, k < dim -> (nth k a 0 <= nth k b 0)%Z} + {exists k, k < dim /\ (nth k b 0 < nth k a 0)%Z}.
Proof.
  clear Hdim. induction dim as [|n [IH|IH]].
  - left. lia.
  - destruct (Z_le_gt_dec (nth n a 0%Z) (nth n b 0%Z)) as [H|H].
    + left. intros k Hk. destruct (Nat.eq_dec k n) as [->|]; auto. apply IH. lia.
    + right. exists n. split; lia.
  - right. destruct IH as (k & Hk & H). exists k. split; lia.
Qed.
Lemma representative_of items R : (forall x, In x items -> length (key x) = dim) ->
  is_front (fun a b => dominates false dim (key a) (key b)) items R -> representative_front items R.
Proof.
  intros Hlen (N & I & An & C). cbn [dominates] in *. unfold all_atmost in *.
  assert (P : forall x y, In x R -> In y items -> ~ pareto_better dim (key y) (key x)).
  { intros x y Hx Hy [Hle (k & Hk & Hlt)].
    assert (exists z, In z R /\ forall k, k < dim -> (nth k (key z) 0 <= nth k (key y) 0)%Z) as (z & Hz & Hzy).
    { destruct (C y Hy) as [H|H]; auto. exists y. split; auto. intros; lia. }
    apply (An z x Hz Hx).
    - intros ->. specialize (Hzy k Hk). lia.
    - intros k' Hk'. specialize (Hzy k' Hk'). specialize (Hle k' Hk'). lia. }
  split; [auto|split; [auto|split; [auto|]]].
  intros x Hx Hopt.
  assert (exists z, In z R /\ forall k, k < dim -> (nth k (key z) 0 <= nth k (key x) 0)%Z) as (z & Hz & Hzx).
  { destruct (C x Hx) as [H|H]; auto. exists x. split; auto. intros; lia. }
  assert (Ez : key z = key x).
  { assert (Hxz : forall k, k < dim -> (nth k (key x) 0 <= nth k (key z) 0)%Z).
    { destruct (atmost_dec (key x) (key z)) as [H|H]; auto. exfalso. apply (Hopt z (I z Hz)). split; auto. }
    apply (nth_ext _ _ 0%Z 0%Z); [rewrite !Hlen; auto|]. rewrite Hlen by auto. intros k Hk. specialize (Hzx k Hk). specialize (Hxz k Hk). lia. }
  exists z. split; [auto|split; [auto|]]. intros r' Hr' Er. destruct (eq_dec r' z) as [|Hne]; auto.
  exfalso. apply (An r' z Hr' Hz Hne). intros k Hk. rewrite Er, Ez. lia.
Qed.

(** Every implementation returns exactly the undominated items. *)
Theorem C33_front_exact : forall items, items <> [] -> (forall x, In x items -> length (key x) = dim) ->
  (exists R, front_fast eq_dec ord key true items = Ok R /\ exact_front items R) /\
  (exists R, front_arr eq_dec ordn key true items = Ok R /\ exact_front items R) /\
  (exists R, non_dominated_front_merge eq_dec ord key true items = Ok R /\ exact_front items R) /\
  (exists R, non_dominated_front eq_dec ord ordn false key true items = Ok R /\ exact_front items R).
Proof.
  intros items Hn Hl. split; [|split; [|split]].
  - destruct (fast_front eq_dec ord Hord key true dim items Hn Hl) as (R & E & F). exists R. split; [auto|apply exact_of; auto].
  - destruct (arr_front eq_dec ordn Hordn key true dim items Hl) as (R & E & F). exists R. split; [auto|apply exact_of; auto].
  - destruct (ndf_merge eq_dec ord Hord key true dim items Hn Hl) as (R & E & F). exists R. split; [auto|apply exact_of; auto].
  - destruct (ndf_arr eq_dec ord Hord ordn Hordn false key true dim items (or_introl eq_refl) Hl) as (R & E & F). exists R. split; [auto|apply exact_of; auto].
Qed.
(** With equality disallowed: one representative of every Pareto optimal value. *)
Theorem C33_front_representatives : forall items, items <> [] -> (forall x, In x items -> length (key x) = dim) ->
  (exists R, front_fast eq_dec ord key false items = Ok R /\ representative_front items R) /\
  (exists R, front_arr eq_dec ordn key false items = Ok R /\ representative_front items R) /\
  (exists R, non_dominated_front_merge eq_dec ord key false items = Ok R /\ representative_front items R) /\
  (exists R, non_dominated_front eq_dec ord ordn false key false items = Ok R /\ representative_front items R).
Proof.
  intros items Hn Hl. split; [|split; [|split]].
  - destruct (fast_front eq_dec ord Hord key false dim items Hn Hl) as (R & E & F). exists R. split; [auto|apply representative_of; auto].
  - destruct (arr_front eq_dec ordn Hordn key false dim items Hl) as (R & E & F). exists R. split; [auto|apply representative_of; auto].
  - destruct (ndf_merge eq_dec ord Hord key false dim items Hn Hl) as (R & E & F). exists R. split; [auto|apply representative_of; auto].
  - destruct (ndf_arr eq_dec ord Hord ordn Hordn false key false dim items (or_introl eq_refl) Hl) as (R & E & F). exists R. split; [auto|apply representative_of; auto].
Qed.
(** On Python 3 the default implementation slices with a float as soon as it gets more than
    100 items; up to 100 items it is right. *)
Theorem C33_python3_refuted : forall q items, 100 < length items -> non_dominated_front eq_dec ord ordn true key q items = Err TypeError.
Proof. intros q items H. unfold non_dominated_front. cbn [front_merge]. destruct (Nat.ltb_spec 100 (length items)); [auto|lia]. Qed.
Theorem C33_python3_small : forall items, length items <= 100 -> (forall x, In x items -> length (key x) = dim) ->
  exists R, non_dominated_front eq_dec ord ordn true key true items = Ok R /\ exact_front items R.
Proof.
  intros items Hs Hl. destruct (ndf_arr eq_dec ord Hord ordn Hordn true key true dim items (or_intror Hs) Hl) as (R & E & F).
  exists R. split; [auto|apply exact_of; auto].
Qed.
(** the pairwise versions fail on an empty input, the array version does not *)
Theorem C33_empty : forall q py3, front_fast eq_dec ord key q [] = Err IndexError /\ non_dominated_front eq_dec ord ordn py3 key q [] = Ok [].
Proof.
  intros q py3. split; [reflexivity|]. unfold non_dominated_front. cbn [front_merge length Nat.ltb Nat.leb]. unfold front_arr. cbn.
  assert (E0 : ordn [] = []) by (apply Permutation_nil, Permutation_sym, Hordn). rewrite E0. reflexivity.
Qed.

(** *** Sorting *)
(** each front is the exact undominated set of what the earlier ones left over *)
Inductive exact_layers : list A -> list (list A) -> Prop :=
| el_nil items : (forall x, ~ In x items) -> exact_layers items []
| el_cons items f rest fs : exact_front items f -> f <> [] -> (forall x, In x rest <-> In x items /\ ~ In x f) ->
    exact_layers rest fs -> exact_layers items (f :: fs).
Lemma exact_layers_of items fs : layered (fun a b => dominates true dim (key a) (key b)) items fs -> exact_layers items fs.
Proof. induction 1; [constructor; auto|]. econstructor; eauto. apply exact_of; auto. Qed.
Lemma sort_ok py3 q items : (py3 = false \/ length items <= 100) -> (forall x, In x items -> length (key x) = dim) ->
  exists fs, non_dominated_sort eq_dec ord ordn py3 key q items = Ok fs /\ layered (fun a b => dominates q dim (key a) (key b)) items fs.
Proof.
  intros Hp Hl. unfold non_dominated_sort.
  assert (Hset : length (to_set eq_dec items) <= length items).
  { apply NoDup_incl_length; [apply to_set_NoDup|]. intros x. apply to_set_In. }
  destruct (sort_layered eq_dec ord Hord (fun a b => dominates q dim (key a) (key b))
              (fun its => (py3 = false \/ length its <= 100) /\ forall x, In x its -> length (key x) = dim)
              (non_dominated_front eq_dec ord ordn py3 key q)) with (fuel := length (to_set eq_dec items)) (items := to_set eq_dec items)
    as (fs & E & L); auto.
  - intros its [H1 H2] its' Hi Hle. split; [destruct H1; [left; auto|right; lia]|]. auto.
  - intros its _ [H1 H2]. apply ndf_arr; auto.
  - split; [destruct Hp; [left; auto|right; lia]|]. intros x Hx. apply Hl. apply to_set_In in Hx. auto.
  - exists fs. split; auto. eapply layered_ext; [|exact L]. intro. apply to_set_In.
Qed.
Theorem C34_sort : forall py3 items, (py3 = false \/ length items <= 100) -> (forall x, In x items -> length (key x) = dim) ->
  exists fs, non_dominated_sort eq_dec ord ordn py3 key true items = Ok fs /\
    NoDup (List.concat fs) /\ (forall x, In x (List.concat fs) <-> In x items) /\
    exact_layers items fs /\
    (forall i j fi fj x y, nth_error fs i = Some fi -> nth_error fs j = Some fj -> In y fi -> In x fj -> strictly_better dim (key y) (key x) -> i < j).
Proof.
  intros py3 items Hp Hl. destruct (sort_ok py3 true items Hp Hl) as (fs & E & L). exists fs. split; [auto|].
  destruct (layered_concat eq_dec _ _ _ L) as [N I]. split; [auto|split; [auto|split; [apply exact_layers_of; auto|]]].
  intros i j fi fj x y. apply (layered_rank eq_dec (fun a b => dominates true dim (key a) (key b)) items fs).
  - intros a b c. apply dominates_trans.
  - intro a. apply dominates_irrefl; auto.
  - auto.
Qed.

(** *** Selection *)
(** nsga2select returns min(survivors, n) distinct individuals, and once an individual of one
    front is left out none of a later front is taken. *)
Theorem C34_select : forall py3 pop survivors q ind, (py3 = false \/ length pop <= 100) -> (forall x, In x pop -> length (key x) = dim) ->
  nsga2select eq_dec ord ordn py3 pop key survivors q = Ok ind ->
  NoDup ind /\ incl ind pop /\
  Z.of_nat (length ind) = Z.min (Z.max 0 survivors) (Z.of_nat (length (nodup eq_dec pop))) /\
  exists fs, non_dominated_sort eq_dec ord ordn py3 key q pop = Ok fs /\
    forall i j fi fj x y, nth_error fs i = Some fi -> nth_error fs j = Some fj -> In x fi -> In y fj -> In y ind -> ~ In x ind -> j <= i.
Proof.
  intros py3 pop survivors q ind Hp Hl E. unfold nsga2select in E.
  destruct (sort_ok py3 q pop Hp Hl) as (fs & Es & L). rewrite Es in E. cbn [rbind] in E.
  destruct (select_fronts _ _ _ _ _) as [r|] eqn:Er; [|discriminate]. cbn [rbind] in E. injection E as <-.
  destruct (layered_concat eq_dec _ _ _ L) as [N I].
  destruct (select_spec eq_dec (crowd_cut eq_dec ord key) survivors (crowd_cut_perm eq_dec key ord Hord) fs [] r) as (Nr & _ & Ir & Lr & Or); auto.
  { cbn. lia. }
  cbn [app length plus] in *. split; [eapply Permutation_NoDup; [symmetry; apply Hord|auto]|].
  split; [intros x Hx; rewrite (ord_In ord Hord) in Hx; apply I, Ir; auto|].
  split.
  - rewrite (Permutation_length (Hord r)), Lr. f_equal. f_equal. apply Permutation_length, NoDup_Permutation; auto; [apply NoDup_nodup|].
    intro x. rewrite nodup_In. apply I.
  - exists fs. split; auto. intros i j fi fj x y Ei Ej Hx Hy Hyi Hxn. destruct (Nat.le_gt_cases j i) as [|Hlt]; auto. exfalso.
    rewrite (ord_In ord Hord) in Hyi. rewrite (ord_In ord Hord) in Hxn.
    destruct (nth_error_split _ _ Ei) as (pre & post & -> & Hlen).
    apply (Or pre fi post y x eq_refl Hx Hxn); auto. rewrite nth_error_app2 in Ej by lia.
    destruct (j - length pre) as [|m] eqn:Em; [lia|]. cbn in Ej. apply in_concat. exists fj. split; auto. eapply nth_error_In; eauto.
Qed.
(** consequently a strictly better individual is never dropped in favour of a worse one *)
Theorem C34_select_respects_domination : forall py3 pop survivors ind, (py3 = false \/ length pop <= 100) -> (forall x, In x pop -> length (key x) = dim) ->
  nsga2select eq_dec ord ordn py3 pop key survivors true = Ok ind ->
  forall x y, In x pop -> In y ind -> strictly_better dim (key x) (key y) -> In x ind.
Proof.
  intros py3 pop survivors ind Hp Hl E x y Hx Hy Hs.
  destruct (C34_select py3 pop survivors true ind Hp Hl E) as (_ & Hi & _ & fs & Es & Hord').
  destruct (C34_sort py3 pop Hp Hl) as (fs' & Es' & _ & Hc & _ & Hr). rewrite Es in Es'. injection Es' as <-.
  assert (Hx' := proj2 (Hc x) Hx). assert (Hy' := proj2 (Hc y) (Hi y Hy)).
  apply in_concat in Hx', Hy'. destruct Hx' as (fi & Hfi & Hxf), Hy' as (fj & Hfj & Hyf).
  apply In_nth_error in Hfi, Hfj. destruct Hfi as (i & Ei), Hfj as (j & Ej).
  destruct (in_dec eq_dec x ind) as [|Hnx]; auto. exfalso.
  specialize (Hord' i j fi fj x y Ei Ej Hxf Hyf Hy Hnx). specialize (Hr i j fi fj y x Ei Ej Hxf Hyf Hs). lia.
Qed.
(** if at least 2 * dim members of the cut front survive, an individual attaining the minimum
    and one attaining the maximum of every objective are among them *)
Theorem C34_crowding_keeps_extremes : forall fr sorted, NoDup fr -> (forall x, In x fr -> length (key x) = dim) -> (Z.of_nat dim < 10 ^ 100)%Z ->
  crowd_cut eq_dec ord key fr = Ok sorted ->
  forall n k, 2 * dim <= n -> n <= length fr -> k < dim ->
  (exists x, In x (firstn n sorted) /\ forall y, In y fr -> (nth k (key x) 0 <= nth k (key y) 0)%Z) /\
  (exists x, In x (firstn n sorted) /\ forall y, In y fr -> (nth k (key y) 0 <= nth k (key x) 0)%Z).
Proof. intros fr sorted Hn Hl Hd E n k H1 H2 H3. exact (crowd_cut_extremes eq_dec key ord dim Hord fr sorted Hn Hl Hd E n k H1 H2 H3). Qed.
(** ... but three individuals that agree in an objective make the distance divide by zero *)
Theorem C34_crowding_division_refuted : forall a b c, length (key a) = dim -> (forall k, k < dim -> nth k (key a) 0%Z = nth k (key b) 0%Z /\ nth k (key b) 0%Z = nth k (key c) 0%Z) ->
  crowding_distance eq_dec [a; b; c] key = Err ZeroDivisionError.
Proof.
  intros a b c Hl Hk. unfold crowding_distance. rewrite Hl. destruct dim as [|n]; [lia|].
  destruct (Hk 0 ltac:(lia)) as [E1 E2]. cbn [seq fold_left crowd_obj rbind fst snd isort fold_right insert].
  assert (Lbc : (kth (key b) 0 <=? kth (key c) 0)%Z = true) by (unfold kth; rewrite E2; apply Z.leb_refl).
  assert (Lab : (kth (key a) 0 <=? kth (key b) 0)%Z = true) by (unfold kth; rewrite E1; apply Z.leb_refl).
  rewrite Lbc. cbn [insert]. rewrite Lab. cbn [last triples].
  assert (Ez : (kth (key a) 0 - kth (key c) 0 =? 0)%Z = true) by (unfold kth; apply Z.eqb_eq; lia).
  rewrite Ez. cbn [andb negb].
  generalize (seq 1 n) as l. induction l; cbn [fold_left crowd_obj rbind]; auto.
Qed.
End Props.

(** constrained fronts *)
Theorem C33_constrained_front : forall (A : Type) (eq_dec : forall x y : A, {x = y} + {x <> y}) ord ordn,
  (forall l, Permutation (ord l) l) -> (forall l, Permutation (ordn l) l) ->
  forall (fit : A -> list Z) (feasible : A -> bool) (c : A -> list Z) dim items, 0 < dim ->
  items <> [] -> (forall x, In x items -> length (fit x) = dim) ->
  exists R, const_non_dominated_front eq_dec ord ordn (fun x => (fit x, feasible x, c x)) true items = Ok R /\ NoDup R /\
    ((exists z, In z items /\ feasible z = true) ->
       forall x, In x R <-> In x items /\ feasible x = true /\ forall y, In y items -> feasible y = true -> ~ strictly_better dim (fit y) (fit x)) /\
    ((forall z, In z items -> feasible z = false) ->
       exists r, R = [r] /\ In r items /\ forall y, In y items -> (violation (c r) <= violation (c y))%Z).
Proof.
  intros A eq_dec ord ordn Hord Hordn fit feasible c dim items Hdim Hn Hl.
  destruct (const_front eq_dec ord Hord ordn Hordn (fun x => (fit x, feasible x, c x)) true dim items Hn Hl) as (R & E & N & I & An & C).
  exists R. split; [auto|split; [auto|split]].
  - intros (z & Hz & Hfz). unfold beats in *. cbn [fst snd dominates] in *.
    assert (Hfeas : forall x, In x R -> feasible x = true).
    { intros x Hx. destruct (feasible x) eqn:Ex; auto. exfalso. destruct (C z Hz) as [HzR|(w & Hw & Hwz)].
      - apply (An z x HzR Hx); [intros ->; congruence|]. rewrite Hfz, Ex. auto.
      - rewrite Hfz in Hwz. destruct (feasible w) eqn:Ew; [|destruct Hwz]. apply (An w x Hw Hx); [intros ->; congruence|]. rewrite Ew, Ex. auto. }
    intro x. split.
    + intro Hx. split; [auto|split; [auto|]]. intros y Hy Hfy Hs. destruct (C y Hy) as [HyR|(w & Hw & Hwy)].
      * apply (An y x HyR Hx); [intros ->; specialize (Hs 0 Hdim); lia|]. rewrite Hfy, (Hfeas x Hx). exact Hs.
      * rewrite Hfy, (Hfeas w Hw) in Hwy. assert (Hwx : strictly_better dim (fit w) (fit x)).
        { intros k Hk. specialize (Hwy k Hk). specialize (Hs k Hk). lia. }
        apply (An w x Hw Hx); [intros ->; specialize (Hwx 0 Hdim); lia|]. rewrite (Hfeas w Hw), (Hfeas x Hx). exact Hwx.
    + intros (Hx & Hfx & Hno). destruct (C x Hx) as [|(y & Hy & Hyx)]; auto. exfalso. rewrite (Hfeas y Hy), Hfx in Hyx.
      apply (Hno y); auto.
  - intro Hinf. unfold beats in *. cbn [fst snd] in *.
    assert (Hle : forall y, In y items -> exists r, In r R /\ (violation (c r) <= violation (c y))%Z).
    { intros y Hy. destruct (C y Hy) as [HyR|(w & Hw & Hwy)]; [exists y; split; auto; lia|]. exists w. split; auto.
      rewrite (Hinf w), (Hinf y) in Hwy; auto. }
    assert (Hone : forall a b, In a R -> In b R -> a = b).
    { intros a b Ha Hb. destruct (eq_dec a b) as [|Hne]; auto. exfalso.
      destruct (Z_le_gt_dec (violation (c a)) (violation (c b))).
      - apply (An a b Ha Hb Hne). rewrite !Hinf by auto. auto.
      - apply (An b a Hb Ha); auto. rewrite !Hinf by auto. lia. }
    destruct items as [|i0 items]; [contradiction|]. destruct (Hle i0 (or_introl eq_refl)) as (r & Hr & _).
    exists r. split; [|split; [auto|]].
    + destruct R as [|r0 R]; [destruct Hr|]. assert (r0 = r) as -> by (apply Hone; [left|]; auto). destruct R as [|r1 R]; auto.
      exfalso. assert (r1 = r) as -> by (apply Hone; [right; left|left]; auto). inversion N; subst. apply H1. left; auto.
    + intros y Hy. destruct (Hle y Hy) as (w & Hw & Hwy). rewrite (Hone r w Hr Hw). auto.
Qed.

(** Non-vacuity: four points in the plane, one dominated, two equal in one coordinate. *)
Definition pts : list (list Z) := [[1; 5]; [3; 3]; [4; 4]; [3; 1]]%Z.
Definition leqd : forall x y : list Z, {x = y} + {x <> y} := list_eq_dec Z.eq_dec.
Example C33_example :
  front_fast leqd (@rev _) (fun x => x) true pts = Ok [[3; 1]; [3; 3]; [1; 5]]%Z /\
  front_arr leqd (fun l => l) (fun x => x) true pts = Ok [[1; 5]; [3; 3]; [3; 1]]%Z /\
  non_dominated_front leqd (@rev _) (@rev _) false (fun x => x) false pts = Ok [[3; 1]; [1; 5]]%Z /\
  non_dominated_sort leqd (fun l => l) (fun l => l) false (fun x => x) true pts = Ok [[[1; 5]; [3; 3]; [3; 1]]; [[4; 4]]]%Z.
Proof. vm_compute. auto. Qed.
Example C34_example : (exists r, nsga2select leqd (fun l => l) (fun l => l) false pts (fun x => x) 3 true = Ok r /\ length r = 3) /\
  (exists r, nsga2select leqd (fun l => l) (fun l => l) false pts (fun x => x) 2 true = Ok r /\ r = [[1; 5]; [3; 1]]%Z) /\
  (exists r, nsga2select leqd (fun l => l) (fun l => l) false pts (fun x => x) 9 true = Ok r /\ length r = 4) /\
  nsga2select Nat.eq_dec (fun l => l) (fun l => l) false [1; 2; 3] (fun _ => [0; 0]%Z) 2 true = Err ZeroDivisionError.
Proof. vm_compute. split; [|split; [|split]]; try (eexists; split; reflexivity). Qed.
Example C33_const_example : forall ord, const_non_dominated_front Nat.eq_dec (fun l => l) (fun l => l)
    (fun n => ([Z.of_nat n; 0]%Z, 2 <=? n, [5 - Z.of_nat n]%Z)) true [0; 1; 2; 3] = Ok [2; 3] /\
  const_non_dominated_front Nat.eq_dec ord (fun l => l) (fun n => ([Z.of_nat n; 0]%Z, false, [5 - Z.of_nat n]%Z)) true [0; 1; 2; 3] = Ok [3].
Proof. intro ord. vm_compute. auto. Qed.

Print Assumptions C33_front_exact.
Print Assumptions C33_front_representatives.
Print Assumptions C33_python3_refuted.
Print Assumptions C33_python3_small.
Print Assumptions C33_constrained_front.
Print Assumptions C34_sort.
Print Assumptions C34_select.
Print Assumptions C34_select_respects_domination.
Print Assumptions C34_crowding_keeps_extremes.
Print Assumptions C34_crowding_division_refuted.
