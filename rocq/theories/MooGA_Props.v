(** C91: the generations of the multi-objective genetic algorithms. *)
From Coq Require Import Lia.
From Verif Require Import Base Dict MooGA_Model MooGA_Spec.
Local Open Scope nat_scope.

Section C91.
Context {F : Type} (eval : nat -> nat -> F) (front : list (nat * F) -> list nat).
Notation gen := (generation eval front).
Notation gens := (generations eval front).
Notation state := (@state F).

Lemma eval_fold : forall old pop acc k,
  (In k (dkeys (fst (fold_left (evaluate_one eval old) pop acc))) <-> In k pop \/ In k (dkeys (fst acc))) /\
  (forall v, dget k old = Some v -> (In k pop \/ dget k (fst acc) = Some v) -> dget k (fst (fold_left (evaluate_one eval old) pop acc)) = Some v) /\
  snd (fold_left (evaluate_one eval old) pop acc) = snd acc + newcomers (dkeys old) pop /\
  (forall v, dget k (fst (fold_left (evaluate_one eval old) pop acc)) = Some v ->
     dget k (fst acc) = Some v \/ dget k old = Some v \/
     exists n, snd acc <= n < snd (fold_left (evaluate_one eval old) pop acc) /\ v = eval n k).
Proof.
  induction pop as [|x pop IH]; intros acc k.
  - cbn. repeat split; try tauto. lia.
  - cbn [fold_left]. destruct (IH (evaluate_one eval old acc x) k) as (I1 & I2 & I3 & I4).
    assert (K : forall v, In k (dkeys (dset x v (fst acc))) <-> k = x \/ In k (dkeys (fst acc))).
    { intros v. rewrite <- !dget_keys. setoid_rewrite dget_dset. destruct (Nat.eqb_spec k x) as [->|N]; split.
      - auto. - intros _. eauto. - auto. - intros [?|?]; [contradiction|assumption]. }
    assert (E : evaluate_one eval old acc x = match dget x old with Some v => (dset x v (fst acc), snd acc) | None => (dset x (eval (snd acc) x) (fst acc), S (snd acc)) end) by reflexivity.
    split; [|split; [|split]].
    + rewrite I1, E. cbn [In]. destruct (dget x old); cbn [fst]; rewrite K; intuition congruence.
    + intros v Hv Hk. apply I2; [exact Hv|]. rewrite E. destruct (Nat.eq_dec k x) as [->|N].
      * right. rewrite Hv. cbn [fst]. rewrite dget_dset, Nat.eqb_refl. reflexivity.
      * destruct Hk as [[C|Hk]|Hk]; [congruence|left; exact Hk|right].
        destruct (dget x old); cbn [fst]; rewrite dget_dset; (destruct (Nat.eqb_spec k x); [contradiction|exact Hk]).
    + rewrite I3, E. unfold newcomers. cbn [filter]. destruct (in_dec Nat.eq_dec x (dkeys old)) as [Hi|Hi].
      * apply dget_keys in Hi. destruct Hi as [v ->]. reflexivity.
      * apply dget_none in Hi. rewrite Hi. cbn. lia.
    + intros v Hv. assert (M : snd (evaluate_one eval old acc x) <= snd (fold_left (evaluate_one eval old) pop (evaluate_one eval old acc x))) by lia.
      destruct (I4 v Hv) as [H|[H|(n & Hn & H)]]; [|auto|].
      * rewrite E in H. destruct (dget x old) as [w|] eqn:O; cbn [fst] in H; rewrite dget_dset in H; destruct (Nat.eqb_spec k x) as [->|N]; auto.
        -- right. left. congruence.
        -- right. right. exists (snd acc). injection H as <-. split; [|reflexivity]. rewrite E in M at 1. rewrite ?O in M. cbn in M. lia.
      * right. right. exists n. split; [|exact H]. rewrite E in Hn at 1. destruct (dget x old); cbn in Hn; lia.
Qed.

Lemma eval_ok : forall old pop n k,
  (In k (dkeys (fst (evaluate eval old pop n))) <-> In k pop) /\
  (forall v, dget k old = Some v -> In k pop -> dget k (fst (evaluate eval old pop n)) = Some v) /\
  snd (evaluate eval old pop n) = n + newcomers (dkeys old) pop /\
  (forall v, dget k (fst (evaluate eval old pop n)) = Some v -> dget k old = Some v \/ exists m, n <= m < snd (evaluate eval old pop n) /\ v = eval m k).
Proof.
  intros old pop n k. destruct (eval_fold old pop ([], n) k) as (A & B & C & D). unfold evaluate. cbn [fst snd] in *. repeat split.
  - intros H. apply A in H. cbn in H. tauto. - intros H. apply A. auto. - intros v H K. apply B; auto. - exact C.
  - intros v H. destruct (D v H) as [G|[G|G]]; [discriminate|auto|auto].
Qed.

Lemma with_keys_ok : forall (d : dict F) l, (forall k, In k l -> In k (dkeys d)) -> exists r, with_keys d l = Ok r /\ map fst r = l /\ forall k v, In (k, v) r -> dget k d = Some v.
Proof.
  intros d. induction l as [|k l IH]; intros H. { exists []. repeat split. intros ? ? []. }
  destruct IH as (r & E & M & V); [intros; apply H; right; assumption|].
  destruct (proj2 (dget_keys k d) (H k (or_introl eq_refl))) as [v Hv]. exists ((k, v) :: r). cbn. rewrite Hv, E. cbn. rewrite M. repeat split.
  intros a b [K|K]; [injection K as <- <-; exact Hv|apply V; exact K].
Qed.
Lemma with_keys_keys : forall (d : dict F) l r, with_keys d l = Ok r -> map fst r = l /\ forall k v, In (k, v) r -> dget k d = Some v.
Proof.
  intros d. induction l as [|k l IH]; intros r H; cbn in H. { inversion H. split; [reflexivity|intros ? ? []]. }
  destruct (dget k d) as [v|] eqn:E; [|discriminate]. destruct (with_keys d l) as [r'|]; [|discriminate]. inversion H; subst. destruct (IH r' eq_refl) as [M V].
  cbn. rewrite M. split; [reflexivity|]. intros a b [K|K]; [injection K as <- <-; exact E|apply V; exact K].
Qed.

Lemma gen_fields : forall el (s s' : state) pop, gen el s pop = Ok s' ->
  fitnesses s' = fst (evaluate eval (fitnesses s) pop (evaluations s)) /\ evaluations s' = snd (evaluate eval (fitnesses s) pop (evaluations s)).
Proof.
  intros el s s' pop. unfold generation. destruct (evaluate eval (fitnesses s) pop (evaluations s)) as [d n].
  destruct (candidates el pop (bestEvaluable s)); [|discriminate]. cbn [rbind]. destruct (with_keys d a); [|discriminate]. cbn [rbind].
  destruct (with_keys d (front a0)); [|discriminate]. cbn [rbind]. intros H. inversion H. split; reflexivity.
Qed.

(** After a generation, exactly the members of its population have a fitness: one that the generation before had keeps it, any
    other's is one of the evaluations of this generation. *)
Theorem C91_fitness : forall el (s s' : state) pop k, gen el s pop = Ok s' ->
  (In k pop <-> exists v, dget k (fitnesses s') = Some v) /\
  (forall v, In k pop -> dget k (fitnesses s) = Some v -> dget k (fitnesses s') = Some v) /\
  (forall v, dget k (fitnesses s') = Some v -> dget k (fitnesses s) = None -> exists n, evaluations s <= n < evaluations s' /\ v = eval n k).
Proof.
  intros el s s' pop k H. apply gen_fields in H. destruct H as [-> ->]. destruct (eval_ok (fitnesses s) pop (evaluations s) k) as (A & B & C & D).
  repeat split.
  - intros H. apply dget_keys. apply A. exact H. - intros H. apply A. apply dget_keys. exact H. - intros v H K. apply B; assumption.
  - intros v H N. destruct (D v H) as [G|G]; [congruence|exact G].
Qed.

Lemma keys_pop : forall el (s s' : state) pop, gen el s pop = Ok s' -> forall k, In k (dkeys (fitnesses s')) <-> In k pop.
Proof. intros el s s' pop H k. rewrite <- dget_keys. symmetry. apply (C91_fitness el s s' pop k H). Qed.
Lemma newcomers_ext : forall a b p, (forall k, In k a <-> In k b) -> newcomers a p = newcomers b p.
Proof.
  intros a b p H. unfold newcomers. f_equal. apply filter_ext. intros k. destruct (in_dec Nat.eq_dec k a) as [i|i], (in_dec Nat.eq_dec k b) as [j|j]; try reflexivity; exfalso.
  - apply j, H, i. - apply i, H, j.
Qed.

(** The evaluations of a whole run are the newcomers of every generation: nobody is evaluated again while they stay, every copy of a
    newcomer is. *)
Theorem C91_evaluations : forall el pops s, gens el start pops = Ok s -> evaluations s = all_newcomers [] pops.
Proof.
  intros el pops s H.
  assert (G : forall pops (s0 s : state) before, (forall k, In k (dkeys (fitnesses s0)) <-> In k before) -> gens el s0 pops = Ok s ->
                evaluations s = evaluations s0 + all_newcomers before pops).
  { clear. induction pops as [|p pops IH]; intros s0 s before Hb H; cbn in H. { inversion H. cbn. lia. }
    destruct (gen el s0 p) as [s1|] eqn:E; [|discriminate]. cbn [rbind] in H. rewrite (IH s1 s p (keys_pop _ _ _ _ E) H). cbn.
    destruct (gen_fields _ _ _ _ E) as [_ ->]. destruct (eval_ok (fitnesses s0) p (evaluations s0) 0) as (_ & _ & -> & _).
    rewrite (newcomers_ext _ _ p Hb). lia. }
  rewrite (G pops start s []); [reflexivity|cbn; tauto|exact H].
Qed.

(** However noisy the evaluation, a member that stays keeps the fitness it had. *)
Theorem C91_frozen : forall el pops (s s' : state) k v, gens el s pops = Ok s' -> dget k (fitnesses s) = Some v -> Forall (In k) pops ->
  dget k (fitnesses s') = Some v.
Proof.
  induction pops as [|p pops IH]; intros s s' k v H Hv Hp; cbn in H. { inversion H; subst; exact Hv. }
  destruct (gen el s p) as [s1|] eqn:E; [|discriminate]. inversion Hp; subst. apply (IH s1 s' k v H); [|assumption].
  apply (C91_fitness el s s1 p k E); assumption.
Qed.

(** Without noise every fitness is the value of the function. *)
Theorem C91_exact : forall (f : nat -> F) el pops s k v, (forall n k, eval n k = f k) -> gens el start pops = Ok s ->
  dget k (fitnesses s) = Some v -> v = f k.
Proof.
  intros f el pops s k v Hf H.
  assert (G : forall pops (s0 : state), (forall k v, dget k (fitnesses s0) = Some v -> v = f k) -> gens el s0 pops = Ok s ->
                forall k v, dget k (fitnesses s) = Some v -> v = f k).
  { clear k v H. induction pops0 as [|p ps IH]; intros s0 H0 H; cbn in H. { inversion H; subst; exact H0. }
    destruct (gen el s0 p) as [s1|] eqn:E; [|discriminate]. cbn [rbind] in H. apply (IH s1); [|exact H]. intros k v Hv.
    destruct (C91_fitness el s0 s1 p k E) as (_ & B & C). destruct (dget k (fitnesses s0)) as [w|] eqn:O.
    - assert (Hk : In k p) by (apply (keys_pop _ _ _ _ E); apply dget_keys; eauto). specialize (B w Hk eq_refl). apply H0. congruence.
    - destruct (C v Hv eq_refl) as (n & _ & ->). apply Hf. }
  apply (G pops start); [cbn; discriminate|exact H].
Qed.

(** With elitism no generation fails, and the best of a generation are the front of its population, each with its own fitness. *)
Theorem C91_elitism : forall (s : state) pop, picks front -> exists s' items b,
  gen true s pop = Ok s' /\ map fst items = pop /\ (forall k v, In (k, v) items -> dget k (fitnesses s') = Some v) /\
  b = front items /\ bestEvaluable s' = Front b /\ length (bestEvaluation s') = length b /\
  (forall i k, nth_error b i = Some k -> In k pop /\ dget k (fitnesses s') = nth_error (bestEvaluation s') i).
Proof.
  intros s pop P. unfold generation. destruct (evaluate eval (fitnesses s) pop (evaluations s)) as [d n] eqn:E.
  assert (K : forall k, In k (dkeys d) <-> In k pop). { intros k. destruct (eval_ok (fitnesses s) pop (evaluations s) k) as (A & _). rewrite E in A. exact A. }
  destruct (with_keys_ok d pop) as (r & Er & Mr & Vr); [intros; apply K; assumption|].
  assert (Pb : forall k, In k (front r) -> In k pop) by (intros k H; apply P in H; rewrite Mr in H; exact H).
  destruct (with_keys_ok d (front r)) as (q & Eq & Mq & Vq); [intros k H; apply K; auto|].
  cbn [candidates rbind]. rewrite Er. cbn [rbind]. rewrite Eq. cbn [rbind]. eexists _, r, (front r). split; [reflexivity|]. cbn.
  split; [exact Mr|]. split; [exact Vr|]. split; [reflexivity|]. split; [reflexivity|]. split. { rewrite <- Mq, !map_length. reflexivity. }
  intros i k H. split. { apply Pb. eapply nth_error_In. exact H. }
  rewrite <- Mq, nth_error_map in H. rewrite nth_error_map. destruct (nth_error q i) as [[a b]|] eqn:N; [|discriminate]. cbn in *. injection H as <-.
  apply Vq. eapply nth_error_In. exact N.
Qed.
Theorem C91_elitism_runs : forall pops (s : state), picks front -> exists s', gens true s pops = Ok s'.
Proof.
  induction pops as [|p pops IH]; intros s P. { eexists. reflexivity. }
  destruct (C91_elitism s p P) as (s1 & _ & _ & E & _). cbn. rewrite E. cbn [rbind]. apply IH. exact P.
Qed.

(** Without elitism the first generation already fails: the initial evaluable is no list of individuals. *)
Theorem C91_no_elitism_refuted : forall pop pops, gens false start (pop :: pops) = Err TypeError.
Proof. intros. cbn. unfold generation. destruct (evaluate eval _ pop _). reflexivity. Qed.

(** Were there a front to begin with, a generation would fail as soon as one of the best so far has left the population. *)
Theorem C91_best_left_refuted : forall (s : state) pop l k, bestEvaluable s = Front l -> In k l -> ~ In k pop -> gen false s pop = Err KeyError.
Proof.
  intros s pop l k B Hl Hp. unfold generation. destruct (evaluate eval (fitnesses s) pop (evaluations s)) as [d n] eqn:E. rewrite B. cbn [candidates rbind].
  assert (Hd : dget k d = None).
  { apply dget_none. intros C. apply Hp. destruct (eval_ok (fitnesses s) pop (evaluations s) k) as (A & _). rewrite E in A. apply A. exact C. }
  assert (G : forall c, In k c -> with_keys d c = Err KeyError).
  { induction c as [|x c IH]; intros H; [destruct H|]. cbn. destruct H as [->|H]; [rewrite Hd; reflexivity|]. destruct (dget x d); [|reflexivity]. rewrite (IH H). reflexivity. }
  rewrite G; [reflexivity|]. apply in_or_app. right. exact Hl.
Qed.
End C91.

(** ** Cases: the objectives are the individual and the number of the evaluation; the front is everything *)
Definition ex_eval (n k : nat) : nat * nat := (k, n).
Example ex_run : generations ex_eval (map fst) true start [[3; 4; 3]; [4; 6]; [3; 4]] =
  Ok {| fitnesses := [(3, (3, 4)); (4, (4, 1))]; evaluations := 5; bestEvaluable := Front [3; 4]; bestEvaluation := [(3, 4); (4, 1)] |}.
Proof. reflexivity. Qed.
Example ex_newcomers : all_newcomers [] [[3; 4; 3]; [4; 6]; [3; 4]] = 5.
Proof. reflexivity. Qed.
Example ex_picks : picks (map (@fst nat (nat * nat))).
Proof. intros l k H. exact H. Qed.
Example ex_left : generation ex_eval (map fst) false {| fitnesses := [(3, (3, 0))]; evaluations := 1; bestEvaluable := Front [3]; bestEvaluation := [(3, 0)] |} [4] = Err KeyError.
Proof. reflexivity. Qed.

Print Assumptions C91_fitness.
Print Assumptions C91_evaluations.
Print Assumptions C91_frozen.
Print Assumptions C91_exact.
Print Assumptions C91_elitism.
Print Assumptions C91_elitism_runs.
Print Assumptions C91_no_elitism_refuted.
Print Assumptions C91_best_left_refuted.
