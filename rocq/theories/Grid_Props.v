(** C49: grid search. *)
From Coq Require Import QArith Qfield Lqa.
From Verif Require Import Base Grid_Model Grid_Proofs.
Local Open Scope nat_scope.

(** The job lines together hold every pair exactly once, whatever the rounding of the float
    comparison, as long as it is right at the borders (i/nr_c < 1 and not 1 < j/nr_g). *)
Theorem C49_jobs : forall (A : Type) (before : nat -> nat -> bool) (xs ys : list A), xs <> [] -> ys <> [] ->
  (forall i, i < length xs -> before i (length ys) = true) -> (forall j, j < length ys -> before (length xs) j = false) ->
  exists jobs, calculateJobs before xs ys = Ok jobs /\ length jobs = length xs + length ys /\ Permutation (List.concat jobs) (list_prod xs ys).
Proof. exact @calculate_ok. Qed.
Lemma exact_ok nc ng : 0 < nc -> 0 < ng -> (forall i, i < nc -> exact_before nc ng i ng = true) /\ (forall j, j < ng -> exact_before nc ng nc j = false).
Proof.
  intros Hc Hg. unfold exact_before. split.
  - intros i Hi. apply Nat.ltb_lt. rewrite (Nat.mul_comm ng nc). apply Nat.mul_lt_mono_pos_r; auto.
  - intros j Hj. apply Nat.ltb_ge. rewrite (Nat.mul_comm j nc). apply Nat.mul_le_mono_l. lia.
Qed.
Theorem C49_jobs_exact : forall (A : Type) (xs ys : list A), xs <> [] -> ys <> [] ->
  exists jobs, calculateJobs (exact_before (length xs) (length ys)) xs ys = Ok jobs /\ Permutation (List.concat jobs) (list_prod xs ys).
Proof.
  intros A xs ys Hx Hy. destruct (exact_ok (length xs) (length ys)) as [H1 H2]; [destruct xs; [contradiction|cbn; lia]|destruct ys; [contradiction|cbn; lia]|].
  destruct (calculate_ok _ xs ys Hx Hy H1 H2) as (jobs & E & _ & P). eauto.
Qed.
(** an empty axis raises ZeroDivisionError (or yields nothing to maximise over) *)
Theorem C49_empty : forall (A : Type) before (ys : list A), ys <> [] -> calculateJobs before [] ys = Err ZeroDivisionError.
Proof.
  intros A before ys Hy. unfold calculateJobs, permuteSequence. destruct (permute_ok (S (length ys)) ys) as (py & E & P); [lia|].
  change (permute_fuel (S (length (@nil A))) []) with (Ok (@nil A)). cbn [rbind]. rewrite E. cbn [rbind]. apply Permutation_length in P.
  destruct py as [|y py]; [destruct ys; [contradiction|discriminate]|]. reflexivity.
Qed.

(** search evaluates every grid point and returns one of the best. *)
Theorem C49_search : forall (A : Type) (eq_dec : forall a b : A * A, {a = b} + {a <> b}) before validate (xs ys : list A),
  xs <> [] -> ys <> [] -> NoDup xs -> NoDup ys ->
  (forall i, i < length xs -> before i (length ys) = true) -> (forall j, j < length ys -> before (length xs) j = false) ->
  exists best perfs, search eq_dec before validate xs ys = Ok (best, perfs) /\
    Permutation perfs (map (fun p => (p, validate p)) (list_prod xs ys)) /\
    In best (list_prod xs ys) /\ forall p, In p (list_prod xs ys) -> (validate p <= validate best)%Z.
Proof.
  intros A eq_dec before val xs ys Hx Hy Nx Ny H1 H2. destruct (calculate_ok before xs ys Hx Hy H1 H2) as (jobs & E & _ & P).
  unfold search. rewrite E. cbn [rbind].
  assert (N : NoDup (List.concat jobs)) by (eapply Permutation_NoDup; [symmetry; exact P|apply list_prod_NoDup; auto]).
  rewrite (fold_pset eq_dec val (List.concat jobs) []) by auto. cbn [app].
  rewrite map_map. cbn [snd].
  destruct (zargmax_spec (map (fun p => val p) (List.concat jobs))) as (r & v & -> & Er & Hr).
  { intro Em. apply map_eq_nil in Em. rewrite Em in P. apply Permutation_nil in P.
    destruct xs as [|x xs]; [contradiction|]. destruct ys as [|y ys]; [contradiction|discriminate]. }
  cbn [rbind]. rewrite nth_error_map in *. destruct (nth_error (List.concat jobs) r) as [best|] eqn:Eb; [|discriminate]. cbn in *. injection Er as <-.
  exists best, (map (fun p => (p, val p)) (List.concat jobs)). split; [auto|split; [apply Permutation_map; auto|split]].
  - apply (Permutation_in _ P). eapply nth_error_In; eauto.
  - intros p Hp. apply Hr. apply in_map_iff. exists p. split; auto. apply (Permutation_in _ (Permutation_sym P)). auto.
Qed.
(** the grid axes: n equidistant distinct points from lo to hi *)
Theorem C49_linspace : forall lo hi n, (lo < hi)%Q ->
  length (linspace lo hi n) = n /\ NoDup (linspace lo hi n) /\ (forall x, In x (linspace lo hi n) -> lo <= x /\ x <= hi)%Q /\
  (1 <= n -> exists x, nth_error (linspace lo hi n) 0 = Some x /\ (x == lo)%Q) /\
  (2 <= n -> exists x, nth_error (linspace lo hi n) (n - 1) = Some x /\ (x == hi)%Q).
Proof.
  intros lo hi n H. destruct n as [|[|m]].
  - cbn. split; [auto|split; [constructor|split; [intros x []|split; lia]]].
  - cbn. split; [auto|split; [constructor; [intros []|constructor]|split; [intros x [<-|[]]; lra|split; [|lia]]]]. intros _. exists lo. split; [auto|reflexivity].
  - unfold linspace. set (f := fun k : nat => (lo + inject_Z (Z.of_nat k) * ((hi - lo) / inject_Z (Z.of_nat (S m))))%Q).
    assert (Hm : (0 < inject_Z (Z.of_nat (S m)))%Q) by (change 0%Q with (inject_Z 0); rewrite <- Zlt_Qlt; lia).
    assert (Hd : (0 < (hi - lo) / inject_Z (Z.of_nat (S m)))%Q) by (apply Qlt_shift_div_l; lra).
    assert (He : (inject_Z (Z.of_nat (S m)) * ((hi - lo) / inject_Z (Z.of_nat (S m))) == hi - lo)%Q) by (field; lra).
    split; [rewrite map_length, seq_length; auto|split; [|split; [|split]]].
    + assert (G : forall l, NoDup l -> NoDup (map f l)).
      { intros l Hl. induction Hl as [|x l Hx Hl IH]; cbn; constructor; auto. rewrite in_map_iff. intros (y & Ey & Hy).
        assert (inject_Z (Z.of_nat x) == inject_Z (Z.of_nat y))%Q.
        { assert (Ef : (f x == f y)%Q) by (rewrite Ey; reflexivity). unfold f in Ef. set (d := ((hi - lo) / _)%Q) in *.
          assert (E0 : (inject_Z (Z.of_nat x) * d == inject_Z (Z.of_nat y) * d)%Q) by lra. apply Qmult_inj_r in E0; auto. lra. }
        unfold Qeq in H0. cbn in H0. assert (x = y) by lia. subst. auto. }
      apply G, seq_NoDup.
    + intros x Hx. apply in_map_iff in Hx. destruct Hx as (k & <- & Hk). apply in_seq in Hk. unfold f. set (d := ((hi - lo) / _)%Q) in *.
      assert (B1 : (0 <= inject_Z (Z.of_nat k))%Q) by (change 0%Q with (inject_Z 0); rewrite <- Zle_Qle; lia).
      assert (B2 : (inject_Z (Z.of_nat k) <= inject_Z (Z.of_nat (S m)))%Q) by (rewrite <- Zle_Qle; lia).
      split; nra.
    + intros _. exists (f 0). split; [reflexivity|]. unfold f. change (inject_Z (Z.of_nat 0)) with 0%Q. ring.
    + intros _. exists (f (S m)). split; [|unfold f; rewrite He; ring]. rewrite nth_error_map. rewrite nth_error_seq by lia. reflexivity.
Qed.

(** DOE search: n_iterations grids of 13 points, all within the bounds; every grid contains the
    previous centre, so the point returned is the best one evaluated. *)
Theorem C49_doe : forall lo hi validate n best seen, (fst lo < fst hi)%Q -> (snd lo < snd hi)%Q ->
  (forall p q, (fst p == fst q)%Q -> (snd p == snd q)%Q -> (validate p == validate q)%Q) ->
  doe_search lo hi validate n = (best, seen) ->
  length seen = 13 * n /\
  (forall p, In p seen -> (fst lo <= fst p /\ fst p <= fst hi /\ snd lo <= snd p /\ snd p <= snd hi)%Q) /\
  (forall p, In p seen -> validate p <= validate best)%Q /\ (0 < n -> In best seen).
Proof.
  intros lo hi val n best seen H1 H2 Hv E. unfold doe_search in E.
  destruct (doe_loop_ok lo hi val H1 H2 Hv n 0 _ [] (doe_start lo hi) ltac:(intros p []) best seen E) as (L & S & M).
  split; [exact L|split; [intros p Hp; apply (S p Hp)|split; [intros p Hp; apply (S p Hp)|exact M]]].
Qed.

Definition zeqd : forall a b : Z * Z, {a = b} + {a <> b}.
Proof. decide equality; apply Z.eq_dec. Defined.
Example C49_example :
  calculateJobs (exact_before 3 2) [10; 20; 30]%Z [1; 2]%Z = Ok [[]; [(20, 2)]; [(10, 2)]; [(20, 1); (10, 1)]; [(30, 2); (30, 1)]]%Z /\
  (exists perfs, search zeqd (exact_before 3 2) (fun p => fst p * snd p)%Z [10; 20; 30]%Z [1; 2]%Z = Ok ((30, 2)%Z, perfs) /\ length perfs = 6) /\
  (let r := doe_search (0, 0)%Q (1, 1)%Q (fun p => - ((fst p - (1 # 8)) * (fst p - (1 # 8))) - snd p)%Q 3 in
   Qeq (fst (fst r)) (1 # 8)%Q /\ Qeq (snd (fst r)) 0%Q /\ length (snd r) = 39).
Proof. vm_compute. split; [auto|split; [|auto]]. eexists. split; reflexivity. Qed.

Print Assumptions C49_jobs.
Print Assumptions C49_jobs_exact.
Print Assumptions C49_search.
Print Assumptions C49_linspace.
Print Assumptions C49_doe.
