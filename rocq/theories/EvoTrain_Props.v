(** C90: the Evolino trainer. *)
From Coq Require Import QArith Qround Lia ZArith.
From Verif Require Import Base EvoTrain_Model EvoTrain_Spec.
Local Open Scope nat_scope.

Lemma flt_above : forall a b, flt a b = true <-> above b a.
Proof.
  intros [x|] [y|]; cbn; try (split; [discriminate|tauto]); try (split; [tauto|reflexivity]).
  rewrite Bool.negb_true_iff. split.
  - intros H. apply Qnot_le_lt. intros C. apply Qle_bool_iff in C. congruence.
  - intros H. destruct (Qle_bool y x) eqn:E; [|reflexivity]. apply Qle_bool_iff in E. exfalso. apply (Qlt_not_le _ _ H E).
Qed.
Lemma above_trans : forall a b c, above a b -> above b c -> above a c.
Proof. intros [x|] [y|] [z|]; cbn; try tauto. intros H K. apply (Qlt_trans _ _ _ K H). Qed.
Lemma above_irr : forall a, ~ above a a.
Proof. intros [x|]; cbn; [|tauto]. apply Qlt_irrefl. Qed.
Lemma above_cotrans : forall a b c, above a b -> ~ above c b -> above a c.
Proof.
  intros [x|] [y|] [z|]; cbn; try tauto. intros H K. apply Qnot_lt_le in K. apply (Qle_lt_trans _ _ _ K H).
Qed.

Section C90.
Context {A P : Type} (evaluation : option (dataset A) -> P -> P * option Q) (selection reproduction burst : P -> P) (nBurst : option nat).
Notation trainE := (trainEpochs evaluation selection reproduction burst nBurst).
Notation train1 := (train evaluation selection reproduction burst nBurst).
Notation trainer := (@trainer A P).

(** the wait, in quiet epochs *)
Definition wait_of : option nat := option_map pred nBurst.

Definition inv (d : option (dataset A)) (p0 : P) (h : list epoch) (t : trainer) : Prop :=
  course evaluation selection reproduction burst d p0 wait_of h (population t) /\ evds t = d /\ totalepochs t = length h /\
  greatest (max_fitness t) h /\ max_epoch t <= length h /\ forall n, quiet n h <-> n <= length h - max_epoch t.

Lemma greatest_record : forall m f h, greatest m h -> (above f m <-> is_record f h).
Proof.
  intros m f h [Hi Hf]. split.
  - intros H. split. { destruct f, m; cbn in *; tauto. }
    rewrite Forall_forall in *. intros e He. apply (above_cotrans f m); [exact H|]. apply Hf. exact He.
  - intros [Hn Ha]. destruct Hi as [-> | Hi]; [exact Hn|]. apply in_map_iff in Hi. destruct Hi as (e & <- & He).
    rewrite Forall_forall in Ha. apply Ha. exact He.
Qed.

Lemma quiet_tail : forall b f h n, quiet (S n) ((b, f) :: h) <-> b = false /\ ~ is_record f h /\ quiet n h.
Proof. intros. split. { intros H. inversion H; subst. auto. } intros (-> & H & K). constructor; assumption. Qed.

Lemma train_inv : forall d p0 h t, inv d p0 h t -> exists b f, inv d p0 ((b, f) :: h) (train1 t) /\ evmax (train1 t) = f.
Proof.
  intros d p0 h t (Hc & Hd & Ht & Hg & Hm & Hq).
  set (b := match nBurst with None => false | Some b => b <=? S (totalepochs t) - max_epoch t end).
  assert (Hb : b = true <-> due wait_of h).
  { unfold b, wait_of, due. destruct nBurst as [k|]; cbn [option_map]; [|split; [discriminate|tauto]].
    rewrite Nat.leb_le, Hq, Ht. lia. }
  set (p1 := if b then burst (population t) else population t).
  exists b, (snd (evaluation d p1)).
  assert (Hc' : course evaluation selection reproduction burst d p0 wait_of ((b, snd (evaluation d p1)) :: h)
                  (reproduction (selection (fst (evaluation d p1))))).
  { unfold p1. destruct b.
    - apply course_burst; [exact Hc|]. apply Hb. reflexivity.
    - apply course_plain; [exact Hc|]. intros C. apply Hb in C. discriminate. }
  unfold train. fold b. rewrite Hd. fold p1. destruct (evaluation d p1) as [p2 f] eqn:E. cbn [fst snd] in *.
  pose proof (greatest_record _ f _ Hg) as Hr.
  destruct (flt (max_fitness t) f) eqn:F.
  - apply flt_above in F. split; [|reflexivity]. unfold inv. cbn [population evds totalepochs max_fitness max_epoch length].
    repeat split; [exact Hc'|now rewrite Ht| | |lia| | ].
    + right. left. reflexivity.
    + constructor; [apply above_irr|]. apply Hr in F. destruct F as [_ F]. rewrite Forall_forall in *. intros e He C.
      apply (above_irr f). apply (above_trans _ (snd e)); [apply F; exact He|exact C].
    + intros Q. destruct n; [lia|]. apply quiet_tail in Q. destruct Q as (_ & Q & _). apply Hr in F. tauto.
    + intros L. destruct n; [constructor|lia].
  - assert (F' : ~ above f (max_fitness t)) by (intros C; apply flt_above in C; congruence).
    split; [|reflexivity]. unfold inv. cbn [population evds totalepochs max_fitness max_epoch length].
    repeat split; [exact Hc'|now rewrite Ht| | | | | ].
    + destruct Hg as [[-> | Hi] _]; [left; reflexivity|right; right; exact Hi].
    + constructor; [exact F'|apply Hg].
    + destruct b; lia.
    + intros Q. destruct n; [lia|]. apply quiet_tail in Q. destruct Q as (-> & _ & Q). apply Hq in Q. lia.
    + intros L. destruct n; [constructor|]. destruct b; [lia|]. apply quiet_tail. split; [reflexivity|]. split; [tauto|]. apply Hq. lia.
Qed.

Lemma trainE_S : forall n t, trainE (S n) t = train1 (trainE n t).
Proof. induction n as [|n IH]; intros t; [reflexivity|]. cbn in *. rewrite <- IH. reflexivity. Qed.

Lemma new_ok : forall netin netout (d : option (dataset A)) (p : P) t, new netin netout d p = Ok t ->
  t = {| ds := d; evds := d; population := p; evmax := None; totalepochs := 0; max_fitness := None; max_epoch := 0 |}.
Proof.
  intros netin netout d p t. unfold new, setData. cbn. destruct d as [x|].
  - destruct (truthy (Some x)); [destruct ((indim x =? netin) && (outdim x =? netout))|]; cbn; intros H; inversion H; reflexivity.
  - intros H; inversion H; reflexivity.
Qed.

Lemma runs : forall netin netout (d : option (dataset A)) (p : P) t n, new netin netout d p = Ok t -> exists h, inv d p h (trainE n t) /\ length h = n.
Proof.
  intros netin netout d p t n H. apply new_ok in H. subst t. induction n as [|n (h & IH & L)].
  - exists []. split; [|reflexivity]. repeat split; cbn; try lia; auto; try constructor.
    + inversion 1. lia.
    + intros H. replace n with 0 by lia. constructor.
  - rewrite trainE_S. destruct (train_inv _ _ _ _ IH) as (b & f & K & _). exists ((b, f) :: h). split; [exact K|]. cbn. now rewrite L.
Qed.

(** Training for n epochs follows the schedule: a burst mutation begins an epoch when the nBurst - 1 epochs before it were without a
    record and without a burst, and then the population is evaluated on the data, selected from and refilled; the maximal fitness
    is the greatest of all epochs. *)
Theorem C90_schedule : forall netin netout (d : option (dataset A)) (p : P) t n, new netin netout d p = Ok t ->
  exists h, length h = n /\
    course evaluation selection reproduction burst d p (option_map pred nBurst) h (population (trainE n t)) /\
    greatest (max_fitness (trainE n t)) h /\ totalepochs (trainE n t) = n.
Proof.
  intros netin netout d p t n H. destruct (runs _ _ _ _ _ n H) as (h & I & L). exists h. split; [exact L|].
  destruct I as (Hc & _ & Ht & Hg & _). split; [exact Hc|]. split; [exact Hg|]. now rewrite Ht.
Qed.

(** the maximal fitness never goes down, and no epoch changes the data *)
Theorem C90_monotone : forall t n, ~ above (max_fitness t) (max_fitness (trainE n t)) /\ evds (trainE n t) = evds t /\ ds (trainE n t) = ds t.
Proof.
  intros t n. induction n as [|n (I1 & I2 & I3)]; [repeat split; apply above_irr|]. rewrite trainE_S. set (u := trainE n t) in *. unfold train.
  destruct (evaluation (evds u) _) as [p2 f]. destruct (flt (max_fitness u) f) eqn:F; cbn; repeat split; try assumption.
  apply flt_above in F. intros C. apply I1. apply (above_trans _ f); assumption.
Qed.

(** what evaluation.max_fitness holds is the latest best, which may be less *)
Theorem C90_latest : forall t, evmax (train1 t) =
  snd (evaluation (evds t) (match nBurst with Some b => if b <=? S (totalepochs t) - max_epoch t then burst (population t) else population t | None => population t end)).
Proof.
  intros t. unfold train. destruct nBurst as [b|].
  - destruct (b <=? _), (evaluation (evds t) _) as [p2 f]; destruct (flt (max_fitness t) f); reflexivity.
  - destruct (evaluation (evds t) _) as [p2 f]. destruct (flt (max_fitness t) f); reflexivity.
Qed.

(** the data of the trainer: setData leaves what is evaluated as it is, so that the trainings are the same whatever was set *)
Theorem C90_setData_refuted : forall netin netout (d : option (dataset A)) t n,
  population (trainE n (fst (setData netin netout d t))) = population (trainE n t) /\ ds (trainE n (fst (setData netin netout d t))) = d.
Proof.
  intros netin netout d t n.
  assert (G : forall n u v, evds u = evds v -> population u = population v -> totalepochs u = totalepochs v -> max_fitness u = max_fitness v ->
                max_epoch u = max_epoch v -> population (trainE n u) = population (trainE n v)).
  { clear. induction n as [|n IH]; intros u v E1 E2 E3 E4 E5; [exact E2|]. cbn [trainEpochs]. unfold train. rewrite E1, E2, E3, E4, E5.
    destruct (evaluation (evds v) _) as [p2 f]. destruct (flt (max_fitness v) f); apply IH; reflexivity. }
  split; [apply G; reflexivity|]. destruct (C90_monotone (fst (setData netin netout d t)) n) as (_ & _ & ->). reflexivity.
Qed.

(** setDataset is what changes it, and only it *)
Theorem C90_setDataset : forall d t n, evds (trainE n (setDataset d t)) = d /\ ds (trainE n (setDataset d t)) = ds t /\
  population (setDataset d t) = population t /\ max_fitness (setDataset d t) = max_fitness t /\ totalepochs (setDataset d t) = totalepochs t
  /\ max_epoch (setDataset d t) = max_epoch t.
Proof. intros d t n. destruct (C90_monotone (setDataset d t) n) as (_ & -> & ->). repeat split. Qed.

(** trainOnDataset never trains *)
Theorem C90_trainOnDataset : forall d (t : trainer), trainOnDataset d t = (t, Err NotImplementedError).
Proof. reflexivity. Qed.
End C90.

(** a trainer is made exactly for data without samples or of the dimensions of the network *)
Theorem C90_new : forall (A P : Type) netin netout (d : option (dataset A)) (p : P),
  (exists t, new netin netout d p = Ok t /\ ds t = d /\ evds t = d /\ population t = p) <->
  (forall x, d = Some x -> (exists s, In s (seqs x) /\ s <> []) -> indim x = netin /\ outdim x = netout).
Proof.
  intros A P netin netout d p.
  assert (Tr : forall x : dataset A, truthy (Some x) = true <-> exists s, In s (seqs x) /\ s <> []).
  { intros x. unfold truthy. rewrite Bool.negb_true_iff, Nat.eqb_neq. induction (seqs x) as [|s l IH]; cbn.
    - split; [lia|]. intros (s & [] & _).
    - rewrite app_length. split.
      + intros H. destruct s as [|a s]; [|exists (a :: s); split; [left; reflexivity|discriminate]].
        destruct (proj1 IH) as (s & Hs & Hn); [cbn in H; lia|]. exists s. auto.
      + intros (s' & [-> | Hs] & Hn); [destruct s'; [congruence|cbn; lia]|]. pose proof (proj2 IH (ex_intro _ s' (conj Hs Hn))). lia. }
  unfold new, setData. destruct d as [x|]; cbn [fst snd].
  - destruct (truthy (Some x)) eqn:T.
    + apply Tr in T. destruct ((indim x =? netin) && (outdim x =? netout)) eqn:E; cbn.
      * apply andb_prop in E. destruct E as [E1 E2]. apply Nat.eqb_eq in E1, E2. split; [|intros _; eexists; repeat split].
        intros _ y Hy _. inversion Hy; subst; auto.
      * split; [intros (t & H & _); discriminate|]. intros H. destruct (H x eq_refl T) as [<- <-]. rewrite !Nat.eqb_refl in E. discriminate.
    + cbn. split; [|intros _; eexists; repeat split]. intros _ y Hy Hs. inversion Hy; subst. apply Tr in Hs. congruence.
  - cbn. split; [|intros _; eexists; repeat split]. intros _ y Hy. discriminate.
Qed.

(** The documentation: "Number of epochs without increase of fitness in a row, before burstmutation is applied".  With 1, there is a
    burst mutation in every epoch, the first included, even when every epoch is a record. *)
Theorem C90_wait_refuted : forall (A : Type) (d : option (dataset A)) n,
  let evaluation := fun (_ : option (dataset A)) p => ((fst p, S (snd p)), Some (inject_Z (Z.of_nat (snd p)))) in
  let burst := fun p : nat * nat => (S (fst p), snd p) in
  forall t, new 0 0 d (0, 0) = Ok t ->
  population (trainEpochs evaluation (fun p => p) (fun p => p) burst (Some 1) n t) = (n, n) /\
  (n <> 0 -> max_fitness (trainEpochs evaluation (fun p => p) (fun p => p) burst (Some 1) n t) = Some (inject_Z (Z.of_nat (n - 1))) /\
   max_epoch (trainEpochs evaluation (fun p => p) (fun p => p) burst (Some 1) n t) = n).
Proof.
  intros A d n ev bu t H. apply new_ok in H. subst t.
  set (t0 := {| ds := d |}). set (R := fun n => trainEpochs ev (fun p => p) (fun p => p) bu (Some 1) n t0).
  assert (I : population (R n) = (n, n) /\ totalepochs (R n) = n /\ max_epoch (R n) = n /\
              max_fitness (R n) = match n with 0 => None | S k => Some (inject_Z (Z.of_nat k)) end).
  { induction n as [|n (I1 & I2 & I3 & I4)]; [repeat split|]. unfold R. rewrite trainE_S. fold (R n). unfold train. rewrite I1, I2, I3, I4.
    replace (1 <=? S n - n) with true by (symmetry; apply Nat.leb_le; lia). cbn [ev bu fst snd].
    replace (flt _ _) with true; [repeat split|]. symmetry. apply flt_above. destruct n; cbn [above]; [exact I|]. rewrite <- Zlt_Qlt. lia. }
  destruct I as (I1 & _ & I3 & I4). split; [exact I1|]. intros Hn. split; [|exact I3]. fold (R n). rewrite I4. destruct n; [lia|]. do 3 f_equal. lia.
Qed.

(** ** The split *)
(** The two parts of a sequence are the sequence, whatever the ratio. *)
Theorem C90_split : forall A w (ss : list (list A)) W T, split w ss = Ok (W, T) ->
  length W = length ss /\ length T = length ss /\ forall i, nth i W [] ++ nth i T [] = nth i ss [].
Proof.
  intros A w. induction ss as [|s ss IH]; intros W T H; cbn in H.
  - inversion H; subst. repeat split. intros [|i]; reflexivity.
  - destruct (training_start w (length s)); [|discriminate]. cbn [rbind] in H. destruct (split w ss) as [[W' T']|] eqn:E; [|discriminate].
    inversion H; subst. destruct (IH _ _ eq_refl) as (I1 & I2 & I3). cbn. repeat split; try lia.
    intros [|i]; [apply firstn_skipn|apply I3].
Qed.

(** With a number between 0 and 1, the washout is the share of it, rounded down; the rest is for training, and of a sequence with a sample there is something
    to train on unless the number is 1. *)
Theorem C90_washout : forall A q (ss : list (list A)), (0 <= q)%Q -> (q <= 1)%Q ->
  exists W T, split (Number q) ss = Ok (W, T) /\
  forall i, i < length ss ->
    (inject_Z (Z.of_nat (length (nth i W []))) <= q * inject_Z (Z.of_nat (length (nth i ss []))) /\
     q * inject_Z (Z.of_nat (length (nth i ss []))) < inject_Z (Z.of_nat (length (nth i W [])) + 1))%Q /\
    ((q < 1)%Q -> nth i ss [] <> [] -> nth i T [] <> []).
Proof.
  intros A q ss H0 H1. induction ss as [|s ss (W & T & E & IH)].
  - exists [], []. split; [reflexivity|]. cbn. intros; lia.
  - set (x := (q * inject_Z (Z.of_nat (length s)))%Q).
    assert (L0 : (0 <= inject_Z (Z.of_nat (length s)))%Q) by (change 0%Q with (inject_Z 0); rewrite <- Zle_Qle; lia).
    assert (X0 : (0 <= x)%Q) by (unfold x; apply Qmult_le_0_compat; assumption).
    assert (X1 : (x <= inject_Z (Z.of_nat (length s)))%Q).
    { unfold x. rewrite <- (Qmult_1_l (inject_Z (Z.of_nat (length s)))) at 2. apply Qmult_le_compat_r; assumption. }
    assert (F0 : (0 <= Qfloor x)%Z) by (change 0%Z with (Qfloor 0); apply Qfloor_resp_le; exact X0).
    assert (F1 : (Qfloor x <= Z.of_nat (length s))%Z) by (rewrite <- (Qfloor_Z (Z.of_nat (length s))); apply Qfloor_resp_le; exact X1).
    assert (Tz : truncate x = Qfloor x) by (unfold truncate; apply Qle_bool_iff in X0; rewrite X0; reflexivity).
    set (k := position (Qfloor x) (length s)).
    assert (K : Z.of_nat k = Qfloor x) by (unfold k, position; destruct (Z.ltb_spec (Qfloor x) 0); lia).
    assert (Kl : k <= length s) by lia.
    exists (firstn k s :: W), (skipn k s :: T). split.
    { cbn [split training_start rbind]. fold x. rewrite Tz, E. reflexivity. }
    intros [|i] Hi; [|apply IH; cbn in Hi; lia]. cbn [nth]. rewrite firstn_length_le by exact Kl. rewrite K. fold x.
    split; [split; [apply Qfloor_le|apply Qlt_floor]|].
    intros Hq Hs C. apply (f_equal (@length A)) in C. rewrite skipn_length in C. cbn in C.
    assert (k = length s) by lia. assert (Ls : length s <> 0) by (destruct s; [congruence|discriminate]).
    assert (Hlt : (x < inject_Z (Z.of_nat (length s)))%Q).
    { unfold x. rewrite <- (Qmult_1_l (inject_Z (Z.of_nat (length s)))) at 2. apply Qmult_lt_compat_r; [|exact Hq].
      change 0%Q with (inject_Z 0). rewrite <- Zlt_Qlt. lia. }
    apply (Qlt_not_le _ _ Hlt). rewrite <- H, K. apply Qfloor_le.
Qed.

(** The documented "float array of two values", the default among them, splits nothing: every data set with a sequence fails.  So does the
    default of the trainer, were it passed on. *)
Theorem C90_default_ratio_refuted : forall A (s : list A) ss,
  split (evaluation_ratio None) (s :: ss) = Err TypeError /\ split (trainer_ratio None) (s :: ss) = Err TypeError /\
  forall a b, split (Array [a; b]) (s :: ss) = Err TypeError.
Proof. intros. repeat split. Qed.
Theorem C90_ratio_given : forall w, evaluation_ratio (Some w) = w /\ trainer_ratio (Some w) = w.
Proof. intros; split; reflexivity. Qed.

(** a number below -1 or above 1 leaves nothing for one of the parts *)
Theorem C90_extreme : forall A q (s : list A), ((1 < q)%Q -> split (Number q) [s] = Ok ([s], [[]])) /\ ((q <= -(1))%Q -> split (Number q) [s] = Ok ([[]], [s])).
Proof.
  intros A q s.
  assert (L0 : (0 <= inject_Z (Z.of_nat (length s)))%Q) by (change 0%Q with (inject_Z 0); rewrite <- Zle_Qle; lia).
  set (l := inject_Z (Z.of_nat (length s))) in *. split; intros H.
  - assert (X : (l <= q * l)%Q) by (rewrite <- (Qmult_1_l l) at 1; apply Qmult_le_compat_r; [apply Qlt_le_weak; exact H|exact L0]).
    assert (X0 : (0 <= q * l)%Q) by (apply (Qle_trans _ l); assumption).
    assert (F : (Z.of_nat (length s) <= Qfloor (q * l))%Z) by (rewrite <- (Qfloor_Z (Z.of_nat (length s))); apply Qfloor_resp_le; exact X).
    cbn [split training_start rbind fst snd]. fold l. unfold truncate. apply Qle_bool_iff in X0. rewrite X0.
    replace (position _ _) with (length s) by (unfold position; destruct (Z.ltb_spec (Qfloor (q * l)) 0); lia).
    now rewrite firstn_all, skipn_all.
  - assert (X : (q * l <= - l)%Q).
    { setoid_replace (- l)%Q with (-(1) * l)%Q by ring. apply Qmult_le_compat_r; assumption. }
    destruct s as [|a s].
    { cbn [split training_start rbind fst snd length]. unfold truncate, position.
      destruct (_ <? 0)%Z; rewrite ?firstn_nil, ?skipn_nil; reflexivity. }
    assert (Hl : (0 < l)%Q) by (unfold l; change 0%Q with (inject_Z 0); rewrite <- Zlt_Qlt; cbn; lia).
    assert (Xn : (q * l < 0)%Q).
    { apply (Qle_lt_trans _ (- l)); [exact X|]. setoid_replace 0%Q with (- 0)%Q by reflexivity. apply Qopp_lt_compat. exact Hl. }
    assert (C : (Qceiling (q * l) <= - Z.of_nat (length (a :: s)))%Z).
    { rewrite <- (Qceiling_Z (- Z.of_nat (length (a :: s)))). apply Qceiling_resp_le. rewrite inject_Z_opp. exact X. }
    cbn [split training_start rbind fst snd]. fold l. unfold truncate.
    destruct (Qle_bool 0 (q * l)) eqn:B. { apply Qle_bool_iff in B. exfalso. apply (Qlt_not_le _ _ Xn B). }
    replace (position _ _) with 0; [reflexivity|]. unfold position. destruct (Z.ltb_spec (Qceiling (q * l)) 0); [|cbn [length] in *; lia].
    rewrite Z.max_l by lia. reflexivity.
Qed.

(** an array of one number is that number *)
Theorem C90_array_of_one : forall A q (ss : list (list A)), split (Array [q]) ss = split (Number q) ss.
Proof. intros A q. induction ss as [|s ss IH]; [reflexivity|]. cbn [split training_start rbind]. rewrite IH. reflexivity. Qed.

(** ** Cases *)
(** fitness 5, 5, 5, 5, 7 with a wait of three epochs: one burst, at the beginning of the third epoch *)
Definition ex_eval (_ : option (dataset Q)) (p : list nat) : list nat * option Q :=
  (0 :: p, Some (if 4 <=? length (filter (Nat.eqb 0) p) then 7 else 5)%Q).
Example ex_train : forall t, new 0 1 (Some {| indim := 0; outdim := 1; seqs := [[1%Q]] |}) [] = Ok t ->
  population (trainEpochs ex_eval (fun p => p) (fun p => p) (fun p => 1 :: p) (Some 3) 5 t) = [0; 0; 1; 0; 0; 0] /\
  max_fitness (trainEpochs ex_eval (fun p => p) (fun p => p) (fun p => 1 :: p) (Some 3) 5 t) = Some 7%Q.
Proof. intros t H. inversion H; subst. vm_compute. split; reflexivity. Qed.
Example ex_new : exists t, new 0 1 (Some {| indim := 0; outdim := 1; seqs := [[1%Q]] |}) ([] : list nat) = Ok t.
Proof. eexists. reflexivity. Qed.
Example ex_new_wrong : new 1 1 (Some {| indim := 0; outdim := 1; seqs := [[1%Q]] |}) ([] : list nat) = Err AssertionError.
Proof. reflexivity. Qed.
Example ex_split : split (Number (1#3)) [[1;2;3;4;5;6;7]; [8;9]] = Ok ([[1;2]; []], [[3;4;5;6;7]; [8;9]]).
Proof. reflexivity. Qed.
Example ex_split_negative : split (Number (-1#3)) [[1;2;3;4;5;6;7]] = Ok ([[1;2;3;4;5]], [[6;7]]).
Proof. reflexivity. Qed.

Print Assumptions C90_schedule.
Print Assumptions C90_monotone.
Print Assumptions C90_latest.
Print Assumptions C90_setData_refuted.
Print Assumptions C90_setDataset.
Print Assumptions C90_trainOnDataset.
Print Assumptions C90_new.
Print Assumptions C90_wait_refuted.
Print Assumptions C90_split.
Print Assumptions C90_washout.
Print Assumptions C90_default_ratio_refuted.
Print Assumptions C90_ratio_given.
Print Assumptions C90_extreme.
Print Assumptions C90_array_of_one.
