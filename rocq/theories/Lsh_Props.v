(** Property C53: locality sensitive hashing. *)
From Verif Require Import Base StableSort Lsh_Model.
From Coq Require Import QArith Qround Lqa.
Local Open Scope nat_scope.

(** ** Tables *)
Section Table.
Context {K V : Type} (eqb : K -> K -> bool) (eqb_iff : forall a b, eqb a b = true <-> a = b).
Lemma tget_tset h l (t : @table K V) h' : tget eqb h' (tset eqb h l t) = if eqb h' h then l else tget eqb h' t.
Proof.
  induction t as [| [a b] t IH]; cbn [tset tget]; [auto |]. destruct (eqb h a) eqn:E.
  - apply eqb_iff in E. subst a. cbn [tget]. destruct (eqb h' h); auto.
  - cbn [tget]. destruct (eqb h' a) eqn:E2; [| auto]. apply eqb_iff in E2. subst a. destruct (eqb h' h) eqn:E3; [| auto]. apply eqb_iff in E3. subst h'. assert (eqb h h = true) by now apply eqb_iff. congruence.
Qed.
End Table.
Lemma list_nat_eqb_iff a b : list_nat_eqb a b = true <-> a = b.
Proof. unfold list_nat_eqb. destruct (list_eq_dec Nat.eq_dec a b); split; congruence. Qed.
Lemma ball_eqb_iff a b : ball_eqb a b = true <-> a = b.
Proof.
  unfold ball_eqb, list_Z_eqb. destruct a as [a i], b as [b j]. cbn [fst snd]. rewrite andb_true_iff. destruct (list_eq_dec Z.eq_dec a b) as [-> | N]; [| split; intros; [now destruct H | congruence]].
  destruct i as [i |], j as [j |]; rewrite ?Nat.eqb_eq; split; intros; try tauto; try (destruct H; congruence); try congruence. split; [auto | congruence].
Qed.
Lemma mapR_all {A B} (f : A -> result B) (g : A -> B) l : (forall x, In x l -> f x = Ok (g x)) -> mapR f l = Ok (map g l).
Proof. induction l as [| x l IH]; intros H; cbn [mapR map]; [auto |]. rewrite (H x) by (left; auto). cbn [rbind]. rewrite IH by (intros; apply H; right; auto). auto. Qed.
Lemma sorted_split {A} (R : A -> A -> Prop) l1 l2 : StronglySorted R (l1 ++ l2) -> forall x y, In x l1 -> In y l2 -> R x y.
Proof.
  induction l1 as [| a l1 IH]; intros H x y Hx Hy; [destruct Hx |]. cbn in H. inversion H as [| ? ? H1 H2]; subst. destruct Hx as [-> | Hx]; [rewrite Forall_forall in H2; apply H2, in_or_app; auto | eauto].
Qed.
Lemma sorted_firstn {A} (R : A -> A -> Prop) l n : StronglySorted R l -> StronglySorted R (firstn n l).
Proof. intros H. revert n. induction H as [| a l H IH F]; intros [| n]; cbn; try constructor; auto. apply Forall_forall. intros x Hx. rewrite Forall_forall in F. apply F. rewrite <- (firstn_skipn n l). apply in_or_app. auto. Qed.
Lemma sorted_map {A B} (f : A -> B) (R : B -> B -> Prop) (R' : A -> A -> Prop) l : (forall x y, In x l -> In y l -> R' x y -> R (f x) (f y)) -> StronglySorted R' l -> StronglySorted R (map f l).
Proof.
  intros HR H. revert HR. induction H as [| a l H IH F]; intros HR; cbn [map]; constructor; [apply IH; intros; apply HR; auto; right; auto |]. apply Forall_map. rewrite Forall_forall in *. intros x Hx. apply HR; [left; auto | right; auto | auto].
Qed.
Lemma filter_perm {A} (f : A -> bool) l l' : Permutation l l' -> Permutation (filter f l) (filter f l').
Proof. induction 1; cbn; [constructor | destruct (f x); auto | destruct (f x), (f y); auto using perm_swap | econstructor; eauto]. Qed.
Lemma filter_ext' {A} (f g : A -> bool) l : (forall x, f x = g x) -> filter f l = filter g l.
Proof. intros H. induction l as [| x l IH]; cbn; [auto |]. now rewrite H, IH. Qed.

(** ** MinHash: what it should do *)
Section MinHash.
Context {S : Type}.
Inductive op := Put (item : list Z) (s : S) | Query (item : list Z) (k : Z).
(** an operation that raises leaves the structure as it was *)
Definition step (m : minhash S) (o : op) : minhash S :=
  match o with
  | Put item s => match mh_put m item s with Ok m' => m' | Err _ => m end
  | Query item k => match mh_knn m item k with Ok (_, m') => m' | Err _ => m end
  end.
Definition run (m : minhash S) (ops : list op) : minhash S := fold_left step ops m.
(** everything that was put *)
Definition stored (dim : nat) (ops : list op) : list (list bool * S) :=
  flat_map (fun o => match o with Put item s => if length item =? dim then [(to_bool item, s)] else [] | Query _ _ => [] end) ops.
(** the place of the least i such that bit number p(i) is set *)
Definition sig (perms : list (list nat)) (b : list bool) : list nat :=
  map (fun p => hd (length p) (filter (fun i => nth (nth i p 0) b false) (seq 0 (length p)))) perms.
(** the number of places in which two vectors agree *)
Definition similarity (a b : list bool) : nat := length (filter (fun i => Bool.eqb (nth i a false) (nth i b false)) (seq 0 (length b))).
Definition ones (item : list Z) : list bool := map (fun x => (x =? 1)%Z) item.
Definition valid dim (perms : list (list nat)) : Prop := 1 <= dim /\ Forall (fun p => Permutation p (seq 0 dim)) perms.

Lemma first1_spec : forall l i, first1 i l = hd (i + length l) (filter (fun j => nth (j - i) (ones l) false) (seq i (length l))).
Proof.
  induction l as [| x l IH]; intros i; cbn [first1 length seq filter hd]; [lia |]. rewrite Nat.sub_diag. cbn [ones map nth]. destruct (x =? 1)%Z; [reflexivity |]. rewrite IH. replace (Datatypes.S i + length l) with (i + Datatypes.S (length l)) by lia. f_equal.
  assert (E : forall m, (forall j, In j m -> Datatypes.S i <= j) -> filter (fun j => nth (j - Datatypes.S i) (ones l) false) m = filter (fun j => nth (j - i) (false :: map (fun x0 => (x0 =? 1)%Z) l) false) m).
  { induction m as [| j m IHm]; intros Hm; cbn [filter]; [auto |]. rewrite IHm by (intros; apply Hm; right; auto). assert (Datatypes.S i <= j) by (apply Hm; left; auto). replace (j - i) with (Datatypes.S (j - Datatypes.S i)) by lia. reflexivity. }
  apply E. intros j Hj. apply in_seq in Hj. lia.
Qed.
Lemma hash_ok (m : minhash S) item : valid (mh_dim m) (mh_perms m) -> length item = mh_dim m -> mh_hash m item = Ok (sig (mh_perms m) (ones item)).
Proof.
  intros [Hd HP] HL. unfold mh_hash. rewrite HL, Nat.eqb_refl. unfold sig. apply mapR_all. intros p Hp. rewrite Forall_forall in HP. pose proof (HP p Hp) as PP. assert (LP : length p = mh_dim m) by (rewrite (Permutation_length PP); apply seq_length).
  unfold permute. rewrite HL, LP, Nat.eqb_refl. rewrite (mapR_all _ (fun i => nth i item 0%Z)).
  2: { intros i Hi. assert (i < length item). { eapply Permutation_in in Hi; [| exact PP]. apply in_seq in Hi. lia. } rewrite (nth_error_nth' item 0%Z) by auto. auto. }
  cbn [rbind]. unfold firstOne. destruct (map (fun i => nth i item 0%Z) p) as [| z t] eqn:E; [apply map_eq_nil in E; subst p; cbn in LP; lia |]. rewrite <- E. f_equal. rewrite first1_spec, map_length, LP. cbn [Nat.add]. f_equal. clear E.
  assert (EE : forall l, (forall j, In j l -> j < mh_dim m) -> filter (fun j => nth (j - 0) (ones (map (fun i => nth i item 0%Z) p)) false) l = filter (fun i => nth (nth i p 0) (ones item) false) l).
  { induction l as [| j l IH]; intros Hl; cbn [filter]; [auto |]. rewrite IH by (intros; apply Hl; right; auto). rewrite Nat.sub_0_r. unfold ones. rewrite map_map. assert (j < length p) by (rewrite LP; apply Hl; left; auto).
    assert (NE : nth j (map (fun x => (nth x item 0 =? 1)%Z) p) false = nth (nth j p 0) (map (fun x => (x =? 1)%Z) item) false).
    { rewrite (nth_indep _ false ((nth 0 item 0 =? 1)%Z)) by (rewrite map_length; auto). rewrite (map_nth (fun x => (nth x item 0 =? 1)%Z)).
      assert (nth j p 0 < length item). { assert (Hin : In (nth j p 0) p) by now apply nth_In. eapply Permutation_in in Hin; [| exact PP]. apply in_seq in Hin. lia. }
      rewrite (nth_indep _ false ((0 =? 1)%Z)) by (rewrite map_length; auto). rewrite (map_nth (fun x => (x =? 1)%Z)). auto. }
    now rewrite NE. }
  apply EE. intros j Hj. apply in_seq in Hj. lia.
Qed.
Lemma ones_of_bool b : ones (of_bool b) = b.
Proof. unfold ones, of_bool. rewrite map_map. rewrite <- (map_id b) at 2. apply map_ext. intros []; auto. Qed.
Lemma agree_similarity : forall a b, length a = length b -> agree a b = similarity a b.
Proof.
  unfold similarity. induction a as [| x a IH]; intros [| y b] H; cbn in H; try discriminate; [auto |]. cbn [agree length seq filter nth]. injection H as H. rewrite IH by auto. rewrite <- seq_shift.
  assert (E : forall l, length (filter (fun i => Bool.eqb (nth i (x :: a) false) (nth i (y :: b) false)) (map Datatypes.S l)) = length (filter (fun i => Bool.eqb (nth i a false) (nth i b false)) l)).
  { induction l as [| i l IHl]; cbn [map filter nth]; [auto |]. destruct (Bool.eqb (nth i a false) (nth i b false)); cbn [length]; auto. }
  cbn [nth]. destruct (Bool.eqb x y); cbn [length]; now rewrite E.
Qed.
Lemma jacard_ok a b n : length a = Datatypes.S n -> length b = Datatypes.S n -> jacardCoefficient a b = Ok (inject_Z (Z.of_nat (similarity a b)) / inject_Z (Z.of_nat (Datatypes.S n)))%Q.
Proof. intros A B. unfold jacardCoefficient. rewrite A, B, Nat.eqb_refl. now rewrite agree_similarity by congruence. Qed.

Definition same (perms : list (list nat)) h (e : list bool * S) : bool := list_nat_eqb (sig perms (fst e)) h.
Definition inv dim perms (m : minhash S) (l : list (list bool * S)) : Prop :=
  mh_dim m = dim /\ mh_perms m = perms /\ Forall (fun e => length (fst e) = dim) l /\ forall h, Permutation (tget list_nat_eqb h (mh_buckets m)) (filter (same perms h) l).
Definition simkey item (e : list bool * S) : nat := similarity (fst e) (to_bool item).
(** one query *)
Lemma knn_step dim perms m l item k : valid dim perms -> inv dim perms m l -> length item = dim ->
  exists c m', mh_knn m item k = Ok (prefix k c, m') /\ inv dim perms m' l /\ Permutation c (filter (same perms (sig perms (ones item))) l) /\ StronglySorted (fun x y => simkey item y <= simkey item x) c.
Proof.
  intros HV (D & P & LF & HB) HL. unfold mh_knn. rewrite D, HL, Nat.eqb_refl. rewrite hash_ok by (rewrite ?D, ?P; auto). rewrite P. cbn [rbind]. set (h := sig perms (ones item)). set (bk := tget list_nat_eqb h (mh_buckets m)).
  assert (LB : forall e, In e bk -> length (fst e) = dim). { intros e He. rewrite Forall_forall in LF. apply LF. eapply Permutation_in in He; [| apply HB]. apply filter_In in He. tauto. }
  destruct HV as [Hd HV]. destruct dim as [| n]; [lia |]. set (g := fun e : list bool * S => (inject_Z (Z.of_nat (simkey item e)) / inject_Z (Z.of_nat (Datatypes.S n)))%Q).
  rewrite (mapR_all _ (fun e => (g e, e))). 2: { intros e He. rewrite (jacard_ok _ _ n); [reflexivity | auto | unfold to_bool; rewrite map_length; auto]. }
  cbn [rbind]. set (qleb := fun x y : Q * (list bool * S) => Qle_bool (fst y) (fst x)). set (srt := isort qleb (map (fun e => (g e, e)) bk)).
  assert (PS : Permutation srt (map (fun e => (g e, e)) bk)) by apply isort_perm. assert (PC : Permutation (map snd srt) bk) by (rewrite (Permutation_map snd PS), map_map; cbn [snd]; now rewrite map_id).
  exists (map snd srt). eexists. split; [reflexivity |]. split; [| split].
  - split; [auto |]. split; [auto |]. split; [auto |]. intros h'. cbn [mh_buckets]. rewrite (tget_tset _ list_nat_eqb_iff). destruct (list_nat_eqb h' h) eqn:E; [| apply HB]. apply list_nat_eqb_iff in E. subst h'. rewrite PC. apply HB.
  - rewrite PC. apply HB.
  - assert (SS : StronglySorted (le qleb) srt). { apply isort_sorted; unfold qleb; [intros x y; rewrite !Qle_bool_iff; destruct (Qlt_le_dec (fst x) (fst y)); [right | left]; lra | intros x y z; rewrite !Qle_bool_iff; intros; lra]. }
    apply (sorted_map snd _ (le qleb)); [| exact SS]. intros x y Hx Hy Hxy. unfold le, qleb in Hxy. apply Qle_bool_iff in Hxy.
    assert (FX : forall z, In z srt -> fst z = g (snd z)). { intros z Hz. eapply Permutation_in in Hz; [| exact PS]. apply in_map_iff in Hz as (e & <- & _). auto. }
    rewrite (FX x Hx), (FX y Hy) in Hxy. unfold g in Hxy. assert (POS : (0 < inject_Z (Z.of_nat (Datatypes.S n)))%Q) by (change 0%Q with (inject_Z 0); rewrite <- Zlt_Qlt; lia).
    unfold Qdiv in Hxy. apply Qmult_le_r in Hxy; [| now apply Qinv_lt_0_compat]. rewrite <- Zle_Qle in Hxy. lia.
Qed.
Lemma put_step dim perms m l item s : valid dim perms -> inv dim perms m l -> length item = dim -> exists m', mh_put m item s = Ok m' /\ inv dim perms m' (l ++ [(to_bool item, s)]).
Proof.
  intros HV (D & P & LF & HB) HL. unfold mh_put. rewrite D, HL, Nat.eqb_refl. cbn zeta. assert (LB : length (to_bool item) = dim) by (unfold to_bool; now rewrite map_length).
  rewrite hash_ok by (rewrite ?D, ?P; auto; unfold of_bool; rewrite map_length; auto). rewrite P, ones_of_bool. cbn [rbind]. eexists. split; [reflexivity |]. split; [auto |]. split; [auto |]. split; [apply Forall_app; auto |].
  intros h. cbn [mh_buckets]. rewrite (tget_tset _ list_nat_eqb_iff). rewrite filter_app. cbn [filter]. unfold same at 2. cbn [fst]. destruct (list_nat_eqb h (sig perms (to_bool item))) eqn:E.
  - apply list_nat_eqb_iff in E. subst h. rewrite (proj2 (list_nat_eqb_iff _ _) eq_refl). apply Permutation_app; [apply HB | auto].
  - assert (E' : list_nat_eqb (sig perms (to_bool item)) h = false). { apply Bool.not_true_iff_false. intros K. apply list_nat_eqb_iff in K. rewrite K in E. rewrite (proj2 (list_nat_eqb_iff _ _) eq_refl) in E. discriminate. }
    rewrite E', app_nil_r. apply HB.
Qed.
Lemma run_inv dim perms : valid dim perms -> forall ops m l, inv dim perms m l -> inv dim perms (run m ops) (l ++ stored dim ops).
Proof.
  intros HV. induction ops as [| o ops IH]; intros m l HI; [cbn; rewrite app_nil_r; auto |]. cbn [run fold_left]. fold (run (step m o) ops). unfold stored. cbn [flat_map]. fold (stored dim ops).
  destruct o as [item s | item k]; cbn [step].
  - destruct (Nat.eqb_spec (length item) dim) as [E | N].
    + destruct (put_step dim perms m l item s HV HI E) as (m' & Em & I'). rewrite Em. rewrite app_assoc. apply IH. exact I'.
    + cbn [app]. unfold mh_put. destruct HI as (D & ?). rewrite D, (proj2 (Nat.eqb_neq _ _) N). apply IH. split; auto.
  - cbn [app]. destruct (Nat.eqb_spec (length item) dim) as [E | N].
    + destruct (knn_step dim perms m l item k HV HI E) as (c & m' & Em & I' & _). rewrite Em. auto.
    + unfold mh_knn. destruct HI as (D & ?). rewrite D, (proj2 (Nat.eqb_neq _ _) N). apply IH. split; auto.
Qed.
Lemma new_inv dim perms : inv dim perms (mh_new dim perms) [].
Proof. split; [auto |]. split; [auto |]. split; [constructor |]. intros h. constructor. Qed.

(** After any history the answer to a query are the first of the stored items with the signature of the query, in the order of falling similarity. *)
Theorem C53_knn dim perms ops item k : valid dim perms -> length item = dim ->
  let bucket := filter (fun e => list_nat_eqb (sig perms (fst e)) (sig perms (ones item))) (stored dim ops) in
  exists res rest m', mh_knn (run (mh_new dim perms) ops) item k = Ok (res, m') /\ Permutation (res ++ rest) bucket /\
  length res = (if (k <? 0)%Z then Z.to_nat (Z.of_nat (length bucket) + k) else Nat.min (Z.to_nat k) (length bucket)) /\
  StronglySorted (fun x y => similarity (fst y) (to_bool item) <= similarity (fst x) (to_bool item)) res /\
  (forall x y, In x res -> In y rest -> similarity (fst y) (to_bool item) <= similarity (fst x) (to_bool item)).
Proof.
  intros HV HL bucket. destruct (knn_step dim perms (run (mh_new dim perms) ops) (stored dim ops) item k HV) as (c & m' & E & _ & P & SS); [apply (run_inv dim perms HV ops _ [] (new_inv dim perms)) | auto |].
  unfold prefix in E. set (n := if (k <? 0)%Z then Z.to_nat (Z.of_nat (length c) + k) else Z.to_nat k) in *. exists (firstn n c), (skipn n c), m'. assert (LC : length c = length bucket) by apply (Permutation_length P).
  split; [auto |]. split; [rewrite firstn_skipn; exact P |]. split; [rewrite firstn_length; unfold n; rewrite LC; destruct (Z.ltb_spec k 0); lia |]. split; [apply sorted_firstn; exact SS |].
  intros x y Hx Hy. rewrite <- (firstn_skipn n c) in SS. apply (sorted_split _ _ _ SS); auto.
Qed.
Lemma similarity_max a b : similarity a b <= length b.
Proof. unfold similarity. rewrite <- (seq_length (length b) 0) at 2. generalize (seq 0 (length b)). induction l as [| i l IH]; cbn [filter length]; [auto |]. destruct (Bool.eqb _ _); cbn [length]; lia. Qed.
Lemma similarity_full a b : length a = length b -> (similarity a b = length b <-> a = b).
Proof.
  intros H. rewrite <- agree_similarity by auto. revert b H. induction a as [| x a IH]; intros [| y b] H; cbn in H; try discriminate; [tauto |]. injection H as H. cbn [agree length].
  assert (AM : agree a b <= length b) by (rewrite agree_similarity by auto; apply similarity_max). split.
  - intros E. destruct (Bool.eqb_spec x y) as [-> | N]; [| lia]. f_equal. apply IH; [auto | cbn in E; lia].
  - intros E. injection E as -> ->. rewrite Bool.eqb_reflx. assert (agree b b = length b) by (apply IH; auto). lia.
Qed.
(** A stored vector of zeros and ones is found again: the first answer is equal to it, and with room for the whole bucket it is itself among them. *)
Theorem C53_found dim perms ops item s k : valid dim perms -> length item = dim -> Forall (fun x => x = 0%Z \/ x = 1%Z) item -> In (Put item s) ops -> (1 <= k)%Z ->
  exists first res m', mh_knn (run (mh_new dim perms) ops) item k = Ok (first :: res, m') /\ fst first = to_bool item /\
  ((Z.of_nat (length (stored dim ops)) <= k)%Z -> In (to_bool item, s) (first :: res)).
Proof.
  intros HV HL H01 HI Hk. assert (TB : ones item = to_bool item). { unfold ones, to_bool. apply map_ext_in. intros x Hx. rewrite Forall_forall in H01. destruct (H01 x Hx) as [-> | ->]; auto. }
  destruct (C53_knn dim perms ops item k HV HL) as (res & rest & m' & E & P & L & SS & SR). set (bucket := filter _ _) in *. destruct (Z.ltb_spec k 0); [lia |].
  assert (HS : In (to_bool item, s) (stored dim ops)). { unfold stored. apply in_flat_map. exists (Put item s). split; [auto |]. rewrite HL, Nat.eqb_refl. left; auto. }
  assert (HB : In (to_bool item, s) bucket). { unfold bucket. apply filter_In. split; [auto |]. cbn [fst]. rewrite TB. now apply list_nat_eqb_iff. }
  assert (LB : 1 <= length bucket) by (destruct bucket; [destruct HB | cbn; lia]). destruct res as [| f res]; [cbn in L; lia |]. exists f, res, m'. split; [auto |].
  assert (HIn : In (to_bool item, s) ((f :: res) ++ rest)) by (eapply Permutation_in; [symmetry; exact P | auto]). assert (LT : length (to_bool item) = dim) by (unfold to_bool; now rewrite map_length). split.
  - assert (LF : length (fst f) = dim). { assert (In f bucket) by (eapply Permutation_in; [exact P | left; auto]). unfold bucket in H0. apply filter_In in H0 as [H0 _]. unfold stored in H0. apply in_flat_map in H0 as (o & _ & Ho). destruct o as [it s' | it k']; [| destruct Ho]. destruct (Nat.eqb_spec (length it) dim); [| destruct Ho]. destruct Ho as [<- | []]. unfold to_bool. cbn [fst]. now rewrite map_length. }
    apply similarity_full; [congruence |]. apply Nat.le_antisymm; [apply similarity_max |].
    assert (FU : similarity (to_bool item) (to_bool item) = length (to_bool item)) by now apply similarity_full. rewrite <- FU at 1. apply in_app_or in HIn as [[-> | HIn] | HIn].
    + cbn [fst]. auto.
    + inversion SS as [| ? ? _ HF]; subst. rewrite Forall_forall in HF. apply (HF _ HIn).
    + apply (SR f _ ltac:(left; auto) HIn).
  - intros HK. assert (LBS : length bucket <= length (stored dim ops)). { unfold bucket. clear. induction (stored dim ops) as [| x l IH]; cbn [filter length]; [auto |]. destruct (list_nat_eqb _ _); cbn [length]; lia. }
    assert (LR : length (f :: res) = length bucket) by lia. apply Permutation_length in P. rewrite app_length, LR in P. destruct rest as [| r rest]; [| cbn [length] in P; exfalso; clear - P; lia]. rewrite app_nil_r in HIn. auto.
Qed.
End MinHash.
(** With other numbers than 0 and 1 the query is hashed differently from the stored item. *)
Theorem C53_other_values_refuted : exists dim perms item k, valid dim perms /\ length item = dim /\ (1 <= k)%Z /\ exists m', mh_knn (run (mh_new dim perms) [Put item tt]) item k = Ok ([], m').
Proof.
  exists 2, [[0; 1]], [2; 1]%Z, 1%Z. split; [split; [auto | repeat constructor] |]. split; [auto |]. split; [lia |]. eexists. vm_compute. reflexivity.
Qed.

(** ** MultiDimHash *)
Section MultiDim.
Context {S : Type}.
(** the cube a point lies in, and the first ball of the grid, shifted to that cube, that contains it *)
Definition cell (m : multihash S) (p : list Q) (c : list Z * option nat) : Prop :=
  Forall2 (fun x z => inject_Z z * md_offset m <= x < (inject_Z z + 1) * md_offset m)%Q p (fst c) /\
  let rel := map (fun e => fst e - md_offset m * inject_Z (snd e))%Q (combine p (fst c)) in
  match snd c with
  | Some i => i < length (md_grid m) /\ (sqdist rel (nth i (md_grid m) []) <= md_r2 m)%Q /\ forall j, j < i -> ~ (sqdist rel (nth j (md_grid m) []) <= md_r2 m)%Q
  | None => forall b, In b (md_grid m) -> ~ (sqdist rel b <= md_r2 m)%Q
  end.
Lemma localBall_spec r2 : forall grid i p, match localBall r2 i grid p with
  | Some j => i <= j < i + length grid /\ (sqdist p (nth (j - i) grid []) <= r2)%Q /\ forall k, k < j - i -> ~ (sqdist p (nth k grid []) <= r2)%Q
  | None => forall b, In b grid -> ~ (sqdist p b <= r2)%Q end.
Proof.
  induction grid as [| b grid IH]; intros i p; cbn [localBall]; [intros b [] |]. destruct (Qle_bool (sqdist p b) r2) eqn:E.
  - apply Qle_bool_iff in E. rewrite Nat.sub_diag. cbn [length nth]. split; [lia |]. split; [auto | lia].
  - assert (N : ~ (sqdist p b <= r2)%Q) by (rewrite <- Qle_bool_iff, E; discriminate). specialize (IH (1 + i) p). destruct (localBall r2 (1 + i) grid p) as [j |].
    + destruct IH as (A & B & C). cbn [length]. split; [lia |]. replace (j - i) with (Datatypes.S (j - (1 + i))) by lia. split; [exact B |]. intros [| k] Hk; cbn [nth]; [auto | apply C; lia].
    + intros x [<- | Hx]; auto.
Qed.
Lemma floor_cell (o x : Q) : (0 < o)%Q -> forall z, (inject_Z z * o <= x < (inject_Z z + 1) * o)%Q <-> z = Qfloor (x / o).
Proof.
  intros Ho. assert (K : (inject_Z (Qfloor (x / o)) * o <= x < (inject_Z (Qfloor (x / o)) + 1) * o)%Q).
  { assert (E : (x == (x / o) * o)%Q) by (field; lra). pose proof (Qfloor_le (x / o)) as A. pose proof (Qlt_floor (x / o)) as B. rewrite inject_Z_plus in B. change (inject_Z 1) with 1%Q in B. set (f := inject_Z (Qfloor (x / o))) in *. set (d := (x / o)%Q) in *. clearbody f d. split; [rewrite E; apply Qmult_le_compat_r; lra | rewrite E; apply Qmult_lt_r; auto]. }
  intros z. split; [| intros ->; auto]. intros [A B]. destruct K as [C D]. set (w := Qfloor (x / o)) in *. clearbody w.
  assert (L : forall a b : Z, (inject_Z a * o <= x)%Q -> (x < (inject_Z b + 1) * o)%Q -> (a <= b)%Z).
  { intros a b P1 P2. assert (K : (inject_Z a * o < (inject_Z b + 1) * o)%Q) by lra. apply Qmult_lt_r in K; [| auto]. change 1%Q with (inject_Z 1) in K. rewrite <- inject_Z_plus, <- Zlt_Qlt in K. lia. }
  apply Z.le_antisymm; apply L; auto.
Qed.
Lemma rel_map o : forall p c, c = map (fun x => Qfloor (x / o)) p -> map (fun x => x - o * inject_Z (Qfloor (x / o)))%Q p = map (fun e => fst e - o * inject_Z (snd e))%Q (combine p c).
Proof. intros p c ->. induction p as [| x p IH]; cbn [map combine fst snd]; [auto | f_equal; exact IH]. Qed.
(** findBall gives the one cell of the point *)
Theorem C53_ball (m : multihash S) p c : (0 < md_offset m)%Q -> (findBall m p = c <-> cell m p c).
Proof.
  intros Ho. assert (A : cell m p (findBall m p)).
  { unfold findBall, findHypercube, cell. cbn [fst snd]. split; [induction p as [| x p IH]; cbn [map]; constructor; auto; apply floor_cell; auto |]. cbn zeta. rewrite <- (rel_map _ p _ eq_refl). pose proof (localBall_spec (md_r2 m) (md_grid m) 0 (map (fun x => x - md_offset m * inject_Z (Qfloor (x / md_offset m)))%Q p)) as L.
    destruct (localBall _ _ _ _) as [j |]; [| auto]. rewrite Nat.sub_0_r in L. destruct L as ((_ & L1) & L2 & L3). auto. }
  split; [intros <-; auto |]. intros B. destruct A as [A1 A2], B as [B1 B2]. destruct (findBall m p) as [ca ba] eqn:E. destruct c as [cb bb]. cbn [fst snd] in *.
  assert (ca = cb). { clear - A1 B1 Ho. revert cb B1. induction A1 as [| x z p ca H _ IH]; intros cb B1; inversion B1; subst; [auto |]. f_equal; [| auto]. apply floor_cell in H; auto. apply floor_cell in H2; auto. congruence. }
  subst cb. f_equal. cbn zeta in *. destruct ba as [i |], bb as [j |]; auto.
  - f_equal. destruct A2 as (A3 & A4 & A5), B2 as (B3 & B4 & B5). destruct (Nat.lt_total i j) as [K | [K | K]]; [exfalso; apply (B5 i K); auto | auto | exfalso; apply (A5 j K); auto].
  - exfalso. destruct A2 as (A3 & A4 & A5). apply (B2 (nth i (md_grid m) [])); [now apply nth_In | auto].
  - exfalso. destruct B2 as (B3 & B4 & B5). apply (A2 (nth j (md_grid m) [])); [now apply nth_In | auto].
Qed.
Fixpoint inserts (m : multihash S) (l : list (list Q * S)) : result (multihash S) :=
  match l with [] => Ok m | (p, s) :: t => let! m' := md_insert m p s in inserts m' t end.
Definition same_params (m m' : multihash S) : Prop := md_dim m' = md_dim m /\ md_offset m' = md_offset m /\ md_r2 m' = md_r2 m /\ md_grid m' = md_grid m /\ md_proj m' = md_proj m.
Lemma same_ball m m' p : same_params m m' -> findBall m' p = findBall m p.
Proof. intros (_ & A & B & C & _). unfold findBall, findHypercube. now rewrite A, B, C. Qed.
Lemma inserts_spec : forall l m l0, md_proj m = None -> (forall h, tget ball_eqb h (md_balls m) = filter (fun e => ball_eqb (findBall m (fst e)) h) l0) ->
  exists m', inserts m l = Ok m' /\ same_params m m' /\ forall h, tget ball_eqb h (md_balls m') = filter (fun e => ball_eqb (findBall m (fst e)) h) (l0 ++ l).
Proof.
  induction l as [| [p s] l IH]; intros m l0 HP HI; cbn [inserts]; [exists m; split; [auto |]; split; [repeat split | now rewrite app_nil_r] |].
  unfold md_insert. rewrite HP. cbn [dot_proj rbind]. set (m1 := {| md_dim := _ |}). assert (S1 : same_params m m1) by (unfold m1; repeat split; auto).
  destruct (IH m1 (l0 ++ [(p, s)])) as (m' & E & S' & H'); [auto | |].
  { intros h. unfold m1 at 1. cbn [md_balls]. rewrite (tget_tset _ ball_eqb_iff). rewrite (filter_ext' _ (fun e => ball_eqb (findBall m (fst e)) h)) by (intros; now rewrite (same_ball m m1)). rewrite filter_app. cbn [filter fst]. destruct (ball_eqb h (findBall m p)) eqn:E.
    - apply ball_eqb_iff in E. subst h. rewrite (proj2 (ball_eqb_iff _ _) eq_refl), HI. auto.
    - assert (E' : ball_eqb (findBall m p) h = false). { apply Bool.not_true_iff_false. intros K. apply ball_eqb_iff in K. rewrite K in E. rewrite (proj2 (ball_eqb_iff _ _) eq_refl) in E. discriminate. }
      rewrite E', app_nil_r. apply HI. }
  exists m'. split; [exact E |]. split; [destruct S' as (? & ? & ? & ? & ?), S1 as (? & ? & ? & ? & ?); repeat split; congruence |]. intros h. rewrite H'. rewrite <- app_assoc. cbn [app]. apply filter_ext'. intros e. now rewrite (same_ball m m1).
Qed.
(** Queries, for dimensions up to the bound above which points are projected. *)
Theorem C53_euclidean m l p k : md_proj m = None -> md_balls m = [] -> (0 < md_offset m)%Q -> exists m', inserts m l = Ok m' /\
  exists rest, let res := md_knn m' p k in
  (exists bucket, Permutation (res ++ rest) bucket /\ (forall e, In e bucket <-> In e l /\ exists c, cell m p c /\ cell m (fst e) c) /\ length res = Nat.min (Z.to_nat k) (length bucket)) /\
  StronglySorted (fun x y => sqdist p (fst x) <= sqdist p (fst y))%Q res /\ (forall x y, In x res -> In y rest -> sqdist p (fst x) <= sqdist p (fst y))%Q.
Proof.
  intros HP HB Ho. destruct (inserts_spec l m [] HP) as (m' & E & SP & H). { intros h. rewrite HB. reflexivity. }
  cbn [app] in H. exists m'. split; [auto |]. unfold md_knn. rewrite (same_ball m m' p SP), H. set (bucket := filter _ l). set (qleb := fun x y : list Q * S => Qle_bool (sqdist p (fst x)) (sqdist p (fst y))). set (srt := isort qleb bucket).
  assert (SS : StronglySorted (le qleb) srt). { apply isort_sorted; unfold qleb; [intros x y; rewrite !Qle_bool_iff; destruct (Qlt_le_dec (sqdist p (fst x)) (sqdist p (fst y))); [left | right]; lra | intros x y z; rewrite !Qle_bool_iff; intros; lra]. }
  assert (SS' : StronglySorted (fun x y => sqdist p (fst x) <= sqdist p (fst y))%Q srt). { rewrite <- (map_id srt). apply (sorted_map (fun x => x) _ (le qleb)); [| auto]. intros x y _ _ K. unfold le, qleb in K. now apply Qle_bool_iff. }
  assert (PS : Permutation srt bucket) by apply isort_perm. exists (skipn (Z.to_nat k) srt). cbn zeta. split; [| split].
  - exists bucket. split; [rewrite firstn_skipn; auto |]. split; [| rewrite firstn_length, (Permutation_length PS); auto]. intros e. unfold bucket. rewrite filter_In, ball_eqb_iff. split.
    + intros [A B]. split; [auto |]. exists (findBall m p). split; apply (C53_ball m); auto.
    + intros (A & c & B & C). split; [auto |]. apply (C53_ball m) in B; auto. apply (C53_ball m) in C; auto. congruence.
  - apply sorted_firstn. exact SS'.
  - intros x y Hx Hy. rewrite <- (firstn_skipn (Z.to_nat k) srt) in SS'. apply (sorted_split _ _ _ SS'); auto.
Qed.
Lemma sqdist_self : forall p, (sqdist p p == 0)%Q.
Proof. induction p as [| x p IH]; cbn [sqdist]; [reflexivity |]. rewrite IH. ring. Qed.
Lemma sqdist_nonneg : forall p q, (0 <= sqdist p q)%Q.
Proof. induction p as [| x p IH]; intros [| y q]; cbn [sqdist]; try lra. specialize (IH q). assert (0 <= (x - y) * (x - y))%Q by (destruct (Qlt_le_dec (x - y) 0); nra). lra. Qed.
(** an inserted point is found: the nearest answer is at distance zero *)
Theorem C53_euclidean_found m l p s k : md_proj m = None -> md_balls m = [] -> (0 < md_offset m)%Q -> In (p, s) l -> (1 <= k)%Z ->
  exists m' first res, inserts m l = Ok m' /\ md_knn m' p k = first :: res /\ (sqdist p (fst first) == 0)%Q.
Proof.
  intros HP HB Ho HI Hk. destruct (C53_euclidean m l p k HP HB Ho) as (m' & E & rest & (bucket & P & IB & L) & SS & SR). cbn zeta in *.
  assert (In (p, s) bucket). { apply IB. split; [auto |]. exists (findBall m p). split; apply (C53_ball m); auto. }
  assert (1 <= length bucket) by (destruct bucket; [destruct H | cbn; lia]). destruct (md_knn m' p k) as [| f res] eqn:EK; [cbn in L; lia |]. exists m', f, res. split; [auto |]. split; [auto |].
  assert (HIn : In (p, s) ((f :: res) ++ rest)) by (eapply Permutation_in; [symmetry; exact P | auto]). assert (LE : (sqdist p (fst f) <= sqdist p p)%Q).
  { apply in_app_or in HIn as [[-> | HIn] | HIn]; [cbn [fst]; lra | |].
    - inversion SS as [| ? ? _ HF]; subst. rewrite Forall_forall in HF. apply (HF _ HIn).
    - apply (SR f _ ltac:(left; auto) HIn). }
  rewrite sqdist_self in LE. pose proof (sqdist_nonneg p (fst f)). lra.
Qed.
(** Above the bound nothing can be inserted: the projection has a row for every dimension and 24 columns. *)
Theorem C53_projection_refuted (m : multihash S) rows p s : md_proj m = Some rows -> length rows = md_dim m -> Forall (fun r => length r = 24) rows -> 24 < md_dim m -> length p = md_dim m -> md_insert m p s = Err ValueError.
Proof.
  intros HP HR HF Hd HL. unfold md_insert. rewrite HP. destruct rows as [| r rows]; [cbn in HR; lia |]. cbn [dot_proj mapR]. inversion HF as [| ? ? Hr _]; subst. rewrite Hr, HL. destruct (Nat.eqb_spec 24 (md_dim m)); [lia |]. reflexivity.
Qed.
End MultiDim.

(** Cases *)
Definition mh_ops : list (@op nat) := [Put [1; 0; 1]%Z 10; Put [0; 1; 1]%Z 11; Query [0; 0; 1]%Z 1; Put [1; 0; 0]%Z 12; Put [1; 1]%Z 13].
Example ex_valid : valid 3 [[2; 0; 1]; [1; 0; 2]].
Proof. split; [lia |]. apply Forall_cons; [apply (Permutation_cons_append [0; 1] 2) |]. apply Forall_cons; [apply perm_swap | constructor]. Qed.
Example ex_knn : exists m', mh_knn (run (mh_new 3 [[2; 0; 1]; [1; 0; 2]]) mh_ops) [1; 0; 1]%Z 5 = Ok ([([true; false; true], 10)], m').
Proof. eexists. vm_compute. reflexivity. Qed.
Example ex_knn2 : exists m', mh_knn (run (mh_new 3 []) mh_ops) [1; 0; 1]%Z 2 = Ok ([([true; false; true], 10); ([true; false; false], 12)], m').
Proof. eexists. vm_compute. reflexivity. Qed.
Definition md0 : multihash nat := {| md_dim := 2; md_offset := 4; md_r2 := 2; md_grid := [[1; 1]; [2; 2]; [3; 1]]%Q; md_proj := None; md_balls := [] |}.
Example ex_md : exists m', inserts md0 [([9 # 2; 1]%Q, 1); ([5; 1]%Q, 2); ([7; 1]%Q, 3); ([1; 1]%Q, 4)] = Ok m' /\ map snd (md_knn m' [5; 5 # 4]%Q 5) = [2; 1].
Proof. eexists. split; [vm_compute; reflexivity | vm_compute; reflexivity]. Qed.
Print Assumptions C53_knn.
Print Assumptions C53_found.
Print Assumptions C53_other_values_refuted.
Print Assumptions C53_ball.
Print Assumptions C53_euclidean.
Print Assumptions C53_euclidean_found.
Print Assumptions C53_projection_refuted.
