(** C49: grid search. *)
From Coq Require Import QArith Qfield Lqa.
From Verif Require Import Base Grid_Model Nondom_Proofs.
Local Open Scope nat_scope.

Section G2.
Context {A : Type}.
Lemma interleave_perm (l r : list A) : Permutation (interleave l r) (l ++ r).
Proof.
  revert r. induction l as [|a l IH]; intros [|b r]; cbn [interleave app]; try rewrite app_nil_r; auto.
  constructor. rewrite (IH r). apply Permutation_middle.
Qed.
Lemma split_mid (s : list A) mid x : nth_error s mid = Some x -> s = firstn mid s ++ x :: skipn (mid + 1) s.
Proof.
  revert mid. induction s as [|a s IH]; intros [|mid] H; cbn in H; try discriminate.
  - injection H as ->. reflexivity.
  - cbn [firstn plus skipn app]. f_equal. apply IH. auto.
Qed.
Lemma permute_ok fuel : forall s : list A, length s < fuel -> exists p, permute_fuel fuel s = Ok p /\ Permutation p s.
Proof.
  induction fuel as [|fuel IH]; intros s H; [lia|]. cbn [permute_fuel].
  destruct (Nat.leb_spec (length s) 1); [eauto|].
  assert (Hm : length s / 2 < length s) by (apply Nat.div_lt; lia).
  destruct (IH (firstn (length s / 2) s)) as (pl & -> & Pl); [rewrite firstn_length; lia|]. cbn [rbind].
  destruct (IH (skipn (length s / 2 + 1) s)) as (pr & -> & Pr); [rewrite skipn_length; lia|]. cbn [rbind].
  destruct (nth_error s (length s / 2)) as [x|] eqn:E; [|apply nth_error_None in E; lia].
  eexists. split; [reflexivity|]. rewrite interleave_perm, Pl, Pr. etransitivity; [apply Permutation_middle|]. rewrite <- (split_mid s _ _ E). auto.
Qed.
Lemma skipn_nth (l : list A) a x : nth_error l a = Some x -> skipn a l = x :: skipn (S a) l.
Proof. revert a. induction l as [|b l IH]; intros [|a] H; cbn in H; try discriminate; [injection H as ->; auto|]. cbn [skipn]. rewrite (IH a H). auto. Qed.
Lemma gets_ok (l : list A) j : j <= length l -> gets l (seq 0 j) = Ok (firstn j l).
Proof.
  intro H. unfold gets.
  assert (G : forall n a, a + n <= length l ->
    fold_right (fun k r => let! r := r in match nth_error l k with Some x => Ok (x :: r) | None => Err IndexError end) (Ok []) (seq a n) = Ok (firstn n (skipn a l))).
  { induction n as [|n IH]; intros a Ha; cbn [seq fold_right]; auto. rewrite IH by lia. cbn [rbind].
    destruct (nth_error l a) as [x|] eqn:E; [|apply nth_error_None in E; lia].
    rewrite (skipn_nth l a x E). reflexivity. }
  apply (G j 0). lia.
Qed.
Lemma row_ok {B} (o : option B) (g : B -> A -> A * A) (x : B) (l : list A) : o = Some x ->
  fold_right (fun y r => let! r := r in match o with Some x => Ok (g x y :: r) | None => Err IndexError end) (Ok []) l = Ok (map (g x) l).
Proof. intros ->. induction l as [|a l IH]; cbn [fold_right map]; auto. rewrite IH. reflexivity. Qed.
Lemma list_prod_app_l (a b c : list A) : list_prod (a ++ b) c = list_prod a c ++ list_prod b c.
Proof. induction a as [|x a IH]; cbn; auto. rewrite IH, app_assoc. auto. Qed.
Lemma list_prod_snoc_r (a b : list A) y : Permutation (list_prod a (b ++ [y])) (list_prod a b ++ map (fun x => (x, y)) a).
Proof.
  induction a as [|x a IH]; cbn [list_prod map]; auto. rewrite map_app, IH. cbn [map]. rewrite <- !app_assoc.
  apply Permutation_app_head. cbn [app]. apply Permutation_middle.
Qed.
Lemma firstn_S_nth (l : list A) i x : nth_error l i = Some x -> firstn (S i) l = firstn i l ++ [x].
Proof. revert i. induction l as [|a l IH]; intros [|i] H; cbn in *; try discriminate; [congruence|]. f_equal. auto. Qed.

Lemma jobs_ok before (xs ys : list A) : xs <> [] -> ys <> [] ->
  (forall i, i < length xs -> before i (length ys) = true) -> (forall j, j < length ys -> before (length xs) j = false) ->
  forall fuel i j, i <= length xs -> j <= length ys -> (length xs - i) + (length ys - j) <= fuel ->
  exists jobs, jobs_loop before xs ys fuel i j = Ok jobs /\ length jobs = (length xs - i) + (length ys - j) /\
    Permutation (list_prod (firstn i xs) (firstn j ys) ++ List.concat jobs) (list_prod xs ys).
Proof.
  intros Hx Hy Hbr Hbc. induction fuel as [|fuel IH]; intros i j Hi Hj Hf.
  - assert (i = length xs) as -> by lia. assert (j = length ys) as -> by lia. cbn [jobs_loop]. rewrite !Nat.ltb_irrefl. cbn.
    exists []. split; [auto|]. rewrite !firstn_all. cbn. rewrite app_nil_r. split; [lia|auto].
  - cbn [jobs_loop]. destruct (Nat.ltb_spec i (length xs)) as [Hil|Hil], (Nat.ltb_spec j (length ys)) as [Hjl|Hjl]; cbn [orb].
    4:{ assert (i = length xs) as -> by lia. assert (j = length ys) as -> by lia.
        exists []. split; [auto|]. rewrite !firstn_all. cbn. rewrite app_nil_r. split; [lia|auto]. }
    all: destruct (Nat.eqb_spec (length xs) 0) as [E|_]; [destruct xs; [contradiction|discriminate]|];
         destruct (Nat.eqb_spec (length ys) 0) as [E|_]; [destruct ys; [contradiction|discriminate]|]; cbn [orb].
    all: assert (Hrow : i < length xs -> exists jobs,
           (let! line := gets ys (seq 0 j) in
            let! line := fold_right (fun y r => let! r := r in match nth_error xs i with Some x => Ok ((x, y) :: r) | None => Err IndexError end) (Ok []) line in
            let! rest := jobs_loop before xs ys fuel (S i) j in Ok (line :: rest)) = Ok jobs /\ length jobs = (length xs - i) + (length ys - j) /\
            Permutation (list_prod (firstn i xs) (firstn j ys) ++ List.concat jobs) (list_prod xs ys)).
    1,3,5: intro Hlt; rewrite gets_ok by auto; cbn [rbind]; destruct (nth_error xs i) as [x|] eqn:Ex; [|apply nth_error_None in Ex; lia];
           rewrite (row_ok (Some x) (fun x y => (x, y)) x) by auto; cbn [rbind];
           destruct (IH (S i) j) as (jobs & -> & Hl & HP); [lia|lia|lia|]; cbn [rbind]; eexists; split; [reflexivity|]; split; [cbn [length]; lia|];
           cbn [List.concat]; rewrite <- HP, (firstn_S_nth xs i x Ex), list_prod_app_l; cbn [list_prod]; rewrite app_nil_r, <- app_assoc; auto.
    all: assert (Hcol : j < length ys -> exists jobs,
           (let! line := gets xs (seq 0 i) in
            let! line := fold_right (fun x r => let! r := r in match nth_error ys j with Some y => Ok ((x, y) :: r) | None => Err IndexError end) (Ok []) line in
            let! rest := jobs_loop before xs ys fuel i (S j) in Ok (line :: rest)) = Ok jobs /\ length jobs = (length xs - i) + (length ys - j) /\
            Permutation (list_prod (firstn i xs) (firstn j ys) ++ List.concat jobs) (list_prod xs ys)).
    1,3,5: intro Hlt; rewrite gets_ok by auto; cbn [rbind]; destruct (nth_error ys j) as [y|] eqn:Ey; [|apply nth_error_None in Ey; lia];
           rewrite (row_ok (Some y) (fun y x => (x, y)) y) by auto; cbn [rbind];
           destruct (IH i (S j)) as (jobs & -> & Hl & HP); [lia|lia|lia|]; cbn [rbind]; eexists; split; [reflexivity|]; split; [cbn [length]; lia|];
           cbn [List.concat]; rewrite <- HP, (firstn_S_nth ys j y Ey), list_prod_snoc_r, <- app_assoc; auto.
    + destruct (before i j); auto.
    + assert (j = length ys) as -> by lia. rewrite Hbr by auto. auto.
    + assert (i = length xs) as -> by lia. rewrite Hbc by auto. auto.
Qed.
Lemma list_prod_perm_l (a a' b : list A) : Permutation a a' -> Permutation (list_prod a b) (list_prod a' b).
Proof.
  intros Ha. induction Ha; cbn; auto.
  - apply Permutation_app_head. auto.
  - rewrite !app_assoc. apply Permutation_app_tail. apply Permutation_app_comm.
  - etransitivity; eauto.
Qed.
Lemma list_prod_perm_r (a b b' : list A) : Permutation b b' -> Permutation (list_prod a b) (list_prod a b').
Proof. intro Hb. induction a; cbn; auto. apply Permutation_app; auto. apply Permutation_map. auto. Qed.
Lemma list_prod_NoDup (a b : list A) : NoDup a -> NoDup b -> NoDup (list_prod a b).
Proof.
  intros Ha Hb. induction Ha as [|x a Hx Ha IH]; cbn; [constructor|]. apply NoDup_disj; auto.
  - clear - Hb. induction Hb as [|y b Hy Hb IH]; cbn; constructor; auto. rewrite in_map_iff. intros (z & E & Hz). injection E as ->. auto.
  - intros [u v] H1 H2. apply in_map_iff in H1. destruct H1 as (z & E & _). injection E as -> ->. apply in_prod_iff in H2. tauto.
Qed.

Lemma calculate_ok before (xs ys : list A) : xs <> [] -> ys <> [] ->
  (forall i, i < length xs -> before i (length ys) = true) -> (forall j, j < length ys -> before (length xs) j = false) ->
  exists jobs, calculateJobs before xs ys = Ok jobs /\ length jobs = length xs + length ys /\ Permutation (List.concat jobs) (list_prod xs ys).
Proof.
  intros Hx Hy H1 H2. unfold calculateJobs, permuteSequence.
  destruct (permute_ok (S (length xs)) xs) as (px & -> & Px); [lia|]. cbn [rbind].
  destruct (permute_ok (S (length ys)) ys) as (py & -> & Py); [lia|]. cbn [rbind].
  pose proof (Permutation_length Px) as Lx. pose proof (Permutation_length Py) as Ly.
  destruct (jobs_ok before px py) with (fuel := length px + length py) (i := 0) (j := 0) as (jobs & E & L & P); rewrite ?Lx, ?Ly; auto; try lia.
  - intros ->. destruct xs; [contradiction|discriminate].
  - intros ->. destruct ys; [contradiction|discriminate].
  - rewrite <- Lx, <- Ly. exists jobs. split; auto. split; [lia|]. cbn in P. rewrite P. rewrite (list_prod_perm_l _ _ _ Px). apply list_prod_perm_r. auto.
Qed.

Context (eq_dec : forall a b : A * A, {a = b} + {a <> b}).
Lemma pset_new k v d : ~ In k (map fst d) -> pset eq_dec k v d = d ++ [(k, v)].
Proof.
  induction d as [|[a b] d IH]; cbn; intro H; auto. destruct (eq_dec k a) as [->|]; [tauto|]. f_equal. apply IH. tauto.
Qed.
Lemma fold_pset (val : A * A -> Z) l : forall d, NoDup (map fst d ++ l) ->
  fold_left (fun d p => pset eq_dec p (val p) d) l d = d ++ map (fun p => (p, val p)) l.
Proof.
  induction l as [|a l IH]; intros d H; cbn [fold_left map]; [rewrite app_nil_r; auto|].
  rewrite pset_new.
  - rewrite IH; rewrite <- ?app_assoc; auto. rewrite map_app, <- app_assoc. cbn. auto.
  - intro Hin. apply NoDup_remove_2 in H. apply H. apply in_or_app. auto.
Qed.
End G2.

Lemma argmax_go_spec l : forall best bv k, best < k ->
  let r := argmax_go best bv k l in
  (r = best /\ (forall i v, nth_error l i = Some v -> (v <= bv)%Z)) \/
  (exists i v, r = k + i /\ nth_error l i = Some v /\ (bv <= v)%Z /\ forall j w, nth_error l j = Some w -> (w <= v)%Z).
Proof.
  induction l as [|a l IH]; intros best bv k Hb; cbn [argmax_go]; [left; split; auto; intros [|i]; discriminate|].
  destruct (Z.ltb_spec bv a) as [Hlt|Hge]; cbv zeta in *.
  - right. destruct (IH k a (S k)) as [[-> H]|(i & v & -> & E & Hv & H)]; [lia| |].
    + exists 0, a. split; [lia|split; [auto|split; [lia|]]]. intros [|j] w E; cbn in E; [injection E as ->; lia|eauto].
    + exists (S i), v. split; [lia|split; [auto|split; [lia|]]]. intros [|j] w Ew; cbn in Ew; [injection Ew as <-; lia|eauto].
  - destruct (IH best bv (S k)) as [[-> H]|(i & v & -> & E & Hv & H)]; [lia| |].
    + left. split; auto. intros [|i] v E; cbn in E; [injection E as <-; lia|eauto].
    + right. exists (S i), v. split; [lia|split; [auto|split; [lia|]]]. intros [|j] w Ew; cbn in Ew; [injection Ew as <-; lia|eauto].
Qed.
Lemma zargmax_spec l : l <> [] -> exists r v, zargmax l = Ok r /\ nth_error l r = Some v /\ forall w, In w l -> (w <= v)%Z.
Proof.
  destruct l as [|a l]; [contradiction|]. intros _. cbn [zargmax]. exists (argmax_go 0 a 1 l).
  destruct (argmax_go_spec l 0 a 1 ltac:(lia)) as [[-> H]|(i & v & -> & E & Hv & H)].
  - exists a. split; [reflexivity|split; [auto|]]. intros w [->|Hw]; [lia|]. apply In_nth_error in Hw. destruct Hw as (i & Hi). eauto.
  - exists v. split; [reflexivity|split; [auto|]]. intros w [->|Hw]; [lia|]. apply In_nth_error in Hw. destruct Hw as (j & Hj). eauto.
Qed.

(** ** DOE *)
Local Open Scope Q_scope.
Lemma qltb_iff a b : qltb a b = true <-> a < b.
Proof. unfold qltb. rewrite negb_true_iff. destruct (Qle_bool b a) eqn:E; split; intro H; try discriminate; auto.
  - apply Qle_bool_iff in E. lra.
  - destruct (Qlt_le_dec a b); auto. apply Qle_bool_iff in q. congruence.
Qed.
Lemma qmin_of_spec l : l <> [] -> In (qmin_of l) l /\ forall x, In x l -> qmin_of l <= x.
Proof.
  destruct l as [|a l]; [contradiction|]. intros _. unfold qmin_of. revert a.
  induction l as [|b l IH]; intros a; cbn [fold_left]; [split; [left; auto|intros x [->|[]]; lra]|].
  destruct (Qle_bool a b) eqn:E.
  - apply Qle_bool_iff in E. destruct (IH a) as [H1 H2]. split; [destruct H1; [left|right; right]; auto|].
    intros x [->|[->|Hx]]; [apply H2; left; auto| |apply H2; right; auto]. specialize (H2 a (or_introl eq_refl)). lra.
  - assert (b <= a). { destruct (Qlt_le_dec b a); [lra|]. apply Qle_bool_iff in q. congruence. }
    destruct (IH b) as [H1 H2]. split; [right; auto|].
    intros x [->|Hx]; [|apply H2; auto]. specialize (H2 b (or_introl eq_refl)). lra.
Qed.
Lemma qmax_of_spec l : l <> [] -> In (qmax_of l) l /\ forall x, In x l -> x <= qmax_of l.
Proof.
  destruct l as [|a l]; [contradiction|]. intros _. unfold qmax_of. revert a.
  induction l as [|b l IH]; intros a; cbn [fold_left]; [split; [left; auto|intros x [->|[]]; lra]|].
  destruct (Qle_bool b a) eqn:E.
  - apply Qle_bool_iff in E. destruct (IH a) as [H1 H2]. split; [destruct H1; [left|right; right]; auto|].
    intros x [->|[->|Hx]]; [apply H2; left; auto| |apply H2; right; auto]. specialize (H2 a (or_introl eq_refl)). lra.
  - assert (a <= b). { destruct (Qlt_le_dec a b); [lra|]. apply Qle_bool_iff in q. congruence. }
    destruct (IH b) as [H1 H2]. split; [right; auto|].
    intros x [->|Hx]; [|apply H2; auto]. specialize (H2 b (or_introl eq_refl)). lra.
Qed.

(** one coordinate: [pr] is fst or snd *)
Definition pat_ok (pr : Q * Q -> Q) : Prop :=
  (forall p, In p doe_pat -> -1 <= pr p /\ pr p <= 1 /\ exists k : Z, 2 * pr p == inject_Z k) /\
  (exists p, In p doe_pat /\ pr p == -1) /\ (exists p, In p doe_pat /\ pr p == 1).
Lemma pat_fst : pat_ok fst.
Proof.
  split; [|split; [exists (-1, 1); split; [left; auto|reflexivity]|exists (1, 1); split; [right; right; left; auto|reflexivity]]].
  intros p Hp. assert (E : fst p == -1 \/ fst p == - h \/ fst p == 0 \/ fst p == h \/ fst p == 1).
  { cbn in Hp. repeat (destruct Hp as [<-|Hp]; [cbn [fst]; repeat (try (left; reflexivity); try reflexivity; right)|]). destruct Hp. }
  unfold h in E. split; [lra|split; [lra|]].
  destruct E as [E|[E|[E|[E|E]]]]; [exists (-2)%Z|exists (-1)%Z|exists 0%Z|exists 1%Z|exists 2%Z]; rewrite E; reflexivity.
Qed.
Lemma pat_snd : pat_ok snd.
Proof.
  split; [|split; [exists (-1, -1); split; [do 10 right; left; auto|reflexivity]|exists (1, 1); split; [right; right; left; auto|reflexivity]]].
  intros p Hp. assert (E : snd p == -1 \/ snd p == - h \/ snd p == 0 \/ snd p == h \/ snd p == 1).
  { cbn in Hp. repeat (destruct Hp as [<-|Hp]; [cbn [snd]; repeat (try (left; reflexivity); try reflexivity; right)|]). destruct Hp. }
  unfold h in E. split; [lra|split; [lra|]].
  destruct E as [E|[E|[E|[E|E]]]]; [exists (-2)%Z|exists (-1)%Z|exists 0%Z|exists 1%Z|exists 2%Z]; rewrite E; reflexivity.
Qed.

Lemma translation_in pr lo hi s c : pat_ok pr -> 0 <= s -> 2 * s <= hi - lo -> lo <= c -> c <= hi ->
  let t := translation lo hi (map (fun p => pr p * s + c) doe_pat) in
  (forall p, In p doe_pat -> lo <= pr p * s + c + t /\ pr p * s + c + t <= hi) /\
  ((t == 0 /\ lo <= c - s /\ c + s <= hi) \/ (t == lo - (c - s) /\ c - s < lo) \/ (t == hi - (c + s) /\ hi < c + s)).
Proof.
  intros (Hp & (pl & Hpl & El) & (ph & Hph & Eh)) Hs H2 Hl Hh. cbv zeta. set (col := map (fun p => pr p * s + c) doe_pat).
  assert (Hne : col <> []) by (unfold col, doe_pat; discriminate).
  destruct (qmin_of_spec col Hne) as [M1 M2], (qmax_of_spec col Hne) as [M3 M4].
  assert (Hb : forall p, In p doe_pat -> c - s <= pr p * s + c /\ pr p * s + c <= c + s).
  { intros p Hpp. destruct (Hp p Hpp) as (B1 & B2 & _). nra. }
  assert (Emin : qmin_of col == c - s).
  { apply Qle_antisym.
    - specialize (M2 (pr pl * s + c)). assert (In (pr pl * s + c) col) by (unfold col; apply (in_map (fun p => pr p * s + c)); auto).
      specialize (M2 H). assert (pr pl * s == - s) by (rewrite El; ring). lra.
    - apply in_map_iff in M1. destruct M1 as (p & <- & Hpp). apply Hb; auto. }
  assert (Emax : qmax_of col == c + s).
  { apply Qle_antisym.
    - apply in_map_iff in M3. destruct M3 as (p & <- & Hpp). apply Hb; auto.
    - specialize (M4 (pr ph * s + c)). assert (In (pr ph * s + c) col) by (unfold col; apply (in_map (fun p => pr p * s + c)); auto).
      specialize (M4 H). assert (pr ph * s == s) by (rewrite Eh; ring). lra. }
  unfold translation. destruct (qltb hi (qmax_of col)) eqn:E1; [|destruct (qltb (qmin_of col) lo) eqn:E2].
  - apply qltb_iff in E1. split; [|right; right; lra]. intros p Hpp. specialize (Hb p Hpp). lra.
  - apply qltb_iff in E2. split; [|right; left; lra]. intros p Hpp. specialize (Hb p Hpp).
    lra.
  - assert (~ hi < qmax_of col) by (rewrite <- qltb_iff; congruence). assert (~ qmin_of col < lo) by (rewrite <- qltb_iff; congruence).
    split; [|left; lra]. intros p Hpp. specialize (Hb p Hpp). lra.
Qed.

(** the coordinate of a centre is a whole number of half-cells *)
Definition on_lattice (lo s : Q) (top : Z) (c : Q) : Prop := exists m : Z, (0 <= m <= top)%Z /\ c == lo + inject_Z m * s.
Lemma coord_step pr lo hi s top c : pat_ok pr -> 0 < s -> (2 <= top)%Z -> hi - lo == inject_Z top * s -> on_lattice lo s top c ->
  let t := translation lo hi (map (fun p => pr p * s + c) doe_pat) in
  (forall p, In p doe_pat -> lo <= pr p * s + c + t /\ pr p * s + c + t <= hi) /\
  (forall p, In p doe_pat -> on_lattice lo (s / 2) (2 * top) (pr p * s + c + t)) /\
  exists d, (d = -1 \/ d = 0 \/ d = 1) /\ d * s + c + t == c.
Proof.
  intros Hpat Hs Htop Hhi (m & Hm & Ec). cbv zeta.
  assert (Hm0 : 0 <= inject_Z m) by (change 0 with (inject_Z 0); rewrite <- Zle_Qle; lia).
  assert (Hm1 : inject_Z m <= inject_Z top) by (rewrite <- Zle_Qle; lia).
  assert (H2top : 2 <= inject_Z top) by (change 2 with (inject_Z 2); rewrite <- Zle_Qle; lia).
  assert (B2 : 2 * s <= hi - lo) by nra. assert (Bl : lo <= c) by nra. assert (Bh : c <= hi) by nra.
  destruct (translation_in pr lo hi s c Hpat (Qlt_le_weak _ _ Hs) B2 Bl Bh) as [Hin Ht]. set (t := translation _ _ _) in *.
  split; [exact Hin|].
  assert (Htau : exists tau : Z, t == inject_Z tau * s /\ ((tau = 0)%Z \/ (tau = 1)%Z \/ (tau = -1)%Z)).
  { destruct Ht as [[E _]|[[E Hlt]|[E Hlt]]].
    - exists 0%Z. split; [rewrite E; ring|auto].
    - exists 1%Z. split; [|auto]. assert (inject_Z m < 1) by nra. change 1 with (inject_Z 1) in H. rewrite <- Zlt_Qlt in H.
      assert (m = 0)%Z as -> by lia. rewrite E. change (inject_Z 0) with 0 in Ec. rewrite Ec. change (inject_Z 1) with 1. ring.
    - exists (-1)%Z. split; [|auto].
      assert (inject_Z top < inject_Z (m + 1)) by (rewrite inject_Z_plus; change (inject_Z 1) with 1; nra). rewrite <- Zlt_Qlt in H.
      assert (m = top) as -> by lia. rewrite E. change (inject_Z (-1)) with (-1). lra. }
  destruct Htau as (tau & Et & Htau).
  assert (Hs2 : 0 < s / 2) by (apply Qlt_shift_div_l; lra). assert (Es2 : s == 2 * (s / 2)) by field. set (s2 := s / 2) in *. clearbody s2. split.
  - intros p Hp. destruct (proj1 Hpat p Hp) as (_ & _ & k & Ek). specialize (Hin p Hp).
    exists (2 * m + 2 * tau + k)%Z. 
    assert (Ev : pr p * s + c + t == lo + inject_Z (2 * m + 2 * tau + k) * s2).
    { rewrite !inject_Z_plus, !inject_Z_mult. rewrite <- Ek, Ec, Et. change (inject_Z 2) with 2. rewrite Es2. ring. }
    split; [|exact Ev]. rewrite Ev in Hin. set (n := (2 * m + 2 * tau + k)%Z) in *. split.
    + rewrite Zle_Qle. change (inject_Z 0) with 0. destruct Hin as [Hin _]. assert (0 <= inject_Z n * s2) by lra.
      nra.
    + rewrite Zle_Qle, inject_Z_mult. change (inject_Z 2) with 2. destruct Hin as [_ Hin].
      assert (inject_Z n * s2 <= (2 * inject_Z top) * s2) by (rewrite Es2 in Hhi; lra). nra.
  - destruct Htau as [-> | [-> | ->]].
    + exists 0. split; [auto|]. rewrite Et. change (inject_Z 0) with 0. ring.
    + exists (-1). split; [auto|]. rewrite Et. change (inject_Z 1) with 1. ring.
    + exists 1. split; [auto|]. rewrite Et. change (inject_Z (-1)) with (-1). ring.
Qed.
Lemma pat_corners d e : (d = -1 \/ d = 0 \/ d = 1) -> (e = -1 \/ e = 0 \/ e = 1) -> In (d, e) doe_pat.
Proof. intros [-> | [-> | ->]] [-> | [-> | ->]]; unfold doe_pat; cbn [In]; tauto. Qed.

Definition scale (lo hi : Q) (level : nat) : Q := (hi - lo) / pow2 level / 2.
Lemma pow2_pos n : 0 < pow2 n.
Proof. unfold pow2. change 0 with (inject_Z 0). rewrite <- Zlt_Qlt. apply Z.pow_pos_nonneg; lia. Qed.
Lemma pow2_S n : pow2 (S n) == 2 * pow2 n.
Proof. unfold pow2. rewrite Nat2Z.inj_succ, Z.pow_succ_r by lia. rewrite inject_Z_mult. reflexivity. Qed.
Lemma scale_pos lo hi n : lo < hi -> 0 < scale lo hi n.
Proof. intro H. unfold scale. pose proof (pow2_pos n). apply Qlt_shift_div_l; [lra|]. apply Qlt_shift_div_l; lra. Qed.
Lemma scale_top lo hi n : hi - lo == inject_Z (2 ^ Z.of_nat (S n)) * scale lo hi n.
Proof. fold (pow2 (S n)). rewrite pow2_S. unfold scale. field. pose proof (pow2_pos n). lra. Qed.
Lemma scale_S lo hi n : scale lo hi (S n) == scale lo hi n / 2.
Proof. unfold scale. rewrite pow2_S. field. pose proof (pow2_pos n). lra. Qed.
Lemma on_lattice_ext lo s s' top c : s == s' -> on_lattice lo s top c -> on_lattice lo s' top c.
Proof. intros E (m & Hm & Ec). exists m. split; auto. rewrite Ec, E. reflexivity. Qed.

Lemma calc_grid_eq lo hi center level : calc_grid lo hi center level =
  map (fun p => (fst p * scale (fst lo) (fst hi) level + fst center +
                   translation (fst lo) (fst hi) (map (fun p => fst p * scale (fst lo) (fst hi) level + fst center) doe_pat),
                 snd p * scale (snd lo) (snd hi) level + snd center +
                   translation (snd lo) (snd hi) (map (fun p => snd p * scale (snd lo) (snd hi) level + snd center) doe_pat))) doe_pat.
Proof. reflexivity. Qed.

Definition in_box (lo hi p : Q * Q) : Prop := fst lo <= fst p /\ fst p <= fst hi /\ snd lo <= snd p /\ snd p <= snd hi.
Definition centred (lo hi : Q * Q) (level : nat) (c : Q * Q) : Prop :=
  on_lattice (fst lo) (scale (fst lo) (fst hi) level) (2 ^ Z.of_nat (S level)) (fst c) /\
  on_lattice (snd lo) (scale (snd lo) (snd hi) level) (2 ^ Z.of_nat (S level)) (snd c).
Lemma pow_ge2 n : (2 <= 2 ^ Z.of_nat (S n))%Z.
Proof. rewrite Nat2Z.inj_succ, Z.pow_succ_r by lia. assert (0 < 2 ^ Z.of_nat n)%Z by (apply Z.pow_pos_nonneg; lia). lia. Qed.

Lemma grid_step lo hi level c : fst lo < fst hi -> snd lo < snd hi -> centred lo hi level c ->
  (forall g, In g (calc_grid lo hi c level) -> in_box lo hi g /\ centred lo hi (S level) g) /\
  exists g, In g (calc_grid lo hi c level) /\ fst g == fst c /\ snd g == snd c.
Proof.
  intros H1 H2 [L1 L2].
  destruct (coord_step fst _ _ _ _ _ pat_fst (scale_pos _ _ level H1) (pow_ge2 level) (scale_top _ _ level) L1) as (A1 & B1 & d & Hd & Ed).
  destruct (coord_step snd _ _ _ _ _ pat_snd (scale_pos _ _ level H2) (pow_ge2 level) (scale_top _ _ level) L2) as (A2 & B2 & e & He & Ee).
  rewrite calc_grid_eq. split.
  - intros g Hg. apply in_map_iff in Hg. destruct Hg as (p & <- & Hp). split.
    + unfold in_box. cbn [fst snd]. destruct (A1 p Hp), (A2 p Hp). auto.
    + assert (Etop : (2 ^ Z.of_nat (S (S level)) = 2 * 2 ^ Z.of_nat (S level))%Z) by (rewrite (Nat2Z.inj_succ (S level)), Z.pow_succ_r by lia; auto).
      unfold centred. rewrite Etop. split; (eapply on_lattice_ext; [symmetry; apply scale_S|]); [apply B1|apply B2]; auto.
  - eexists. split; [apply in_map; apply (pat_corners d e Hd He)|]. cbn [fst snd]. split; auto.
Qed.

Lemma qargmax_go_spec l : forall best bv k, (best < k)%nat ->
  (qargmax_go best bv k l = best /\ (forall i v, nth_error l i = Some v -> v <= bv)) \/
  (exists i v, qargmax_go best bv k l = (k + i)%nat /\ nth_error l i = Some v /\ bv <= v /\ forall j w, nth_error l j = Some w -> w <= v).
Proof.
  induction l as [|a l IH]; intros best bv k Hb; cbn [qargmax_go]; [left; split; auto; intros [|i]; discriminate|].
  destruct (qltb bv a) eqn:E.
  - apply qltb_iff in E. right. destruct (IH k a (S k)) as [[-> H]|(i & v & -> & Ei & Hv & H)]; [lia| |].
    + exists 0%nat, a. split; [lia|split; [auto|split; [lra|]]]. intros [|j] w Ew; cbn in Ew; [injection Ew as ->; lra|eauto].
    + exists (S i), v. split; [lia|split; [auto|split; [lra|]]]. intros [|j] w Ew; cbn in Ew; [injection Ew as <-; lra|eauto].
  - assert (~ bv < a) by (rewrite <- qltb_iff; congruence).
    destruct (IH best bv (S k)) as [[-> H']|(i & v & -> & Ei & Hv & H')]; [lia| |].
    + left. split; auto. intros [|i] v Ev; cbn in Ev; [injection Ev as <-; lra|eauto].
    + right. exists (S i), v. split; [lia|split; [auto|split; [lra|]]]. intros [|j] w Ew; cbn in Ew; [injection Ew as <-; lra|eauto].
Qed.
Lemma qargmax_spec l : l <> [] -> exists v, nth_error l (qargmax l) = Some v /\ forall w, In w l -> w <= v.
Proof.
  destruct l as [|a l]; [contradiction|]. intros _. cbn [qargmax].
  destruct (qargmax_go_spec l 0 a 1 ltac:(lia)) as [[-> H]|(i & v & -> & E & Hv & H)].
  - exists a. split; [auto|]. intros w [->|Hw]; [lra|]. apply In_nth_error in Hw. destruct Hw as (i & Hi). eauto.
  - exists v. split; [auto|]. intros w [->|Hw]; [lra|]. apply In_nth_error in Hw. destruct Hw as (j & Hj). eauto.
Qed.
Lemma best_spec (val : Q * Q -> Q) grid d : grid <> [] ->
  let b := nth (qargmax (map val grid)) grid d in In b grid /\ forall g, In g grid -> val g <= val b.
Proof.
  intro Hne. destruct (qargmax_spec (map val grid)) as (v & Ev & Hv); [destruct grid; [contradiction|discriminate]|].
  cbv zeta. rewrite nth_error_map in Ev. destruct (nth_error grid _) as [b|] eqn:Eb; [|discriminate]. cbn in Ev. injection Ev as <-.
  rewrite (nth_error_nth _ _ _ Eb). split; [eapply nth_error_In; eauto|]. intros g Hg. apply Hv. apply in_map. auto.
Qed.
Lemma doe_loop_ok lo hi (val : Q * Q -> Q) : fst lo < fst hi -> snd lo < snd hi ->
  (forall p q, fst p == fst q -> snd p == snd q -> val p == val q) ->
  forall n level c seen, centred lo hi level c -> (forall p, In p seen -> in_box lo hi p /\ val p <= val c) ->
  forall c' seen', doe_loop lo hi val level n c seen = (c', seen') ->
  length seen' = (length seen + 13 * n)%nat /\ (forall p, In p seen' -> in_box lo hi p /\ val p <= val c') /\
  ((0 < n)%nat -> In c' seen').
Proof.
  intros H1 H2 Hval. induction n as [|n IH]; intros level c seen Hc Hs c' seen' E; cbn [doe_loop] in E.
  - injection E as <- <-. split; [lia|split; [auto|lia]].
  - destruct (grid_step lo hi level c H1 H2 Hc) as [Hg (g0 & Hg0 & E1 & E2)].
    assert (Hlen : length (calc_grid lo hi c level) = 13%nat) by (rewrite calc_grid_eq, map_length; reflexivity).
    set (grid := calc_grid lo hi c level) in *.
    assert (Hne : grid <> []) by (intro Eg; rewrite Eg in Hlen; discriminate).
    destruct (best_spec val grid c Hne) as [Hb1 Hb2]. set (b := nth _ grid c) in *.
    destruct (IH (S level) b (seen ++ grid)) with (c' := c') (seen' := seen') as (L & S & M); auto.
    + apply Hg; auto.
    + intros p Hp. apply in_app_or in Hp. destruct Hp as [Hp|Hp].
      * destruct (Hs p Hp) as [Hbox Hle]. split; auto. eapply Qle_trans; [exact Hle|]. rewrite <- (Hval g0 c E1 E2). auto.
      * split; [apply Hg; auto|auto].
    + split; [rewrite L, app_length, Hlen; lia|split; [auto|]]. intros _. destruct n as [|n]; [|apply M; lia].
      cbn [doe_loop] in E. injection E as <- <-. apply in_or_app. auto.
Qed.
Lemma doe_start lo hi : centred lo hi 0 (fst lo + (fst hi - fst lo) / 2, snd lo + (snd hi - snd lo) / 2).
Proof.
  split; exists 1%Z; (split; [cbn; lia|]); cbn [fst snd]; unfold scale, pow2; cbn [Z.of_nat Z.pow]; change (inject_Z 1) with 1; field.
Qed.
