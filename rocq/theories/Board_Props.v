(** C71: networks that swipe over boards compute sweeps, and which symmetries of the board they respect. *)
From Coq Require Import Ring.
From Verif Require Import Base RingOps Net_Model Arch_Model Arch_Proofs Arch_Props Arch_Props2 Arch_Props3 Board_Model Board_Spec Board_Proofs Board_Proofs2 Board_Proofs3.
From Verif Require Utilities_Model Utilities_Proofs.

(** ** symmetries of the board *)
Lemma mother_simple dims symdims pre d u : mother_of true symdims dims pre d u = BSimple.
Proof. reflexivity. Qed.
Lemma canonic_reflect dims flip u e : Forall2 lt u dims -> e < length dims ->
  canonicForm true dims (tupleRemoveItem (moved dims (fun d => d) flip u) e) e = canonicForm true dims (tupleRemoveItem u e) e.
Proof.
  intros Hu He. apply f2_iff in Hu as [Lu Bu]. assert (Lm := moved_length dims (fun d => d) flip u).
  assert (LR : length (tupleRemoveItem (moved dims (fun d => d) flip u) e) = length (tupleRemoveItem dims e)) by (rewrite !remove_length by lia; lia).
  assert (LS : length (tupleRemoveItem u e) = length (tupleRemoveItem dims e)) by (rewrite !remove_length by lia; lia).
  apply nth_ext0; [rewrite !canonic_length; lia|]. intro i. destruct (Nat.lt_ge_cases i (length (tupleRemoveItem dims e))) as [Hi|Hi].
  - rewrite !canonic_nth by lia. rewrite remove_length in Hi by lia. rewrite !remove_nth by lia.
    destruct (Nat.ltb_spec i e); rewrite moved_nth by lia; [pose proof (Bu i ltac:(lia))|pose proof (Bu (S i) ltac:(lia))]; destruct (flip _); lia.
  - rewrite !nth_overflow by (rewrite canonic_length; lia). reflexivity.
Qed.
Lemma mother_reflect dims simple pre flip u e : Forall2 lt u dims -> e < length dims -> mother_of simple true dims pre e (moved dims (fun d => d) flip u) = mother_of simple true dims pre e u.
Proof. intros Hu He. unfold mother_of, bconn. rewrite canonic_reflect by assumption. reflexivity. Qed.
Lemma moved_ext dims pi pi' flip u : (forall d, d < length dims -> pi d = pi' d) -> moved dims pi flip u = moved dims pi' flip u.
Proof. intro H. apply map_ext_in. intros d Hd. apply in_seq in Hd. rewrite H by lia. reflexivity. Qed.
(** the borders of two dimensions are those of the first, if both have the same size *)
Lemma bord_square n pre t : bget t (bordconns true [n; n] pre 1) = bget t (bordconns true [n; n] pre 0).
Proof.
  unfold bordconns. rewrite addBorders_get. cbv zeta iota. destruct (bget t (addBorders true [n; n] 0 (pre 0))) eqn:E; [reflexivity|]. rewrite addBorders_get in E. cbv zeta iota in E.
  destruct (bget t (pre 0)); [discriminate|]. change (tupleRemoveItem [n; n] 1) with (tupleRemoveItem [n; n] 0). 
  replace (canonicForm true [n; n] t 1) with (canonicForm true [n; n] t 0) by reflexivity. destruct (_ && _); [discriminate|reflexivity].
Qed.
Lemma mother_square dims simple pre pi flip u e n : dims = [n; n] -> symmetry dims pi -> Forall2 lt u dims -> e < 2 -> mother_of simple true dims pre e (moved dims pi flip u) = mother_of simple true dims pre (pi e) u.
Proof.
  intros -> [S1 S2] Hu He. apply f2_iff in Hu as [Lu Bu]. cbn [length] in *. unfold mother_of, bconn. destruct simple; [reflexivity|].
  pose proof (S1 0 ltac:(lia)) as [P0 _]. pose proof (S1 1 ltac:(lia)) as [P1 _]. assert (PN : pi 0 <> pi 1) by (intro X; specialize (S2 0 1 ltac:(lia) ltac:(lia) X); lia).
  destruct u as [|a [|b [|]]]; try (cbn in Lu; lia). pose proof (Bu 0 ltac:(lia)) as Ba. pose proof (Bu 1 ltac:(lia)) as Bb. cbn [nth] in Ba, Bb.
  assert (X : bget (canonicForm true [n; n] (tupleRemoveItem (moved [n; n] pi flip [a; b]) e) e) (bordconns true [n; n] pre 0) = bget (canonicForm true [n; n] (tupleRemoveItem [a; b] (pi e)) (pi e)) (bordconns true [n; n] pre 0)).
  { f_equal. assert (CP : pi 0 = 0 /\ pi 1 = 1 \/ pi 0 = 1 /\ pi 1 = 0) by lia. assert (CE : e = 0 \/ e = 1) by lia. unfold moved. cbn [length seq map nth]. destruct CP as [[E0 E1]|[E0 E1]], CE as [-> | ->]; rewrite ?E0, ?E1; cbn -[Nat.min Nat.sub]; f_equal; destruct (flip _); lia. }
  assert (EQ : forall d t, d < 2 -> bget t (bordconns true [n; n] pre d) = bget t (bordconns true [n; n] pre 0)) by (intros [|[|d]] t Hd; [reflexivity|apply bord_square|lia]).
  rewrite (EQ e) by exact He. rewrite (EQ (pi e)) by (apply S1; exact He). rewrite X. reflexivity.
Qed.
(** which symmetries the shared weights allow *)
Definition border_symmetry (dims : list nat) (simple symdims : bool) (pi : nat -> nat) : Prop :=
  (symdims = true \/ forall d, d < length dims -> pi d = d) /\
  (simple = true \/ length dims = 1 \/ symdims = true /\ ((forall d, d < length dims -> pi d = d) \/ length dims = 2)).
Lemma mother_symmetric dims simple symdims pre pi flip u e : symmetry dims pi -> border_symmetry dims simple symdims pi -> Forall2 lt u dims -> e < length dims ->
  mother_of simple symdims dims pre e (moved dims pi flip u) = mother_of simple symdims dims pre (pi e) u.
Proof.
  intros SY [_ HS] Hu He. destruct HS as [->|[L1|[-> [HI|L2]]]].
  - reflexivity.
  - destruct SY as [S1 _]. assert (e = 0) by lia. subst e. assert (E0 : pi 0 = 0) by (specialize (S1 0 He); lia). rewrite E0. pose proof (moved_length dims pi flip u) as Lm. apply f2_iff in Hu as [Lu _].
    destruct u as [|a [|]]; try (cbn in Lu; lia). destruct (moved dims pi flip [a]) as [|b [|]]; try (cbn in Lm; lia). reflexivity.
  - rewrite (moved_ext dims pi (fun d => d)) by exact HI. rewrite HI by exact He. apply mother_reflect; assumption.
  - destruct dims as [|n [|m [|]]]; try (cbn in L2; lia). pose proof SY as [S1 S2]. assert (n = m \/ forall d, d < 2 -> pi d = d) as [->|HI].
    { destruct (Nat.eq_dec (pi 0) 0) as [Z0|Z0].
      - right. assert (pi 1 <> 0) by (intro Z1; specialize (S2 0 1 ltac:(cbn; lia) ltac:(cbn; lia) ltac:(congruence)); lia). pose proof (S1 1 ltac:(cbn; lia)) as [Q _]. cbn [length] in Q. intros [|[|d]] Hd; lia.
      - left. pose proof (S1 0 ltac:(cbn; lia)) as [Q Q']. cbn [length] in Q. assert (Z1 : pi 0 = 1) by lia. rewrite Z1 in Q'. cbn in Q'. lia. }
    + apply (mother_square [m; m] simple pre pi flip u e m); try assumption. reflexivity.
    + rewrite (moved_ext [n; m] pi (fun d => d)) by exact HI. rewrite HI by exact He. apply mother_reflect; assumption.
Qed.
Section Props.
Context {K : Type} {Ops : RingOps K} {L : RingLaws K} (w : bwmother -> vec (K := K)).
Context (z : ssizes) (dims : list nat) (Hne : dims <> []) (SZ : sizes_ok z dims).
Context (g : vec (K := K) -> vec (K := K)) (h : K -> K).
Context (Hg : forall a b, (forall i, i < s_hin z -> a i = b i) -> forall j, j < s_hout z -> g a j = g b j).
Definition hidden (V : bbuf -> vec (K := K)) (u : list nat) (s : nat) : vec (K := K) := V (PHid u s).

Lemma capture_sweep (direct simple symdims : bool) pre cs X V : capturenet direct simple symdims z dims pre = Ok cs -> V PIn = X -> V PBias 0 = r1 ->
  ((forall u s j, Forall2 lt u dims -> s < 2 ^ length dims -> j < s_hout z -> V (PHid u s) j = g (received bbuf_eqb w cs V (PHid u s)) j) <->
   sweep dims (s_in z) (s_hout z) (border_weights w dims direct simple symdims pre) g (inputs z X) (hidden V)).
Proof using L Hne SZ Hg.
  intros E HX HB. rewrite capture_ok in E by assumption. injection E as <-.
  assert (Y : forall u s j, Forall2 lt u dims -> s < 2 ^ length dims -> j < s_hout z ->
    g (received bbuf_eqb w ((swipe_conns z dims symdims true ++ bborder_conns simple symdims z dims pre) ++ (if direct then directlink z dims else [])) V (PHid u s)) j =
    g (fun i => radd (lin (s_in z) (w (BSwipe MIn)) (inputs z X u) i)
      (sumn (length dims) (fun d => if edge dims u s d then w (mother_of simple symdims dims pre d u) i
       else lin (s_hout z) (w (BSwipe (hconn symdims true d (negb (Nat.testbit s d))))) (V (PHid (origin u s d) s)) i))) j).
  { intros u s j Hu Hs Hj. apply Hg; [|exact Hj]. intros i Hi. rewrite capture_hid by assumption. rewrite HX. reflexivity. }
  split; intros H u s; [intros Hu Hs j Hj|intros j Hu Hs Hj]; unfold hidden.
  - rewrite (H u s j Hu Hs Hj), Y by assumption. reflexivity.
  - rewrite Y by assumption. apply (H u s Hu Hs j Hj).
Qed.
Lemma capture_collect (direct simple symdims : bool) pre cs X V : capturenet direct simple symdims z dims pre = Ok cs -> V PIn = X -> disjoint_views dims (s_out z) (s_outoff z) ->
  forall u k, Forall2 lt u dims -> k < s_out z ->
  h (received bbuf_eqb w cs V POut (s_outoff z u + k)) = collect dims (s_in z) (s_hout z) (border_weights w dims direct simple symdims pre) h (inputs z X) (hidden V) u k.
Proof using L Hne SZ.
  intros E HX HD u k Hu Hk. rewrite capture_ok in E by assumption. injection E as <-. rewrite capture_out by assumption. rewrite HX. reflexivity.
Qed.
Definition computed (direct simple symdims : bool) pre (X : vec (K := K)) : bbuf -> vec (K := K) :=
  let W := border_weights w dims direct simple symdims pre in
  solution w h ((swipe_conns z dims symdims true ++ bborder_conns simple symdims z dims pre) ++ (if direct then directlink z dims else [])) X (hid dims (s_in z) (s_hout z) W g (inputs z X) (full_rank dims)).
Lemma capture_solution (direct simple symdims : bool) pre cs X : capturenet direct simple symdims z dims pre = Ok cs -> solves w g h z dims cs X (computed direct simple symdims pre X).
Proof using L Hne SZ Hg.
  intro E. pose proof E as E0. rewrite capture_ok in E0 by assumption. injection E0 as E0. unfold computed. rewrite E0. set (H := hid _ _ _ _ _ _ _).
  assert (HN : forall c, In c cs -> g_in c <> POut).
  { intros c Hc. rewrite <- E0 in Hc. unfold swipe_conns, bborder_conns in Hc. rewrite !in_app_iff, !in_flat_map in Hc. destruct Hc as [[(u & _ & Hc)|(d & _ & Hc)]|Hc].
    - apply in_flat_map in Hc as (s & _ & Hc). unfold sconns in Hc. rewrite conns_app, map_app, conns_flat, map_flat in Hc. apply in_app_iff in Hc as [[<-|[<-|[]]]|Hc]; try discriminate.
      apply in_flat_map in Hc as (d & _ & Hc). destruct (previous dims u s d); [|destruct Hc]. destruct Hc as [<-|[]]. discriminate.
    - apply in_flat_map in Hc as (u & _ & Hc). apply in_map_iff in Hc as (s & <- & _). discriminate.
    - destruct direct; [|destruct Hc]. apply in_map_iff in Hc as (u & <- & _). discriminate. }
  split; [reflexivity|]. split; [reflexivity|]. split.
  + apply (capture_sweep direct simple symdims pre cs X); [exact E|reflexivity|reflexivity|]. unfold hidden. cbn [solution].
    apply (sweep_exists dims (s_in z) (s_hin z)); assumption.
  + intro i. cbn [solution]. f_equal. symmetry. apply (solution_received w h cs X H POut i HN).
Qed.
(** a capture game network (with the direct link) or a border swiping network (without) is built, and what it computes is the sweep over the board with its weights *)
Theorem C71_sweep (direct simple symdims : bool) pre : exists cs, capturenet direct simple symdims z dims pre = Ok cs /\
  forall X, (exists V, solves w g h z dims cs X V) /\
  forall V, solves w g h z dims cs X V ->
    sweep dims (s_in z) (s_hout z) (border_weights w dims direct simple symdims pre) g (inputs z X) (hidden V) /\
    (disjoint_views dims (s_out z) (s_outoff z) -> forall u k, Forall2 lt u dims -> k < s_out z ->
     V POut (s_outoff z u + k) = collect dims (s_in z) (s_hout z) (border_weights w dims direct simple symdims pre) h (inputs z X) (hidden V) u k).
Proof using L Hne SZ Hg.
  eexists. split; [apply capture_ok; assumption|]. intro X. split.
  - eexists. apply (capture_solution direct simple symdims pre). apply capture_ok; assumption.
  - intros V (E1 & E2 & E3 & E4). split.
    + eapply capture_sweep; [apply capture_ok; assumption|exact E1|exact E2|exact E3].
    + intros HD u k Hu Hk. rewrite E4. apply capture_collect; try assumption. apply capture_ok; assumption.
Qed.
Lemma plain_sweep (symdims symdirs : bool) cs X V : swipingnet symdims symdirs z dims = Ok cs -> solves w g h z dims cs X V ->
  sweep dims (s_in z) (s_hout z) (plain_weights w symdims symdirs) g (inputs z X) (hidden V).
Proof using L Hne SZ Hg.
  intros E (HX & _ & H & _). rewrite plain_ok in E by assumption. injection E as <-. intros u s Hu Hs j Hj. unfold hidden. rewrite (H u s j Hu Hs Hj). apply Hg; [|exact Hj]. intros i Hi.
  rewrite plain_hid by assumption. rewrite HX. reflexivity.
Qed.
Lemma plain_collect (symdims symdirs : bool) cs X V : swipingnet symdims symdirs z dims = Ok cs -> solves w g h z dims cs X V -> disjoint_views dims (s_out z) (s_outoff z) ->
  forall u k, Forall2 lt u dims -> k < s_out z -> V POut (s_outoff z u + k) = collect dims (s_in z) (s_hout z) (plain_weights w symdims symdirs) h (inputs z X) (hidden V) u k.
Proof using L Hne SZ.
  intros E (HX & _ & _ & H) HD u k Hu Hk. rewrite plain_ok in E by assumption. injection E as <-. rewrite H. unfold received. rewrite swipe_out by assumption. unfold collect, plain_weights, hidden. cbn [sw_out sw_direct].
  rewrite lin_zeros. f_equal. rewrite (Radd_comm rlaws), (Radd_0_l rlaws). reflexivity.
Qed.
Theorem C71_plain_sweep (symdims symdirs : bool) : exists cs, swipingnet symdims symdirs z dims = Ok cs /\ forall X V, solves w g h z dims cs X V ->
    sweep dims (s_in z) (s_hout z) (plain_weights w symdims symdirs) g (inputs z X) (hidden V) /\
    (disjoint_views dims (s_out z) (s_outoff z) -> forall u k, Forall2 lt u dims -> k < s_out z ->
     V POut (s_outoff z u + k) = collect dims (s_in z) (s_hout z) (plain_weights w symdims symdirs) h (inputs z X) (hidden V) u k).
Proof using L Hne SZ Hg.
  eexists. split; [apply plain_ok; assumption|]. intros X V H. split; [eapply plain_sweep|intro HD; eapply plain_collect]; try eassumption; apply plain_ok; assumption.
Qed.
(** the values are determined by the inputs *)
Theorem C71_unique (direct simple symdims : bool) pre cs X V V' : capturenet direct simple symdims z dims pre = Ok cs -> disjoint_views dims (s_out z) (s_outoff z) ->
  solves w g h z dims cs X V -> solves w g h z dims cs X V' ->
  (forall u s j, Forall2 lt u dims -> s < 2 ^ length dims -> j < s_hout z -> V (PHid u s) j = V' (PHid u s) j) /\
  (forall u k, Forall2 lt u dims -> k < s_out z -> V POut (s_outoff z u + k) = V' POut (s_outoff z u + k)).
Proof using L Hne SZ Hg.
  intros E HD S1 S2. pose proof S1 as (A1 & A2 & A3 & A4). pose proof S2 as (B1 & B2 & B3 & B4).
  pose proof (proj1 (capture_sweep direct simple symdims pre cs X V E A1 A2) A3) as C1. pose proof (proj1 (capture_sweep direct simple symdims pre cs X V' E B1 B2) B3) as C2.
  assert (U : forall u s j, Forall2 lt u dims -> s < 2 ^ length dims -> j < s_hout z -> hidden V u s j = hidden V' u s j).
  { apply (sweep_unique dims (s_in z) (s_hin z) (s_hout z) _ g Hg _ _ _ C1 C2). }
  split; [exact U|]. intros u k Hu Hk. rewrite A4, B4. rewrite !(capture_collect direct simple symdims pre cs X) by assumption. unfold collect. f_equal. f_equal. apply sumn_ext. intros s Hs. apply lin_ext. intros j Hj. apply U; assumption.
Qed.


(** ** what is done to the board is done to the outputs *)
Theorem C71_symmetric (direct simple symdims : bool) pre cs pi flip X X' V V' : capturenet direct simple symdims z dims pre = Ok cs -> disjoint_views dims (s_out z) (s_outoff z) ->
  symmetry dims pi -> border_symmetry dims simple symdims pi -> solves w g h z dims cs X V -> solves w g h z dims cs X' V' ->
  (forall u k, Forall2 lt u dims -> k < s_in z -> X' (s_inoff z u + k) = X (s_inoff z (moved dims pi flip u) + k)) ->
  forall u k, Forall2 lt u dims -> k < s_out z -> V' POut (s_outoff z u + k) = V POut (s_outoff z (moved dims pi flip u) + k).
Proof using L Hne SZ Hg.
  intros E HD SY BS S1 S2 HX u k Hu Hk. pose proof S1 as (A1 & A2 & A3 & A4). pose proof S2 as (B1 & B2 & B3 & B4).
  pose proof (proj1 (capture_sweep direct simple symdims pre cs X V E A1 A2) A3) as C1. pose proof (proj1 (capture_sweep direct simple symdims pre cs X' V' E B1 B2) B3) as C2.
  rewrite A4, B4. rewrite (capture_collect direct simple symdims pre cs X' V') by assumption. rewrite (capture_collect direct simple symdims pre cs X V) by (try assumption; apply (moved_valid dims pi flip SY); assumption).
  apply (collect_symmetric dims (s_in z) (s_hin z) (s_hout z) (border_weights w dims direct simple symdims pre) g h Hg pi flip SY); try assumption.
  - intros e b He. cbn [border_weights sw_hid]. unfold hconn. destruct BS as [[->|HI] _]; [reflexivity|]. rewrite HI by exact He. reflexivity.
  - intros v e i Hv He Hi. cbn [border_weights sw_border]. rewrite (mother_symmetric dims simple symdims pre pi flip v e) by assumption. reflexivity.
Qed.
Theorem C71_plain_symmetric (symdims symdirs : bool) cs pi flip X X' V V' : swipingnet symdims symdirs z dims = Ok cs -> disjoint_views dims (s_out z) (s_outoff z) ->
  symmetry dims pi -> (symdims = true \/ forall d, d < length dims -> pi d = d) -> (symdirs = true \/ forall d, d < length dims -> flip d = false) ->
  solves w g h z dims cs X V -> solves w g h z dims cs X' V' ->
  (forall u k, Forall2 lt u dims -> k < s_in z -> X' (s_inoff z u + k) = X (s_inoff z (moved dims pi flip u) + k)) ->
  forall u k, Forall2 lt u dims -> k < s_out z -> V' POut (s_outoff z u + k) = V POut (s_outoff z (moved dims pi flip u) + k).
Proof using L Hne SZ Hg.
  intros E HD SY BD BF S1 S2 HX u k Hu Hk. pose proof (plain_sweep symdims symdirs cs X V E S1) as C1. pose proof (plain_sweep symdims symdirs cs X' V' E S2) as C2.
  rewrite (plain_collect symdims symdirs cs X' V') by assumption. rewrite (plain_collect symdims symdirs cs X V) by (try assumption; apply (moved_valid dims pi flip SY); assumption).
  apply (collect_symmetric dims (s_in z) (s_hin z) (s_hout z) (plain_weights w symdims symdirs) g h Hg pi flip SY); try assumption.
  - intros e b He. cbn [plain_weights sw_hid]. unfold hconn. replace (if symdims then 0 else e) with (if symdims then 0 else pi e) by (destruct BD as [->|HI]; [reflexivity|rewrite HI by exact He; reflexivity]).
    destruct BF as [->|HF]; [reflexivity|]. rewrite HF by exact He. rewrite xorb_false_r. reflexivity.
  - reflexivity.
Qed.
End Props.
Print Assumptions C71_sweep.
Print Assumptions C71_plain_sweep.
Print Assumptions C71_unique.
Print Assumptions C71_symmetric.
Print Assumptions C71_plain_symmetric.
