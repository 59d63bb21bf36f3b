(** Property C89: the flexible cube. *)
From Verif Require Import Base Flex_Model Flex_Spec.
From Coq Require Import Reals Lra.
Local Open Scope nat_scope.

(** ** The edges *)
Lemma edges_list : setEdges = [(0, 1); (0, 2); (0, 4); (1, 3); (1, 5); (2, 3); (2, 6); (3, 7); (4, 5); (4, 6); (5, 7); (6, 7)].
Proof. vm_compute. reflexivity. Qed.
(** the springs that can be set are the twelve edges of the cube, each once *)
Theorem C89_edges : (forall a b, In (a, b) setEdges <-> edge a b) /\ NoDup setEdges /\ length setEdges = 12.
Proof.
  rewrite edges_list. split; [| split; [| reflexivity]].
  - intros a b. split.
    + intros H. unfold edge, vertex. cbn [In] in H.
      repeat (destruct H as [H | H]; [injection H as <- <- |]); try destruct H;
        first [exists 0, 0, 0; cbn; lia | exists 0, 0, 1; cbn; lia | exists 0, 1, 0; cbn; lia | exists 0, 1, 1; cbn; lia | exists 1, 0, 0; cbn; lia | exists 1, 0, 1; cbn; lia | exists 1, 1, 0; cbn; lia].
    + intros (x & y & z & Hx & Hy & Hz & H). unfold vertex in H. assert (x = 0 \/ x = 1) as [-> | ->] by lia; assert (y = 0 \/ y = 1) as [-> | ->] by lia; assert (z = 0 \/ z = 1) as [-> | ->] by lia;
        destruct H as [(E & -> & ->) | [(E & -> & ->) | (E & -> & ->)]]; try discriminate; cbn; auto 14.
  - repeat (constructor; [cbn [In]; intuition congruence |]). constructor.
Qed.
(** the edge sensors read exactly these, in the same order *)
Theorem C89_sensor_edges : map (fun e => (e / 8, e mod 8)) sensorEdges = setEdges.
Proof. rewrite edges_list. reflexivity. Qed.
(** setting the springs: both directions of every edge, and nothing else *)
Lemma actFrom_other es : forall count a m i j, ~ In (i, j) es -> ~ In (j, i) es -> actFrom count es a m i j = m i j.
Proof.
  induction es as [| [p q] es IH]; intros count a m i j N1 N2; [reflexivity |]. cbn [actFrom]. rewrite IH by (intros H; first [apply N1; right; exact H | apply N2; right; exact H]).
  unfold put2. destruct ((i =? q) && (j =? p)) eqn:E1.
  - apply andb_true_iff in E1. rewrite !Nat.eqb_eq in E1. destruct E1 as [-> ->]. exfalso. apply N2. now left.
  - destruct ((i =? p) && (j =? q)) eqn:E2; [| reflexivity]. apply andb_true_iff in E2. rewrite !Nat.eqb_eq in E2. destruct E2 as [-> ->]. exfalso. apply N1. now left.
Qed.
Theorem C89_act a m : (forall k i j, nth_error setEdges k = Some (i, j) -> act a m i j = nth k a 0%R /\ act a m j i = nth k a 0%R) /\
  (forall i j, ~ edge i j -> ~ edge j i -> act a m i j = m i j).
Proof.
  split.
  - intros k i j. unfold act. rewrite edges_list. intros H. do 12 (destruct k as [| k]; [injection H as <- <-; split; reflexivity |]). destruct k; discriminate.
  - intros i j N1 N2. apply actFrom_other; intros H; apply C89_edges in H; contradiction.
Qed.
Lemma act_sym a m : (forall i j, m i j = m j i) -> forall i j, act a m i j = act a m j i.
Proof.
  intros H. unfold act. generalize 0 as count. revert m H. induction setEdges as [| [p q] es IH]; intros m H count i j; [apply H |]. cbn [actFrom]. apply IH.
  clear - H. intros i j. unfold put2. destruct (Nat.eqb_spec i q), (Nat.eqb_spec j p), (Nat.eqb_spec i p), (Nat.eqb_spec j q); cbn [andb]; subst; try reflexivity; try apply H.
Qed.

(** ** What holds of every cube that can be reached *)
Definition shape (s : cube) : Prop := c_dif s = difM (c_pos s) /\ c_dist s = distM (c_pos s) /\ forall i j, c_spring s i j = c_spring s j i.
Lemma dist_sym p i j : distM p i j = distM p j i.
Proof. unfold distM, difM. f_equal. ring. Qed.
Lemma reached_shape s : reached s -> shape s.
Proof.
  induction 1 as [| h s _ IH | a s _ IH].
  - split; [reflexivity | split; [reflexivity |]]. cbn [newCube euler c_spring cubeReset]. apply act_sym. intros i j. apply dist_sym.
  - split; [reflexivity | split; [reflexivity |]]. cbn [cubeReset c_spring]. intros i j. apply dist_sym.
  - destruct IH as (_ & _ & S). split; [reflexivity | split; [reflexivity |]]. cbn [cubePerform euler c_spring]. now apply act_sym.
Qed.
(** after a step no vertex is below the floor, nor after a reset from high enough *)
Theorem C89_floor s a i : (0 <= c_pos (cubePerform s a) i 1)%R /\ (0 <= c_pos newCube i 1)%R.
Proof.
  assert (E : forall t, (0 <= landedPos t i 1)%R). { intros t. unfold landedPos, below. destruct (Rlt_dec (moved t i 1) 0) as [L | L]; cbn [andb Nat.eqb]; lra. }
  split; apply E.
Qed.
Theorem C89_floor_reset h s i : (0 <= h - 10 -> 0 <= c_pos (cubeReset h s) i 1)%R.
Proof. intros H. cbn [cubeReset c_pos]. unfold corner, ijk. pose proof (pos_INR ((i / 2) mod 2)). lra. Qed.
(** a vertex that touches the floor loses all speed along it and goes up again *)
Theorem C89_bounce s i : (0 <= c_pos s i 1)%R -> (moved s i 1 < 0)%R -> landedPos s i 1 = 0%R /\ landedVel s i 0 = 0%R /\ landedVel s i 2 = 0%R /\ (landedVel s i 1 = - pulled s i 1)%R /\ (0 < landedVel s i 1)%R.
Proof.
  intros P M. unfold landedPos, landedVel, below. destruct (Rlt_dec (moved s i 1) 0) as [L | L]; [| contradiction]. cbn [andb Nat.eqb]. repeat split; auto. unfold moved in M. lra.
Qed.
(** ** Newton's third law: the springs do not change the momentum *)
Lemma total_plus {A} (f g : A -> R) l : total (map (fun x => (f x + g x)%R) l) = (total (map f l) + total (map g l))%R.
Proof. induction l as [| x l IH]; cbn [map total fold_right]; [ring |]. fold (total (map (fun x => (f x + g x)%R) l)). rewrite IH. unfold total. ring. Qed.
Lemma total_swap {A B} (F : A -> B -> R) l m : total (map (fun i => total (map (F i) m)) l) = total (map (fun j => total (map (fun i => F i j) l)) m).
Proof.
  induction l as [| x l IH].
  - cbn [map]. induction m as [| y m IHm]; [reflexivity |]. cbn [map total fold_right]. unfold total in IHm. cbn [fold_right] in IHm. rewrite <- IHm. ring.
  - cbn [map]. replace (total (total (map (F x) m) :: map (fun i => total (map (F i) m)) l)) with (total (map (F x) m) + total (map (fun i => total (map (F i) m)) l))%R by reflexivity.
    rewrite IH, <- total_plus. reflexivity.
Qed.
Lemma total_ext {A} (f g : A -> R) l : (forall x, f x = g x) -> total (map f l) = total (map g l).
Proof. intros H. f_equal. apply map_ext. exact H. Qed.
Lemma total_opp {A} (f : A -> R) l : total (map (fun x => (- f x)%R) l) = (- total (map f l))%R.
Proof. induction l as [| x l IH]; cbn [map total fold_right]; [ring |]. unfold total in IH. rewrite IH. ring. Qed.
Lemma anti_zero {A} (F : A -> A -> R) l : (forall i j, F i j = (- F j i)%R) -> total (map (fun i => total (map (F i) l)) l) = 0%R.
Proof.
  intros H. assert (E : total (map (fun i => total (map (F i) l)) l) = (- total (map (fun i => total (map (F i) l)) l))%R); [| lra].
  rewrite total_swap at 1. rewrite <- total_opp. apply total_ext. intros j. rewrite <- total_opp. apply total_ext. intros i. apply H.
Qed.
Lemma over8_momentum (m : mat) axis : over8 (fun i => m i axis) = momentum m axis.
Proof. unfold over8, momentum, total. cbn [seq map fold_right]. ring. Qed.
Lemma pulls s axis : shape s -> over8 (fun i => over8 (fun j => spring_pull s i j axis)) = 0%R.
Proof.
  intros (Ed & El & Hs). unfold over8. apply (anti_zero (fun i j => spring_pull s i j axis)). intros i j. unfold spring_pull. rewrite Ed, El, (Hs i j), (dist_sym (c_pos s) i j). unfold difM, Rdiv. ring.
Qed.
Lemma over8_damp (f : nat -> R) a b : over8 (fun i => (f i - f i * a * b)%R) = (over8 f * (1 - a * b))%R.
Proof. unfold over8, total. cbn [seq map fold_right]. ring. Qed.
Lemma momentum_step s axis : shape s -> momentum (pulled s) axis = ((momentum (c_vel s) axis + 8 * (gravity axis * (2 / 100))) * (1 - 4 / 10 * (2 / 100)))%R.
Proof.
  intros H. rewrite <- (over8_momentum (pulled s)). unfold pulled.
  assert (E : over8 (fun i => (c_vel s i axis + over8 (fun j => spring_pull s i j axis) + gravity axis * (2 / 100))%R) = (momentum (c_vel s) axis + 8 * (gravity axis * (2 / 100)))%R).
  { unfold over8 at 1. rewrite (total_plus (fun i => (c_vel s i axis + over8 (fun j => spring_pull s i j axis))%R) (fun _ => (gravity axis * (2 / 100))%R)).
    rewrite (total_plus (fun i => c_vel s i axis) (fun i => over8 (fun j => spring_pull s i j axis))). pose proof (pulls s axis H) as Z. unfold over8 at 1 in Z. rewrite Z.
    pose proof (over8_momentum (c_vel s) axis) as V. unfold over8 in V. rewrite V. unfold total. cbn [seq map fold_right]. ring. }
  cbv zeta. rewrite <- E. apply over8_damp.
Qed.
(** in every reachable state, for every action: before the floor, the cube as a whole only feels gravity and damping *)
Theorem C89_momentum s a axis : reached s -> momentum (pulled (wanting s a)) axis = ((momentum (c_vel s) axis + 8 * (gravity axis * (2 / 100))) * (992 / 1000))%R.
Proof.
  intros H. apply reached_shape in H. destruct H as (E1 & E2 & E3). rewrite momentum_step; [cbn [wanting c_vel]; f_equal; lra |]. split; [exact E1 | split; [exact E2 |]]. cbn [wanting c_spring]. now apply act_sym.
Qed.
(** so that nothing the agent does moves the middle of a cube that does not touch the floor *)
Theorem C89_middle s a axis : reached s -> (forall i, i < 8 -> (0 <= moved (wanting s a) i 1)%R) -> axis <> 1 -> momentum (c_vel s) axis = 0%R ->
  middle (c_pos (cubePerform s a)) axis = middle (c_pos s) axis /\ momentum (c_vel (cubePerform s a)) axis = 0%R.
Proof.
  intros H F Nx Z. pose proof (C89_momentum s a axis H) as M. rewrite Z in M. assert (G : gravity axis = 0%R) by (unfold gravity; apply Nat.eqb_neq in Nx; now rewrite Nx). rewrite G in M.
  assert (M0 : momentum (pulled (wanting s a)) axis = 0%R) by lra. clear M.
  assert (B : forall i, i < 8 -> below (wanting s a) i = false). { intros i Hi. unfold below. destruct (Rlt_dec _ _); [specialize (F i Hi); lra | reflexivity]. }
  change (c_pos (cubePerform s a)) with (landedPos (wanting s a)). change (c_vel (cubePerform s a)) with (landedVel (wanting s a)).
  unfold middle, momentum, landedPos, landedVel in *. rewrite !B by lia. cbn [andb]. split; [| exact M0]. unfold moved. cbn [wanting c_pos]. lra.
Qed.
(** ** Falling *)
(** a cube that wants its present lengths falls as a whole: every vertex gets the same speed *)
Theorem C89_free_fall s i axis : (forall j, c_spring s i j = c_dist s i j) -> pulled s i axis = ((c_vel s i axis + gravity axis * (2 / 100)) * (992 / 1000))%R.
Proof.
  intros H. unfold pulled. assert (Z : over8 (fun j => spring_pull s i j axis) = 0%R). { unfold over8, spring_pull, total. cbn [seq map fold_right]. rewrite !H. ring. }
  rewrite Z. cbv zeta. lra.
Qed.
(** and goes on doing so until it touches the floor: its lengths stay and its vertices keep the same speed *)
Theorem C89_rigid s : shape s -> (forall i j, i < 8 -> j < 8 -> c_spring s i j = c_dist s i j) -> (forall i j axis, i < 8 -> j < 8 -> c_vel s i axis = c_vel s j axis) -> (forall i, i < 8 -> (0 <= moved s i 1)%R) ->
  (forall i j, i < 8 -> j < 8 -> c_dist (euler s) i j = c_dist s i j) /\ (forall i j axis, i < 8 -> j < 8 -> c_vel (euler s) i axis = c_vel (euler s) j axis).
Proof.
  intros (_ & Ed & _) Hs Hv Hf.
  assert (Pl : forall i axis, i < 8 -> pulled s i axis = ((c_vel s i axis + gravity axis * (2 / 100)) * (992 / 1000))%R).
  { intros i axis Hi. unfold pulled. assert (Z : over8 (fun j => spring_pull s i j axis) = 0%R). { unfold over8, spring_pull, total. cbn [seq map fold_right]. rewrite !Hs by lia. ring. } rewrite Z. cbv zeta. lra. }
  assert (B : forall i, i < 8 -> below s i = false). { intros i Hi. unfold below. destruct (Rlt_dec _ _); [specialize (Hf i Hi); lra | reflexivity]. }
  split.
  - intros i j Hi Hj. cbn [euler c_dist]. rewrite Ed. unfold distM, difM, landedPos. rewrite !B by assumption. cbn [andb]. unfold moved. rewrite !Pl by assumption.
    rewrite (Hv i j 0), (Hv i j 1), (Hv i j 2) by assumption. f_equal. ring.
  - intros i j axis Hi Hj. cbn [euler c_vel]. unfold landedVel. rewrite !B, !Pl by assumption. now rewrite (Hv i j axis).
Qed.
Lemma pair_dec (x y : nat * nat) : {x = y} + {x <> y}.
Proof. repeat decide equality. Defined.
Lemma corner_edge h i j : edge i j -> distM (corner h) i j = 20%R.
Proof.
  intros H. apply C89_edges in H. rewrite edges_list in H. cbn [In] in H. assert (S : forall x, x = (20 * 20)%R -> sqrt x = 20%R) by (intros x ->; apply sqrt_square; lra).
  unfold distM. apply S. unfold difM, corner, ijk. repeat (destruct H as [H | H]; [injection H as <- <-; cbn; lra |]). destruct H.
Qed.
(** right after a reset the neutral action leaves all springs at rest *)
Theorem C89_neutral h s i j : c_spring (wanting (cubeReset h s) (repeat 20%R 12)) i j = c_dist (wanting (cubeReset h s) (repeat 20%R 12)) i j.
Proof.
  cbn [wanting c_spring c_dist cubeReset]. assert (N : normAct (repeat 20%R 12) = repeat 20%R 12).
  { unfold normAct. cbn [repeat map]. replace (clipR 20 (20 * (7 / 10)) (20 * (13 / 10))) with 20%R; [reflexivity |]. unfold clipR. rewrite Rmax_left, Rmin_left; lra. }
  rewrite N. destruct (C89_act (repeat 20%R 12) (distM (corner h))) as [A1 A2].
  assert (D : edge i j \/ edge j i \/ (~ edge i j /\ ~ edge j i)).
  { destruct (in_dec pair_dec (i, j) setEdges) as [K | K]; [left; now apply C89_edges |]. destruct (in_dec pair_dec (j, i) setEdges) as [K2 | K2]; [right; left; now apply C89_edges |].
    right. right. split; intros X; apply C89_edges in X; contradiction. }
  assert (T : forall k, k < 12 -> nth k (repeat 20%R 12) 0%R = 20%R) by (intros k Hk; do 12 (destruct k as [| k]; [reflexivity |]); lia).
  destruct D as [D | [D | [D1 D2]]]; [| | now apply A2].
  - pose proof D as D0. apply C89_edges in D. apply In_nth_error in D. destruct D as [k E]. rewrite (proj1 (A1 k i j E)). assert (k < 12) by (rewrite <- (proj2 (proj2 C89_edges)); apply nth_error_Some; congruence).
    rewrite T by assumption. symmetry. now apply corner_edge.
  - pose proof D as D0. apply C89_edges in D. apply In_nth_error in D. destruct D as [k E]. rewrite (proj2 (A1 k j i E)). assert (k < 12) by (rewrite <- (proj2 (proj2 C89_edges)); apply nth_error_Some; congruence).
    rewrite T by assumption. symmetry. rewrite dist_sym. now apply corner_edge.
Qed.
(** ** Where resetting falls short *)
(** the centre of gravity is not reset: the walking tasks read the distance of the last episode, not zero *)
Theorem C89_reset_refuted h s : distToOrigin (cubeReset h s) = distToOrigin s /\ middle (c_pos (cubeReset h s)) 0 = 0%R /\ middle (c_pos (cubeReset h s)) 2 = 0%R.
Proof. split; [reflexivity |]. unfold middle, momentum, cubeReset, corner, ijk. cbn. split; lra. Qed.
(** a new cube is not one that was just reset: it has already fallen for a step *)
Theorem C89_new_refuted i : i < 8 -> (c_vel newCube i 1 <> 0)%R /\ c_vel (cubeReset 10 newCube) i 1 = 0%R /\ ((i / 2) mod 2 = 0 -> c_pos newCube i 1 = 0%R).
Proof.
  intros Hi. cbn [newCube euler c_vel c_pos]. match goal with |- landedVel ?t i 1 <> _ /\ _ => set (s := t) end.
  assert (Sp : forall j, c_spring s i j = c_dist s i j).
  { intros j. pose proof (C89_neutral 10 {| c_pos := fun _ _ => 1%R; c_vel := fun _ _ => 0%R; c_spring := fun _ _ => 1%R; c_dif := fun _ _ _ => 0%R; c_dist := fun _ _ => 0%R; c_center := fun _ => 0%R; c_step := 0; c_action := [] |} i j) as K.
    cbn [wanting c_spring c_dist cubeReset] in K. unfold s. cbn [c_spring c_dist cubeReset]. rewrite <- K. f_equal. unfold normAct. cbn [repeat map]. replace (clipR 20 (20 * (7 / 10)) (20 * (13 / 10))) with 20%R; [reflexivity |]. unfold clipR. rewrite Rmax_left, Rmin_left; lra. }
  assert (V : (pulled s i 1 = -2 * (992 / 1000))%R).
  { rewrite C89_free_fall by exact Sp. unfold s. cbn [c_vel cubeReset]. unfold gravity. cbn [Nat.eqb]. lra. }
  split; [| split; [reflexivity |]].
  - unfold landedVel. cbn [Nat.eqb]. destruct (below s i); rewrite V; lra.
  - intros J. unfold landedPos, below. destruct (Rlt_dec (moved s i 1) 0) as [L | L]; [reflexivity |]. exfalso. apply L. unfold moved. rewrite V. unfold s. cbn [c_pos cubeReset]. unfold corner, ijk. rewrite J. cbn [INR]. lra.
Qed.

(** ** The tasks *)
Lemma clip_in x lo hi : (lo <= hi -> lo <= clipR x lo hi <= hi)%R.
Proof. intros H. unfold clipR, Rmin, Rmax. repeat destruct (Rle_dec _ _); lra. Qed.
Lemma clip_same x lo hi : (lo <= x <= hi -> clipR x lo hi = x)%R.
Proof. intros H. unfold clipR, Rmin, Rmax. repeat destruct (Rle_dec _ _); lra. Qed.
(** the environment keeps the wanted lengths between 14 and 26 *)
Theorem C89_wanted s a i j : length a = 12 -> edge i j -> (14 <= c_spring (cubePerform s a) i j <= 26)%R /\ c_spring (cubePerform s a) j i = c_spring (cubePerform s a) i j.
Proof.
  intros L D. apply C89_edges in D. apply In_nth_error in D. destruct D as [k E]. assert (K : k < 12) by (rewrite <- (proj2 (proj2 C89_edges)); apply nth_error_Some; congruence).
  cbn [cubePerform euler c_spring]. destruct (C89_act (normAct a) (c_spring s)) as [A _]. destruct (A k i j E) as [-> ->]. split; [| reflexivity].
  unfold normAct. rewrite (nth_indep _ 0%R (clipR 0 (20 * (7 / 10)) (20 * (13 / 10)))) by (rewrite map_length; lia). rewrite (map_nth (fun x => clipR x (20 * (7 / 10)) (20 * (13 / 10)))).
  pose proof (clip_in (nth k a 0%R) (20 * (7 / 10)) (20 * (13 / 10)) ltac:(lra)). lra.
Qed.
(** the task: actions from -1 to 1 are lengths from 14 to 26, and no wanted length changes by more than the given speed *)
Theorem C89_scaled x y : (scaled (-1) = 14 /\ scaled 0 = 20 /\ scaled 1 = 26 /\ (x < y <-> scaled x < scaled y))%R.
Proof. unfold scaled, span. repeat split; lra. Qed.
Theorem C89_speed maxSpeed old a : (0 <= maxSpeed)%R -> Forall (fun e => (- maxSpeed <= snd e - fst e <= maxSpeed)%R) (combine old (taskAction maxSpeed old a)).
Proof.
  intros H. unfold taskAction. revert a. induction old as [| o old IH]; intros [| x a]; cbn [combine map]; constructor; [| apply IH]. cbn [fst snd]. pose proof (clip_in (scaled x) (o - maxSpeed) (o + maxSpeed) ltac:(lra)). lra.
Qed.
Theorem C89_range maxSpeed old a : (0 <= maxSpeed)%R -> Forall (fun o => 14 <= o <= 26)%R old -> Forall (fun x => -1 <= x <= 1)%R a ->
  Forall (fun o => 14 <= o <= 26)%R (taskAction maxSpeed old a) /\ normAct (taskAction maxSpeed old a) = taskAction maxSpeed old a.
Proof.
  intros H Ho Ha. assert (G : Forall (fun o => 14 <= o <= 26)%R (taskAction maxSpeed old a)).
  { unfold taskAction. revert a Ha. induction Ho as [| o old Ho1 _ IH]; intros [| x a] Ha; cbn [combine map]; constructor; inversion Ha; subst; [| now apply IH]. cbn [fst snd].
    assert (14 <= scaled x <= 26)%R by (unfold scaled, span; lra). unfold clipR, Rmin, Rmax. repeat destruct (Rle_dec _ _); lra. }
  split; [exact G |]. unfold normAct. rewrite <- (map_id (taskAction maxSpeed old a)) at 2. apply map_ext_in. intros x Hx. rewrite Forall_forall in G. apply clip_same. specialize (G x Hx). lra.
Qed.
(** when within reach, the action is what was asked for *)
Theorem C89_reached maxSpeed o x : (- maxSpeed <= scaled x - o <= maxSpeed)%R -> taskAction maxSpeed [o] [x] = [scaled x].
Proof. intros H. unfold taskAction. cbn [combine map fst snd]. f_equal. apply clip_same. lra. Qed.
(** but the task's memory of the action is not limited as the environment's is: asking for more than 1 winds it up beyond 26 *)
Fixpoint asking (n : nat) (x : R) (old : list R) : list R := match n with 0 => old | S k => asking k x (taskAction (span / 30) old [x]) end.
Theorem C89_windup_refuted n : n <= 30 -> asking n 2 [20%R] = [(20 + 2 / 5 * INR n)%R] /\ (15 < n -> (nth 0 (asking n 2 [20%R]) 0 > 26)%R /\ normAct (asking n 2 [20%R]) = [26%R]).
Proof.
  intros Hn. assert (G : forall n o, (o + 2 / 5 * INR n <= 32)%R -> asking n 2 [o] = [(o + 2 / 5 * INR n)%R]).
  { clear. induction n as [| n IH]; intros o H; [cbn [asking INR]; f_equal; ring |]. rewrite S_INR in *. pose proof (pos_INR n). cbn [asking]. unfold taskAction. cbn [combine map fst snd].
    replace (clipR (scaled 2) (o - span / 30) (o + span / 30)) with (o + 2 / 5)%R. { rewrite IH; [f_equal; ring | lra]. }
    unfold scaled, span, clipR, Rmin, Rmax. repeat destruct (Rle_dec _ _); lra. }
  assert (B : (INR n <= 30)%R) by (replace 30%R with (INR 30) by (cbn; lra); now apply le_INR). rewrite G by lra. split; [reflexivity |]. intros L. assert (16 <= INR n)%R by (replace 16%R with (INR 16) by (cbn; lra); apply le_INR; lia).
  cbn [nth]. split; [lra |]. unfold normAct. cbn [map]. f_equal. unfold clipR, Rmin, Rmax. repeat destruct (Rle_dec _ _); lra.
Qed.
(** the punishment for long edges: never negative, at most nine for each edge, and none exactly when no edge is longer than 30 *)
Theorem C89_pain l : (0 <= pain l <= 9 * INR (length l))%R /\ (pain l = 0%R <-> Forall (fun e => e <= 1)%R l).
Proof.
  assert (P : forall e, (0 <= (clipR e 1 4 - 1) ^ 2 <= 9)%R). { intros e. pose proof (clip_in e 1 4 ltac:(lra)). split; [apply pow2_ge_0 | nra]. }
  unfold pain. induction l as [| e l [IH1 IH2]]; cbn [map total fold_right length].
  - split; [cbn [INR]; lra | split; [constructor | reflexivity]].
  - rewrite S_INR. fold (total (map (fun e => ((clipR e 1 4 - 1) ^ 2)%R) l)) in *. specialize (P e). split; [lra |]. split.
    + intros H. assert (Z : ((clipR e 1 4 - 1) ^ 2 = 0)%R) by lra. constructor; [| apply IH2; lra]. assert (Z1 : (clipR e 1 4 - 1 = 0)%R) by nra. unfold clipR, Rmin, Rmax in Z1. repeat destruct (Rle_dec _ _); lra.
    + intros H. inversion H as [| ? ? He Hl]; subst. apply IH2 in Hl. rewrite Hl. unfold clipR. rewrite Rmax_right by lra. rewrite Rmin_left by lra. ring.
Qed.
(** walking pays only at the end of the episode, in proportion to the distance; jumping pays the best height reached before the
    last step, and a height reached in the last step counts for nothing *)
Theorem C89_walk epiStep epiLen raw es : (epiStep < epiLen -> walkReward epiStep epiLen raw es = (- pain es)%R) /\ (epiLen <= epiStep -> walkReward epiStep epiLen raw es = (800 * raw - pain es)%R).
Proof. unfold walkReward. destruct (Nat.ltb_spec epiStep epiLen); split; intros; try lia; lra. Qed.
Theorem C89_jump l raw es : forall epiLen, length l + 1 = epiLen -> jumpRun 1 epiLen 0 (l ++ [(raw, es)]) = map (fun e => - pain (snd e))%R l ++ [(fold_right Rmax 0 (map fst l) - pain es)%R].
Proof.
  assert (M : forall l x y, (fold_right Rmax (Rmax x y) l = Rmax x (fold_right Rmax y l))%R).
  { clear. induction l as [| z l IH]; intros x y; [reflexivity |]. cbn [fold_right]. rewrite IH. rewrite Rmax_assoc, (Rmax_comm z x), <- Rmax_assoc. reflexivity. }
  assert (G : forall l k n m, k + length l = n -> jumpRun k n m (l ++ [(raw, es)]) = map (fun e => - pain (snd e))%R l ++ [(fold_right Rmax m (map fst l) - pain es)%R]).
  { induction l0 as [| [r e] l0 IH]; intros k n m E; cbn [app jumpRun map fold_right length fst snd] in *; unfold jumpReward.
    - destruct (Nat.ltb_spec k n); [lia |]. reflexivity.
    - destruct (Nat.ltb_spec k n); [| lia]. cbn [fst snd]. f_equal. rewrite IH by lia. do 3 f_equal. destruct (Rlt_dec m r) as [K | K].
      + rewrite <- M. now rewrite Rmax_left by lra.
      + rewrite <- M. now rewrite Rmax_right by lra. }
  intros epiLen E. apply G. lia.
Qed.
(** the contact sensor is 1 exactly at the floor and 0 from one pixel above it *)
Theorem C89_contact s i : (0 <= c_pos s i 1)%R -> (0 <= contact s i <= 1)%R /\ (contact s i = 1%R <-> c_pos s i 1 = 0%R) /\ (contact s i = 0%R <-> (1 <= c_pos s i 1)%R).
Proof. intros H. unfold contact, clipR, Rmin, Rmax. repeat destruct (Rle_dec _ _); repeat split; intros; lra. Qed.
(** the height of the lowest vertex *)
Theorem C89_height s : (forall i, i < 8 -> (minHeight s <= c_pos s i 1)%R) /\ exists i, i < 8 /\ minHeight s = c_pos s i 1.
Proof.
  assert (G : forall d l, (forall x, In x (d :: l) -> (fold_right Rmin d l <= x)%R) /\ In (fold_right Rmin d l) (d :: l)).
  { clear. intros d l. induction l as [| y l [IH1 IH2]]; [split; [intros x [-> | []]; apply Rle_refl | now left] |]. cbn [fold_right]. split.
    - intros x [-> | [-> | H]]; [| apply Rmin_l |]; (eapply Rle_trans; [apply Rmin_r |]); apply IH1; [now left | now right].
    - unfold Rmin at 1. destruct (Rle_dec y (fold_right Rmin d l)); [right; now left |]. destruct IH2 as [K | K]; [left; exact K | right; right; exact K]. }
  assert (M : forall x, In x (c_pos s 0 1 :: map (fun i => c_pos s i 1) (seq 1 7)) <-> exists i, i < 8 /\ x = c_pos s i 1).
  { intros x. change (c_pos s 0 1 :: map (fun i => c_pos s i 1) (seq 1 7)) with (map (fun i => c_pos s i 1) (seq 0 8)). rewrite in_map_iff. setoid_rewrite in_seq. split; intros (i & A & B); exists i; split; auto; lia. }
  destruct (G (c_pos s 0 1) (map (fun i => c_pos s i 1) (seq 1 7))) as [G1 G2]. split; [| now apply M]. intros i Hi. apply G1, M. now exists i.
Qed.
(** growing pays nothing for the cube of a reset *)
Theorem C89_grow h s : edgesSum (cubeReset h s) = 0%R /\ edgesReal (cubeReset h s) = repeat (2 / 3)%R 12 /\ pain (edgesReal (cubeReset h s)) = 0%R.
Proof.
  assert (D : forall e, In e sensorEdges -> distM (corner h) (e / 8) (e mod 8) = 20%R).
  { intros e H. apply corner_edge, C89_edges. rewrite <- C89_sensor_edges. apply in_map_iff. now exists e. }
  assert (E : edgesReal (cubeReset h s) = repeat (2 / 3)%R 12).
  { unfold edgesReal. cbn [cubeReset c_dist]. rewrite (map_ext_in _ (fun _ => (2 / 3)%R)); [reflexivity |]. intros e H. rewrite D by exact H. lra. }
  split; [| split; [exact E |]].
  - unfold edgesSum. cbn [cubeReset c_dist]. rewrite (map_ext_in _ (fun _ => 20%R)) by exact D. unfold total. cbn [sensorEdges map fold_right]. lra.
  - rewrite E. apply C89_pain. apply Forall_forall. intros x H. apply repeat_spec in H. lra.
Qed.
(** a spring pushes its ends apart when it wants to be longer and pulls them together when it wants to be shorter, along the line
    between them, with a force in proportion to its deformation *)
Theorem C89_pull s i j : reached s -> exists k, (forall axis, spring_pull s i j axis = k * (c_pos s i axis - c_pos s j axis))%R /\
  (k * (c_dist s i j + / 10000000000) = 6 / 5 * (c_spring s i j - c_dist s i j))%R /\ ((c_dist s i j < c_spring s i j -> 0 < k) /\ (c_spring s i j < c_dist s i j -> k < 0))%R /\ c_dist s i j = distM (c_pos s) i j.
Proof.
  intros H. apply reached_shape in H. destruct H as (E1 & E2 & _). assert (D : (0 <= c_dist s i j)%R) by (rewrite E2; apply sqrt_pos). assert (P : (0 < / 10000000000)%R) by (apply Rinv_0_lt_compat; lra).
  set (w := (c_dist s i j + / 10000000000)%R). assert (W : (0 < w)%R) by (unfold w; lra). assert (Wi : (0 < / w)%R) by (now apply Rinv_0_lt_compat).
  exists (/ w * (6 / 5 * (c_spring s i j - c_dist s i j)))%R. split; [| split; [| split; [split; intros K |]]].
  - intros axis. unfold spring_pull. rewrite E1. unfold difM, w, Rdiv. fold w. field. lra.
  - unfold w at 2. fold w. field. lra.
  - apply Rmult_lt_0_compat; [exact Wi | lra].
  - assert (0 < / w * (6 / 5 * (c_dist s i j - c_spring s i j)))%R by (apply Rmult_lt_0_compat; [exact Wi | lra]). lra.
  - now rewrite E2.
Qed.
(** what a step does to the velocities and positions, the centre and the time *)
Theorem C89_step s a i axis : let t := wanting s a in
  pulled t i axis = ((c_vel s i axis + over8 (fun j => spring_pull t i j axis) + gravity axis * (2 / 100)) * (992 / 1000))%R /\
  (axis <> 1 \/ (0 <= moved t i 1)%R -> c_pos (cubePerform s a) i axis = (c_pos s i axis + 2 / 100 * pulled t i axis)%R) /\
  ((0 <= moved t i 1)%R -> c_vel (cubePerform s a) i axis = pulled t i axis) /\
  c_vel (cubePerform s a) i = landedVel t i /\ c_center (cubePerform s a) axis = middle (c_pos (cubePerform s a)) axis /\ c_step (cubePerform s a) = c_step s + 1 /\ c_action (cubePerform s a) = normAct a.
Proof.
  cbv zeta. split; [unfold pulled; cbv zeta; cbn [wanting c_vel]; lra |]. split; [| split; [| split; [reflexivity | split; [| split; reflexivity]]]].
  - intros H. change (c_pos (cubePerform s a)) with (landedPos (wanting s a)). unfold landedPos, below. destruct (Rlt_dec (moved (wanting s a) i 1) 0) as [L | L]; cbn [andb]; [| reflexivity].
    destruct H as [H | H]; [| lra]. apply Nat.eqb_neq in H. rewrite H. reflexivity.
  - intros H. change (c_vel (cubePerform s a)) with (landedVel (wanting s a)). unfold landedVel, below. destruct (Rlt_dec (moved (wanting s a) i 1) 0) as [L | L]; [lra | reflexivity].
  - change (c_pos (cubePerform s a)) with (landedPos (wanting s a)). unfold middle. rewrite <- over8_momentum. reflexivity.
Qed.
(** the sensor of the walking tasks, times the 800 they pay, is the distance along the floor *)
Theorem C89_distance s : (distToOrigin s * 800)%R = sqrt (c_center s 0 ^ 2 + c_center s 2 ^ 2).
Proof. unfold distToOrigin. replace (c_center s 0 ^ 2 + 0 ^ 2 + c_center s 2 ^ 2)%R with (c_center s 0 ^ 2 + c_center s 2 ^ 2)%R by ring. lra. Qed.
Theorem C89_grow_pays raw es : (growReward raw es <= raw)%R /\ (growReward raw es = raw <-> Forall (fun e => e <= 1)%R es).
Proof. unfold growReward. destruct (C89_pain es) as [[P _] Q]. split; [lra |]. rewrite <- Q. split; intros; lra. Qed.
Example C89_case : reached (cubePerform (cubeReset 200 newCube) (repeat 20%R 12)) /\ (forall i, i < 8 -> (0 <= moved (wanting (cubeReset 200 newCube) (repeat 20%R 12)) i 1)%R) /\ momentum (c_vel (cubeReset 200 newCube)) 0 = 0%R.
Proof.
  split; [apply reached_act, reached_reset, reached_new |]. split; [| unfold momentum; cbn; lra]. intros i Hi. unfold moved. rewrite C89_free_fall.
  - cbn [wanting cubeReset c_pos c_vel]. unfold corner, ijk, gravity. cbn [Nat.eqb]. pose proof (pos_INR ((i / 2) mod 2)). lra.
  - intros j. apply C89_neutral.
Qed.

(** The vertices are numbered by their coordinates, the first most significant: vertex 4i + 2j + k starts at the corner (i, j, k) of the cube. *)
Theorem C89_corners : forall h s i j k, (i < 2)%nat -> (j < 2)%nat -> (k < 2)%nat ->
  c_pos (cubeReset h s) (4 * i + 2 * j + k)%nat 0%nat = (20 * INR i - 10)%R /\
  c_pos (cubeReset h s) (4 * i + 2 * j + k)%nat 1%nat = (20 * INR j - 10 + h)%R /\
  c_pos (cubeReset h s) (4 * i + 2 * j + k)%nat 2%nat = (20 * INR k - 10)%R.
Proof.
  intros h s i j k Hi Hj Hk. cbn [cubeReset c_pos].
  destruct i as [|[|i]]; [| |lia]; (destruct j as [|[|j]]; [| |lia]); (destruct k as [|[|k]]; [| |lia]); unfold corner, ijk; cbn; repeat split; lra.
Qed.

Print Assumptions C89_edges.
Print Assumptions C89_sensor_edges.
Print Assumptions C89_act.
Print Assumptions C89_floor.
Print Assumptions C89_floor_reset.
Print Assumptions C89_bounce.
Print Assumptions C89_momentum.
Print Assumptions C89_middle.
Print Assumptions C89_free_fall.
Print Assumptions C89_rigid.
Print Assumptions C89_neutral.
Print Assumptions C89_reset_refuted.
Print Assumptions C89_new_refuted.
Print Assumptions C89_wanted.
Print Assumptions C89_scaled.
Print Assumptions C89_speed.
Print Assumptions C89_range.
Print Assumptions C89_reached.
Print Assumptions C89_windup_refuted.
Print Assumptions C89_pain.
Print Assumptions C89_walk.
Print Assumptions C89_jump.
Print Assumptions C89_contact.
Print Assumptions C89_height.
Print Assumptions C89_grow.
Print Assumptions C89_pull.
Print Assumptions C89_step.
Print Assumptions C89_distance.
Print Assumptions C89_grow_pays.
Print Assumptions C89_corners.
