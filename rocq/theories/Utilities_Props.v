(** Properties C45-C48 and C52: the helper algorithms of pybrain/utilities.py. *)
From Verif Require Import Base Utilities_Model Utilities_Spec Utilities_Proofs Utilities_Proofs2.
From Coq Require Import NArith QArith.
Open Scope nat_scope.

(** C45: Gray codes of a given size form a bijection and neighbours differ in one bit. *)
Theorem C45_gray_round_trip : forall i size, (i < 2 ^ N.of_nat size)%N -> gray2int (int2gray i) size = i.
Proof. exact gray_round_trip. Qed.
Print Assumptions C45_gray_round_trip.

Theorem C45_gray_inverse : forall g size, (g < 2 ^ N.of_nat size)%N -> int2gray (gray2int g size) = g.
Proof. exact gray_round_trip2. Qed.
Print Assumptions C45_gray_inverse.

Theorem C45_neighbours_differ_in_one_bit : forall i,
  exists k, N.lxor (int2gray i) (int2gray (i + 1)) = (2 ^ k)%N.
Proof. exact gray_adjacent. Qed.
Print Assumptions C45_neighbours_differ_in_one_bit.

Example C45_case : (11 < 2 ^ N.of_nat 4)%N /\ int2gray 11 = 14%N /\ gray2int 14 4 = 11%N /\
  N.lxor (int2gray 11) (int2gray (11 + 1)) = (2 ^ 2)%N.
Proof. repeat split. Qed.

(** A size that is too small loses information. *)
Theorem C45_size_matters_refuted : exists i size, gray2int (int2gray i) size <> i.
Proof. exists 4%N, 2. vm_compute. discriminate. Qed.
Print Assumptions C45_size_matters_refuted.

(** C46: every tuple below the bounds, once, in lexicographic order. *)
Theorem C46_iterCombinations : forall tup, tup <> [] ->
  (forall t, In t (iterCombinations tup) <-> Forall2 lt t tup) /\
  NoDup (iterCombinations tup) /\ StronglySorted lex (iterCombinations tup).
Proof. exact iterCombinations_ok. Qed.
Print Assumptions C46_iterCombinations.

Example C46_case : iterCombinations [2; 1; 2] = [[0;0;0]; [0;0;1]; [1;0;0]; [1;0;1]].
Proof. reflexivity. Qed.

(** The empty product has one element, but nothing is produced for it. *)
Theorem C46_empty_tuple_refuted : ~ (forall t, In t (iterCombinations []) <-> Forall2 lt t []).
Proof. intro H. apply (H []). constructor. Qed.
Print Assumptions C46_empty_tuple_refuted.

(** C47: packing and unpacking of triangular matrices are inverse to each other. *)
Theorem C47_triu_round_trip : forall V (vzero : V) m dim, upper_triangular vzero dim m ->
  flat2triu vzero (triu2flat vzero m) dim = Ok m.
Proof. exact @triu_round_trip. Qed.
Print Assumptions C47_triu_round_trip.

Theorem C47_flat_round_trip : forall V (vzero : V) a dim, length a = dim * (dim + 1) / 2 ->
  exists m, flat2triu vzero a dim = Ok m /\ upper_triangular vzero dim m /\ triu2flat vzero m = a.
Proof. exact @flat_round_trip. Qed.
Print Assumptions C47_flat_round_trip.

Example C47_case : upper_triangular 0 3 [[1;2;3];[0;4;5];[0;0;6]] /\
  triu2flat 0 [[1;2;3];[0;4;5];[0;0;6]] = [1;2;3;4;5;6].
Proof.
  split; [|reflexivity]. split; [reflexivity|].
  intros [|[|[|i]]] row H; cbn in H; try (injection H as <-); try (destruct i; discriminate);
    (split; [reflexivity|]); intros [|[|[|j]]] Hj; try lia; reflexivity.
Qed.

(** C48: flood computes exactly the reachable positions. *)
Theorem C48_flood_exact : forall A (eqb : A -> A -> bool),
  (forall x y, reflect (x = y) (eqb x y)) ->
  forall (step : A -> list A) f init fuel, S (length f) < fuel ->
  exists out, flood eqb fuel step (Some f) init None = Ok out /\ NoDup out /\
    forall x, In x out <-> reach step (fun y => In y f) init x.
Proof.
  intros A eqb He step f init fuel Hf.
  destruct (flood_total_full eqb He step f init fuel Hf) as [out E]. exists out. split; auto.
  exact (flood_exact eqb He step fuel (Some f) init out E).
Qed.
Print Assumptions C48_flood_exact.

(** without a full set, on any step function with finitely many reachable positions *)
Theorem C48_flood_unbounded : forall A (eqb : A -> A -> bool),
  (forall x y, reflect (x = y) (eqb x y)) ->
  forall (step : A -> list A) init univ, (forall x, reach step (fun _ => True) init x -> In x univ) ->
  forall fuel, length univ + 1 < fuel ->
  exists out, flood eqb fuel step None init None = Ok out /\ NoDup out /\
    forall x, In x out <-> reach step (fun _ => True) init x.
Proof.
  intros A eqb He step init univ Hu fuel Hf.
  destruct (flood_total eqb He step None init None univ ltac:(discriminate) Hu fuel Hf) as [out E].
  exists out. split; auto. exact (flood_exact eqb He step fuel None init out E).
Qed.
Print Assumptions C48_flood_unbounded.

(** stopping early at [relevant] never loses a relevant reachable position *)
Theorem C48_flood_relevant : forall A (eqb : A -> A -> bool),
  (forall x y, reflect (x = y) (eqb x y)) ->
  forall (step : A -> list A) f init rel fuel, rel <> [] -> S (length f) < fuel ->
  exists out, flood eqb fuel step (Some f) init (Some rel) = Ok out /\ NoDup out /\
    (forall x, In x out -> reach step (fun y => In y f) init x) /\
    forall x, In x rel -> reach step (fun y => In y f) init x -> In x out.
Proof.
  intros A eqb He step f init rel fuel Hr Hf.
  destruct (flood_total eqb He step (Some f) init (Some rel) f) with (fuel := fuel) as [out E]; try lia.
  - congruence.
  - intros x Hx; destruct Hx; auto.
  - exists out. split; auto. exact (flood_relevant eqb He step fuel (Some f) init rel out E).
Qed.
Print Assumptions C48_flood_relevant.

Example C48_case : flood Nat.eqb 20 (fun x => [x + 2; x - 2]) (Some [1;2;3;4;5;6;7;9]) [4;9] None
  = Ok [4;9;2;6;7;5;3;1].
Proof. reflexivity. Qed.

(** An empty [relevant] list is not turned into a set and raises AttributeError. *)
Theorem C48_empty_relevant_refuted : exists f init,
  flood Nat.eqb 20 (fun x => [x + 1]) (Some f) init (Some []) = Err AttributeError.
Proof. exists [1;2], [1]. reflexivity. Qed.
Print Assumptions C48_empty_relevant_refuted.

(** C52: the draws selecting index i are the interval [cumul i, cumul (i+1)), of length p_i. *)
Theorem C52_drawIndex : forall probs r c, (forall p, In p probs -> 0 <= p)%Q ->
  (99999 # 100000 < Qsum probs < 100001 # 100000)%Q -> (0 <= r < Qsum probs)%Q ->
  exists i, drawIndex probs false r c = Ok i /\ i < length probs /\
    (cumul probs i <= r < cumul probs (S i))%Q /\ (0 < nth i probs 0)%Q /\
    forall j, (cumul probs j <= r < cumul probs (S j))%Q -> j = i.
Proof.
  intros probs r c Hp Hs Hr. destruct (drawIndex_spec probs r c Hp Hs Hr) as (i & E & Hi & Hc & Hn).
  exists i. split; auto. split; auto. split; auto. split; auto. intros j Hj. eapply cumul_tile; eauto.
Qed.
Print Assumptions C52_drawIndex.

Theorem C52_drawIndex_tolerant : forall probs r c, (forall p, In p probs -> 0 <= p)%Q ->
  (0 < Qsum probs)%Q -> (Qsum probs <= 99999 # 100000 \/ 100001 # 100000 <= Qsum probs)%Q ->
  (0 <= r < 1)%Q ->
  exists i, drawIndex probs true r c = Ok i /\ i < length probs /\
    (cumul probs i <= r * Qsum probs < cumul probs (S i))%Q.
Proof. exact drawIndex_tolerant. Qed.
Print Assumptions C52_drawIndex_tolerant.

Example C52_case : drawIndex [1#4; 0; 3#4]%Q false (1#4) 0 = Ok 2 /\ drawIndex [1; 1; 2]%Q true (1#4) 0 = Ok 1.
Proof. split; vm_compute; reflexivity. Qed.

(** When the weights sum to a little less than one and the draw falls in the missing
    mass, the uniform fall-back may pick an index of weight zero. *)
Theorem C52_positive_weight_refuted : exists probs r c,
  (forall p, In p probs -> 0 <= p)%Q /\ (99999 # 100000 < Qsum probs < 100001 # 100000)%Q /\
  (0 <= r < 1)%Q /\ c < length probs /\
  drawIndex probs false r c = Ok c /\ (nth c probs 0 == 0)%Q.
Proof.
  exists [999995 # 1000000; 0]%Q, (999999 # 1000000)%Q, 1. repeat split; try (vm_compute; congruence).
  - intros p [<-|[<-|[]]]; vm_compute; congruence.
  - vm_compute. lia.
Qed.
Print Assumptions C52_positive_weight_refuted.

(** Supporting helpers used by the learners. *)
Theorem C52_all_argmax : forall x, x <> [] -> exists l, all_argmax x = Ok l /\ l <> [] /\
  (forall i, In i l <-> is_max x i) /\ StronglySorted lt l.
Proof. exact all_argmax_spec. Qed.
Print Assumptions C52_all_argmax.

(** r_argmax draws one of the positions of the maximum, and can draw any of them. *)
Theorem C52_r_argmax : forall x, x <> [] ->
  (forall c i, r_argmax x c = Ok i -> is_max x i) /\ (forall i, is_max x i -> exists c, r_argmax x c = Ok i).
Proof.
  intros x Hx. destruct (all_argmax_spec x Hx) as (l & E & _ & Hl & _). unfold r_argmax. rewrite E. destruct (Nat.eqb_spec (length x) 1) as [H1|H1].
  - destruct x as [|v [|w t]]; try discriminate. assert (M : forall i, is_max [v] i <-> i = 0).
    { intro i. split; [intros (u & Hu & _); destruct i as [|[|i]]; [auto|discriminate|discriminate]|]. intros ->. exists v. split; auto. intros w [<-|[]]. lia. }
    split; [intros c i H; injection H as <-; now apply M|]. intros i Hi. apply M in Hi. subst. exists 0. auto.
  - cbn [rbind]. split.
    + intros c i H. destruct (nth_error l c) as [j|] eqn:En; [|discriminate]. injection H as <-. apply Hl. eapply nth_error_In; eauto.
    + intros i Hi. apply Hl, In_nth_error in Hi. destruct Hi as [c Hc]. exists c. now rewrite Hc.
Qed.
Print Assumptions C52_r_argmax.
Example C52_r_argmax_case : r_argmax [3; 7; 7; 1]%Z 0 = Ok 1 /\ r_argmax [3; 7; 7; 1]%Z 1 = Ok 2 /\ r_argmax [5]%Z 0 = Ok 0.
Proof. vm_compute. auto. Qed.

(** permute puts at every position the element its permutation names, and fails exactly on positions out of range. *)
Theorem C52_permute : forall A (arr : list A) p out, permute arr p = Ok out <->
  length out = length p /\ forall i k, nth_error p i = Some k -> nth_error out i = nth_error arr k /\ k < length arr.
Proof. intros A. exact permute_spec. Qed.
Print Assumptions C52_permute.
Example C52_permute_case : permute [10; 20; 30] [2; 0; 1] = Ok [30; 10; 20].
Proof. vm_compute. auto. Qed.

Theorem C46_crossproduct : forall A (ss : list (list A)), ss <> [] -> (forall s, In s ss -> s <> []) ->
  forall row, exists l, crossproduct ss row = Ok l /\
    forall t, In t l <-> exists c, t = row ++ c /\ Forall2 (fun x s => In x s) c ss.
Proof. exact @crossproduct_spec. Qed.
Print Assumptions C46_crossproduct.

Example C46_crossproduct_case : crossproduct [[1;2];[3];[4;5]] [] = Ok [[1;3;4];[1;3;5];[2;3;4];[2;3;5]].
Proof. reflexivity. Qed.
