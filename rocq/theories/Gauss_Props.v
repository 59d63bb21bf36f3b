(** Theorems of C83 about block matrices and the Fisher information. *)
From Coq Require Import Reals Lra.
From Verif Require Import Base Gauss_Model Gauss_Spec Gauss_Proofs.
Local Open Scope R_scope.

(** blockCombine puts every block where it belongs, if the whole is as high as wide *)
Theorem C83_block_combine hs ws l : fits hs ws l -> (0 < length ws)%nat -> (0 < length hs)%nat -> list_sum hs = list_sum ws ->
  exists res, blockCombine l = Ok res /\ nr res = list_sum hs /\ nc res = list_sum ws /\
    forall p k a b, (p < length hs)%nat -> (k < length ws)%nat -> (a < nth p hs 0)%nat -> (b < nth k ws 0)%nat ->
       el res (start hs p + a)%nat (start ws k + b)%nat = el (nth k (nth p l []) (Arr 0 0 (fun _ _ => 0))) a b.
Proof. apply combine_spec. Qed.
Print Assumptions C83_block_combine.
Example C83_block_combine_example : fits [1; 2]%nat [2; 1]%nat
  [[Arr 1 2 (fun _ j => INR j); Arr 1 1 (fun _ _ => 7)]; [Arr 2 2 (fun i j => INR (i + j)); Arr 2 1 (fun _ _ => 8)]].
Proof. repeat constructor. Qed.

(** other shapes: the array for the answer has its height and its width exchanged *)
Theorem C83_block_combine_refuted :
  (forall f, blockCombine [[Arr 1 2 f; Arr 1 2 f]] = Err ValueError) /\
  (forall f, blockCombine [[Arr 2 1 f]; [Arr 2 1 f]] = Err ValueError) /\
  forall x y, exists res, blockCombine [[Arr 1 1 (fun _ _ => x); Arr 1 1 (fun _ _ => y)]] = Ok res /\ nr res = 2%nat /\ nc res = 1%nat /\ el res 0 0 = x.
Proof.
  split; [|split]; intros; try reflexivity. eexists. split; [reflexivity|]. repeat split.
Qed.
Print Assumptions C83_block_combine_refuted.

(** the blocks of the information: the first is the inverse of the covariance, the others its trailing parts with something added to their first entry *)
Theorem C83_fisher_blocks dim invS fac : symmetric dim invS -> definite dim invS -> (forall k, (k < dim)%nat -> fac k k <> 0) ->
  exists rest, calcFisherInformation dim invS fac = square dim invS :: rest /\ length rest = dim /\
    forall k, (k < dim)%nat -> exists f, nth_error rest k = Some f /\ nr f = (dim - k)%nat /\ nc f = (dim - k)%nat /\ symmetric (dim - k) (el f) /\ definite (dim - k) (el f) /\
      forall i j, (i < dim - k)%nat -> (j < dim - k)%nat -> el f i j = invS (k + i)%nat (k + j)%nat + delta i 0 * delta j 0 / (fac k k) ^ 2.
Proof.
  intros Sym Def Fac. eexists. split; [reflexivity|]. split; [now rewrite map_length, seq_length|]. intros k Hk. exists (fisherBlock dim invS fac k).
  assert (E : forall i j, el (fisherBlock dim invS fac k) i j = invS (k + i)%nat (k + j)%nat + delta i 0 * delta j 0 / fac k k ^ 2).
  { intros i j. unfold fisherBlock, square, delta. cbn [el]. destruct (i =? 0)%nat, (j =? 0)%nat; cbn [andb]; unfold Rdiv; ring. }
  split.
  { rewrite nth_error_map. rewrite (nth_error_nth' _ 0%nat) by (rewrite seq_length; exact Hk). rewrite seq_nth by exact Hk. reflexivity. }
  split; [reflexivity|]. split; [reflexivity|]. split; [|split].
  - intros i j Hi Hj. rewrite !E, Sym by lia. unfold Rdiv. ring.
  - intros x Hx. assert (P := trail_definite dim k invS ltac:(lia) Def x Hx). apply Rlt_le_trans with (1 := P).
    assert (Q : quad (dim - k) (el (fisherBlock dim invS fac k)) x = quad (dim - k) (trail k invS) x + / fac k k ^ 2 * (x 0%nat * x 0%nat)).
    { unfold quad. destruct (dim - k)%nat as [|m] eqn:Em; [lia|].
      rewrite (rsig_ext (S m) _ (fun i => rsig (S m) (fun j => x i * trail k invS i j * x j) + delta 0 i * (x i * x 0%nat * / fac k k ^ 2))).
      - rewrite rsig_plus, (rsig_delta (S m) 0 (fun i => x i * x 0%nat * / fac k k ^ 2)) by lia. ring.
      - intros i Hi. rewrite (rsig_ext (S m) _ (fun j => x i * trail k invS i j * x j + delta 0 j * (delta 0 i * x i * x j * / fac k k ^ 2))) by (intros j Hj; rewrite E, (delta_sym i 0), (delta_sym j 0); unfold trail, Rdiv; ring).
        rewrite rsig_plus, (rsig_delta (S m) 0 (fun j => delta 0 i * x i * x j * / fac k k ^ 2)) by lia. ring. }
    rewrite Q. pose proof (factor_pos dim fac Fac k Hk). assert (0 <= x 0%nat * x 0%nat) by apply Rle_0_sqr. nra.
  - intros; apply E.
Qed.
Print Assumptions C83_fisher_blocks.

(** calcInvFisher gives the inverses of these blocks, of every positive definite covariance matrix *)
Theorem C83_fisher_inverse dim sigma invS fac : (0 < dim)%nat -> symmetric dim invS -> definite dim invS -> (forall k, (k < dim)%nat -> fac k k <> 0) -> inverse_of dim invS sigma ->
  exists l, calcInvFisher dim sigma invS fac = Ok l /\ length l = length (calcFisherInformation dim invS fac) /\
    forall k b, nth_error l k = Some b -> exists f, nth_error (calcFisherInformation dim invS fac) k = Some f /\ nr b = nr f /\ nc b = nc f /\ inverse_of (nr f) (el f) (el b).
Proof.
  intros Hd Sym Def Fac Inv. unfold calcInvFisher. destruct (Nat.eqb_spec dim 0) as [|_]; [lia|]. set (last := (dim - 1)%nat).
  assert (L1 : (dim - last)%nat = 1%nat) by (unfold last; lia).
  assert (Wp : 0 < invS last last). { pose proof (corner_pos (dim - last) (trail last invS) ltac:(lia) (trail_definite dim last invS ltac:(lia) Def)) as P. unfold trail in P. now rewrite !Nat.add_0_r in P. }
  pose proof (factor_pos dim fac Fac last ltac:(lia)) as Fp.
  set (d0 := Arr 1 1 (fun _ _ => 1 / invS last last)). set (f0 := Arr 1 1 (fun _ _ => 1 / (invS last last + / fac last last ^ 2))).
  assert (G0 : dgood dim invS last d0).
  { unfold dgood. rewrite L1. split; [|intros i j _ _; reflexivity]. intros i j Hi Hj. assert (i = 0%nat) as -> by lia. assert (j = 0%nat) as -> by lia. unfold trail, d0, delta. cbn [el rsig Nat.eqb]. rewrite !Nat.add_0_r. split; field; lra. }
  assert (Gf : good dim invS fac last f0).
  { unfold good. rewrite L1. split; [reflexivity|]. split; [reflexivity|]. intros i j Hi Hj. assert (i = 0%nat) as -> by lia. assert (j = 0%nat) as -> by lia. unfold f0, fisherBlock, square, delta. cbn [el rsig Nat.eqb andb]. rewrite !Nat.add_0_r.
    assert (Nz : invS last last + / fac last last ^ 2 <> 0) by lra. set (z := invS last last + / fac last last ^ 2) in *. split; field; exact Nz. }
  destruct (loop_good dim invS fac Sym Def Fac last [f0] d0 ltac:(unfold last; lia) G0) as (l & d & E & Ll & Gl). rewrite E. cbn [rbind fst].
  rewrite !rev_app_distr, rev_involutive. cbn [rev List.app]. eexists. split; [reflexivity|].
  assert (Lr : length (square dim sigma :: l ++ [f0]) = length (calcFisherInformation dim invS fac)).
  { unfold calcFisherInformation. cbn [length]. rewrite app_length, map_length, seq_length. cbn [length]. unfold last in Ll. lia. }
  split; [exact Lr|]. intros k b Hb. destruct k as [|k].
  - cbn [nth_error] in Hb. injection Hb as <-. exists (square dim invS). repeat split; try reflexivity; cbn [square nr el] in *; apply Inv; assumption.
  - assert (Hk : (k < dim)%nat). { assert (nth_error (square dim sigma :: l ++ [f0]) (S k) <> None) by congruence. apply nth_error_Some in H. cbn [length] in H. rewrite app_length in H. cbn [length] in H. unfold last in Ll. lia. }
    exists (fisherBlock dim invS fac k). split.
    { unfold calcFisherInformation. cbn [nth_error]. rewrite nth_error_map. rewrite (nth_error_nth' _ 0%nat) by (rewrite seq_length; exact Hk). rewrite seq_nth by exact Hk. reflexivity. }
    cbn [nth_error] in Hb. assert (Gb : good dim invS fac k b).
    { destruct (Nat.eq_dec k last) as [->|N].
      - rewrite nth_error_app2 in Hb by lia. rewrite Ll, Nat.sub_diag in Hb. cbn [nth_error] in Hb. injection Hb as <-. exact Gf.
      - assert (k < last)%nat by (unfold last in *; lia). rewrite nth_error_app1 in Hb by lia. specialize (Gl k ltac:(lia)). rewrite (nth_error_nth _ _ _ Hb) in Gl. exact Gl. }
    destruct Gb as (N1 & N2 & I). split; [exact N1|]. split; [exact N2|]. exact I.
Qed.
Print Assumptions C83_fisher_inverse.
(** a covariance of two variables meets the hypotheses *)
Example C83_fisher_example : let invS := fun i j => if (i =? j)%nat then 2 else 1 in symmetric 2 invS /\ definite 2 invS /\
  inverse_of 2 invS (fun i j => if (i =? j)%nat then 2 / 3 else - (1 / 3)).
Proof.
  cbn zeta. split; [|split].
  - intros i j _ _. rewrite Nat.eqb_sym. reflexivity.
  - intros x (i & Hi & Nx). unfold quad. cbn [rsig Nat.eqb]. assert (Hs : 0 < x i * x i) by (destruct (Rdichotomy _ _ Nx); nra). pose proof (Rle_0_sqr (x 0%nat + x 1%nat)) as H1. pose proof (Rle_0_sqr (x 0%nat)) as H2. pose proof (Rle_0_sqr (x 1%nat)) as H3. unfold Rsqr in *.
    assert (i = 0%nat \/ i = 1%nat) as [-> | ->] by lia; lra.
  - intros i j Hi Hj. assert (i = 0%nat \/ i = 1%nat) as [-> | ->] by lia; assert (j = 0%nat \/ j = 1%nat) as [-> | ->] by lia; unfold delta; cbn [rsig Nat.eqb]; split; lra.
Qed.
Theorem C83_fisher_empty sigma invS fac : calcInvFisher 0 sigma invS fac = Err IndexError.
Proof. reflexivity. Qed.
Print Assumptions C83_fisher_empty.
