(** C20: what the backward implementation of a connection computes. *)
From Coq Require Import Ring.
From Verif Require Import Base RingOps Net_Model Net_Spec.

Section Adjoint.
Context {K : Type} {Ops : RingOps K} {Lw : RingLaws K}.
Add Ring Kring6 : (@rlaws K Ops Lw).
Notation vec := (@vec K).
Local Open Scope r_scope.

Definition dot (n : nat) (u v : vec) : K := sumn n (fun i => u i * v i).

(** ** Permutations *)
Definition sigma (perm : list nat) (bs i : nat) : nat := (nth (i / bs) perm 0 * bs + i mod bs)%nat.
Definition involution (perm : list nat) : Prop := forall k, (k < length perm)%nat -> nth (nth k perm 0%nat) perm 0%nat = k.

Lemma perm_bound perm k : Permutation perm (seq 0 (length perm)) -> (k < length perm)%nat -> (nth k perm 0 < length perm)%nat.
Proof.
  intros Hp Hk. assert (Hin : In (nth k perm 0%nat) (seq 0 (length perm))).
  { eapply Permutation_in; [exact Hp|]. apply nth_In. auto. }
  apply in_seq in Hin. lia.
Qed.
Lemma sigma_bound perm bs i : Permutation perm (seq 0 (length perm)) -> (0 < bs)%nat -> (i < length perm * bs)%nat ->
  (sigma perm bs i < length perm * bs)%nat.
Proof.
  intros Hp Hb Hi. unfold sigma. pose proof (perm_bound perm (i / bs) Hp) as H.
  assert ((i / bs < length perm)%nat) by (apply Nat.div_lt_upper_bound; lia). specialize (H H0).
  pose proof (Nat.mod_upper_bound i bs). nia.
Qed.
Lemma sigma_block perm bs a r : (r < bs)%nat -> sigma perm bs (a * bs + r) = (nth a perm 0 * bs + r)%nat.
Proof.
  intros Hr. unfold sigma. rewrite Nat.div_add_l by lia. rewrite Nat.div_small by lia. rewrite Nat.add_0_r.
  replace (a * bs + r)%nat with (r + a * bs)%nat by lia. rewrite Nat.mod_add by lia. rewrite Nat.mod_small by lia. auto.
Qed.
Lemma sigma_sigma perm bs i : (0 < bs)%nat -> (i < length perm * bs)%nat -> involution perm -> sigma perm bs (sigma perm bs i) = i.
Proof.
  intros Hb Hi Hv. unfold sigma at 2. rewrite sigma_block by (apply Nat.mod_upper_bound; lia).
  rewrite Hv by (apply Nat.div_lt_upper_bound; lia). rewrite (Nat.div_mod i bs) at 3 by lia. lia.
Qed.
Lemma sumn_seq n (f : nat -> K) : sumn n f = suml (seq 0 n) f.
Proof. induction n as [|n IH]; [reflexivity|]. rewrite seq_S, suml_app, <- IH. cbn. ring. Qed.
Lemma NoDup_map_on {A B} (g : A -> B) l : (forall a b, In a l -> In b l -> g a = g b -> a = b) -> NoDup l -> NoDup (map g l).
Proof.
  induction l as [|a l IH]; intros H Hn; cbn; constructor; inversion Hn as [|? ? Ha Hl]; subst.
  - intro Hin. apply in_map_iff in Hin. destruct Hin as (b & E & Hb). apply Ha.
    rewrite (H a b); auto; [left|right]; auto.
  - apply IH; auto. intros; apply H; auto; right; auto.
Qed.
Lemma sumn_reindex n (s : nat -> nat) (f : nat -> K) : (forall i, (i < n)%nat -> (s i < n)%nat /\ s (s i) = i) ->
  sumn n (fun i => f (s i)) = sumn n f.
Proof.
  intro H. rewrite !sumn_seq. rewrite <- (suml_map s (seq 0 n) f). apply suml_perm. apply NoDup_Permutation_bis.
  - apply NoDup_map_on; [|apply seq_NoDup]. intros a b Ha Hb E. apply in_seq in Ha, Hb.
    rewrite <- (proj2 (H a ltac:(lia))), E. apply H. lia.
  - rewrite map_length. auto.
  - intros j Hj. apply in_map_iff in Hj. destruct Hj as (i & <- & Hi). apply in_seq in Hi. apply in_seq.
    pose proof (proj1 (H i ltac:(lia))). lia.
Qed.

(** ** Transposes *)
Definition square (k : ckind) (indim outdim : nat) : Prop :=
  match k with CFull => True | CPerm perm bs => indim = outdim /\ (0 < bs)%nat /\ (length perm * bs)%nat = indim /\ Permutation perm (seq 0 (length perm))
  | _ => indim = outdim end.
Definition ok_kind (k : ckind) : Prop := match k with CPerm perm _ => involution perm | _ => True end.

Theorem op_transpose k indim outdim p x e : square k indim outdim -> ok_kind k ->
  dot outdim e (op_fwd k indim outdim p x) = dot indim (op_bwd k indim outdim p e) x.
Proof.
  unfold dot. destruct k as [| | | |perm bs]; cbn [op_fwd op_bwd square ok_kind].
  - intros _ _. rewrite (sumn_ext _ _ (fun i => sumn indim (fun j => e i * (p (i * indim + j)%nat * x j)))) by (intros; rewrite sumn_mul_l; auto).
    rewrite sumn_swap. apply sumn_ext. intros j _. rewrite <- sumn_mul_r. apply sumn_ext. intros; ring.
  - intros -> _. apply sumn_ext. intros; ring.
  - intros -> _. apply sumn_ext. intros; ring.
  - intros _ _. rewrite (sumn_ext _ _ (fun i => sumn indim (fun j => e i * (p (i * indim + j)%nat * (1 - delta i j) * x j)))) by (intros; rewrite sumn_mul_l; auto).
    rewrite sumn_swap. apply sumn_ext. intros j _. rewrite <- sumn_mul_r. apply sumn_ext. intros; ring.
  - intros (-> & Hb & <- & Hp) Hv. fold (sigma perm bs).
    rewrite <- (sumn_reindex (length perm * bs) (sigma perm bs)).
    + apply sumn_ext. intros i Hi. change (nth (i / bs) perm 0 * bs + i mod bs)%nat with (sigma perm bs i).
      change (nth (sigma perm bs i / bs) perm 0 * bs + sigma perm bs i mod bs)%nat with (sigma perm bs (sigma perm bs i)).
      rewrite (sigma_sigma perm bs i) by auto. ring.
    + intros i Hi. split; [apply sigma_bound; auto|apply sigma_sigma; auto].
Qed.

(** the derivative of the forward map with respect to the parameters, in direction dp: the
    forward map of a full connection is linear in its parameters *)
Definition op_dpar (k : ckind) (indim outdim : nat) (dp x : vec) : vec :=
  match k with
  | CFull | CFullNotSelf | CLinear => op_fwd k indim outdim dp x
  | CIdentity | CPerm _ _ => zvec
  end.
(** this is the derivative: the first-order term of an expansion without remainder *)
Theorem op_dpar_expansion k indim outdim p dp t x i :
  op_fwd k indim outdim (fun q => p q + t * dp q) x i = op_fwd k indim outdim p x i + t * op_dpar k indim outdim dp x i.
Proof.
  destruct k; cbn [op_fwd op_dpar]; unfold zvec; try ring.
  - rewrite <- sumn_mul_l, <- sumn_add. apply sumn_ext. intros; ring.
  - rewrite <- sumn_mul_l, <- sumn_add. apply sumn_ext. intros; ring.
Qed.

Definition op_paramdim (k : ckind) (indim outdim : nat) : nat :=
  match k with CFull | CFullNotSelf => (outdim * indim)%nat | CLinear => indim | _ => 0%nat end.

Definition deriv_ok (k : ckind) : Prop := match k with CLinear | CFullNotSelf => False | _ => True end.
Lemma full_der indim outdim (e x dp : vec) :
  dot (outdim * indim) (fun q => x (q mod indim) * e (q / indim)) dp = sumn outdim (fun i => sumn indim (fun j => e i * (dp (i * indim + j)%nat * x j))).
Proof.
  unfold dot. rewrite sumn_flat. apply sumn_ext. intros i Hi. apply sumn_ext. intros j Hj.
  replace (i * indim + j)%nat with (j + i * indim)%nat by lia.
  rewrite Nat.mod_add by lia. rewrite Nat.mod_small by lia. rewrite Nat.div_add by lia. rewrite Nat.div_small by lia.
  rewrite Nat.add_0_l. ring.
Qed.
Theorem op_derivative k indim outdim e x dp : square k indim outdim -> deriv_ok k ->
  dot (op_paramdim k indim outdim) (op_der k indim outdim e x) dp = dot outdim e (op_dpar k indim outdim dp x).
Proof.
  destruct k; cbn [op_der op_dpar op_paramdim deriv_ok]; intros Hs Hd; try contradiction.
  - rewrite full_der. unfold dot. apply sumn_ext. intros i _. cbn [op_fwd]. rewrite sumn_mul_l. auto.
  - unfold dot, zvec. cbn. symmetry. apply sumn_zero'. intros; ring.
  - unfold dot, zvec. cbn. symmetry. apply sumn_zero'. intros; ring.
Qed.
(** FullNotSelfConnection: the derivatives of the unused diagonal are not zero *)
Theorem fullnotself_derivative n e x dp :
  dot (n * n) (op_der CFullNotSelf n n e x) dp =
  dot n e (op_dpar CFullNotSelf n n dp x) + sumn n (fun i => e i * x i * dp (i * n + i)%nat).
Proof.
  cbn [op_der op_dpar]. rewrite full_der. unfold dot. rewrite <- sumn_add. apply sumn_ext. intros i Hi. cbn [op_fwd].
  assert (S : sumn n (fun j => if (j =? i)%nat then e i * x i * dp (i * n + i)%nat else 0) = e i * x i * dp (i * n + i)%nat).
  { rewrite (sumn_single n i); auto; [rewrite Nat.eqb_refl; auto|].
    intros j Hj Hne. destruct (Nat.eqb_spec j i); [contradiction|auto]. }
  rewrite <- S, <- sumn_mul_l, <- sumn_add.
  apply sumn_ext. intros j Hj. unfold delta. destruct (Nat.eqb_spec i j), (Nat.eqb_spec j i); subst; try congruence; ring.
Qed.
(** LinearConnection: the true derivative is e i * x i, the code leaves derivs alone *)
Theorem linear_derivative n e x dp :
  dot n e (op_dpar CLinear n n dp x) = dot n (fun i => e i * x i) dp /\ (forall i, op_der CLinear n n e x i = 0).
Proof. split; [|reflexivity]. unfold dot. apply sumn_ext. intros; cbn; ring. Qed.
(** PermutationConnection is transposed correctly only for involutions *)
Theorem permutation_transpose_only_involutions perm bs p : r1 <> r0 :> K ->
  square (CPerm perm bs) (length perm * bs) (length perm * bs) ->
  (forall e x, dot (length perm * bs) e (op_fwd (CPerm perm bs) (length perm * bs) (length perm * bs) p x) =
               dot (length perm * bs) (op_bwd (CPerm perm bs) (length perm * bs) (length perm * bs) p e) x) ->
  involution perm.
Proof.
  intros H10 (_ & Hb & _ & Hp) H k Hk. specialize (H (delta (k * bs)) (delta (sigma perm bs (k * bs)))).
  unfold dot in H. cbn [op_fwd op_bwd] in H.
  assert (Hkb : (k * bs < length perm * bs)%nat) by nia.
  rewrite (sumn_single _ (k * bs)) in H; auto.
  2:{ intros i Hi Hne. unfold delta at 1. destruct (Nat.eqb_spec (k * bs) i); [congruence|ring]. }
  rewrite (sumn_single _ (sigma perm bs (k * bs))) in H.
  - change (nth (sigma perm bs (k * bs) / bs) perm 0 * bs + sigma perm bs (k * bs) mod bs)%nat with (sigma perm bs (sigma perm bs (k * bs))) in H.
    change (nth (k * bs / bs) perm 0 * bs + (k * bs) mod bs)%nat with (sigma perm bs (k * bs)) in H.
    unfold delta in H. rewrite !Nat.eqb_refl in H. destruct (Nat.eqb_spec (k * bs) (sigma perm bs (sigma perm bs (k * bs)))) as [E|E].
    + pose proof (sigma_block perm bs k 0 Hb) as S1. pose proof (sigma_block perm bs (nth k perm 0%nat) 0 Hb) as S2. rewrite !Nat.add_0_r in *.
      rewrite S1, S2 in E. apply Nat.mul_cancel_r in E; lia.
    + exfalso. apply H10. transitivity (r1 * r1); [ring|]. rewrite H. ring.
  - apply sigma_bound; auto.
  - intros i Hi Hne. unfold delta at 2. destruct (Nat.eqb_spec (sigma perm bs (k * bs)) i); [congruence|ring].
Qed.

(** ** Slices *)
Definition collects (P : nat -> vec) (c : conn) (e : vec) (j : nat) : K :=
  if (c_inFrom c <=? j) && (j <? c_inTo c)
  then op_bwd (c_kind c) (c_indim c) (c_outdim c) (P (c_par c)) (fun i => e (c_outFrom c + i)%nat) (j - c_inFrom c)%nat
  else 0.
Definition dder (c : conn) (x e : vec) : vec :=
  op_der (c_kind c) (c_indim c) (c_outdim c) (fun i => e (c_outFrom c + i)%nat) (fun j => x (c_inFrom c + j)%nat).
Definition dpar (dP : nat -> vec) (c : conn) (x : vec) (i : nat) : K :=
  if (c_outFrom c <=? i) && (i <? c_outTo c)
  then op_dpar (c_kind c) (c_indim c) (c_outdim c) (dP (c_par c)) (fun j => x (c_inFrom c + j)%nat) (i - c_outFrom c)%nat
  else 0.
Definition paramdim (c : conn) : nat := op_paramdim (c_kind c) (c_indim c) (c_outdim c).

Lemma wf_square (L : nat -> @layer K) c : wf_conn L c -> square (c_kind c) (c_indim c) (c_outdim c).
Proof. intros (_ & _ & _ & _ & H). destruct (c_kind c); cbn in *; intuition. Qed.

Lemma slice_dot n a b (e g : vec) : (a <= b <= n)%nat ->
  sumn n (fun i => e i * (if (a <=? i)%nat && (i <? b)%nat then g (i - a)%nat else 0)) = sumn (b - a) (fun i => e (a + i)%nat * g i).
Proof.
  intro H. rewrite <- (sumn_slice n a b (fun i => e (a + i)%nat * g i)) by auto. apply sumn_ext. intros i Hi.
  destruct (Nat.leb_spec a i); cbn [andb]; [|ring]. destruct (Nat.ltb_spec i b); [|ring].
  replace (a + (i - a))%nat with i by lia. auto.
Qed.
Lemma slice_dot' n a b (e g : vec) : (a <= b <= n)%nat ->
  sumn n (fun i => (if (a <=? i)%nat && (i <? b)%nat then g (i - a)%nat else 0) * e i) = sumn (b - a) (fun i => g i * e (a + i)%nat).
Proof.
  intro H. rewrite (sumn_ext _ _ (fun i => e i * (if (a <=? i)%nat && (i <? b)%nat then g (i - a)%nat else 0))) by (intros; ring).
  rewrite slice_dot by auto. apply sumn_ext. intros; ring.
Qed.
Theorem conn_transpose (L : nat -> @layer K) P c e x : wf_conn L c -> ok_kind (c_kind c) ->
  dot (l_in (L (c_out c))) e (delivers P c x) = dot (l_out (L (c_in c))) (collects P c e) x.
Proof.
  intros W Hk. pose proof (wf_square L c W) as Hs. destruct W as (H1 & H2 & H3 & H4 & _). unfold dot, delivers, collects.
  rewrite slice_dot, slice_dot' by lia. apply (op_transpose _ _ _ _ _ _ Hs Hk).
Qed.
Theorem conn_derivative (L : nat -> @layer K) dP c e x : wf_conn L c -> deriv_ok (c_kind c) ->
  dot (l_in (L (c_out c))) e (dpar dP c x) = dot (paramdim c) (dder c x e) (dP (c_par c)).
Proof.
  intros W Hk. pose proof (wf_square L c W) as Hs. destruct W as (H1 & H2 & H3 & H4 & _). unfold dot, dpar.
  rewrite slice_dot by lia. symmetry. apply (op_derivative _ _ _ _ _ _ Hs Hk).
Qed.
End Adjoint.
