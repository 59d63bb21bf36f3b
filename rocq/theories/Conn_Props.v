(** C20: what a connection sends back is the transpose of what it sends forward. *)
From Coq Require Import Ring ZArith.
From Verif Require Import Base RingOps Net_Model Net_Spec Conn_Adjoint Net_Forward Net_Forget Net_Props.

Section C20.
Context {K : Type} {Ops : RingOps K} {Lw : RingLaws K}.
Add Ring Kring9 : (@rlaws K Ops Lw).
Notation vec := (@vec K).
Local Open Scope r_scope.

(** what Connection.forward added to the target's input buffer at position i *)
Definition sent (P : nat -> vec) (c : conn) (io oo : nat) (b : bufs) (i : nat) : K :=
  b_in (conn_forward P c io oo b (c_out c) oo) i - b_in (b (c_out c) oo) i.
(** what Connection.backward added to the source's output error at position j *)
Definition sent_back (P : nat -> vec) (c : conn) (io oo : nat) (s : bufs * derivs) (j : nat) : K :=
  b_oute (fst (conn_backward P c io oo s) (c_in c) io) j - b_oute (fst s (c_in c) io) j.
(** what Connection.backward added to derivative q of its parameters *)
Definition added (P : nat -> vec) (c : conn) (io oo : nat) (s : bufs * derivs) (q : nat) : K :=
  snd (conn_backward P c io oo s) (c_par c) q - snd s (c_par c) q.

Lemma sent_delivers P c io oo b i : sent P c io oo b i = delivers P c (b_out (b (c_in c) io)) i.
Proof.
  unfold sent, conn_forward, bset. rewrite !Nat.eqb_refl. cbn [andb b_in]. unfold badd, delivers, bslice.
  match goal with |- ?a + ?b - ?a = _ => transitivity b; [ring|] end. reflexivity.
Qed.
Lemma sent_back_collects P c io oo s j : sent_back P c io oo s j = collects P c (b_ine (fst s (c_out c) oo)) j.
Proof.
  destruct s as [b d]. unfold sent_back, conn_backward, bset. cbn [fst snd]. rewrite !Nat.eqb_refl. cbn [andb b_oute]. unfold badd, collects, bslice.
  match goal with |- ?a + ?b - ?a = _ => transitivity b; [ring|] end. reflexivity.
Qed.
Lemma added_dder P c io oo s q : added P c io oo s q = dder c (b_out (fst s (c_in c) io)) (b_ine (fst s (c_out c) oo)) q.
Proof.
  destruct s as [b d]. unfold added, conn_backward, dadd. cbn [fst snd]. rewrite Nat.eqb_refl. unfold dder, bslice.
  match goal with |- ?a + ?b - ?a = _ => transitivity b; [ring|] end. reflexivity.
Qed.

(** The error sent back is the transpose of the forward map: for buffers whose source
    outputs are x and whose target errors are e, <e, forward x> = <backward e, x>.  This
    holds for full, shared, identity, linear and full-not-self connections between any
    slices, and for permutation connections whose permutation is its own inverse. *)
Theorem C20_backward_transposes (L : nat -> @layer K) (P : nat -> vec) (c : conn) io oo (b : bufs) (s : bufs * derivs) :
  wf_conn L c -> (forall perm bs, c_kind c = CPerm perm bs -> involution perm) ->
  sumn (l_in (L (c_out c))) (fun i => b_ine (fst s (c_out c) oo) i * sent P c io oo b i) =
  sumn (l_out (L (c_in c))) (fun j => sent_back P c io oo s j * b_out (b (c_in c) io) j).
Proof.
  intros W Hk. rewrite (sumn_ext _ _ (fun i => b_ine (fst s (c_out c) oo) i * delivers P c (b_out (b (c_in c) io)) i)) by (intros; rewrite sent_delivers; auto).
  rewrite (sumn_ext (l_out (L (c_in c))) _ (fun j => collects P c (b_ine (fst s (c_out c) oo)) j * b_out (b (c_in c) io) j)) by (intros; rewrite sent_back_collects; auto).
  apply (conn_transpose L); auto. unfold ok_kind. destruct (c_kind c); auto. eapply Hk; eauto.
Qed.

(** The derivatives added are those of <e, forward> with respect to the parameters: the
    forward map is affine in the parameters, and changing them by dp changes <e, forward x>
    by exactly <derivatives, dp>.  Full, shared, identity and permutation connections. *)
Theorem C20_derivatives (L : nat -> @layer K) (P : nat -> vec) (dP : nat -> vec) (c : conn) io oo (s : bufs * derivs) :
  wf_conn L c -> c_kind c <> CLinear -> c_kind c <> CFullNotSelf ->
  sumn (l_in (L (c_out c))) (fun i => b_ine (fst s (c_out c) oo) i *
      (sent (fun k q => P k q + dP k q) c io oo (fst s) i - sent P c io oo (fst s) i)) =
  sumn (match c_kind c with CFull => (c_outdim c * c_indim c)%nat | _ => 0%nat end) (fun q => added P c io oo s q * dP (c_par c) q).
Proof.
  intros W H1 H2. set (e := b_ine (fst s (c_out c) oo)). set (x := b_out (fst s (c_in c) io)).
  transitivity (dot (l_in (L (c_out c))) e (dpar dP c x)).
  - apply sumn_ext. intros i Hi. f_equal. rewrite !sent_delivers. fold x. unfold delivers, dpar.
    destruct (_ && _); [|ring].
    pose proof (op_dpar_expansion (c_kind c) (c_indim c) (c_outdim c) (P (c_par c)) (dP (c_par c)) 1 (fun j => x (c_inFrom c + j)%nat) (i - c_outFrom c)) as E.
    assert (E' : forall k, op_fwd k (c_indim c) (c_outdim c) (fun q => P (c_par c) q + 1 * dP (c_par c) q) (fun j => x (c_inFrom c + j)%nat) (i - c_outFrom c)%nat =
       op_fwd k (c_indim c) (c_outdim c) (fun q => P (c_par c) q + dP (c_par c) q) (fun j => x (c_inFrom c + j)%nat) (i - c_outFrom c)%nat).
    { intros []; cbn; auto; try (apply sumn_ext; intros); ring. }
    rewrite <- E', E. ring.
  - rewrite (conn_derivative L) by (auto; unfold deriv_ok; destruct (c_kind c); auto).
    unfold dot, paramdim, op_paramdim. destruct (c_kind c) eqn:Ek; try contradiction; try reflexivity.
    apply sumn_ext. intros q Hq. rewrite added_dder. reflexivity.
Qed.

(** PermutationConnection sends back along the same permutation, so it is transposed only
    when the permutation is an involution. *)
Theorem C20_permutation_iff perm bs (p : vec) : r1 <> r0 :> K -> (0 < bs)%nat -> Permutation perm (seq 0 (length perm)) ->
  let n := (length perm * bs)%nat in
  (forall e x, sumn n (fun i => e i * op_fwd (CPerm perm bs) n n p x i) = sumn n (fun j => op_bwd (CPerm perm bs) n n p e j * x j)) <->
  (forall k, (k < length perm)%nat -> nth (nth k perm 0%nat) perm 0%nat = k).
Proof.
  intros Hr Hb Hp n. split.
  - intro H. apply (permutation_transpose_only_involutions perm bs p Hr); [cbn; auto|exact H].
  - intros Hi e x. apply (op_transpose (CPerm perm bs) n n p x e); cbn; auto.
Qed.
(** FullNotSelfConnection: the derivatives of the unused diagonal weights are not zero. *)
Theorem C20_fullnotself_diagonal n (e x : vec) (dp : vec) :
  sumn (n * n)%nat (fun q => op_der CFullNotSelf n n e x q * dp q) =
  sumn n (fun i => e i * (op_fwd CFullNotSelf n n dp x i)) + sumn n (fun i => e i * x i * dp (i * n + i)%nat).
Proof. apply (fullnotself_derivative n e x dp). Qed.
(** LinearConnection: the parameter derivatives stay zero although the output depends on
    the parameters. *)
Theorem C20_linear_no_derivatives n (e x : vec) (p dp : vec) :
  sumn n (fun i => e i * (op_fwd CLinear n n (fun q => p q + dp q) x i - op_fwd CLinear n n p x i)) = sumn n (fun q => e q * x q * dp q) /\
  forall q, op_der CLinear n n e x q = 0.
Proof. split; [|reflexivity]. apply sumn_ext. intros; cbn; ring. Qed.
End C20.
Print Assumptions C20_backward_transposes.
Print Assumptions C20_derivatives.
Print Assumptions C20_permutation_iff.
Print Assumptions C20_fullnotself_diagonal.
Print Assumptions C20_linear_no_derivatives.

Open Scope Z_scope.
Definition zv (l : list Z) : @vec Z := fun i => nth i l 0.
(** a full connection between slices of modules 0 (3 units) and 1 (2 units): both sides *)
Example C20_example :
  let c := mkconn 0 1 1 3 0 2 CFull 0 in
  let L := (fun m => match m with 0%nat => linear_layer 3 | _ => linear_layer 2 end) : nat -> @layer Z in
  let P := (fun _ => zv [1; 2; 3; 4]) : nat -> @vec Z in
  let b := (fun m _ => match m with 0%nat => mkbuf (zv []) (zv [7; 5; -2]) (zv []) (zv [1; 1; 1]) | _ => mkbuf (zv [10; 20]) (zv []) (zv [2; -3]) (zv []) end) : @bufs Z in
  wf_conn L c /\ sumn 2 (fun i => b_ine (b 1%nat 0%nat) i * sent P c 0 0 b i) = -19 /\
  map (sent_back P c 0 0 (b, fun _ => zvec)) (seq 0 3) = [0; -7; -8] /\ map (added P c 0 0 (b, fun _ => zvec)) (seq 0 4) = [10; -4; -15; 6].
Proof. cbn zeta. split; [unfold wf_conn; cbn; lia|]. vm_compute. auto. Qed.
Example C20_permutation_refuted : exists (e x : @vec Z) perm,
  Permutation perm (seq 0 3) /\
  sumn 3 (fun i => e i * op_fwd (CPerm perm 1) 3 3 zvec x i) <> sumn 3 (fun j => op_bwd (CPerm perm 1) 3 3 zvec e j * x j).
Proof.
  exists (zv [1; 0; 0]), (zv [0; 1; 0]), [1; 2; 0]%nat. split.
  - apply (perm_trans (l' := [1; 0; 2]%nat)); [apply perm_skip, perm_swap|apply perm_swap].
  - vm_compute. discriminate.
Qed.
