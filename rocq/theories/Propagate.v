(** Propagation of values through a graph by a list of events, abstractly.  Each node has
    an accumulator and a value.  Used for the forward pass, the backward pass and the
    tangent pass. *)
From Coq Require Import Ring.
From Verif Require Import Base RingOps Net_Model.

(** a module at a time offset, or a derivative container *)
Inductive node := NB (m o : nat) | ND (k : nat).
Definition neqb (a b : node) : bool :=
  match a, b with
  | NB m o, NB m' o' => (m =? m') && (o =? o')
  | ND k, ND k' => k =? k'
  | _, _ => false
  end.
Lemma neqb_spec a b : reflect (a = b) (neqb a b).
Proof.
  destruct a as [a1 a2|k], b as [b1 b2|k']; cbn; try (constructor; congruence).
  - destruct (Nat.eqb_spec a1 b1); destruct (Nat.eqb_spec a2 b2); constructor; congruence.
  - destruct (Nat.eqb_spec k k'); constructor; congruence.
Qed.
Lemma neqb_refl a : neqb a a = true.
Proof. destruct (neqb_spec a a); congruence. Qed.
Lemma neqb_neq a b : a <> b -> neqb a b = false.
Proof. destruct (neqb_spec a b); congruence. Qed.

Section Propagate.
Context {K : Type} {Ops : RingOps K} {Lw : RingLaws K}.
Add Ring Kring2 : (@rlaws K Ops Lw).
Notation vec := (@vec K).
Variable f : node -> vec -> vec -> vec.

Inductive gev :=
| GN (n : node)
| GC (src dst : node) (g : vec -> vec)
| GL (n : node) (v : vec).
Definition gstate := node -> (vec * vec).

Definition gstep (s : gstate) (e : gev) : gstate :=
  match e with
  | GN n => fun n' => if neqb n' n then (fst (s n), f n (fst (s n)) (snd (s n))) else s n'
  | GC src dst g => fun n' => if neqb n' dst then (fun i => radd (fst (s dst) i) (g (snd (s src)) i), snd (s dst)) else s n'
  | GL n v => fun n' => if neqb n' n then (v, snd (s n)) else s n'
  end.
Definition gexec (s : gstate) (p : list gev) : gstate := fold_left gstep p s.

(** a node's value is computed once, before anything leaves it and after everything has
    arrived *)
Inductive gsched : list gev -> Prop :=
| gs_nil : gsched []
| gs_N p n : gsched p -> ~ In (GN n) p -> (forall src dst g, In (GC src dst g) p -> src <> n) -> gsched (p ++ [GN n])
| gs_C p src dst g : gsched p -> ~ In (GN dst) p -> gsched (p ++ [GC src dst g])
| gs_L p n v : gsched p -> ~ In (GN n) p -> (forall src g, ~ In (GC src n g) p) -> gsched (p ++ [GL n v]).

Fixpoint gload (p : list gev) (n : node) (d : vec) : vec :=
  match p with
  | [] => d
  | GL n' v :: t => gload t n (if neqb n' n then v else d)
  | _ :: t => gload t n d
  end.
Definition gin (n : node) (val : node -> vec) (i : nat) (e : gev) : K :=
  match e with GC src dst g => if neqb dst n then g (val src) i else r0 | _ => r0 end.
Definition hasN (p : list gev) (n : node) : bool :=
  existsb (fun e => match e with GN n' => neqb n' n | _ => false end) p.

Lemma hasN_In p n : hasN p n = true <-> In (GN n) p.
Proof.
  unfold hasN. rewrite existsb_exists. split.
  - intros (e & He & Hb). destruct e as [n'| |]; try discriminate. destruct (neqb_spec n' n); [subst; auto|discriminate].
  - intro H. exists (GN n). split; auto. apply neqb_refl.
Qed.
Lemma hasN_false p n : hasN p n = false <-> ~ In (GN n) p.
Proof. rewrite <- hasN_In. destruct (hasN p n); split; congruence. Qed.
Lemma hasN_app p q n : hasN (p ++ q) n = hasN p n || hasN q n.
Proof. apply existsb_app. Qed.
Lemma gload_app p q n d : gload (p ++ q) n d = gload q n (gload p n d).
Proof. revert d. induction p as [|e p IH]; intro d; cbn; auto. destruct e; auto. Qed.
Lemma gexec_app s p q : gexec s (p ++ q) = gexec (gexec s p) q.
Proof. apply fold_left_app. Qed.

Theorem gexec_equations s0 p : gsched p -> forall n,
  (forall i, fst (gexec s0 p n) i =
     radd (gload p n (fst (s0 n)) i) (suml p (gin n (fun m => snd (gexec s0 p m)) i))) /\
  snd (gexec s0 p n) = if hasN p n then f n (fst (gexec s0 p n)) (snd (s0 n)) else snd (s0 n).
Proof.
  induction 1 as [|p n0 Hp IH HN HC|p src dst g Hp IH HN|p n0 v Hp IH HN HC]; intro n.
  - cbn. split; auto. intro. ring.
  - rewrite gexec_app, hasN_app, gload_app. set (s := gexec s0 p) in *. cbn [gexec fold_left gstep gload hasN existsb].
    assert (E : forall i, suml (p ++ [GN n0]) (gin n (fun m => snd ((if neqb m n0 then (fst (s n0), f n0 (fst (s n0)) (snd (s n0))) else s m))) i)
                  = suml p (gin n (fun m => snd (s m)) i)).
    { intro i. rewrite suml_app. cbn [suml gin]. rewrite (suml_ext p _ (gin n (fun m => snd (s m)) i)); [ring|].
      intros e He. destruct e as [|src dst g|]; cbn [gin]; auto. destruct (neqb dst n); auto.
      rewrite neqb_neq; auto. eapply HC; eauto. }
    destruct (IH n) as [IH1 IH2]. split.
    + intro i. rewrite E. rewrite <- IH1. destruct (neqb_spec n n0) as [->|Hne]; reflexivity.
    + destruct (neqb_spec n n0) as [->|Hne].
      * rewrite neqb_refl. rewrite Bool.orb_true_r. cbn [fst snd]. f_equal. rewrite IH2.
        apply hasN_false in HN. rewrite HN. reflexivity.
      * rewrite (neqb_neq n0 n) by auto. rewrite !Bool.orb_false_r. auto.
  - rewrite gexec_app, hasN_app, gload_app. set (s := gexec s0 p) in *. cbn [gexec fold_left gstep gload hasN existsb].
    assert (Ev : forall m, snd (if neqb m dst then (fun i => radd (fst (s dst) i) (g (snd (s src)) i), snd (s dst)) else s m) = snd (s m)).
    { intro m. destruct (neqb_spec m dst) as [->|]; reflexivity. }
    rewrite !Bool.orb_false_r.
    assert (E : forall i, suml (p ++ [GC src dst g]) (gin n (fun m => snd (if neqb m dst then (fun i => radd (fst (s dst) i) (g (snd (s src)) i), snd (s dst)) else s m)) i)
                  = radd (suml p (gin n (fun m => snd (s m)) i)) (if neqb dst n then g (snd (s src)) i else r0)).
    { intro i. rewrite suml_app. cbn [suml gin]. rewrite Ev.
      rewrite (suml_ext p _ (gin n (fun m => snd (s m)) i)); [ring|].
      intros e He. destruct e; cbn [gin]; auto. rewrite Ev. reflexivity. }
    destruct (IH n) as [IH1 IH2]. split.
    + intro i. rewrite E. destruct (neqb_spec n dst) as [->|Hne].
      * rewrite neqb_refl. cbn [fst]. rewrite IH1. ring.
      * rewrite (neqb_neq dst n) by auto. rewrite IH1. ring.
    + destruct (neqb_spec n dst) as [->|Hne]; cbn [fst snd]; auto.
      rewrite IH2. apply hasN_false in HN. rewrite HN. reflexivity.
  - rewrite gexec_app, hasN_app, gload_app. set (s := gexec s0 p) in *. cbn [gexec fold_left gstep gload hasN existsb].
    assert (Ev : forall m, snd (if neqb m n0 then (v, snd (s n0)) else s m) = snd (s m)).
    { intro m. destruct (neqb_spec m n0) as [->|]; reflexivity. }
    rewrite !Bool.orb_false_r.
    assert (E : forall i, suml (p ++ [GL n0 v]) (gin n (fun m => snd (if neqb m n0 then (v, snd (s n0)) else s m)) i)
                  = suml p (gin n (fun m => snd (s m)) i)).
    { intro i. rewrite suml_app. cbn [suml gin]. 
      rewrite (suml_ext p _ (gin n (fun m => snd (s m)) i)); [ring|].
      intros e He. destruct e; cbn [gin]; auto. rewrite Ev. reflexivity. }
    destruct (IH n) as [IH1 IH2]. split.
    + intro i. rewrite E. destruct (neqb_spec n n0) as [->|Hne].
      * rewrite neqb_refl. cbn [fst]. rewrite (suml_zero p); [ring|].
        intros e He. destruct e as [|src dst g|]; cbn [gin]; auto. destruct (neqb_spec dst n0) as [->|]; auto.
        exfalso. eapply HC; eauto.
      * rewrite (neqb_neq n0 n) by auto. apply IH1.
    + destruct (neqb_spec n n0) as [->|Hne]; cbn [fst snd]; auto.
      rewrite IH2. apply hasN_false in HN. rewrite HN. reflexivity.
Qed.

Lemma gstep_ext s s' e : (forall n, s n = s' n) -> forall n, gstep s e n = gstep s' e n.
Proof. intros H n. destruct e; cbn; rewrite ?H; destruct (neqb _ _); auto; rewrite H; auto. Qed.
Lemma gexec_ext p : forall s s', (forall n, s n = s' n) -> forall n, gexec s p n = gexec s' p n.
Proof.
  induction p as [|e p IH]; intros s s' H n; cbn; auto. apply IH. apply gstep_ext; auto.
Qed.
End Propagate.
