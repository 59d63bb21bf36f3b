(** An abstract commutative ring (the numbers of the numeric parts of the model) and
    finite sums. *)
From Coq Require Export Ring_theory.
From Coq Require Import Ring Permutation.
From Verif Require Import Base.

Class RingOps (K : Type) := {
  r0 : K; r1 : K; radd : K -> K -> K; rmul : K -> K -> K; rsub : K -> K -> K; ropp : K -> K }.
Class RingLaws (K : Type) {Ops : RingOps K} := rlaws : ring_theory r0 r1 radd rmul rsub ropp (@eq K).

Declare Scope r_scope.
Delimit Scope r_scope with K.
Notation "0" := r0 : r_scope.
Notation "1" := r1 : r_scope.
Infix "+" := radd : r_scope.
Infix "*" := rmul : r_scope.
Infix "-" := rsub : r_scope.
Notation "- x" := (ropp x) : r_scope.

Section Sums.
Context {K : Type} {Ops : RingOps K}.
Local Open Scope r_scope.
(** sum over the first n indices *)
Fixpoint sumn (n : nat) (f : nat -> K) : K :=
  match n with O => 0 | S m => sumn m f + f m end.
(** sum over a list *)
Fixpoint suml {A} (l : list A) (f : A -> K) : K :=
  match l with [] => 0 | a :: t => f a + suml t f end.
Context {L : RingLaws K}.
Add Ring Kring : (@rlaws K Ops L).

Lemma sumn_ext n f g : (forall i, (i < n)%nat -> f i = g i) -> sumn n f = sumn n g.
Proof. induction n as [|n IH]; intro H; cbn; auto. rewrite IH by (intros; apply H; lia). rewrite (H n) by lia. reflexivity. Qed.
Lemma sumn_zero n : sumn n (fun _ => 0) = 0.
Proof. induction n as [|n IH]; cbn; auto. rewrite IH. ring. Qed.
Lemma sumn_zero' n f : (forall i, (i < n)%nat -> f i = 0) -> sumn n f = 0.
Proof. intro H. rewrite <- (sumn_zero n). apply sumn_ext; auto. Qed.
Lemma sumn_add n f g : sumn n (fun i => f i + g i) = sumn n f + sumn n g.
Proof. induction n as [|n IH]; cbn; [ring|]. rewrite IH. ring. Qed.
Lemma sumn_sub n f g : sumn n (fun i => f i - g i) = sumn n f - sumn n g.
Proof. induction n as [|n IH]; cbn; [ring|]. rewrite IH. ring. Qed.
Lemma sumn_mul_l n c f : sumn n (fun i => c * f i) = c * sumn n f.
Proof. induction n as [|n IH]; cbn; [ring|]. rewrite IH. ring. Qed.
Lemma sumn_mul_r n c f : sumn n (fun i => f i * c) = sumn n f * c.
Proof. induction n as [|n IH]; cbn; [ring|]. rewrite IH. ring. Qed.
Lemma sumn_swap n m (f : nat -> nat -> K) : sumn n (fun i => sumn m (fun j => f i j)) = sumn m (fun j => sumn n (fun i => f i j)).
Proof.
  induction n as [|n IH]; cbn.
  - symmetry. apply sumn_zero.
  - rewrite IH. symmetry. apply sumn_add.
Qed.
Lemma sumn_app n m f : sumn (n + m) f = sumn n f + sumn m (fun i => f (n + i)%nat).
Proof.
  induction m as [|m IH]; cbn.
  - rewrite Nat.add_0_r. ring.
  - rewrite Nat.add_succ_r. cbn. rewrite IH. ring.
Qed.
(** a sum over a slice *)
Lemma sumn_slice n a b f : (a <= b <= n)%nat ->
  sumn n (fun i => if (a <=? i)%nat && (i <? b)%nat then f (i - a)%nat else 0) = sumn (b - a) f.
Proof.
  intro H. replace n with (a + ((b - a) + (n - b)))%nat by lia. rewrite !sumn_app.
  rewrite (sumn_zero' a).
  2:{ intros i Hi. replace (a <=? i)%nat with false by (symmetry; apply Nat.leb_gt; lia). reflexivity. }
  rewrite (sumn_zero' (n - b)).
  2:{ intros i Hi. replace (a + (b - a + i) <? b)%nat with false by (symmetry; apply Nat.ltb_ge; lia).
      rewrite Bool.andb_false_r. reflexivity. }
  rewrite (sumn_ext (b - a) _ f); [ring|].
  intros i Hi. replace (a <=? a + i)%nat with true by (symmetry; apply Nat.leb_le; lia).
  replace (a + i <? b)%nat with true by (symmetry; apply Nat.ltb_lt; lia). cbn. f_equal. lia.
Qed.
(** a sum over the entries of a flattened n * m table *)
Lemma sumn_flat n m f : sumn (n * m) f = sumn n (fun i => sumn m (fun j => f (i * m + j)%nat)).
Proof.
  induction n as [|n IH]; cbn [sumn]; auto. rewrite <- IH.
  replace (S n * m)%nat with (n * m + m)%nat by lia. apply sumn_app.
Qed.
Lemma sumn_single n k f : (k < n)%nat -> (forall i, (i < n)%nat -> i <> k -> f i = 0) -> sumn n f = f k.
Proof.
  induction n as [|n IH]; intros Hk H; [lia|]. cbn. destruct (Nat.eq_dec k n) as [->|Hne].
  - rewrite sumn_zero'; [ring|]. intros i Hi. apply H; lia.
  - rewrite IH by (try lia; intros; apply H; lia). rewrite (H n) by lia. ring.
Qed.

Lemma suml_app {A} (l m : list A) f : suml (l ++ m) f = suml l f + suml m f.
Proof. induction l as [|a l IH]; cbn; [ring|]. rewrite IH. ring. Qed.
Lemma suml_ext {A} (l : list A) f g : (forall a, In a l -> f a = g a) -> suml l f = suml l g.
Proof. induction l as [|a l IH]; intro H; cbn; auto. rewrite H by (left; auto). rewrite IH; auto. intros; apply H; right; auto. Qed.
Lemma suml_zero {A} (l : list A) f : (forall a, In a l -> f a = 0) -> suml l f = 0.
Proof. induction l as [|a l IH]; intro H; cbn; auto. rewrite H by (left; auto). rewrite IH; [ring|]. intros; apply H; right; auto. Qed.
Lemma suml_add {A} (l : list A) f g : suml l (fun a => f a + g a) = suml l f + suml l g.
Proof. induction l as [|a l IH]; cbn; [ring|]. rewrite IH. ring. Qed.
Lemma suml_sub {A} (l : list A) f g : suml l (fun a => f a - g a) = suml l f - suml l g.
Proof. induction l as [|a l IH]; cbn; [ring|]. rewrite IH. ring. Qed.
Lemma suml_mul_l {A} (l : list A) c f : suml l (fun a => c * f a) = c * suml l f.
Proof. induction l as [|a l IH]; cbn; [ring|]. rewrite IH. ring. Qed.
Lemma suml_mul_r {A} (l : list A) c f : suml l (fun a => f a * c) = suml l f * c.
Proof. induction l as [|a l IH]; cbn; [ring|]. rewrite IH. ring. Qed.
Lemma suml_map {A B} (h : A -> B) (l : list A) f : suml (map h l) f = suml l (fun a => f (h a)).
Proof. induction l as [|a l IH]; cbn; auto. rewrite IH. reflexivity. Qed.
Lemma suml_flat_map {A B} (h : A -> list B) (l : list A) f : suml (flat_map h l) f = suml l (fun a => suml (h a) f).
Proof. induction l as [|a l IH]; cbn; auto. rewrite suml_app, IH. reflexivity. Qed.
Lemma suml_swap {A B} (l : list A) (m : list B) (f : A -> B -> K) :
  suml l (fun a => suml m (f a)) = suml m (fun b => suml l (fun a => f a b)).
Proof.
  induction l as [|a l IH]; cbn.
  - symmetry. apply suml_zero. auto.
  - rewrite IH. symmetry. apply suml_add.
Qed.
Lemma suml_sumn_swap {A} (l : list A) n (f : A -> nat -> K) :
  suml l (fun a => sumn n (f a)) = sumn n (fun i => suml l (fun a => f a i)).
Proof.
  induction l as [|a l IH]; cbn.
  - symmetry. apply sumn_zero.
  - rewrite IH. symmetry. apply sumn_add.
Qed.
Lemma suml_perm {A} (l m : list A) f : Permutation l m -> suml l f = suml m f.
Proof. induction 1; cbn; try ring; try congruence. Qed.
(** sum restricted to one key *)
Lemma suml_single {A} (dec : forall x y : A, {x = y} + {x <> y}) (l : list A) x f :
  NoDup l -> In x l -> (forall a, In a l -> a <> x -> f a = 0) -> suml l f = f x.
Proof.
  induction l as [|a l IH]; intros Hn Hin H; [destruct Hin|]. inversion Hn; subst. cbn.
  destruct (dec a x) as [->|Hne].
  - rewrite suml_zero; [ring|]. intros b Hb. apply H; [right; auto|]. intros ->. contradiction.
  - destruct Hin as [|Hin]; [contradiction|]. rewrite IH; auto; [|intros; apply H; auto; right; auto].
    rewrite H; auto; [ring|left; auto].
Qed.
End Sums.
