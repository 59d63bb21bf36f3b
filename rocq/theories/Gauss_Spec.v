(** What block matrices, inverses and Gaussian processes are meant to be. *)
From Coq Require Import Reals.
From Verif Require Import Base Gauss_Model.
Local Open Scope R_scope.

Definition delta (i j : nat) : R := if (i =? j)%nat then 1 else 0.
(** A B = 1 and B A = 1 for arrays of n rows and n columns *)
Definition inverse_of (n : nat) (A B : nat -> nat -> R) : Prop :=
  forall i j, (i < n)%nat -> (j < n)%nat -> rsig n (fun k => A i k * B k j) = delta i j /\ rsig n (fun k => B i k * A k j) = delta i j.
Definition symmetric (n : nat) (A : nat -> nat -> R) : Prop := forall i j, (i < n)%nat -> (j < n)%nat -> A i j = A j i.
Definition quad (n : nat) (A : nat -> nat -> R) (x : nat -> R) : R := rsig n (fun i => rsig n (fun j => x i * A i j * x j)).
Definition semidefinite (n : nat) (A : nat -> nat -> R) : Prop := forall x, 0 <= quad n A x.
Definition definite (n : nat) (A : nat -> nat -> R) : Prop := forall x, (exists i, (i < n)%nat /\ x i <> 0) -> 0 < quad n A x.

(** the heights and widths of a grid of blocks fit *)
Definition fits (hs ws : list nat) (l : list (list arr)) : Prop :=
  Forall2 (fun h row => Forall2 (fun w m => nr m = h /\ nc m = w) ws row) hs l.
(** where block k starts *)
Definition start (ds : list nat) (k : nat) : nat := list_sum (firstn k ds).

(** a solver of linear equations, and an inverse, for n equations: right whenever the equations have one solution *)
Definition regular (n : nat) (K : nat -> nat -> R) : Prop := forall x, (forall i, (i < n)%nat -> rsig n (fun j => K i j * x j) = 0) -> forall i, (i < n)%nat -> x i = 0.
Definition solves_all (n : nat) (solve : nat -> (nat -> nat -> R) -> (nat -> R) -> nat -> R) : Prop :=
  forall K b, regular n K -> forall i, (i < n)%nat -> rsig n (fun j => K i j * solve n K b j) = b i.
Definition inverts_all (n : nat) (inv : nat -> (nat -> nat -> R) -> nat -> nat -> R) : Prop := forall K, regular n K -> inverse_of n K (inv n K).

(** every sample has its input, its target and its noise *)
Definition consistent (s : gp) : Prop :=
  length (g_trainy s) = length (g_trainx s) /\ length (g_noise s) = length (g_trainx s) /\
  Forall (fun x => length x = g_indim s) (g_trainx s) /\ Forall (fun z => 0 < z) (g_noise s) /\ length (g_pred s) = length (g_testx s).
(** what users do with a process *)
Inductive op := Train (xs : list point) (ys : list R) | AddSet (xs : list point) (ys : list R) | AddOne (x : point) (y : R) | Reset | SetMean (m : R) | SetHyper (h : R * R) | SetAuto (b : bool) | Draw.
(** the radial basis function *)
Definition rbf (h : R * R) (a b : point) : R := snd h ^ 2 * exp (- rsig (length a) (fun k => (at_r a k - at_r b k) ^ 2) / (2 * fst h ^ 2)).
(** the data sets have one target for every input *)
Definition good_op (indim : nat) (o : op) : Prop :=
  match o with Train xs ys | AddSet xs ys => length ys = length xs /\ Forall (fun x => length x = indim) xs | _ => True end.
Definition is_set (o : op) : Prop := match o with SetMean _ | SetHyper _ | SetAuto _ => True | _ => False end.
Section Run.
Context (solve : nat -> (nat -> nat -> R) -> (nat -> R) -> nat -> R) (inv : nat -> (nat -> nat -> R) -> nat -> nat -> R).
Definition step (s : gp) (o : op) : result gp :=
  match o with
  | Train xs ys => trainOnDataset s (g_indim s) 1 xs ys
  | AddSet xs ys => addDataset s (g_indim s) 1 xs ys
  | AddOne x y => addSample s x y
  | Reset => Ok (reset s)
  | SetMean m => Ok (setMean s m)
  | SetHyper h => Ok (setHyper s h)
  | SetAuto b => Ok (setAuto s b)
  | Draw => let! r := draw solve inv s in Ok (fst r)
  end.
Definition run (ops : list op) (s : gp) : result gp := foldR step ops s.
(** the samples a history leaves *)
Fixpoint samples (acc : list (point * R)) (ops : list op) : list (point * R) :=
  match ops with
  | [] => acc
  | Train xs ys :: t => samples (combine xs ys) t
  | AddSet xs ys :: t => samples (acc ++ combine xs ys) t
  | AddOne x y :: t => samples (acc ++ [(x, y)]) t
  | Reset :: t => samples [] t
  | _ :: t => samples acc t
  end.
(** the mean and the covariance are those of the present samples *)
Definition fresh (s : gp) : Prop :=
  g_calculated s = true -> g_trainx s <> [] -> exists s', calculate solve inv s = Ok s' /\ g_pred s = g_pred s' /\ g_cov s = g_cov s'.
End Run.
