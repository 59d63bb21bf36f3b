(** What a user of the coevolution optimizers relies on, stated without their dictionaries. *)
From Coq Require Import QArith Permutation Sorting.Sorted.
From Verif Require Import Base.

(** a game: who starts, against whom, with what score *)
Definition game : Type := nat * nat * Q.
(** the scores of p starting against q *)
Definition scores (L : list game) (p q : nat) : list Q :=
  map snd (filter (fun g => Nat.eqb (fst (fst g)) p && Nat.eqb (snd (fst g)) q) L).
(** whom p started against *)
Definition started (L : list game) (p : nat) : list nat := map (fun g => snd (fst g)) (filter (fun g => Nat.eqb (fst (fst g)) p) L).
Definition qsum (l : list Q) : Q := fold_left Qplus l 0%Q.
Definition wins (l : list Q) : nat := length (filter (fun q => negb (Qle_bool q 0)) l).
(** games come in rounds: one each way, between different players *)
Inductive rounds : list game -> Prop :=
| rounds_nil : rounds []
| rounds_add L p q a b : rounds L -> p <> q -> rounds (L ++ [(p, q, a); (q, p, b)]).
(** every score is what the evaluator gave at that time *)
Definition genuine (ev : nat -> nat -> nat -> Q) (L : list game) : Prop :=
  forall i p q r, nth_error L i = Some (p, q, r) -> r = ev i p q.
(** the two met *)
Definition met (L : list game) (p q : nat) : Prop := exists r, In (p, q, r) L.
(** the empirical score of h against p: the mean over the games of both directions, from the point of view of h *)
Definition meanScore (L : list game) (h p : nat) : Q :=
  ((qsum (scores L h p) - qsum (scores L p h)) / inject_Z (Z.of_nat (length (scores L h p) + length (scores L p h))))%Q.

(** n of the list (all of it if there are not so many), in any order *)
Definition drawn (l : list nat) (n : nat) (os : list nat) : Prop :=
  length os = Nat.min n (length l) /\ exists rest, Permutation l (os ++ rest).
(** a tournament: everybody of the first population meets that many of the second, never themselves *)
Inductive schedule (pop2 : list nat) (n : nat) : list nat -> list (nat * nat) -> Prop :=
| schedule_nil : schedule pop2 n [] []
| schedule_cons p t os rs : drawn (filter (fun q => negb (Nat.eqb p q)) pop2) n os -> schedule pop2 n t rs -> schedule pop2 n (p :: t) (map (pair p) os ++ rs).

(** a best element comes first, repeatedly: the number of players of rel that are beaten, then the score, decides *)
Definition dominates (k1 k2 : nat * Q) : Prop := fst k2 < fst k1 \/ fst k1 = fst k2 /\ (snd k2 <= snd k1)%Q.
Inductive greedy (B : nat -> nat -> Prop) (score : nat -> Q) : nat -> list nat -> list nat -> list nat -> Prop :=
| greedy_nil from rel : greedy B score 0 from rel []
| greedy_cons n from rel best before after beatenBy rel' res :
    from = before ++ best :: after ->
    (forall p, In p from -> NoDup (beatenBy p) /\ forall q, In q (beatenBy p) <-> In q rel /\ B p q) ->
    (forall p, In p from -> dominates (length (beatenBy best), score best) (length (beatenBy p), score p)) ->
    NoDup rel' -> (forall q, In q rel' <-> In q rel /\ ~ B best q) ->
    greedy B score n (before ++ after) rel' res ->
    greedy B score (S n) from rel (best :: res).

Definition descending (l : list Q) : Prop := StronglySorted (fun a b => (b <= a)%Q) l.

(** ** fitness *)
Definition winsb (L : list game) (h p : nat) : bool := negb (Qle_bool (meanScore L h p) 0).
Definition undecided (L : list game) (h p : nat) : bool := Qeq_bool (meanScore L h p) 0.
(** the total of the mean scores against some opponents *)
Definition relativeSum (L : list game) (opps : list nat) (p : nat) : Q := qsum (map (meanScore L p) opps).
(** how many hosts beat parasite p; every beaten parasite is worth 1, shared between those who beat it *)
Definition beatenByHosts (L : list game) (hosts : list nat) (p : nat) : nat := length (filter (fun h => winsb L h p) hosts).
Definition shareOf (L : list game) (hosts parasites : list nat) (h : nat) : Q :=
  qsum (map (fun p => if winsb L h p then 1 / inject_Z (Z.of_nat (beatenByHosts L hosts p)) else 0)%Q parasites).
(** the score used to break ties: the opponents are counted once for every time they were met *)
Definition weightedScore (L : list game) (p : nat) : Q :=
  (qsum (map (fun o => qsum (scores L p o) - qsum (scores L o p)) (started L p))
   / (inject_Z (Z.of_nat (list_sum (map (fun o => (length (scores L p o) + length (scores L o p))%nat) (started L p)))) + (1 # 100)))%Q.
(** shared fitness per decided pairing, plus a tie breaker *)
Definition sharedFit (L : list game) (hosts parasites : list nat) (h : nat) : Q :=
  match parasites with
  | [] => 0
  | _ => shareOf L hosts parasites h / inject_Z (Z.of_nat (length (filter (fun p => negb (undecided L h p)) parasites)))
         + (1 # 100000) * weightedScore L h
  end%Q.

(** ** reproduction; memories are lists of what an individual encodes and its parent *)
Section Reproduction.
Context {P : Type} (mutate : P -> nat -> P) (average : Q -> P -> P -> P).
(** a mutated copy of one of the seeds *)
Definition childOf (m : list (P * option nat)) (seeds : list nat) (x : P) (parent : nat) : Prop :=
  In parent seeds /\ exists y par k, nth_error m parent = Some (y, par) /\ x = mutate y k.
(** the best n: the chosen are ordered by decreasing fitness, and nobody left out is fitter than somebody chosen *)
Definition bestOf (n : nat) (fitted : list (Q * nat)) (selected : list nat) : Prop :=
  exists chosen rest, Permutation fitted (chosen ++ rest) /\ map snd chosen = selected /\ length chosen = Nat.min n (length fitted)
  /\ descending (map fst chosen) /\ (forall a b, In a chosen -> In b rest -> (fst b <= fst a)%Q).
End Reproduction.
