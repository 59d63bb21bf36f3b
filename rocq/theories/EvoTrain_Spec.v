(** What the schedule of the Evolino trainer should be, said without the trainer's counters: over the whole history of the epochs. *)
From Verif Require Import Base.
From Coq Require Import QArith.
Local Open Scope nat_scope.

(** an epoch: whether it began with a burst mutation, and the best fitness of its evaluation (None: -Infinity) *)
Definition epoch : Type := bool * option Q.
(** [above f g]: the fitness f is more than g *)
Definition above (f g : option Q) : Prop :=
  match f, g with None, _ => False | Some _, None => True | Some x, Some y => (y < x)%Q end.
(** the latest epoch is the first of the list: a record is more than everything before it *)
Definition is_record (f : option Q) (before : list epoch) : Prop := above f None /\ Forall (fun e => above f (snd e)) before.
(** the last n epochs are there, and none of them was a record or began with a burst *)
Inductive quiet : nat -> list epoch -> Prop :=
| quiet_0 : forall h, quiet 0 h
| quiet_S : forall n f h, ~ is_record f h -> quiet n h -> quiet (S n) ((false, f) :: h).
(** a burst is due when the wait is over: [wait] quiet epochs in a row *)
Definition due (wait : option nat) (h : list epoch) : Prop := match wait with None => False | Some n => quiet n h end.

Section Course.
Context {P D : Type} (evaluation : D -> P -> P * option Q) (selection reproduction burst : P -> P) (d : D) (p0 : P) (wait : option nat).
(** the courses of training that follow the schedule *)
Inductive course : list epoch -> P -> Prop :=
| course_start : course [] p0
| course_plain : forall h p, course h p -> ~ due wait h ->
    course ((false, snd (evaluation d p)) :: h) (reproduction (selection (fst (evaluation d p))))
| course_burst : forall h p, course h p -> due wait h ->
    course ((true, snd (evaluation d (burst p))) :: h) (reproduction (selection (fst (evaluation d (burst p))))).
End Course.
(** the greatest fitness of the history *)
Definition greatest (f : option Q) (h : list epoch) : Prop :=
  (f = None \/ In f (map snd h)) /\ Forall (fun e => ~ above (snd e) f) h.
