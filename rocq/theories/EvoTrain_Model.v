(** Model of the Evolino trainer (supervised/trainers/evolino.py), of what it inherits (supervised/trainers/trainer.py:15-37) and of
    the split of the sequences in EvolinoEvaluation (supervised/evolino/filter.py:36-42, 54-62).

    The population, with everything random about it, is an abstract type; the four filters are functions on it, the evaluation also
    yields its max_fitness.  Fitness values are exact, [None] is -Infinity.  Of a data set there are the dimensions and the sequences of
    targets; it is true in a boolean context when it has a sample.  Numbers are rationals.  The other settings of the trainer, the
    printing, and the evaluation of a network after the split are not modelled here (the filters themselves are Evolino_Model's). *)
From Verif Require Import Base.
From Coq Require Import QArith Qround.
Local Open Scope nat_scope.

Record dataset {A : Type} := { indim : nat; outdim : nat; seqs : list (list A) }.
Arguments dataset : clear implicits.
Definition truthy {A} (d : option (dataset A)) : bool := match d with None => false | Some d => negb (length (concat (seqs d)) =? 0) end.

(** -Infinity is below everything *)
Definition flt (a b : option Q) : bool :=
  match a, b with _, None => false | None, Some _ => true | Some x, Some y => negb (Qle_bool y x) end.

Section Trainer.
Context {A P : Type}.
(** what the filters do: filter.py:99-135, 153-163, 175-184, 195-206 *)
Context (evaluation : option (dataset A) -> P -> P * option Q) (selection reproduction burstMutation : P -> P).
(** evolino.py:81: [None] is the default, Infinity *)
Context (nBurst : option nat).
(** the dimensions of the network *)
Context (netin netout : nat).

Record trainer := { ds : option (dataset A); evds : option (dataset A); population : P; evmax : option Q;
                    totalepochs : nat; max_fitness : option Q; max_epoch : nat }.

(** trainer.py:18-23: the association is made before the dimensions are checked *)
Definition setData (d : option (dataset A)) (t : trainer) : trainer * result unit :=
  ({| ds := d; evds := evds t; population := population t; evmax := evmax t; totalepochs := totalepochs t;
      max_fitness := max_fitness t; max_epoch := max_epoch t |},
   match d with
   | Some x => if truthy d then if (indim x =? netin) && (outdim x =? netout) then Ok tt else Err AssertionError else Ok tt
   | None => Ok tt
   end).
(** evolino.py:113-114 *)
Definition setDataset (d : option (dataset A)) (t : trainer) : trainer :=
  {| ds := ds t; evds := d; population := population t; evmax := evmax t; totalepochs := totalepochs t;
     max_fitness := max_fitness t; max_epoch := max_epoch t |}.
(** evolino.py:116-118 *)
Definition trainOnDataset (d : option (dataset A)) (t : trainer) : trainer * result unit := (t, Err NotImplementedError).

(** evolino.py:57-60, 91, 95-111 *)
Definition new (d : option (dataset A)) (p : P) : result trainer :=
  let t0 := {| ds := None; evds := d; population := p; evmax := None; totalepochs := 0; max_fitness := None; max_epoch := 0 |} in
  let '(t, r) := setData d t0 in
  let! _ := r in Ok t.

(** evolino.py:120-138 *)
Definition train (t : trainer) : trainer :=
  let total := S (totalepochs t) in
  let due := match nBurst with None => false | Some b => b <=? total - max_epoch t end in
  let p1 := if due then burstMutation (population t) else population t in
  let me := if due then total else max_epoch t in
  let '(p2, f) := evaluation (evds t) p1 in
  let p3 := reproduction (selection p2) in
  if flt (max_fitness t) f
  then {| ds := ds t; evds := evds t; population := p3; evmax := f; totalepochs := total; max_fitness := f; max_epoch := total |}
  else {| ds := ds t; evds := evds t; population := p3; evmax := f; totalepochs := total; max_fitness := max_fitness t; max_epoch := me |}.
(** trainer.py:32-37 *)
Fixpoint trainEpochs (n : nat) (t : trainer) : trainer := match n with 0 => t | S k => trainEpochs k (train t) end.
End Trainer.

(** ** The split into washout and training *)
(** the kinds of values wtRatio has: a number, an array, a tuple *)
Inductive ratio := Number (q : Q) | Array (l : list Q) | Tuple (l : list Q).
(** filter.py:38: the default of the evaluation; evolino.py:78: that of the trainer, which is not passed on (evolino.py:91) *)
Definition evaluation_ratio (given : option ratio) : ratio := match given with Some w => w | None => Array [1%Q; 2%Q] end.
Definition trainer_ratio (given : option ratio) : ratio := match given with Some w => w | None => Tuple [1%Q; 3%Q] end.
(** int() of a number goes towards zero *)
Definition truncate (q : Q) : Z := if Qle_bool 0 q then Qfloor q else Qceiling q.
(** filter.py:60: an array of one element is taken for a number by int(); a tuple times an integer is a longer tuple *)
Definition training_start (w : ratio) (n : nat) : result Z :=
  match w with
  | Number q => Ok (truncate (q * inject_Z (Z.of_nat n)))
  | Array [q] => Ok (truncate (q * inject_Z (Z.of_nat n)))
  | Array _ => Err TypeError
  | Tuple _ => Err TypeError
  end.
(** the position that an index of a slice means *)
Definition position (z : Z) (n : nat) : nat := if (z <? 0)%Z then Z.to_nat (Z.max 0 (Z.of_nat n + z)) else Nat.min (Z.to_nat z) n.
(** filter.py:54-62 *)
Fixpoint split {A} (w : ratio) (ss : list (list A)) : result (list (list A) * list (list A)) :=
  match ss with
  | [] => Ok ([], [])
  | s :: t =>
      let! z := training_start w (length s) in
      let! r := split w t in
      let k := position z (length s) in
      Ok (firstn k s :: fst r, skipn k s :: snd r)
  end.
