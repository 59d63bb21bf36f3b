(** Property theorems about SequentialDataSet: C07, C08. *)
From Verif Require Import Base Dataset_Model Dataset_Spec Dataset_Proofs2
  Sequential_Model Sequential_Spec Sequential_Proofs2.

(** ** C07 *)

(** Whatever newSequence / addSample / removeSequence / gotoSequence / clear /
    getSample calls were made before, every answer is that of a list of sequences
    of samples (the machine [aqrun] of Sequential_Spec.v, started with one empty
    sequence). *)
Theorem C07_sequential_is_list_of_sequences :
  forall V (vzero : V) sch (os : list (qop V)),
  sch <> [] /\ NoDup (map fst sch) /\ ~ In ""%string (map fst sch) ->
  Forall (qclean sch) os ->
  snd (qrun vzero (init (fst (run vzero empty_ds (schema_ops sch)))) os)
  = snd (aqrun sch ([[]], 0) os).
Proof. exact @session_outputs. Qed.
Print Assumptions C07_sequential_is_list_of_sequences.

Definition sq_sch : list (string * nat) := [("input"%string, 2); ("target"%string, 1)].
Definition smp (z : Z) : list (list Z) := [[z; z + 1]; [10 * z]]%Z.
Definition sq_ops : list (qop Z) :=
  [QNew; QAdd (smp 1); QAdd (smp 2); QNew; QNew; QAdd (smp 3); QNew; QAdd (smp 4); QAdd (smp 5);
   QNum; QRemove 1; QIter; QSeqLen 1; QCurrent; QSample None; QCurrent; QRemove 1; QRemove 0; QNum; QLen].

Example C07_example :
  (sq_sch <> [] /\ NoDup (map fst sq_sch) /\ ~ In ""%string (map fst sq_sch)) /\
  Forall (qclean sq_sch) sq_ops /\
  snd (qrun 0%Z (init (fst (run 0%Z empty_ds (schema_ops sq_sch)))) sq_ops)
  = [QUnit; QUnit; QUnit; QUnit; QErr EmptySequenceError; QUnit; QUnit; QUnit; QUnit;
     QNat 3; QUnit; QSeqs [[smp 1; smp 2]; [smp 4; smp 5]]; QInt 2; QInt 1; QRows (smp 4); QInt 1;
     QUnit; QUnit; QNat 1; QNat 0].
Proof.
  split; [|split].
  - split; [discriminate|]. split.
    + repeat constructor; simpl; intuition discriminate.
    + simpl. intuition discriminate.
  - unfold sq_ops. repeat (apply Forall_cons; [simpl; try exact I; right; left; discriminate|]).
    apply Forall_nil.
  - vm_compute. reflexivity.
Qed.

(** ** C08 *)

(** After any session, for any drawn index list: the split never fails, every
    sequence goes whole and in order to exactly one side (to the left one iff its
    number was drawn), the left side has as many sequences as were drawn, and both
    sides then behave like fresh lists of those sequences.  A side that got nothing
    consists of the one empty sequence of a fresh data set. *)
Theorem C08_sequential_split : forall V (vzero : V) sch (os : list (qop V)) li,
  sch <> [] /\ NoDup (map fst sch) /\ ~ In ""%string (map fst sch) ->
  Forall (qclean sch) os ->
  let s := fst (qrun vzero (init (fst (run vzero empty_ds (schema_ops sch)))) os) in
  exists ss l r,
    iter_seqs s = Ok ss /\ splitWithProportion_seq vzero s li = Ok (l, r) /\
    iter_seqs l = Ok (or_one (choose (fun i => existsb (Nat.eqb i) li) 0 ss)) /\
    iter_seqs r = Ok (or_one (choose (fun i => negb (existsb (Nat.eqb i) li)) 0 ss)) /\
    Permutation (choose (fun i => existsb (Nat.eqb i) li) 0 ss ++
                 choose (fun i => negb (existsb (Nat.eqb i) li)) 0 ss) ss /\
    (NoDup li -> (forall i, In i li -> i < length ss) ->
     length (choose (fun i => existsb (Nat.eqb i) li) 0 ss) = length li) /\
    (forall os', Forall (qclean sch) os' ->
       snd (qrun vzero l os')
       = snd (aqrun sch (or_one (choose (fun i => existsb (Nat.eqb i) li) 0 ss), 0) os') /\
       snd (qrun vzero r os')
       = snd (aqrun sch (or_one (choose (fun i => negb (existsb (Nat.eqb i) li)) 0 ss), 0) os')).
Proof. exact @split_session. Qed.
Print Assumptions C08_sequential_split.

Definition sq_s : sds Z :=
  fst (qrun 0%Z (init (fst (run 0%Z empty_ds (schema_ops sq_sch)))) (firstn 9 sq_ops)).

Example C08_example :
  iter_seqs sq_s = Ok [[smp 1; smp 2]; [smp 3]; [smp 4; smp 5]] /\
  match splitWithProportion_seq 0%Z sq_s [2; 0] with
  | Ok (l, r) => iter_seqs l = Ok [[smp 1; smp 2]; [smp 4; smp 5]] /\ iter_seqs r = Ok [[smp 3]]
  | Err _ => False
  end.
Proof. vm_compute. repeat split. Qed.
