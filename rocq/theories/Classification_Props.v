(** Property theorems about ClassificationDataSet and time windows: C09 - C11. *)
From Verif Require Import Base Dataset_Model Dataset_Spec Sequential_Model Sequential_Spec
  Classification_Model Classification_Spec Classification_Proofs Sequential_Props.

(** ** C09 *)

(** Targets in [0, n): the encoded target rows have [hi] exactly in the column of
    the class, the old targets are kept in 'class', the inputs stay, and converting
    back restores the targets. *)
Theorem C09_one_of_many : forall c ts n lo hi,
  dimension (cb c) "target" = Ok 1 ->
  getField (cb c) "target" = Ok (map (fun t => [t]) ts) ->
  getLength (cb c) = Ok (length ts) -> nClasses c = Z.of_nat n -> 0 < n ->
  Forall (fun t => 0 <= t < Z.of_nat n)%Z ts ->
  exists c1 rows c2,
    convertToOneOfMany c lo hi = (c1, Ok tt) /\
    getField (cb c1) "target" = Ok rows /\ length rows = length ts /\
    (forall i t, nth_error ts i = Some t -> exists r, nth_error rows i = Some r /\ length r = n /\
       forall j, j < n -> nth_error r j = Some (if (Z.of_nat j =? t)%Z then hi else lo)) /\
    getField (cb c1) "class" = Ok (map (fun t => [t]) ts) /\
    getField (cb c1) "input" = getField (cb c) "input" /\
    convertToClassNb c1 = Ok c2 /\
    getField (cb c2) "target" = Ok (map (fun t => [t]) ts) /\
    getField (cb c2) "input" = getField (cb c) "input" /\
    nClasses c1 = nClasses c /\ nClasses c2 = nClasses c.
Proof. exact one_of_many. Qed.
Print Assumptions C09_one_of_many.

(** A target that is no column index is refused and nothing changes. *)
Theorem C09_refused : forall c ts n lo hi,
  dimension (cb c) "target" = Ok 1 ->
  getField (cb c) "target" = Ok (map (fun t => [t]) ts) ->
  getLength (cb c) = Ok (length ts) -> nClasses c = Z.of_nat n -> 0 < n ->
  Exists (fun t => t < - Z.of_nat n \/ Z.of_nat n <= t)%Z ts ->
  convertToOneOfMany c lo hi = (c, Err IndexError).
Proof. exact one_of_many_refused. Qed.
Print Assumptions C09_refused.

Definition ex_c (nb : Z) (ts : list Z) : cds :=
  match classification_of_arrays 2 1 (map (fun t => [t; t]) ts) (map (fun t => [t]) ts) nb with
  | Ok c => c | Err _ => mkC empty_ds 0
  end.

Example C09_example : let c := ex_c 3 [0; 2; 1; 2]%Z in
  dimension (cb c) "target" = Ok 1 /\ getField (cb c) "target" = Ok [[0]; [2]; [1]; [2]]%Z /\
  getLength (cb c) = Ok 4 /\ nClasses c = 3%Z /\
  getField (cb (fst (convertToOneOfMany c (-1) 1))) "target"
  = Ok [[1; -1; -1]; [-1; -1; 1]; [-1; 1; -1]; [-1; -1; 1]]%Z /\
  convertToOneOfMany (ex_c 2 [0; 2]%Z) 0 1 = (ex_c 2 [0; 2]%Z, Err IndexError).
Proof. vm_compute. repeat split; reflexivity. Qed.

(** Not every invalid target is refused: class -1 is encoded as the last class. *)
Theorem C09_negative_target_refuted : exists c,
  getField (cb c) "target" = Ok [[-1]]%Z /\
  snd (convertToOneOfMany c 0 1) = Ok tt /\
  getField (cb (fst (convertToOneOfMany c 0 1))) "target" = Ok [[0; 0; 1]]%Z.
Proof. exists (ex_c 3 [-1]%Z). vm_compute. auto. Qed.
Print Assumptions C09_negative_target_refuted.

(** With the number of classes left to be counted (nb_classes = 0), the classes must
    be numbered without gaps: otherwise the conversion is refused. *)
Theorem C09_gap_refuted : exists c,
  getField (cb c) "target" = Ok [[0]; [2]]%Z /\ nClasses c = 0%Z /\
  snd (convertToOneOfMany c 0 1) = Err IndexError.
Proof. exists (ex_c 0 [0; 2]%Z). vm_compute. auto. Qed.
Print Assumptions C09_gap_refuted.

(** ** C10 *)

(** The two results hold, in order, the samples of class [k] and those of another
    class, as far as the class field reaches. *)
Theorem C10_split_by_class : forall c k cs inp tgt,
  links (cb c) = ["input"; "target"]%string ->
  getField (cb c) "class" = Ok (map (fun z => [z]) cs) ->
  getField (cb c) "input" = Ok inp -> getField (cb c) "target" = Ok tgt ->
  length cs <= length inp -> length inp = length tgt ->
  (forall l rows, In l ["importance"; "aux"]%string -> getField (cb c) l = Ok rows -> length cs <= length rows) ->
  exists l r, splitByClass c k = Ok (l, r) /\
    getField (cb l) "input" = Ok (of_class (fun z => z =? k)%Z cs inp) /\
    getField (cb l) "target" = Ok (of_class (fun z => z =? k)%Z cs tgt) /\
    getField (cb l) "class" = Ok (map (fun z => [z]) (of_class (fun z => z =? k)%Z cs cs)) /\
    getField (cb r) "input" = Ok (of_class (fun z => negb (z =? k))%Z cs inp) /\
    getField (cb r) "target" = Ok (of_class (fun z => negb (z =? k))%Z cs tgt) /\
    getField (cb r) "class" = Ok (map (fun z => [z]) (of_class (fun z => negb (z =? k))%Z cs cs)).
Proof. exact split_by_class. Qed.
Print Assumptions C10_split_by_class.

(** If the class field reaches over all samples nothing is lost. *)
Theorem C10_partition : forall A B (p : Z -> bool) cs (r1 : list A) (r2 : list B),
  length cs = length r1 -> length cs = length r2 ->
  Permutation (combine (of_class p cs r1) (of_class p cs r2) ++
               combine (of_class (fun z => negb (p z)) cs r1) (of_class (fun z => negb (p z)) cs r2))
              (combine r1 r2).
Proof. exact @of_class_partition. Qed.
Print Assumptions C10_partition.

(** assignClasses brings a class field that is too short up to date. *)
Theorem C10_assignClasses_repairs : forall c cl tg,
  getField (cb c) "class" = Ok cl -> getField (cb c) "target" = Ok tg ->
  dimension (cb c) "target" = Ok 1 -> length cl < length tg ->
  exists c', assignClasses c = Ok c' /\ getField (cb c') "class" = Ok tg /\
    getField (cb c') "target" = Ok tg /\ getField (cb c') "input" = getField (cb c) "input".
Proof. exact assign_repairs. Qed.
Print Assumptions C10_assignClasses_repairs.

Example C10_example :
  match splitByClass (ex_c 0 [0; 1; 0; 2]%Z) 0 with
  | Ok (l, r) => getField (cb l) "input" = Ok [[0; 0]; [0; 0]]%Z /\
                 getField (cb r) "target" = Ok [[1]; [2]]%Z /\ nClasses r = 2%Z
  | Err _ => False
  end.
Proof. vm_compute. auto. Qed.

(** Samples added after construction are in neither part. *)
Theorem C10_added_samples_lost_refuted : exists c l r,
  c = fst (addSampleC (ex_c 2 [0; 1]%Z) [[7; 8]; [1]]%Z) /\
  getLength (cb c) = Ok 3 /\ splitByClass c 1 = Ok (l, r) /\
  getLength (cb l) = Ok 1 /\ getLength (cb r) = Ok 1.
Proof.
  eexists _, _, _. split; [reflexivity|]. vm_compute. repeat split; reflexivity.
Qed.
Print Assumptions C10_added_samples_lost_refuted.

(** ** C11 *)

(** What convertSequenceToTimeWindows returns, after any session building the
    sequential dataset: of each sequence the first (length - 1) / w windows, where
    the last sequence is first cut at sample number [number of sequences]. *)
Theorem C11_windows_exact : forall n m os w, 0 < w ->
  Forall (qclean [("input"%string, n); ("target"%string, m)]) os ->
  let s := fst (qrun 0%Z (init (fst (run 0%Z empty_ds
                  (schema_ops [("input"%string, n); ("target"%string, m)])))) os) in
  exists ss d, iter_seqs s = Ok ss /\ timeWindows s w = Ok d /\
    let wins := flat_map (fun sq => windows_of sq w ((length sq - 1) / w)) (cut_last (length ss) ss) in
    getLength d = Ok (length wins) /\
    getField d "input" = Ok (map (fun s => nth 0 s []) wins) /\
    getField d "target" = Ok (map (fun s => nth 1 s []) wins).
Proof. exact windows_session. Qed.
Print Assumptions C11_windows_exact.

(** Compared with the number of complete windows, length / w. *)
Theorem C11_window_count : forall L w, 0 < w ->
  (L - 1) / w = if L mod w =? 0 then L / w - 1 else L / w.
Proof. exact window_count. Qed.
Print Assumptions C11_window_count.

Definition ex_win (l1 l2 : list Z) : sds Z :=
  fst (qrun 0%Z (init (fst (run 0%Z empty_ds (schema_ops sq_sch))))
         (map (fun z => QAdd (smp z)) l1 ++ QNew :: map (fun z => QAdd (smp z)) l2)).

(** A sequence of five samples in windows of two keeps both complete windows. *)
Example C11_example : match timeWindows (ex_win [1; 2; 3; 4; 5]%Z []) 2 with
  | Ok d => getField d "input" = Ok [[1; 2; 2; 3]; [3; 4; 4; 5]]%Z /\ getField d "target" = Ok [[20]; [40]]%Z
  | Err _ => False
  end.
Proof. vm_compute. auto. Qed.

(** The final complete window is dropped. *)
Theorem C11_final_window_refuted : exists s ss d,
  s = ex_win [1; 2; 3; 4]%Z [] /\ iter_seqs s = Ok ss /\ timeWindows s 2 = Ok d /\
  length (all_windows ss 2) = 2 /\ getLength d = Ok 1.
Proof. eexists _, _, _. split; [reflexivity|]. vm_compute. repeat split; reflexivity. Qed.
Print Assumptions C11_final_window_refuted.

(** The last sequence is lost altogether when it starts beyond its own number. *)
Theorem C11_last_sequence_refuted : exists s ss d,
  s = ex_win [1; 2; 3]%Z [4; 5; 6; 7; 8]%Z /\ iter_seqs s = Ok ss /\ timeWindows s 2 = Ok d /\
  length (all_windows ss 2) = 3 /\ getLength d = Ok 1.
Proof. eexists _, _, _. split; [reflexivity|]. vm_compute. repeat split; reflexivity. Qed.
Print Assumptions C11_last_sequence_refuted.
