(** Property theorems about DataSet: C01 - C06, C12. *)
From Verif Require Import Base Dataset_Model Dataset_Spec Dataset_Proofs Dataset_Proofs2
  Dataset_Proofs3 Batches_Model Batches_Proofs.

(** ** C01 *)

(** The buffered data set and the specification with plain lists of rows give the
    same answers to every admissible session, and hold the same rows afterwards. *)
Theorem C01_buffers_unobservable : forall V (vzero : V) (os : list (op V)),
  session_ok pempty os ->
  snd (run vzero empty_ds os) = snd (prun pempty os) /\
  forall l, getField (fst (run vzero empty_ds os)) l
            = match prows (fst (prun pempty os)) l with Some r => Ok r | None => Err KeyError end.
Proof. exact @run_refines_empty. Qed.
Print Assumptions C01_buffers_unobservable.

(** A data set whose fields are all linked answers every session like a list of
    samples with a read marker. *)
Theorem C01_linked_dataset_is_sample_list : forall V (vzero : V) sch (os : list (sop V)),
  sch <> [] /\ NoDup (map fst sch) /\ ~ In ""%string (map fst sch) ->
  Forall (clean sch) os ->
  snd (run vzero empty_ds (schema_ops sch ++ map sop_op os))
  = repeat OutUnit (S (length sch)) ++ snd (srun sch ([], 0) os).
Proof. exact @session_is_sample_list. Qed.
Print Assumptions C01_linked_dataset_is_sample_list.

(** Iterating over the data set after any session yields every sample once, in order. *)
Theorem C01_iteration : forall V (vzero : V) sch (os : list (sop V)) fuel,
  sch <> [] /\ NoDup (map fst sch) /\ ~ In ""%string (map fst sch) ->
  Forall (clean sch) os ->
  length (fst (fst (srun sch ([], 0) os))) < fuel ->
  iter fuel (fst (run vzero empty_ds (schema_ops sch ++ map sop_op os)))
  = Ok (fst (fst (srun sch ([], 0) os))).
Proof. exact @iter_session. Qed.
Print Assumptions C01_iteration.

Definition ex_sch : list (string * nat) := [("input", 2); ("target", 1)]%string.
Definition ex_session : list (sop Z) :=
  [SAdd [[1; 2]; [3]]; SAdd [[4; 5]; [6]]; SGet None; SAdd [[7]; [8]]; SGet (Some 2%nat);
   SEnd; SLen; SAdd [[1; 2; 3]; [1]]; SField "input"%string; SGet (Some 5%nat); SEnd; SReset; SGet None]%Z.

(** the hypotheses hold for a session with regrowth, a refused sample, and reads past the end *)
Example C01_example :
  (ex_sch <> [] /\ NoDup (map fst ex_sch) /\ ~ In ""%string (map fst ex_sch)) /\
  Forall (clean ex_sch) ex_session /\
  snd (srun ex_sch ([], 0) ex_session)
  = [OutUnit; OutUnit; OutRows [[1; 2]; [3]]; OutUnit; OutRows [[7; 7]; [8]]; OutBool true;
     OutNat 3%nat; OutErr ValueError; OutRows [[1; 2]; [4; 5]; [7; 7]]; OutErr IndexError;
     OutBool false; OutUnit; OutRows [[1; 2]; [3]]]%Z.
Proof.
  split; [|split].
  - repeat split; try discriminate.
    + repeat constructor; simpl; intuition discriminate.
    + simpl. intuition discriminate.
  - unfold ex_session. repeat (apply Forall_cons; [cbn; try exact I; right|]); [..|apply Forall_nil];
      first [left; discriminate | right; reflexivity].
  - reflexivity.
Qed.

Example C01_example_plain : session_ok (V := Z) pempty
  [OAddField "a" 1; OAddField "b" 1; OAppend "a" [1%Z]; OLen; OClear true; OLink ["a"; "b"]%string;
   OAppendLinked [[1%Z]; [2%Z]]; OGetLinked (Some 0%Z); OUnlink (Some ["a"%string]); OAppend "a" [5%Z]].
Proof.
  cbn. repeat split; try discriminate.
  exists 1. cbn. intros l [<-|[<-|[]]]; cbn; eexists; split; reflexivity.
Qed.

(** Reading at a negative position returns a row that was never added. *)
Theorem C01_negative_index_refuted : exists (os : list (sop Z)) smp,
  snd (getLinked (fst (run 0%Z empty_ds (schema_ops ex_sch ++ map sop_op os))) (Some (-1)%Z)) = Ok smp /\
  ~ In smp (fst (fst (srun ex_sch ([], 0) os))).
Proof.
  exists [SAdd [[1; 2]; [3]]]%Z, [[0; 0]; [0]]%Z. split.
  - reflexivity.
  - cbn. intros [H|[]]. discriminate.
Qed.
Print Assumptions C01_negative_index_refuted.

(** ** C02 *)

(** A sample whose row for field number [length pre] is the first not to fit:
    ValueError, marker and links stay, exactly the fields before it grow. *)
Theorem C02_rejected_sample_effect : forall V (vzero : V) sch os pre l n post rs1 rs1' r (rs2 : list (list V)),
  sch <> [] /\ NoDup (map fst sch) /\ ~ In ""%string (map fst sch) ->
  Forall (clean sch) os ->
  sch = pre ++ (l, n) :: post ->
  fit_all pre rs1 = Some rs1' -> fit n r = None -> length rs2 = length post ->
  let d := fst (run vzero empty_ds (schema_ops sch ++ map sop_op os)) in
  let samples := fst (fst (srun sch ([], 0) os)) in
  exists d', appendLinked vzero d (rs1 ++ r :: rs2) = (d', Err ValueError) /\
    idx d' = idx d /\ links d' = links d /\
    forall j k m, nth_error sch j = Some (k, m) ->
      getField d' k = Ok (map (fun s => nth j s []) samples ++
                          if j <? length pre then [nth j rs1' []] else []).
Proof.
  intros V vzero sch os pre l n post rs1 rs1' r rs2 Hg Hc Hs Hf Hr Hl.
  pose proof (R_session vzero sch os Hg Hc) as HR.
  destruct (srun sch ([], 0) os) as [[samples pos] xs].
  exact (reject_exact vzero sch _ samples pos pre l n post rs1 rs1' r rs2 Hg HR Hs Hf Hr Hl).
Qed.
Print Assumptions C02_rejected_sample_effect.

Example C02_example :
  ex_sch = [("input"%string, 2)] ++ ("target"%string, 1) :: [] /\
  fit_all [("input"%string, 2)] [[1; 2]]%Z = Some [[1; 2]]%Z /\ fit 1 [3; 4]%Z = None.
Proof. repeat split. Qed.

(** addSample is not atomic: a refused sample shifts the pairing of later ones. *)
Theorem C02_atomicity_refuted : exists rs : list (list Z),
  let d := fst (run 0%Z empty_ds (schema_ops ex_sch)) in
  let d1 := fst (appendLinked 0%Z d rs) in
  let d2 := fst (appendLinked 0%Z d1 [[7; 8]; [9]]%Z) in
  snd (appendLinked 0%Z d rs) = Err ValueError /\
  snd (getLinked d2 (Some 0%Z)) = Ok [[1; 2]; [9]]%Z.
Proof. exists [[1; 2]; [3; 4]]%Z. split; reflexivity. Qed.
Print Assumptions C02_atomicity_refuted.

(** ** C03 *)

Theorem C03_unlinked_length_is_last_label : forall V (vzero : V) d,
  (exists os, session_ok pempty os /\ d = fst (run vzero empty_ds os)) ->
  links d = [] -> fields d <> [] ->
  exists l rows, getField d l = Ok rows /\ getLength d = Ok (length rows) /\
    forall k rows', getField d k = Ok rows' -> String.leb k l = true.
Proof. exact @unlinked_length. Qed.
Print Assumptions C03_unlinked_length_is_last_label.

Theorem C03_longest_field_refuted : exists (d : ds Z) n rows,
  (exists os, session_ok pempty os /\ d = fst (run 0%Z empty_ds os)) /\ links d = [] /\
  getLength d = Ok n /\ getField d "a" = Ok rows /\ n < length rows.
Proof.
  exists (fst (run 0%Z empty_ds [OAddField "a" 1; OAddField "b" 1; OAppend "a" [1%Z]])), 0, [[1%Z]].
  split; [|repeat split; cbn; lia].
  eexists. split; [|reflexivity]. cbn. repeat split; discriminate.
Qed.
Print Assumptions C03_longest_field_refuted.

(** ** C04 *)

Theorem C04_convert_exact : forall V (vzero : V) d l (conv : V -> V) rows,
  (exists os, session_ok pempty os /\ d = fst (run vzero empty_ds os)) ->
  getField d l = Ok rows ->
  exists d' pad, convertField d l conv = Ok d' /\
    getField d' l = Ok (map (map conv) (rows ++ pad)) /\
    (forall k, k <> l -> getField d' k = getField d k) /\
    links d' = links d /\ idx d' = idx d /\
    (forall f, lookup l (fields d) = Some f -> length (rows ++ pad) = length (fbuf f)).
Proof. exact @convert_exact. Qed.
Print Assumptions C04_convert_exact.

(** A field filled by k >= 1 appends has, after convertField, the least length of
    the form 2^(j+1) - 2 that is at least k. *)
Theorem C04_convert_length : forall V (vzero : V) l n rs (conv : V -> V),
  l <> ""%string -> (forall r, In r rs -> length r = n) -> rs <> [] ->
  exists d' rows j,
    convertField (fst (run vzero empty_ds (OAddField l n :: map (OAppend l) rs))) l conv = Ok d' /\
    getField d' l = Ok rows /\ length rows + 2 = 2 ^ (S j) /\
    2 ^ j < length rs + 2 <= 2 ^ (S j).
Proof. exact @convert_length_after_appends. Qed.
Print Assumptions C04_convert_length.

Theorem C04_convert_keeps_sync_refuted : exists (d d' : ds Z) i t,
  (exists os, session_ok pempty os /\ d = fst (run 0%Z empty_ds os)) /\
  links d = ["input"; "target"]%string /\
  convertField d "target" (fun x => x) = Ok d' /\
  getField d' "input" = Ok i /\ getField d' "target" = Ok t /\ length i <> length t.
Proof.
  exists (fst (run 0%Z empty_ds (schema_ops ex_sch ++ [OAppendLinked [[1; 2]; [3]]%Z]))).
  eexists _, _, _. split; [|repeat split; cbn; lia].
  eexists. split; [|reflexivity]. cbn. repeat split; discriminate.
Qed.
Print Assumptions C04_convert_keeps_sync_refuted.

(** ** C05 *)

(** [block_shape n bs]: blocks have between 1 and n rows, all but the last have n. *)
Theorem C05_batches_partition : forall V (d : ds V) label n rows len,
  getLength d = Ok len -> getField d label = Ok rows -> length rows = len -> 1 <= n ->
  exists bs, batches d label n None = Ok bs /\ concat bs = rows /\
    (forall i b, nth_error bs i = Some b ->
       1 <= length b <= n /\ (S i < length bs -> length b = n)) /\
    (forall p, Permutation p (seq 0 (length bs)) ->
       exists bs', batches d label n (Some p) = Ok bs' /\ Permutation bs' bs /\
       forall i k, nth_error p i = Some k -> nth_error bs' i = nth_error bs k).
Proof. exact @batches_none. Qed.
Print Assumptions C05_batches_partition.

(** randomBatches never permutes, whatever the generator does. *)
Theorem C05_randomBatches_in_order : forall V (sh1 sh2 : list nat -> list nat) (d : ds V) label n,
  randomBatches sh1 d label n = randomBatches sh2 d label n /\
  (is_ok (getLength d) = true -> randomBatches sh1 d label n = batches d label n None).
Proof. exact @randomBatches_not_random. Qed.
Print Assumptions C05_randomBatches_in_order.

Definition ex_ds7 : ds Z :=
  fst (run 0%Z empty_ds (schema_ops ex_sch ++
       map (fun z => OAppendLinked [[z; z]; [z + 10]]) [0; 1; 2; 3; 4; 5; 6])%Z).
Example C05_example : exists rows,
  getLength ex_ds7 = Ok 7 /\ getField ex_ds7 "target" = Ok rows /\ length rows = 7 /\
  batches ex_ds7 "target" 3 None = Ok [[[10]; [11]; [12]]; [[13]; [14]; [15]]; [[16]]]%Z /\
  batches ex_ds7 "target" 3 (Some [2; 0; 1]) = Ok [[[16]]; [[10]; [11]; [12]]; [[13]; [14]; [15]]]%Z.
Proof. eexists. vm_compute. repeat split. Qed.

(** ** C06 *)

Theorem C06_split_partition : forall V (d : ds V) perm num den inp tgt len,
  getLength d = Ok len -> getField d "input" = Ok inp -> getField d "target" = Ok tgt ->
  length inp = len -> length tgt = len -> Permutation perm (seq 0 len) ->
  exists l r li lt ri rt,
    splitWithProportion d perm num den = Ok (l, r) /\
    getField l "input" = Ok li /\ getField l "target" = Ok lt /\
    getField r "input" = Ok ri /\ getField r "target" = Ok rt /\
    length li = length lt /\ length ri = length rt /\
    getLength l = Ok (length li) /\ getLength r = Ok (length ri) /\
    Permutation (combine li lt ++ combine ri rt) (combine inp tgt) /\
    ((0 <= num <= Zpos den)%Z -> Z.of_nat (length li) = (Z.of_nat len * num / Zpos den)%Z).
Proof. exact @split_ok. Qed.
Print Assumptions C06_split_partition.

Example C06_example : exists inp tgt,
  getLength ex_ds7 = Ok 7 /\ getField ex_ds7 "input" = Ok inp /\ getField ex_ds7 "target" = Ok tgt /\
  length inp = 7 /\ length tgt = 7 /\ Permutation [3; 1; 6; 0; 2; 5; 4] (seq 0 7) /\
  exists l r, splitWithProportion ex_ds7 [3; 1; 6; 0; 2; 5; 4] 1 3 = Ok (l, r) /\
    getField l "target" = Ok [[13]; [11]]%Z.
Proof.
  eexists _, _. do 3 (split; [vm_compute; reflexivity|]). do 2 (split; [reflexivity|]). split.
  - apply NoDup_Permutation.
    + repeat constructor; simpl; lia.
    + apply seq_NoDup.
    + intro x. rewrite in_seq. simpl. lia.
  - eexists _, _. split; vm_compute; reflexivity.
Qed.

(** ** C12 *)

(** A copy has the same fields and links; its marker is at the start; the vector
    format survives exactly for a plain DataSet or when it was 'none' anyway. *)
Theorem C12_copy : forall V (o : obj V),
  (forall l, getField (obody (copy o)) l = getField (obody o) l) /\
  links (obody (copy o)) = links (obody o) /\ idx (obody (copy o)) = 0%Z /\
  (ovf (copy o) = ovf o <-> ocls o = PlainDataSet \/ ovf o = VNone).
Proof.
  intros V [c vf d]. cbn. repeat split; auto.
  - destruct c; auto.
  - destruct c; intros [H|H]; auto; discriminate.
Qed.
Print Assumptions C12_copy.

Theorem C12_vectorformat_refuted : exists o : obj Z, ovf (copy o) <> ovf o.
Proof. exists (mkObj SupervisedClass VList ex_ds7). discriminate. Qed.
Print Assumptions C12_vectorformat_refuted.
