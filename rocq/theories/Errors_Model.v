(** Model of the error measures: SupervisedDataSet.evaluateMSE, evaluateModuleMSE and _evaluateSequence
    (datasets/supervised.py:70-105), their overrides (datasets/sequential.py:175-189, datasets/importance.py:36-51),
    BackpropTrainer.testOnData and testOnClassData (supervised/trainers/backprop.py:133-186) and Validator,
    ModuleValidator, SequenceHelper and testOnSequenceData (tools/validation.py:13-236, 358-394).

    Numbers are rationals.  A module is a state with [mreset] and [activate] (which returns a copy of the output);
    its outputs are as long as the targets.  Sequential datasets are those of Sequential_Model.v, whose samples are
    [input; target] or [input; target; importance]; a SupervisedDataSet is the list of its samples.
    Division by the float zero of Python raises, by that of numpy gives nan or inf, here None.
    Not modelled: verbose output. *)
From Coq Require Import QArith.
From Verif Require Import Base Dataset_Model Sequential_Model Grid_Model.
Local Open Scope Q_scope.

Definition qsum (l : list Q) : Q := fold_left Qplus l 0.
Fixpoint zipq (f : Q -> Q -> Q) (a b : list Q) : list Q :=
  match a, b with x :: a', y :: b' => f x y :: zipq f a' b' | _, _ => [] end.
Definition qdot (a b : list Q) : Q := qsum (zipq Qmult a b).
Notation row := (list Q).
Notation sample := (list row).

Section Measures.
Context {M : Type} (mreset : M -> M) (activate : M -> row -> M * row).

(** supervised.py:84-97; unpacking anything but two fields raises *)
Fixpoint evaluateSequence (seq : list sample) (m : M) (totalError ponderation : Q) : result (M * Q * Q) :=
  match seq with
  | [] => Ok (m, totalError, ponderation)
  | [inp; target] :: r =>
      let '(m', res) := activate m inp in
      let e := (1 # 2) * qsum (map (fun d => d * d) (zipq Qminus target res)) in
      evaluateSequence r m' (totalError + e) (ponderation + inject_Z (Z.of_nat (length target)))
  | _ :: _ => Err ValueError
  end.
(** importance.py:36-51 *)
Fixpoint evaluateSequence_imp (seq : list sample) (m : M) (totalError ponderation : Q) : result (M * Q * Q) :=
  match seq with
  | [] => Ok (m, totalError, ponderation)
  | [inp; target; importance] :: r =>
      let '(m', res) := activate m inp in
      let e := (1 # 2) * qdot importance (map (fun d => d * d) (zipq Qminus target res)) in
      evaluateSequence_imp r m' (totalError + e) (ponderation + qsum importance)
  | _ :: _ => Err ValueError
  end.
Definition evaluate (imp : bool) (seq : list sample) (m : M) : result (M * Q * Q) :=
  if imp then evaluateSequence_imp seq m 0 0 else evaluateSequence seq m 0 0.

(** supervised.py:65-68 *)
Definition single_sequences (samples : list sample) : list (list sample) := map (fun x => [x]) samples.

(** supervised.py:70-82, with f = module.activate *)
Fixpoint eval_loop (imp : bool) (seqs : list (list sample)) (m : M) (totalError ponderation : Q) : result (M * Q * Q) :=
  match seqs with
  | [] => Ok (m, totalError, ponderation)
  | seq :: r => let! x := evaluate imp seq m in
                let '(m', e, p) := x in eval_loop imp r m' (totalError + e) (ponderation + p)
  end.
Definition positive (x : Q) : bool := negb (Qle_bool x 0).
Definition evaluateMSE (samples : list sample) (m : M) : result (M * Q) :=
  let! x := eval_loop false (single_sequences samples) m 0 0 in
  let '(m', totalError, ponderation) := x in
  if positive ponderation then Ok (m', totalError / ponderation) else Err AssertionError.
(** supervised.py:99-106 *)
Fixpoint module_mse_loop (n : nat) (samples : list sample) (m : M) (res : Q) : result (M * Q) :=
  match n with
  | O => Ok (m, res)
  | S n' => let! x := evaluateMSE samples (mreset m) in module_mse_loop n' samples (fst x) (res + snd x)
  end.
Definition evaluateModuleMSE (averageOver : nat) (samples : list sample) (m : M) : result (M * Q) :=
  let! x := module_mse_loop averageOver samples m 0 in
  if (averageOver =? 0)%nat then Err ZeroDivisionError else Ok (fst x, snd x / inject_Z (Z.of_nat averageOver)).

(** sequential.py:175-189: the module is reset before every sequence *)
Fixpoint reset_loop (imp : bool) (seqs : list (list sample)) (m : M) (totalError ponderation : Q) : result (M * Q * Q) :=
  match seqs with
  | [] => Ok (m, totalError, ponderation)
  | seq :: r => let! x := evaluate imp seq (mreset m) in
                let '(m', e, p) := x in reset_loop imp r m' (totalError + e) (ponderation + p)
  end.
Fixpoint seq_mse_loop (imp : bool) (n : nat) (seqs : list (list sample)) (m : M) (res : Q) : result (M * Q) :=
  match n with
  | O => Ok (m, res)
  | S n' => let! x := reset_loop imp seqs m 0 0 in
            let '(m', totalError, ponderation) := x in
            if positive ponderation then seq_mse_loop imp n' seqs m' (res + totalError / ponderation) else Err AssertionError
  end.
Definition evaluateModuleMSE_seq (imp : bool) (averageOver : nat) (s : sds Q) (m : M) : result (M * Q) :=
  let! seqs := iter_seqs s in
  let! x := seq_mse_loop imp averageOver seqs m 0 in
  if (averageOver =? 0)%nat then Err ZeroDivisionError else Ok (fst x, snd x / inject_Z (Z.of_nat averageOver)).

(** backprop.py:133-162; e / i of a sequence without samples is a division of Python's floats *)
Fixpoint test_loop (imp : bool) (seqs : list (list sample)) (m : M) (errors importances : list Q) : result (M * list Q * list Q) :=
  match seqs with
  | [] => Ok (m, errors, importances)
  | seq :: r => let! x := evaluate imp seq (mreset m) in
                let '(m', e, i) := x in
                match seq with [] => Err ZeroDivisionError | _ => test_loop imp r m' (errors ++ [e]) (importances ++ [i]) end
  end.
Definition testOnSeqs (imp : bool) (seqs : list (list sample)) (m : M) : result (M * Q) :=
  let! x := test_loop imp seqs m [] [] in
  let '(m', errors, importances) := x in
  if positive (qsum importances) then Ok (m', qsum errors / qsum importances) else Err AssertionError.
Definition testOnData (imp : bool) (s : sds Q) (m : M) : result (M * Q) := let! seqs := iter_seqs s in testOnSeqs imp seqs m.
Definition testOnData_sup (samples : list sample) (m : M) : result (M * Q) := testOnSeqs false (single_sequences samples) m.

(** backprop.py:164-186: winner takes all *)
Fixpoint class_seq (seq : list sample) (m : M) (out targ : list nat) : result (M * list nat * list nat) :=
  match seq with
  | [] => Ok (m, out, targ)
  | [inp; target] :: r => let '(m', res) := activate m inp in class_seq r m' (out ++ [qargmax res]) (targ ++ [qargmax target])
  | _ :: _ => Err ValueError
  end.
Fixpoint class_loop (seqs : list (list sample)) (m : M) (out targ : list nat) : result (M * list nat * list nat) :=
  match seqs with
  | [] => Ok (m, out, targ)
  | seq :: r => let! x := class_seq seq (mreset m) out targ in let '(m', out', targ') := x in class_loop r m' out' targ'
  end.
Definition testOnClassData (s : sds Q) (m : M) : result (M * list nat * list nat) := let! seqs := iter_seqs s in class_loop seqs m [] [].

(** validation.py:208-236; [field] is the row number of a field in a sample *)
Fixpoint out_seq (seq : list sample) (m : M) : M * list row :=
  match seq with
  | [] => (m, [])
  | smp :: r => let '(m', y) := activate m (nth 0 smp []) in let '(m'', ys) := out_seq r m' in (m'', y :: ys)
  end.
Fixpoint out_seqs (seqs : list (list sample)) (m : M) : M * list row :=
  match seqs with
  | [] => (m, [])
  | seq :: r => let '(m', ys) := out_seq seq (mreset m) in let '(m'', zs) := out_seqs r m' in (m'', ys ++ zs)
  end.
Definition calculateModuleOutput (s : sds Q) (m : M) : result (M * list row) := let! seqs := iter_seqs s in Ok (out_seqs seqs m).
Definition calculateModuleOutput_sup (samples : list sample) (m : M) : M * list row := out_seq samples (mreset m).
End Measures.

(** validation.py:51-79 on the rows of a field; the array of no outputs has one axis only *)
Definition mse_value (output target : list row) (importance : list Q) : option Q :=
  let squared := map (fun d => d * d) (zipq Qminus (concat output) (concat target)) in
  if Qeq_bool (qsum importance) 0 then None else Some (qdot squared importance / qsum importance).
Definition same_shape (a b : list row) : bool :=
  negb (length a =? 0)%nat && (length a =? length b)%nat && forallb (fun p => (length (fst p) =? length (snd p))%nat) (combine a b).
Definition MSE (output target : list row) (importance : option (list row)) : result (option Q) :=
  if negb (same_shape output target) then Err AssertionError
  else match importance with
       | Some i => if negb (same_shape i target) then Err AssertionError else Ok (mse_value output target (concat i))
       | None => Ok (mse_value output target (map (fun _ => 1) (concat output)))
       end.
(** validation.py:24-37: sum(output == target) is a number only for one column *)
Definition hits {A} (eqb : A -> A -> bool) (a b : list A) : nat := length (filter (fun p => eqb (fst p) (snd p)) (combine a b)).
Definition ratio (a b : nat) : result Q := if (b =? 0)%nat then Err ZeroDivisionError else Ok (inject_Z (Z.of_nat a) / inject_Z (Z.of_nat b)).
Definition classificationPerformance_1d {A} (eqb : A -> A -> bool) (output target : list A) : result Q :=
  if negb (length output =? length target)%nat then Err AssertionError else ratio (hits eqb output target) (length output).
Definition classificationPerformance_2d (outdim : nat) (output target : list row) : result Q :=
  if negb (length output =? length target)%nat then Err AssertionError
  else if (length output =? 0)%nat then Err ZeroDivisionError
  else if (outdim =? 1)%nat then ratio (hits (fun a b => Qeq_bool (hd 0 a) (hd 0 b)) output target) (length output)
  else Err TypeError.

(** validation.py:104-136 *)
Definition getSequenceEnds (s : sds Q) : result (list Z) :=
  let! len := getLength (body s) in
  Ok (tl (map (fun n => Z.of_nat n - 1)%Z (seqs s)) ++ [Z.of_nat len - 1]%Z).
Definition getSequenceStarts (s : sds Q) : list nat := seqs s.
(** importance[ends] = 1.: an index may count from the end *)
Fixpoint set_all (l : list Q) (is : list Z) : result (list Q) :=
  match is with
  | [] => Ok l
  | i :: r => let n := Z.of_nat (length l) in
              let k := if (i <? 0)%Z then (n + i)%Z else i in
              if ((k <? 0) || (n <=? k))%Z then Err IndexError else set_all (upd (Z.to_nat k) 1 l) r
  end.
Definition getSequenceEndsImportance (s : sds Q) : result (list Q) :=
  let! len := getLength (body s) in
  let! ends := getSequenceEnds s in
  set_all (repeat 0 len) ends.

Section ModuleMeasures.
Context {M : Type} (mreset : M -> M) (activate : M -> row -> M * row).
(** validation.py:171-205 *)
Definition module_MSE (imp : bool) (s : sds Q) (m : M) : result (M * option Q) :=
  let! target := getField (body s) "target"%string in
  let! x := calculateModuleOutput mreset activate s m in
  let! importance := (if imp then let! i := getField (body s) "importance"%string in Ok (Some i) else Ok None) in
  let! v := MSE (snd x) target importance in Ok (fst x, v).
Definition module_MSE_sup (samples : list sample) (m : M) : result (M * option Q) :=
  let x := calculateModuleOutput_sup mreset activate samples m in
  let! v := MSE (snd x) (map (fun smp => nth 1 smp []) samples) None in Ok (fst x, v).
(** validation.py:157-169; an importance is one argument too many *)
Definition module_classification (imp : bool) (outdim : nat) (s : sds Q) (m : M) : result (M * Q) :=
  let! target := getField (body s) "target"%string in
  let! x := calculateModuleOutput mreset activate s m in
  if imp then Err TypeError else let! v := classificationPerformance_2d outdim (snd x) target in Ok (fst x, v).

(** validation.py:358-394 *)
Fixpoint seq_class_loop (outdim : nat) (ends : list Z) (j : Z) (output target : list row) (summed : row) (co ct : list nat) : list nat * list nat :=
  match output, target with
  | y :: output', t :: target' =>
      let summed := zipq Qplus summed y in
      if existsb (Z.eqb j) ends
      then seq_class_loop outdim ends (j + 1) output' target' (repeat 0 outdim) (co ++ [qargmax summed]) (ct ++ [qargmax t])
      else seq_class_loop outdim ends (j + 1) output' target' summed co ct
  | _, _ => (co, ct)
  end.
Definition testOnSequenceData (outdim : nat) (s : sds Q) (m : M) : result (M * Q) :=
  let! target := getField (body s) "target"%string in
  let! x := calculateModuleOutput mreset activate s m in
  let! ends := getSequenceEnds s in
  let '(co, ct) := seq_class_loop outdim ends 0 (snd x) target (repeat 0 outdim) [] [] in
  let! v := classificationPerformance_1d Nat.eqb co ct in Ok (fst x, v).
End ModuleMeasures.
