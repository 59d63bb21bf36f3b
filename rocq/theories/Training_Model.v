(** Model of BackpropTrainer.trainUntilConvergence (supervised/trainers/backprop.py:188-260) and of
    CrossValidator.validate (tools/validation.py:284-334).

    For the former, one epoch of training is any function of the parameters and the number of the
    epoch, and so is the error it reports; the validation error is any function of the parameters, rnd is round(., convergence_threshold).
    Not modelled: the splitting of the dataset (see C06), nan results (which raise), verbosity. *)
From Verif Require Import Base.
From Coq Require Import QArith.
Local Open Scope nat_scope.

Section Until.
  Context {P : Type} (train : nat -> P -> P) (trainErr : nat -> P -> Q) (test : P -> Q) (rnd : Q -> Q) (continueEpochs : nat) (maxEpochs : option nat).

  Definition qlist_min (x : Q) (l : list Q) : Q := fold_left (fun m y => if Qle_bool m y then m else y) l x.
  Definition qlist_max (x : Q) (l : list Q) : Q := fold_left (fun m y => if Qle_bool y m then m else y) l x.
  Definition qtotal (l : list Q) : Q := fold_right Qplus 0%Q l.
  (** backprop.py:239-251: has the validation error converged or started going up again? *)
  Definition window_stop (verrs : list Q) : result bool :=
    let c := continueEpochs in
    if length verrs <? c * 2 then Ok false
    else if c =? 0 then Err ValueError                  (* max of the empty slice *)
    else
      let old := firstn c (skipn (length verrs - c * 2) verrs) in
      let new := skipn (length verrs - c) verrs in
      match old, new with
      | o1 :: old', n1 :: new' =>
          if negb (Qle_bool (qlist_min n1 new') (qlist_max o1 old')) then Ok true
          else let lastnew := rnd (last new 0%Q) in
               Ok (Qeq_bool (qtotal (map (fun y => rnd y - lastnew)%Q new)) 0)
      | _, _ => Err ValueError
      end.
  Record tuc : Type := { t_params : P; t_best : P; t_bestverr : Q; t_bestepoch : nat; t_terrs : list Q; t_verrs : list Q }.
  (** backprop.py:221-229 one pass of the loop up to the stopping tests *)
  Definition tuc_epoch (epochs : nat) (st : tuc) : tuc :=
    let p := train epochs (t_params st) in
    let v := test p in
    let better := (epochs =? 0) || negb (Qle_bool (t_bestverr st) v) in
    {| t_params := p; t_best := if better then p else t_best st; t_bestverr := if better then v else t_bestverr st;
       t_bestepoch := if better then epochs else t_bestepoch st;
       t_terrs := t_terrs st ++ [trainErr epochs (t_params st)]; t_verrs := t_verrs st ++ [v] |}.
  (** backprop.py:221-251 the loop; the result is the state with the best parameters put back into the module *)
  Definition put_back (st : tuc) : tuc :=
    {| t_params := t_best st; t_best := t_best st; t_bestverr := t_bestverr st; t_bestepoch := t_bestepoch st; t_terrs := t_terrs st; t_verrs := t_verrs st |}.
  Fixpoint tuc_loop (fuel epochs : nat) (st : tuc) : result tuc :=
    match fuel with
    | O => Err OutOfFuel
    | S fuel' =>
        let st' := tuc_epoch epochs st in
        if match maxEpochs with Some m => m <=? epochs | None => false end then Ok (put_back st')
        else let! stop := window_stop (t_verrs st') in
             if stop then Ok (put_back st') else tuc_loop fuel' (epochs + 1) st'
    end.
  (** backprop.py:214-258; returns the module's parameters and the two lists of errors *)
  Definition trainUntilConvergence (fuel : nat) (p0 : P) : result (P * list Q * list Q) :=
    let st0 := {| t_params := p0; t_best := p0; t_bestverr := test p0; t_bestepoch := 0; t_terrs := []; t_verrs := [test p0] |} in
    let! st := tuc_loop fuel 0 st0 in
    Ok (t_params st, firstn (t_bestepoch st) (t_terrs st), firstn (1 + t_bestepoch st) (t_verrs st)).
End Until.

(** numpy array_split(l, n): the first (len mod n) parts get one element more *)
Fixpoint split_at {A} (sizes : list nat) (l : list A) : list (list A) :=
  match sizes with [] => [] | k :: s => firstn k l :: split_at s (skipn k l) end.
Definition array_split {A} (l : list A) (n : nat) : result (list (list A)) :=
  if n =? 0 then Err ValueError
  else Ok (split_at (repeat (length l / n + 1) (length l mod n) ++ repeat (length l / n) (n - length l mod n)) l).
(** tools/validation.py:301-311 train and test indices of fold i *)
Definition fold_indices (perms : list (list nat)) (i : nat) : result (list nat * list nat) :=
  let others := firstn i perms ++ skipn (i + 1) perms in
  match others with
  | [] => Err ValueError                                 (* concatenate of an empty list *)
  | _ => Ok (concat others, nth i perms [])
  end.
(** tools/validation.py:284-334 validate; a sample is an (input, target) pair, [score train test] trains a fresh
    copy of the trainer on the first list and returns the performance on the second; perm is permutation(l) *)
Definition validate {S} (score : list S -> list S -> Q) (samples : list S) (n_folds : nat) (perm : list nat) : result Q :=
  if length samples <=? n_folds then Err AssertionError
  else
    let! perms := array_split perm n_folds in
    let pick := fun idxs => flat_map (fun k => match nth_error samples k with Some s => [s] | None => [] end) idxs in
    let! perf := fold_left (fun acc i => let! p := acc in let! f := fold_indices perms i in
                                         Ok (p + score (pick (fst f)) (pick (snd f)))%Q) (seq 0 n_folds) (Ok 0%Q) in
    Ok (perf / inject_Z (Z.of_nat n_folds))%Q.
