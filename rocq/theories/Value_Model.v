(** Model of tabular value-based learning: the table (structure/modules/table.py, rl/learners/valuebased/interface.py:29-63)
    and the learners Q, SARSA and QLambda (rl/learners/valuebased/q.py, sarsa.py, qlambda.py).

    States and actions are natural numbers (a negative number would index from the end, as in numpy); values and
    rewards are exact.  The draws of random.choice are a function from the number of the
    draw to a number, taken modulo the number of alternatives. *)
From Verif Require Import Base.
From Coq Require Import QArith Qround.
Local Open Scope nat_scope.

Record table := { t_rows : nat; t_cols : nat; t_vals : list Q }.
(** table.py:31-37 *)
Definition getValue (t : table) (row col : nat) : result Q :=
  if (row <? t_rows t) && (col <? t_cols t)
  then match nth_error (t_vals t) (row * t_cols t + col) with Some q => Ok q | None => Err ValueError end
  else Err IndexError.
Definition updateValue (t : table) (row col : nat) (v : Q) : result table :=
  if (row <? t_rows t) && (col <? t_cols t)
  then Ok {| t_rows := t_rows t; t_cols := t_cols t; t_vals := upd (row * t_cols t + col) v (t_vals t) |}
  else Err IndexError.
(** interface.py:57-58 *)
Definition getActionValues (t : table) (state : nat) : result (list Q) :=
  if state <? t_rows t then Ok (slice (state * t_cols t) (state * t_cols t + t_cols t) (t_vals t)) else Err IndexError.
(** interface.py:50-55 getMaxAction; max of no values raises *)
Definition qmax (x : Q) (l : list Q) : Q := fold_left (fun m y => if Qle_bool y m then m else y) l x.
Fixpoint where_eq (m : Q) (i : nat) (l : list Q) : list nat :=
  match l with [] => [] | x :: t => if Qeq_bool x m then i :: where_eq m (i + 1) t else where_eq m (i + 1) t end.
Definition getMaxAction (t : table) (state draw : nat) : result nat :=
  let! values := getActionValues t state in
  match values with
  | [] => Err ValueError
  | x :: l => let best := where_eq (qmax x l) 0 values in Ok (nth (draw mod length best) best 0)
  end.
(** interface.py:60-62 *)
Definition initialize (t : table) (v : Q) : table := {| t_rows := t_rows t; t_cols := t_cols t; t_vals := map (fun _ => v) (t_vals t) |}.

Definition step : Type := nat * nat * Q.   (* state, action, reward *)
Section Learn.
  Context (alpha gamma : Q) (draw : nat -> nat).
  (** q.py:52-59 the value of the next state *)
  Definition next_q (k : nat) (t : table) (s a : nat) : result Q :=
    let! b := getMaxAction t s (draw k) in getValue t s b.
  (** sarsa.py:47-53 *)
  Definition next_sarsa (k : nat) (t : table) (s a : nat) : result Q := getValue t s a.

  Context (next : nat -> table -> nat -> nat -> result Q).
  (** q.py:38-63 / sarsa.py:32-58: one episode; [last] is what was remembered of the previous step, k counts the updates *)
  Fixpoint learn_seq (k : nat) (last : option step) (seq : list step) (t : table) : result (nat * table) :=
    match seq with
    | [] => Ok (k, t)
    | (s, a, r) :: rest =>
        match last with
        | None => learn_seq k (Some (s, a, r)) rest t
        | Some (ls, la, lr) =>
            let! qvalue := getValue t ls la in
            let! nextv := next k t s a in
            let! t' := updateValue t ls la (qvalue + alpha * (lr + gamma * nextv - qvalue))%Q in
            learn_seq (k + 1) (Some (s, a, r)) rest t'
        end
    end.
  Fixpoint learn_seqs (k : nat) (seqs : list (list step)) (t : table) : result (nat * table) :=
    match seqs with
    | [] => Ok (k, t)
    | seq :: rest => let! kt := learn_seq k None seq t in learn_seqs (fst kt) rest (snd kt)
    end.
  (** q.py:20-63 learn; in non-batch mode the samples are the one that the dataset's marker points to *)
  Definition learn (batch : bool) (episodes : list (list step)) (marker : nat) (t : table) : result table :=
    let! samples := if batch then Ok episodes
                    else match nth_error (concat episodes) marker with Some x => Ok [[x]] | None => Err IndexError end in
    let! kt := learn_seqs 0 samples t in Ok (snd kt).
End Learn.

(** int(x) for a float: towards zero *)
Definition trunc (q : Q) : Q := inject_Z (if Qle_bool 0 q then Qfloor q else Qceiling q).
(** qlambda.py:23-42: over the whole history, whatever the episodes; i counts down, j = number of steps done *)
Section Lambda.
  Context (alpha gamma lambda : Q) (draw : nat -> nat).
  Fixpoint qlambda_loop (hist : list step) (i j : nat) (lbda : Q) (t : table) : result table :=
    match i with
    | O => Ok t
    | S i' =>
        if negb (Qle_bool (1 # 10000) lbda) then Ok t
        else
          match nth_error hist i, nth_error hist i' with
          | Some (s, _, _), Some (ls, la, lr) =>
              let! qvalue := getValue t ls la in
              let! maxnext := next_q draw j t s 0 in
              let! t' := updateValue t ls la (qvalue + alpha * lbda * (trunc lr + gamma * maxnext - qvalue))%Q in
              qlambda_loop hist i' (j + 1) (lbda * lambda)%Q t'
          | _, _ => Err IndexError
          end
    end.
  Definition qlambda_learn (episodes : list (list step)) (t : table) : result table :=
    let hist := concat episodes in qlambda_loop hist (length hist - 1) 0 1%Q t.
End Lambda.
