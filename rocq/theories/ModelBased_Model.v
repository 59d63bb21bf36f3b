(** Model of reinforcement learning with a known model of the environment (rl/learners/modelbased/policyiteration.py).

    Vectors are lists, matrices are lists of rows, entries are exact; the operations of numpy are written entry by entry and the
    arrays are assumed to have matching shapes (numpy would raise ValueError).  The transition matrices are arrays of floats: for
    arrays of integers zeros_like (line 69) makes an integer array. *)
From Verif Require Import Base Value_Model.
From Coq Require Import QArith Qround Qabs.
Local Open Scope nat_scope.

Definition vec := list Q.
Definition mat := list vec.
Definition at_ (v : vec) (i : nat) : Q := nth i v 0%Q.
Definition ent (m : mat) (i j : nat) : Q := at_ (nth i m []) j.
Definition rows (m : mat) : nat := length m.
Definition cols (m : mat) : nat := match m with [] => 0 | r :: _ => length r end.
Definition build (n : nat) (f : nat -> Q) : vec := map f (seq 0 n).
Definition build2 (n k : nat) (f : nat -> nat -> Q) : mat := map (fun i => build k (f i)) (seq 0 n).
(** the sum of f(0), ..., f(n-1) *)
Fixpoint sigma (n : nat) (f : nat -> Q) : Q := match n with 0 => 0%Q | S k => (sigma k f + f k)%Q end.

(** scipy.dot *)
Definition dot (v w : vec) : Q := sigma (length v) (fun i => at_ v i * at_ w i)%Q.
Definition mat_vec (m : mat) (v : vec) : vec := build (rows m) (fun i => dot (nth i m []) v).
Definition mat_mat (a b : mat) : mat := build2 (rows a) (cols b) (fun i j => sigma (rows b) (fun k => ent a i k * ent b k j)%Q).
Fixpoint qpow (x : Q) (n : nat) : Q := match n with 0 => 1%Q | S k => (x * qpow x k)%Q end.

(** policyiteration.py:46-48, with the remaining number of iterations *)
Fixpoint values_loop (T : mat) (R : vec) (g : Q) (k i : nat) (distr : mat) (res : vec) : vec :=
  match k with
  | 0 => res
  | S k' => let distr' := mat_mat distr T in
            values_loop T R g k' (S i) distr' (build (length res) (fun s => at_ res s + qpow g i * at_ (mat_vec distr' R) s)%Q)
  end.
(** policyiteration.py:40-49; int(10 / (1. - discountFactor)) *)
Definition horizon (g : Q) : nat := Z.to_nat (Qfloor (10 / (1 - g))).
Definition trueValues (T : mat) (R : vec) (g : Q) : result vec :=
  if Qle_bool 1 g then Err AssertionError else Ok (values_loop T R g (horizon g - 1) 1 T (mat_vec T R)).

(** policyiteration.py:71-72: one pass for each column of the policy *)
Fixpoint collapse_loop (Ts : list mat) (policy : mat) (as_ : list nat) (res : mat) : result mat :=
  match as_ with
  | [] => Ok res
  | ai :: t =>
      match nth_error Ts ai with
      | None => Err IndexError
      | Some Ta => collapse_loop Ts policy t (build2 (rows res) (cols res) (fun s s' => ent res s s' + ent Ta s s' * ent policy s ai)%Q)
      end
  end.
(** policyiteration.py:66-73 *)
Definition collapsedTransitions (Ts : list mat) (policy : mat) : result mat :=
  match Ts with
  | [] => Err IndexError
  | T0 :: _ => collapse_loop Ts policy (seq 0 (cols policy)) (build2 (rows T0) (cols T0) (fun _ _ => 0%Q))
  end.

(** policyiteration.py:56 and 81 *)
Definition v_next (V R : vec) (g : Q) : vec := build (length V) (fun s => at_ V s * g + at_ R s)%Q.
(** policyiteration.py:52-63 *)
Definition trueQValues (Ts : list mat) (R : vec) (g : Q) (policy : mat) : result mat :=
  let! T := collapsedTransitions Ts policy in
  let! V := trueValues T R g in
  Ok (build2 (length R) (length Ts) (fun si a => dot (nth si (nth a Ts []) []) (v_next V R g))).

(** utilities.py:693-696; max of no values raises *)
Definition all_argmax (x : list Q) : result (list nat) :=
  match x with [] => Err ValueError | y :: t => Ok (where_eq (qmax y t) 0 x) end.
(** policyiteration.py:84-86 and 97-99: a row of zeros with 1/len(actions) at the maximising actions *)
Definition greedy_row (numA : nat) (x : list Q) : result vec :=
  let! actions := all_argmax x in
  Ok (fold_left (fun r a => upd a (1 / inject_Z (Z.of_nat (length actions)))%Q r) actions (repeat 0%Q numA)).
Fixpoint mapR {A B} (f : A -> result B) (l : list A) : result (list B) :=
  match l with [] => Ok [] | x :: t => let! y := f x in let! ys := mapR f t in Ok (y :: ys) end.
Definition greedyPolicy (Ts : list mat) (R : vec) (g : Q) (V : vec) : result (mat * mat) :=
  let! policy := mapR (fun si => greedy_row (length Ts) (map (fun T => dot (nth si T []) (v_next V R g)) Ts)) (seq 0 (length V)) in
  let! T := collapsedTransitions Ts policy in Ok (policy, T).
(** policyiteration.py:90-100 *)
Definition greedyQPolicy (Qs : mat) : result mat :=
  match Qs with [] => Err IndexError | q0 :: _ => mapR (fun q => greedy_row (length q0) q) Qs end.

(** policyiteration.py:103-107 *)
Definition randomPolicy (Ts : list mat) : result (mat * mat) :=
  match Ts with
  | [] => Err IndexError
  | T0 :: _ =>
      let n := inject_Z (Z.of_nat (length Ts)) in
      Ok (build2 (rows T0) (length Ts) (fun _ _ => 1 / n)%Q,
          build2 (rows T0) (cols T0) (fun s s' => sigma (length Ts) (fun a => ent (nth a Ts []) s s') / n)%Q)
  end.
(** policyiteration.py:110-118: the elements of choices are numbers, which cannot be unpacked *)
Definition randomDeterministic (Ts : list mat) (choices : list nat) : result (mat * mat) :=
  match Ts with
  | [] => Err IndexError
  | T0 :: _ => match choices with
               | [] => let! T := collapsedTransitions Ts [] in Ok ([], T)
               | _ :: _ => Err TypeError
               end
  end.

(** policyiteration.py:139 *)
Definition difference (p q : mat) : Q := sigma (rows p) (fun s => sigma (cols p) (fun a => Qabs (ent p s a - ent q s a))).
Definition qltb (a b : Q) : bool := negb (Qle_bool b a).
(** policyiteration.py:135-143; the number of iterations left *)
Fixpoint iterate (Ts : list mat) (R : vec) (g : Q) (evaluator : mat -> result vec) (maxIters : nat) (policy T : mat) : result (mat * mat) :=
  match maxIters with
  | 0 => Ok (policy, T)
  | S k =>
      let! V := evaluator T in
      let! new := greedyPolicy Ts R g V in
      if qltb (difference (fst new) policy) (1 # 1000) then Ok (policy, snd new)
      else iterate Ts R g evaluator k (fst new) (snd new)
  end.
(** policyiteration.py:121-143 *)
Definition policyIteration (Ts : list mat) (R : vec) (g : Q) (evaluator : option (mat -> result vec)) (initpolicy : option mat) (maxIters : nat)
  : result (mat * mat) :=
  let! start := match initpolicy with
                | None => randomPolicy Ts
                | Some p => let! T := collapsedTransitions Ts p in Ok (p, T)
                end in
  iterate Ts R g (match evaluator with None => fun T => trueValues T R g | Some e => e end) maxIters (fst start) (snd start).
