(** Model of the scaling of sensors and actors (rl/environments/task.py).

    Values are exact rationals; limits are pairs, None disables the scaling of one value.  [self.clipping] is [clipping]. *)
From Verif Require Import Base.
From Coq Require Import QArith.
Local Open Scope nat_scope.

Definition limit : Type := option (Q * Q).

(** numpy.clip of one number *)
Definition clip (x lo hi : Q) : Q :=
  let y := if Qle_bool lo x then x else lo in if Qle_bool y hi then y else hi.

(** task.py:51-55; dividing by zero raises *)
Definition normalize1 (l : limit) (s : Q) : result Q :=
  match l with
  | None => Ok s
  | Some (lo, hi) => if Qeq_bool (hi - lo) 0 then Err ZeroDivisionError else Ok ((s - lo) / (hi - lo) * 2 - 1)%Q
  end.
Fixpoint mapM {A B} (f : A -> result B) (l : list A) : result (list B) :=
  match l with [] => Ok [] | x :: t => let! y := f x in let! ys := mapM f t in Ok (y :: ys) end.
(** task.py:47-58; the value of clip(result, -1, 1) on line 57 is dropped *)
Definition normalize (clipping : bool) (limits : list limit) (sensors : list Q) : result (list Q) :=
  if negb (length limits =? length sensors) then Err AssertionError else
  let! res := mapM (fun p => normalize1 (fst p) (snd p)) (combine limits sensors) in
  let _ := if clipping then map (fun x => clip x (-1) 1) res else res in
  Ok res.

(** task.py:64-71 *)
Definition denormalize1 (clipping : bool) (l : limit) (a : Q) : Q :=
  match l with
  | None => a
  | Some (lo, hi) => let r := ((a + 1) / 2 * (hi - lo) + lo)%Q in if clipping then clip r lo hi else r
  end.
(** task.py:60-73 *)
Definition denormalize (clipping : bool) (limits : list limit) (actors : list Q) : result (list Q) :=
  if negb (length limits =? length actors) then Err AssertionError else
  Ok (map (fun p => denormalize1 clipping (fst p) (snd p)) (combine limits actors)).

(** task.py:30-41 what reaches the environment, what reaches the agent; no limits at all or an empty list disable the scaling *)
Definition to_env (clipping : bool) (limits : option (list limit)) (action : list Q) : result (list Q) :=
  match limits with Some (l :: ls) => denormalize clipping (l :: ls) action | _ => Ok action end.
Definition to_agent (clipping : bool) (limits : option (list limit)) (sensors : list Q) : result (list Q) :=
  match limits with Some (l :: ls) => normalize clipping (l :: ls) sensors | _ => Ok sensors end.
