(** Model of universal search (rl/learners/meta/levinsearch.py) and of the simple race environment, task and controller
    (rl/environments/simplerace/).

    The generator is a function from positions to the programs with their complexities (None: StopIteration); running a
    program gives whether its result equals True, or None when it never returns (DivergenceError for the search).  Loops
    without an end take fuel.  For the race the server's messages are arguments, already split and their numbers read
    (under Python 3 string.split does not exist and the socket takes bytes; the model follows Python 2); printing is left out. *)
From Verif Require Import Base.
From Coq Require Import Reals.
Local Open Scope nat_scope.

(** ** levinsearch.py *)
Section Levin.
  Context {P : Type} (gen : nat -> option (nat * P)) (runp : P -> option bool).
  (** the dictionary [complexities] *)
  Definition table : Type := nat -> option (list P).
  (** 36-39 *)
  Definition record (t : table) (c : nat) (p : P) : table :=
    fun k => if k =? c then Some (match t c with None => [p] | Some l => l ++ [p] end) else t k.
  (** 30-39; [c] the last complexity, [pos] the position of the iterator *)
  Fixpoint draw (fuel maxLevin c pos : nat) (t : table) : result (nat * table) :=
    match fuel with
    | 0 => Err OutOfFuel
    | S f =>
        if c <=? maxLevin then
          match gen pos with
          | None => Ok (pos, t)
          | Some (c', p) => draw f maxLevin c' (pos + 1) (record t c' p)
          end
        else Ok (pos, t)
    end.
  (** 44-48; 4-7: the time limit is not enforced *)
  Fixpoint execute (l : list P) : result bool :=
    match l with
    | [] => Ok false
    | p :: r => match runp p with None => Err DivergenceError | Some true => Ok true | Some false => execute r end
    end.
  (** 43-48 *)
  Fixpoint levels (cs : list nat) (t : table) : result bool :=
    match cs with
    | [] => Ok false
    | c :: r => match t c with None => Err KeyError | Some l => let! b := execute l in if b then Ok true else levels r t end
    end.
  (** 27-50; gives the phase in which True is returned *)
  Fixpoint phases (fuel df maxLevin pos : nat) (t : table) : result nat :=
    match fuel with
    | 0 => Err OutOfFuel
    | S f =>
        let! d := draw df maxLevin 0 pos t in
        let! b := levels (seq 0 maxLevin) (snd d) in
        if b then Ok maxLevin else phases f df (maxLevin + 1) (fst d) (snd d)
    end.
  (** 18-50 *)
  Definition levinRun (fuel df : nat) : result nat := phases fuel df 1 0 (fun _ => None).
End Levin.

(** ** simpleracetcp.py *)
Record race := { r_first : nat; r_second : nat; r_last : R * R; r_next : R * R; r_step : nat; r_ready : bool; r_wait : bool; r_sensors : list R }.
(** the server's messages: "reset...", "data" with the numbers inputs[2:20], anything else *)
Inductive msg := MReset | MData (l : list R) | MOther.
(** 102-109 *)
Definition raceReset (s : race) : race :=
  {| r_first := 0; r_second := 0; r_last := (0, 0)%R; r_next := (0, 0)%R; r_step := 0; r_ready := r_ready s; r_wait := false; r_sensors := repeat 0%R 7 |}.
(** 21-27 *)
Definition newRace : race :=
  {| r_first := 0; r_second := 0; r_last := (0, 0)%R; r_next := (0, 0)%R; r_step := 0; r_ready := false; r_wait := false; r_sensors := repeat 0%R 7 |}.
(** 35-55 *)
Definition command (a0 a1 : R) : nat :=
  if Rlt_dec (3 / 10) a0 then
    if Rlt_dec (3 / 10) a1 then 8 else if Rlt_dec a1 (- (3 / 10)) then 6 else 7
  else if Rlt_dec a0 (- (3 / 10)) then
    if Rlt_dec (3 / 10) a1 then 2 else if Rlt_dec a1 (- (3 / 10)) then 0 else 1
  else
    if Rlt_dec (3 / 10) a1 then 5 else if Rlt_dec a1 (- (3 / 10)) then 3 else 4.
(** 111-112 *)
Definition euclidean (p q : R * R) : R := sqrt ((fst p - fst q) ^ 2 + (snd p - snd q) ^ 2).
(** 74-96 *)
Definition getData (s : race) (l : list R) : result race :=
  match nth_error l 16, nth_error l 17 with
  | Some wx, Some wy =>
      let done f g := Ok {| r_first := f; r_second := g; r_last := (wx, wy); r_next := r_next s; r_step := r_step s + 1; r_ready := r_ready s; r_wait := r_wait s; r_sensors := firstn 7 l |} in
      if Req_EM_T (fst (r_last s)) 0 then done (r_first s) (r_second s)
      else if Req_EM_T wx (fst (r_last s)) then done (r_first s) (r_second s)
      else if Req_EM_T wx (fst (r_next s)) then
        let own := (nth 7 l 0, nth 8 l 0)%R in
        let other := (nth 12 l 0, nth 13 l 0)%R in
        if Rlt_dec (euclidean own (r_last s)) (euclidean other (r_last s)) then done (r_first s + 1) (r_second s) else done (r_first s) (r_second s + 1)
      else Err PlainException
  | _, _ => Err IndexError
  end.
(** 32-100: the command sent, if any, and the new state *)
Definition racePerform (s : race) (a : R * R) (m : msg) : result (option nat * race) :=
  let sent := if r_wait s then None else if r_ready s then Some (command (fst a) (snd a)) else None in
  let s1 := {| r_first := r_first s; r_second := r_second s; r_last := r_last s; r_next := r_next s; r_step := r_step s; r_ready := r_ready s; r_wait := false; r_sensors := r_sensors s |} in
  match m with
  | MReset => let z := raceReset s1 in
      Ok (sent, {| r_first := r_first z; r_second := r_second z; r_last := r_last z; r_next := r_next z; r_step := r_step z; r_ready := true; r_wait := true; r_sensors := r_sensors z |})
  | MData l => let! s2 := getData s1 l in Ok (sent, s2)
  | MOther => Ok (sent, s1)
  end.
Fixpoint raceRun (s : race) (l : list (R * R * msg)) : result (list (option nat) * race) :=
  match l with
  | [] => Ok ([], s)
  | (a, m) :: rest => let! x := racePerform s a m in let! y := raceRun (snd x) rest in Ok (fst x :: fst y, snd y)
  end.
(** simpleracetask.py:8-10 *)
Definition getTotalReward (s : race) : nat := r_first s.
(** simplecontroller.py:22-32 *)
Definition controller (speed angle : R) : R * R := ((if Rlt_dec speed 10 then 1 else 0)%R, (if Rlt_dec 0 angle then -1 else 1)%R).
