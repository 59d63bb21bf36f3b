(** Model of importance mixing (auxiliary/importancemixing.py:8-32).

    The densities are functions to exact numbers, dividing by a density that is 0 raises (as for Python's floats).  The draws of
    uniform(0, 1) for the old points are a list, those of uniform and newdistr for the new points a list of pairs: the run consumes as
    many as it needs, [OutOfFuel] means that it would draw on. *)
From Verif Require Import Base.
From Coq Require Import QArith Qminmax.
Local Open Scope nat_scope.

Definition qltb (a b : Q) : bool := negb (Qle_bool b a).
Definition qdiv (a b : Q) : result Q := if Qeq_bool b 0 then Err ZeroDivisionError else Ok (a / b)%Q.
Definition ofnat (n : nat) : Q := inject_Z (Z.of_nat n).

Section Mixing.
Context {P : Type} (oldpdf newpdf : P -> Q) (forcedRefresh : Q).

(** importancemixing.py:15-21: reuseindices is accumulated, i is the index of the next point *)
Fixpoint reuse_loop (batch i : nat) (points : list P) (draws : list Q) (reuse : list nat) : result (list nat) :=
  match points with
  | [] => Ok reuse
  | sample :: pts =>
      match draws with
      | [] => Err OutOfFuel
      | r :: rs =>
          let! q := qdiv ((1 - forcedRefresh) * newpdf sample) (oldpdf sample) in
          let reuse' := if qltb r q then reuse ++ [i] else reuse in
          if Qle_bool (ofnat batch - ofnat (length reuse')) (Qmax 1 (ofnat batch * forcedRefresh)) then Ok reuse'
          else reuse_loop batch (S i) pts rs reuse'
      end
  end.
(** importancemixing.py:24-31: need is the number of points that are missing *)
Fixpoint new_loop (need : nat) (draws : list (Q * P)) (new : list P) : result (list P) :=
  match need with
  | 0 => Ok new
  | S need' =>
      match draws with
      | [] => Err OutOfFuel
      | (r, sample) :: ds =>
          if qltb r forcedRefresh then new_loop need' ds (new ++ [sample])
          else let! q := qdiv (oldpdf sample) (newpdf sample) in
               if qltb r (1 - q) then new_loop need' ds (new ++ [sample]) else new_loop need ds new
      end
  end.
Definition importanceMixing (oldpoints : list P) (draws1 : list Q) (draws2 : list (Q * P)) : result (list nat * list P) :=
  let! reuse := reuse_loop (length oldpoints) 0 oldpoints draws1 [] in
  let! new := new_loop (length oldpoints - length reuse) draws2 [] in
  Ok (reuse, new).
End Mixing.
