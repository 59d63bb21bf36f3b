(** Model of optimization/finitedifference: FiniteDifferences (fd.py), SimpleSPSA (spsa.py) and PGPE (pgpe.py),
    with GradientDescent without rprop (auxiliary/gradientdescent.py) and the best value kept by _oneEvaluation.

    Numbers are exact reals and never nan; random draws are arguments; scipy's pinv is an argument.
    `self.current` and `gd.values`, `sigList` and `gdSig.values` become the same array after the first step, but are never
    written to except by the descent, so they are kept as separate values.
    Not modelled: rprop (C27), the rest of the bookkeeping (C29). *)
From Coq Require Import Reals.
From Verif Require Import Base.
From Verif Require Import Functions_Model.
Local Open Scope R_scope.
Notation vec := (list R).

(** gradientdescent.py:50-52, 81-92 *)
Record gd := mkgd { gd_values : vec; gd_mv : vec; gd_alpha : R }.
Definition gd_init (alpha : R) (values : vec) : gd := mkgd values (map (fun _ => 0) values) alpha.
Definition gd_call (momentum alphadecay : R) (s : gd) (g : vec) : result gd :=
  if negb (length g =? length (gd_values s))%nat then Err AssertionError else
  let mv := rzip Rplus (map (fun m => m * momentum) (gd_mv s)) (map (fun x => gd_alpha s * x) g) in
  Ok (mkgd (rzip Rplus (gd_values s) mv) mv (gd_alpha s * alphadecay)).

(** optimizer.py:244-249: the best evaluation so far *)
Definition upd_best (minimize : bool) (best : option R) (res : R) : R :=
  match best with
  | None => res
  | Some b => if minimize then (if Rle_dec res b then res else b) else (if Rle_dec b res then res else b)
  end.

Section Fd.
Context (momentum alphadecay : R) (minimize : bool) (f : vec -> R).

(** ** fd.py *)
Record fd := mkfd { fd_current : vec; fd_gd : gd; fd_epsilon : R; fd_best : option R }.
(** 23-32 *)
Definition fd_init (alpha epsilon : R) (x0 : vec) : fd := mkfd x0 (gd_init alpha x0) epsilon None.
Definition mat_vec (D : list vec) (v : vec) : vec := map (fun row => rdot row v) D.
(** 34-39, 51-55: draws in [-1, 1] *)
Fixpoint fd_batch (gamma : R) (us : list vec) (s : fd) : fd * list vec * vec :=
  match us with
  | [] => (s, [], [])
  | u :: r =>
      let deltas := map (fun a => fd_epsilon s * a) u in
      let x := rzip Rplus (fd_current s) deltas in
      let '(s', D, Rs) := fd_batch gamma r (mkfd (fd_current s) (fd_gd s) (fd_epsilon s * gamma) (Some (upd_best minimize (fd_best s) (f x)))) in
      (s', deltas :: D, f x :: Rs)
  end.
(** 41-60 *)
Definition fd_learnStep (pinv : list vec -> list vec) (gamma : R) (us : list vec) (s : fd) : result fd :=
  let '(s', D, Rs) := fd_batch gamma us s in
  let gradient := mat_vec (pinv D) Rs in
  let! g := gd_call momentum alphadecay (fd_gd s') gradient in
  Ok (mkfd (gd_values g) g (fd_epsilon s') (fd_best s')).

(** ** spsa.py *)
Record spsa := mkspsa { sp_current : vec; sp_gd : gd; sp_epsilon : R; sp_baseline : option R; sp_best : option R }.
Definition spsa_init (alpha epsilon : R) (x0 : vec) : spsa := mkspsa x0 (gd_init alpha x0) epsilon None None.
(** the normalised difference of the two rewards, spsa.py:46-50 and pgpe.py:56-60 *)
Definition fakt_of (best r1 r2 : R) : result R :=
  if Req_EM_T r1 r2 then Ok 0 else if Req_EM_T (2 * best - r1 - r2) 0 then Err ZeroDivisionError else Ok ((r1 - r2) / (2 * best - r1 - r2)).
(** 20-58; signs are 1 or -1 *)
Definition spsa_learnStep (gamma : R) (signs : vec) (s : spsa) : result spsa :=
  let deltas := map (fun a => a * sp_epsilon s) signs in
  let epsilon := sp_epsilon s * gamma in
  let reward1 := f (rzip Rplus (sp_current s) deltas) in
  let best1 := upd_best minimize (sp_best s) reward1 in
  let reward2 := f (rzip Rminus (sp_current s) deltas) in
  let best := upd_best minimize (Some best1) reward2 in
  let mreward := (reward1 + reward2) / 2 in
  let! bf := match sp_baseline s with
             | None => Ok (mreward * 0.99, 0)
             | Some b => let! x := fakt_of best reward1 reward2 in Ok (b, x)
             end in
  let baseline := 0.9 * fst bf + 0.1 * mreward in
  let! g := gd_call momentum alphadecay (sp_gd s) (map (fun d => snd bf * epsilon * epsilon / d) deltas) in
  Ok (mkspsa (gd_values g) g epsilon (Some baseline) (Some best)).

(** ** pgpe.py *)
Inductive exploration := Local | Global | Cma | Other.
Record pgpe := mkpgpe { pg_current : vec; pg_gd : gd; pg_sig : vec; pg_gdsig : gd; pg_baseline : option R; pg_best : option R }.
(** 28-36 *)
Definition pgpe_init (alpha alphasig epsilon : R) (x0 : vec) : pgpe :=
  let sig := map (fun _ => epsilon) x0 in mkpgpe x0 (gd_init alpha x0) sig (gd_init alphasig sig) None None.
(** 42-90; deltas is the perturbation that was drawn *)
Definition pgpe_learnStep (ex : exploration) (wDecay : R) (deltas : vec) (s : pgpe) : result pgpe :=
  let reward1 := f (rzip Rplus (pg_current s) deltas) in
  let best1 := upd_best minimize (pg_best s) reward1 in
  let reward2 := f (rzip Rminus (pg_current s) deltas) in
  let best := upd_best minimize (Some best1) reward2 in
  let mreward := (reward1 + reward2) / 2 in
  let! bff := match pg_baseline s with
              | None => Ok (mreward, 0, 0)
              | Some b =>
                  let! x := fakt_of best reward1 reward2 in
                  let fakt2 := if Req_EM_T (best - b) 0 then 0 else (mreward - b) / (best - b) in
                  Ok (b, x, fakt2)
              end in
  let '(b, fakt, fakt2) := bff in
  let baseline := 0.9 * b + 0.1 * mreward in
  let! g := gd_call momentum alphadecay (pg_gd s)
              (rzip Rminus (map (fun d => fakt * d) deltas) (map (fun a => a * wDecay) (rzip Rmult (pg_current s) (pg_sig s)))) in
  if Rlt_dec 0 fakt2 then
    match ex with
    | Global => Err AttributeError          (* self.deltas is not an attribute *)
    | Cma | Other => Err NotImplementedError
    | Local =>
        let! gs := gd_call 0 1 (pg_gdsig s) (rzip (fun d sg => fakt2 * (d * d - sg * sg) / sg) deltas (pg_sig s)) in
        Ok (mkpgpe (gd_values g) g (gd_values gs) gs (Some baseline) (Some best))
    end
  else Ok (mkpgpe (gd_values g) g (pg_sig s) (pg_gdsig s) (Some baseline) (Some best)).

(** any number of steps *)
Fixpoint iter {A S} (step : A -> S -> result S) (l : list A) (s : S) : result S :=
  match l with [] => Ok s | a :: r => let! s' := step a s in iter step r s' end.
End Fd.
