(** Model of the optimizers that adapt a search distribution (optimization/distributionbased): SNES (snes.py), exponential NES
    (xnes.py), CMA-ES (cmaes.py), FEM (fem.py) and the settings of Rank1NES (rank1.py), with the rankings they use
    (tools/rankingfunctions.py: rankedFitness, HansenRanking, TopLinearRanking) and the bookkeeping of
    optimizer.py that they read back (_allEvaluated, _allEvaluations, _wasOpposed).

    Numbers are exact reals.  Arrays have the lengths that numpy would insist on.  The draws of randn, rand, normal and
    multivariate_normal are arguments; a draw from multivariate_normal(mu, sigma) is mu plus a displacement.
    scipy's expm and numpy's eig are arguments.  The evaluator sees the number of evaluations made so far (it may be noisy) and
    returns a number: nan and inf (DivergenceError, C29-C31) are not modelled here.
    Python's log, exp, sqrt, ** are the real functions; a division by zero does not occur where the theorems hold.
    Not modelled: importance mixing (xNES), the learning step of Rank1NES, and in FEM several centers (rejected by an assertion),
    sampleElitism, oneFifthRule, doMadnessUpdate, adaptiveShaping, densities that are nan. *)
From Coq Require Import Reals R_Ifp.
From Verif Require Import Base StableSort Functions_Model.
Local Open Scope R_scope.
Notation vec := (list R).
Notation mat := (list (list R)).

(** ** arrays *)
Fixpoint sumn (n : nat) (f : nat -> R) : R := match n with O => 0 | S k => sumn k f + f k end.
Definition get (v : vec) (i : nat) : R := nth i v 0.
Definition mget (m : mat) (i j : nat) : R := get (nth i m []) j.
Definition tab (n : nat) (f : nat -> R) : vec := map f (seq 0 n).
Definition mtab (n m : nat) (f : nat -> nat -> R) : mat := map (fun i => tab m (f i)) (seq 0 n).
Definition vtotal (v : vec) : R := sumn (length v) (get v).
Definition delta (i j : nat) : R := if Nat.eqb i j then 1 else 0.
Definition eye (n : nat) : mat := mtab n n delta.
Definition mmul (n k m : nat) (a b : mat) : mat := mtab n m (fun i j => sumn k (fun l => mget a i l * mget b l j)).
Definition mtrans (n m : nat) (a : mat) : mat := mtab m n (fun i j => mget a j i).
Definition mvec (n k : nat) (a : mat) (v : vec) : vec := tab n (fun i => sumn k (fun l => mget a i l * get v l)).
Definition vmaxl (v : vec) : R := match v with [] => 0 | x :: l => fold_left Rmax l x end.
Definition norm2 (n : nat) (v : vec) : R := sqrt (sumn n (fun i => get v i * get v i)).

(** ** rankings *)
(** comparison of (fitness, index) tuples *)
Definition fit_leb (a b : R * nat) : bool :=
  if Rlt_dec (fst a) (fst b) then true else if Rlt_dec (fst b) (fst a) then false else Nat.leb (snd a) (snd b).
Definition sorted_pairs (l : vec) : list (R * nat) := isort fit_leb (combine l (seq 0 (length l))).
(** rankingfunctions.py:10-22 *)
Definition rankedFitness (l : vec) : list nat :=
  let s := sorted_pairs l in
  fold_left (fun res p => upd (snd (snd p)) (fst p) res) (combine (seq 0 (length s)) s) (repeat O (length l)).
(** rankingfunctions.py:96-102 *)
Definition hansen (l : vec) : vec :=
  map (fun r => Rmax 0 (ln (INR (length l) / 2 + 1) - ln (INR (length l) - INR r))) (rankedFitness l).
(** rankingfunctions.py:120-137, topFraction a parameter *)
Definition toplinear (topFraction : R) (l : vec) : vec :=
  let cutoff := INR (length l) * (1 - topFraction) in
  let res := map (fun r => if Rle_dec cutoff (INR r) then INR r - cutoff else 0) (rankedFitness l) in
  map (fun x => x / vmaxl res) res.

(** ** bookkeeping (optimizer.py): what the population based methods read back *)
Record store : Type := { st_x : list vec; st_e : list R; st_n : nat }.    (* _allEvaluated, _allEvaluations, numEvaluations *)
Definition evaluator := nat -> vec -> R.
(** optimizer.py:221-281 _oneEvaluation, with storeAllEvaluated and storeAllEvaluations; the internal evaluator is the opposite
    of the user's one when _wasOpposed *)
Definition internal (opposed : bool) (f : evaluator) : evaluator := fun n x => if opposed then - f n x else f n x.
Definition oneEvaluation (opposed : bool) (f : evaluator) (st : store) (x : vec) : store :=
  let res := internal opposed f (st_n st) x in
  {| st_x := st_x st ++ [x]; st_e := st_e st ++ [if opposed then - res else res]; st_n := S (st_n st) |}.

(** ** SNES *)
Record nes_cfg : Type := {
  nc_dim : nat; nc_centerRate : R; nc_covRate : R; nc_scaleRate : R; nc_batch : nat; nc_baseline : bool; nc_clear : bool;
  nc_opposed : bool; nc_initVariance : R; nc_cutoff : R }.
(** snes.py:45-51 *)
Definition snes_learningRate (n : nat) : R := 0.6 * (3 + ln (INR n)) / 3 / sqrt (INR n).
Definition default_batch (n : nat) : nat := 4 + Z.to_nat (Int_part (3 * ln (INR n))).
Definition snes_default (n : nat) (opposed : bool) : nes_cfg :=
  {| nc_dim := n; nc_centerRate := 1; nc_covRate := snes_learningRate n; nc_scaleRate := 0; nc_batch := default_batch n; nc_baseline := true;
     nc_clear := false; nc_opposed := opposed; nc_initVariance := 1; nc_cutoff := / 10 ^ 20 |}.
Record snes : Type := { sn_center : vec; sn_sigmas : vec; sn_store : store }.
Definition empty_store : store := {| st_x := []; st_e := []; st_n := 0 |}.
(** snes.py:53-60 *)
Definition snes_init (c : nes_cfg) (x0 : vec) : snes :=
  {| sn_center := x0; sn_sigmas := tab (nc_dim c) (fun _ => 1 * nc_initVariance c); sn_store := empty_store |}.
(** snes.py:79-85 *)
Definition snes_sample2base (c : nes_cfg) (s : snes) (z : vec) : vec :=
  tab (nc_dim c) (fun i => get (sn_sigmas s) i * get z i + get (sn_center s) i).
Definition snes_base2sample (c : nes_cfg) (s : snes) (e : vec) : vec :=
  tab (nc_dim c) (fun i => (get e i - get (sn_center s) i) / get (sn_sigmas s) i).
(** snes.py:62-74: the population and its evaluations, through the pointers *)
Definition population (st : store) (pointers : list nat) : list vec := map (fun i => nth i (st_x st) []) pointers.
Definition currentEvaluations (opposed : bool) (st : store) (pointers : list nat) : vec :=
  let fits := map (fun i => nth i (st_e st) 0) pointers in if opposed then map Ropp fits else fits.
(** snes.py:87-95 *)
Definition clear_store (clear : bool) (st : store) : store := if clear then {| st_x := []; st_e := []; st_n := st_n st |} else st.
Definition produceSamples (c : nes_cfg) (f : evaluator) (s2b : vec -> vec) (draws : list vec) (st : store) : store * list nat :=
  let st0 := clear_store (nc_clear c) st in
  let tmp := map s2b draws in
  let st1 := fold_left (oneEvaluation (nc_opposed c) f) tmp st0 in
  (st1, seq (length (st_x st1) - nc_batch c) (nc_batch c)).
(** snes.py:102-106 *)
Definition utilities (c : nes_cfg) (evals : vec) : vec :=
  let h := hansen evals in
  let u := map (fun x => x / vtotal h) h in
  if nc_baseline c then map (fun x => x - 1 / INR (nc_batch c)) u else u.
(** snes.py:97-116; [draws] are the batchSize results of randn *)
Definition snes_step (c : nes_cfg) (f : evaluator) (draws : list vec) (s : snes) : snes :=
  let '(st, pointers) := produceSamples c f (snes_sample2base c s) draws (sn_store s) in
  let samples := map (snes_base2sample c s) (population st pointers) in
  let u := utilities c (currentEvaluations (nc_opposed c) st pointers) in
  let dCenter := tab (nc_dim c) (fun i => sumn (nc_batch c) (fun k => get u k * mget samples k i)) in
  let center := tab (nc_dim c) (fun i => get (sn_center s) i + nc_centerRate c * get (sn_sigmas s) i * get dCenter i) in
  let covGradient := tab (nc_dim c) (fun i => sumn (nc_batch c) (fun k => get u k * (mget samples k i ^ 2 - 1))) in
  let sigmas := tab (nc_dim c) (fun i => get (sn_sigmas s) i * exp (0.5 * nc_covRate c * get covGradient i)) in
  {| sn_center := center; sn_sigmas := sigmas; sn_store := st |}.
Definition snes_run (c : nes_cfg) (f : evaluator) (batches : list (list vec)) (s : snes) : snes :=
  fold_left (fun s draws => snes_step c f draws s) batches s.
(** snes.py:36-42: the criterion that SNES adds *)
Definition snes_stop (c : nes_cfg) (s : snes) : bool := if Rlt_dec (vmaxl (map Rabs (sn_sigmas s))) (nc_cutoff c) then true else false.

(** ** xNES *)
Record xnes : Type := { xn_center : vec; xn_A : mat; xn_invA : mat; xn_logDetA : R; xn_store : store }.
(** xnes.py:35-58 *)
Definition xnes_learningRate (n : nat) : R := 0.6 * (3 + ln (INR n)) / INR n / sqrt (INR n).
Definition xnes_init (c : nes_cfg) (x0 : vec) : xnes :=
  {| xn_center := x0; xn_A := eye (nc_dim c); xn_invA := eye (nc_dim c); xn_logDetA := 0; xn_store := empty_store |}.
(** xnes.py:111-121 *)
Definition xnes_sample2base (c : nes_cfg) (s : xnes) (z : vec) : vec :=
  tab (nc_dim c) (fun i => get (mvec (nc_dim c) (nc_dim c) (xn_A s) z) i + get (xn_center s) i).
Definition xnes_base2sample (c : nes_cfg) (s : xnes) (e : vec) : vec :=
  mvec (nc_dim c) (nc_dim c) (xn_invA s) (tab (nc_dim c) (fun i => get e i - get (xn_center s) i)).
(** xnes.py:60-88, without importance mixing and without storeAllDistributions *)
Definition xnes_dA (c : nes_cfg) (covGradient : mat) : mat :=
  let n := nc_dim c in
  let covTrace := sumn n (fun i => mget covGradient i i) in
  let cov1 := mtab n n (fun i j => mget covGradient i j - covTrace / INR n * delta i j) in
  mtab n n (fun i j => 0.5 * (nc_scaleRate c * covTrace / INR n * delta i j + nc_covRate c * mget cov1 i j)).
Definition xnes_step (expm : mat -> mat) (c : nes_cfg) (f : evaluator) (draws : list vec) (s : xnes) : xnes :=
  let n := nc_dim c in
  let '(st, pointers) := produceSamples c f (xnes_sample2base c s) draws (xn_store s) in
  let u := utilities c (currentEvaluations (nc_opposed c) st pointers) in
  let samples := map (xnes_base2sample c s) (population st pointers) in
  let dCenter := tab n (fun i => sumn (nc_batch c) (fun k => mget samples k i * get u k)) in
  let covGradient := mtab n n (fun i j => sumn (nc_batch c) (fun k => (mget samples k j * mget samples k i - delta j i) * get u k)) in
  let covTrace := sumn n (fun i => mget covGradient i i) in
  let dA := xnes_dA c covGradient in
  let ndA := mtab n n (fun i j => - mget dA i j) in
  {| xn_center := tab n (fun i => get (xn_center s) i + nc_centerRate c * get (mvec n n (xn_A s) dCenter) i);
     xn_A := mmul n n n (xn_A s) (expm dA);
     xn_invA := mmul n n n (expm ndA) (xn_invA s);
     xn_logDetA := xn_logDetA s + 0.5 * nc_scaleRate c * covTrace;
     xn_store := st |}.
Definition xnes_run (expm : mat -> mat) (c : nes_cfg) (f : evaluator) (batches : list (list vec)) (s : xnes) : xnes :=
  fold_left (fun s draws => xnes_step expm c f draws s) batches s.

(** ** Rank1NES: the settings in force after _additionalInit (rank1.py:37-56) *)
Record r1_settings : Type := { r1_cov : option R; r1_scale : option R; r1_batch : option nat; r1_baseline : bool }.
Definition r1_in_force (n : nat) (user : r1_settings) : r1_settings :=
  let s1 := {| r1_cov := match r1_cov user with Some x => Some x | None => Some (xnes_learningRate n) end; r1_scale := r1_scale user;
               r1_batch := r1_batch user; r1_baseline := r1_baseline user |} in
  let s2 := {| r1_cov := r1_cov s1; r1_scale := match r1_scale s1 with Some x => Some x | None => r1_cov s1 end;
               r1_batch := match r1_batch s1 with Some x => Some x | None => Some (default_batch n) end; r1_baseline := r1_baseline s1 |} in
  {| r1_cov := Some 0.1; r1_scale := Some 0.1;
     r1_batch := Some (Z.to_nat (Int_part (Rmax 5 (Rmax (4 * (ln (INR n) / ln 2)) (0.2 * INR n))))); r1_baseline := false |}.

(** ** CMA-ES *)
(** cmaes.py:34-51: the strategy parameters; [m] is mu *)
Definition cma_raw (m i : nat) : R := ln (INR m + 1) - ln (INR (S i)).
Definition cma_weights (m : nat) : vec := tab m (fun i => cma_raw m i / sumn m (cma_raw m)).
Definition cma_mueff (m : nat) : R := (sumn m (get (cma_weights m))) ^ 2 / sumn m (fun i => get (cma_weights m) i ^ 2).
Definition cma_cumCov (n : nat) : R := 4 / (INR n + 4).
Definition cma_cumStep (n : nat) (mueff : R) : R := (mueff + 2) / (INR n + mueff + 3).
Definition cma_covRate (n : nat) (mueff : R) : R :=
  (1 / mueff) * 2 / (INR n + 1.4) ^ 2 + (1 - 1 / mueff) * ((2 * mueff - 1) / ((INR n + 2) ^ 2 + 2 * mueff)).
Definition cma_dampings (n : nat) (mueff : R) : R := 1 + 2 * Rmax 0 (sqrt ((mueff - 1) / (INR n + 1)) - 1) + cma_cumStep n mueff.
Definition cma_chiN (n : nat) : R := sqrt (INR n) * (1 - 1 / (4 * INR n) + 1 / (21 * INR n ^ 2)).
Record cma_par : Type := {
  cp_dim : nat; cp_batch : nat; cp_mu : nat; cp_weights : vec; cp_mueff : R; cp_cumCov : R; cp_cumStep : R; cp_covRate : R;
  cp_dampings : R; cp_chiN : R; cp_opposed : bool; cp_stopPrecision : R }.
(** cmaes.py:25-51 and 127-129 (batchSize) *)
Definition cma_params (n : nat) (opposed : bool) (stopPrecision : R) : cma_par :=
  let b := default_batch n in
  let m := (b / 2)%nat in
  let e := cma_mueff m in
  {| cp_dim := n; cp_batch := b; cp_mu := m; cp_weights := cma_weights m; cp_mueff := e; cp_cumCov := cma_cumCov n; cp_cumStep := cma_cumStep n e;
     cp_covRate := cma_covRate n e; cp_dampings := cma_dampings n e; cp_chiN := cma_chiN n; cp_opposed := opposed; cp_stopPrecision := stopPrecision |}.
Record cma : Type := {
  cm_center : vec; cm_step : R; cm_covPath : vec; cm_stepPath : vec; cm_B : mat; cm_D : mat; cm_C : mat; cm_n : nat; cm_stop : bool }.
(** cmaes.py:26-29 and 53-60 *)
Definition cma_init (p : cma_par) (x0 : vec) (initStep : R) : cma :=
  let n := cp_dim p in
  let bd := mmul n n n (eye n) (eye n) in
  {| cm_center := x0; cm_step := initStep; cm_covPath := tab n (fun _ => 0); cm_stepPath := tab n (fun _ => 0); cm_B := eye n; cm_D := eye n;
     cm_C := mmul n n n bd (mtrans n n bd); cm_n := 0; cm_stop := false |}.
(** cmaes.py:132-137 sorti *)
Definition sorti (v : vec) : vec * list nat := (map fst (sorted_pairs v), map snd (sorted_pairs v)).
(** x[:, index] *)
Definition columns (n : nat) (a : mat) (index : list nat) : mat := map (fun i => map (mget a i) index) (seq 0 n).
(** cmaes.py:112-124: the two tests that end the run *)
Definition cma_converged (p : cma_par) (first last : R) : bool :=
  if Req_EM_T first last then true
  else if Rle_dec (Rabs (first - last) / (Rabs first + Rabs last)) (cp_stopPrecision p) then true else false.
Definition vminl (v : vec) : R := match v with [] => 0 | x :: l => fold_left Rmin l x end.
(** cmaes.py:63-71: the offspring (as columns) and their fitnesses; [arz0] is the draw of randn(numParameters, batchSize) *)
Definition cma_bd (p : cma_par) (s : cma) : mat := mmul (cp_dim p) (cp_dim p) (cp_dim p) (cm_B s) (cm_D s).
Definition cma_points (p : cma_par) (s : cma) (arz0 : mat) : mat :=
  let bdz := mmul (cp_dim p) (cp_dim p) (cp_batch p) (cma_bd p s) arz0 in
  mtab (cp_dim p) (cp_batch p) (fun i k => get (cm_center s) i + cm_step s * mget bdz i k).
Definition cma_fitness (p : cma_par) (f : evaluator) (s : cma) (arx0 : mat) : vec :=
  map (fun k => internal (cp_opposed p) f (cm_n s + k)%nat (tab (cp_dim p) (fun i => mget arx0 i k))) (seq 0 (cp_batch p)).
(** cmaes.py:73-124; [eig] is numpy's *)
Definition cma_update (eig : mat -> vec * mat) (p : cma_par) (s : cma) (arz0 arx0 : mat) (arfitness : vec) (arindex : list nat) : cma :=
  let n := cp_dim p in let lam := cp_batch p in let mu := cp_mu p in let w := cp_weights p in
  let bd := cma_bd p s in
  let numEvaluations := (cm_n s + lam)%nat in
  let arz := columns n arz0 arindex in
  let arx := columns n arx0 arindex in
  let arzsel := columns n arz (seq 0 mu) in
  let arxsel := columns n arx (seq 0 mu) in
  let arxmut := mtab n mu (fun i k => mget arxsel i k - get (cm_center s) i) in
  let zmean := mvec n mu arzsel w in
  let center := mvec n mu arxsel w in
  let stepPath := tab n (fun i => (1 - cp_cumStep p) * get (cm_stepPath s) i
      + sqrt (cp_cumStep p * (2 - cp_cumStep p) * cp_mueff p) * get (mvec n n (cm_B s) zmean) i) in
  let hsig := if Rlt_dec (norm2 n stepPath / sqrt (1 - Rpower (1 - cp_cumStep p) (2 * INR numEvaluations / INR lam)) / cp_chiN p) (1.4 + 2 / (INR n + 1))
    then 1 else 0 in
  let covPath := tab n (fun i => (1 - cp_cumCov p) * get (cm_covPath s) i
      + hsig * sqrt (cp_cumCov p * (2 - cp_cumCov p) * cp_mueff p) * get (mvec n n bd zmean) i) in
  let diagw := mtab mu mu (fun i j => if Nat.eqb i j then get w i else 0) in
  let rankmu := mmul n mu n (mmul n mu mu arxmut diagw) (mtrans n mu arxmut) in
  let C1 := mtab n n (fun i j => (1 - cp_covRate p) * mget (cm_C s) i j
      + cp_covRate p * (1 / cp_mueff p) * (get covPath i * get covPath j + (1 - hsig) * cp_cumCov p * (2 - cp_cumCov p) * mget (cm_C s) i j)
      + cp_covRate p * (1 - 1 / cp_mueff p) * mget rankmu i j) in
  let step := cm_step s * exp ((cp_cumStep p / cp_dampings p) * (norm2 n stepPath / cp_chiN p - 1)) in
  let C2 := mtab n n (fun i j => (mget C1 i j + mget C1 j i) / 2) in
  let '(Ev, B) := eig C2 in
  let D := mtab n n (fun i j => if Nat.eqb i j then sqrt (get Ev i) else 0) in
  let stop := cma_converged p (get arfitness 0) (get arfitness (length arfitness - 1)) || (if Rlt_dec (10 ^ 5) (vminl Ev) then true else false) in
  {| cm_center := center; cm_step := step; cm_covPath := covPath; cm_stepPath := stepPath; cm_B := B; cm_D := D; cm_C := C2; cm_n := numEvaluations;
     cm_stop := cm_stop s || stop |}.
Definition cma_step (eig : mat -> vec * mat) (p : cma_par) (f : evaluator) (arz0 : mat) (s : cma) : cma :=
  let arx0 := cma_points p s arz0 in
  let '(arfitness, arindex) := sorti (cma_fitness p f s arx0) in
  cma_update eig p s arz0 arx0 arfitness arindex.
Definition cma_run (eig : mat -> vec * mat) (p : cma_par) (f : evaluator) (batches : list mat) (s : cma) : cma :=
  fold_left (fun s z => cma_step eig p f z s) batches s.

(** ** FEM, with one center *)
Record fem_cfg : Type := {
  fc_dim : nat; fc_diagonal : bool; fc_forget : R; fc_muMult : R; fc_window : nat; fc_top : R; fc_elitism : bool; fc_shift : bool;
  fc_mutative : bool; fc_minimize : bool }.
Record fem : Type := {
  fe_mu : vec; fe_sigma : mat; fe_dsigma : vec;         (* mus[0]; sigmas[0], as a matrix or (diagonalOnly) as a vector *)
  fe_shift : vec;                                       (* meanShifts[0] *)
  fe_fits : vec; fe_count : nat;                        (* fitnesses (the window), len(allsamples) *)
  fe_best : vec; fe_bestE : R; fe_n : nat }.            (* bestEvaluable, bestEvaluation, numEvaluations *)
(** optimizer.py:239-246: keeping the best *)
Definition better_eq (minimize : bool) (new old : R) : bool := if minimize then (if Rle_dec new old then true else false) else (if Rle_dec old new then true else false).
(** fem.py:57-95; [r] is the draw of rand, between 0 and 1; the ranges are the default -1..1, the covariances the default *)
Definition fem_init (c : fem_cfg) (f : evaluator) (x0 : vec) (r : vec) : fem :=
  let n := fc_dim c in
  {| fe_mu := tab n (fun i => get r i * (1 - -1) + -1); fe_sigma := eye n; fe_dsigma := tab n (fun _ => 1); fe_shift := tab n (fun _ => 0);
     fe_fits := tab (fc_window c) (fun _ => 0); fe_count := 0; fe_best := x0; fe_bestE := f O x0; fe_n := 1 |}.
(** fem.py:98-131: the center may be moved in place by the mean shift; z is the draw *)
Definition fem_shifted (c : fem_cfg) (s : fem) : vec :=
  if fc_shift c && (Nat.eqb (fe_count s mod 2) 1 && Nat.ltb 1 (fe_count s)) && negb (fc_elitism c)
  then tab (fc_dim c) (fun i => get (fe_mu s) i + get (fe_shift s) i) else fe_mu s.
Definition fem_sample (c : fem_cfg) (s : fem) (z : vec) : vec :=
  let mu := fem_shifted c s in
  tab (fc_dim c) (fun i => get mu i + (if fc_diagonal c then get (fe_dsigma s) i * get z i else get z i)).
(** fem.py:152-163; with one center the density is 1 *)
Definition fem_updateSize (c : fem_cfg) (fits : vec) (k : nat) : R :=
  let t := toplinear (fc_top c) fits in
  let t' := map (fun x => x / vmaxl t) t in
  get t' k * fc_forget c.
(** fem.py:165-188 *)
Definition fem_newmu (c : fem_cfg) (mu : vec) (u : R) (x : vec) : vec :=
  tab (fc_dim c) (fun i => get mu i * (1 - fc_muMult c * u) + fc_muMult c * u * get x i).
(** fem.py:167-174: oldmu is the array that the two updates change in place, so that it equals the new center *)
Definition fem_newshift (c : fem_cfg) (count : nat) (shift mu : vec) (u : R) (x : vec) : vec :=
  let mu' := fem_newmu c mu u x in
  let oldmu := mu' in
  if fc_shift c && Nat.eqb (count mod fc_window c) 1
  then tab (fc_dim c) (fun i => get shift i * (1 - fc_forget c) + (get mu' i - get oldmu i)) else shift.
(** fem.py:190-197 *)
Definition fem_newsigma (c : fem_cfg) (sigma : mat) (mu : vec) (u : R) (x : vec) : mat :=
  mtab (fc_dim c) (fc_dim c) (fun i j => mget sigma i j * (1 - u) + u * 1.2 * ((get mu i - get x i) * (get mu j - get x j))).
Definition fem_newdsigma (c : fem_cfg) (dsigma mu : vec) (u : R) (x : vec) : vec :=
  tab (fc_dim c) (fun i => get dsigma i * (1 - u) + u * ((get mu i - get x i) * (get mu i - get x i))).
(** fem.py:240-268 *)
Definition fem_step (c : fem_cfg) (f : evaluator) (z : vec) (s : fem) : fem :=
  let k := (fe_count s mod fc_window c)%nat in
  let mu := fem_shifted c s in
  let x := fem_sample c s z in
  let fit := f (fe_n s) x in
  let bet := better_eq (fc_minimize c) fit (fe_bestE s) in
  let best := if bet then x else fe_best s in
  let bestE := if bet then fit else fe_bestE s in
  let fits := upd k (if fc_minimize c then - fit else fit) (fe_fits s) in
  let count := S (fe_count s) in
  let done mu' sigma dsigma shift :=
    {| fe_mu := mu'; fe_sigma := sigma; fe_dsigma := dsigma; fe_shift := shift; fe_fits := fits; fe_count := count; fe_best := best; fe_bestE := bestE;
       fe_n := S (fe_n s) |} in
  if Nat.ltb count (fc_window c) then done mu (fe_sigma s) (fe_dsigma s) (fe_shift s)
  else
    let u := fem_updateSize c fits k in
    if Rlt_dec 0 u then
      let mu1 := fem_newmu c mu u x in
      let shift1 := fem_newshift c count (fe_shift s) mu u x in
      let mu2 := if fc_elitism c then best else mu1 in
      let musig := if fc_mutative c then mu else mu2 in
      done mu2 (fem_newsigma c (fe_sigma s) musig u x) (fem_newdsigma c (fe_dsigma s) musig u x) shift1
    else done mu (fe_sigma s) (fe_dsigma s) (fe_shift s).
Definition fem_run (c : fem_cfg) (f : evaluator) (draws : list vec) (s : fem) : fem := fold_left (fun s z => fem_step c f z s) draws s.
