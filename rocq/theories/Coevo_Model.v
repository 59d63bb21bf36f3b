(** Model of optimization/populationbased/coevolution: Coevolution (coevolution.py), CompetitiveCoevolution
    (competitivecoevolution.py) and MultiPopulationCoevolution (multipopulationcoevolution.py).

    Individuals are objects: numbers that index the memory, which holds what an individual encodes (a parameter P of the model)
    and its attribute parent.  Equality and hashing are by identity (no modelled class defines __eq__).
    mutate, randomize and the averaging of parameters are arguments.  Every result of the random module comes from an unlimited stream of
    numbers d with a clock in the state: choice takes one, shuffle and sample as many as the list is long (every permutation and every
    sample is obtained for some stream).  The order of list(set(...)) is such a permutation too.
    The relative evaluator sees the number of evaluations made before and the two players, so that it may be noisy.
    Scores and fitnesses are exact rationals.
    The subclasses import pybrain.optimization.coevolution.coevolution, a module that does not exist at this path; they are modelled as if the import
    named pybrain.optimization.populationbased.coevolution.coevolution.
    selectionProportion and hallOfFameEvaluation are not negative; the attribute parent only exists, and is only read, when parentChildAverage < 1.
    Not modelled: verbose output, __str__, setArgs; tournamentSize set back to None after the constructor (which replaces None). *)
From Coq Require Import QArith Qround.
From Verif Require Import Base StableSort Dict.

(** ** the random module *)
Fixpoint remove_nth {A} (n : nat) (l : list A) : list A :=
  match l, n with [], _ => [] | _ :: t, O => t | h :: t, S n => h :: remove_nth n t end.
Fixpoint draw_all {A} (fuel : nat) (d : nat -> nat) (l : list A) : list A :=
  match fuel with
  | O => []
  | S fuel => let i := d O mod length l in
              match nth_error l i with Some x => x :: draw_all fuel (fun k => d (S k)) (remove_nth i l) | None => [] end
  end.
Definition shuffled {A} (d : nat -> nat) (l : list A) : list A := draw_all (length l) d l.

(** ** configuration and state *)
Record cfg : Type := {
  c_size : nat; c_sel : Q; c_elitism : bool; c_avg : Q; c_tourn : option nat; c_hof : Q; c_shared : bool;
  c_abs : option (nat -> Q); c_absProp : Q; c_maxGen : option nat; c_maxEval : option nat }.
(** allResults[(p, q)]: games won, total games, cumulative score, list of scores *)
Record entry : Type := { e_won : nat; e_total : nat; e_score : Q; e_list : list Q }.
Definition key_eqb (a b : nat * nat) : bool := Nat.eqb (fst a) (fst b) && Nat.eqb (snd a) (snd b).
Fixpoint rget (k : nat * nat) (d : list ((nat * nat) * entry)) : option entry :=
  match d with [] => None | (k', v) :: t => if key_eqb k k' then Some v else rget k t end.
Fixpoint rset (k : nat * nat) (v : entry) (d : list ((nat * nat) * entry)) : list ((nat * nat) * entry) :=
  match d with [] => [(k, v)] | (k', v') :: t => if key_eqb k k' then (k, v) :: t else (k', v') :: rset k v t end.
Definition floor_nat (q : Q) : nat := Z.to_nat (Qfloor q).
(** coevolution.py:252-253 *)
Definition numSelected (c : cfg) : nat := floor_nat (inject_Z (Z.of_nat (c_size c)) * c_sel c).
(** coevolution.py:40-41 *)
Definition tournamentSize (c : cfg) : nat := match c_tourn c with Some n => n | None => c_size c end.
Definition averaging (c : cfg) : bool := negb (Qle_bool 1 (c_avg c)).

Section Co.
Context {P : Type} (mutate : P -> nat -> P) (randomize : P -> nat -> P) (average : Q -> P -> P -> P).
Record st : Type := {
  mem : list (P * option nat); results : list ((nat * nat) * entry); opponents : list (nat * list nat); steps : nat; generation : nat;
  hof : list nat; hofits : list (list Q); oldPops : list (list nat); pop : list nat; parasites : list nat;
  pops : list (list nat); mainpop : nat; clock : nat }.
Context (ev : nat -> nat -> nat -> Q) (d : nat -> nat) (c : cfg).
Definition stream (s : st) : nat -> nat := fun k => d (clock s + k).
Definition tick (n : nat) (s : st) : st :=
  {| mem := mem s; results := results s; opponents := opponents s; steps := steps s; generation := generation s; hof := hof s; hofits := hofits s;
     oldPops := oldPops s; pop := pop s; parasites := parasites s; pops := pops s; mainpop := mainpop s; clock := clock s + n |}.
Definition shuffle {A} (l : list A) (s : st) : list A * st := (shuffled (stream s) l, tick (length l) s).
Definition sample {A} (l : list A) (n : nat) (s : st) : list A * st := (firstn n (shuffled (stream s) l), tick (length l) s).
Definition choice {A} (l : list A) (s : st) : result (A * st) :=
  match nth_error l (stream s O mod length l) with Some x => Ok (x, tick 1 s) | None => Err IndexError end.
(** a new object *)
Definition alloc (x : P * option nat) (s : st) : nat * st :=
  (length (mem s),
   {| mem := mem s ++ [x]; results := results s; opponents := opponents s; steps := steps s; generation := generation s; hof := hof s; hofits := hofits s;
      oldPops := oldPops s; pop := pop s; parasites := parasites s; pops := pops s; mainpop := mainpop s; clock := clock s |}).
Definition with_pop (p : list nat) (s : st) : st :=
  {| mem := mem s; results := results s; opponents := opponents s; steps := steps s; generation := generation s; hof := hof s; hofits := hofits s;
     oldPops := oldPops s; pop := p; parasites := parasites s; pops := pops s; mainpop := mainpop s; clock := clock s |}.

(** ** coevolution.py:137-148 _extendPopulation *)
Fixpoint extend (n : nat) (seeds : list nat) (s : st) : result (list nat * st) :=
  match n with
  | O => Ok ([], s)
  | S n =>
      let! cs := choice seeds s in
      let '(chosen, s1) := cs in
      match nth_error (mem s1) chosen with
      | None => Err AttributeError
      | Some (x, par) =>
          let '(i, s2) := alloc (mutate x (stream s1 O), if averaging c then Some chosen else par) (tick 1 s1) in
          let! rest := extend n seeds s2 in
          Ok (i :: fst rest, snd rest)
      end
  end.
Definition extendPopulation (seeds : list nat) (size : nat) (s : st) : result (list nat * st) :=
  let! r := extend (size - length seeds) seeds s in Ok (seeds ++ fst r, snd r).
(** coevolution.py:98-104 _averageWithParents: the list afterwards *)
Fixpoint averageWithParents (l : list nat) (s : st) : list nat * st :=
  match l with
  | [] => ([], s)
  | p :: t =>
      match nth_error (mem s) p with
      | Some (x, Some q) =>
          match nth_error (mem s) q with
          | Some (y, _) => let '(i, s1) := alloc (average (c_avg c) x y, Some q) s in
                           let '(t', s2) := averageWithParents t s1 in (i :: t', s2)
          | None => let '(t', s2) := averageWithParents t s in (p :: t', s2)
          end
      | _ => let '(t', s2) := averageWithParents t s in (p :: t', s2)
      end
  end.
(** coevolution.py:150-169; without elitism the averaging works on a slice, that is on another list, and what it builds is garbage *)
Definition fit_order (a b : Q * nat) : bool := Qle_bool (fst b) (fst a).
Definition selectAndReproduce (l : list nat) (fits : list Q) (s : st) : result (list nat * st) :=
  let '(sh, s1) := shuffle (combine fits l) s in
  let selected := map snd (firstn (numSelected c) (isort fit_order sh)) in
  if c_elitism c then
    let! r := extendPopulation selected (c_size c) s1 in
    Ok (if averaging c then averageWithParents (fst r) (snd r) else r)
  else
    let! r := extendPopulation selected (c_size c + numSelected c) s1 in
    Ok (skipn (numSelected c) (fst r), snd r).

(** ** coevolution.py:171-179 _beats *)
Definition beats (s : st) (h p : nat) : result Q :=
  match rget (h, p) (results s) with
  | None => Ok 0%Q
  | Some a => match rget (p, h) (results s) with
              | None => Err KeyError
              | Some b => Ok ((e_score a - e_score b) / inject_Z (Z.of_nat (e_total a + e_total b)))%Q
              end
  end.
(** coevolution.py:226-239 _relEval *)
Definition relEval (s : st) (p opp : nat) : st :=
  let ops := match dget p (opponents s) with Some l => l | None => [] end in
  let e := match rget (p, opp) (results s) with Some e => e | None => {| e_won := 0; e_total := 0; e_score := 0; e_list := [] |} end in
  let res := ev (steps s) p opp in
  let e' := {| e_won := if Qle_bool res 0 then e_won e else S (e_won e); e_total := S (e_total e); e_score := (e_score e + res)%Q; e_list := e_list e ++ [res] |} in
  {| mem := mem s; results := rset (p, opp) e' (results s); opponents := dset p (ops ++ [opp]) (opponents s); steps := S (steps s);
     generation := generation s; hof := hof s; hofits := hofits s; oldPops := oldPops s; pop := pop s; parasites := parasites s; pops := pops s;
     mainpop := mainpop s; clock := clock s |}.
(** coevolution.py:181-198 _doTournament *)
Definition meet (p : nat) (s : st) (opp : nat) : st := relEval (relEval s p opp) opp p.
Definition oneTournament (pop2 : list nat) (n : nat) (s : st) (p : nat) : st :=
  let pop3 := filter (fun q => negb (Nat.eqb p q)) pop2 in
  let '(opps, s1) := if Nat.ltb n (length pop3) then sample pop3 n s else (pop3, s) in
  fold_left (meet p) opps s1.
Definition doTournament (pop1 pop2 : list nat) (n : nat) (s : st) : st := fold_left (oneTournament pop2 n) pop1 s.
(** coevolution.py:200-212 _globalScore *)
Fixpoint scoreSum (s : st) (p : nat) (ops : list nat) (scoresum : Q) (played : nat) : result (Q * nat) :=
  match ops with
  | [] => Ok (scoresum, played)
  | o :: t => match rget (p, o) (results s), rget (o, p) (results s) with
              | Some a, Some b => scoreSum s p t (scoresum + e_score a - e_score b)%Q (played + e_total a + e_total b)
              | _, _ => Err KeyError
              end
  end.
Definition globalScore (s : st) (p : nat) : result Q :=
  match dget p (opponents s) with
  | None => Ok 0%Q
  | Some ops => let! r := scoreSum s p ops 0%Q 0 in Ok (fst r / (inject_Z (Z.of_nat (snd r)) + (1 # 100)))%Q
  end.
(** list comprehensions over calls that may raise *)
Fixpoint rmap {A B} (f : A -> result B) (l : list A) : result (list B) :=
  match l with [] => Ok [] | x :: t => let! y := f x in let! ys := rmap f t in Ok (y :: ys) end.
Definition positive (s : st) (p o : nat) : result bool := let! b := beats s p o in Ok (negb (Qle_bool b 0)).
Definition beaten (s : st) (p : nat) (l : list nat) : result (list nat) :=
  let! bs := rmap (positive s p) l in Ok (map snd (filter (fun x => fst x) (combine bs l))).
Definition bkey : Type := nat * Q * nat.
Definition beat_order (a b : bkey) : bool :=
  let '(n1, g1, _) := a in let '(n2, g2, _) := b in
  if Nat.ltb n1 n2 then true else if Nat.ltb n2 n1 then false else Qle_bool g1 g2.
(** coevolution.py:214-236 _sharedSampling; the order of list(set(...)) does not matter here, as only the number of beaten players is used *)
Fixpoint remove_first (x : nat) (l : list nat) : list nat :=
  match l with [] => [] | h :: t => if Nat.eqb x h then t else h :: remove_first x t end.
Definition without (b l : list nat) : list nat := filter (fun q => negb (existsb (Nat.eqb q) b)) (nodup Nat.eq_dec l).
Fixpoint sharedSampling (n : nat) (selectFrom relativeTo : list nat) (s : st) : result (list nat * st) :=
  match n with
  | O => Ok ([], s)
  | S n =>
      let! keys := rmap (fun p => let! b := beaten s p relativeTo in let! g := globalScore s p in Ok ((length b, g, p) : bkey)) (nodup Nat.eq_dec selectFrom) in
      let '(sh, s1) := shuffle keys s in
      match rev (isort beat_order sh) with
      | [] => Err IndexError
      | (_, _, best) :: _ =>
          let! b := beaten s best relativeTo in
          let! r := sharedSampling n (remove_first best selectFrom) (without b relativeTo) s1 in
          Ok (best :: fst r, snd r)
      end
  end.

(** ** fitness *)
Definition hofTournSize (s : st) : nat := Nat.min (generation s) (floor_nat (inject_Z (Z.of_nat (tournamentSize c)) * c_hof c)).
Fixpoint beatSum (s : st) (p : nat) (opps : list nat) (fit : Q) : result Q :=
  match opps with [] => Ok fit | o :: t => let! b := beats s p o in beatSum s p t (fit + b)%Q end.
Definition mixAbs (p : nat) (fit : Q) : Q :=
  match c_abs c with
  | Some f => if Qle_bool (c_absProp c) 0 then fit else ((1 - c_absProp c) * fit + c_absProp c * f p)%Q
  | None => fit
  end.
(** coevolution.py:106-130; sample raises ValueError when more than tournamentSize games are reserved for the hall of fame *)
Definition evaluateBase (s : st) : result (list Q * st) :=
  let h := hofTournSize s in
  if Nat.ltb (tournamentSize c) h then Err ValueError else
  let t := tournamentSize c - h in
  let! os := if c_shared c then sharedSampling t (pop s) (last (oldPops s) []) s else Ok (pop s, s) in
  let '(opps, s1) := os in
  let s2 := doTournament (pop s) opps (Nat.min t (length opps)) s1 in
  let '(hf, s4) := if Nat.ltb 0 h
                   then let '(hf, s3) := shuffle (nodup Nat.eq_dec (hof s2)) s2 in (hf, doTournament (pop s) hf h s3)
                   else ([], s2) in
  let! fits := rmap (fun p => let! f := beatSum s4 p opps 0%Q in let! g := beatSum s4 p hf f in Ok (mixAbs p g)) (pop s) in
  Ok (fits, s4).
(** competitivecoevolution.py:32-67 _competitiveSharedFitness *)
Definition beatCount (s : st) (hosts : list nat) (p : nat) : result nat :=
  let! bs := rmap (fun h => positive s h p) hosts in Ok (length (filter (fun b => b) bs)).
Fixpoint shares (s : st) (hosts : list nat) (h : nat) (parasites : list nat) : result (Q * nat) :=
  match parasites with
  | [] => Ok (0%Q, O)
  | p :: t =>
      let! b := beats s h p in
      let! n := beatCount s hosts p in
      let! r := shares s hosts h t in
      if negb (Qle_bool b 0) then (if Nat.eqb n 0 then Err AssertionError else Ok (1 / inject_Z (Z.of_nat n) + fst r, snd r)%Q)
      else if Qeq_bool b 0 then Ok (fst r, S (snd r)) else Ok r
  end.
Definition sharedFitness (s : st) (hosts parasites : list nat) : result (list Q) :=
  match parasites with
  | [] => Ok (map (fun _ => 0%Q) hosts)
  | _ => rmap (fun h => let! r := shares s hosts h parasites in
                        let! g := globalScore s h in
                        let hsum := if Nat.ltb (snd r) (length parasites) then (fst r / inject_Z (Z.of_nat (length parasites - snd r)))%Q else fst r in
                        Ok (hsum + (1 # 100000) * g)%Q) hosts
  end.
(** competitivecoevolution.py:69-87; oldPops[-2] *)
Definition evaluateCompetitive (s : st) : result (list Q * st) :=
  let h := hofTournSize s in
  if Nat.ltb (tournamentSize c) h then Err ValueError else
  let t := tournamentSize c - h in
  let! os := if c_shared c && Nat.ltb 2 (generation s) then sharedSampling t (parasites s) (nth (length (oldPops s) - 2) (oldPops s) []) s else Ok (parasites s, s) in
  let '(opps, s1) := os in
  let t := Nat.min t (length opps) in
  let s2 := doTournament (pop s) opps t s1 in
  let s3 := if Nat.ltb 0 h then doTournament (pop s) (hof s2) h s2 else s2 in
  let! fit := sharedFitness s3 (pop s) (parasites s) in
  if Nat.ltb 0 h then
    let! fitH := sharedFitness s3 (pop s) (hof s3) in
    Ok (map (fun ab => inject_Z (Z.of_nat t) * fst ab + inject_Z (Z.of_nat h) * snd ab)%Q (combine fit fitH), s3)
  else Ok (fit, s3).
(** multipopulationcoevolution.py:34-58; the test other == self.pop compares the lists *)
Definition others (s : st) : list (list nat) := filter (fun o => if list_eq_dec Nat.eq_dec o (pop s) then false else true) (pops s).
Definition bestPart (o : list nat) : list nat := firstn (Nat.max 1 (length o / 2)) o.
Definition evaluateMulti (s : st) : result (list Q * st) :=
  let s1 := fold_left (fun s o => doTournament (pop s) (bestPart o) (tournamentSize c) s) (others s) s in
  let! fits := rmap (fun p => let! f := beatSum s1 p (concat (others s)) 0%Q in Ok (mixAbs p f)) (pop s) in
  Ok (fits, s1).

(** ** generations *)
Inductive kind : Type := Base | Competitive | Multi (numPops : nat).
Definition evaluate (k : kind) (s : st) : result (list Q * st) :=
  match k with Base => evaluateBase s | Competitive => evaluateCompetitive s | Multi _ => evaluateMulti s end.
Fixpoint argmax_from (i besti : nat) (bestq : Q) (l : list Q) : nat :=
  match l with [] => besti | q :: t => if Qle_bool q bestq then argmax_from (S i) besti bestq t else argmax_from (S i) i q t end.
Definition argmax (l : list Q) : result nat := match l with [] => Err ValueError | q :: t => Ok (argmax_from 1 0 q t) end.
(** competitivecoevolution.py:89-94, multipopulationcoevolution.py:60-65; numPops = 0 cannot be constructed *)
Definition changeRoles (k : kind) (s : st) : st :=
  match k with
  | Base => s
  | Competitive =>
      {| mem := mem s; results := results s; opponents := opponents s; steps := steps s; generation := generation s; hof := hof s; hofits := hofits s;
         oldPops := oldPops s; pop := parasites s; parasites := pop s; pops := pops s; mainpop := mainpop s; clock := clock s |}
  | Multi n =>
      let ps := upd (mainpop s) (pop s) (pops s) in
      let m := generation s mod n in
      {| mem := mem s; results := results s; opponents := opponents s; steps := steps s; generation := generation s; hof := hof s; hofits := hofits s;
         oldPops := oldPops s; pop := nth m ps []; parasites := parasites s; pops := ps; mainpop := m; clock := clock s |}
  end.
(** coevolution.py:79-96 _oneGeneration *)
Definition startGeneration (s : st) : st :=
  {| mem := mem s; results := results s; opponents := opponents s; steps := steps s; generation := S (generation s); hof := hof s; hofits := hofits s;
     oldPops := oldPops s ++ [pop s]; pop := pop s; parasites := parasites s; pops := pops s; mainpop := mainpop s; clock := clock s |}.
Definition recordBest (best : nat) (bestFits : list Q) (s : st) : st :=
  {| mem := mem s; results := results s; opponents := opponents s; steps := steps s; generation := generation s; hof := hof s ++ [best];
     hofits := hofits s ++ [bestFits]; oldPops := oldPops s; pop := pop s; parasites := parasites s; pops := pops s; mainpop := mainpop s; clock := clock s |}.
Definition oneGeneration (k : kind) (s : st) : result st :=
  let! r := evaluate k (startGeneration s) in
  let '(fits, s1) := r in
  let! besti := argmax fits in
  match nth_error (pop s1) besti with
  | None => Err IndexError
  | Some best =>
      let s2 := recordBest best (firstn (numSelected c) (rev (isort Qle_bool fits))) s1 in
      let! np := selectAndReproduce (pop s2) fits s2 in
      Ok (changeRoles k (with_pop (fst np) (snd np)))
  end.
(** coevolution.py:63-77 learn, 255-257 _stepsPerGeneration *)
Definition stepsPerGeneration : nat := c_size c * tournamentSize c * 2.
Definition beyond (bound : option nat) (n : nat) : bool := match bound with Some b => Nat.ltb b n | None => false end.
Definition stop (limit : option nat) (s : st) : bool :=
  beyond limit (steps s + stepsPerGeneration) || beyond (c_maxEval c) (steps s + stepsPerGeneration)
  || match c_maxGen c with Some g => Nat.leb g (generation s) | None => false end.
Fixpoint loop (fuel : nat) (k : kind) (limit : option nat) (s : st) : result st :=
  match fuel with
  | O => Err OutOfFuel
  | S fuel => if stop limit s then Ok s else let! s' := oneGeneration k s in loop fuel k limit s'
  end.
Definition learn (fuel : nat) (k : kind) (maxSteps : option nat) (s : st) : result (nat * st) :=
  let limit := match maxSteps with Some m => Some (m + steps s) | None => None end in
  let! s' := loop fuel k limit s in
  match rev (hof s') with best :: _ => Ok (best, s') | [] => Err IndexError end.

(** ** construction: ps are the initial objects, seeds the list given by the caller; the result has the caller's list as it is afterwards *)
Definition blank (ps : list P) : st :=
  {| mem := map (fun x => (x, None)) ps; results := []; opponents := []; steps := 0; generation := 0; hof := []; hofits := []; oldPops := [];
     pop := []; parasites := []; pops := []; mainpop := 0; clock := 0 |}.
(** a randomized copy *)
Definition fresh (i : nat) (s : st) : result (nat * st) :=
  match nth_error (mem s) i with
  | Some (x, par) => Ok (alloc (randomize x (stream s O), par) (tick 1 s))
  | None => Err AttributeError
  end.
(** coevolution.py:132-135 *)
Definition initBase (seeds : list nat) (s : st) : result (list nat * st) :=
  let! r := extendPopulation seeds (c_size c) s in Ok (seeds, with_pop (fst r) (snd r)).
(** competitivecoevolution.py:14-30 *)
Definition with_pops2 (p q : list nat) (s : st) : st :=
  {| mem := mem s; results := results s; opponents := opponents s; steps := steps s; generation := generation s; hof := hof s; hofits := hofits s;
     oldPops := oldPops s; pop := p; parasites := q; pops := pops s; mainpop := mainpop s; clock := clock s |}.
Definition halves (seeds : list nat) (s : st) : result (list nat * list nat * st) :=
  match seeds with
  | [] => Err IndexError
  | [x] => let! f := fresh x s in Ok ([x], [fst f], snd f)
  | _ => Ok (firstn (length seeds / 2) seeds, skipn (length seeds / 2) seeds, s)
  end.
Definition initCompetitive (seeds : list nat) (s : st) : result (list nat * st) :=
  let! h := halves seeds s in
  let '(s1, s2, st1) := h in
  let! a := extendPopulation s1 (c_size c) st1 in
  let! b := extendPopulation s2 (c_size c) (snd a) in
  Ok (seeds, with_pops2 (fst a) (fst b) (snd b)).
(** multipopulationcoevolution.py:17-32 *)
Fixpoint fillSeeds (n : nat) (seeds : list nat) (s : st) : result (list nat * st) :=
  match n with
  | O => Ok (seeds, s)
  | S n => let! ch := choice seeds s in
           let! f := fresh (fst ch) (snd ch) in
           fillSeeds n (seeds ++ [fst f]) (snd f)
  end.
Definition stride (i n : nat) (l : list nat) : list nat :=
  map snd (filter (fun x => Nat.leb i (fst x) && Nat.eqb ((fst x - i) mod n) 0) (combine (seq 0 (length l)) l)).
Fixpoint extendEach (is : list nat) (n : nat) (seeds : list nat) (s : st) : result (list (list nat) * st) :=
  match is with
  | [] => Ok ([], s)
  | i :: t => let! r := extendPopulation (stride i n seeds) (c_size c) s in
              let! rs := extendEach t n seeds (snd r) in
              Ok (fst r :: fst rs, snd rs)
  end.
Definition with_multi (ps : list (list nat)) (p : list nat) (s : st) : st :=
  {| mem := mem s; results := results s; opponents := opponents s; steps := steps s; generation := generation s; hof := hof s; hofits := hofits s;
     oldPops := oldPops s; pop := p; parasites := parasites s; pops := ps; mainpop := 0; clock := clock s |}.
Definition initMulti (n : nat) (seeds : list nat) (s : st) : result (list nat * st) :=
  let! f := fillSeeds (n - length seeds) seeds s in
  let '(seeds', s1) := f in
  let! r := extendEach (seq 0 n) n seeds' s1 in
  match fst r with
  | [] => Err IndexError
  | p :: _ => Ok (seeds', with_multi (fst r) p (snd r))
  end.
Definition construct (k : kind) (ps : list P) (seeds : list nat) : result (list nat * st) :=
  match k with
  | Base => initBase seeds (blank ps)
  | Competitive => initCompetitive seeds (blank ps)
  | Multi n => initMulti n seeds (blank ps)
  end.
End Co.
