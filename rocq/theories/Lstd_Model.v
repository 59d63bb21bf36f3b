(** Model of reinforcement learning with a known model of the environment and linear features (rl/learners/modelbased/leastsquares.py).

    As in ModelBased_Model, vectors are lists, matrices are lists of rows and entries are exact rationals.  Arrays with three axes are
    functions of their three indices.  scipy.linalg.lstsq is an argument.  The feature map has one row per feature and one column per
    state (this is what the code uses; its documentation says the opposite); where all states are used at once, a feature map with another number of
    columns raises ValueError in numpy, elsewhere the shapes are assumed to match.  The states drawn by random.sample are an argument. *)
From Verif Require Import Base Value_Model ModelBased_Model.
From Coq Require Import QArith Qabs.
Local Open Scope nat_scope.

(** leastsquares.py:53-57, one pass of the loop *)
Definition stats_step (n : nat) (T : mat) (R : vec) (fMap : mat) (g : Q) (acc : mat * vec) (sto : nat) : mat * vec :=
  let dim := rows fMap in
  let tmp f s := (ent fMap f s - g * ent fMap f sto)%Q in
  let tmp2 f s := (ent fMap f s * ent T s sto)%Q in
  (build2 dim dim (fun i j => ent (fst acc) i j + sigma n (fun s => tmp2 i s * tmp j s))%Q,
   build dim (fun i => at_ (snd acc) i + at_ R sto * sigma n (fun s => ent fMap i s * ent T s sto))%Q).
(** leastsquares.py:34-35 and 53-57 *)
Definition stats_loop (n : nat) (T : mat) (R : vec) (fMap : mat) (g : Q) (ss : list nat) : mat * vec :=
  fold_left (stats_step n T R fMap g) ss (build2 (rows fMap) (rows fMap) (fun _ _ => 0%Q), build (rows fMap) (fun _ => 0%Q)).
(** leastsquares.py:45-51 *)
Definition stats_rep (n : nat) (T : mat) (R : vec) (fMap : mat) (g : Q) : mat * vec :=
  let dim := rows fMap in
  let tmp1 (k f s : nat) := ent fMap f s in
  let tmp2 a f b := tmp1 b f a in
  let tmp3 a f b := (tmp2 a f b - g * tmp1 a f b)%Q in
  let tmp4 f a b := (ent T a b * tmp1 b f a)%Q in
  let tens f h := sigma n (fun a => sigma n (fun b => tmp3 a f b * tmp4 h a b))%Q in
  (build2 dim dim (fun i j => tens j i),
   build dim (fun f => sigma n (fun t => at_ R t * sigma n (fun s => ent fMap f s * ent T s t)))%Q).
(** leastsquares.py:26-58; sample is what random.sample returns *)
Definition trueFeatureStats (T : mat) (R : vec) (fMap : mat) (g stateProp : Q) (limit : Q) (sample : list nat) : result (mat * vec) :=
  let dim := rows fMap in let n := rows T in
  if qltb stateProp 1 then Ok (stats_loop n T R fMap g sample)
  else if negb (cols fMap =? n) then Err ValueError
  else if qltb (inject_Z (Z.of_nat (dim * n ^ 2))) limit then Ok (stats_rep n T R fMap g)
  else Ok (stats_loop n T R fMap g (seq 0 n)).

Section Solver.
Context (lstsq : mat -> vec -> vec).
(** dot(weights, fMap) *)
Definition vec_mat (w : vec) (m : mat) : vec := build (cols m) (fun s => sigma (length w) (fun f => at_ w f * ent m f s))%Q.
(** leastsquares.py:61-65 *)
Definition LSTD_values (T : mat) (R : vec) (fMap : mat) (g stateProp limit : Q) (sample : list nat) : result vec :=
  let! st := trueFeatureStats T R fMap g stateProp limit sample in
  Ok (vec_mat (lstsq (fst st) (snd st)) fMap).

(** leastsquares.py:73-78: the map is copied once for each action *)
Definition fMapRep (numA numF dim : nat) (fMap : mat) : nat -> nat -> Q :=
  fold_left (fun m a => fun i j => if (numF * a <=? i) && (i <? numF * (a + 1)) && (dim * a <=? j) && (j <? dim * (a + 1))
                                   then ent fMap (i - numF * a) (j - dim * a) else m i j) (seq 0 numA) (fun _ _ => 0%Q).
(** leastsquares.py:80-93; the three loops add one matrix after the other *)
Definition q_stats (Ts : list mat) (policy : mat) (R : vec) (fMap : mat) (g : Q) : mat * vec :=
  let numA := length Ts in let dim := rows (nth 0 Ts []) in let numF := rows fMap in
  let rep := fMapRep numA numF dim fMap in
  let fto sto i := sigma numA (fun nextA => rep i (sto + nextA * dim)%nat * ent policy sto nextA)%Q in
  let ffrom sfrom a i := rep i (sfrom + a * dim)%nat in
  (build2 (numF * numA) (numF * numA) (fun i j => sigma dim (fun sto => sigma dim (fun sfrom => sigma numA (fun a =>
     ffrom sfrom a i * (ffrom sfrom a j - g * fto sto j) * ent (nth a Ts []) sfrom sto)))%Q),
   build (numF * numA) (fun i => sigma dim (fun sto => sigma dim (fun sfrom => sigma numA (fun a =>
     ffrom sfrom a i * at_ R sto * ent (nth a Ts []) sfrom sto)))%Q)).
(** leastsquares.py:68-98 *)
Definition LSTD_Qvalues (Ts : list mat) (policy : mat) (R : vec) (fMap : mat) (g : Q) : result mat :=
  match Ts with
  | [] => Err IndexError
  | T0 :: _ =>
      let st := q_stats Ts policy R fMap g in
      let w := lstsq (fst st) (snd st) in
      let numF := rows fMap in
      Ok (build2 (rows T0) (length Ts) (fun s a => sigma numF (fun f => at_ w (numF * a + f) * ent fMap f s))%Q)
  end.

(** leastsquares.py:110-117 *)
Fixpoint lspi_loop (fMap : mat) (Ts : list mat) (R : vec) (g : Q) (maxIters : nat) (policy : mat) : result (mat * mat) :=
  match maxIters with
  | 0 => let! T := collapsedTransitions Ts policy in Ok (policy, T)
  | S k =>
      let! Qs := LSTD_Qvalues Ts policy R fMap g in
      let! new := greedyQPolicy Qs in
      if qltb (difference new policy) (1 # 1000) then let! T := collapsedTransitions Ts policy in Ok (policy, T)
      else lspi_loop fMap Ts R g k new
  end.
(** leastsquares.py:101-117 *)
Definition LSPI_policy (fMap : mat) (Ts : list mat) (R : vec) (g : Q) (initpolicy : option mat) (maxIters : nat) : result (mat * mat) :=
  let! policy := match initpolicy with None => let! pT := randomPolicy Ts in Ok (fst pT) | Some p => Ok p end in
  lspi_loop fMap Ts R g maxIters policy.
(** leastsquares.py:120-127 *)
Definition LSTD_PI_policy (fMap : mat) (Ts : list mat) (R : vec) (g : Q) (initpolicy : option mat) (maxIters : nat) : result (mat * mat) :=
  policyIteration Ts R g (Some (fun T => LSTD_values T R fMap g 1 (inject_Z 100000000) [])) initpolicy maxIters.
End Solver.
