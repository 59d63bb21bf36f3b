(** Model of the policy gradient learners: rl/learners/directsearch/policygradient.py, reinforce.py and enac.py, the agent
    (rl/agents/learning.py, logging.py) that feeds them, the explorers rl/explorers/continuous/normal.py and sde.py, the layers
    structure/modules/gaussianlayer.py and statedependentlayer.py, and expln, explnPrime of tools/functions.py.

    Numbers are exact reals; a normal draw with mean m and deviation s is m + s * z for a number z handed in.  The controller is a
    feed-forward network (which clears its buffers whenever it is activated): a function [F] from parameters and observation to
    the action, and [VJP] for what its backward pass adds to its derivatives.  0/0 is nan, written None; once a parameter is nan
    the run is not followed further.  pinv is a parameter.
    Not modelled: GPOMDP (marked as not working), momentum and rprop in the learner's gradient descent (their defaults are off),
    replacing module or explorer in the middle of a run. *)
From Coq Require Import Reals.
From Verif Require Import Base Functions_Model.
Local Open Scope R_scope.

Notation rvec := (list R).

(** ** tools/functions.py:80-97 and 100-116 *)
Definition expln (x : R) : R := if Rlt_dec x 0 then exp x else ln (x + 1) + 1.
Definition explnPrime (x : R) : R := if Rlt_dec x 0 then exp x else 1 / (x + 1).

(** ** layers and explorers *)
Definition vsq (v : rvec) : rvec := map (fun x => x * x) v.
Definition radd (a b : rvec) : rvec := rzip Rplus a b.
Definition rsub (a b : rvec) : rvec := rzip Rminus a b.
Definition rmul (a b : rvec) : rvec := rzip Rmult a b.
Definition rdiv (a b : rvec) : rvec := rzip Rdiv a b.
(** ((outbuf - inbuf)**2 - expln**2) / expln * explnPrime *)
Definition sigma_term (params outbuf inbuf : rvec) : rvec :=
  let e := map expln params in
  rmul (rdiv (rsub (vsq (rsub outbuf inbuf)) (vsq e)) e) (map explnPrime params).
(** gaussianlayer.py:28-32 *)
Definition gauss_forward (enabled : bool) (params inbuf noise : rvec) : rvec :=
  if enabled then radd inbuf (rmul (map expln params) noise) else inbuf.
(** gaussianlayer.py:34-41: derivatives and input error afterwards *)
Definition gauss_backward (autoalpha : bool) (params derivs outbuf inbuf : rvec) : rvec * rvec :=
  let e2 := vsq (map expln params) in
  let d := radd derivs (sigma_term params outbuf inbuf) in
  let inerr := rsub outbuf inbuf in
  if autoalpha then (d, inerr) else (rdiv d e2, rdiv inerr e2).
(** normal.py:43-45 *)
Definition normal_forward (params inbuf noise : rvec) : rvec := radd inbuf (rmul (map expln params) noise).
(** normal.py:47-50 *)
Definition normal_backward (params derivs outbuf inbuf : rvec) : rvec * rvec :=
  (radd derivs (sigma_term params outbuf inbuf), rsub outbuf inbuf).

(** statedependentlayer.py:47-58 with one sigma: the parameter is a single number *)
Definition sd_one_backward (autoalpha : bool) (param deriv : R) (state outbuf inbuf : rvec) : R * rvec :=
  let e := expln param in
  let xx := rdot state state in
  let d := deriv + rsum (map (fun q => q - e * e * xx) (vsq (rsub outbuf inbuf))) / e * explnPrime param in
  let inerr := rsub outbuf inbuf in
  if negb autoalpha && (if Req_EM_T xx 0 then false else true) then (d / (e * e * xx), map (fun q => q / (e * e * xx)) inerr)
  else (d, inerr).
(** statedependentlayer.py:59-82 with a sigma for each weight: one output, the row of its parameters *)
Definition sd_row_backward (autoalpha : bool) (params state : rvec) (out inp : R) : rvec * R :=
  let s2 := rdot (vsq state) (vsq (map expln params)) in
  let nz := if Req_EM_T s2 0 then false else true in
  let d := rzip (fun x p => let v := ((out - inp) * (out - inp) - s2) / s2 * (x * x) * expln p * explnPrime p in
                            if autoalpha && nz then v / s2 else v) state params in
  let err := out - inp in
  (d, if negb autoalpha && nz then err / s2 else err).
(** sde.py:56-61: the parameters, one for each action, are reshaped to one row of state length for each action *)
Definition sde_reshape (params state outbuf : rvec) : result (list rvec) :=
  if (length params =? length outbuf * length state)%nat
  then Ok (map (fun j => firstn (length state) (skipn (j * length state) params)) (seq 0 (length outbuf)))
  else Err ValueError.

(** ** gradients *)
Definition mean (l : rvec) : R := rsum l / INR (length l).
Definition column (k : nat) (M : list rvec) : rvec := map (fun r => nth k r 0) M.
(** reinforce.py:28-31, one parameter: the sums of its log likelihood derivatives over the sequences, and the returns *)
Definition reinforce1 (g returns : rvec) : option R :=
  if Req_EM_T (mean (vsq g)) 0 then None
  else let b := mean (rmul (vsq g) returns) / mean (vsq g) in
       Some (- mean (rmul g (map (fun r => r - b) returns))).
Definition reinforce (dim : nat) (loglhs : list rvec) (returns : rvec) : list (option R) :=
  map (fun k => reinforce1 (column k loglhs) returns) (seq 0 dim).
(** enac.py:19-40 *)
Definition mat_vec (M : list rvec) (v : rvec) : rvec := map (fun r => rdot r v) M.
Definition enac_X (loglhs : list rvec) : list rvec := map (fun r => r ++ [1]) loglhs.
Definition enac (pinv : list rvec -> list rvec) (loglhs : list rvec) (returns : rvec) : rvec :=
  removelast (mat_vec (pinv (enac_X loglhs)) returns).

(** the builtin max, by comparisons that are false for nan *)
Definition gt_opt (a b : option R) : bool :=
  match a, b with Some x, Some y => if Rlt_dec y x then true else false | _, _ => false end.
Definition max_opt (l : list (option R)) : option R :=
  match l with [] => None | x :: t => fold_left (fun m y => if gt_opt y m then y else m) t x end.
(** policygradient.py:105-107 *)
Definition scale_down (g : list (option R)) : list (option R) :=
  match max_opt g with
  | Some m => if Rlt_dec 1000 m then map (option_map (fun x => x / m * 1000)) g else g
  | None => g
  end.

(** ** the learner *)
Record pg := mkPg { theta : rvec; sigma : rvec; dmod : rvec; dexp : rvec; loglh : list rvec; gdvalues : rvec; alpha : R }.
Inductive kind := Reinforce | ENAC (pinv : list rvec -> list rvec).
Section Learner.
Context (F : rvec -> rvec -> rvec) (VJP : rvec -> rvec -> rvec -> rvec).
(** 81-95, gradientdescent.py:45-52: the derivatives of module and explorer are taken over *)
Definition new_pg (th sg d e : rvec) (al : R) : pg := mkPg th sg d e [] (th ++ sg) al.
(** 114-122, learner.py:32-36, normal.py, feedforward.py:39-55: explore, and the action *)
Definition explore (l : pg) (state noise : rvec) : pg * rvec :=
  let action := F (theta l) state in
  let y := normal_forward (sigma l) action noise in
  let '(de, inerr) := normal_backward (sigma l) (dexp l) y action in
  let dm := radd (dmod l) (VJP (theta l) state inerr) in
  (mkPg (theta l) (sigma l) dm de (loglh l ++ [dm ++ de]) (gdvalues l) (alpha l), y).
(** 124-125 *)
Definition pg_reset (l : pg) : pg := mkPg (theta l) (sigma l) (dmod l) (dexp l) [] (gdvalues l) (alpha l).
Fixpoint all_some (l : list (option R)) : option rvec :=
  match l with [] => Some [] | Some x :: t => option_map (cons x) (all_some t) | None :: _ => None end.
(** the rows of one sequence; sequential.py:45-55, reinforce.py:21-25 *)
Definition seq_slice {A} (idx : list nat) (n : nat) (rows : list A) : list A :=
  if (S n =? length idx)%nat then skipn (nth n idx 0%nat) rows else slice (nth n idx 0%nat) (nth (S n) idx 0%nat) rows.
Definition sum_rows (dim : nat) (rows : list rvec) : rvec := map (fun k => rsum (column k rows)) (seq 0 dim).
Definition sequence_sums (dim : nat) (idx : list nat) (rows : list rvec) : list rvec :=
  map (fun n => sum_rows dim (seq_slice idx n rows)) (seq 0 (length idx)).
(** reinforcement.py:42-46 *)
Definition sequence_returns (idx : list nat) (rewards : rvec) : rvec :=
  map (fun n => rsum (seq_slice idx n rewards)) (seq 0 (length idx)).
(** the gradient; for REINFORCE a sequence without rows puts the number 0 among the vectors, which do not form an array then *)
Definition calculateGradient (k : kind) (l : pg) (idx : list nat) (rewards : rvec) : result (list (option R)) :=
  let dim := length (gdvalues l) in
  let L := sequence_sums dim idx (loglh l) in
  let Rt := sequence_returns idx rewards in
  match k with
  | Reinforce => if forallb (fun n => match seq_slice idx n (loglh l) with [] => false | _ => true end) (seq 0 (length idx))
                 then Ok (reinforce dim L Rt) else Err ValueError
  | ENAC pinv => Ok (map Some (enac pinv L Rt))
  end.
(** 97-112, gradientdescent.py:54-56, 81-92; None: some parameter has become nan *)
Definition pg_learn (k : kind) (l : pg) (idx : list nat) (rewards : rvec) : result (option pg) :=
  let! g := calculateGradient k l idx rewards in
  if negb (length g =? length (gdvalues l))%nat then Err AssertionError else
  match all_some (scale_down g) with
  | None => Ok None
  | Some g => let v := radd (gdvalues l) (map (fun x => alpha l * x) g) in
              let n := length (theta l) in
              Ok (Some (mkPg (firstn n v) (skipn n v) (dmod l) (dexp l) (loglh l) v (alpha l)))
  end.

(** ** the agent: rl/agents/learning.py, logging.py *)
Record agent := mkAgent {
  lrn : pg; lastobs : option rvec; lastaction : option rvec; lastreward : option R;
  rewards : rvec; seqidx : list nat; learning : bool; logging : bool }.
Inductive call :=
| Observe (o : rvec) | Act (noise : rvec) | Reward (r : R) | NewEpisode | Reset | Learn (episodes : nat)
| SetLearning (b : bool) | SetLogging (b : bool).
Definition new_agent (l : pg) : agent := mkAgent l None None None [] [0%nat] true true.
(** logging.py:41-48, learning.py:49-60 *)
Definition act (x : agent) (noise : rvec) : result agent :=
  match lastobs x, lastaction x, lastreward x with
  | Some o, None, None =>
      let '(l, a) := if learning x then explore (lrn x) o noise else (lrn x, F (theta (lrn x)) o) in
      Ok (mkAgent l (Some o) (Some a) None (rewards x) (seqidx x) (learning x) (logging x))
  | _, _, _ => Err AssertionError
  end.
(** logging.py:51-62 *)
Definition reward (x : agent) (r : R) : result agent :=
  match lastobs x, lastaction x, lastreward x with
  | Some o, Some a, None =>
      Ok (mkAgent (lrn x) (Some o) (Some a) (Some r) (if logging x then rewards x ++ [r] else rewards x) (seqidx x) (learning x) (logging x))
  | _, _, _ => Err AssertionError
  end.
(** learning.py:63-73, sequential.py:27-38 *)
Definition newEpisode (x : agent) : result agent :=
  if logging x then
    let n := length (rewards x) in
    if (n =? 0)%nat then Ok x
    else if (last (seqidx x) 0 =? n)%nat then Err EmptySequenceError
    else Ok (mkAgent (lrn x) (lastobs x) (lastaction x) (lastreward x) (rewards x) (seqidx x ++ [n]) (learning x) (logging x))
  else Ok x.
(** learning.py:75-80, logging.py:71-77 *)
Definition agent_reset (x : agent) : agent :=
  mkAgent (if learning x then pg_reset (lrn x) else lrn x) None None None [] [0%nat] (learning x) (logging x).
(** learning.py:83-86, learner.py:46-49 *)
Fixpoint learn_times (k : kind) (n : nat) (l : pg) (idx : list nat) (rw : rvec) : result (option pg) :=
  match n with
  | O => Ok (Some l)
  | S n => let! o := pg_learn k l idx rw in match o with Some l => learn_times k n l idx rw | None => Ok None end
  end.
Definition agent_step (k : kind) (x : agent) (c : call) : result (option agent) :=
  match c with
  | Observe o => Ok (Some (mkAgent (lrn x) (Some o) None None (rewards x) (seqidx x) (learning x) (logging x)))
  | Act z => let! y := act x z in Ok (Some y)
  | Reward r => let! y := reward x r in Ok (Some y)
  | NewEpisode => let! y := newEpisode x in Ok (Some y)
  | Reset => Ok (Some (agent_reset x))
  | Learn n => if learning x then
                 let! o := learn_times k n (lrn x) (seqidx x) (rewards x) in
                 Ok (option_map (fun l => mkAgent l (lastobs x) (lastaction x) (lastreward x) (rewards x) (seqidx x) (learning x) (logging x)) o)
               else Ok (Some x)
  | SetLearning b => Ok (Some (mkAgent (lrn x) (lastobs x) (lastaction x) (lastreward x) (rewards x) (seqidx x) b (logging x)))
  | SetLogging b => Ok (Some (mkAgent (lrn x) (lastobs x) (lastaction x) (lastreward x) (rewards x) (seqidx x) (learning x) b))
  end.
Fixpoint agent_run (k : kind) (x : agent) (cs : list call) : result (option agent) :=
  match cs with
  | [] => Ok (Some x)
  | c :: t => let! o := agent_step k x c in match o with Some y => agent_run k y t | None => Ok None end
  end.
End Learner.
(** experiment.py:21-31, episodic.py:29-46: what was observed, the draws of the explorer, the reward *)
Definition interaction : Type := rvec * rvec * R.
Definition oneInteraction (i : interaction) : list call := let '(o, z, r) := i in [Observe o; Act z; Reward r].
Definition doEpisodes (eps : list (list interaction)) : list call := flat_map (fun ep => NewEpisode :: flat_map oneInteraction ep) eps.
