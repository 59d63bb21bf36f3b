(** Model of auxiliary/gradientdescent.py (GradientDescent).

    Arrays are lists of exact rationals.  The gradient handed in is assumed to be an array already
    (asarray does not copy it), so the call also returns the caller's array as it is afterwards.
    Not modelled: NaturalGradient, IRpropPlus. *)
From Verif Require Import Base.
From Coq Require Import QArith.
Local Open Scope Q_scope.

Fixpoint map2 {A B C} (f : A -> B -> C) (a : list A) (b : list B) : list C :=
  match a, b with x :: a', y :: b' => f x y :: map2 f a' b' | _, _ => [] end.
Definition qpos (q : Q) : bool := negb (Qle_bool q 0).
Definition qneg (q : Q) : bool := negb (Qle_bool 0 q).
Definition qsign (q : Q) : Q := if qpos q then 1 else if qneg q then -1 else 0.

Record rprop_cfg : Type := { deltamax : Q; deltamin : Q; deltanull : Q; etaplus : Q; etaminus : Q }.
Record rprop_st : Type := { r_values : list Q; r_theta : list Q; r_last : list Q }.
(** gradientdescent.py:37-49 init with rprop *)
Definition rprop_init (c : rprop_cfg) (values : list Q) : rprop_st :=
  let z := repeat 0 (length values) in
  {| r_values := values; r_theta := map (fun x => x + deltanull c) z; r_last := z |}.
(** numpy clip *)
Definition qmax (a b : Q) : Q := if Qle_bool a b then b else a.
Definition qmin (a b : Q) : Q := if Qle_bool a b then a else b.
Definition qclip (lo hi x : Q) : Q := qmin (qmax x lo) hi.
(** gradientdescent.py:54-79 __call__ with rprop; second component: the caller's gradient array afterwards *)
Definition rprop_call (c : rprop_cfg) (st : rprop_st) (g : list Q) : result (rprop_st * list Q) :=
  if negb (length g =? length (r_values st))%nat then Err AssertionError
  else
    let values := map2 Qplus (r_values st) (map2 Qmult (map qsign g) (r_theta st)) in
    let dirSwitch := map2 Qmult (r_last st) g in
    let theta1 := map2 (fun s t => if qpos s then t * etaplus c else t) dirSwitch (r_theta st) in
    let theta2 := map2 (fun s t => if qneg s then t * etaminus c else t) dirSwitch theta1 in
    let g' := map2 (fun s x => if qneg s then 0 else x) dirSwitch g in
    Ok ({| r_values := values; r_theta := map (qclip (deltamin c) (deltamax c)) theta2; r_last := g' |}, g').

Record plain_st : Type := { p_values : list Q; p_alpha : Q; p_momvec : list Q }.
(** gradientdescent.py:50-52 init without rprop *)
Definition plain_init (alpha : Q) (values : list Q) : plain_st :=
  {| p_values := values; p_alpha := alpha; p_momvec := repeat 0 (length values) |}.
(** gradientdescent.py:81-90 __call__ without rprop *)
Definition plain_call (momentum alphadecay : Q) (st : plain_st) (g : list Q) : result plain_st :=
  if negb (length g =? length (p_values st))%nat then Err AssertionError
  else
    let mv := map2 Qplus (map (fun m => m * momentum) (p_momvec st)) (map (fun x => p_alpha st * x) g) in
    Ok {| p_values := map2 Qplus (p_values st) mv; p_alpha := p_alpha st * alphadecay; p_momvec := mv |}.

Fixpoint rprop_run (c : rprop_cfg) (st : rprop_st) (gs : list (list Q)) : result rprop_st :=
  match gs with [] => Ok st | g :: gs' => let! r := rprop_call c st g in rprop_run c (fst r) gs' end.
Fixpoint plain_run (momentum alphadecay : Q) (st : plain_st) (gs : list (list Q)) : result plain_st :=
  match gs with [] => Ok st | g :: gs' => let! st' := plain_call momentum alphadecay st g in plain_run momentum alphadecay st' gs' end.
