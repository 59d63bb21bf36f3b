(** Model of supervised/trainers/backprop.py: BackpropTrainer.train and _calcDerivs.

    Numbers are an abstract commutative ring with a constant [half] for 0.5.  The trainer is
    modelled twice: what _calcDerivs does to a network (its error, its ponderation and what
    it adds to the derivatives), and what train does with any functions of that kind.
    train returns errors / ponderation; the model returns the two numbers.
    The order in which shuffle leaves the sequences is an argument.
    Left out: verbosity, _checkGradient, testOnClassData; descent objects other than plain
    GradientDescent (rprop is in Descent_Model). *)
From Verif Require Import Base RingOps Net_Model.

Section Calc.
Context {K : Type} {Ops : RingOps K} (half : K).
Notation vec := (@vec K).
Local Open Scope r_scope.
Local Open Scope nat_scope.

(** input, target and importance; only datasets with an importance field have the last *)
Record sample := mksample { x_in : vec; x_target : vec; x_imp : option vec }.

(** backprop.py:89-105, the body of the second loop: error, ponderation, what is handed to backActivate *)
Definition outerr (x : sample) (y : vec) : vec := fun i => rsub (x_target x i) (y i).
Definition sample_error (n : nat) (x : sample) (y : vec) : K :=
  match x_imp x with
  | Some w => rmul half (sumn n (fun i => rmul (w i) (rmul (outerr x y i) (outerr x y i))))
  | None => rmul half (sumn n (fun i => rmul (outerr x y i) (outerr x y i)))
  end.
Definition sample_pond (n : nat) (x : sample) : K :=
  match x_imp x with Some w => sumn n w | None => sumn n (fun _ => r1) end.
Definition sample_back (x : sample) (y : vec) : vec :=
  match x_imp x with Some w => fun i => rmul (outerr x y i) (w i) | None => outerr x y end.

Definition out_width (N : @net K) : nat := fold_right (fun m a => l_out (n_layer N m) + a) 0 (n_outmods N).

(** backprop.py:80-107 with a recurrent network *)
Definition rec_calc (N : net) (P : nat -> vec) (seq : list sample) (s : @rstate K) : @rstate K * K * K :=
  let '(s1, ys) := run_acts (rec_activate N P) (rec_reset s) (map x_in seq) in
  fold_left (fun a yx =>
      let '(s, error, ponderation) := a in
      let '(y, x) := yx in
      (fst (rec_backActivate N P s (sample_back x y)),
       radd error (sample_error (out_width N) x y), radd ponderation (sample_pond (out_width N) x)))
    (rev (combine ys seq)) (s1, r0, r0).

(** .. with a feed-forward network, whose buffers have one row: outputbuffer[1] does not exist *)
Definition ff_calc (N : net) (P : nat -> vec) (seq : list sample) (s : @bufs K * @derivs K) : result ((@bufs K * @derivs K) * K * K) :=
  match seq with
  | [] => Ok ((reset_bufs, snd s), r0, r0)
  | [x] =>
      let '(s1, y) := ff_activate N P (reset_bufs, snd s) (x_in x) in
      Ok (fst (ff_backActivate N P s1 (sample_back x y)), radd r0 (sample_error (out_width N) x y), radd r0 (sample_pond (out_width N) x))
  | _ => Err IndexError
  end.

(** the flat parameter array of the network (C15): the containers ks in their order *)
Fixpoint unflat (pdim : nat -> nat) (ks : list nat) (th : list K) : nat -> vec := fun k q =>
  match ks with
  | [] => r0
  | k0 :: t => if k =? k0 then (if q <? pdim k0 then nth q th r0 else r0) else unflat pdim t (skipn (pdim k0) th) k q
  end.
Definition flat (pdim : nat -> nat) (ks : list nat) (D : nat -> vec) : list K := flat_map (fun k => map (D k) (seq 0 (pdim k))) ks.
End Calc.

Section Train.
Context {K : Type} {Ops : RingOps K}.
Local Open Scope r_scope.
Context {S : Type} (err pond : list K -> S -> K) (grad : list K -> S -> list K).   (* _calcDerivs: what it returns, and what it adds to module.derivs *)
Context (momentum alphadecay weightdecay : K).

Fixpoint zipw (f : K -> K -> K) (a b : list K) : list K :=
  match a, b with x :: a', y :: b' => f x y :: zipw f a' b' | _, _ => [] end.

(** [t_shared]: module.params and descent.values are one and the same array *)
Record trainer := mktrainer {
  t_params : list K; t_derivs : list K;
  t_values : list K; t_alpha : K; t_momvec : list K;
  t_shared : bool; t_epoch : nat }.

(** backprop.py:36-48, gradientdescent.py:37-52 *)
Definition new_trainer (learningrate : K) (params derivs : list K) : trainer :=
  mktrainer params derivs params learningrate (map (fun _ => 0) params) false 0.

(** gradientdescent.py:54-92 without rprop; updates of descent.values are in place *)
Definition descend (t : trainer) (g : list K) : result trainer :=
  if negb (length g =? length (t_values t))%nat then Err AssertionError else
  let mv := zipw radd (map (fun m => m * momentum) (t_momvec t)) (map (fun x => t_alpha t * x) g) in
  let values := zipw radd (t_values t) mv in
  Ok (mktrainer (if t_shared t then values else t_params t) (t_derivs t) values (t_alpha t * alphadecay) mv (t_shared t) (t_epoch t)).

(** parametercontainer.py resetDerivatives *)
Definition zero_derivs (t : trainer) : trainer :=
  mktrainer (t_params t) (map (fun _ => 0) (t_derivs t)) (t_values t) (t_alpha t) (t_momvec t) (t_shared t) (t_epoch t).
Definition add_derivs (t : trainer) (g : list K) : trainer :=
  mktrainer (t_params t) (zipw radd (t_derivs t) g) (t_values t) (t_alpha t) (t_momvec t) (t_shared t) (t_epoch t).
(** module.params[:] = new, where new is descent.values *)
Definition copy_values (t : trainer) : trainer :=
  mktrainer (t_values t) (t_derivs t) (t_values t) (t_alpha t) (t_momvec t) (t_shared t) (t_epoch t).
(** module._setParameters(descent.values): parametercontainer.py:51-65; [owns]: the module is its own owner *)
Definition set_values (owns : bool) (t : trainer) : trainer :=
  mktrainer (t_values t) (t_derivs t) (t_values t) (t_alpha t) (t_momvec t) (if owns then t_shared t else true) (t_epoch t).
(** module.params[:] = p by anybody else *)
Definition write_params (p : list K) (t : trainer) : result trainer :=
  if negb (length p =? length (t_params t))%nat then Err ValueError else
  Ok (mktrainer p (t_derivs t) (if t_shared t then p else t_values t) (t_alpha t) (t_momvec t) (t_shared t) (t_epoch t)).

(** backprop.py:60-69 *)
Fixpoint train_loop (batch : bool) (seqs : list S) (t : trainer) (errors ponderation : K) : result (trainer * K * K) :=
  match seqs with
  | [] => Ok (t, errors, ponderation)
  | s :: r =>
      let th := t_params t in
      let t1 := add_derivs t (grad th s) in
      if batch then train_loop batch r t1 (errors + err th s) (ponderation + pond th s)
      else
        let gradient := zipw rsub (t_derivs t1) (map (fun w => weightdecay * w) (t_params t1)) in
        let! t2 := descend t1 gradient in
        train_loop batch r (zero_derivs (copy_values t2)) (errors + err th s) (ponderation + pond th s)
  end.
(** backprop.py:50-77 *)
Definition train (batch owns : bool) (shuffled : list S) (t : trainer) : result (trainer * K * K) :=
  match shuffled with
  | [] => Err AssertionError
  | _ =>
      let! r := train_loop batch shuffled (zero_derivs t) 0 0 in
      let '(t1, errors, ponderation) := r in
      let! t2 := if batch then let! t2 := descend t1 (t_derivs t1) in Ok (set_values owns t2) else Ok t1 in
      Ok (mktrainer (t_params t2) (t_derivs t2) (t_values t2) (t_alpha t2) (t_momvec t2) (t_shared t2) (t_epoch t2 + 1), errors, ponderation)
  end.

(** what a user does: training epochs (whatever order, batchlearning may be switched), and writing parameters *)
Inductive top := OTrain (batch : bool) (shuffled : list S) | OWrite (p : list K).
Definition tstep (owns : bool) (t : trainer) (o : top) : result trainer :=
  match o with
  | OTrain b l => let! r := train b owns l t in Ok (fst (fst r))
  | OWrite p => write_params p t
  end.
Fixpoint trun (owns : bool) (t : trainer) (l : list top) : result trainer :=
  match l with [] => Ok t | o :: r => let! t' := tstep owns t o in trun owns t' r end.
End Train.
