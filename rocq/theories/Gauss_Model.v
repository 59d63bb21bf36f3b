(** Model of block matrices (utilities.py:592-607), of the Fisher information of a Gaussian (tools/fisher.py) and of Gaussian processes (auxiliary/gaussprocess.py).

    Numbers are exact reals; division by zero, which gives inf in numpy, has an unspecified value.  An array with two axes is its two sizes and a function of
    two indices.  scipy.linalg.inv, cholesky and solve are arguments.  The grid of test points (gaussprocess.py:53-62) is an argument.  Not modelled: plotting. *)
From Coq Require Import Reals.
From Verif Require Import Base.
Local Open Scope R_scope.

Record arr := Arr { nr : nat; nc : nat; el : nat -> nat -> R }.
(** the sum of f(0), ..., f(n-1) *)
Fixpoint rsig (n : nat) (f : nat -> R) : R := match n with O => 0 | S k => rsig k f + f k end.

(** ** utilities.py:592-607 *)
(** res[v:v + vd, h:h + hd] = m: the slices end where the array ends; an axis of length one is repeated *)
Definition assign (res : arr) (v vd h hd : nat) (m : arr) : result arr :=
  let tr := (Nat.min (v + vd) (nr res) - Nat.min v (nr res))%nat in
  let tc := (Nat.min (h + hd) (nc res) - Nat.min h (nc res))%nat in
  if ((nr m =? tr) || (nr m =? 1)) && ((nc m =? tc) || (nc m =? 1)) then
    Ok (Arr (nr res) (nc res) (fun i j =>
      if (v <=? i) && (i <? v + vd) && (h <=? j) && (j <? h + hd)
      then el m (if (nr m =? 1)%nat then 0%nat else (i - v)%nat) (if (nc m =? 1)%nat then 0%nat else (j - h)%nat)
      else el res i j))
  else Err ValueError.
(** lines 602-605 *)
Fixpoint put_row (v vd h : nat) (hdims : list nat) (row : list arr) (res : arr) : result arr :=
  match row with
  | [] => Ok res
  | m :: row' => match hdims with
                 | [] => Err IndexError
                 | hd :: hdims' => let! res' := assign res v vd h hd m in put_row v vd (h + hd) hdims' row' res'
                 end
  end.
(** lines 601-606 *)
Fixpoint put_rows (v : nat) (hdims vdims : list nat) (l : list (list arr)) (res : arr) : result arr :=
  match l, vdims with
  | row :: l', vd :: vdims' => let! res' := put_row v vd 0 hdims row res in put_rows (v + vd) hdims vdims' l' res'
  | _, _ => Ok res
  end.
(** line 597 *)
Fixpoint row_heights (l : list (list arr)) : result (list nat) :=
  match l with
  | [] => Ok []
  | [] :: _ => Err IndexError
  | (m :: _) :: l' => let! t := row_heights l' in Ok (nr m :: t)
  end.
Definition blockCombine (l : list (list arr)) : result arr :=
  match l with
  | [] => Err IndexError
  | row0 :: _ =>
      let hdims := map nc row0 in
      let hs := list_sum hdims in
      let! vdims := row_heights l in
      let vs := list_sum vdims in
      put_rows 0 hdims vdims l (Arr hs vs (fun _ _ => 0))
  end.

(** ** fisher.py *)
Definition square (n : nat) (f : nat -> nat -> R) : arr := Arr n n f.
(** fisher.py:9-23, where invSigma and factorSigma are given or computed *)
Definition fisherBlock (dim : nat) (invSigma factor : nat -> nat -> R) (k : nat) : arr :=
  square (dim - k) (fun i j => if ((i =? 0) && (j =? 0))%nat then invSigma (k + i)%nat (k + j)%nat + / (factor k k) ^ 2 else invSigma (k + i)%nat (k + j)%nat).
Definition calcFisherInformation (dim : nat) (invSigma factor : nat -> nat -> R) : list arr :=
  square dim invSigma :: map (fisherBlock dim invSigma factor) (seq 0 dim).
(** fisher.py:48-49; u has m entries; before the first step invD is a number, here an array with one entry *)
Definition bordered (m : nat) (q t : R) (u : nat -> R) (invD : arr) : result arr :=
  blockCombine [[Arr 1 1 (fun _ _ => q); Arr 1 m (fun _ j => t * u j)];
                [Arr m 1 (fun i _ => t * u i); Arr m m (fun i j => el invD i j + q * (u i * u j))]].
(** fisher.py:38-49 *)
Definition invFisherStep (dim : nat) (invSigma factor : nat -> nat -> R) (st : list arr * arr) (k : nat) : result (list arr * arr) :=
  let (invF, invD) := st in
  let m := (dim - (k + 1))%nat in
  let v i := invSigma (k + 1 + i)%nat k in
  let w := invSigma k k in
  let wr := w + / (factor k k) ^ 2 in
  let u i := rsig m (fun j => el invD i j * v j) in
  let s := rsig m (fun i => v i * u i) in
  let q := 1 / (w - s) in
  let qr := 1 / (wr - s) in
  let t := - (1 + q * s) / w in
  let tr := - (1 + qr * s) / wr in
  let! f := bordered m qr tr u invD in
  let! d := bordered m q t u invD in
  Ok (invF ++ [f], d).
Fixpoint foldR {A B} (f : A -> B -> result A) (l : list B) (a : A) : result A :=
  match l with [] => Ok a | x :: t => let! a' := f a x in foldR f t a' end.
(** fisher.py:27-53 *)
Definition calcInvFisher (dim : nat) (sigma invSigma factor : nat -> nat -> R) : result (list arr) :=
  if (dim =? 0)%nat then Err IndexError
  else
    let last := (dim - 1)%nat in
    let invF := [Arr 1 1 (fun _ _ => 1 / (invSigma last last + / (factor last last) ^ 2))] in
    let invD := Arr 1 1 (fun _ _ => 1 / invSigma last last) in
    let! st := foldR (invFisherStep dim invSigma factor) (rev (seq 0 (dim - 1))) (invF, invD) in
    Ok (rev (fst st ++ [square dim sigma])).

(** ** gaussprocess.py *)
Definition point := list R.
Record gp := GP { g_indim : nat; g_trainx : list point; g_trainy : list R; g_noise : list R; g_testx : list point; g_calculated : bool;
                  g_mean : R; g_auto : bool; g_hyper : R * R; g_pred : list R; g_cov : arr }.
Definition at_p (xs : list point) (i : nat) : point := nth i xs [].
Definition at_r (x : list R) (i : nat) : R := nth i x 0.
(** norm(a - b, 2) *)
Definition dist (a b : point) : R := sqrt (rsig (length a) (fun k => (at_r a k - at_r b k) ^ 2)).
(** gaussprocess.py:45-51 *)
Definition kernel (h : R * R) (a b : point) : R := snd h ^ 2 * exp (- 1 / (2 * fst h ^ 2) * dist a b ^ 2).
(** gaussprocess.py:64-69 *)
Definition buildCov (h : R * R) (a b : list point) : arr := Arr (length a) (length b) (fun i j => kernel h (at_p a i) (at_p b j)).
Definition zeros (n : nat) : list R := repeat 0 n.
Definition eye (n : nat) : arr := Arr n n (fun i j => if (i =? j)%nat then 1 else 0).
(** gaussprocess.py:22-43 *)
Definition newGP (indim : nat) (grid : list point) : gp :=
  GP indim [] [] [] grid true 0 false (1 / 2, 2) (zeros (length grid)) (eye (length grid)).
(** gaussprocess.py:71-76 *)
Definition reset (s : gp) : gp :=
  GP (g_indim s) [] [] [] (g_testx s) (g_calculated s) (g_mean s) (g_auto s) (g_hyper s) (zeros (length (g_testx s))) (eye (length (g_testx s))).
(** gaussprocess.py:78-87; the dimensions of the data set are asserted *)
Definition trainOnDataset (s : gp) (indim outdim : nat) (xs : list point) (ys : list R) : result gp :=
  if ((indim =? g_indim s) && (outdim =? 1))%nat then
    Ok (GP (g_indim s) xs ys (repeat (1 / 1000) (length xs)) (g_testx s) false (g_mean s) (g_auto s) (g_hyper s) (g_pred s) (g_cov s))
  else Err AssertionError.
(** gaussprocess.py:89-97 *)
Definition addDataset (s : gp) (indim outdim : nat) (xs : list point) (ys : list R) : result gp :=
  if ((indim =? g_indim s) && (outdim =? 1))%nat then
    Ok (GP (g_indim s) (g_trainx s ++ xs) (g_trainy s ++ ys) (repeat (1 / 1000) (length (g_trainx s ++ xs))) (g_testx s) false (g_mean s) (g_auto s) (g_hyper s) (g_pred s) (g_cov s))
  else Err AssertionError.
(** gaussprocess.py:99-103; joining rows of different lengths raises *)
Definition addSample (s : gp) (x : point) (y : R) : result gp :=
  if (length x =? g_indim s)%nat then
    Ok (GP (g_indim s) (g_trainx s ++ [x]) (g_trainy s ++ [y]) (g_noise s ++ [1 / 1000]) (g_testx s) false (g_mean s) (g_auto s) (g_hyper s) (g_pred s) (g_cov s))
  else Err ValueError.
(** gaussprocess.py:124-130 for inputs with one column, whose rows scipy.sort leaves as they are *)
Definition avgdist (xs : list point) : R :=
  rsig (length xs - 1) (fun i => at_r (at_p xs (S i)) 0 - at_r (at_p xs i) 0) / INR (length xs - 1).
(** gaussprocess.py:134-140: what is added to K[i, i] *)
Definition autoNoise (xs : list point) (ys : list R) (i : nat) : R :=
  rsig (length xs) (fun j => if Rlt_dec (avgdist xs) (dist (at_p xs i) (at_p xs j)) then 0
                             else Rabs (at_r ys i - at_r ys j) / exp (dist (at_p xs i) (at_p xs j))).
(** gaussprocess.py:116 and 120 *)
Definition noisy (s : gp) : nat -> nat -> R :=
  fun i j => kernel (g_hyper s) (at_p (g_trainx s) i) (at_p (g_trainx s) j) + at_r (g_noise s) j * (if (i =? j)%nat then 1 else 0).
Section Solve.
Context (solve : nat -> (nat -> nat -> R) -> (nat -> R) -> nat -> R) (inv : nat -> (nat -> nat -> R) -> nat -> nat -> R).
(** gaussprocess.py:144-146, with K *)
Definition predict (s : gp) (K : nat -> nat -> R) : gp :=
  let n := length (g_trainx s) in let m := length (g_testx s) in
  let train_test i t := kernel (g_hyper s) (at_p (g_trainx s) i) (at_p (g_testx s) t) in
  let a := solve n K (fun i => at_r (g_trainy s) i - g_mean s) in
  GP (g_indim s) (g_trainx s) (g_trainy s) (g_noise s) (g_testx s) true (g_mean s) (g_auto s) (g_hyper s)
     (map (fun t => g_mean s + rsig n (fun i => train_test i t * a i)) (seq 0 m))
     (Arr m m (fun t t' => kernel (g_hyper s) (at_p (g_testx s) t) (at_p (g_testx s) t') -
                           rsig n (fun i => train_test i t * rsig n (fun j => inv n K i j * train_test j t')))).
(** gaussprocess.py:110-146 *)
Definition calculate (s : gp) : result gp :=
  if (length (g_trainx s) =? 0)%nat then Ok s
  else if g_auto s then
    if (length (g_trainx s) =? 1)%nat then Err ZeroDivisionError
    else if negb (g_indim s =? 1)%nat then Err ValueError
    else Ok (predict s (fun i j => noisy s i j + if (i =? j)%nat then autoNoise (g_trainx s) (g_trainy s) i else 0))
  else Ok (predict s (noisy s)).
(** gaussprocess.py:105-108 *)
Definition testOnArray (s : gp) (xs : list point) : result (gp * list R) :=
  let! s' := calculate (GP (g_indim s) (g_trainx s) (g_trainy s) (g_noise s) xs (g_calculated s) (g_mean s) (g_auto s) (g_hyper s) (g_pred s) (g_cov s)) in
  Ok (s', g_pred s').
(** gaussprocess.py:148-152: the mean and the covariance of what is drawn *)
Definition draw (s : gp) : result (gp * (list R * arr)) :=
  let! s' := (if g_calculated s then Ok s else calculate s) in Ok (s', (g_pred s', g_cov s')).
End Solve.
(** what users set *)
Definition setMean (s : gp) (m : R) : gp :=
  GP (g_indim s) (g_trainx s) (g_trainy s) (g_noise s) (g_testx s) (g_calculated s) m (g_auto s) (g_hyper s) (g_pred s) (g_cov s).
Definition setHyper (s : gp) (h : R * R) : gp :=
  GP (g_indim s) (g_trainx s) (g_trainy s) (g_noise s) (g_testx s) (g_calculated s) (g_mean s) (g_auto s) h (g_pred s) (g_cov s).
Definition setAuto (s : gp) (b : bool) : gp :=
  GP (g_indim s) (g_trainx s) (g_trainy s) (g_noise s) (g_testx s) (g_calculated s) (g_mean s) b (g_hyper s) (g_pred s) (g_cov s).
