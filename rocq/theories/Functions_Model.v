(** Model of rl/environments/functions: the benchmark functions of unimodal.py, multimodal.py and unbounded.py
    and the transformations TranslateFunction, RotateFunction, SoftConstrainedFunction and the oscillation of the
    BBOB functions (transformations.py).

    Numbers are exact reals, arrays lists of them.  Functions that write into their argument
    (x[:] of an array is a view) return the array as it is afterwards.  Random matrices and signs are arguments.
    Not modelled: StepElliFunction, Schwefel20, Gallagher, LunacekBiRastrigin, Branin, lennardjones.py,
    bbob2010.py and the combination of the BBOB transformations. *)
From Coq Require Import Reals.
From Verif Require Import Base.
Local Open Scope R_scope.

Definition rsum (l : list R) : R := fold_right Rplus 0 l.
Fixpoint rzip (f : R -> R -> R) (a b : list R) : list R :=
  match a, b with x :: a', y :: b' => f x y :: rzip f a' b' | _, _ => [] end.
Definition rdot (a b : list R) : R := rsum (rzip Rmult a b).
Definition norm (x : list R) : R := sqrt (rdot x x).
(** b ** e for b >= 0 and e > 0 *)
Definition rpow (b e : R) : R := if Rlt_dec 0 b then Rpower b e else 0.
(** enumerate *)
Definition imap (f : nat -> R -> R) (x : list R) : list R := map (fun p => f (fst p) (snd p)) (combine (seq 0 (length x)) x).

(** ** unimodal.py *)
(** 11-14 *)
Definition sphere (x : list R) : R := rdot x x.
(** 17-22 *)
Definition schwefel (x : list R) : R := fold_left (fun s i => s + (rsum (firstn i x)) ^ 2) (seq 0 (length x)) 0.
(** 25-30 *)
Definition cigar (x : list R) : R := hd 0 x ^ 2 + 1000000 * rdot (tl x) (tl x).
(** 33-38 *)
Definition tablet (x : list R) : R := 1000000 * hd 0 x ^ 2 + rdot (tl x) (tl x).
(** 41-51; for xdim 1 the constructor divides by zero *)
Definition elli_as (a : R) (n : nat) : list R := map (fun i => Rpower a (2 * INR i / (INR n - 1))) (seq 0 n).
Definition elli (a : R) (n : nat) (x : list R) : R := rdot (rzip Rmult (elli_as a n) x) x.
(** 90-93 *)
Definition sharpbis (x : list R) : R := hd 0 x ^ 2 + 100 * sqrt (rdot (tl x) (tl x)).
(** 96-107 *)
Definition diffpow (a : R) (x : list R) : R :=
  rsum (imap (fun i xi => rpow (Rabs xi) (2 + a * INR i / (INR (length x) - 1))) x).
(** 110-124 *)
Definition rosenbrock (x : list R) : R := rsum (rzip (fun a b => 100 * (a ^ 2 - b) ^ 2 + (a - 1) ^ 2) (removelast x) (tl x)).
(** 127-136 *)
Definition glasmachers (c : R) (x : list R) : R :=
  let m := (length x / 2)%nat in
  let a := c * norm (firstn m x) in
  let b := norm (skipn m x) in
  a + b + sqrt (2 * a * b + b ^ 2).
(** 139-153: the value, and the array that was handed in *)
Definition boundedlinear (w signs x : list R) : R * list R :=
  let x_ := rzip (fun s xi => if Rlt_dec 5 (xi * s) then s * 5 else xi) signs x in
  (5 * rsum w - rdot (rzip Rmult w signs) x_, x_).

(** ** unbounded.py:18-29 *)
Definition linear (x : list R) : R := rsum x.
Definition parabR (x : list R) : R := - hd 0 x + 100 * rsum (map (fun a => a ^ 2) (tl x)).
Definition sharpR (x : list R) : R := - hd 0 x + 100 * sqrt (rsum (map (fun a => a ^ 2) (tl x))).

(** ** multimodal.py *)
(** 21-27 *)
Definition funnel (depth size : R) (x : list R) : R :=
  let d := map (fun a => a - 2.5) x in
  let u := map (fun a => a + 2.5) x in
  Rmin (rdot d d) (depth * INR (length x) + size * rdot u u).
(** 31-43 *)
Definition rastrigin (a : R) (x : list R) : R :=
  rsum (imap (fun i xi => let ai := Rpower a ((INR i - 1) / (INR (length x) - 1)) in (ai * xi) ^ 2 - 10 * cos (2 * PI * ai * xi)) x) + 10 * INR (length x).
(** 46-61 *)
Definition weierstrass (kmax : nat) (x : list R) : R :=
  fold_left (fun res k => res + rsum (map (fun xi => (1 / 2) ^ k * cos (2 * PI * 3 ^ k * (xi + 0.5))) x)
                          - INR (length x) * (1 / 2) ^ k * cos (2 * PI * 3 ^ k * 0.5)) (seq 0 kmax) 0.
(** 64-68 *)
Definition schaffers (x : list R) : R :=
  let s := rzip (fun a b => sqrt (a ^ 2 + b ^ 2)) (removelast x) (tl x) in
  rsum (map (fun a => sqrt a * (1 + sin (50 * rpow a 0.2) ^ 2)) s) ^ 2.
(** 71-76 *)
Definition ackley (x : list R) : R :=
  let n := INR (length x) in
  - (20) * exp (- 0.2 * sqrt (1 / n * rsum (map (fun a => a ^ 2) x))) - exp (1 / n * rsum (map (fun a => cos (2 * PI * a)) x)) + (20 + exp 1).
(** 79-84 *)
Definition griewank (x : list R) : R :=
  1 + rsum (map (fun a => a ^ 2) x) / 4000 - fold_left Rmult (imap (fun i xi => cos (xi / sqrt (INR (i + 1)))) x) 1.
(** 86-96: z = x[:] is the caller's array *)
Definition buche_z (x : list R) : list R :=
  imap (fun i xi => let e := INR i / (INR (length x) - 1) / 2 in
                    let e := if Rle_dec xi 0 then e + 1 else if (i mod 2 =? 0)%nat then e + 1 else e in
                    xi * Rpower 10 e) x.
Definition bucherastrigin (x : list R) : R * list R :=
  let z := buche_z x in
  (rdot z z + 10 * INR (length x) - 10 * rsum (map (fun a => cos (2 * PI * a)) z), z).
(** 98-103 *)
Definition griewankrosenbrock (x : list R) : R :=
  let s := rzip (fun a b => 100 * (a ^ 2 - b) ^ 2 + (a - 1) ^ 2) (removelast x) (tl x) in
  1 / (INR (length x) - 1) * rsum (map (fun a => a / 4000 - cos a) s) + 1.

(** ** Environments.  xopt is an array that may be shared, so environments refer to it by its place *)
Record fenv := mkfenv { fe_f : list R -> R; fe_xopt : nat; fe_dim : nat; fe_desired : R; fe_tomin : bool; fe_pen : bool }.
Definition arrays := list (list R).
(** function.py:29-45 with xopt given: no copy.  transformations.py:36-56 TranslateFunction: self.xopt += offset *)
Definition vadd (a b : list R) : list R := rzip Rplus a b.
Definition vsub (a b : list R) : list R := rzip Rminus a b.
Definition translate (offset : list R) (w : arrays) (e : fenv) : arrays * fenv :=
  (upd (fe_xopt e) (vadd (nth (fe_xopt e) w []) offset) w,
   mkfenv (fun x => fe_f e (vsub x offset)) (fe_xopt e) (fe_dim e) (fe_desired e) (fe_tomin e) false).
(** matrices are lists of rows; numpy dot(x, M) and dot(M, x) *)
Definition matvec (M : list (list R)) (x : list R) : list R := map (fun row => rdot row x) M.
Definition vecmat (x : list R) (M : list (list R)) : list R := map (fun j => rdot x (map (fun row => nth j row 0) M)) (seq 0 (length M)).
(** transformations.py:59-78 RotateFunction; Minv is inv(M), a new array *)
Definition rotate (M Minv : list (list R)) (w : arrays) (e : fenv) : arrays * fenv :=
  (w ++ [matvec Minv (nth (fe_xopt e) w [])],
   mkfenv (fun x => fe_f e (vecmat x M)) (length w) (fe_dim e) (fe_desired e) (fe_tomin e) false).
(** transformations.py:81-86; ax.max() of the array *)
Definition rlmax (l : list R) : R := match l with [] => 0 | a :: r => fold_left Rmax r a end.
Definition penalize (distance : R) (x : list R) : R :=
  let ax := map Rabs x in
  let tmp := map (fun a => Rmin (Rmax (a - distance) 0) (rlmax ax)) ax in
  rdot tmp tmp.
(** transformations.py:89-112 SoftConstrainedFunction *)
Definition soft (distance factor : R) (w : arrays) (e : fenv) : arrays * fenv :=
  let factor := if fe_tomin e then factor else factor * -1 in
  (w, mkfenv (if fe_pen e then fe_f e else fun x => fe_f e x + penalize distance x * factor) (fe_xopt e) (fe_dim e) (fe_desired e) (fe_tomin e) true).

(** transformations.py:264-270 oscillatify of one number, with eps = 1e-100 *)
Definition oscillatify (eps x : R) : R :=
  exp (ln (Rabs x + eps) + (if Rlt_dec 0 x then 0.049 * (sin (10 * x) + sin (7.9 * x)) else 0)
                         + (if Rlt_dec x 0 then 0.049 * (sin (5.5 * x) + sin (3.1 * x)) else 0)).
