(** Independent description of the cart and pole, of balancing, and of an episode. *)
From Coq Require Import Reals.
From Verif Require Import Base Poles_Model.
Local Open Scope R_scope.

(** the equations of motion of a cart of mass mc carrying a homogeneous pole of mass mp and half length l (moment of inertia 4/3 mp l^2 about the
    hinge), theta measured from the upright position: a is the angular acceleration, b that of the cart *)
Definition obeys (c : phys) (F : R) (x : state) (a b : R) : Prop :=
  (c_mc c + c_mp c) * b + c_mp c * c_l c * (a * cos (th x) - th' x ^ 2 * sin (th x)) = F /\
  4 / 3 * c_mp c * c_l c ^ 2 * a + c_mp c * c_l c * b * cos (th x) = c_mp c * c_g c * c_l c * sin (th x).
(** kinetic and potential energy *)
Definition energy (c : phys) (x : state) : R :=
  1 / 2 * (c_mc c + c_mp c) * po' x ^ 2 + c_mp c * c_l c * po' x * th' x * cos (th x) + 1 / 2 * (4 / 3 * c_mp c * c_l c ^ 2) * th' x ^ 2 +
  c_mp c * c_g c * c_l c * cos (th x).
Definition proper (c : phys) : Prop := 0 < c_l c /\ 0 < c_mp c /\ 0 < c_mc c.
(** a motion: its components have the derivatives given by f *)
Definition motion (f : R -> state -> state) (y : R -> state) : Prop := forall t,
  derivable_pt_lim (fun u => th (y u)) t (th (f t (y t))) /\ derivable_pt_lim (fun u => th' (y u)) t (th' (f t (y t))) /\
  derivable_pt_lim (fun u => po (y u)) t (po (f t (y t))) /\ derivable_pt_lim (fun u => po' (y u)) t (po' (f t (y t))).

Definition mirror (x : state) : state := St (- th x) (- th' x) (- po x) (- po' x).
Definition shift (d : R) (x : state) : state := St (th x) (th' x) (po x + d) (po' x).

(** ** a single pole *)
Definition fallen (x : state) : Prop := 7 / 10 < Rabs (th x) \/ 24 / 10 < Rabs (po x).
Definition upright (x : state) : Prop := Rabs (th x) < 5 / 100.
Definition centred (x : state) : Prop := upright x /\ Rabs (po x) < 5 / 100.
(** what a step is worth when [left] steps are left *)
Inductive pays : kind -> Z -> state -> R -> Prop :=
| pays_centred n x : centred x -> pays Balance n x 0
| pays_fallen n x : fallen x -> pays Balance n x (-2 * IZR n)
| pays_else n x : ~ centred x -> ~ fallen x -> pays Balance n x (-1)
| pays_easy_centred n x : centred x -> pays EasyBalance n x 0
| pays_easy_fallen n x : fallen x -> pays EasyBalance n x (-2 * IZR n)
| pays_easy_else n x : ~ centred x -> ~ fallen x -> pays EasyBalance n x (- Rabs (po x) / 2)
| pays_nohelp_fallen n x : fallen x -> pays NoHelp n x (- IZR n)
| pays_nohelp_else n x : ~ fallen x -> pays NoHelp n x 0
| pays_just_upright n x : upright x -> pays JustBalance n x 0
| pays_just_fallen n x : ~ upright x -> fallen x -> pays JustBalance n x (-2 * IZR n)
| pays_just_else n x : ~ upright x -> ~ fallen x -> pays JustBalance n x (-1)
| pays_discrete_upright k n x : k = Discrete \/ k = Pomdp -> upright x -> pays k n x 1
| pays_discrete_fallen k n x : k = Discrete \/ k = Pomdp -> ~ upright x -> fallen x -> pays k n x (- IZR n)
| pays_discrete_else k n x : k = Discrete \/ k = Pomdp -> ~ upright x -> ~ fallen x -> pays k n x 0
| pays_rbf_fallen n x : 16 / 10 < Rabs (th x) -> pays Rbf n x (-1)
| pays_rbf_else n x : Rabs (th x) <= 16 / 10 -> pays Rbf n x 0.
(** when an episode is lost *)
Definition lost (k : kind) (x : state) : Prop := match k with Rbf => 16 / 10 < Rabs (th x) | _ => fallen x end.

(** an episode that is at [x] with [n] of [N] steps done, and ends at [y] with [m] steps done, the rewards adding up to [r] *)
Inductive play (k : kind) (c : phys) (N : Z) : Z -> state -> Z -> state -> R -> Prop :=
| play_end n x : lost k x \/ (N <= n)%Z -> play k c N n x n x 0
| play_step n x F r m y rs : ~ lost k x -> (n < N)%Z -> -50 <= F <= 50 ->
    pays k (N - (n + 1)) (step (4 / 3) c F x) r -> play k c N (n + 1) (step (4 / 3) c F x) m y rs -> play k c N n x m y (r + rs).
