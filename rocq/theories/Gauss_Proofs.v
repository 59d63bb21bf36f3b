(** Sums, quadratic forms, linear systems over the reals; block matrices; the inverse of the Fisher information. *)
From Coq Require Import Reals Lra.
From Verif Require Import Base Gauss_Model Gauss_Spec.
Local Open Scope R_scope.

(** ** Sums *)
Lemma rsig_ext n f g : (forall i, (i < n)%nat -> f i = g i) -> rsig n f = rsig n g.
Proof. induction n as [|n IH]; intro H; [reflexivity|]. cbn [rsig]. rewrite IH, H by auto. reflexivity. Qed.
Lemma rsig_plus n f g : rsig n (fun i => f i + g i) = rsig n f + rsig n g.
Proof. induction n as [|n IH]; cbn [rsig]; [lra|]. rewrite IH. lra. Qed.
Lemma rsig_minus n f g : rsig n (fun i => f i - g i) = rsig n f - rsig n g.
Proof. induction n as [|n IH]; cbn [rsig]; [lra|]. rewrite IH. lra. Qed.
Lemma rsig_scale n c f : rsig n (fun i => c * f i) = c * rsig n f.
Proof. induction n as [|n IH]; cbn [rsig]; [lra|]. rewrite IH. lra. Qed.
Lemma rsig_scale_r n c f : rsig n (fun i => f i * c) = rsig n f * c.
Proof. induction n as [|n IH]; cbn [rsig]; [lra|]. rewrite IH. lra. Qed.
Lemma rsig_zero n : rsig n (fun _ => 0) = 0.
Proof. induction n as [|n IH]; cbn [rsig]; [reflexivity|]. rewrite IH. lra. Qed.
Lemma rsig_0 n f : (forall i, (i < n)%nat -> f i = 0) -> rsig n f = 0.
Proof. intro H. rewrite (rsig_ext n f (fun _ => 0) H). apply rsig_zero. Qed.
Lemma rsig_swap n k f : rsig n (fun i => rsig k (fun j => f i j)) = rsig k (fun j => rsig n (fun i => f i j)).
Proof. induction n as [|n IH]; cbn [rsig]; [now rewrite rsig_zero|]. rewrite IH, <- rsig_plus. reflexivity. Qed.
Lemma rsig_head n f : rsig (S n) f = f 0%nat + rsig n (fun i => f (S i)).
Proof. induction n as [|n IH]; [cbn [rsig]; lra|]. cbn [rsig] in *. rewrite IH. lra. Qed.
Lemma rsig_pos n f : (forall i, (i < n)%nat -> 0 <= f i) -> 0 <= rsig n f.
Proof. induction n as [|n IH]; intro H; cbn [rsig]; [lra|]. pose proof (H n ltac:(lia)). specialize (IH ltac:(auto)). lra. Qed.
Lemma rsig_member n f i : (i < n)%nat -> (forall j, (j < n)%nat -> 0 <= f j) -> f i <= rsig n f.
Proof.
  induction n as [|n IH]; intros Hi H; [lia|]. cbn [rsig]. destruct (Nat.eq_dec i n) as [->|N].
  - pose proof (rsig_pos n f ltac:(auto)). lra.
  - specialize (IH ltac:(lia) ltac:(auto)). pose proof (H n ltac:(lia)). lra.
Qed.
Lemma rsig_delta n i f : (i < n)%nat -> rsig n (fun j => delta i j * f j) = f i.
Proof.
  induction n as [|n IH]; intro Hi; [lia|]. cbn [rsig]. destruct (Nat.eq_dec i n) as [->|N].
  - rewrite rsig_0; [unfold delta; rewrite Nat.eqb_refl; lra|]. intros j Hj. unfold delta. destruct (Nat.eqb_spec n j); [lia|lra].
  - rewrite IH by lia. unfold delta. destruct (Nat.eqb_spec i n); [lia|lra].
Qed.
Lemma delta_sym i j : delta i j = delta j i.
Proof. unfold delta. now rewrite Nat.eqb_sym. Qed.
Lemma delta_S i j : delta (S i) (S j) = delta i j.
Proof. reflexivity. Qed.

(** ** Square systems *)
Definition skipR (r i : nat) : nat := if (i <? r)%nat then i else S i.
Lemma skipR_onto r i d : (r < S d)%nat -> (i < S d)%nat -> i <> r -> exists j, (j < d)%nat /\ skipR r j = i.
Proof.
  intros H1 H2 H3. destruct (Nat.lt_ge_cases i r) as [L|L].
  - exists i. split; [lia|]. unfold skipR. destruct (Nat.ltb_spec i r); lia.
  - exists (i - 1)%nat. split; [lia|]. unfold skipR. destruct (Nat.ltb_spec (i - 1) r); lia.
Qed.
Definition app (d : nat) (A : nat -> nat -> R) (x : nat -> R) (i : nat) : R := rsig d (fun j => A i j * x j).
Lemma app_ext d A x y i : (forall j, (j < d)%nat -> x j = y j) -> app d A x i = app d A y i.
Proof. intros H. apply rsig_ext. intros j Hj. now rewrite (H j Hj). Qed.
Lemma zero_or_notR d (f : nat -> R) : (forall i, (i < d)%nat -> f i = 0) \/ exists i, (i < d)%nat /\ f i <> 0.
Proof.
  induction d as [| d [IH | (i & Hi & H)]]; [left; lia | | right; exists i; split; [lia | auto]].
  destruct (Req_dec (f d) 0) as [E | E]; [left | right; exists d; split; [lia | auto]]. intros i Hi. destruct (Nat.eq_dec i d) as [-> | Hne]; [auto | apply IH; lia].
Qed.
Lemma alternativeR : forall d A, (exists x, (forall i, (i < d)%nat -> app d A x i = 0) /\ exists i, (i < d)%nat /\ x i <> 0) \/
  forall b, exists x, forall i, (i < d)%nat -> app d A x i = b i.
Proof.
  induction d as [| d IH]; intros A; [right; intros b; exists b; lia |].
  destruct (zero_or_notR (S d) (fun i => A i d)) as [Z | (r & Hr & Hn)].
  { left. exists (fun j => delta d j). split.
    - intros i Hi. unfold app. cbn [rsig]. rewrite (Z i Hi). rewrite rsig_0; [lra|]. intros j Hj. unfold delta. destruct (Nat.eqb_spec d j); [lia |]. lra.
    - exists d. split; [lia |]. unfold delta. rewrite Nat.eqb_refl. lra. }
  set (A' := fun i j => A (skipR r i) j - A (skipR r i) d / A r d * A r j).
  set (fin := fun (x : nat -> R) (c : R) (j : nat) => if (j =? d)%nat then (c - app d A x r) / A r d else x j).
  assert (Efin : forall x c j, (j < d)%nat -> fin x c j = x j) by (intros x c j Hj; unfold fin; destruct (Nat.eqb_spec j d); [lia | reflexivity]).
  assert (Efd : forall x c, fin x c d = (c - app d A x r) / A r d) by (intros; unfold fin; now rewrite Nat.eqb_refl).
  assert (Last : forall x i, app (S d) A x i = app d A x i + A i d * x d) by reflexivity.
  assert (Pr : forall x c, app (S d) A (fin x c) r = c).
  { intros x c. rewrite Last, Efd. rewrite (app_ext d A (fin x c) x r) by (intros; apply Efin; auto). field. auto. }
  assert (Po : forall x c i, app (S d) A (fin x c) (skipR r i) = app d A' x i + A (skipR r i) d / A r d * c).
  { intros x c i. rewrite Last, Efd. rewrite (app_ext d A (fin x c) x (skipR r i)) by (intros; apply Efin; auto).
    assert (E : app d A' x i = app d A x (skipR r i) - A (skipR r i) d / A r d * app d A x r).
    { unfold app, A'. rewrite <- rsig_scale, <- rsig_minus. apply rsig_ext. intros. lra. }
    rewrite E. field. auto. }
  destruct (IH A') as [(x & Hx & j & Hj & Nj) | S'].
  - left. exists (fin x 0). split.
    + intros i Hi. destruct (Nat.eq_dec i r) as [-> | Hne]; [apply Pr |]. destruct (skipR_onto r i d Hr Hi Hne) as (k & Hk & <-). rewrite Po, (Hx k Hk). lra.
    + exists j. split; [lia |]. rewrite (Efin x 0 j Hj). auto.
  - right. intros b. destruct (S' (fun k => b (skipR r k) - A (skipR r k) d / A r d * b r)) as (x & Hx). exists (fin x (b r)).
    intros i Hi. destruct (Nat.eq_dec i r) as [-> | Hne]; [apply Pr |]. destruct (skipR_onto r i d Hr Hi Hne) as (k & Hk & <-). rewrite Po, (Hx k Hk). lra.
Qed.
Lemma regular_solvable n K b : regular n K -> exists x, forall i, (i < n)%nat -> rsig n (fun j => K i j * x j) = b i.
Proof. intro H. destruct (alternativeR n K) as [(x & Hx & i & Hi & Ni) | S']; [exfalso; apply Ni, (H x Hx i Hi) | exact (S' b)]. Qed.
Lemma regular_unique n K x y : regular n K -> (forall i, (i < n)%nat -> rsig n (fun j => K i j * x j) = rsig n (fun j => K i j * y j)) -> forall i, (i < n)%nat -> x i = y i.
Proof.
  intros H E i Hi. assert (x i - y i = 0); [|lra]. apply (H (fun i => x i - y i)); [|exact Hi]. intros r Hr. rewrite (rsig_ext n _ (fun j => K r j * x j - K r j * y j)) by (intros; lra).
  rewrite rsig_minus, (E r Hr). lra.
Qed.
(** ** Quadratic forms *)
Lemma quad_app n A x : quad n A x = rsig n (fun i => x i * app n A x i).
Proof. unfold quad, app. apply rsig_ext. intros i Hi. rewrite <- rsig_scale. apply rsig_ext. intros. lra. Qed.
Lemma definite_regular n K : definite n K -> regular n K.
Proof.
  intros D x Hx i Hi. destruct (Req_dec (x i) 0) as [E|N]; [exact E|]. exfalso. assert (P : 0 < quad n K x) by (apply D; eauto). rewrite quad_app in P.
  rewrite rsig_0 in P; [lra|]. intros j Hj. unfold app. rewrite (Hx j Hj). lra.
Qed.
Lemma inverse_sym n K B : symmetric n K -> inverse_of n K B -> symmetric n B.
Proof.
  intros S I i j Hi Hj. (* B i j = sum_k B i k * delta k j = sum_k sum_l B i k K k l B j l ... *)
  assert (H1 : rsig n (fun k => rsig n (fun l => B i k * K k l * B j l)) = B j i).
  { rewrite rsig_swap. rewrite (rsig_ext n _ (fun l => delta i l * B j l)); [apply rsig_delta; exact Hi|].
    intros l Hl. rewrite rsig_scale_r. f_equal. apply (I i l Hi Hl). }
  assert (H2 : rsig n (fun k => rsig n (fun l => B i k * K k l * B j l)) = B i j).
  { rewrite (rsig_ext n _ (fun k => delta j k * B i k)); [apply rsig_delta; exact Hj|]. intros k Hk.
    rewrite (rsig_ext n _ (fun l => B i k * (B j l * K l k))) by (intros l Hl; rewrite (S k l Hk Hl); lra). rewrite rsig_scale. rewrite (proj2 (I j k Hj Hk)). lra. }
  congruence.
Qed.

(** ** Block matrices *)
Lemma start_S d ds k : start (d :: ds) (S k) = (d + start ds k)%nat.
Proof. reflexivity. Qed.
Lemma start_nth ds : forall k, (k < length ds)%nat -> (start ds k + nth k ds 0 <= list_sum ds)%nat.
Proof. induction ds as [|d ds IH]; intros k H; [cbn in H; lia|]. destruct k as [|k]; [unfold start; cbn; lia|]. rewrite start_S. cbn [nth]. change (list_sum (d :: ds)) with (d + list_sum ds)%nat. specialize (IH k ltac:(cbn in H; lia)). lia. Qed.
(** the contents of a row of blocks that starts at column h *)
Lemma put_row_spec v vd : forall ws row h res, Forall2 (fun w m => nr m = vd /\ nc m = w) ws row -> (v + vd <= nr res)%nat -> (h + list_sum ws <= nc res)%nat ->
  exists res', put_row v vd h ws row res = Ok res' /\ nr res' = nr res /\ nc res' = nc res /\
    (forall i j, ~ (v <= i < v + vd /\ h <= j < h + list_sum ws)%nat -> el res' i j = el res i j) /\
    (forall k a b, (k < length ws)%nat -> (a < vd)%nat -> (b < nth k ws 0)%nat -> el res' (v + a)%nat (h + start ws k + b)%nat = el (nth k row (Arr 0 0 (fun _ _ => 0))) a b).
Proof.
  induction ws as [|w ws IH]; intros row h res F Hv Hh; inversion F; subst; cbn [put_row].
  - exists res. split; [reflexivity|]. repeat split. intros k a b Hk. cbn in Hk. lia.
  - rename y into m, l' into row'. match goal with H : nr m = _ /\ nc m = _ |- _ => destruct H as (Hr & Hc) end. change (list_sum (w :: ws)) with (w + list_sum ws)%nat in *.
    unfold assign. replace (Nat.min (v + vd) (nr res) - Nat.min v (nr res))%nat with vd by lia. replace (Nat.min (h + w) (nc res) - Nat.min h (nc res))%nat with w by lia.
    rewrite Hr, Hc, !Nat.eqb_refl. cbn [orb andb rbind]. set (res1 := Arr _ _ _).
    destruct (IH row' (h + w)%nat res1) as (res' & E & N1 & N2 & Out & In_); [assumption | exact Hv | cbn [res1 nc]; lia|]. exists res'. split; [exact E|]. split; [exact N1|]. split; [exact N2|].
    assert (One : forall i j, (v <= i < v + vd)%nat -> (h <= j < h + w)%nat -> el res1 i j = el m (i - v)%nat (j - h)%nat).
    { intros i j Hi Hj. cbn [res1 el]. rewrite (proj2 (Nat.leb_le _ _)), (proj2 (Nat.ltb_lt _ _)), (proj2 (Nat.leb_le _ _)), (proj2 (Nat.ltb_lt j _)) by lia. cbn [andb].
      f_equal; [destruct (Nat.eqb_spec vd 1); lia | destruct (Nat.eqb_spec w 1); lia]. }
    split.
    + intros i j Hn. rewrite Out by lia. cbn [res1 el]. destruct (Nat.leb_spec v i), (Nat.ltb_spec i (v + vd)), (Nat.leb_spec h j), (Nat.ltb_spec j (h + w)); cbn [andb]; (reflexivity || lia).
    + intros k a b Hk Ha Hb. destruct k as [|k].
      * change (start (w :: ws) 0) with 0%nat. cbn [nth] in *. rewrite Out by lia. rewrite One by lia. f_equal; lia.
      * rewrite start_S. cbn [nth] in *. replace (h + (w + start ws k) + b)%nat with (h + w + start ws k + b)%nat by lia. apply In_; [cbn in Hk; lia | exact Ha | exact Hb].
Qed.
Lemma put_rows_spec ws : forall hs l v res, fits hs ws l -> (v + list_sum hs <= nr res)%nat -> (list_sum ws <= nc res)%nat ->
  exists res', put_rows v ws hs l res = Ok res' /\ nr res' = nr res /\ nc res' = nc res /\
    (forall i j, (i < v)%nat -> el res' i j = el res i j) /\
    (forall p k a b, (p < length hs)%nat -> (k < length ws)%nat -> (a < nth p hs 0)%nat -> (b < nth k ws 0)%nat ->
       el res' (v + start hs p + a)%nat (start ws k + b)%nat = el (nth k (nth p l []) (Arr 0 0 (fun _ _ => 0))) a b).
Proof.
  induction hs as [|h hs IH]; intros l v res F Hv Hw; inversion F; subst; cbn [put_rows].
  - exists res. split; [reflexivity|]. repeat split. intros p k a b Hp. cbn in Hp. lia.
  - rename y into row, l' into l. change (list_sum (h :: hs)) with (h + list_sum hs)%nat in *.
    destruct (put_row_spec v h ws row 0 res) as (r1 & E1 & N1 & N2 & Out1 & In1); [assumption | lia | lia|]. rewrite E1. cbn [rbind].
    destruct (IH l (v + h)%nat r1) as (r2 & E2 & M1 & M2 & Out2 & In2); [assumption | lia | lia|]. exists r2. split; [exact E2|]. split; [lia|]. split; [lia|]. split.
    + intros i j Hi. rewrite Out2 by lia. apply Out1. lia.
    + intros p k a b Hp Hk Ha Hb. destruct p as [|p].
      * change (start (h :: hs) 0) with 0%nat. cbn [nth] in *. rewrite Out2 by lia. replace (v + 0 + a)%nat with (v + a)%nat by lia. specialize (In1 k a b Hk Ha Hb). cbn [plus] in In1. exact In1.
      * rewrite start_S. cbn [nth] in *. replace (v + (h + start hs p) + a)%nat with (v + h + start hs p + a)%nat by lia. apply In2; auto. cbn in Hp. lia.
Qed.
Lemma heights hs ws : forall l, fits hs ws l -> (0 < length ws)%nat -> row_heights l = Ok hs.
Proof.
  intros l F W. induction F as [|h row hs l Hrow _ IH]; [reflexivity|]. cbn [row_heights]. inversion Hrow; subst; [cbn in W; lia|].
  match goal with H : nr _ = _ /\ _ |- _ => destruct H as (-> & _) end. rewrite IH. reflexivity.
Qed.
Lemma widths h ws row : Forall2 (fun w m => nr m = h /\ nc m = w) ws row -> map nc row = ws.
Proof. intro F. induction F as [|w m ws row (_ & E) _ IH]; [reflexivity|]. cbn [map]. now rewrite E, IH. Qed.
Lemma combine_spec hs ws l : fits hs ws l -> (0 < length ws)%nat -> (0 < length hs)%nat -> list_sum hs = list_sum ws ->
  exists res, blockCombine l = Ok res /\ nr res = list_sum hs /\ nc res = list_sum ws /\
    forall p k a b, (p < length hs)%nat -> (k < length ws)%nat -> (a < nth p hs 0)%nat -> (b < nth k ws 0)%nat ->
       el res (start hs p + a)%nat (start ws k + b)%nat = el (nth k (nth p l []) (Arr 0 0 (fun _ _ => 0))) a b.
Proof.
  intros F W H E. unfold blockCombine. assert (F' := F). destruct F as [|h row0 hs l F0 F1]; [cbn in H; lia|].
  rewrite (widths h ws row0 F0). rewrite (heights (h :: hs) ws (row0 :: l) F' W). cbn [rbind].
  destruct (put_rows_spec ws (h :: hs) (row0 :: l) 0 (Arr (list_sum ws) (list_sum (h :: hs)) (fun _ _ => 0)) F') as (r & Er & N1 & N2 & _ & I); [cbn [nr plus]; lia | cbn [nc]; lia|].
  exists r. split; [exact Er|]. cbn [nr nc] in N1, N2. split; [lia|]. split; [lia|]. exact I.
Qed.

(** ** The inverse of the Fisher information *)
Definition border (q t : R) (u : nat -> R) (D : nat -> nat -> R) (i j : nat) : R :=
  match i, j with O, O => q | O, S j => t * u j | S i, O => t * u i | S i, S j => D i j + q * (u i * u j) end.
Lemma bordered_spec m q t u D : exists res, bordered m q t u D = Ok res /\ nr res = S m /\ nc res = S m /\ forall i j, (i < S m)%nat -> (j < S m)%nat -> el res i j = border q t u (el D) i j.
Proof.
  unfold bordered. match goal with |- context [blockCombine ?l] => set (L := l) end. destruct (combine_spec [1; m]%nat [1; m]%nat L) as (res & E & N1 & N2 & I).
  { repeat constructor. } { cbn; lia. } { cbn; lia. } { reflexivity. }
  change (list_sum [1; m]%nat) with (1 + (m + 0))%nat in *. exists res. split; [exact E|]. split; [lia|]. split; [lia|]. intros i j Hi Hj.
  destruct i as [|i], j as [|j]; cbn [border].
  - apply (I 0 0 0 0)%nat; cbn; lia.
  - apply (I 0 1 0 j)%nat; cbn; lia.
  - apply (I 1 0 i 0)%nat; cbn; lia.
  - apply (I 1 1 i j)%nat; cbn; lia.
Qed.
(** a bordered matrix: w in the corner, v beside and below it *)
Definition frame (w : R) (v : nat -> R) (D : nat -> nat -> R) (i j : nat) : R :=
  match i, j with O, O => w | O, S j => v j | S i, O => v i | S i, S j => D i j end.
Lemma border_inverse m w v D B q t u s : symmetric m D -> symmetric m B -> inverse_of m D B -> (forall i, (i < m)%nat -> u i = rsig m (fun j => B i j * v j)) -> s = rsig m (fun i => v i * u i) ->
  w <> 0 -> w - s <> 0 -> q = 1 / (w - s) -> t = - (1 + q * s) / w -> inverse_of (S m) (frame w v D) (border q t u B) /\ symmetric (S m) (border q t u B).
Proof.
  intros SD SB I Hu Hs Hw Hws Hq Ht. assert (Tq : t = - q) by (rewrite Ht, Hq; field; split; assumption). assert (Qw : q * (w - s) = 1) by (rewrite Hq; field; assumption).
  assert (Du : forall i, (i < m)%nat -> rsig m (fun k => D i k * u k) = v i).
  { intros i Hi. rewrite (rsig_ext m _ (fun k => rsig m (fun l => D i k * B k l * v l))) by (intros k Hk; rewrite (Hu k Hk), <- rsig_scale; apply rsig_ext; intros; lra).
    rewrite rsig_swap. rewrite (rsig_ext m _ (fun l => delta i l * v l)); [apply rsig_delta; exact Hi|]. intros l Hl. rewrite rsig_scale_r. f_equal. apply (I i l Hi Hl). }
  assert (vB : forall j, (j < m)%nat -> rsig m (fun k => v k * B k j) = u j).
  { intros j Hj. rewrite (Hu j Hj). apply rsig_ext. intros k Hk. rewrite (SB k j Hk Hj). lra. }
  assert (Sy : symmetric (S m) (border q t u B)).
  { intros i j Hi Hj. destruct i as [|i], j as [|j]; cbn [border]; try lra. rewrite (SB i j) by lia. lra. }
  assert (SF : symmetric (S m) (frame w v D)). { intros i j Hi Hj. destruct i as [|i], j as [|j]; cbn [frame]; try reflexivity. apply SD; lia. }
  assert (Right : forall i j, (i < S m)%nat -> (j < S m)%nat -> rsig (S m) (fun k => frame w v D i k * border q t u B k j) = delta i j).
  { intros i j Hi Hj. rewrite rsig_head. destruct i as [|i], j as [|j]; cbn [frame border].
    - rewrite (rsig_ext m _ (fun i => t * (v i * u i))) by (intros; lra). rewrite rsig_scale, <- Hs, Tq. unfold delta. rewrite Nat.eqb_refl. lra.
    - rewrite (rsig_ext m _ (fun k => v k * B k j + q * u j * (v k * u k))) by (intros; lra). rewrite rsig_plus, rsig_scale, vB, <- Hs, Tq by lia. change (delta 0 (S j)) with 0.
      assert (E : w * (- q * u j) + (u j + q * u j * s) = u j * (1 - q * (w - s))) by ring. rewrite E, Qw. ring.
    - rewrite (rsig_ext m _ (fun k => t * (D i k * u k))) by (intros; lra). rewrite rsig_scale, Du, Tq by lia. change (delta (S i) 0) with 0. lra.
    - rewrite (rsig_ext m _ (fun k => D i k * B k j + q * u j * (D i k * u k))) by (intros; lra). rewrite rsig_plus, rsig_scale, Du, Tq by lia. rewrite (proj1 (I i j ltac:(lia) ltac:(lia))), delta_S. lra. }
  split; [|exact Sy]. intros i j Hi Hj. split; [apply Right; assumption|]. rewrite delta_sym, <- (Right j i Hj Hi). apply rsig_ext. intros k Hk. rewrite (Sy i k Hi Hk), (SF k j Hk Hj). lra.
Qed.
(** trailing blocks *)
Definition trail (k : nat) (A : nat -> nat -> R) (i j : nat) : R := A (k + i)%nat (k + j)%nat.
Lemma trail_S k A : forall i j, trail k A (S i) (S j) = trail (S k) A i j.
Proof. intros. unfold trail. f_equal; lia. Qed.
Lemma rsig_skip k m f : (forall i, (i < k)%nat -> f i = 0) -> rsig (k + m) f = rsig m (fun i => f (k + i)%nat).
Proof. intro H. induction m as [|m IH]; [rewrite Nat.add_0_r; apply rsig_0; exact H|]. rewrite Nat.add_succ_r. cbn [rsig]. now rewrite IH. Qed.
Lemma trail_definite n k A : (k <= n)%nat -> definite n A -> definite (n - k) (trail k A).
Proof.
  intros Hk D x (i & Hi & Nx). set (y := fun j => if (j <? k)%nat then 0 else x (j - k)%nat).
  assert (Ylo : forall j, (j < k)%nat -> y j = 0) by (intros j Hj; unfold y; now rewrite (proj2 (Nat.ltb_lt _ _) Hj)).
  assert (Yhi : forall j, y (k + j)%nat = x j) by (intro j; unfold y; rewrite (proj2 (Nat.ltb_ge _ _)) by lia; f_equal; lia).
  assert (E : forall r, quad (k + r) A y = quad r (trail k A) x).
  { intro r. unfold quad. rewrite rsig_skip by (intros a Ha; apply rsig_0; intros b Hb; rewrite (Ylo a Ha); lra). apply rsig_ext. intros a Ha.
    rewrite rsig_skip by (intros b Hb; rewrite (Ylo b Hb); lra). apply rsig_ext. intros b Hb. rewrite !Yhi. reflexivity. }
  rewrite <- E. replace (k + (n - k))%nat with n by lia. apply D. exists (k + i)%nat. split; [lia|]. now rewrite Yhi.
Qed.
Lemma trail_symmetric n k A : (k <= n)%nat -> symmetric n A -> symmetric (n - k) (trail k A).
Proof. intros Hk S i j Hi Hj. apply S; lia. Qed.
(** the Schur complement of a definite matrix is positive *)
Lemma schur m w v D u : symmetric m D -> definite (S m) (frame w v D) -> (forall i, (i < m)%nat -> rsig m (fun k => D i k * u k) = v i) -> 0 < w - rsig m (fun i => v i * u i).
Proof.
  intros SD Def Du. set (x := fun i => match i with O => 1 | S i => - u i end). assert (P : 0 < quad (S m) (frame w v D) x) by (apply Def; exists 0%nat; split; [lia | cbn; lra]).
  rewrite quad_app in P. rewrite rsig_head in P. unfold app in P. rewrite rsig_head in P. cbn [frame x] in P.
  rewrite (rsig_ext m (fun i => - u i * _) (fun i => 0)) in P.
  - rewrite rsig_zero in P. rewrite (rsig_ext m (fun i => v i * - u i) (fun i => -1 * (v i * u i))) in P by (intros; lra). rewrite rsig_scale in P. lra.
  - intros i Hi. rewrite rsig_head. cbn [frame x]. rewrite (rsig_ext m (fun k => D i k * - u k) (fun k => -1 * (D i k * u k))) by (intros; lra). rewrite rsig_scale, Du by exact Hi. lra.
Qed.
Lemma corner_pos n A : (0 < n)%nat -> definite n A -> 0 < A 0%nat 0%nat.
Proof.
  intros Hn D. assert (P : 0 < quad n A (fun i => delta 0 i)) by (apply D; exists 0%nat; split; [exact Hn | unfold delta; cbn; lra]). unfold quad in P.
  rewrite (rsig_ext n _ (fun i => delta 0 i * A i 0%nat)) in P; [rewrite rsig_delta in P by exact Hn; exact P|]. intros i Hi.
  rewrite (rsig_ext n _ (fun j => delta 0 j * (delta 0 i * A i j))) by (intros; lra). rewrite rsig_delta by exact Hn. reflexivity.
Qed.
Lemma inverse_ext n A A' B B' : (forall i j, (i < n)%nat -> (j < n)%nat -> A i j = A' i j) -> (forall i j, (i < n)%nat -> (j < n)%nat -> B i j = B' i j) -> inverse_of n A B -> inverse_of n A' B'.
Proof.
  intros EA EB I i j Hi Hj. destruct (I i j Hi Hj) as (I1 & I2). split; [rewrite <- I1 | rewrite <- I2]; apply rsig_ext; intros k Hk; rewrite <- EA, <- EB by assumption; reflexivity.
Qed.
Section Fisher.
Context (dim : nat) (invS fac : nat -> nat -> R) (Sym : symmetric dim invS) (Def : definite dim invS) (Fac : forall k, (k < dim)%nat -> fac k k <> 0).
(** block k of the answer is an inverse of block k of the information *)
Definition good (k : nat) (f : arr) : Prop := nr f = (dim - k)%nat /\ nc f = (dim - k)%nat /\ inverse_of (dim - k) (el (fisherBlock dim invS fac k)) (el f).
Definition dgood (k : nat) (d : arr) : Prop := inverse_of (dim - k) (trail k invS) (el d) /\ symmetric (dim - k) (el d).
Lemma factor_pos k : (k < dim)%nat -> 0 < / fac k k ^ 2.
Proof. intro H. apply Rinv_0_lt_compat. assert (N := Fac k H). assert (fac k k ^ 2 = fac k k * fac k k) as -> by ring. destruct (Rdichotomy _ _ N); nra. Qed.
Lemma step_good k F D : (S k < dim)%nat -> dgood (S k) D -> exists f d, invFisherStep dim invS fac (F, D) k = Ok (F ++ [f], d) /\ good k f /\ dgood k d.
Proof.
  intros Hk (I & Sy). unfold invFisherStep. replace (dim - (k + 1))%nat with (dim - S k)%nat by lia. set (m := (dim - S k)%nat) in *.
  set (v := fun i => invS (k + 1 + i)%nat k). set (w := invS k k). set (u := fun i => rsig m (fun j => el D i j * v j)). set (s := rsig m (fun i => v i * u i)).
  assert (Em : (dim - k)%nat = S m) by (unfold m; lia).
  assert (Fr : forall i j, (i < S m)%nat -> (j < S m)%nat -> frame w v (trail (S k) invS) i j = trail k invS i j).
  { intros i j Hi Hj. destruct i as [|i], j as [|j]; cbn [frame].
    - unfold w, trail. f_equal; lia.
    - unfold v, trail. rewrite Sym by lia. f_equal; lia.
    - unfold v, trail. f_equal; lia.
    - symmetry. apply trail_S. }
  pose proof (trail_symmetric dim (S k) invS ltac:(lia) Sym) as SD. fold m in SD. pose proof (trail_definite dim k invS ltac:(lia) Def) as DD. rewrite Em in DD.
  assert (Wp : 0 < w). { pose proof (corner_pos (S m) (trail k invS) ltac:(lia) DD) as P. unfold trail in P. rewrite !Nat.add_0_r in P. exact P. }
  assert (DF : definite (S m) (frame w v (trail (S k) invS))).
  { intros x Hx. assert (E : quad (S m) (frame w v (trail (S k) invS)) x = quad (S m) (trail k invS) x) by (unfold quad; apply rsig_ext; intros i Hi; apply rsig_ext; intros j Hj; now rewrite Fr). rewrite E. now apply DD. }
  assert (Du : forall i, (i < m)%nat -> rsig m (fun l => trail (S k) invS i l * u l) = v i).
  { intros i Hi. unfold u. rewrite (rsig_ext m _ (fun l => rsig m (fun j => trail (S k) invS i l * el D l j * v j))) by (intros l Hl; rewrite <- rsig_scale; apply rsig_ext; intros; lra).
    rewrite rsig_swap. rewrite (rsig_ext m _ (fun j => delta i j * v j)); [apply rsig_delta; exact Hi|]. intros j Hj. rewrite rsig_scale_r. f_equal. apply (I i j Hi Hj). }
  pose proof (schur m w v _ u SD DF Du) as Sp. fold s in Sp. pose proof (factor_pos k ltac:(lia)) as Fp. set (wr := w + / fac k k ^ 2).
  destruct (bordered_spec m (1 / (wr - s)) (- (1 + 1 / (wr - s) * s) / wr) u D) as (f & Ef & F1 & F2 & Fe). destruct (bordered_spec m (1 / (w - s)) (- (1 + 1 / (w - s) * s) / w) u D) as (d & Ed & D1 & D2 & De).
  exists f, d. change ((let! f := bordered m (1 / (wr - s)) (- (1 + 1 / (wr - s) * s) / wr) u D in let! d := bordered m (1 / (w - s)) (- (1 + 1 / (w - s) * s) / w) u D in Ok (F ++ [f], d)) = Ok (F ++ [f], d) /\ good k f /\ dgood k d).
  rewrite Ef. cbn [rbind]. rewrite Ed. cbn [rbind]. split; [reflexivity|].
  destruct (border_inverse m w v (trail (S k) invS) (el D) (1 / (w - s)) (- (1 + 1 / (w - s) * s) / w) u s SD Sy I) as (ID & SyD); try reflexivity; try lra; try (intros; reflexivity).
  destruct (border_inverse m wr v (trail (S k) invS) (el D) (1 / (wr - s)) (- (1 + 1 / (wr - s) * s) / wr) u s SD Sy I) as (IF & _); try reflexivity; try (unfold wr; lra); try (intros; reflexivity).
  split.
  - unfold good. rewrite Em. split; [exact F1|]. split; [exact F2|]. apply (inverse_ext (S m) (frame wr v (trail (S k) invS)) _ (border (1 / (wr - s)) (- (1 + 1 / (wr - s) * s) / wr) u (el D)) _); [| intros; symmetry; apply Fe; assumption | exact IF].
    intros i j Hi Hj. unfold fisherBlock, square. cbn [el]. specialize (Fr i j Hi Hj). unfold trail in Fr at 2. destruct i as [|i], j as [|j]; cbn [Nat.eqb andb frame] in *; try exact Fr. unfold wr. rewrite Fr. reflexivity.
  - unfold dgood. rewrite Em. split; [apply (inverse_ext (S m) (frame w v (trail (S k) invS)) _ (border (1 / (w - s)) (- (1 + 1 / (w - s) * s) / w) u (el D)) _ Fr); [intros; symmetry; apply De; assumption | exact ID]|]. intros i j Hi Hj. rewrite !De by assumption. apply SyD; assumption.
Qed.
Lemma loop_good : forall j F D, (S j <= dim)%nat -> dgood j D -> exists l d, foldR (invFisherStep dim invS fac) (rev (seq 0 j)) (F, D) = Ok (F ++ rev l, d) /\ length l = j /\ forall k, (k < j)%nat -> good k (nth k l (square 0 invS)).
Proof.
  induction j as [|j IH]; intros F D Hj G.
  - cbn [seq rev foldR]. exists [], D. rewrite app_nil_r. repeat split; intros; lia.
  - rewrite seq_S, rev_app_distr. cbn [rev List.app foldR plus]. destruct (step_good j F D ltac:(lia) G) as (f & d & E & Gf & Gd). rewrite E. cbn [rbind].
    destruct (IH (F ++ [f]) d ltac:(lia) Gd) as (l & d' & E' & L & Gl). exists (l ++ [f]), d'. rewrite E', rev_app_distr. cbn [rev List.app]. rewrite <- app_assoc. split; [reflexivity|].
    split; [rewrite app_length; cbn [length]; lia|]. intros k Hk. destruct (Nat.eq_dec k j) as [->|N].
    + rewrite app_nth2 by lia. replace (j - length l)%nat with 0%nat by lia. exact Gf.
    + rewrite app_nth1 by lia. apply Gl. lia.
Qed.
End Fisher.
