(** C64: particle swarm optimization. *)
From Coq Require Import ZArith.
From Verif Require Import Base RingOps Net_Props Pso_Model Pso_Spec Pso_Proofs Pso_Proofs2.

Section C64.
Context {K : Type} {Ops : RingOps K} {Laws : RingLaws K}.
Add Ring KR3 : (Laws : ring_theory r0 r1 radd rmul rsub ropp eq).
Local Open Scope r_scope.
Notation vec := (list K).

(** every particle has neighbours, all of them in the swarm *)
Definition well_connected (nb : nat -> list nat) (n : nat) : Prop := forall i, (i < n)%nat -> nb i <> [] /\ forall j, In j (nb i) -> (j < n)%nat.
(** both neighbourhoods of pso.py are like that; the ring is what its name says *)
Theorem C64_neighbours n i : (i < n)%nat ->
  well_connected (fullyConnected n) n /\ well_connected (ring n) n /\
  (forall j, In j (fullyConnected n i) <-> (j < n)%nat) /\
  ring n i = [(S i mod n)%nat; ((i + n - 1) mod n)%nat].
Proof.
  intro Hi.
  assert (Hring : forall i, (i < n)%nat -> ring n i = [(S i mod n)%nat; ((i + n - 1) mod n)%nat]).
  { clear i Hi. intros i Hi. unfold ring. f_equal; [|f_equal].
    - destruct (Nat.eq_dec i (n - 1)) as [E|E].
      + rewrite app_nth2; rewrite seq_length; [|lia]. replace (i - (n - 1))%nat with 0%nat by lia.
        replace (S i) with n by lia. rewrite Nat.mod_same by lia. reflexivity.
      + rewrite app_nth1 by (rewrite seq_length; lia). rewrite seq_nth by lia. rewrite Nat.mod_small; lia.
    - destruct i as [|i]; cbn [nth].
      + rewrite Nat.mod_small; lia.
      + rewrite seq_nth by lia. replace (S i + n - 1)%nat with (i + 1 * n)%nat by lia. rewrite Nat.mod_add by lia. rewrite Nat.mod_small; lia. }
  split; [|split; [|split]]; auto.
  - intros j Hj. unfold fullyConnected. split.
    + destruct n; [lia|discriminate].
    + intros k Hk. apply in_seq in Hk. lia.
  - intros j Hj. rewrite Hring by auto. split; [discriminate|]. intros k [<-|[<-|[]]]; apply Nat.mod_upper_bound; lia.
  - intro j. unfold fullyConnected. rewrite in_seq. lia.
Qed.

(** then the search never fails *)
Theorem C64_runs {F} (ltb : F -> F -> bool) mi me so ine nb (f : vec -> F) starts dss :
  well_connected nb (length starts) ->
  exists ps, steps ltb me so ine mi nb f dss (swarm starts) = Ok ps /\ length ps = length starts.
Proof. intro H. apply steps_ok; auto. apply map_length. Qed.

(** one step of a particle after any history: the social pull goes to the best-evaluated neighbour (the first of equals) *)
Theorem C64_step {F} (ltb : F -> F -> bool) mi me so ine nb (f : vec -> F) m starts dss draws ps ps' i d p p' :
  strict_weak ltb -> well_connected nb (length starts) -> Forall (fun x => length x = m) starts ->
  steps ltb me so ine mi nb f dss (swarm starts) = Ok ps -> learnStep ltb me so ine mi nb f draws ps = Ok ps' ->
  nth_error draws i = Some d -> nth_error ps i = Some p -> nth_error ps' i = Some p' ->
  exists k b q q', nth_error (nb i) k = Some b /\ nth_error ps b = Some q /\ nth_error ps' b = Some q' /\
    first_best ltb mi (fun j => match nth_error (nb i) j with Some n => option_map (fun r => f (position r)) (nth_error ps n) | None => None end) (length (nb i)) k /\
    let target := position (if (b <? i)%nat then q' else q) in
    (forall c, nth c (velocity p') 0 = ine * nth c (velocity p) 0 + me * snd d * (nth c (bestPosition p') 0 - nth c (position p) 0)
        + so * fst d * (nth c target 0 - nth c (position p) 0)) /\
    position p' = plus (position p) (velocity p').
Proof.
  intros SW Hc Hm H H' Hd Hp Hp'. destruct (steps_ok ltb mi me so ine nb f (length starts) dss (swarm starts) Hc) as (ps0 & E & El).
  { apply map_length. }
  rewrite H in E. injection E as <-. eapply step_law with (m := m); eauto.
  - unfold connected. rewrite El. exact Hc.
  - eapply steps_sized; eauto. apply swarm_sized; auto.
Qed.

(** a particle remembers the first best of all the positions it has been evaluated at *)
Theorem C64_memory {F} (ltb : F -> F -> bool) mi me so ine nb (f : vec -> F) starts dss ps i p :
  strict_weak ltb -> dss <> [] -> steps ltb me so ine mi nb f dss (swarm starts) = Ok ps -> nth_error ps i = Some p ->
  let visited k := match steps ltb me so ine mi nb f (firstn k dss) (swarm starts) with Ok qs => option_map position (nth_error qs i) | Err _ => None end in
  exists k x, visited k = Some x /\ bestPosition p = x /\ bestFitness p = Some (f x) /\
    first_best ltb mi (fun j => option_map f (visited j)) (length dss) k.
Proof.
  intros SW Hne H Hp. destruct (memory_inv ltb mi me so ine nb f starts i SW dss ps p H Hp) as [[E _]|Hm]; [contradiction|]. exact Hm.
Qed.

(** only comparisons of fitness count, and the search does not depend on the coordinates: two runs with the same draws
    whose starts correspond by an affine map, and whose evaluators rank corresponding points alike, correspond throughout *)
Theorem C64_invariance {F F'} (ltb : F -> F -> bool) (ltb' : F' -> F' -> bool) mi mi' me so ine nb (f : vec -> F) (f' : vec -> F') m m' phi starts dss :
  affine m m' phi -> Forall (fun x => length x = m) starts ->
  (forall x y, length x = m -> length y = m -> preferred ltb' mi' (f' (phi x)) (f' (phi y)) <-> preferred ltb mi (f x) (f y)) ->
  match steps ltb me so ine mi nb f dss (swarm starts), steps ltb' me so ine mi' nb f' dss (swarm (map phi starts)) with
  | Ok ps, Ok qs => map position qs = map (fun p => phi (position p)) ps /\ (dss <> [] -> map bestPosition qs = map (fun p => phi (bestPosition p)) ps)
  | Err e, Err e' => e = e'
  | _, _ => False
  end.
Proof.
  intros (L & b & HL & Hb & Hphi) Hm Hpref.
  assert (Hp : forall x y, length x = m -> length y = m -> better ltb' mi' (f' (phi x)) (f' (phi y)) = better ltb mi (f x) (f y)).
  { intros x y Hx Hy. specialize (Hpref x y Hx Hy). rewrite !preferred_better in Hpref.
    destruct (better ltb' mi' (f' (phi x)) (f' (phi y))), (better ltb mi (f x) (f y)); try reflexivity; destruct Hpref as [A B]; [specialize (A eq_refl)|specialize (B eq_refl)]; discriminate. }
  pose proof (steps_sim m m' L b phi HL Hb Hphi ltb ltb' mi mi' f f' Hp me so ine nb dss _ _ (swarm_rel m m' L b phi HL Hb Hphi f f' starts Hm)) as H.
  destruct (steps ltb me so ine mi nb f dss (swarm starts)) as [ps|e], (steps ltb' me so ine mi' nb f' dss (swarm (map phi starts))) as [qs|e'];
    cbn [res_rel] in H; auto. split.
  - destruct dss; clear -H; induction H as [|p q ps qs Hpq _ IH]; cbn; auto; destruct Hpq as ((_ & _ & -> & _) & _); rewrite IH; reflexivity.
  - intro Hne. destruct dss as [|d dss]; [contradiction|]. clear -H. induction H as [|p q ps qs Hpq _ IH]; cbn; auto.
    destruct Hpq as (_ & _ & (x0 & _ & -> & -> & _)). rewrite IH. reflexivity.
Qed.

(** minimizing and maximizing are mirror images *)
Theorem C64_mirror {F} (ltb : F -> F -> bool) mi me so ine nb (f : vec -> F) m starts dss :
  Forall (fun x => length x = m) starts ->
  match steps ltb me so ine mi nb f dss (swarm starts), steps (fun a b => ltb b a) me so ine (negb mi) nb f dss (swarm starts) with
  | Ok ps, Ok qs => map position qs = map position ps
  | Err e, Err e' => e = e'
  | _, _ => False
  end.
Proof.
  intro Hm.
  assert (Hid : affine m m (fun x : vec => x)).
  { exists (fun x => x), (repeat 0 m). split; [|split].
    - split; [|split]; auto. - apply repeat_length.
    - intros x Hx. apply vec_ext.
      + rewrite plus_length with (m := m); auto. apply repeat_length.
      + intro k. rewrite nth_plus by (rewrite repeat_length; auto). rewrite nth_repeat. ring. }
  pose proof (C64_invariance ltb (fun a b => ltb b a) mi (negb mi) me so ine nb f f m m (fun x => x) starts dss Hid Hm) as H.
  rewrite map_id in H. destruct (steps ltb me so ine mi nb f dss (swarm starts)), (steps (fun a b => ltb b a) me so ine (negb mi) nb f dss (swarm starts)); apply H;
    intros x y _ _; unfold preferred; destruct mi; cbn; split; intros [[? ?]|[? ?]]; try discriminate; auto.
Qed.

Lemma plus_snoc (x y : vec) a c : length x = length y -> plus (x ++ [a]) (y ++ [c]) = plus x y ++ [a + c].
Proof. revert y. induction x as [|u x IH]; intros [|w y] H; cbn in *; try discriminate; auto. unfold plus in *. cbn. f_equal. apply IH. lia. Qed.
Definition ell (a x : vec) : K := suml (combine a x) (fun ab => fst ab * snd ab).
Lemma ell_plus a : forall x y, length x = length a -> length y = length a -> ell a (plus x y) = ell a x + ell a y.
Proof.
  induction a as [|u a IH]; intros [|x xs] [|y ys] Hx Hy; cbn in *; try discriminate; [unfold ell; cbn; ring|].
  unfold ell, plus in *. cbn. rewrite IH by lia. ring.
Qed.
Lemma ell_scale a c : forall x, length x = length a -> ell a (map (fun z => c * z) x) = c * ell a x.
Proof.
  induction a as [|u a IH]; intros [|x xs] Hx; cbn in *; try discriminate; [unfold ell; cbn; ring|].
  unfold ell in *. cbn. rewrite IH by lia. ring.
Qed.
(** no particle ever leaves a plane that contains all the starts *)
Theorem C64_plane {F} (ltb : F -> F -> bool) mi me so ine nb (f : vec -> F) m starts dss ps a c :
  length a = m -> Forall (fun x => length x = m) starts -> Forall (on_plane a c) starts ->
  steps ltb me so ine mi nb f dss (swarm starts) = Ok ps ->
  Forall (fun p => on_plane a c (position p) /\ (dss <> [] -> on_plane a c (bestPosition p))) ps.
Proof.
  intros Ha Hm Hpl H. set (f' := fun y : vec => f (firstn m y)).
  assert (Hcut : forall (x : vec) z, length x = m -> firstn m (x ++ [z]) = x).
  { intros x z Hx. rewrite firstn_app, firstn_all2 by lia. replace (m - length x)%nat with 0%nat by lia. cbn. apply app_nil_r. }
  assert (H0 : forall (x : vec), length x = m -> plus x (repeat 0 m) = x).
  { intros x Hx. apply vec_ext.
    + rewrite plus_length with (m := m); auto. apply repeat_length.
    + intro k. rewrite nth_plus by (rewrite repeat_length; auto). rewrite nth_repeat. ring. }
  assert (A1 : affine m (S m) (fun x : vec => x ++ [c])).
  { exists (fun x => x ++ [0]), (repeat 0 m ++ [c]). split; [|split].
    - split; [|split].
      + intros x Hx. rewrite app_length. cbn. lia.
      + intros x y Hx Hy. rewrite plus_snoc by lia. do 2 f_equal. ring.
      + intros z x Hx. rewrite map_app. cbn. do 2 f_equal. ring.
    - rewrite app_length, repeat_length. cbn. lia.
    - intros x Hx. rewrite plus_snoc by (rewrite repeat_length; auto). rewrite H0 by auto. do 2 f_equal. ring. }
  assert (A2 : affine m (S m) (fun x : vec => x ++ [ell a x])).
  { exists (fun x => x ++ [ell a x]), (repeat 0 m ++ [0]). split; [|split].
    - split; [|split].
      + intros x Hx. rewrite app_length. cbn. lia.
      + intros x y Hx Hy. rewrite plus_snoc by lia. rewrite ell_plus by lia. reflexivity.
      + intros z x Hx. rewrite map_app. cbn. rewrite ell_scale by lia. reflexivity.
    - rewrite app_length, repeat_length. cbn. lia.
    - intros x Hx. rewrite plus_snoc by (rewrite repeat_length; auto). rewrite H0 by auto. do 2 f_equal. ring. }
  assert (Est : map (fun x : vec => x ++ [ell a x]) starts = map (fun x => x ++ [c]) starts).
  { clear -Hpl. induction Hpl as [|x t Hx Ht IH]; cbn; auto. rewrite IH. unfold on_plane in Hx. unfold ell. rewrite Hx. reflexivity. }
  pose proof (C64_invariance ltb ltb mi mi me so ine nb f f' m (S m) (fun x => x ++ [c]) starts dss A1 Hm) as R1.
  pose proof (C64_invariance ltb ltb mi mi me so ine nb f f' m (S m) (fun x => x ++ [ell a x]) starts dss A2 Hm) as R2.
  rewrite Est in R2. rewrite H in R1, R2.
  destruct (steps ltb me so ine mi nb f' dss (swarm (map (fun x => x ++ [c]) starts))) as [qs|e].
  2: { exfalso. apply R1. intros x y Hx Hy. unfold f'. rewrite !Hcut by auto. tauto. }
  destruct R1 as [P1 B1]; [intros x y Hx Hy; unfold f'; rewrite !Hcut by auto; tauto|].
  destruct R2 as [P2 B2]; [intros x y Hx Hy; unfold f'; rewrite !Hcut by auto; tauto|].
  rewrite P1 in P2. apply Forall_forall. intros p Hp. split.
  - assert (E : position p ++ [c] = position p ++ [ell a (position p)]).
    { revert Hp P2. clear. induction ps as [|q ps IH]; cbn [map In]; [tauto|]. intros [->|Hp] H; injection H as H1 H2; auto. }
    apply app_inv_head in E. injection E as E. symmetry. exact E.
  - intro Hne. specialize (B1 Hne). specialize (B2 Hne). rewrite B1 in B2.
    assert (E : bestPosition p ++ [c] = bestPosition p ++ [ell a (bestPosition p)]).
    { revert Hp B2. clear. induction ps as [|q ps IH]; cbn [map In]; [tauto|]. intros [->|Hp] H; injection H as H1 H2; auto. }
    apply app_inv_head in E. injection E as E. symmetry. exact E.
Qed.
(** in particular a swarm that starts in one point stays there *)
Theorem C64_collapsed {F} (ltb : F -> F -> bool) mi me so ine nb (f : vec -> F) x0 n dss ps :
  steps ltb me so ine mi nb f dss (swarm (repeat x0 n)) = Ok ps -> Forall (fun p => position p = x0) ps.
Proof.
  intro H. set (m := length x0).
  assert (Hm : Forall (fun x => length x = m) (repeat x0 n)).
  { apply Forall_forall. intros x Hx. apply repeat_spec in Hx. subst. reflexivity. }
  pose proof (steps_sized ltb mi me so ine nb f m dss _ _ H (swarm_sized m _ Hm)) as Hs.
  apply Forall_forall. intros p Hp. rewrite Forall_forall in Hs. destruct (Hs p Hp) as (Hl & _).
  set (unit := fun j => repeat (0:K) j ++ 1 :: repeat 0 (m - S j)).
  assert (Hu : forall j x, (j < m)%nat -> length x = m -> ell (unit j) x = nth j x 0).
  { assert (Hz : forall q x, ell (repeat 0 q) x = 0).
    { clear -Laws. induction q as [|q IH]; intros [|x xs]; auto. cbn [repeat]. unfold ell in *. cbn. rewrite IH. ring. }
    unfold unit. clear -Hz Laws. clearbody m. intros j x. revert m x. induction j as [|j IH]; intros m x Hj Hx; (destruct x as [|z xs]; [cbn in Hx; lia|]).
    - cbn [repeat app nth]. specialize (Hz (m - 1)%nat xs). unfold ell in *. cbn. rewrite Hz. ring.
    - cbn [repeat app nth]. destruct m as [|m]; [lia|]. cbn in Hx. specialize (IH m xs ltac:(lia) ltac:(lia)). unfold ell in *. cbn. rewrite IH. ring. }
  apply vec_ext; [exact Hl|]. intro j. destruct (Nat.lt_ge_cases j m) as [Hj|Hj].
  - assert (Hlen : length (unit j) = m) by (unfold unit; rewrite app_length; cbn; rewrite !repeat_length; lia).
    assert (Hon : Forall (on_plane (unit j) (nth j x0 0)) (repeat x0 n)).
    { apply Forall_forall. intros x Hx. apply repeat_spec in Hx. subst x. apply Hu; auto. }
    pose proof (C64_plane ltb mi me so ine nb f m _ dss ps _ _ Hlen Hm Hon H) as Hpl.
    rewrite Forall_forall in Hpl. destruct (Hpl p Hp) as [E _]. rewrite <- (Hu j) by auto. exact E.
  - rewrite !nth_overflow; auto; lia.
Qed.
End C64.

(** The pull does not go to where the best neighbour was evaluated: a neighbour served earlier has moved on. *)
Local Open Scope Z_scope.
Definition sq (x : list Z) : Z := match x with [a] => a * a | _ => 0 end.
Theorem C64_target_refuted : exists ps ps' : list (particle Z Z),
  steps Z.ltb 0 2 1 true (fullyConnected 2) sq [[(1, 1); (1, 1)]] (swarm [[3]; [2]]) = Ok ps /\
  learnStep Z.ltb 0 2 1 true (fullyConnected 2) sq [(1, 1); (1, 1)] ps = Ok ps' /\
  map position ps = [[1]; [2]] /\ map velocity ps = [[-2]; [0]] /\
  (** the best position by evaluation is [1]: the pull should give 2*(1-2) = -2 *)
  map velocity ps' = [[-2]; [-6]] /\ map position ps' = [[-1]; [-4]].
Proof. eexists _, _. split; [vm_compute; reflexivity|]. split; [vm_compute; reflexivity|]. repeat split. Qed.

Example C64_example :
  strict_weak Z.ltb /\ well_connected (ring 3) 3 /\
  (exists ps : list (particle Z Z), steps Z.ltb 1 1 1 true (ring 3) (fun x => suml (combine x x) (fun ab => fst ab * snd ab))
      [[(2, 1); (1, 0); (1, 1)]; [(1, 1); (0, 1); (1, 1)]; [(1, 1); (3, 1); (1, 1)]] (swarm [[4; 0]; [1; 3]; [0; 4]]) = Ok ps /\
    map position ps = [[6; -2]; [1; 3]; [6; -2]] /\ map bestPosition ps = [[4; 0]; [1; 3]; [0; 4]]) /\
  affine 2 2 (fun x => match x with [a; b] => [2 * b + 1; a - b] | _ => [] end).
Proof.
  split; [|split; [|split]].
  - split; [|split]; intros *; rewrite ?Z.ltb_lt, ?Z.ltb_ge, ?Z.ltb_irrefl; lia || reflexivity.
  - apply (C64_neighbours 3 0). lia.
  - eexists. split; vm_compute; [reflexivity|split; reflexivity].
  - exists (fun x => match x with [a; b] => [2 * b; a - b] | _ => [] end), [1; 0]. split; [|split].
    + split; [|split].
      * intros [|a [|b [|? ?]]]; cbn; intro H; try discriminate; auto.
      * intros [|a [|b [|? ?]]] [|a' [|b' [|? ?]]] H H'; try discriminate. unfold plus. cbn [combine map fst snd]. cbv [radd ZOps]. f_equal; [lia|f_equal; lia].
      * intros c [|a [|b [|? ?]]] H; try discriminate. cbn [map]. cbv [rmul ZOps]. f_equal; [lia|f_equal; lia].
    + reflexivity.
    + intros [|a [|b [|? ?]]] H; try discriminate. unfold plus. cbn [combine map fst snd]. cbv [radd ZOps]. f_equal; f_equal; lia.
Qed.

Print Assumptions C64_neighbours. Print Assumptions C64_runs. Print Assumptions C64_step. Print Assumptions C64_memory.
Print Assumptions C64_invariance. Print Assumptions C64_mirror. Print Assumptions C64_plane. Print Assumptions C64_collapsed.
Print Assumptions C64_target_refuted. Print Assumptions C64_example.
