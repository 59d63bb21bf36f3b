(** Proofs about the particle swarm. *)
From Verif Require Import Base RingOps Pso_Model Pso_Spec.

Section P.
Context {K : Type} {Ops : RingOps K} {Laws : RingLaws K}.
Add Ring KR : (Laws : ring_theory r0 r1 radd rmul rsub ropp eq).
Local Open Scope r_scope.
Notation vec := (list K).

Lemma vzip_length f (a b : vec) m : length a = m -> length b = m -> length (vzip f a b) = m.
Proof. revert b m. induction a as [|x a IH]; intros [|y b] m; cbn; intros; subst; try lia. f_equal. apply IH; lia. Qed.
Lemma vzip_plus (a b : vec) : vzip radd a b = plus a b.
Proof. revert b. induction a as [|x a IH]; intros [|y b]; cbn; auto. unfold plus in *. cbn. f_equal. apply IH. Qed.
Lemma vscale_length c (a : vec) : length (vscale c a) = length a.
Proof. apply map_length. Qed.
Lemma vzip_sub (a b : vec) : vzip rsub a b = plus a (map (fun x => (ropp 1) * x) b).
Proof.
  revert b. induction a as [|x a IH]; intros [|y b]; cbn; auto. unfold plus in *. cbn. f_equal; [ring|apply IH].
Qed.
Lemma plus_length (a b : vec) m : length a = m -> length b = m -> length (plus a b) = m.
Proof. rewrite <- vzip_plus. apply vzip_length. Qed.
Lemma mapr_l (c : K) (a : vec) : map (fun x => x * c) a = map (fun x => c * x) a.
Proof. apply map_ext. intro. ring. Qed.
Lemma nth_plus (a b : vec) k : length a = length b -> nth k (plus a b) 0 = nth k a 0 + nth k b 0.
Proof.
  revert b k. induction a as [|x a IH]; intros [|y b] k; cbn; intro H; try discriminate.
  - destruct k; ring.
  - destruct k; cbn; auto. apply IH. lia.
Qed.
Lemma nth_scale (c : K) (a : vec) k : nth k (map (fun x => c * x) a) 0 = c * nth k a 0.
Proof. revert k. induction a as [|x a IH]; intros [|k]; cbn; auto; ring. Qed.
Lemma vec_ext (a b : vec) : length a = length b -> (forall k, nth k a 0 = nth k b 0) -> a = b.
Proof. intros Hl H. apply nth_ext with (d := 0) (d' := 0); auto. Qed.

Section Maps.
Context (m m' : nat) (L : vec -> vec) (b : vec) (phi : vec -> vec).
Hypothesis HL : linear m m' L.
Hypothesis Hb : length b = m'.
Hypothesis Hphi : forall x, length x = m -> phi x = plus (L x) b.
Lemma phi_length x : length x = m -> length (phi x) = m'.
Proof. intro H. rewrite Hphi by auto. apply plus_length; auto. apply (proj1 HL); auto. Qed.
Lemma L_plus x y : length x = m -> length y = m -> L (plus x y) = plus (L x) (L y).
Proof. apply HL. Qed.
Lemma L_scale c x : length x = m -> L (map (fun a => c * a) x) = map (fun a => c * a) (L x).
Proof. apply HL. Qed.
Lemma L_sub x y : length x = m -> length y = m -> L (vzip rsub x y) = vzip rsub (phi x) (phi y).
Proof.
  intros Hx Hy. rewrite vzip_sub, L_plus, L_scale by (auto; rewrite ?map_length; auto).
  rewrite vzip_sub, !Hphi by auto. pose proof (proj1 HL x Hx). pose proof (proj1 HL y Hy).
  apply vec_ext.
  - rewrite !plus_length with (m := m'); auto; rewrite ?map_length; auto; rewrite ?plus_length with (m := m'); auto.
  - intro k. rewrite !nth_plus, !nth_scale, !nth_plus; try (rewrite ?map_length, ?plus_length with (m := m'); auto; lia). ring.
Qed.
Lemma phi_move x v : length x = m -> length v = m -> phi (vzip radd x v) = vzip radd (phi x) (L v).
Proof.
  intros Hx Hv. rewrite !vzip_plus. rewrite !Hphi by (auto; apply plus_length; auto). rewrite L_plus by auto.
  pose proof (proj1 HL x Hx). pose proof (proj1 HL v Hv).
  apply vec_ext.
  - rewrite !plus_length with (m := m'); auto; rewrite ?plus_length with (m := m'); auto.
  - intro k. rewrite !nth_plus; try (rewrite ?plus_length with (m := m'); auto; lia). ring.
Qed.

Section Sim.
Context {F F' : Type} (ltb : F -> F -> bool) (ltb' : F' -> F' -> bool) (mi mi' : bool) (f : vec -> F) (f' : vec -> F').
Hypothesis Hpref : forall x y, length x = m -> length y = m -> better ltb' mi' (f' (phi x)) (f' (phi y)) = better ltb mi (f x) (f y).
Definition fits (x : option F) (y : option F') : Prop := exists x0, length x0 = m /\ x = Some (f x0) /\ y = Some (f' (phi x0)).
Definition core (p : particle K F) (q : particle K F') : Prop :=
  length (position p) = m /\ length (velocity p) = m /\ position q = phi (position p) /\ velocity q = L (velocity p).
Definition remembers (p : particle K F) (q : particle K F') : Prop :=
  exists x0, length x0 = m /\ bestPosition p = x0 /\ bestPosition q = phi x0 /\ bestFitness p = Some (f x0) /\ bestFitness q = Some (f' (phi x0)).
Definition relE p q : Prop := core p q /\ fits (fitness p) (fitness q) /\ remembers p q.
Definition rel p q : Prop := core p q /\ ((bestFitness p = None /\ bestFitness q = None) \/ remembers p q).
Lemma relE_rel p q : relE p q -> rel p q.
Proof. intros (H & _ & H2). split; auto. Qed.
Lemma eval_rel p q : rel p q -> relE (setFitness ltb mi (f (position p)) p) (setFitness ltb' mi' (f' (position q)) q).
Proof.
  intros [(Hx & Hv & Hpx & Hpv) Hm]. unfold setFitness. rewrite Hpx.
  assert (Hfresh : remembers {| position := position p; velocity := velocity p; bestPosition := position p; fitness := Some (f (position p)); bestFitness := Some (f (position p)) |}
      {| position := phi (position p); velocity := velocity q; bestPosition := phi (position p); fitness := Some (f' (phi (position p))); bestFitness := Some (f' (phi (position p))) |}).
  { exists (position p). cbn. auto. }
  destruct Hm as [[H1 H2]|(x0 & Hl & E1 & E2 & E3 & E4)].
  - rewrite H1, H2. split; [|split]; cbn; auto. + split; auto. + exists (position p); auto.
  - rewrite E3, E4. rewrite Hpref by auto. destruct (better ltb mi (f (position p)) (f x0)).
    + split; [|split]; cbn; auto. * split; auto. * exists (position p); auto.
    + split; [|split]; cbn; auto. * split; auto. * exists (position p); auto. * exists x0; cbn; auto.
Qed.

Lemma F2_nth {A B} (R : A -> B -> Prop) l l' i : Forall2 R l l' ->
  match nth_error l i, nth_error l' i with Some a, Some c => R a c | None, None => True | _, _ => False end.
Proof. intro H. revert i. induction H; intros [|i]; cbn; auto. apply IHForall2. Qed.
Lemma F2_upd {A B} (R : A -> B -> Prop) l l' i a c : Forall2 R l l' -> R a c -> Forall2 R (upd i a l) (upd i c l').
Proof. intros H Hr. revert i. induction H; intros [|i]; cbn; auto. Qed.

Lemma prefer_sim ps qs k i : Forall2 relE ps qs -> prefer ltb' mi' qs k i = prefer ltb mi ps k i.
Proof.
  intro H. unfold prefer, fit_of. pose proof (F2_nth _ _ _ i H) as Hi. pose proof (F2_nth _ _ _ k H) as Hk.
  destruct (nth_error ps i) as [p|], (nth_error qs i) as [q|]; try tauto.
  destruct Hi as (_ & (x & Hx & -> & ->) & _).
  destruct (nth_error ps k) as [p'|], (nth_error qs k) as [q'|]; try tauto.
  destruct Hk as (_ & (y & Hy & -> & ->) & _). rewrite Hpref by auto. reflexivity.
Qed.
Lemma best_sim ps qs l : Forall2 relE ps qs -> best ltb' mi' qs l = best ltb mi ps l.
Proof.
  intro H. destruct l as [|i r]; cbn; auto. f_equal. revert i. induction r as [|j r IH]; intro i; cbn; auto.
  rewrite prefer_sim with (ps := ps) by auto. apply IH.
Qed.
Context (me so ine : K) (nb : nat -> list nat).
Definition res_rel {A B} (R : A -> B -> Prop) (x : result A) (y : result B) : Prop :=
  match x, y with Ok a, Ok c => R a c | Err e, Err e' => e = e' | _, _ => False end.
Lemma turn_sim ps qs i d : Forall2 relE ps qs ->
  res_rel (Forall2 relE) (turn ltb me so ine mi nb i d ps) (turn ltb' me so ine mi' nb i d qs).
Proof.
  intro H. unfold turn. pose proof (F2_nth _ _ _ i H) as Hi.
  destruct (nth_error ps i) as [p|], (nth_error qs i) as [q|]; try tauto.
  rewrite best_sim with (ps := ps) by auto. destruct (best ltb mi ps (nb i)) as [k|e]; cbn [rbind]; [|reflexivity].
  pose proof (F2_nth _ _ _ k H) as Hk.
  destruct (nth_error ps k) as [p2|], (nth_error qs k) as [q2|]; try tauto; [|cbn; auto].
  cbn [res_rel]. apply F2_upd; auto.
  destruct Hi as ((Hx & Hv & Ex & Ev) & Hf & (x0 & Hx0 & E1 & E2 & E3 & E4)).
  destruct Hk as ((Hx2 & Hv2 & Ex2 & Ev2) & _ & _).
  set (v := vzip radd (map (fun a : K => a * ine) (velocity p)) _).
  set (v' := vzip radd (map (fun a : K => a * ine) (velocity q)) _).
  assert (Hlv : length v = m).
  { subst v. repeat (apply vzip_length || (rewrite ?vscale_length, ?map_length)); auto; subst x0; auto. }
  assert (Hvv : v' = L v).
  { subst v v'. rewrite !vzip_plus, !mapr_l. unfold vscale. rewrite E1, E2, Ev, Ex, Ex2.
    rewrite !L_plus, !L_scale, !L_sub; auto; repeat (apply plus_length || apply vzip_length || rewrite ?map_length); auto. }
  split; [|split]; cbn.
  - split; [|split; [|split]]; auto.
    + apply vzip_length; auto.
    + cbn. rewrite Ex, Hvv. symmetry. apply phi_move; auto.
  - exact Hf.
  - exists x0. cbn. auto.
Qed.
Lemma turns_sim ds ps qs i : Forall2 relE ps qs ->
  res_rel (Forall2 relE) (turns ltb me so ine mi nb i ds ps) (turns ltb' me so ine mi' nb i ds qs).
Proof.
  revert ps qs i. induction ds as [|d ds IH]; intros ps qs i H; cbn [turns]; auto.
  pose proof (turn_sim ps qs i d H) as Ht.
  destruct (turn ltb me so ine mi nb i d ps), (turn ltb' me so ine mi' nb i d qs); cbn in *; try tauto. apply IH; auto.
Qed.
Lemma learn_sim ds ps qs : Forall2 rel ps qs ->
  res_rel (Forall2 relE) (learnStep ltb me so ine mi nb f ds ps) (learnStep ltb' me so ine mi' nb f' ds qs).
Proof.
  intro H. apply turns_sim. induction H; cbn [map]; constructor; auto. apply eval_rel; auto.
Qed.
Lemma steps_sim (dss : list (list (K * K))) ps qs : Forall2 rel ps qs ->
  res_rel (Forall2 (match dss with [] => rel | _ :: _ => relE end)) (steps ltb me so ine mi nb f dss ps) (steps ltb' me so ine mi' nb f' dss qs).
Proof.
  revert ps qs. induction dss as [|d dss IH]; intros ps qs H; cbn [steps]; auto.
  pose proof (learn_sim d ps qs H) as Ht.
  destruct (learnStep ltb me so ine mi nb f d ps) as [ps1|], (learnStep ltb' me so ine mi' nb f' d qs) as [qs1|]; cbn [rbind res_rel] in *; try tauto.
  destruct dss as [|d2 dss]; [exact Ht|]. apply IH. clear -Ht. induction Ht; constructor; auto using relE_rel.
Qed.
Lemma L_zero x : length x = m -> L (map (fun _ => 0) x) = map (fun _ => 0) (phi x).
Proof.
  intro Hx. replace (map (fun _ : K => 0) x) with (map (fun a => 0 * a) x) by (apply map_ext; intro; ring).
  rewrite L_scale by auto. apply vec_ext.
  - rewrite !map_length, phi_length by auto. apply HL; auto.
  - intro k. rewrite nth_scale. transitivity (0:K); [ring|].
    revert k. induction (phi x) as [|z t IH]; intros [|k]; cbn; auto.
Qed.
Lemma swarm_rel starts : Forall (fun x => length x = m) starts -> Forall2 rel (swarm starts) (swarm (map phi starts)).
Proof.
  induction 1 as [|x t Hx Ht IH]; cbn; constructor; auto.
  split; [|left; auto]. split; [|split; [|split]]; cbn; rewrite ?map_length; auto. symmetry. apply L_zero; auto.
Qed.
End Sim.
End Maps.
End P.
