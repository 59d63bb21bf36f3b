(** Proofs for C71: the equations of the networks are sweeps. *)
From Coq Require Import Permutation Ring.
From Verif Require Import Base RingOps Net_Model Arch_Model Arch_Proofs Arch_Props Arch_Props2 Arch_Props3 Board_Model Board_Spec Board_Proofs.
From Verif Require Utilities_Model Utilities_Proofs.

Lemma tup_eqb_spec a b : reflect (a = b) (tup_eqb a b).
Proof. unfold tup_eqb. destruct (list_eq_dec Nat.eq_dec a b); constructor; assumption. Qed.
Lemma bbuf_eqb_spec a b : reflect (a = b) (bbuf_eqb a b).
Proof.
  destruct a as [| |u s|], b as [| |u' s'|]; cbn; try (constructor; congruence). destruct (tup_eqb_spec u u') as [->|]; cbn [andb]; [|constructor; congruence].
  destruct (Nat.eqb_spec s s') as [->|]; constructor; congruence.
Qed.
Lemma previous_edge dims u s d : Forall2 lt u dims -> d < length dims -> previous dims u s d = if edge dims u s d then None else Some (origin u s d).
Proof.
  intros Hu Hd. apply f2_iff in Hu as [Lu Bu]. specialize (Bu d Hd). unfold previous, edge, origin. rewrite up_testbit. destruct (Nat.testbit s d); cbn [negb].
  - destruct (Nat.ltb_spec (nth d u 0 + 1) (nth d dims 0)), (Nat.eqb_spec (nth d u 0) (nth d dims 0 - 1)); try reflexivity; lia.
  - reflexivity.
Qed.
Lemma conns_app {M Mo} (a b : list (aop M Mo)) : conns_of (a ++ b) = conns_of a ++ conns_of b.
Proof. unfold conns_of. apply flat_map_app. Qed.
Lemma conns_mods {A M Mo} (f : A -> M) l : conns_of (Mo := Mo) (map (fun a => AMod (f a)) l) = [].
Proof. induction l; [reflexivity|]. cbn. assumption. Qed.
Lemma conns_flat {A M Mo} (f : A -> list (aop M Mo)) l : conns_of (flat_map f l) = flat_map (fun a => conns_of (f a)) l.
Proof. induction l as [|a l IH]; [reflexivity|]. cbn [flat_map]. rewrite conns_app, IH. reflexivity. Qed.
Lemma flat_nil {A B} (f : A -> list B) l : (forall a, f a = []) -> flat_map f l = [].
Proof. intro H. induction l as [|a l IH]; [reflexivity|]. cbn. rewrite H, IH. reflexivity. Qed.

(** ** the mothers of the borders *)
Lemma bget_app t a b : bget t (a ++ b) = match bget t a with Some m => Some m | None => bget t b end.
Proof. induction a as [|[k m] a IH]; [reflexivity|]. cbn [bget app]. destruct (tup_eqb t k); [reflexivity|exact IH]. Qed.
Lemma addBorders_get symdims dims dim d t :
  let d1 := match dims, bget [] d with [_], None => d ++ [([], BBord dim [])] | _, _ => d end in
  bget t (addBorders symdims dims dim d) =
  match bget t d1 with
  | Some m => Some m
  | None => if existsb (tup_eqb t) (Utilities_Model.iterCombinations (tupleRemoveItem dims dim)) && tup_eqb t (canonicForm symdims dims t dim) then Some (BBord dim t) else None
  end.
Proof.
  intro d1. unfold addBorders. fold d1. generalize (Utilities_Model.iterCombinations (tupleRemoveItem dims dim)) as l. generalize d1 as e. clear. intros e l. revert e.
  induction l as [|k l IH]; intro e; cbn [fold_left existsb].
  - cbn [andb]. destruct (bget t e); reflexivity.
  - rewrite IH. destruct (tup_eqb_spec k (canonicForm symdims dims k dim)) as [E|E].
    + destruct (bget k e) eqn:Ek.
      * destruct (tup_eqb_spec t k) as [->|]; [rewrite Ek; reflexivity|]. cbn [orb]. reflexivity.
      * rewrite bget_app. destruct (bget t e) eqn:Et; [reflexivity|]. cbn [bget]. destruct (tup_eqb_spec t k) as [->|]; cbn [orb]; [|reflexivity].
        rewrite <- E. destruct (tup_eqb_spec k k); [reflexivity|congruence].
    + destruct (bget t e); [reflexivity|]. destruct (tup_eqb_spec t k) as [->|]; cbn [orb]; [|reflexivity]. destruct (tup_eqb_spec k (canonicForm symdims dims k dim)); [contradiction|].
      rewrite andb_false_r. reflexivity.
Qed.
Lemma remove_length {dims : list nat} {d} : d < length dims -> length (tupleRemoveItem dims d) = length dims - 1.
Proof. intro H. unfold tupleRemoveItem. rewrite app_length, firstn_length, skipn_length. lia. Qed.
Lemma remove_nth (l : list nat) d e : d < length l -> nth e (tupleRemoveItem l d) 0 = if e <? d then nth e l 0 else nth (S e) l 0.
Proof.
  intro H. unfold tupleRemoveItem. destruct (Nat.ltb_spec e d).
  - rewrite app_nth1 by (rewrite firstn_length; lia). clear H. revert l d H0. induction e as [|e IH]; intros l d H0; destruct d as [|d]; try lia; destruct l; try reflexivity. cbn. apply IH. lia.
  - rewrite app_nth2 by (rewrite firstn_length; lia). rewrite firstn_length. replace (Nat.min d (length l)) with d by lia. rewrite <- (firstn_skipn (S d) l) at 2.
    rewrite app_nth2 by (rewrite firstn_length; lia). rewrite firstn_length. f_equal. lia.
Qed.
Lemma remove_valid u dims d : d < length dims -> Forall2 lt u dims -> Forall2 lt (tupleRemoveItem u d) (tupleRemoveItem dims d).
Proof.
  intros Hd Hu. apply f2_iff in Hu as [Lu Bu]. apply f2_iff. rewrite !remove_length by lia. split; [lia|]. intros i Hi. rewrite !remove_nth by lia. destruct (Nat.ltb_spec i d); apply Bu; lia.
Qed.
Lemma canonic_nth dims t d e : length t = length (tupleRemoveItem dims d) -> e < length t ->
  nth e (canonicForm true dims t d) 0 = Nat.min (nth e (tupleRemoveItem dims d) 0 - 1 - nth e t 0) (nth e t 0).
Proof.
  intros HL He. unfold canonicForm. set (f := fun p : nat * nat => Nat.min (fst p - 1 - snd p) (snd p)). rewrite (nth_indep _ 0 (f (0, 0))) by (rewrite map_length, combine_length; lia).
  rewrite map_nth, combine_nth by (symmetry; exact HL). reflexivity.
Qed.
Lemma canonic_length symdims dims t d : length t = length (tupleRemoveItem dims d) -> length (canonicForm symdims dims t d) = length t.
Proof. intro H. unfold canonicForm. destruct symdims; [|reflexivity]. rewrite map_length, combine_length. lia. Qed.
Lemma canonic_valid symdims dims t d : Forall2 lt t (tupleRemoveItem dims d) -> Forall2 lt (canonicForm symdims dims t d) (tupleRemoveItem dims d)
  /\ canonicForm symdims dims (canonicForm symdims dims t d) d = canonicForm symdims dims t d.
Proof.
  intro H. apply f2_iff in H as [HL HB]. destruct symdims; [|split; [apply f2_iff; split; assumption|reflexivity]].
  pose proof (canonic_length true dims t d HL) as E. split.
  - apply f2_iff. split; [lia|]. intros i Hi. rewrite canonic_nth by lia. specialize (HB i Hi). lia.
  - apply nth_ext0; [rewrite canonic_length; lia|]. intro e. destruct (Nat.lt_ge_cases e (length t)) as [He|He].
    + rewrite !canonic_nth by lia. specialize (HB e ltac:(lia)). lia.
    + rewrite !nth_overflow by (rewrite ?canonic_length by lia; lia). reflexivity.
Qed.
Lemma bconn_ok simple symdims dims pre d u : d < length dims -> Forall2 lt u dims -> exists m, bconn simple symdims dims pre d u = Ok m.
Proof.
  intros Hd Hu. unfold bconn. destruct simple; [eauto|]. pose proof (remove_valid u dims d Hd Hu) as Hr. destruct (canonic_valid symdims dims _ d Hr) as [V I]. set (tc := canonicForm symdims dims (tupleRemoveItem u d) d) in *.
  assert (X : forall b, exists m, bget tc (addBorders symdims dims d b) = Some m).
  { intro b. rewrite addBorders_get. destruct (list_eq_dec Nat.eq_dec (tupleRemoveItem dims d) []) as [E|E].
    - rewrite E in V. inversion V as [E0|]. assert (E1 : length dims = 1) by (pose proof (remove_length Hd) as Q; rewrite E in Q; cbn in Q; lia).
      destruct dims as [|x [|y dims]]; try (cbn in E1; lia). destruct (bget [] b) eqn:Eb; [rewrite Eb; eauto|]. rewrite bget_app, Eb. cbn. eauto.
    - match goal with |- context [bget tc ?e] => destruct (bget tc e) end; [eauto|]. destruct (Utilities_Proofs.iterCombinations_ok _ E) as [A _]. apply A in V.
      assert (EX : existsb (tup_eqb tc) (Utilities_Model.iterCombinations (tupleRemoveItem dims d)) = true). { apply existsb_exists. exists tc. split; [exact V|]. destruct (tup_eqb_spec tc tc); congruence. }
      rewrite EX, I. destruct (tup_eqb_spec tc tc); [cbn; eauto|congruence]. }
  destruct (X (match d with O => pre 0 | S _ => if symdims then addBorders symdims dims 0 (pre 0) else pre d end)) as [m Hm].
  assert (EQ : bordconns symdims dims pre d = addBorders symdims dims d (match d with O => pre 0 | S _ => if symdims then addBorders symdims dims 0 (pre 0) else pre d end)) by (destruct d; reflexivity).
  rewrite EQ, Hm. eauto.
Qed.
Definition mother_of (simple symdims : bool) (dims : list nat) (pre : nat -> bdict) (d : nat) (u : list nat) : bwmother :=
  match bconn simple symdims dims pre d u with Ok m => m | Err _ => BSimple end.
Lemma rconcat_app {A} (a b : list (result (list A))) : rconcat (a ++ b) = (let! x := rconcat a in let! y := rconcat b in Ok (x ++ y)).
Proof.
  induction a as [|r a IH]; cbn [app rconcat]; [cbn [rbind]; destruct (rconcat b); reflexivity|]. destruct r as [x|]; cbn [rbind]; [|reflexivity]. rewrite IH. destruct (rconcat a) as [y|]; cbn [rbind]; [|reflexivity].
  destruct (rconcat b); cbn [rbind]; [|reflexivity]. rewrite app_assoc. reflexivity.
Qed.
Lemma rconcat_map {A B} (F : B -> result (list A)) (G : B -> list A) l : (forall b, In b l -> F b = Ok (G b)) -> rconcat (map F l) = Ok (flat_map G l).
Proof.
  induction l as [|b l IH]; intro H; [reflexivity|]. cbn [map rconcat flat_map]. rewrite H by (left; reflexivity). cbn [rbind]. rewrite IH by (intros; apply H; right; assumption). reflexivity.
Qed.
Lemma rconcat_flat {A B} (F : B -> list (result (list A))) (G : B -> list A) l : (forall b, In b l -> rconcat (F b) = Ok (G b)) -> rconcat (flat_map F l) = Ok (flat_map G l).
Proof.
  induction l as [|b l IH]; intro H; [reflexivity|]. cbn [flat_map]. rewrite rconcat_app, H by (left; reflexivity). cbn [rbind]. rewrite IH by (intros; apply H; right; assumption). reflexivity.
Qed.
Definition bborder_conns (simple symdims : bool) (z : ssizes) (dims : list nat) (pre : nat -> bdict) : list (gconn bbuf bwmother) :=
  flat_map (fun d => flat_map (fun u => map (fun s => {| g_in := PBias; g_out := PHid u s; g_mother := Some (mother_of simple symdims dims pre d u); g_inslice := (0, 1); g_outslice := (0, s_hin z) |})
    (hunits dims d u)) (units dims)) (seq 0 (length dims)).
Lemma bborder_ok simple symdims z dims pre : dims <> [] -> bborder simple symdims z dims pre = Ok (bborder_conns simple symdims z dims pre).
Proof.
  intro Hne. unfold bborder. apply rconcat_flat. intros d Hd. apply in_seq in Hd. apply rconcat_map. intros u Hu. apply unit_iff in Hu; [|exact Hne]. unfold mother_of.
  destruct (bconn_ok simple symdims dims pre d u ltac:(lia) Hu) as [m ->]. reflexivity.
Qed.
Lemma hunits_in dims d u s : s < 2 ^ length dims -> In s (hunits dims d u) <-> edge dims u s d = true.
Proof.
  intro Hs. assert (B : (s / 2 ^ d) mod 2 = if Nat.testbit s d then 1 else 0). { rewrite Nat.testbit_eqb. pose proof (Nat.mod_upper_bound (s / 2 ^ d) 2 ltac:(lia)). destruct (Nat.eqb_spec ((s / 2 ^ d) mod 2) 1); lia. }
  unfold hunits, edge. rewrite in_app_iff. split.
  - intros [H|H].
    + destruct (nth d u 0 =? 0) eqn:E; [|destruct H]. apply filter_In in H as [_ H]. rewrite B in H. destruct (Nat.testbit s d); [discriminate|reflexivity].
    + destruct (nth d u 0 =? nth d dims 0 - 1) eqn:E; [|destruct H]. apply filter_In in H as [_ H]. rewrite B in H. destruct (Nat.testbit s d); [reflexivity|discriminate].
  - intro H. destruct (Nat.testbit s d) eqn:T.
    + right. rewrite H. apply filter_In. rewrite B. split; [apply in_seq; lia|reflexivity].
    + left. rewrite H. apply filter_In. rewrite B. split; [apply in_seq; lia|reflexivity].
Qed.
Lemma nodup_app {A} (l m : list A) : NoDup l -> NoDup m -> (forall x, In x l -> In x m -> False) -> NoDup (l ++ m).
Proof.
  induction l as [|a l IH]; intros H1 H2 H3; [exact H2|]. apply NoDup_cons_iff in H1 as [N1 N2]. cbn [app]. constructor.
  - rewrite in_app_iff. intros [H|H]; [contradiction|]. apply (H3 a); [left; reflexivity|exact H].
  - apply IH; [exact N2|exact H2|]. intros x Hx. apply H3. right. exact Hx.
Qed.
Lemma hunits_nodup dims d u : NoDup (hunits dims d u).
Proof.
  assert (X : forall f, NoDup (filter f (seq 0 (2 ^ length dims)))) by (intro; apply NoDup_filter, seq_NoDup). unfold hunits.
  destruct (nth d u 0 =? 0); [|destruct (_ =? _); [apply X|constructor]]. destruct (nth d u 0 =? nth d dims 0 - 1); [|rewrite app_nil_r; apply X].
  apply nodup_app; [apply X|apply X|]. intros x H1 H2. apply filter_In in H1 as [_ H1]. apply filter_In in H2 as [_ H2]. apply Nat.eqb_eq in H1, H2. congruence.
Qed.
