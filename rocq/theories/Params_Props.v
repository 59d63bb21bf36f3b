(** C15, C16: parameter vectors of networks and their copies. *)
From Verif Require Import Base Params_Model Params_Spec Params_Proofs Params_Proofs2.

Section Props.
Context {V : Type}.
Definition start : heap V * field := ([], empty_field).

Lemma run_RF l s : legal_run a_empty l -> frun start l = Ok s ->
  exists a, arun a_empty l = Ok a /\ RF (fst s) (snd s) a.
Proof.
  intros Hl E. pose proof (sim_run l [] empty_field a_empty RF_empty Hl) as H. change (rel (frun start l) (arun a_empty l)) in H. rewrite E in H.
  destruct s as [h f]. cbn [rel] in H. destruct (arun a_empty l) as [a|e]; [|contradiction]. eauto.
Qed.

(** Every session of component creation, sorting, in-place updates through components or
    the network, and assignments, behaves as if each component simply held a list. *)
Theorem C15_storage_refines_lists (l : list (fop V)) : legal_run a_empty l ->
  match frun start l, arun a_empty l with
  | Ok s, Ok a => length (f_comps (snd s)) = length (a_vals a) /\
                  (forall i, i < length (a_vals a) -> read_comp s i = a_get a i) /\ read_net s = a_net a
  | Err e, Err e' => e = e'
  | _, _ => False
  end.
Proof.
  intro Hl. pose proof (sim_run l [] empty_field a_empty RF_empty Hl) as H. change (rel (frun start l) (arun a_empty l)) in H.
  destruct (frun start l) as [[h f]|e]; destruct (arun a_empty l) as [a|e']; cbn [rel] in H; auto.
  split; [apply H|]. split; [intros i Hi; apply (r_val _ _ _ H i Hi)|apply RF_read_net; auto].
Qed.

(** The network vector is the concatenation of its components' vectors. *)
Theorem C15_vector_is_concatenation (l : list (fop V)) s : legal_run a_empty l -> frun start l = Ok s ->
  forall v, read_net s = Some v -> v = concat (map (read_comp s) (f_order (snd s))).
Proof.
  intros Hl E v Ev. destruct (run_RF l s Hl E) as (a & _ & H). destruct s as [h f]. cbn [fst snd] in *.
  rewrite (RF_read_net h f a H) in Ev. unfold a_net in Ev. pose proof (r_net _ _ _ H) as Hn.
  destruct (a_order a) as [ids|]; [|discriminate]. destruct Hn as (-> & _ & _ & Hi & _).
  injection Ev as <-. f_equal. apply map_ext_in. intros i Hin. symmetry. apply (r_val _ _ _ H i). apply Hi; auto.
Qed.

(** Sorting keeps every component's values. *)
Theorem C15_sort_keeps_values (l : list (fop V)) s s' ids : legal_run a_empty (l ++ [FSort ids]) ->
  frun start l = Ok s -> fstep s (FSort ids) = Ok s' ->
  f_order (snd s') = ids /\ forall i, i < length (f_comps (snd s)) -> read_comp s' i = read_comp s i.
Proof.
  intros Hl E Es.
  assert (Hl2 : forall (l : list (fop V)) a, legal_run a (l ++ [FSort ids]) -> legal_run a l /\ forall a', arun a l = Ok a' -> legal a' (FSort ids)).
  { clear. induction l as [|o l IH]; intros a H.
    - cbn in *. split; auto. intros a' [= <-]. apply H.
    - cbn [app legal_run] in H. destruct H as [H1 H2]. cbn [legal_run arun].
      destruct (astep a o) as [a1|e]; cbn [rbind].
      + destruct (IH a1 H2) as [A B]. split; auto.
      + split; auto. discriminate. }
  destruct (Hl2 _ _ Hl) as [L1 L2]. destruct (run_RF l s L1 E) as (a & Ea & H). destruct s as [h f]. cbn [fst snd] in *.
  pose proof (sim_step h f a _ H (L2 a Ea)) as Hs. rewrite Es in Hs. destruct s' as [h' f']. cbn [astep rel] in Hs.
  split.
  - cbn [snd]. pose proof (r_net _ _ _ Hs) as Hn. cbn [a_order] in Hn. apply Hn.
  - intros i Hi. rewrite (r_len _ _ _ H) in Hi. unfold read_comp. cbn [fst snd].
    rewrite (r_val _ _ _ Hs i) by exact Hi. rewrite (r_val _ _ _ H i Hi). reflexivity.
Qed.

Lemma a_split_other ids : forall (p : list V) vals j, ~ In j ids -> nth j (a_split ids p vals) [] = nth j vals [].
Proof.
  induction ids as [|i t IH]; intros p vals j Hj; cbn [a_split]; auto.
  rewrite IH by (intro; apply Hj; right; auto). apply nth_upd_neq. intro; apply Hj; left; auto.
Qed.
Lemma a_split_piece pre : forall i post (p : list V) vals, NoDup (pre ++ i :: post) -> i < length vals ->
  nth i (a_split (pre ++ i :: post) p vals) [] =
  firstn (length (nth i vals [])) (skipn (length (concat (map (fun j => nth j vals []) pre))) p).
Proof.
  induction pre as [|x pre IH]; intros i post p vals Hn Hi.
  - cbn [app a_split map concat length skipn]. inversion Hn; subst. rewrite a_split_other by auto.
    apply nth_upd_eq; auto.
  - cbn [app a_split map concat]. inversion Hn as [|? ? Hx Hn']; subst.
    assert (Hix : x <> i) by (intros ->; apply Hx, in_or_app; right; left; auto).
    rewrite IH; auto; [|rewrite upd_length; auto]. rewrite nth_upd_neq by auto. rewrite app_length, skipn_skipn.
    do 2 f_equal. rewrite Nat.add_comm. do 3 f_equal. apply map_ext_in. intros j Hj. apply nth_upd_neq.
    intros ->. apply Hx, in_or_app. left; auto.
Qed.

(** Assigning a vector gives every component exactly its slice, and nothing else changes. *)
Theorem C15_assignment_distributes (l : list (fop V)) s p v : legal_run a_empty l -> frun start l = Ok s ->
  read_net s = Some v -> length p = length v ->
  exists s', fstep s (FSet p) = Ok s' /\ read_net s' = Some p /\
    (forall pre i post, f_order (snd s) = pre ++ i :: post ->
       read_comp s' i = firstn (length (read_comp s i)) (skipn (length (concat (map (read_comp s) pre))) p)) /\
    (forall j, j < length (f_comps (snd s)) -> ~ In j (f_order (snd s)) -> read_comp s' j = read_comp s j).
Proof.
  intros Hl E Ev Hp. pose proof (C15_vector_is_concatenation l s Hl E v Ev) as Ec.
  destruct (run_RF l s Hl E) as (a & Ea & H). destruct s as [h f]. cbn [fst snd] in *.
  rewrite (RF_read_net h f a H) in Ev.
  assert (Hlegal : legal a (FSet p)) by (cbn; intros w Ew; rewrite Ev in Ew; injection Ew as <-; auto).
  pose proof (sim_step h f a _ H Hlegal) as Hs. unfold a_net in Ev.
  pose proof (r_net _ _ _ H) as Hn. cbn [astep] in Hs.
  destruct (a_order a) as [ids|] eqn:Eo; [|discriminate]. destruct Hn as (Ho & Hnd & Hne & Hi & _).
  destruct (fstep (h, f) (FSet p)) as [[h' f']|e] eqn:Es; cbn [rel] in Hs; [|contradiction].
  exists (h', f'). split; auto.
  assert (Lv : length (a_split ids p (a_vals a)) = length (a_vals a)).
  { apply a_split_lengths; auto; [|intros; apply Hi; auto]. rewrite Hp. cbn in Ev. injection Ev as <-.
    rewrite concat_length_sum, map_map. unfold a_get. reflexivity. }
  assert (Hval' : forall i, i < length (a_vals a) -> read_comp (h', f') i = nth i (a_split ids p (a_vals a)) []).
  { intros i Hil. unfold read_comp. cbn [fst snd]. apply (r_val _ _ _ Hs i). cbn [a_vals]. lia. }
  assert (Hval : forall i, i < length (a_vals a) -> read_comp (h, f) i = nth i (a_vals a) []).
  { intros i Hil. apply (r_val _ _ _ H i); auto. }
  split; [|split].
  - pose proof Es as Es2. cbn [fstep] in Es2. destruct (f_net f); [|discriminate]. cbn [alloc] in Es2. injection Es2 as <- <-.
    unfold read_net. cbn [fst snd f_net option_map]. f_equal. unfold read. cbn [v_arr v_off v_len Nat.add].
    fold (arr (h ++ [p]) (length h)). rewrite alloc_arr_new. unfold slice. cbn. apply firstn_all.
  - intros pre i post Ep. rewrite Ho in Ep.
    assert (Hil : i < length (a_vals a)) by (apply Hi; rewrite Ep; apply in_or_app; right; left; auto).
    rewrite Hval', Hval by auto. rewrite Ep in *. rewrite a_split_piece by auto. do 4 f_equal.
    apply map_ext_in. intros j Hj. symmetry. apply Hval. apply Hi. apply in_or_app; auto.
  - intros j Hj Hnj. rewrite Ho in Hnj. rewrite (r_len _ _ _ H) in Hj. rewrite Hval', Hval by auto. apply a_split_other; auto.
Qed.

(** A write through one component changes that component, its slice of the vector, and
    no other component. *)
Theorem C15_component_write_is_local (l : list (fop V)) s i g : legal_run a_empty l -> frun start l = Ok s ->
  i < length (f_comps (snd s)) -> (forall x, length (g x) = length x) ->
  exists s', fstep s (FUpdComp i g) = Ok s' /\ read_comp s' i = g (read_comp s i) /\
    (forall j, j < length (f_comps (snd s)) -> j <> i -> read_comp s' j = read_comp s j) /\
    read_net s' = option_map (fun _ => concat (map (fun j => if j =? i then g (read_comp s i) else read_comp s j) (f_order (snd s)))) (read_net s).
Proof.
  intros Hl E Hi Hg. destruct (run_RF l s Hl E) as (a & Ea & H). destruct s as [h f]. cbn [fst snd] in *.
  pose proof (sim_step h f a (FUpdComp i g) H Hg) as Hs. cbn [astep] in Hs.
  pose proof (r_len _ _ _ H) as Hlen. rewrite <- Hlen in Hs. rewrite (proj2 (Nat.ltb_lt _ _) Hi) in Hs.
  destruct (fstep (h, f) (FUpdComp i g)) as [[h' f']|e] eqn:Es; cbn [rel] in Hs; [|contradiction].
  exists (h', f'). split; auto. rewrite Hlen in Hi.
  assert (Hval' : forall j, j < length (a_vals a) -> read_comp (h', f') j = if j =? i then g (read_comp (h, f) i) else read_comp (h, f) j).
  { intros j Hj. unfold read_comp. cbn [fst snd]. rewrite (r_val _ _ _ Hs j) by (cbn; rewrite upd_length; auto).
    unfold a_get at 1. cbn [a_vals]. destruct (Nat.eqb_spec j i) as [->|Hne].
    - rewrite nth_upd_eq by auto. rewrite (r_val _ _ _ H i Hi). reflexivity.
    - rewrite nth_upd_neq by auto. rewrite (r_val _ _ _ H j Hj). reflexivity. }
  split; [|split].
  - rewrite Hval' by auto. rewrite Nat.eqb_refl. reflexivity.
  - intros j Hj Hne. rewrite Hlen in Hj. rewrite Hval' by auto. apply Nat.eqb_neq in Hne. rewrite Hne. reflexivity.
  - rewrite (RF_read_net _ _ _ Hs), (RF_read_net _ _ _ H). unfold a_net. cbn [a_order].
    pose proof (r_net _ _ _ H) as Hn. destruct (a_order a) as [ids|]; [|reflexivity]. cbn [option_map]. f_equal. f_equal.
    destruct Hn as (-> & _ & _ & Hi' & _). apply map_ext_in. intros j Hj.
    rewrite <- Hval' by (apply Hi'; auto). symmetry. apply (r_val _ _ _ Hs j). cbn. rewrite upd_length. apply Hi'; auto.
Qed.

(** C16: after copying, original and copy behave as two separate machines, whatever is
    done to either, in any interleaving; in particular the copy's components are again
    views of the copy's own vector. *)
Theorem C16_copy_is_independent (l : list (fop V)) s : legal_run a_empty l -> frun start l = Ok s ->
  exists a h f', arun a_empty l = Ok a /\ copy_params (fst s) (snd s) = Ok (h, f') /\
  forall ops, legal_run a (part OnFirst ops) -> legal_run a (part OnSecond ops) ->
    (forall a1 a2, arun a (part OnFirst ops) = Ok a1 -> arun a (part OnSecond ops) = Ok a2 ->
       exists s', run2 (h, snd s, f') ops = Ok s') /\
    (forall h2 f1 f2, run2 (h, snd s, f') ops = Ok (h2, f1, f2) ->
       exists a1 a2, arun a (part OnFirst ops) = Ok a1 /\ arun a (part OnSecond ops) = Ok a2 /\
         read_net (h2, f1) = a_net a1 /\ read_net (h2, f2) = a_net a2 /\
         (forall i, i < length (a_vals a1) -> read_comp (h2, f1) i = a_get a1 i) /\
         (forall i, i < length (a_vals a2) -> read_comp (h2, f2) i = a_get a2 i)).
Proof.
  intros Hl E. destruct (run_RF l s Hl E) as (a & Ea & H). destruct s as [h0 f]. cbn [fst snd] in *.
  destruct (copy_params_spec h0 f a H) as (h & f' & Ec & _ & H2). exists a, h, f'. split; auto. split; auto.
  intros ops L1 L2. split.
  - intros a1 a2 E1 E2. destruct (sim2_progress ops h f f' a a H2 L1 L2) as (x & y & z & Er); eauto.
  - intros h2 f1 f2 Er. destruct (sim2 ops h f f' a a H2 L1 L2 _ _ _ Er) as (a1 & a2 & E1 & E2 & R1 & R2 & _).
    exists a1, a2. split; auto. split; auto. split; [apply RF_read_net; auto|]. split; [apply RF_read_net; auto|].
    split; intros i Hi; [apply (r_val _ _ _ R1 i Hi)|apply (r_val _ _ _ R2 i Hi)].
Qed.

(** The copied derivative vector starts equal but is cut off: nothing accumulated in the
    copy's components reaches it. *)
Theorem C16_copied_derivs_disconnected (l : list (fop V)) s v ops : legal_run a_empty l -> frun start l = Ok s ->
  read_net s = Some v -> Forall comp_op ops ->
  read_net (copy_derivs (fst s) (snd s)) = Some v /\
  (forall i, i < length (f_comps (snd s)) -> read_comp (copy_derivs (fst s) (snd s)) i = read_comp s i) /\
  forall s', frun (copy_derivs (fst s) (snd s)) ops = Ok s' -> read_net s' = Some v.
Proof.
  intros Hl E Ev Ho. destruct (run_RF l s Hl E) as (a & Ea & H). destruct s as [h f]. cbn [fst snd] in *.
  assert (En : a_net a = Some v) by (rewrite <- (RF_read_net h f a H); auto).
  destruct (copy_derivs_stuck h f a v ops H En Ho) as (A & B & C). split; auto. split; auto.
  intros i Hi. rewrite (r_len _ _ _ H) in Hi. rewrite B by auto. symmetry. apply (r_val _ _ _ H i Hi).
Qed.
End Props.

(** two components (3 and 2 parameters), the second first in the vector *)
Definition ex_ops : list (fop nat) :=
  [FNew [1;2;3]; FNew [4;5]; FSort [1;0]; FUpdComp 0 (map S); FUpdNet (map (Nat.mul 2)); FSet [10;11;12;13;14]; FUpdComp 1 (map S)].
Example ex_legal : legal_run a_empty ex_ops.
Proof.
  unfold ex_ops. cbn.
  repeat split; try discriminate; try (intros; rewrite map_length; reflexivity).
  - repeat constructor; cbn; intuition discriminate.
  - intros i [<-|[<-|[]]]; lia.
  - intros v [= <-]. reflexivity.
Qed.
Example ex_run : exists s, frun start ex_ops = Ok s /\ read_net s = Some [11;12;12;13;14] /\
  read_comp s 0 = [12;13;14] /\ read_comp s 1 = [11;12].
Proof. eexists. vm_compute. repeat split. Qed.

(** A vector of the wrong length is accepted and silently shortens a component: the
    length hypothesis of the assignment theorem is needed. *)
Theorem C15_wrong_length_refuted : exists (l : list (fop nat)) p s s',
  legal_run a_empty l /\ frun start l = Ok s /\ fstep s (FSet p) = Ok s' /\
  length p < 5 /\ read_comp s 0 = [1;2;3] /\ read_comp s' 0 = [8] /\ read_comp s 1 = [4;5] /\ read_comp s' 1 = [9;7].
Proof.
  exists [FNew [1;2;3]; FNew [4;5]; FSort [1;0]], [9;7;8]. do 2 eexists.
  split; [|vm_compute; repeat split; lia]. cbn. repeat split; try discriminate.
  - repeat constructor; cbn; intuition discriminate.
  - intros i [<-|[<-|[]]]; lia.
Qed.

(** Derivatives: in the original a component's accumulation reaches the network vector,
    in the copy it does not. *)
Theorem C16_copied_derivs_refuted : exists (l : list (fop nat)) s s1 s2,
  legal_run a_empty l /\ frun start l = Ok s /\
  frun s [FUpdComp 0 (map S)] = Ok s1 /\ read_net s1 = Some [0;0;1;1;1] /\
  frun (copy_derivs (fst s) (snd s)) [FUpdComp 0 (map S)] = Ok s2 /\
  read_comp s2 0 = [1;1;1] /\ read_net s2 = Some [0;0;0;0;0].
Proof.
  exists [FNew [0;0;0]; FNew [0;0]; FSort [1;0]]. do 3 eexists.
  split; [|vm_compute; repeat split]. cbn. repeat split; try discriminate.
  - repeat constructor; cbn; intuition discriminate.
  - intros i [<-|[<-|[]]]; lia.
Qed.
Example ex_copy : exists s h f', frun start ex_ops = Ok s /\ copy_params (fst s) (snd s) = Ok (h, f') /\
  exists h2 f1 f2, run2 (h, snd s, f') [(OnSecond, FUpdComp 0 (map S)); (OnFirst, FUpdNet (map (fun _ => 0)))] = Ok (h2, f1, f2) /\
    read_net (h2, f1) = Some [0;0;0;0;0] /\ read_net (h2, f2) = Some [11;12;13;14;15].
Proof. do 3 eexists. split; [vm_compute; reflexivity|]. split; [vm_compute; reflexivity|]. do 3 eexists. vm_compute. repeat split. Qed.

Print Assumptions C15_storage_refines_lists.
Print Assumptions C15_vector_is_concatenation.
Print Assumptions C15_sort_keeps_values.
Print Assumptions C15_assignment_distributes.
Print Assumptions C15_component_write_is_local.
Print Assumptions C15_wrong_length_refuted.
Print Assumptions C16_copy_is_independent.
Print Assumptions C16_copied_derivs_disconnected.
Print Assumptions C16_copied_derivs_refuted.
