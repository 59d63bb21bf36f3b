(** Property C85 (Evolino networks and genomes): genomes of the wrong length, the output weights, washing out and extrapolating,
    and the filters. *)
From Verif Require Import Base Evonet_Model Evonet_Spec Evonet_Props.
From Coq Require Import Reals Lra.
Local Open Scope nat_scope.

(** ** Genomes of the wrong length *)
Lemma set_conn_len n cell t is : forall c ws,
  match set_conn n cell t is c ws with Ok (c', ws') => length ws = length is + length ws' /\ c_indim c' = c_indim c | Err e => e = IndexError end.
Proof.
  induction is as [| i is IH]; intros c ws; cbn [set_conn]; [auto |]. destruct ws as [| w ws]; [auto |].
  destruct (_ <? _); [| auto]. specialize (IH {| c_indim := c_indim c; c_params := upd (c_params c) (pidx n c cell t i) w |} ws).
  destruct (set_conn _ _ _ _ _ _) as [[c' ws'] | e]; [| auto]. cbn [length c_indim] in *. lia.
Qed.
Lemma set_conns_len n cell t cs : forall ws,
  match set_conns n cell t cs ws with Ok (cs', ws') => length ws = fan_in cs + length ws' /\ fan_in cs' = fan_in cs | Err e => e = IndexError end.
Proof.
  induction cs as [| c cs IH]; intros ws; cbn [set_conns]; [auto |]. pose proof (set_conn_len n cell t (seq 0 (c_indim c)) c ws) as H.
  destruct (set_conn _ _ _ _ _ _) as [[c' ws'] | e]; cbn [rbind fst snd]; [| auto]. specialize (IH ws').
  destruct (set_conns _ _ _ _ _) as [[cs' ws''] | e]; cbn [rbind fst snd]; [| auto]. rewrite seq_length in H. unfold fan_in in *. cbn [map list_sum fold_right].
  change (fold_right Nat.add 0 (map c_indim cs)) with (list_sum (map c_indim cs)). change (fold_right Nat.add 0 (map c_indim cs')) with (list_sum (map c_indim cs')). lia.
Qed.
Lemma set_types_len n cell ts : forall cs ws,
  match set_types n cell ts cs ws with Ok (cs', ws') => length ws = length ts * fan_in cs + length ws' /\ fan_in cs' = fan_in cs | Err e => e = IndexError end.
Proof.
  induction ts as [| t ts IH]; intros cs ws; cbn [set_types]; [auto |]. pose proof (set_conns_len n cell t cs ws) as H.
  destruct (set_conns _ _ _ _ _) as [[cs' ws'] | e]; cbn [rbind fst snd]; [| auto]. specialize (IH cs' ws').
  destruct (set_types _ _ _ _ _) as [[c2 w2] | e]; [| auto]. cbn [length]. destruct H as [H1 H2], IH as [I1 I2]. rewrite H2 in I1. split; [lia | congruence].
Qed.
(** a genome with a chromosome missing or too short is turned down *)
Theorem C85_short_genome n cs w cell : cell < n -> (forall ws, nth_error w cell = Some ws -> length ws < 4 * fan_in cs) -> setGenome n cs w = Err IndexError.
Proof.
  intros Hc HW. unfold setGenome. assert (Hin : In cell (seq 0 n)) by (apply in_seq; lia). clear Hc. revert cs HW Hin. generalize (seq 0 n) as cells.
  induction cells as [| c cells IH]; intros cs HW Hin; [destruct Hin |]. cbn [set_cells].
  destruct (nth_error w c) as [ws |] eqn:E; [| auto]. pose proof (set_types_len n c (seq 0 4) cs ws) as H.
  destruct (set_types _ _ _ _ _) as [[c1 w1] | e]; cbn [rbind fst]; [| now rewrite H]. destruct H as [H1 H2]. rewrite seq_length in H1.
  destruct Hin as [-> | Hin]; [specialize (HW ws E); lia |]. apply IH; [| auto]. rewrite H2. exact HW.
Qed.
Lemma set_conn_more n cell t is x : forall c ws c' ws', set_conn n cell t is c ws = Ok (c', ws') -> set_conn n cell t is c (ws ++ x) = Ok (c', ws' ++ x).
Proof.
  induction is as [| i is IH]; intros c ws c' ws'; cbn [set_conn]; [intros [= -> ->]; auto |]. destruct ws as [| w ws]; [discriminate |]. cbn [app].
  destruct (_ <? _); [apply IH | discriminate].
Qed.
Lemma set_conns_more n cell t x cs : forall ws cs' ws', set_conns n cell t cs ws = Ok (cs', ws') -> set_conns n cell t cs (ws ++ x) = Ok (cs', ws' ++ x).
Proof.
  induction cs as [| c cs IH]; intros ws cs' ws'; cbn [set_conns]; [intros [= -> ->]; auto |].
  destruct (set_conn n cell t (seq 0 (c_indim c)) c ws) as [[c1 w1] | e] eqn:E; cbn [rbind fst snd]; [| discriminate]. apply set_conn_more with (x := x) in E. rewrite E. cbn [rbind fst snd].
  destruct (set_conns n cell t cs w1) as [[c2 w2] | e] eqn:E2; cbn [rbind fst snd]; [| discriminate]. intros [= <- <-]. now rewrite (IH _ _ _ E2).
Qed.
Lemma set_types_more n cell x ts : forall cs ws cs' ws', set_types n cell ts cs ws = Ok (cs', ws') -> set_types n cell ts cs (ws ++ x) = Ok (cs', ws' ++ x).
Proof.
  induction ts as [| t ts IH]; intros cs ws cs' ws'; cbn [set_types]; [intros [= -> ->]; auto |].
  destruct (set_conns n cell t cs ws) as [[c1 w1] | e] eqn:E; cbn [rbind fst snd]; [| discriminate]. apply set_conns_more with (x := x) in E. rewrite E. cbn [rbind fst snd]. apply IH.
Qed.
(** but weights beyond those needed are silently dropped *)
Theorem C85_long_genome n cs w x cs' : setGenome n cs w = Ok cs' -> setGenome n cs (map (fun ws => ws ++ x) w) = Ok cs'.
Proof.
  unfold setGenome. generalize (seq 0 n) as cells. intros cells. revert cs. induction cells as [| c cells IH]; intros cs; cbn [set_cells]; [auto |].
  rewrite nth_error_map. destruct (nth_error w c) as [ws |]; cbn [option_map]; [| discriminate].
  destruct (set_types n c (seq 0 4) cs ws) as [[c1 w1] | e] eqn:E; cbn [rbind fst]; [| discriminate]. apply set_types_more with (x := x) in E. rewrite E. cbn [rbind fst]. apply IH.
Qed.

(** ** The output weights *)
Theorem C85_output_matrix outdim indim params W : length params = outdim * indim -> length W = outdim -> Forall (fun r => length r = indim) W ->
  exists p, setOutputWeightMatrix params W = Ok p /\ getOutputWeightMatrix outdim indim p = W /\
    forall o i, o < outdim -> i < indim -> nth (o * indim + i) p 0%R = nth i (nth o W []) 0%R.
Proof.
  intros Lp LW HW. unfold setOutputWeightMatrix, getOutputWeightMatrix. unfold vec in *.
  assert (Lc : forall V, Forall (fun r : list R => length r = indim) V -> length (concat V) = length V * indim).
  { induction 1 as [| r V Hr _ IH]; [auto |]. cbn [concat length]. rewrite app_length, IH. lia. }
  rewrite (Lc W HW), LW, Lp, Nat.eqb_refl. exists (concat W). split; [auto |]. clear Lp Lc. revert outdim LW. induction HW as [| r V Hr _ IH]; intros outdim LW; cbn [length] in LW; subst outdim.
  - split; [auto | intros; lia].
  - cbn [reshape concat]. destruct (IH (length V) eq_refl) as [I1 I2]. split.
    + f_equal; [rewrite <- Hr, firstn_app, Nat.sub_diag, firstn_all; apply app_nil_r |]. rewrite skipn_app, Hr, Nat.sub_diag, skipn_all2 by lia. exact I1.
    + intros [| o] i Ho Hi; cbn [nth].
      * apply app_nth1. lia.
      * rewrite app_nth2 by lia. rewrite <- I2 by lia. f_equal. lia.
Qed.
Theorem C85_output_matrix_size outdim indim params W : length params = outdim * indim -> length (concat W) <> outdim * indim -> setOutputWeightMatrix params W = Err ValueError.
Proof. intros L N. unfold setOutputWeightMatrix. rewrite L. apply Nat.eqb_neq in N. now rewrite N. Qed.

(** ** Running *)
Lemma put_at z l i v : nth_error (put z l i v) i = Some v.
Proof. unfold put. apply nth_error_upd. destruct (Nat.ltb_spec i (length l)); [auto |]. rewrite app_length, repeat_length. lia. Qed.
Lemma put_length z l i v : i + 1 <= length (put z l i v).
Proof. unfold put. rewrite upd_length. destruct (Nat.ltb_spec i (length l)); [lia |]. rewrite app_length, repeat_length. lia. Qed.
Section Run.
  Context {S : Type} (start : S) (step : S -> vec -> S * (vec * vec)) (outdim hiddim : nat) (factor : R).
  Hypothesis Hsz : sized step outdim.
  (** the last output of the network, as the backprojection sees it *)
  Definition cur (e : evo S) (prev : vec) : Prop := length prev = outdim /\ (e_off e = 0 /\ prev = zerov outdim \/ e_off e <> 0 /\ nth_error (e_out e) (e_off e - 1) = Some prev).
  Lemma vscale_length f v : length (vscale f v) = length v.
  Proof. apply map_length. Qed.
  Lemma step_spec e prev : cur e prev -> exists b, backproject outdim factor e = Ok (vscale factor prev, b) /\ e_state b = e_state e /\ e_noff b = e_noff e /\
    forall s out raw, step (e_state e) (vscale factor prev) = (s, (out, raw)) ->
      exists a, activateNetwork step outdim hiddim b (vscale factor prev) = Ok (out, a) /\ e_state a = s /\ cur a out /\ getRawOutput a = Ok raw /\ e_off a <> 0 /\ e_off a <= length (e_out a).
  Proof.
    intros [L C]. unfold backproject.
    assert (A : forall b, e_state b = e_state e -> forall s out raw, step (e_state e) (vscale factor prev) = (s, (out, raw)) ->
      exists a, activateNetwork step outdim hiddim b (vscale factor prev) = Ok (out, a) /\ e_state a = s /\ cur a out /\ getRawOutput a = Ok raw /\ e_off a <> 0 /\ e_off a <= length (e_out a)).
    { intros b Es s out raw E. unfold activateNetwork. rewrite vscale_length, L, Nat.eqb_refl, Es, E. eexists. split; [reflexivity |]. cbn [e_state e_off e_out e_raw]. split; [auto |].
      unfold cur, getRawOutput. cbn [e_state e_off e_out e_raw]. replace (e_noff b + 1 - 1) with (e_noff b) by lia. rewrite !put_at.
      split; [| split; [auto | split; [lia | apply put_length]]]. split; [pose proof (Hsz (e_state e) (vscale factor prev)) as K; rewrite E in K; exact K |]. right. split; [lia | auto]. }
    destruct C as [[Z ->] | [Z N]].
    - rewrite Z. cbn [Nat.eqb]. eexists. split; [reflexivity |]. split; [auto |]. split; [auto |]. now apply A.
    - apply Nat.eqb_neq in Z. rewrite Z, N. eexists. split; [reflexivity |]. cbn [e_state e_noff]. split; [auto |]. split; [auto |]. now apply A.
  Qed.
  Lemma set_cur e v out : cur e out -> e_off e <> 0 -> length v = outdim -> cur (setLastOutput e v) v.
  Proof.
    intros [_ [[K _] | [_ K]]] N L; [congruence |]. split; [auto |]. right. split; [auto |]. cbn [setLastOutput e_out e_off]. apply nth_error_upd.
    apply nth_error_Some. congruence.
  Qed.
  Lemma washout_spec seq : forall e prev, cur e prev -> Forall (fun v => length v = outdim) seq ->
    exists e', washout_loop step outdim hiddim factor e seq = Ok (fst (forced step factor (e_state e) prev seq), e') /\
      e_state e' = fst (snd (forced step factor (e_state e) prev seq)) /\ cur e' (snd (snd (forced step factor (e_state e) prev seq))).
  Proof.
    induction seq as [| v seq IH]; intros e prev C HV; cbn [washout_loop forced]; [exists e; auto |]. inversion HV as [| ? ? V1 V2]; subst.
    destruct (step_spec e prev C) as (b & -> & Es & En & A). cbn [rbind fst snd]. destruct (step (e_state e) (vscale factor prev)) as [s [out raw]] eqn:E.
    destruct (A s out raw eq_refl) as (a & -> & Ea & Ca & Ra & Oa & _). cbn [rbind fst snd]. rewrite Ra. cbn [rbind].
    destruct (IH (setLastOutput a v) v (set_cur a v out Ca Oa V1) V2) as (e' & -> & S' & C'). cbn [rbind fst snd]. cbn [setLastOutput e_state] in *. rewrite Ea in *.
    destruct (forced step factor s v seq) as [raws f]. cbn [fst snd] in *. exists e'. auto.
  Qed.
  Lemma generate_spec n : forall e prev, cur e prev -> exists e', generate step outdim hiddim factor e n = Ok (own step factor (e_state e) prev n, e').
  Proof.
    induction n as [| n IH]; intros e prev C; cbn [generate own]; [exists e; auto |].
    destruct (step_spec e prev C) as (b & -> & Es & En & A). cbn [rbind fst snd]. destruct (step (e_state e) (vscale factor prev)) as [s [out raw]] eqn:E.
    destruct (A s out raw eq_refl) as (a & -> & Ea & Ca & _). cbn [rbind fst snd]. destruct (IH a out Ca) as (e' & ->). rewrite Ea. cbn [rbind fst snd]. exists e'. auto.
  Qed.
  Definition within (e : evo S) : Prop := e_off e <= length (e_out e).
  Lemma back_within e x b : within e -> backproject outdim factor e = Ok (x, b) -> within b.
  Proof.
    unfold backproject, within. intros H. destruct (e_off e =? 0); [intros [= <- <-]; auto |]. destruct (nth_error _ _); [| discriminate]. intros [= <- <-]. cbn [e_off e_out]. now rewrite upd_length.
  Qed.
  Lemma act_within e x o a : activateNetwork step outdim hiddim e x = Ok (o, a) -> within a.
  Proof.
    unfold activateNetwork, within. destruct (_ =? _); [| discriminate]. destruct (step _ _) as [s [out raw]]. intros [= <- <-]. cbn [e_off e_out]. apply put_length.
  Qed.
  Lemma wash_within seq : forall e o e', within e -> washout_loop step outdim hiddim factor e seq = Ok (o, e') -> within e'.
  Proof.
    induction seq as [| v seq IH]; intros e o e' H; cbn [washout_loop]; [intros [= <- <-]; auto |].
    destruct (backproject outdim factor e) as [[x b] | ?]; cbn [rbind fst snd]; [| discriminate].
    destruct (activateNetwork step outdim hiddim b x) as [[y a] | ?] eqn:A; cbn [rbind fst snd]; [| discriminate]. destruct (getRawOutput a); cbn [rbind]; [| discriminate].
    destruct (washout_loop step outdim hiddim factor (setLastOutput a v) seq) as [[z f] | ?] eqn:W; cbn [rbind fst snd]; [| discriminate]. intros [= <- <-].
    apply IH in W; [auto |]. apply act_within in A. unfold within in *. cbn [setLastOutput e_off e_out]. now rewrite upd_length.
  Qed.
  Lemma gen_within n : forall e o e', within e -> generate step outdim hiddim factor e n = Ok (o, e') -> within e'.
  Proof.
    induction n as [| n IH]; intros e o e' H; cbn [generate]; [intros [= <- <-]; auto |].
    destruct (backproject outdim factor e) as [[x b] | ?]; cbn [rbind fst snd]; [| discriminate].
    destruct (activateNetwork step outdim hiddim b x) as [[y a] | ?] eqn:A; cbn [rbind fst snd]; [| discriminate].
    destruct (generate step outdim hiddim factor a n) as [[z f] | ?] eqn:W; cbn [rbind fst snd]; [| discriminate]. intros [= <- <-]. apply act_within in A. now apply IH in W.
  Qed.
  Lemma used_within e : used start step factor outdim hiddim e -> within e.
  Proof.
    induction 1 as [| e _ IH | e seq o e' _ IH W | e n o e' _ IH G].
    - unfold within. cbn. lia.
    - unfold within in *. cbn [ereset e_off e_out]. now rewrite map_length.
    - unfold washout in W. destruct seq as [| v seq]; [discriminate |]. destruct (_ =? _); [| discriminate]. now apply wash_within in W.
    - now apply gen_within in G.
  Qed.
  Lemma reset_cur e : used start step factor outdim hiddim e -> cur (ereset start outdim hiddim e) (zerov outdim).
  Proof.
    intros U. apply used_within in U. split; [apply repeat_length |]. cbn [ereset e_off e_out]. destruct (Nat.eq_dec (e_off e) 0) as [Z | Z]; [left; auto | right; split; [auto |]].
    rewrite nth_error_map. destruct (nth_error (e_out e) (e_off e - 1)) eqn:N; [reflexivity |]. apply nth_error_None in N. unfold within in U. lia.
  Qed.
End Run.

(** after a reset, whatever was done with the network before, washing out gives the raw outputs of the network when it is
    started anew and fed with the scaled sequence, delayed by one step *)
Theorem C85_washout {S} (start : S) step outdim hiddim factor e sequence : sized step outdim -> used start step factor outdim hiddim e ->
  sequence <> [] -> Forall (fun v => length v = outdim) sequence ->
  exists e', washout step outdim hiddim factor (ereset start outdim hiddim e) sequence = Ok (fst (forced step factor start (zerov outdim) sequence), e') /\
    e_state e' = fst (snd (forced step factor start (zerov outdim) sequence)).
Proof.
  intros Hs U N HV. pose proof (reset_cur start step outdim hiddim factor e U) as C. unfold washout. destruct sequence as [| v rest]; [congruence |].
  inversion HV as [| ? ? V1 V2]; subst. rewrite Nat.eqb_refl.
  destruct (washout_spec step (length v) hiddim factor Hs (v :: rest) _ _ C HV) as (e' & E & Es & _). exists e'. auto.
Qed.
(** and extrapolating gives the network's own outputs, each fed back, from the last value of the sequence: what was done with the
    network before does not matter *)
Theorem C85_extrapolate {S} (start : S) step outdim hiddim factor e sequence n : sized step outdim -> used start step factor outdim hiddim e ->
  sequence <> [] -> Forall (fun v => length v = outdim) sequence ->
  exists e', extrapolate start step outdim hiddim factor e sequence n =
    Ok (own step factor (fst (snd (forced step factor start (zerov outdim) sequence))) (last sequence []) n, e').
Proof.
  intros Hs U N HV. pose proof (reset_cur start step outdim hiddim factor e U) as C. unfold extrapolate, washout. destruct sequence as [| v rest]; [congruence |].
  inversion HV as [| ? ? V1 V2]; subst. rewrite Nat.eqb_refl.
  destruct (washout_spec step (length v) hiddim factor Hs (v :: rest) _ _ C HV) as (w & E & Es & Cw). rewrite E. cbn [rbind snd].
  destruct (generate_spec step (length v) hiddim factor Hs n w _ Cw) as (e' & G). exists e'. rewrite G, Es. cbn [ereset e_state].
  assert (L : forall l s p, snd (snd (forced step factor s p l)) = last l p).
  { clear. induction l as [| x l IH]; intros s p; [auto |]. cbn [forced]. destruct (step s (vscale factor p)) as [s' [o r]]. specialize (IH s' x).
    destruct (forced step factor s' x l) as [rs f]. cbn [snd] in *. rewrite IH. cbn [last]. destruct l; [auto |]. clear. revert v. induction l; intros w; [auto |]. cbn [last] in *. destruct l; auto. }
  rewrite L. f_equal. f_equal. f_equal. clear. revert v. induction rest as [| x r IH]; intros v; [auto |]. cbn [last] in *. destruct r; auto.
Qed.
(** it has the length asked for *)
Theorem C85_length {S} (step : S -> vec -> S * (vec * vec)) factor s p n : length (own step factor s p n) = n.
Proof. revert s p. induction n as [| n IH]; intros s p; cbn [own]; [auto |]. destruct (step s (vscale factor p)) as [s' [o r]]. cbn [length]. now rewrite IH. Qed.
(** generating goes on where it stopped *)
Theorem C85_generate_on {S} (step : S -> vec -> S * (vec * vec)) outdim hiddim factor n m e o e' o2 e2 :
  generate step outdim hiddim factor e n = Ok (o, e') -> generate step outdim hiddim factor e' m = Ok (o2, e2) -> generate step outdim hiddim factor e (n + m) = Ok (o ++ o2, e2).
Proof.
  revert e o. induction n as [| n IH]; intros e o; cbn [generate Nat.add]; [intros [= <- <-]; auto |].
  destruct (backproject outdim factor e) as [[x b] | ?]; cbn [rbind fst snd]; [| discriminate].
  destruct (activateNetwork step outdim hiddim b x) as [[y a] | ?]; cbn [rbind fst snd]; [| discriminate].
  destruct (generate step outdim hiddim factor a n) as [[z f] | ?] eqn:G; cbn [rbind fst snd]; [| discriminate]. intros [= <- <-] G2.
  rewrite (IH a z G G2). reflexivity.
Qed.
(** an empty sequence, or one whose first value has the wrong size, is turned down *)
Theorem C85_washout_checks {S} (step : S -> vec -> S * (vec * vec)) outdim hiddim factor e sequence :
  sequence = [] \/ length (hd [] sequence) <> outdim -> washout step outdim hiddim factor e sequence = Err AssertionError.
Proof. intros [-> | N]; [reflexivity |]. destruct sequence as [| v r]; [reflexivity |]. cbn [washout hd] in *. apply Nat.eqb_neq in N. now rewrite N. Qed.
(** the scaling is done in place: after generating, the output layer's buffer holds the scaled outputs, except the last *)
Lemma upd_end {A} (l : list A) (x y : A) : upd (l ++ [x]) (length l) y = l ++ [y].
Proof.
  unfold upd. rewrite app_length. cbn [length]. destruct (Nat.ltb_spec (length l) (length l + 1)); [| lia].
  rewrite firstn_app, Nat.sub_diag, firstn_all. cbn [firstn]. rewrite app_nil_r. rewrite skipn_all2 by (rewrite app_length; cbn; lia). reflexivity.
Qed.
Lemma buffer_loop {S} (step : S -> vec -> S * (vec * vec)) outdim hiddim factor n : forall e pre prev o e', e_out e = pre ++ [prev] -> e_off e = length (pre ++ [prev]) -> e_noff e = e_off e ->
  generate step outdim hiddim factor e n = Ok (o, e') -> e_out e' = pre ++ map (vscale factor) (removelast (prev :: o)) ++ [last (prev :: o) []].
Proof.
  induction n as [| n IH]; intros e pre prev o e' Eo Ef En; cbn [generate]; [intros [= <- <-]; exact Eo |].
  rewrite app_length in Ef. cbn [length] in Ef. unfold backproject. destruct (Nat.eqb_spec (e_off e) 0); [lia |].
  rewrite Eo, Ef. replace (length pre + 1 - 1) with (length pre) by lia. rewrite nth_error_app2, Nat.sub_diag by lia. cbn [nth_error rbind fst snd]. rewrite upd_end.
  unfold activateNetwork. cbn [e_state e_out e_raw e_noff]. destruct (_ =? _); cbn [rbind]; [| discriminate]. destruct (step _ _) as [s [out raw]]. cbn [rbind fst snd].
  match goal with |- context [generate _ _ _ _ ?x n] => set (a := x) end.
  destruct (generate step outdim hiddim factor a n) as [[z f] | ?] eqn:G; cbn [rbind fst snd]; [| discriminate]. intros [= <- <-].
  assert (Ea : e_out a = (pre ++ [vscale factor prev]) ++ [out]).
  { cbn [a e_out]. unfold put. rewrite En, Ef. destruct (Nat.ltb_spec (length pre + 1) (length (pre ++ [vscale factor prev]))) as [K | K]; rewrite app_length in K; cbn [length] in K; [lia |].
    rewrite app_length. cbn [length]. replace (length pre + 1 + 1 - (length pre + 1)) with 1 by lia. cbn [repeat].
    replace (length pre + 1) with (length (pre ++ [vscale factor prev])) by (rewrite app_length; reflexivity). apply upd_end. }
  apply (IH a (pre ++ [vscale factor prev]) out) in G; [| auto | cbn [a e_off]; rewrite !app_length; cbn [length]; lia | reflexivity].
  rewrite G. rewrite <- app_assoc. f_equal.
Qed.
Theorem C85_buffer_scaled {S} (start : S) step outdim hiddim factor n o e' : generate step outdim hiddim factor (new_evo start outdim hiddim) n = Ok (o, e') -> n <> 0 ->
  e_out e' = map (vscale factor) (removelast o) ++ [last o []].
Proof.
  intros G N. destruct n as [| n]; [congruence |]. revert G. cbn [generate backproject new_evo e_off Nat.eqb rbind fst snd]. unfold activateNetwork. cbn [e_state e_out e_raw e_noff].
  destruct (_ =? _); cbn [rbind]; [| discriminate]. destruct (step _ _) as [s [out raw]]. cbn [rbind fst snd].
  match goal with |- context [generate _ _ _ _ ?x n] => set (a := x) end.
  destruct (generate step outdim hiddim factor a n) as [[z f] | ?] eqn:G; cbn [rbind fst snd]; [| discriminate]. intros [= <- <-].
  apply (buffer_loop step outdim hiddim factor n a [] out) in G; [exact G | reflexivity | reflexivity | reflexivity].
Qed.
(** so the buffer does not hold what the network put out *)
Theorem C85_buffer_refuted : exists (start : unit) step outdim hiddim factor n o e',
  sized step outdim /\ generate step outdim hiddim factor (new_evo start outdim hiddim) n = Ok (o, e') /\ e_out e' <> o.
Proof.
  set (step := fun (_ : unit) (_ : vec) => (tt, ([1%R], [1%R]))).
  assert (Hs : sized step 1) by (intros s x; reflexivity).
  assert (C : cur 1 (new_evo tt 1 1) [0%R]) by (split; [reflexivity | left; split; reflexivity]).
  destruct (generate_spec step 1 1 (/ 2) Hs 2 _ _ C) as (e' & G). exists tt, step, 1, 1, (/ 2)%R, 2, [[1%R]; [1%R]], e'.
  split; [exact Hs |]. split; [exact G |]. apply C85_buffer_scaled in G; [| discriminate]. rewrite G. cbn. intros [= K]. lra.
Qed.

(** ** Filters *)
Lemma genome_ind2 (P : genome -> Prop) : (forall x, P (Leaf x)) -> (forall l, Forall P l -> P (Node l)) -> forall g, P g.
Proof.
  intros HL HN. fix F 1. intros [x | l]; [apply HL |]. apply HN. induction l as [| g l IH]; constructor; [apply F | exact IH].
Qed.
Lemma mapk_app man k l l' : mapk man k (l ++ l') = mapk man k l ++ mapk man (k + length l) l'.
Proof. revert k. induction l as [| x l IH]; intros k; cbn [app mapk length]; [f_equal; lia |]. rewrite IH. cbn [app]. f_equal. f_equal. f_equal. lia. Qed.
(** a filter keeps the form of a genome and changes every float, in order, with a draw of its own *)
Theorem C85_manipulate man k g : form (fst (manipulate man k g)) = form g /\ floats (fst (manipulate man k g)) = mapk man k (floats g) /\ snd (manipulate man k g) = k + length (floats g).
Proof.
  revert k. induction g as [x | l IH] using genome_ind2; intros k; [cbn; auto |]. cbn [manipulate].
  match goal with |- context [let (_, _) := ?f k l in _] => set (go := f) end.
  assert (G : map form (fst (go k l)) = map form l /\ flat_map floats (fst (go k l)) = mapk man k (flat_map floats l) /\ snd (go k l) = k + length (flat_map floats l)).
  { revert k. induction IH as [| g l Hg _ IHl]; intros k; [cbn; auto |].
    assert (Eg : go k (g :: l) = let (g', k1) := manipulate man k g in let (r', k2) := go k1 l in (g' :: r', k2)) by reflexivity. rewrite Eg. clear Eg.
    destruct (Hg k) as (H1 & H2 & H3). destruct (manipulate man k g) as [g' k1]. cbn [fst snd] in *. destruct (IHl k1) as (L1 & L2 & L3). destruct (go k1 l) as [r' k2]. cbn [fst snd] in *.
    cbn [map flat_map]. rewrite H1, L1, H2, L2, L3, H3, mapk_app, app_length. split; [auto |]. split; [auto | lia]. }
  destruct (go k l) as [l' k']. cbn [fst snd form floats] in *. destruct G as (-> & -> & ->). auto.
Qed.
(** over a population the draws go on from one genome to the next; a genome must be a list *)
Theorem C85_filter man k subs : apply_filter man k (map Node subs) = Ok (fst (
    fold_left (fun '(done, j) l => (done ++ [fst (manipulate man j (Node l))], j + length (floats (Node l)))) subs ([], k)), k + length (flat_map floats (map Node subs))).
Proof.
  assert (H : forall k done, exists out, apply_filter man k (map Node subs) = Ok (out, k + length (flat_map floats (map Node subs))) /\
    fst (fold_left (fun '(done, j) l => (done ++ [fst (manipulate man j (Node l))], j + length (floats (Node l)))) subs (done, k)) = done ++ out).
  { induction subs as [| l subs IH]; intros j done.
    - exists []. cbn. split; [f_equal; f_equal; lia | now rewrite app_nil_r].
    - cbn [map apply_filter]. unfold manipulateGenome at 1. cbn [rbind]. destruct (C85_manipulate man j (Node l)) as (_ & _ & E). rewrite E.
      destruct (IH (j + length (floats (Node l))) (done ++ [fst (manipulate man j (Node l))])) as (out & A & B). rewrite A. cbn [rbind fst snd].
      exists (fst (manipulate man j (Node l)) :: out). split.
      + f_equal. f_equal. cbn [flat_map]. rewrite app_length. lia.
      + cbn [fold_left]. rewrite B, <- app_assoc. reflexivity. }
  destruct (H k []) as (out & A & B). rewrite B. exact A.
Qed.
Theorem C85_filter_leaf man k x rest : apply_filter man k (Leaf x :: rest) = Err AssertionError.
Proof. reflexivity. Qed.
(** randomization puts every float between the bounds; mutation without noise changes nothing *)
Theorem C85_randomize lo hi u k g : (lo <= hi)%R -> (forall j, 0 <= u j < 1)%R -> Forall (fun x => lo <= x <= hi)%R (floats (fst (manipulate (randomize_value lo hi u) k g))).
Proof.
  intros H Hu. destruct (C85_manipulate (randomize_value lo hi u) k g) as (_ & -> & _). generalize (floats g) as l. intros l. revert k. induction l as [| x l IH]; intros k; cbn [mapk]; constructor; [| apply IH].
  unfold randomize_value. specialize (Hu k). split; nra.
Qed.
Theorem C85_mutate alpha z k g : floats (fst (manipulate (mutate_value alpha z) k g)) = mapk (fun j x => x + alpha * z j)%R k (floats g).
Proof. apply C85_manipulate. Qed.
Theorem C85_mutate_none alpha z k g : (forall j, alpha * z j = 0)%R -> fst (manipulate (mutate_value alpha z) k g) = g.
Proof.
  intros Hz. revert k. induction g as [x | l IH] using genome_ind2; intros k; cbn [manipulate fst]; [unfold mutate_value; rewrite Hz; f_equal; ring |].
  match goal with |- context [let (_, _) := ?f k l in _] => set (go := f) end.
  assert (G : fst (go k l) = l).
  { revert k. induction IH as [| g l Hg _ IHl]; intros k; [reflexivity |].
    assert (Eg : go k (g :: l) = let (g', k1) := manipulate (mutate_value alpha z) k g in let (r', k2) := go k1 l in (g' :: r', k2)) by reflexivity. rewrite Eg. clear Eg.
    specialize (Hg k). destruct (manipulate (mutate_value alpha z) k g) as [g' k1]. cbn [fst] in Hg. specialize (IHl k1). destruct (go k1 l) as [r' k2]. cbn [fst] in *. congruence. }
  destruct (go k l) as [l' k']. cbn [fst] in *. now rewrite G.
Qed.

(** ** Cases *)
(** a layer of two cells with two connections, from one source and from two *)
Example C85_set_case : let cs := [{| c_indim := 1; c_params := zerov 8 |}; {| c_indim := 2; c_params := zerov 16 |}] in
  Forall (shaped 2) cs /\ exists cs', setGenome 2 cs (map (fun c => map (fun j => INR (c * 12 + j)) (seq 0 12)) (seq 0 2)) = Ok cs' /\
    map (fun c => nth 2 (c_params c) 0%R) cs' = [INR 3; INR 13].
Proof. cbn zeta. split; [repeat constructor |]. eexists. split; [vm_compute; reflexivity | vm_compute; reflexivity]. Qed.
(** a network that adds its input to a sum *)
Definition adder (s : R) (x : vec) : R * (vec * vec) := let s' := (s + hd 0%R x + 1)%R in (s', ([s'], [s'; s'])).
Example C85_used_case : sized adder 1 /\ exists o e, generate adder 1 2 (/ 2) (new_evo 0%R 1 2) 3 = Ok (o, e) /\ used 0%R adder (/ 2) 1 2 (ereset 0%R 1 2 e) /\ e_off e = 3.
Proof.
  split; [intros s x; reflexivity |]. eexists. eexists. split; [cbv -[Rplus Rmult Rinv IZR]; reflexivity |]. split; [| reflexivity]. apply used_reset. eapply used_generate with (n := 3); [apply used_new |]. cbv -[Rplus Rmult Rinv IZR]. reflexivity.
Qed.
Example C85_manipulate_case : manipulate (fun k x => (x + INR k)%R) 0 (Node [Node [Leaf 0; Leaf 0]; Node []; Leaf 0]) = (Node [Node [Leaf (0 + INR 0); Leaf (0 + INR 1)]; Node []; Leaf (0 + INR 2)], 3).
Proof. reflexivity. Qed.

(** the feedback is the last output times the factor *)
Theorem C85_scaled f v : length (vscale f v) = length v /\ forall k, nth k (vscale f v) 0%R = (f * nth k v 0)%R.
Proof.
  split; [apply map_length |]. intros k. unfold vscale. destruct (Nat.lt_ge_cases k (length v)) as [L | L].
  - rewrite (nth_indep _ 0%R (0 * f)%R) by (rewrite map_length; exact L). rewrite (map_nth (fun x => (x * f)%R)). apply Rmult_comm.
  - rewrite !nth_overflow by (rewrite ?map_length; exact L). symmetry. apply Rmult_0_r.
Qed.

Print Assumptions C85_scaled.
Print Assumptions C85_genome_shape.
Print Assumptions C85_set_get.
Print Assumptions C85_genome_determines.
Print Assumptions C85_genome_place.
Print Assumptions C85_short_genome.
Print Assumptions C85_long_genome.
Print Assumptions C85_output_matrix.
Print Assumptions C85_output_matrix_size.
Print Assumptions C85_washout.
Print Assumptions C85_extrapolate.
Print Assumptions C85_length.
Print Assumptions C85_generate_on.
Print Assumptions C85_washout_checks.
Print Assumptions C85_buffer_scaled.
Print Assumptions C85_buffer_refuted.
Print Assumptions C85_manipulate.
Print Assumptions C85_filter.
Print Assumptions C85_filter_leaf.
Print Assumptions C85_randomize.
Print Assumptions C85_mutate.
Print Assumptions C85_mutate_none.
