(** Property C85 (Evolino networks and genomes): the genome. *)
From Verif Require Import Base Evonet_Model Evonet_Spec.
From Coq Require Import Reals Lra.
Local Open Scope nat_scope.

Lemma upd_length {A} (l : list A) i x : length (upd l i x) = length l.
Proof. unfold upd. destruct (Nat.ltb_spec i (length l)); [| auto]. rewrite !app_length, firstn_length, skipn_length. cbn. lia. Qed.
Lemma upd_same {A} (l : list A) i x d : i < length l -> nth i (upd l i x) d = x.
Proof.
  intros H. unfold upd. destruct (Nat.ltb_spec i (length l)); [| lia]. rewrite app_nth2 by (rewrite firstn_length; lia). rewrite firstn_length.
  replace (i - min i (length l)) with 0 by lia. reflexivity.
Qed.
Lemma nth_skipn {A} n (l : list A) j d : nth j (skipn n l) d = nth (n + j) l d.
Proof. revert l; induction n as [| n IH]; intros [| x l]; cbn [skipn Nat.add nth]; [now destruct j | reflexivity | now destruct j | apply IH]. Qed.
Lemma nth_firstn_lt {A} n (l : list A) j d : j < n -> nth j (firstn n l) d = nth j l d.
Proof. revert l j; induction n as [| n IH]; intros [| x l] [| j] H; cbn [firstn nth]; try lia; auto. apply IH. lia. Qed.
Lemma upd_other {A} (l : list A) i j x d : i <> j -> nth j (upd l i x) d = nth j l d.
Proof.
  intros H. unfold upd. destruct (Nat.ltb_spec i (length l)) as [L | L]; [| auto]. destruct (Nat.lt_ge_cases j i) as [K | K].
  - rewrite app_nth1 by (rewrite firstn_length; lia). now apply nth_firstn_lt.
  - rewrite app_nth2 by (rewrite firstn_length; lia). rewrite firstn_length. replace (j - min i (length l)) with (S (j - S i)) by lia. cbn [app nth].
    rewrite nth_skipn. f_equal. lia.
Qed.
Lemma nth_error_upd {A} (l : list A) i x : i < length l -> nth_error (upd l i x) i = Some x.
Proof. intros H. rewrite (nth_error_nth' _ x) by (now rewrite upd_length). f_equal. now apply upd_same. Qed.

(** row r of a connection *)
Definition row (c : conn) (r : nat) : list R := map (weight c r) (seq 0 (c_indim c)).
Lemma pidx_row n c cell t i : pidx n c cell t i = (t * n + cell) * c_indim c + i.
Proof. unfold pidx. nia. Qed.
Lemma get_cell_rows n cs cell : get_cell n cs cell = flat_map (fun t => flat_map (fun c => row c (t * n + cell)) cs) (seq 0 4).
Proof.
  unfold get_cell. rewrite !flat_map_concat_map. f_equal. apply map_ext. intros t. rewrite !flat_map_concat_map. f_equal. apply map_ext. intros c.
  unfold row, weight. apply map_ext. intros i. now rewrite pidx_row.
Qed.
(** connections that agree outside row r *)
Definition differ_in (r : nat) (c c' : conn) : Prop :=
  c_indim c' = c_indim c /\ length (c_params c') = length (c_params c) /\ forall r' i, i < c_indim c -> r' <> r -> weight c' r' i = weight c r' i.
Lemma index_inj m r i r' i' : i < m -> i' < m -> r * m + i = r' * m + i' -> r = r' /\ i = i'.
Proof. intros. assert (r = r') by nia. subst. lia. Qed.
Lemma set_conn_spec n cell t is : forall c ws, NoDup is -> (forall i, In i is -> i < c_indim c) -> shaped n c -> t < 4 -> cell < n -> length is <= length ws ->
  exists c' ws', set_conn n cell t is c ws = Ok (c', ws') /\ differ_in (t * n + cell) c c' /\ shaped n c' /\
    map (weight c' (t * n + cell)) is ++ ws' = ws /\ (forall i, i < c_indim c -> ~ In i is -> weight c' (t * n + cell) i = weight c (t * n + cell) i).
Proof.
  induction is as [| i is IH]; intros c ws N B Hs Ht Hc L; cbn [set_conn].
  - exists c, ws. split; [auto |]. split; [unfold differ_in; auto |]. auto.
  - destruct ws as [| w ws]; [cbn in L; lia |]. inversion N as [| ? ? Ni N']; subst. assert (Hi : i < c_indim c) by (apply B; now left).
    assert (Hp : pidx n c cell t i < length (c_params c)). { rewrite pidx_row, Hs. assert (t * n + cell < 4 * n) by nia. nia. }
    destruct (Nat.ltb_spec (pidx n c cell t i) (length (c_params c))); [| lia].
    set (c1 := {| c_indim := c_indim c; c_params := upd (c_params c) (pidx n c cell t i) w |}).
    assert (W1 : forall r j, j < c_indim c -> weight c1 r j = if Nat.eq_dec r (t * n + cell) then if Nat.eq_dec j i then w else weight c r j else weight c r j).
    { intros r j Hj. unfold weight. cbn [c1 c_indim c_params]. destruct (Nat.eq_dec r (t * n + cell)) as [-> | Nr]; [destruct (Nat.eq_dec j i) as [-> | Nj] |].
      - rewrite pidx_row. apply upd_same. now rewrite <- pidx_row.
      - rewrite pidx_row. apply upd_other. intros K. apply index_inj in K; [lia | auto | auto].
      - rewrite pidx_row. apply upd_other. intros K. apply index_inj in K; [lia | auto | auto]. }
    assert (H1 : shaped n c1). { unfold shaped. cbn [c1 c_indim c_params]. rewrite upd_length. exact Hs. }
    destruct (IH c1 ws N') as (c' & ws' & E & D & Hs' & M & O); [intros j Hj; cbn; apply B; now right | auto | auto | auto | cbn in L; lia |].
    exists c', ws'. split; [exact E |]. destruct D as (D1 & D2 & D3). cbn [c1 c_indim c_params] in D1, D2. split.
    { split; [auto |]. split; [rewrite D2; apply upd_length |]. intros r' j Hj Nr. rewrite D3 by auto. rewrite W1 by auto. destruct (Nat.eq_dec r' (t * n + cell)); [congruence | auto]. }
    split; [auto |]. cbn [map]. split.
    + cbn [app]. f_equal; [| exact M]. rewrite O by auto. rewrite W1 by auto. destruct (Nat.eq_dec _ _); [| congruence]. destruct (Nat.eq_dec i i); congruence.
    + intros j Hj Nj. rewrite O; [| exact Hj | intros K; apply Nj; now right]. rewrite W1 by auto. destruct (Nat.eq_dec _ _); [| congruence].
      destruct (Nat.eq_dec j i) as [-> |]; [exfalso; apply Nj; now left | auto].
Qed.
Lemma differ_shape r cs cs' : Forall2 (differ_in r) cs cs' -> same_shape cs cs'.
Proof. unfold same_shape. induction 1 as [| c c' cs cs' (D & _) _ IH]; cbn [map]; [auto |]. now rewrite D, IH. Qed.
Lemma set_conns_spec n cell t : t < 4 -> cell < n -> forall cs ws, Forall (shaped n) cs -> fan_in cs <= length ws ->
  exists cs' ws', set_conns n cell t cs ws = Ok (cs', ws') /\ Forall2 (differ_in (t * n + cell)) cs cs' /\ Forall (shaped n) cs' /\
    flat_map (fun c => row c (t * n + cell)) cs' ++ ws' = ws.
Proof.
  intros Ht Hc. induction cs as [| c cs IH]; intros ws HS L; cbn [set_conns].
  - exists [], ws. auto.
  - inversion HS as [| ? ? H1 H2]; subst. unfold fan_in in L. cbn [map list_sum fold_right] in L. fold (fan_in cs) in L.
    assert (L' : c_indim c + fan_in cs <= length ws) by exact L.
    destruct (set_conn_spec n cell t (seq 0 (c_indim c)) c ws) as (c' & ws' & -> & D & Hs' & M & _);
      [apply seq_NoDup | intros i Hi; apply in_seq in Hi; lia | auto | auto | auto | rewrite seq_length; lia |]. cbn [rbind fst snd].
    assert (Lw : fan_in cs <= length ws'). { apply (f_equal (@length R)) in M. rewrite app_length, map_length, seq_length in M. lia. }
    destruct (IH ws' H2 Lw) as (cs' & ws'' & -> & D' & Hs'' & M'). cbn [rbind fst snd].
    exists (c' :: cs'), ws''. split; [auto |]. split; [constructor; auto |]. split; [constructor; auto |].
    cbn [flat_map]. rewrite <- app_assoc, M'. unfold row. destruct D as (D1 & _). rewrite D1. exact M.
Qed.
Definition same_row (r : nat) (cs cs' : list conn) : Prop := Forall2 (fun c c' => c_indim c' = c_indim c /\ row c' r = row c r) cs cs'.
Lemma differ_rows r r' cs cs' : r' <> r -> Forall2 (differ_in r) cs cs' -> same_row r' cs cs'.
Proof.
  intros N. induction 1 as [| c c' cs cs' (D1 & D2 & D3) _ IH]; constructor; auto. split; [auto |]. unfold row. rewrite D1. apply map_ext_in.
  intros i Hi. apply in_seq in Hi. apply D3; [lia | auto].
Qed.
Lemma same_row_trans r a b c : same_row r a b -> same_row r b c -> same_row r a c.
Proof.
  unfold same_row. intros H. revert c. induction H as [| x y a b [E1 E2] _ IH]; intros c K; inversion K as [| ? z ? c' [K1 K2] K3]; subst; constructor; [| auto].
  split; congruence.
Qed.
Lemma same_row_flat r a b : same_row r a b -> flat_map (fun c => row c r) b = flat_map (fun c => row c r) a.
Proof. induction 1 as [| x y a b [_ E] _ IH]; cbn [flat_map]; [auto |]. now rewrite E, IH. Qed.
Lemma same_row_fan r a b : same_row r a b -> fan_in b = fan_in a.
Proof. unfold fan_in. induction 1 as [| x y a b [E _] _ IH]; cbn [map list_sum fold_right]; [auto |]. unfold list_sum in IH. now rewrite E, IH. Qed.
Lemma same_row_refl r a : same_row r a a.
Proof. induction a; constructor; auto. Qed.
Lemma differ_fan r a b : Forall2 (differ_in r) a b -> fan_in b = fan_in a.
Proof. unfold fan_in. induction 1 as [| x y a b (E & _) _ IH]; cbn [map list_sum fold_right]; [auto |]. unfold list_sum in IH. now rewrite E, IH. Qed.
Lemma set_types_spec n cell : cell < n -> forall ts cs ws, NoDup ts -> (forall t, In t ts -> t < 4) -> Forall (shaped n) cs -> length ts * fan_in cs <= length ws ->
  exists cs' ws', set_types n cell ts cs ws = Ok (cs', ws') /\ Forall (shaped n) cs' /\ same_shape cs cs' /\
    (forall r, (forall t, In t ts -> r <> t * n + cell) -> same_row r cs cs') /\
    flat_map (fun t => flat_map (fun c => row c (t * n + cell)) cs') ts ++ ws' = ws.
Proof.
  intros Hc. induction ts as [| t ts IH]; intros cs ws N B HS L; cbn [set_types].
  - exists cs, ws. split; [auto |]. split; [auto |]. split; [reflexivity |]. split; [intros; apply same_row_refl | auto].
  - inversion N as [| ? ? Nt N']; subst. assert (Ht : t < 4) by (apply B; now left). cbn [length] in L.
    destruct (set_conns_spec n cell t Ht Hc cs ws HS ltac:(lia)) as (c1 & w1 & -> & D & HS1 & M). cbn [rbind fst snd].
    assert (L1 : length ts * fan_in c1 <= length w1).
    { apply (f_equal (@length R)) in M. rewrite app_length in M. assert (length (flat_map (fun c => row c (t * n + cell)) c1) = fan_in c1).
      { unfold fan_in. clear. induction c1 as [| c l IH]; cbn [flat_map map list_sum fold_right length]; [auto |]. rewrite app_length, IH. unfold row. now rewrite map_length, seq_length. }
      pose proof (differ_fan _ _ _ D). nia. }
    destruct (IH c1 w1 N') as (cs' & ws' & -> & HS' & Sh & HRw & M'); [intros; apply B; now right | auto | auto |].
    exists cs', ws'. split; [auto |]. split; [auto |]. split; [unfold same_shape in *; rewrite Sh; now apply differ_shape in D |]. split.
    + intros r Hr. eapply same_row_trans; [apply (differ_rows (t * n + cell) r); [apply Hr; now left | exact D] |]. apply HRw. intros t' Ht'. apply Hr. now right.
    + cbn [flat_map]. rewrite <- app_assoc, M'. rewrite <- M. f_equal. apply same_row_flat. apply HRw. intros t' Ht' K. assert (t' <> t) by congruence. nia.
Qed.
Lemma set_cells_spec n : forall cells weights cs, NoDup cells -> (forall c, In c cells -> c < n) -> Forall (shaped n) cs ->
  (forall c, In c cells -> exists ws, nth_error weights c = Some ws /\ length ws = 4 * fan_in cs) ->
  exists cs', set_cells n cells weights cs = Ok cs' /\ Forall (shaped n) cs' /\ same_shape cs cs' /\
    (forall r, (forall c t, In c cells -> t < 4 -> r <> t * n + c) -> same_row r cs cs') /\
    (forall c, In c cells -> nth_error weights c = Some (get_cell n cs' c)).
Proof.
  induction cells as [| c cells IH]; intros weights cs N B HS HW; cbn [set_cells].
  - exists cs. split; [auto |]. split; [auto |]. split; [reflexivity |]. split; [intros; apply same_row_refl | intros ? []].
  - inversion N as [| ? ? Nc N']; subst. assert (Hc : c < n) by (apply B; now left). destruct (HW c ltac:(now left)) as (ws & Ew & Lw). rewrite Ew.
    destruct (set_types_spec n c Hc (seq 0 4) cs ws) as (c1 & w1 & -> & HS1 & Sh & HRw & M); [apply seq_NoDup | intros t Ht; apply in_seq in Ht; lia | auto | rewrite seq_length; lia |].
    cbn [rbind fst]. assert (Fan : fan_in c1 = fan_in cs) by (unfold fan_in; now rewrite Sh).
    destruct (IH weights c1 N') as (cs' & -> & HS' & Sh' & HRw' & G); [intros; apply B; now right | auto | intros x Hx; rewrite Fan; apply HW; now right |].
    exists cs'. split; [auto |]. split; [auto |]. split; [unfold same_shape in *; congruence |]. split.
    + intros r Hr. eapply same_row_trans; [apply HRw; intros t Ht; apply in_seq in Ht; apply Hr; [now left | lia] |]. apply HRw'. intros x t Hx Ht. apply Hr; [now right | auto].
    + intros x [<- | Hx]; [| now apply G]. rewrite Ew. f_equal. rewrite get_cell_rows.
      assert (w1 = []). { apply length_zero_iff_nil. apply (f_equal (@length R)) in M. rewrite app_length in M.
        assert (length (flat_map (fun t => flat_map (fun c0 => row c0 (t * n + c)) c1) (seq 0 4)) = 4 * fan_in c1).
        { assert (HF : forall r, length (flat_map (fun c0 => row c0 r) c1) = fan_in c1).
          { intros r. unfold fan_in. clear. induction c1 as [| c l IH]; cbn [flat_map map list_sum fold_right length]; [auto |]. rewrite app_length, IH. unfold row. now rewrite map_length, seq_length. }
          cbn [seq flat_map]. rewrite !app_length, !HF. cbn. lia. }
        lia. }
      subst w1. rewrite app_nil_r in M. rewrite <- M. rewrite !flat_map_concat_map. f_equal. apply map_ext_in. intros t Ht. apply in_seq in Ht. symmetry. apply same_row_flat.
      apply HRw'. intros x t' Hx Ht' K. assert (x < n) by (apply B; now right). assert (t = t') by nia. subst t'. assert (x = c) by lia. congruence.
Qed.

(** the genome has one chromosome for each cell, with four weights for each source *)
Theorem C85_genome_shape n cs : length (getGenome n cs) = n /\ Forall (fun ws => length ws = 4 * fan_in cs) (getGenome n cs).
Proof.
  unfold getGenome. split; [now rewrite map_length, seq_length |]. apply Forall_map, Forall_forall. intros c _. rewrite get_cell_rows.
  assert (HF : forall r, length (flat_map (fun c0 => row c0 r) cs) = fan_in cs).
  { intros r. unfold fan_in. clear. induction cs as [| c l IH]; cbn [flat_map map list_sum fold_right length]; [auto |]. rewrite app_length, IH. unfold row. now rewrite map_length, seq_length. }
  cbn [seq flat_map]. rewrite !app_length, !HF. cbn. lia.
Qed.
(** a genome of that shape can be set, and is then the network's genome *)
Theorem C85_set_get n cs w : Forall (shaped n) cs -> length w = n -> Forall (fun ws => length ws = 4 * fan_in cs) w ->
  exists cs', setGenome n cs w = Ok cs' /\ getGenome n cs' = w /\ same_shape cs cs' /\ Forall (shaped n) cs'.
Proof.
  intros HS Lw HW. unfold setGenome. destruct (set_cells_spec n (seq 0 n) w cs) as (cs' & -> & HS' & Sh & _ & G);
    [apply seq_NoDup | intros c Hc; apply in_seq in Hc; lia | auto | |].
  - intros c Hc. apply in_seq in Hc. destruct (nth_error w c) as [ws |] eqn:E; [| apply nth_error_None in E; lia]. exists ws. split; [auto |].
    rewrite Forall_forall in HW. apply HW. eapply nth_error_In; eauto.
  - exists cs'. split; [auto |]. split; [| auto]. unfold getGenome. apply nth_ext with (d := []) (d' := []); [now rewrite map_length, seq_length |].
    intros c Hc. rewrite map_length, seq_length in Hc. rewrite (nth_indep _ [] (get_cell n cs' 0)) by (now rewrite map_length, seq_length). rewrite map_nth, seq_nth by auto.
    assert (Hin : In c (seq 0 n)) by (apply in_seq; lia). apply G in Hin. symmetry. now apply nth_error_nth.
Qed.
(** the genome holds every weight: networks of the same shape with the same genome have the same weights *)
Theorem C85_genome_determines n cs cs' : Forall (shaped n) cs -> Forall (shaped n) cs' -> same_shape cs cs' -> getGenome n cs = getGenome n cs' -> cs = cs'.
Proof.
  intros HS HS' Sh HG.
  assert (Cell : forall c, c < n -> get_cell n cs c = get_cell n cs' c).
  { intros c Hc. apply (f_equal (fun l => nth c l [])) in HG. unfold getGenome in HG.
    rewrite (nth_indep _ [] (get_cell n cs 0)), (nth_indep (map (get_cell n cs') _) [] (get_cell n cs' 0)) in HG by (now rewrite map_length, seq_length).
    rewrite !map_nth, !seq_nth in HG by auto. exact HG. }
  assert (HF : forall l r, length (flat_map (fun c0 => row c0 r) l) = fan_in l).
  { intros l r. unfold fan_in. clear. induction l as [| c l IH]; cbn [flat_map map list_sum fold_right length]; [auto |]. rewrite app_length, IH. unfold row. now rewrite map_length, seq_length. }
  assert (Fan : fan_in cs' = fan_in cs) by (unfold fan_in; now rewrite Sh).
  assert (App : forall (a b a' b' : list R), length a = length a' -> a ++ b = a' ++ b' -> a = a' /\ b = b').
  { clear. induction a as [| x a IH]; intros b [| x' a'] b' L E; try discriminate; [auto |]. cbn in *. injection E as -> E. destruct (IH b a' b') as [-> ->]; auto. }
  assert (Rows : forall t c, t < 4 -> c < n -> flat_map (fun x => row x (t * n + c)) cs = flat_map (fun x => row x (t * n + c)) cs').
  { intros t c Ht Hc. specialize (Cell c Hc). rewrite !get_cell_rows in Cell. cbn [seq flat_map] in Cell.
    apply App in Cell; [| now rewrite !HF]. destruct Cell as [C0 Cell]. apply App in Cell; [| now rewrite !HF]. destruct Cell as [C1 Cell].
    apply App in Cell; [| now rewrite !HF]. destruct Cell as [C2 Cell]. apply App in Cell; [| now rewrite !HF]. destruct Cell as [C3 _].
    destruct t as [| [| [| [| t]]]]; auto; lia. }
  assert (Each : forall r, r < 4 * n -> flat_map (fun x => row x r) cs = flat_map (fun x => row x r) cs').
  { intros r Hr. destruct (Nat.eq_dec n 0) as [-> |]; [lia |]. pose proof (Nat.div_mod r n ltac:(lia)) as E. pose proof (Nat.mod_upper_bound r n ltac:(lia)).
    assert (r / n < 4) by (apply Nat.div_lt_upper_bound; lia). replace r with (r / n * n + r mod n) by lia. apply Rows; auto. }
  clear Cell Rows HG Fan. revert cs' HS' Sh Each. induction cs as [| c cs IH]; intros [| c' cs'] HS' Sh Each; try discriminate; [auto |].
  inversion HS as [| ? ? H1 H2]; subst. inversion HS' as [| ? ? K1 K2]; subst. unfold same_shape in Sh. cbn [map] in Sh. injection Sh as Sh1 Sh2.
  assert (Split : forall r, r < 4 * n -> row c r = row c' r /\ flat_map (fun x => row x r) cs = flat_map (fun x => row x r) cs').
  { intros r Hr. specialize (Each r Hr). cbn [flat_map] in Each. apply App in Each; [auto |]. unfold row. rewrite !map_length, !seq_length. auto. }
  f_equal; [| apply IH; [auto | auto | auto | intros r Hr; now apply Split]].
  destruct c as [d p], c' as [d' p']. cbn [c_indim] in Sh1. subst d'. f_equal. unfold shaped in H1, K1. cbn [c_indim c_params] in H1, K1.
  apply nth_ext with (d := 0%R) (d' := 0%R); [congruence |]. intros j Hj. rewrite H1 in Hj.
  destruct (Nat.eq_dec d 0) as [-> |]; [lia |]. pose proof (Nat.div_mod j d ltac:(lia)) as E. pose proof (Nat.mod_upper_bound j d ltac:(lia)).
  assert (Hr : j / d < 4 * n) by (apply Nat.div_lt_upper_bound; lia). destruct (Split (j / d) Hr) as [K _]. unfold row in K. cbn [c_indim] in K.
  apply (f_equal (fun l => nth (j mod d) l 0%R)) in K.
  rewrite (nth_indep _ 0%R (weight {| c_indim := d; c_params := p |} (j / d) 0)), (nth_indep (map (weight {| c_indim := d; c_params := p' |} (j / d)) _) 0%R (weight {| c_indim := d; c_params := p' |} (j / d) 0)) in K by (now rewrite map_length, seq_length).
  rewrite !map_nth, !seq_nth in K by auto. unfold weight in K. cbn [c_indim c_params Nat.add] in K. replace (j / d * d + j mod d) with j in K by lia. exact K.
Qed.
(** where a weight is in the genome: chromosome [cell] holds, gate by gate and connection by connection, exactly the weights
    into the gate inputs of that cell *)
Theorem C85_genome_place n before c after cell t i : cell < n -> t < 4 -> i < c_indim c ->
  nth (t * fan_in (before ++ c :: after) + fan_in before + i) (nth cell (getGenome n (before ++ c :: after)) []) 0%R = weight c (t * n + cell) i.
Proof.
  intros Hc Ht Hi. unfold getGenome. rewrite (nth_indep _ [] (get_cell n (before ++ c :: after) 0)) by (now rewrite map_length, seq_length). rewrite map_nth, seq_nth by auto. cbn [Nat.add].
  rewrite get_cell_rows. set (cs := before ++ c :: after).
  assert (HF : forall l r, length (flat_map (fun c0 => row c0 r) l) = fan_in l).
  { intros l r. unfold fan_in. clear. induction l as [| c l IH]; cbn [flat_map map list_sum fold_right length]; [auto |]. rewrite app_length, IH. unfold row. now rewrite map_length, seq_length. }
  assert (Fan : fan_in before + c_indim c <= fan_in cs). { unfold cs, fan_in. rewrite map_app, list_sum_app. cbn [map list_sum fold_right]. lia. }
  assert (In_t : forall r, nth (fan_in before + i) (flat_map (fun x => row x r) cs) 0%R = weight c r i).
  { intros r. unfold cs. rewrite flat_map_app. rewrite app_nth2; rewrite HF; [| lia]. replace (fan_in before + i - fan_in before) with i by lia. cbn [flat_map].
    rewrite app_nth1 by (unfold row; rewrite map_length, seq_length; auto). unfold row. rewrite (nth_indep _ 0%R (weight c r 0)) by (now rewrite map_length, seq_length). now rewrite map_nth, seq_nth. }
  cbn [seq flat_map]. rewrite app_nil_r. fold cs.
  destruct t as [| [| [| [| t]]]]; [.. | lia].
  - rewrite app_nth1 by (rewrite HF; lia). cbn [Nat.mul Nat.add]. apply In_t.
  - rewrite app_nth2 by (rewrite HF; lia). rewrite HF. rewrite app_nth1 by (rewrite HF; lia). rewrite <- In_t. f_equal. lia.
  - rewrite app_nth2 by (rewrite HF; lia). rewrite HF. rewrite app_nth2 by (rewrite HF; lia). rewrite HF. rewrite app_nth1 by (rewrite HF; lia). rewrite <- In_t. f_equal. lia.
  - rewrite app_nth2 by (rewrite HF; lia). rewrite HF. rewrite app_nth2 by (rewrite HF; lia). rewrite HF. rewrite app_nth2 by (rewrite HF; lia). rewrite HF. rewrite <- In_t. f_equal. lia.
Qed.
