(** Property C42: tournaments. *)
From Verif Require Import Base Dict Tournament_Model.
From Coq Require Import QArith Qfield Lqa.
Local Open Scope nat_scope.

(** ** Spec *)
Definition recorded (t : tournament) (p1 p2 : nat) : list nat := match pget (p1, p2) (results t) with Some l => l | None => [] end.
Section Spec.
  Context {G M : Type} (over : G -> bool) (perform : G -> Z -> M -> G) (legal : G -> Z -> M -> bool) (forced : bool) (getAction : nat -> Z -> G -> nat -> M).
  (** a game from [g] to [g'] in which the players p (to move, with colour c) and q take turns with opposite colours, every
      move is an answer of the player to move, only unfinished games are continued, and only legal moves are made if that is
      asked for *)
  Inductive played : nat -> nat -> Z -> G -> list M -> G -> Prop :=
  | pl_end : forall p q c g, over g = true -> played p q c g [] g
  | pl_move : forall p q c g m ms g', over g = false -> (exists k, m = getAction p c g k) -> (forced = true -> legal g c m = true) ->
      played q p (- c) (perform g c m) ms g' -> played p q c g (m :: ms) g'.
End Spec.
(** the winner of a finished game between p1 (who has the starting colour) and p2 *)
Definition wins_first (w : option outcome) (startcolor : Z) : Prop := w = Some (Color startcolor).
Definition total (d : list (nat * Q)) : Q := fold_right (fun e s => (snd e + s)%Q) 0%Q d.
Definition rating (elo : nat -> option Q) (start : Q) (a : nat) : Q := match elo a with Some e => e | None => start end.
Definition qsum (l : list Q) : Q := fold_right Qplus 0%Q l.

(** ** Lemmas *)
Lemma pair_eqb_iff p q : pair_eqb p q = true <-> p = q.
Proof. destruct p, q. unfold pair_eqb. cbn [fst snd]. rewrite andb_true_iff, !Nat.eqb_eq. split; [intros [-> ->] | intros [= -> ->]]; auto. Qed.
Lemma pget_pset k v d k' : pget k' (pset k v d) = if pair_eqb k' k then Some v else pget k' d.
Proof.
  induction d as [| [a b] d IH]; cbn [pset pget]; [auto |]. destruct (pair_eqb k a) eqn:E; cbn [pget].
  - apply pair_eqb_iff in E. subst. destruct (pair_eqb k' a); auto.
  - rewrite IH. destruct (pair_eqb k' a) eqn:E1, (pair_eqb k' k) eqn:E2; auto. apply pair_eqb_iff in E1, E2. subst. rewrite (proj2 (pair_eqb_iff a a) eq_refl) in E. discriminate.
Qed.
Lemma NoDup_app_disj {A} (l1 l2 : list A) : NoDup l1 -> NoDup l2 -> (forall x, In x l1 -> In x l2 -> False) -> NoDup (l1 ++ l2).
Proof.
  induction l1 as [| x l1 IH]; intros N1 N2 H; cbn; [auto |]. inversion N1; subst. constructor.
  - rewrite in_app_iff. intros [|]; [auto | eapply H; [left; eauto | auto]].
  - apply IH; auto. intros y ? ?. eapply H; [right; eauto | auto].
Qed.
Lemma pairs_in agents a b : In (a, b) (produceAllPairs agents) <-> In a agents /\ In b agents /\ a <> b.
Proof.
  unfold produceAllPairs. rewrite in_flat_map. split.
  - intros (x & Hx & H). apply in_flat_map in H as (y & Hy & H). destruct (Nat.eqb_spec x y); [destruct H |]. destruct H as [[= <- <-] | []]. auto.
  - intros (Ha & Hb & Hne). exists a. split; [auto |]. apply in_flat_map. exists b. split; [auto |]. destruct (Nat.eqb_spec a b); [congruence | left; auto].
Qed.
Lemma row_map a l : flat_map (fun b => if a =? b then [] else [(a, b)]) l = map (fun b => (a, b)) (filter (fun b => negb (a =? b)) l).
Proof. induction l as [| b l IH]; cbn; [auto |]. destruct (a =? b); cbn; rewrite IH; auto. Qed.
Lemma NoDup_map_pair (a : nat) l : NoDup l -> NoDup (map (fun b : nat => (a, b)) l).
Proof. induction 1; cbn; constructor; auto. rewrite in_map_iff. intros (y & [= <-] & ?). auto. Qed.
Lemma filter_neq_length a l : NoDup l -> In a l -> length (filter (fun b => negb (a =? b)) l) = length l - 1.
Proof.
  induction l as [| b l IH]; intros N H; [destruct H |]. inversion N as [| ? ? Hb Hl]; subst. cbn [filter]. destruct (Nat.eqb_spec a b) as [-> | Hne]; cbn [negb].
  - replace (filter (fun b0 => negb (b =? b0)) l) with l; [cbn; lia |]. clear - Hb. induction l as [| c l IH]; cbn; [auto |]. destruct (Nat.eqb_spec b c) as [-> |]; [destruct Hb; left; auto |]. cbn. f_equal. apply IH. intros ?; apply Hb; right; auto.
  - destruct H as [| H]; [congruence |]. cbn [length]. rewrite IH by auto. destruct l; [destruct H | cbn; lia].
Qed.

(** ** C42 *)
(** the pairs: every ordered pair of different agents, once *)
Theorem C42_pairs agents : NoDup agents ->
  NoDup (produceAllPairs agents) /\ (forall a b, In (a, b) (produceAllPairs agents) <-> In a agents /\ In b agents /\ a <> b) /\
  length (produceAllPairs agents) = length agents * (length agents - 1).
Proof.
  intros N. split; [| split; [intros; apply pairs_in |]].
  - unfold produceAllPairs. assert (HG : forall l, NoDup l -> NoDup (flat_map (fun a => flat_map (fun b => if a =? b then [] else [(a, b)]) agents) l)); [| auto].
    induction 1 as [| a l Ha Hl IH]; cbn [flat_map]; [constructor |]. apply NoDup_app_disj; [| auto |].
    + rewrite row_map. apply NoDup_map_pair. now apply NoDup_filter.
    + intros [x y] H1 H2. rewrite row_map in H1. apply in_map_iff in H1 as (z & [= -> ->] & _). apply in_flat_map in H2 as (x' & Hx' & H2). rewrite row_map in H2. apply in_map_iff in H2 as (z' & [= -> _] & _). auto.
  - unfold produceAllPairs. assert (HG : forall l, incl l agents -> length (flat_map (fun a => flat_map (fun b => if a =? b then [] else [(a, b)]) agents) l) = length l * (length agents - 1)); [| apply HG; apply incl_refl].
    induction l as [| a l IH]; intros HI; cbn [flat_map length]; [auto |]. rewrite app_length, IH by (intros ? ?; apply HI; right; auto). rewrite row_map, map_length, filter_neq_length; [lia | auto |]. apply HI. left. auto.
Qed.

Section Games.
  Context {G M : Type} (g0 : G) (over : G -> bool) (winner : G -> option outcome) (perform : G -> Z -> M -> G) (legal : G -> Z -> M -> bool).
  Context (startcolor : Z) (forced : bool) (getAction : nat -> Z -> G -> nat -> M) (fuel : nat).
  Let oneGame := oneGame g0 over winner perform legal startcolor forced getAction fuel.
  Let play_pairs := play_pairs g0 over winner perform legal startcolor forced getAction fuel.
  Let organize := organize g0 over winner perform legal startcolor forced getAction fuel.

  Lemma redraw_spec left p c g k act mv : (exists k0, act = getAction p c g k0) -> redraw legal getAction left p c g k act = Ok mv -> legal g c (fst mv) = true /\ exists k', fst mv = getAction p c g k'.
  Proof.
    revert k act; induction left as [| l IH]; intros k act; cbn [redraw]; destruct (legal g c act) eqn:E; intros Ha H; try discriminate; try (injection H as <-; auto; fail). eapply IH; [| exact H]. eauto.
  Qed.
  Lemma game_loop_spec f p c q k g e : game_loop over perform legal forced getAction f p c q k g = Ok e ->
    exists ms, played over perform legal forced getAction p q c g ms (fst e).
  Proof.
    revert p c q k g; induction f as [| f IH]; intros p c q k g; cbn [game_loop]; destruct (over g) eqn:E; intros H; try discriminate; try (injection H as <-; exists []; now constructor).
    destruct forced eqn:EF.
    - destruct (redraw _ _ _ _ _ _ _ _) as [mv |] eqn:ER; [| discriminate]. cbn [rbind] in H. apply IH in H as (ms & H). exists (fst mv :: ms). apply redraw_spec in ER as [R1 R2]; [| eauto]. constructor; auto.
    - cbn [rbind] in H. apply IH in H as (ms & H). eexists (_ :: ms). constructor; eauto. discriminate.
  Qed.
  (** one game: played by the rules with alternating colours, p1 beginning; the recorded winner is p1 iff the winning colour is p1's *)
  Theorem C42_game t p1 p2 t' : oneGame t p1 p2 = Ok t' ->
    exists ms g w, played over perform legal forced getAction p1 p2 startcolor g0 ms g /\
      recorded t' p1 p2 = recorded t p1 p2 ++ [w] /\ (forall a b, (a, b) <> (p1, p2) -> pget (a, b) (results t') = pget (a, b) (results t)) /\
      numGames t' = numGames t + 1 /\ rounds t' = rounds t /\
      (wins_first (winner g) startcolor /\ w = p1 \/ ~ wins_first (winner g) startcolor /\ w = p2).
  Proof.
    unfold oneGame, Tournament_Model.oneGame. destruct (game_loop _ _ _ _ _ _ _ _ _ _ _) as [[g k] |] eqn:E; [| discriminate]. cbn [rbind fst snd]. intros [= <-].
    apply game_loop_spec in E as (ms & Hp). cbn [fst] in Hp. exists ms, g. eexists. split; [auto |]. unfold recorded. cbn [results numGames rounds]. rewrite pget_pset, (proj2 (pair_eqb_iff (p1, p2) (p1, p2)) eq_refl).
    split; [reflexivity |]. split; [| split; [auto |]; split; [auto |]].
    - intros a b Hne. rewrite pget_pset. destruct (pair_eqb (a, b) (p1, p2)) eqn:E; [apply pair_eqb_iff in E; congruence | auto].
    - unfold wins_first. destruct (winner g) as [[c |] |]; [destruct (Z.eqb_spec c startcolor) as [-> |] | |]; auto; right; split; auto; congruence.
  Qed.
  Lemma play_pairs_spec ps : NoDup ps -> forall t t', play_pairs t ps = Ok t' ->
    (forall a b, In (a, b) ps -> exists w, recorded t' a b = recorded t a b ++ [w] /\ (w = a \/ w = b)) /\
    (forall a b, ~ In (a, b) ps -> pget (a, b) (results t') = pget (a, b) (results t)) /\
    (forall a b, In (a, b) ps -> pget (a, b) (results t') <> None) /\
    numGames t' = numGames t + length ps /\ rounds t' = rounds t.
  Proof.
    induction 1 as [| [p1 p2] ps Hnin N IH]; intros t t' H; unfold play_pairs in *; cbn [Tournament_Model.play_pairs] in H.
    - injection H as <-. split; [intros ? ? [] |]. split; [auto |]. split; [intros ? ? [] |]. split; [cbn; lia | auto].
    - fold oneGame in H. destruct (oneGame t p1 p2) as [t1 |] eqn:E; [| discriminate]. cbn [rbind] in H. destruct (IH t1 t' H) as (A & B & D & C & R).
      destruct (C42_game _ _ _ _ E) as (ms & g & w & _ & E1 & E2 & E3 & E4 & E5). split; [| split; [| split; [| split; [cbn [length]; lia | congruence]]]].
      + intros a b [[= <- <-] | Hin].
        * exists w. split; [| destruct E5 as [[_ ->] | [_ ->]]; auto]. unfold recorded at 1. rewrite B by auto. apply E1.
        * destruct (A a b Hin) as (w' & E' & Hw'). exists w'. split; [| auto]. rewrite E'. f_equal. unfold recorded. rewrite E2; [auto |]. intros [= -> ->]. auto.
      + intros a b Hnin'. rewrite B by (intros ?; apply Hnin'; right; auto). apply E2. intros [= -> ->]. apply Hnin'. left. auto.
      + intros a b [[= <- <-] | Hin]; [| auto]. rewrite B by auto. unfold recorded in E1. destruct (pget (p1, p2) (results t1)); [congruence |]. destruct (match pget (p1, p2) (results t) with Some l => l | None => [] end); discriminate.
  Qed.
  (** a whole tournament: every ordered pair of different agents plays exactly once per round *)
  Theorem C42_organize agents n t t' : NoDup agents -> organize t agents n = Ok t' ->
    (forall a b, In a agents -> In b agents -> a <> b -> exists ws, recorded t' a b = recorded t a b ++ ws /\ length ws = n /\ Forall (fun w => w = a \/ w = b) ws) /\
    (forall a b, ~ (In a agents /\ In b agents /\ a <> b) -> pget (a, b) (results t') = pget (a, b) (results t)) /\
    (0 < n -> forall a b, In a agents -> In b agents -> a <> b -> pget (a, b) (results t') <> None) /\
    rounds t' = rounds t + n /\ numGames t' = numGames t + n * (length agents * (length agents - 1)).
  Proof.
    intros N. destruct (C42_pairs agents N) as (NP & HP & HL). revert t; induction n as [| n IH]; intros t H; unfold organize in *; cbn [Tournament_Model.organize] in H.
    - injection H as <-. split; [intros; exists []; rewrite app_nil_r; auto |]. split; [auto |]. split; [lia |]. split; lia.
    - fold play_pairs in H. destruct (play_pairs _ _) as [t1 |] eqn:E; [| discriminate]. cbn [rbind] in H. destruct (IH t1 H) as (A & B & D & R & C).
      destruct (play_pairs_spec _ NP _ _ E) as (A1 & B1 & D1 & C1 & R1). cbn [numGames rounds results] in *. split; [| split; [| split; [| split; [lia | rewrite C, C1, HL; lia]]]].
      + intros a b Ha Hb Hne. destruct (A a b Ha Hb Hne) as (ws & Ew & Lw & Fw). destruct (A1 a b) as (w & E1 & Hw); [apply HP; auto |]. exists (w :: ws).
        split; [rewrite Ew, E1, <- app_assoc; reflexivity |]. split; [cbn; lia |]. constructor; auto.
      + intros a b Hn. rewrite B by auto. apply B1. rewrite HP. auto.
      + intros _ a b Ha Hb Hne. destruct n; [| apply D; auto; lia]. cbn in H. injection H as <-. apply D1. apply HP. auto.
  Qed.
  (** draws: if no finished game has a winner by colour, every game counts as won by the second player *)
  Theorem C42_draws_refuted agents n t t' : (forall g, over g = true -> winner g = Some Draw) -> NoDup agents -> organize t agents n = Ok t' ->
    forall a b, In a agents -> In b agents -> a <> b -> recorded t' a b = recorded t a b ++ repeat b n.
  Proof.
    intros HD N. destruct (C42_pairs agents N) as (NP & HP & HL).
    assert (H1 : forall ps, NoDup ps -> forall t t', play_pairs t ps = Ok t' -> forall a b, In (a, b) ps -> recorded t' a b = recorded t a b ++ [b]).
    { clear t t'. induction 1 as [| [p1 p2] ps Hnin Np IH]; intros t t' H a b; [intros [] |]. unfold play_pairs in *. cbn [Tournament_Model.play_pairs] in H. fold oneGame in H.
      destruct (oneGame t p1 p2) as [t1 |] eqn:E; [| discriminate]. cbn [rbind] in H. destruct (C42_game _ _ _ _ E) as (ms & g & w & Hg & E1 & E2 & E3 & E4 & E5).
      assert (w = p2). { destruct E5 as [[W _] | [_ ->]]; [| auto]. unfold wins_first in W. rewrite HD in W; [discriminate |]. clear - Hg. induction Hg; auto. }
      subst w. intros [[= <- <-] | Hin].
      - destruct (play_pairs_spec ps Np t1 t' H) as (_ & B & _). unfold recorded at 1. rewrite B by auto. apply E1.
      - rewrite (IH t1 t' H a b Hin). f_equal. unfold recorded. rewrite E2; auto. intros [= -> ->]. auto. }
    revert t; induction n as [| n IH]; intros t H a b Ha Hb Hne; unfold organize in *; cbn [Tournament_Model.organize] in H.
    - injection H as <-. cbn. now rewrite app_nil_r.
    - fold play_pairs in H. destruct (play_pairs _ _) as [t1 |] eqn:E; [| discriminate]. cbn [rbind] in H. rewrite (IH t1 H a b Ha Hb Hne), (H1 _ NP _ _ E a b) by (apply HP; auto).
      rewrite <- app_assoc. reflexivity.
  Qed.
End Games.

Section EloProps.
  Context (pow10 : Q -> Q) (start k : Q).
  Let eloScore := eloScore pow10 start k.
  Lemma total_dset a v d e : dget a d = Some e -> NoDup (dkeys d) -> (total (dset a v d) == total d - e + v)%Q.
  Proof.
    induction d as [| [a' e'] d IH]; cbn [dget dset]; [discriminate |]. intros H N. inversion N; subst. destruct (Nat.eqb_spec a a') as [-> |].
    - injection H as ->. cbn [total fold_right snd]. fold (total d). lra.
    - cbn [total fold_right snd]. fold (total d). fold (total (dset a v d)). rewrite IH by auto. lra.
  Qed.
  Lemma initial_spec elo agents : NoDup agents -> initial_elos start elo agents = map (fun a => (a, rating elo start a)) agents.
  Proof.
    intros N. unfold initial_elos. assert (HG : forall l d, NoDup (dkeys d ++ l) -> fold_left (fun d a => dset a (rating elo start a) d) l d = d ++ map (fun a => (a, rating elo start a)) l).
    { clear. induction l as [| a l IH]; intros d N; cbn [fold_left map]; [now rewrite app_nil_r |].
      assert (Hd : dset a (rating elo start a) d = d ++ [(a, rating elo start a)]).
      { assert (Hn : ~ In a (dkeys d)). { apply NoDup_remove_2 in N. rewrite in_app_iff in N. tauto. } clear - Hn. induction d as [| [x y] d IH]; cbn [dset app]; [auto |]. destruct (Nat.eqb_spec a x) as [-> |]; [destruct Hn; left; auto |]. f_equal. apply IH. intros ?; apply Hn; right; auto. }
      rewrite IH; rewrite Hd; [now rewrite <- app_assoc |]. unfold dkeys. rewrite map_app, <- app_assoc. exact N. }
    exact (HG agents [] N).
  Qed.
  Lemma elo_step_spec res d p d' : NoDup (dkeys d) -> elo_step pow10 k res d p = Ok d' -> fst p <> snd p -> dkeys d' = dkeys d /\ (total d' == total d)%Q.
  Proof.
    destruct p as [a1 a2]. cbn [fst snd elo_step]. intros N H Hne. destruct (pget (a1, a2) res) as [o1 |]; [| discriminate]. destruct (pget (a2, a1) res) as [o2 |]; [| discriminate].
    destruct (dget a1 d) as [e1 |] eqn:E1; [| discriminate]. destruct (dget a2 d) as [e2 |] eqn:E2; [| discriminate]. rewrite dget_dset in H. destruct (Nat.eqb_spec a2 a1); [congruence |]. rewrite E2 in H. injection H as <-.
    assert (K1 : In a1 (dkeys d)) by (apply dget_keys; eauto). assert (K2 : In a2 (dkeys d)) by (apply dget_keys; eauto).
    assert (KK : forall v, dkeys (dset a1 v d) = dkeys d) by (intros; now apply dkeys_dset_in). split.
    - rewrite dkeys_dset_in; rewrite KK; auto.
    - rewrite (total_dset a2 _ _ e2); [| rewrite dget_dset; destruct (Nat.eqb_spec a2 a1); [congruence | auto] | rewrite KK; auto].
      rewrite (total_dset a1 _ _ e1) by auto. lra.
  Qed.
  Lemma elo_pairs_in agents a b : NoDup agents -> In (a, b) (elo_pairs agents) -> In a agents /\ In b agents /\ a <> b.
  Proof.
    induction 1 as [| x l Hx N IH]; cbn [elo_pairs]; [intros [] |]. rewrite in_app_iff. intros [H | H].
    - apply in_map_iff in H as (y & [= <- <-] & Hy). cbn. split; [auto |]. split; [auto |]. intros ->. auto.
    - destruct (IH H) as (? & ? & ?). cbn; auto.
  Qed.
  (** every agent is rated, and what one wins the other loses: the total rating is that of the beginning *)
  Theorem C42_elo_conserved elo agents res d : NoDup agents -> eloScore elo agents res = Ok d ->
    dkeys d = agents /\ (total d == qsum (map (rating elo start) agents))%Q.
  Proof.
    intros N. unfold eloScore, Tournament_Model.eloScore. rewrite initial_spec by auto.
    assert (HG : forall ps d0, (forall a b, In (a, b) ps -> a <> b) -> NoDup (dkeys d0) -> elo_loop pow10 k res d0 ps = Ok d -> dkeys d = dkeys d0 /\ (total d == total d0)%Q).
    { induction ps as [| p ps IH]; intros d0 Hne Nd H; cbn [elo_loop] in H; [injection H as ->; split; [auto | lra] |].
      destruct (elo_step pow10 k res d0 p) as [d1 |] eqn:E; [| discriminate]. cbn [rbind] in H. destruct (elo_step_spec _ _ _ _ Nd E) as [K T].
      { destruct p as [a b]. apply (Hne a b). left. auto. }
      destruct (IH d1) as [K' T']; [intros; apply Hne; right; auto | rewrite K; auto | auto |]. split; [congruence | rewrite T'; auto]. }
    intros H. apply HG in H as [K T]; [| intros a b Hab; now apply elo_pairs_in in Hab | unfold dkeys; rewrite map_map; cbn; now rewrite map_id].
    split; [rewrite K; unfold dkeys; rewrite map_map; cbn; apply map_id |]. rewrite T. clear. induction agents as [| a l IH]; cbn; [reflexivity |]. rewrite IH. reflexivity.
  Qed.
  (** it works after at least one round *)
  Theorem C42_elo_total elo agents res : NoDup agents -> (forall a b, In a agents -> In b agents -> a <> b -> pget (a, b) res <> None) ->
    exists d, eloScore elo agents res = Ok d.
  Proof.
    intros N HR. unfold eloScore, Tournament_Model.eloScore. rewrite initial_spec by auto.
    assert (HG : forall ps d0, (forall a b, In (a, b) ps -> In a agents /\ In b agents /\ a <> b) -> (forall a, In a agents -> exists e, dget a d0 = Some e) -> exists d, elo_loop pow10 k res d0 ps = Ok d).
    { induction ps as [| [a b] ps IH]; intros d0 Hps Hd; cbn [elo_loop]; [eauto |]. destruct (Hps a b (or_introl eq_refl)) as (Ha & Hb & Hne). cbn [elo_step].
      destruct (pget (a, b) res) eqn:E1; [| destruct (HR a b); auto]. destruct (pget (b, a) res) eqn:E2; [| destruct (HR b a); auto].
      destruct (Hd a Ha) as (e1 & D1). destruct (Hd b Hb) as (e2 & D2). rewrite D1, D2, dget_dset. destruct (Nat.eqb_spec b a); [congruence |]. rewrite D2. cbn [rbind]. apply IH; [intros; apply Hps; right; auto |].
      intros x Hx. rewrite !dget_dset. destruct (x =? b); [eauto |]. destruct (x =? a); eauto. }
    apply HG; [intros; now apply elo_pairs_in |]. intros a Ha. apply dget_keys. unfold dkeys. rewrite map_map. cbn. now rewrite map_id.
  Qed.
  (** two agents: whoever wins all the games gains, the other loses as much; so asking twice for the ratings of the same games changes them *)
  Theorem C42_elo_direction elo a b o1 o2 : (forall x, 0 < pow10 x)%Q -> (0 < k)%Q -> a <> b -> o1 ++ o2 <> [] -> Forall (eq a) (o1 ++ o2) ->
    let res := [((a, b), o1); ((b, a), o2)] in
    exists e1 e2, eloScore elo [a; b] res = Ok [(a, e1); (b, e2)] /\ (rating elo start a < e1)%Q /\ (e2 < rating elo start b)%Q /\ (e1 + e2 == rating elo start a + rating elo start b)%Q.
  Proof.
    intros HP Hk Hne Hn HF. cbv zeta. set (n := inject_Z (Z.of_nat (length (o1 ++ o2)))).
    assert (Hs : (score a (o1 ++ o2) == n)%Q).
    { unfold score, n. revert HF. generalize (o1 ++ o2). clear. intros l H. assert (HG : forall s, (fold_left (fun s r => if r =? a then s + 1 else s) l s == s + inject_Z (Z.of_nat (length l)))%Q).
      { induction H as [| x l <- _ IH]; intros s; cbn [fold_left length]; [change (inject_Z (Z.of_nat 0)) with 0%Q; lra |]. rewrite Nat.eqb_refl, IH, Nat2Z.inj_succ. unfold Z.succ. rewrite inject_Z_plus. change (inject_Z 1) with 1%Q. lra. }
      rewrite HG. lra. }
    assert (Hn0 : (0 < n)%Q). { unfold n. change 0%Q with (inject_Z 0). rewrite <- Zlt_Qlt. destruct (o1 ++ o2); [congruence | cbn; lia]. }
    unfold eloScore, Tournament_Model.eloScore. rewrite initial_spec by (repeat constructor; cbn; intuition). cbn [map elo_pairs app elo_loop elo_step].
    assert (Eab : (a =? b) = false) by now apply Nat.eqb_neq. assert (Eba : (b =? a) = false) by (apply Nat.eqb_neq; auto).
    unfold pair_eqb. repeat (cbn [pget pair_eqb fst snd andb dget dset rbind]; unfold pair_eqb; rewrite ?Nat.eqb_refl, ?Eab, ?Eba). cbn [fst snd andb rbind].
    do 2 eexists. split; [reflexivity |]. fold n. rewrite Hs. set (x := ((rating elo start b - rating elo start a) / 400)%Q). pose proof (HP x) as Hx.
    assert (Hd : (0 < k * (n - n / (1 + pow10 x)))%Q).
    { apply Qmult_lt_0_compat; [auto |]. assert ((n - n / (1 + pow10 x) == n * (pow10 x / (1 + pow10 x)))%Q) as -> by (field; lra). apply Qmult_lt_0_compat; [auto |]. apply Qlt_shift_div_l; lra. }
    split; [lra |]. split; lra.
  Qed.
End EloProps.

(** a concrete game: one move decides it, move m is won by colour m (0: draw) *)
Definition toy_organize := @organize (option Z) Z None (fun g => match g with Some _ => true | None => false end)
  (fun g => match g with Some 0%Z => Some Draw | Some c => Some (Color c) | None => None end) (fun _ _ m => Some m) (fun _ _ m => Z.leb m 1) 1 true (fun p c g k => Z.of_nat (k mod 3) - Z.of_nat p)%Z 5.
Example C42_case : exists t, toy_organize (fresh 0) [0; 1; 2] 2 = Ok t /\ numGames t = 12 /\ rounds t = 2 /\ recorded t 0 1 = [1; 1] /\ recorded t 2 0 = [0; 0] /\ recorded t 1 2 = [2; 2] /\ recorded t 0 2 = [0; 0].
Proof. eexists. split; [vm_compute; reflexivity |]. vm_compute. auto 10. Qed.
Example C42_elo_case : exists e1 e2, eloScore (fun _ => 1%Q) 1500 32 (fun _ => None) [7; 3] [((7, 3), [7; 7]); ((3, 7), [7; 7])] = Ok [(7, e1); (3, e2)] /\ (e1 == 1564)%Q /\ (e2 == 1436)%Q.
Proof. do 2 eexists. split; [vm_compute; reflexivity |]. split; vm_compute; reflexivity. Qed.

Print Assumptions C42_pairs. Print Assumptions C42_game. Print Assumptions C42_organize. Print Assumptions C42_draws_refuted. Print Assumptions C42_elo_conserved. Print Assumptions C42_elo_total. Print Assumptions C42_elo_direction.
