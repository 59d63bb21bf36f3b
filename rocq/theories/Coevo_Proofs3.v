From Coq Require Import QArith Qround Permutation Lia Sorting.Sorted Lqa Qabs.
From Verif Require Import Base StableSort Dict Coevo_Model Coevo_Spec Coevo_Proofs Coevo_Proofs2.

Lemma Qle_bool_comp a b : (a == b)%Q -> Qle_bool a 0 = Qle_bool b 0.
Proof.
  intro E. destruct (Qle_bool a 0) eqn:A, (Qle_bool b 0) eqn:B; auto.
  - apply Qle_bool_iff in A. rewrite E in A. apply Qle_bool_iff in A. congruence.
  - apply Qle_bool_iff in B. rewrite <- E in B. apply Qle_bool_iff in B. congruence.
Qed.
Lemma Qeq_bool_comp a b : (a == b)%Q -> Qeq_bool a 0 = Qeq_bool b 0.
Proof.
  intro E. destruct (Qeq_bool a 0) eqn:A, (Qeq_bool b 0) eqn:B; auto.
  - apply Qeq_bool_iff in A. rewrite E in A. apply Qeq_bool_iff in A. congruence.
  - apply Qeq_bool_iff in B. rewrite <- E in B. apply Qeq_bool_iff in B. congruence.
Qed.
Lemma empirical_winsb L h p : rounds L -> negb (Qle_bool (empirical L h p) 0) = winsb L h p.
Proof. intro R. unfold winsb. f_equal. apply Qle_bool_comp. apply empirical_mean. exact R. Qed.
Lemma empirical_undecided L h p : rounds L -> Qeq_bool (empirical L h p) 0 = undecided L h p.
Proof. intro R. unfold undecided. apply Qeq_bool_comp. apply empirical_mean. exact R. Qed.
Lemma winsb_Wins L h p : winsb L h p = true <-> Wins L h p.
Proof. unfold winsb, Wins. apply negb_Qle. Qed.
Lemma mixAbs_comp c p a b : (a == b)%Q -> (mixAbs c p a == mixAbs c p b)%Q.
Proof. intro E. unfold mixAbs. destruct (c_abs c); [|auto]. destruct (Qle_bool _ _); auto. rewrite E. reflexivity. Qed.
Lemma filter_map_length {A} (f : A -> bool) l : length (filter (fun b => b) (map f l)) = length (filter f l).
Proof. induction l as [|x l IH]; cbn [map filter]; [reflexivity|]. destruct (f x); cbn [length]; congruence. Qed.

Lemma Forall2_combine {A B C} (R1 : A -> B -> Prop) (R2 : A -> C -> Prop) {D} (R : A -> D -> Prop) (g : B * C -> D) l f1 f2 :
  Forall2 R1 l f1 -> Forall2 R2 l f2 -> (forall p a b, R1 p a -> R2 p b -> R p (g (a, b))) -> Forall2 R l (map g (combine f1 f2)).
Proof.
  intro H. revert f2. induction H as [|p a l f1 Ha _ IH]; intros f2 H2 Hg.
  - constructor.
  - inversion H2 as [|? b ? f2' Hb Hr]; subst. cbn [combine map]. constructor; auto.
Qed.

Section S.
Context {P : Type} (ev : nat -> nat -> nat -> Q) (d : nat -> nat) (c : cfg).
Notation st := (@st P).
Notation good := (good ev).
Notation play := (play ev).
Lemma beatSum_spec L (s : st) p opps f : good L s -> exists q, beatSum s p opps f = Ok q /\ (q == f + relativeSum L opps p)%Q.
Proof.
  intros G. pose proof G as (_ & R & _). revert f. induction opps as [|o t IH]; intro f; cbn [beatSum].
  - exists f. split; [reflexivity|]. unfold relativeSum. change (qsum (map (meanScore L p) [])) with 0%Q. ring.
  - rewrite (beats_spec _ _ _ _ _ G). cbn [rbind]. destruct (IH (f + empirical L p o)%Q) as (q & E & Hq). exists q. split; [exact E|].
    rewrite Hq. unfold relativeSum. cbn [map]. rewrite qsum_cons, (empirical_mean _ _ _ R). ring.
Qed.
Lemma rmap_forall2 {A B} (f : A -> result B) (Rl : A -> B -> Prop) l : (forall x, In x l -> exists y, f x = Ok y /\ Rl x y) -> exists ys, rmap f l = Ok ys /\ Forall2 Rl l ys.
Proof.
  induction l as [|x l IH]; intro H; cbn [rmap].
  - exists []. split; [reflexivity|constructor].
  - destruct (H x) as (y & E & Hy); [left; reflexivity|]. rewrite E. cbn [rbind].
    destruct IH as (ys & Es & Hs); [intros; apply H; right; auto|]. rewrite Es. cbn [rbind]. exists (y :: ys). split; [reflexivity|constructor; auto].
Qed.
Lemma good_rounds L (s : st) : good L s -> rounds L.
Proof. intros (_ & R & _). exact R. Qed.

(** ** one population *)
Definition baseFitness (L : list game) (opps hf : list nat) (p : nat) : Q := mixAbs c p (relativeSum L opps p + relativeSum L hf p)%Q.
Lemma nodup_perm_In (l m : list nat) x : Permutation (nodup Nat.eq_dec l) m -> (In x m <-> In x l).
Proof.
  intro H. rewrite <- (nodup_In Nat.eq_dec l x). split; apply Permutation_in; [symmetry; exact H|exact H].
Qed.
Lemma evaluateBase_spec L (s : st) : good L s -> NoDup (pop s) -> NoDup (last (oldPops s) []) -> hofTournSize c s <= tournamentSize c ->
  (c_shared c = true -> tournamentSize c - hofTournSize c s <= length (pop s)) ->
  exists fits s' rs L' opps hf,
    evaluateBase ev d c s = Ok (fits, s') /\ play s rs s' /\ good L' s' /\ ledger_of L rs L'
    /\ (if c_shared c then greedy (Wins L) (gscore s) (tournamentSize c - hofTournSize c s) (pop s) (last (oldPops s) []) opps else opps = pop s)
    /\ (if Nat.ltb 0 (hofTournSize c s) then Permutation (nodup Nat.eq_dec (hof s)) hf else hf = [])
    /\ (exists r1 r2, rs = r1 ++ r2 /\ schedule opps (Nat.min (tournamentSize c - hofTournSize c s) (length opps)) (pop s) r1
        /\ schedule hf (hofTournSize c s) (pop s) r2)
    /\ Forall2 (fun p f => (f == baseFitness L' opps hf p)%Q) (pop s) fits.
Proof.
  intros G Np No Hh Hsh. unfold evaluateBase. set (h := hofTournSize c s) in *. destruct (Nat.ltb_spec (tournamentSize c) h) as [?|_]; [lia|].
  set (t := tournamentSize c - h) in *.
  assert (Hopp : exists opps m, (if c_shared c then sharedSampling d t (pop s) (last (oldPops s) []) s else Ok (pop s, s)) = Ok (opps, tick m s)
    /\ (if c_shared c then greedy (Wins L) (gscore s) t (pop s) (last (oldPops s) []) opps else opps = pop s)).
  { destruct (c_shared c).
    - destruct (proj1 (shared_spec ev d L t (pop s) (last (oldPops s) []) s G Np No) (Hsh eq_refl)) as (res & m & E & Hg). eauto.
    - exists (pop s), 0. split; [|reflexivity]. f_equal. f_equal. unfold tick. rewrite Nat.add_0_r. destruct s; reflexivity. }
  destruct Hopp as (opps & m & E & Ho). rewrite E. cbn [rbind]. clear E.
  destruct (tournament_play ev d (pop s) opps (Nat.min t (length opps)) (tick m s)) as (r1 & Hs1 & Hp1).
  set (s2 := doTournament ev d (pop s) opps (Nat.min t (length opps)) (tick m s)) in *.
  apply (play_tick _ s m) in Hp1. pose proof (play_frame _ _ _ _ Hp1) as F1.
  assert (Hhf : exists hf s4 r2, (if 0 <? h then let '(hf, s3) := shuffle d (nodup Nat.eq_dec (hof s2)) s2 in (hf, doTournament ev d (pop s) hf h s3) else ([], s2)) = (hf, s4)
     /\ play s2 r2 s4 /\ schedule hf h (pop s) r2 /\ (if 0 <? h then Permutation (nodup Nat.eq_dec (hof s)) hf else hf = [])).
  { destruct (Nat.ltb_spec 0 h) as [Hpos|Hz].
    - unfold shuffle. pose proof (shuffled_perm (stream d s2) (nodup Nat.eq_dec (hof s2))) as Hpm.
      set (hf := shuffled (stream d s2) (nodup Nat.eq_dec (hof s2))) in *.
      destruct (tournament_play ev d (pop s) hf h (tick (length (nodup Nat.eq_dec (hof s2))) s2)) as (r2 & Hs2 & Hp2).
      apply play_tick in Hp2. eexists hf, _, r2. split; [reflexivity|]. split; [exact Hp2|]. split; [exact Hs2|].
      replace (hof s) with (hof s2) by apply F1. exact Hpm.
    - exists [], s2, []. split; [reflexivity|]. split; [constructor|]. split; [|reflexivity].
      clear. induction (pop s) as [|p l IH]; [constructor|]. change (@nil (nat * nat)) with (map (pair p) (@nil nat) ++ []). constructor; auto.
      split; [cbn; lia|]. exists []. reflexivity. }
  destruct Hhf as (hf & s4 & r2 & E & Hp2 & Hs2 & Hhf). rewrite E. clear E.
  pose proof (play_app _ _ _ _ _ _ Hp1 Hp2) as Hp. destruct (play_good _ _ _ _ _ Hp G) as (L' & G' & HL).
  destruct (rmap_forall2 (fun p => let! f := beatSum s4 p opps 0%Q in let! g := beatSum s4 p hf f in Ok (mixAbs c p g))
    (fun p f => (f == baseFitness L' opps hf p)%Q) (pop s)) as (fits & E & HF).
  { intros p _. destruct (beatSum_spec L' s4 p opps 0%Q G') as (q & E1 & H1). rewrite E1. cbn [rbind].
    destruct (beatSum_spec L' s4 p hf q G') as (q2 & E2 & H2). rewrite E2. cbn [rbind]. eexists. split; [reflexivity|].
    unfold baseFitness. apply mixAbs_comp. rewrite H2, H1. ring. }
  rewrite E. cbn [rbind]. exists fits, s4, (r1 ++ r2), L', opps, hf. repeat (split; [solve [auto]|]). split; [|exact HF]. exists r1, r2. auto.
Qed.

(** ** competitive *)
Lemma beatCount_spec L (s : st) hosts p : good L s -> beatCount s hosts p = Ok (beatenByHosts L hosts p).
Proof.
  intro G. unfold beatCount. rewrite (rmap_ok _ (fun h => negb (Qle_bool (empirical L h p) 0))) by (intros; apply (positive_spec ev); auto).
  cbn [rbind]. rewrite filter_map_length. unfold beatenByHosts. f_equal. f_equal. apply filter_ext. intro h. apply empirical_winsb. eapply good_rounds; eauto.
Qed.
Lemma beatenBy_pos L hosts h p : In h hosts -> winsb L h p = true -> 0 < beatenByHosts L hosts p.
Proof.
  intros H W. unfold beatenByHosts. assert (In h (filter (fun h => winsb L h p) hosts)) as Hf by (apply filter_In; auto).
  destruct (filter _ hosts); [destruct Hf|cbn [length]; lia].
Qed.
Lemma shares_spec L (s : st) hosts h ps : good L s -> In h hosts ->
  exists q, shares s hosts h ps = Ok (q, length (filter (undecided L h) ps)) /\ (q == shareOf L hosts ps h)%Q.
Proof.
  intros G Hin. pose proof (good_rounds _ _ G) as R. induction ps as [|p t IH]; cbn [shares].
  - exists 0%Q. split; reflexivity.
  - rewrite (beats_spec _ _ _ _ _ G). cbn [rbind]. rewrite (beatCount_spec _ _ _ _ G). cbn [rbind].
    destruct IH as (q & E & Hq). rewrite E. cbn [rbind fst snd]. rewrite (empirical_winsb _ _ _ R), (empirical_undecided _ _ _ R).
    unfold shareOf. cbn [map filter]. destruct (winsb L h p) eqn:W.
    + pose proof (beatenBy_pos _ _ _ _ Hin W) as Hpos. destruct (Nat.eqb_spec (beatenByHosts L hosts p) 0); [lia|].
      assert (U : undecided L h p = false).
      { destruct (undecided L h p) eqn:U; [|reflexivity]. apply Qeq_bool_iff in U. apply winsb_Wins in W. unfold Wins in W. lra. }
      rewrite U. eexists. split; [reflexivity|]. rewrite qsum_cons, Hq. reflexivity.
    + destruct (undecided L h p) eqn:U; cbn [length].
      * exists q. split; [reflexivity|]. rewrite qsum_cons, Hq. unfold shareOf. ring.
      * exists q. split; [reflexivity|]. rewrite qsum_cons, Hq. unfold shareOf. ring.
Qed.
Lemma filter_split {A} (f : A -> bool) l : length (filter f l) + length (filter (fun x => negb (f x)) l) = length l.
Proof. induction l as [|x l IH]; cbn [filter]; [reflexivity|]. destruct (f x); cbn [negb length]; lia. Qed.
Lemma shareOf_undecided L hosts h ps : filter (fun p => negb (undecided L h p)) ps = [] -> (shareOf L hosts ps h == 0)%Q.
Proof.
  unfold shareOf. induction ps as [|p t IH]; intro H; [reflexivity|]. cbn [filter] in H. destruct (undecided L h p) eqn:U; [|discriminate].
  cbn [negb] in H. cbn [map]. rewrite qsum_cons, IH by exact H. apply Qeq_bool_iff in U. destruct (winsb L h p) eqn:W; [|ring].
  apply winsb_Wins in W. unfold Wins in W. lra.
Qed.
Lemma sharedFitness_spec L (s : st) hosts ps : good L s ->
  exists fits, sharedFitness s hosts ps = Ok fits /\ Forall2 (fun h f => (f == sharedFit L hosts ps h)%Q) hosts fits.
Proof.
  intros G. unfold sharedFitness. destruct ps as [|p0 t].
  - eexists. split; [reflexivity|]. cbn [sharedFit]. induction hosts; cbn [map]; constructor; auto. reflexivity.
  - apply rmap_forall2. intros h Hh. destruct (shares_spec L s hosts h (p0 :: t) G Hh) as (q & E & Hq). rewrite E. cbn [rbind fst snd].
    destruct (gscore_spec ev L s h G) as [Eg Hg]. rewrite Eg. cbn [rbind]. eexists. split; [reflexivity|].
    unfold sharedFit. set (ps := p0 :: t) in *. pose proof (filter_split (undecided L h) ps) as Hlen.
    rewrite Hg. destruct (Nat.ltb_spec (length (filter (undecided L h) ps)) (length ps)) as [Hlt|Hge].
    + rewrite Hq. replace (length ps - length (filter (undecided L h) ps)) with (length (filter (fun x => negb (undecided L h x)) ps)) by lia. reflexivity.
    + assert (E0 : filter (fun x => negb (undecided L h x)) ps = []) by (destruct (filter (fun x => negb (undecided L h x)) ps); [reflexivity|cbn [length] in Hlen; lia]).
      rewrite E0, Hq, (shareOf_undecided _ _ _ _ E0). reflexivity.
Qed.
Definition competitiveFitness (L : list game) (hosts ps hf : list nat) (t h : nat) (p : nat) : Q :=
  (if Nat.ltb 0 h then inject_Z (Z.of_nat t) * sharedFit L hosts ps p + inject_Z (Z.of_nat h) * sharedFit L hosts hf p else sharedFit L hosts ps p)%Q.
Lemma evaluateCompetitive_spec L (s : st) : good L s -> NoDup (parasites s) -> NoDup (nth (length (oldPops s) - 2) (oldPops s) []) -> hofTournSize c s <= tournamentSize c ->
  (c_shared c = true -> tournamentSize c - hofTournSize c s <= length (parasites s)) ->
  exists fits s' rs L' opps,
    let h := hofTournSize c s in let t := Nat.min (tournamentSize c - h) (length opps) in
    evaluateCompetitive ev d c s = Ok (fits, s') /\ play s rs s' /\ good L' s' /\ ledger_of L rs L'
    /\ (if c_shared c && Nat.ltb 2 (generation s)
        then greedy (Wins L) (gscore s) (tournamentSize c - h) (parasites s) (nth (length (oldPops s) - 2) (oldPops s) []) opps else opps = parasites s)
    /\ (exists r1 r2, rs = r1 ++ r2 /\ schedule opps t (pop s) r1 /\ (if Nat.ltb 0 h then schedule (hof s) h (pop s) r2 else r2 = []))
    /\ Forall2 (fun p f => (f == competitiveFitness L' (pop s) (parasites s) (hof s) t h p)%Q) (pop s) fits.
Proof.
  intros G Np No Hh Hsh. unfold evaluateCompetitive. set (h := hofTournSize c s) in *. destruct (Nat.ltb_spec (tournamentSize c) h) as [?|_]; [lia|].
  set (t0 := tournamentSize c - h) in *. set (old := nth (length (oldPops s) - 2) (oldPops s) []) in *.
  assert (Hopp : exists opps m, (if c_shared c && (2 <? generation s) then sharedSampling d t0 (parasites s) old s else Ok (parasites s, s)) = Ok (opps, tick m s)
    /\ (if c_shared c && (2 <? generation s) then greedy (Wins L) (gscore s) t0 (parasites s) old opps else opps = parasites s)).
  { destruct (c_shared c); cbn [andb]; [destruct (2 <? generation s)|].
    - destruct (proj1 (shared_spec ev d L t0 (parasites s) old s G Np No) (Hsh eq_refl)) as (res & m & E & Hg). eauto.
    - exists (parasites s), 0. split; [|reflexivity]. f_equal. f_equal. unfold tick. rewrite Nat.add_0_r. destruct s; reflexivity.
    - exists (parasites s), 0. split; [|reflexivity]. f_equal. f_equal. unfold tick. rewrite Nat.add_0_r. destruct s; reflexivity. }
  destruct Hopp as (opps & m & E & Ho). rewrite E. cbn [rbind]. clear E. set (t := Nat.min t0 (length opps)).
  destruct (tournament_play ev d (pop s) opps t (tick m s)) as (r1 & Hs1 & Hp1).
  set (s2 := doTournament ev d (pop s) opps t (tick m s)) in *.
  apply (play_tick _ s m) in Hp1. pose proof (play_frame _ _ _ _ Hp1) as F1. assert (Hhof : hof s2 = hof s) by apply F1.
  set (s3 := if 0 <? h then doTournament ev d (pop s) (hof s2) h s2 else s2).
  assert (H2 : exists r2, play s2 r2 s3 /\ (if 0 <? h then schedule (hof s) h (pop s) r2 else r2 = [])).
  { unfold s3. rewrite Hhof. destruct (0 <? h).
    - destruct (tournament_play ev d (pop s) (hof s) h s2) as (r2 & A & B). eauto.
    - exists []. split; [constructor|reflexivity]. }
  destruct H2 as (r2 & Hp2 & Hs2). pose proof (play_frame _ _ _ _ Hp2) as F2. assert (Hhof3 : hof s3 = hof s) by (transitivity (hof s2); [apply F2|exact Hhof]).
  pose proof (play_app _ _ _ _ _ _ Hp1 Hp2) as Hp. destruct (play_good _ _ _ _ _ Hp G) as (L' & G' & HL).
  destruct (sharedFitness_spec L' s3 (pop s) (parasites s) G') as (f1 & E1 & HF1). rewrite E1. cbn [rbind].
  destruct (sharedFitness_spec L' s3 (pop s) (hof s3) G') as (f2 & E2 & HF2).
  assert (Hfin : exists fits, (if 0 <? h then let! fitH := sharedFitness s3 (pop s) (hof s3) in
      Ok (map (fun ab => inject_Z (Z.of_nat t) * fst ab + inject_Z (Z.of_nat h) * snd ab)%Q (combine f1 fitH), s3) else Ok (f1, s3)) = Ok (fits, s3)
      /\ Forall2 (fun p f => (f == competitiveFitness L' (pop s) (parasites s) (hof s) t h p)%Q) (pop s) fits).
  { unfold competitiveFitness. destruct (0 <? h).
    - rewrite E2. cbn [rbind]. eexists. split; [reflexivity|]. rewrite Hhof3 in HF2. clear E1 E2 Hs1 Hs2 G'.
      refine (Forall2_combine _ _ _ _ _ _ _ HF1 HF2 _). intros p a b Ha Hb. cbn [fst snd]. rewrite Ha, Hb. reflexivity.
    - exists f1. auto. }
  destruct Hfin as (fits & E & HF). rewrite E. exists fits, s3, (r1 ++ r2), L', opps. cbv zeta. repeat (split; [solve [auto]|]). split; [|exact HF]. exists r1, r2. auto.
Qed.

(** ** many populations *)
Inductive schedules (pop1 : list nat) (n : nat) : list (list nat) -> list (nat * nat) -> Prop :=
| schedules_nil : schedules pop1 n [] []
| schedules_cons o t rs rs' : schedule o n pop1 rs -> schedules pop1 n t rs' -> schedules pop1 n (o :: t) (rs ++ rs').
Lemma multi_play os (s : st) : exists rs, schedules (pop s) (tournamentSize c) (map bestPart os) rs
  /\ play s rs (fold_left (fun s o => doTournament ev d (pop s) (bestPart o) (tournamentSize c) s) os s).
Proof.
  revert s. induction os as [|o t IH]; intro s; cbn [fold_left map].
  - exists []. split; constructor.
  - destruct (tournament_play ev d (pop s) (bestPart o) (tournamentSize c) s) as (r1 & A & B).
    destruct (IH (doTournament ev d (pop s) (bestPart o) (tournamentSize c) s)) as (r2 & A2 & B2).
    assert (E : pop (doTournament ev d (pop s) (bestPart o) (tournamentSize c) s) = pop s) by apply (play_frame _ _ _ _ B). rewrite E in A2.
    exists (r1 ++ r2). split; [constructor; auto|]. exact (play_app _ _ _ _ _ _ B B2).
Qed.
Definition multiFitness (L : list game) (os : list (list nat)) (p : nat) : Q := mixAbs c p (relativeSum L (concat os) p).
Lemma evaluateMulti_spec L (s : st) : good L s ->
  exists fits s' rs L', evaluateMulti ev d c s = Ok (fits, s') /\ play s rs s' /\ good L' s' /\ ledger_of L rs L'
    /\ schedules (pop s) (tournamentSize c) (map bestPart (others s)) rs
    /\ Forall2 (fun p f => (f == multiFitness L' (others s) p)%Q) (pop s) fits.
Proof.
  intro G. unfold evaluateMulti. destruct (multi_play (others s) s) as (rs & A & B). set (s1 := fold_left _ (others s) s) in *.
  destruct (play_good _ _ _ _ _ B G) as (L' & G' & HL).
  destruct (rmap_forall2 (fun p => let! f := beatSum s1 p (concat (others s)) 0%Q in Ok (mixAbs c p f))
    (fun p f => (f == multiFitness L' (others s) p)%Q) (pop s)) as (fits & E & HF).
  { intros p _. destruct (beatSum_spec L' s1 p (concat (others s)) 0%Q G') as (q & E1 & H1). rewrite E1. cbn [rbind].
    eexists. split; [reflexivity|]. unfold multiFitness. apply mixAbs_comp. rewrite H1. ring. }
  rewrite E. cbn [rbind]. exists fits, s1, rs, L'. repeat (split; [solve [auto]|]). exact HF.
Qed.
End S.
