(** C71: views on flat layers, what swiping networks do not respect, weights for new borders. *)
From Coq Require Import QArith Lqa.
From Verif Require Import Base RingOps Net_Model Net_Props Arch_Model Arch_Proofs Arch_Props Arch_Props2 Arch_Props3 Board_Model Board_Spec Board_Proofs Board_Proofs2 Board_Proofs3 Board_Props.
From Verif Require Utilities_Model Utilities_Proofs.
Open Scope nat_scope.

Lemma indexOf_nth t l : In t l -> nth (indexOf t l) l [] = t /\ indexOf t l < length l.
Proof.
  induction l as [|k l IH]; intro H; [destruct H|]. cbn [indexOf]. destruct (tup_eqb_spec t k) as [->|N]; [split; [reflexivity|cbn; lia]|]. destruct H as [->|H]; [congruence|]. destruct (IH H). split; [exact H0|cbn [length]; lia].
Qed.
(** the views of viewOnFlatLayer do not overlap, and stay inside the layer *)
Theorem C71_views dims size : dims <> [] -> disjoint_views dims size (viewOffset dims size) /\ forall u, Forall2 lt u dims -> viewOffset dims size u + size <= size * fold_left Nat.mul dims 1.
Proof.
  intro Hne. assert (X : forall u, Forall2 lt u dims -> In u (Utilities_Model.iterCombinations dims)) by (intro u; apply (Utilities_Proofs.iterCombinations_ok dims Hne)). split.
  - intros u v i j Hu Hv Hi Hj E. unfold viewOffset in E. destruct (indexOf_nth u _ (X u Hu)) as [Nu _]. destruct (indexOf_nth v _ (X v Hv)) as [Nv _]. rewrite <- Nu, <- Nv. f_equal. nia.
  - intros u Hu. destruct (indexOf_nth u _ (X u Hu)) as [_ B]. unfold viewOffset.
    assert (LN : length (Utilities_Model.iterCombinations dims) = fold_left Nat.mul dims 1).
    { unfold Utilities_Model.iterCombinations. rewrite <- fold_left_rev_right. clear -Hne. assert (R0 : rev dims <> []) by (intro E; apply Hne; rewrite <- (rev_involutive dims), E; reflexivity). revert R0.
      induction (rev dims) as [|n [|m l] IH]; intro H; [congruence|cbn; rewrite map_length, seq_length; lia|]. specialize (IH ltac:(congruence)). change (fold_right (fun y x => x * y) 1 (n :: m :: l)) with (fold_right (fun y x => x * y) 1 (m :: l) * n). rewrite <- IH.
      change (Utilities_Model.iterC_rev (n :: m :: l)) with (flat_map (fun prefix => map (fun i => prefix ++ [i]) (seq 0 n)) (Utilities_Model.iterC_rev (m :: l))).
      generalize (Utilities_Model.iterC_rev (m :: l)) as q. induction q as [|p q IQ]; [reflexivity|]. cbn [flat_map]. rewrite app_length, map_length, seq_length, IQ. cbn [length]. lia. }
    rewrite <- LN. nia.
Qed.

(** ** what is not respected *)
Definition ones (dims : list nat) : ssizes := {| s_in := 1; s_out := 1; s_hin := 1; s_hout := 1; s_inoff := viewOffset dims 1; s_outoff := viewOffset dims 1 |}.
Lemma ones_ok dims : (forall d, In d dims -> 1 < d) -> sizes_ok (ones dims) dims.
Proof. intro H. split; [exact H|]. cbn. lia. Qed.
(** only borders whose tuple is t weigh something *)
Definition markw (t : list nat) (m : bwmother) : vec (K := Z) := fun _ => match m with BSwipe MOut => 1%Z | BBord _ t' => if tup_eqb t t' then 1%Z else 0%Z | _ => 0%Z end.
Definition same (v : vec (K := Z)) : vec (K := Z) := v.
(** with weights of their own for every dimension, an empty board is not treated the same on both sides *)
Theorem C71_reflection_refuted : exists (w : bwmother -> vec (K := Z)) cs V, let dims := [2; 2] in let flip := fun d => d =? 1 in
  capturenet false false false (ones dims) dims (fun _ => []) = Ok cs /\ solves w same (fun x => x) (ones dims) dims cs (fun _ => 0%Z) V /\
  V POut (viewOffset dims 1 [0; 0]) <> V POut (viewOffset dims 1 (moved dims (fun d => d) flip [0; 0])).
Proof.
  exists (markw [0]). set (dims := [2; 2]). assert (SZ : sizes_ok (ones dims) dims) by (apply ones_ok; intros d [<-|[<-|[]]]; lia).
  eexists. exists (computed (markw [0]) (ones dims) dims same (fun x => x) false false false (fun _ => []) (fun _ => 0%Z)).
  split; [apply capture_ok; [discriminate|exact SZ]|]. split.
  - apply (capture_solution (markw [0]) (ones dims) dims ltac:(discriminate) SZ same (fun x => x)); [|apply capture_ok; [discriminate|exact SZ]]. intros a b H j Hj. apply H. exact Hj.
  - vm_compute. discriminate.
Qed.
(** three dimensions: the borders keep the order of the coordinates, so dimensions cannot be exchanged although they are meant to be equivalent *)
Theorem C71_exchange_refuted : exists (w : bwmother -> vec (K := Z)) cs V, let dims := [3; 3; 3] in let pi := fun d => match d with 1 => 2 | 2 => 1 | _ => d end in
  symmetry dims pi /\
  capturenet false false true (ones dims) dims (fun _ => []) = Ok cs /\ solves w same (fun x => x) (ones dims) dims cs (fun _ => 0%Z) V /\
  V POut (viewOffset dims 1 [0; 0; 1]) <> V POut (viewOffset dims 1 (moved dims pi (fun _ => false) [0; 0; 1])).
Proof.
  exists (markw [0; 1]). set (dims := [3; 3; 3]). assert (SZ : sizes_ok (ones dims) dims) by (apply ones_ok; intros d [<-|[<-|[<-|[]]]]; lia).
  eexists. exists (computed (markw [0; 1]) (ones dims) dims same (fun x => x) false false true (fun _ => []) (fun _ => 0%Z)). split; [|split; [|split]].
  - split; [intros [|[|[|d]]] Hd; cbn in *; lia|intros [|[|[|d]]] [|[|[|e]]] Hd He; cbn in *; lia].
  - apply capture_ok; [discriminate|exact SZ].
  - apply (capture_solution (markw [0; 1]) (ones dims) dims ltac:(discriminate) SZ same (fun x => x)); [|apply capture_ok; [discriminate|exact SZ]]. intros a b H j Hj. apply H. exact Hj.
  - vm_compute. discriminate.
Qed.
(** a board of 2 x 2 turned by a quarter *)
Example ex_turn : exists cs V V', let dims := [2; 2] in let z := ones dims in let pi := fun d => 1 - d in let flip := fun d => d =? 0 in
  let w := fun m _ => match m with BSwipe MIn => 2%Z | BSwipe MOut => 3%Z | BSwipe (MHid _ _) => 5%Z | BBord _ _ => 7%Z | _ => 1%Z end in
  capturenet true false true z dims (fun _ => []) = Ok cs /\ solves w same (fun x => x) z dims cs (fun i => Z.of_nat (S i)) V /\
  solves w same (fun x => x) z dims cs (fun i => Z.of_nat (nth i [2; 4; 1; 3] 0)) V' /\
  map (V POut) [0; 1; 2; 3] = [4339; 4064; 3789; 3514]%Z /\ map (V' POut) [0; 1; 2; 3] = [4064; 3514; 4339; 3789]%Z.
Proof.
  set (dims := [2; 2]). assert (SZ : sizes_ok (ones dims) dims) by (apply ones_ok; intros d [<-|[<-|[]]]; lia). eexists.
  eexists (computed _ (ones dims) dims same (fun x => x) true false true (fun _ => []) _). eexists (computed _ (ones dims) dims same (fun x => x) true false true (fun _ => []) _).
  cbv zeta. split; [apply capture_ok; [discriminate|exact SZ]|].
  split; [apply (capture_solution _ (ones dims) dims ltac:(discriminate) SZ same (fun x => x)); [intros a b H j Hj; apply H; exact Hj|apply capture_ok; [discriminate|exact SZ]]|].
  split; [apply (capture_solution _ (ones dims) dims ltac:(discriminate) SZ same (fun x => x)); [intros a b H j Hj; apply H; exact Hj|apply capture_ok; [discriminate|exact SZ]]|].
  split; vm_compute; reflexivity.
Qed.

(** ** weights for new borders *)
Lemma reachable_sound fuel : forall start dests k d, In (k, d) (reachable fuel start dests) -> In k dests /\ 1 <= d.
Proof.
  induction fuel as [|fuel IH]; intros start dests k d H; [destruct H|]. cbn [reachable] in H. destruct start as [|s start]; [destruct H|]. destruct dests as [|e dests]; [destruct H|].
  set (new := nodup _ _) in H. set (ds := e :: dests) in *. apply in_app_iff in H as [H|H].
  - apply in_map_iff in H as (q & E & Hq). injection E as <- <-. apply filter_In in Hq as [_ Hq]. apply existsb_exists in Hq as (y & Hy & E). destruct (tup_eqb_spec q y); [subst; split; [exact Hy|lia]|discriminate].
  - apply in_map_iff in H as ([q n] & E & Hq). cbn [fst snd] in E. injection E as <- <-. apply IH in Hq as [A B]. apply filter_In in A as [A _]. split; [exact A|lia].
Qed.
Lemma decrement_above k s : Forall2 le k s -> k <> s -> exists s', In s' (decrementAny s) /\ Forall2 le k s'.
Proof.
  intro H. induction H as [|x y k s Hxy H IH]; intro N; [congruence|]. destruct (Nat.eq_dec x y) as [->|Nx].
  - destruct IH as (s' & A & B); [congruence|]. exists (y :: s'). split; [cbn [decrementAny]; apply in_app_iff; right; apply in_map; exact A|constructor; assumption].
  - destruct y as [|y]; [lia|]. exists (y :: s). split; [cbn [decrementAny]; left; reflexivity|constructor; [lia|assumption]].
Qed.
Lemma decrement_sum s s' : In s' (decrementAny s) -> S (list_sum s') = list_sum s.
Proof.
  revert s'. induction s as [|x s IH]; intros s' H; [destruct H|]. cbn [decrementAny] in H. apply in_app_iff in H as [H|H].
  - destruct x; [destruct H|]. destruct H as [<-|[]]. cbn. lia.
  - apply in_map_iff in H as (q & <- & Hq). apply IH in Hq. cbn [list_sum fold_right] in *. unfold list_sum in *. cbn. lia.
Qed.
Lemma decrement_below s s' : In s' (decrementAny s) -> Forall2 le s' s.
Proof.
  assert (RR : forall l : list nat, Forall2 le l l) by (induction l; constructor; auto). revert s'. induction s as [|x s IH]; intros s' H; [destruct H|]. cbn [decrementAny] in H. apply in_app_iff in H as [H|H].
  - destruct x; [destruct H|]. destruct H as [<-|[]]. constructor; [lia|apply RR].
  - apply in_map_iff in H as (q & <- & Hq). constructor; [lia|auto].
Qed.
Lemma le2_trans a b c : Forall2 le a b -> Forall2 le b c -> Forall2 le a c.
Proof. intro H. revert c. induction H; intros c H2; inversion H2; subst; constructor; [lia|auto]. Qed.
Lemma reachable_below fuel : forall start dests k d, In (k, d) (reachable fuel start dests) -> exists s, In s start /\ Forall2 le k s /\ list_sum s = list_sum k + d.
Proof.
  induction fuel as [|fuel IH]; intros start dests k d H; [destruct H|]. cbn [reachable] in H. destruct start as [|s start]; [destruct H|]. destruct dests as [|e dests]; [destruct H|].
  set (new := nodup _ _) in H. set (st := s :: start) in *. apply in_app_iff in H as [H|H].
  - apply in_map_iff in H as (q & E & Hq). injection E as <- <-. apply filter_In in Hq as [Hq _]. apply nodup_In in Hq. apply in_flat_map in Hq as (p & Hp & Hq). exists p. split; [exact Hp|]. split; [apply decrement_below; exact Hq|]. apply decrement_sum in Hq. lia.
  - apply in_map_iff in H as ([q n] & E & Hq). cbn [fst snd] in E. injection E as <- <-. apply IH in Hq as (p & Hp & B & C). apply filter_In in Hp as [Hp _]. apply nodup_In in Hp. apply in_flat_map in Hp as (r & Hr & Hp). exists r. split; [exact Hr|].
    split; [eapply le2_trans; [exact B|apply decrement_below; exact Hp]|]. apply decrement_sum in Hp. lia.
Qed.
Lemma filter_all {A} (l : list A) : filter (fun _ => negb false) l = l.
Proof. induction l as [|x l IH]; [reflexivity|]. cbn. f_equal. exact IH. Qed.
Lemma reachable_complete fuel : forall start dests k s, (forall s, In s start -> list_sum s < fuel) -> (forall s, In s start -> ~ In s dests) -> In k dests -> In s start -> Forall2 le k s -> reachable fuel start dests <> [].
Proof.
  induction fuel as [|fuel IH]; intros start dests k s HF HN Hk Hs Hle; [specialize (HF s Hs); lia|]. cbn [reachable]. destruct start as [|s0 start]; [destruct Hs|]. destruct dests as [|e dests]; [destruct Hk|].
  set (new := nodup _ _). set (st := s0 :: start) in *. set (ds := e :: dests) in *. destruct (decrement_above k s Hle ltac:(intros ->; exact (HN s Hs Hk))) as (s' & A & B).
  assert (Hn : In s' new) by (apply nodup_In; apply in_flat_map; exists s; split; assumption).
  destruct (filter (fun s => existsb (tup_eqb s) ds) new) as [|f fs] eqn:EF; [|discriminate]. cbn [map app existsb].
  rewrite filter_all.
  assert (NO : forall q, In q new -> ~ In q ds).
  { intros q Hq Hd. assert (Y : In q (filter (fun s => existsb (tup_eqb s) ds) new)) by (apply filter_In; split; [exact Hq|apply existsb_exists; exists q; split; [exact Hd|destruct (tup_eqb_spec q q); congruence]]). rewrite EF in Y. destruct Y. }
  intro E. apply map_eq_nil in E. revert E. apply (IH _ ds k s'); [| |exact Hk| |exact B].
  - intros q Hq. apply filter_In in Hq as [Hq _]. apply nodup_In in Hq. apply in_flat_map in Hq as (p & Hp & Hq). specialize (HF p Hp). apply decrement_sum in Hq. lia.
  - intros q Hq. apply filter_In in Hq as [Hq _]. apply NO. exact Hq.
  - apply filter_In. split; [exact Hn|]. destruct (existsb (tup_eqb s') ds) eqn:EX; [|reflexivity]. exfalso. apply existsb_exists in EX as (y & Hy & E). destruct (tup_eqb_spec s' y); [subst; exact (NO y Hn Hy)|discriminate].
Qed.
Lemma qget_in k known : In k (map fst known) -> exists p, In (k, p) known /\ qget k known = p.
Proof.
  induction known as [|[k' p] known IH]; intro H; [destruct H|]. cbn [qget]. destruct (tup_eqb_spec k k') as [->|N]; [exists p; split; [left; reflexivity|reflexivity]|]. destruct H as [E|H]; [cbn in E; congruence|]. destruct (IH H) as (q & A & B). exists q. split; [right; exact A|exact B].
Qed.
Lemma inv_pos d : 1 <= d -> (0 < 1 / inject_Z (Z.of_nat d))%Q.
Proof. intro H. unfold Qdiv. rewrite Qmult_1_l. apply Qinv_lt_0_compat. change 0%Q with (inject_Z 0). rewrite <- Zlt_Qlt. lia. Qed.
Lemma average_between (cl : list (list nat * nat)) (f : list nat -> Q) lo hi : cl <> [] -> (forall k d, In (k, d) cl -> 1 <= d /\ (lo <= f k <= hi)%Q) ->
  (0 < qsum (fun c => 1 / inject_Z (Z.of_nat (snd c))) cl)%Q /\
  (lo * qsum (fun c => 1 / inject_Z (Z.of_nat (snd c))) cl <= qsum (fun c => f (fst c) / inject_Z (Z.of_nat (snd c))) cl <= hi * qsum (fun c => 1 / inject_Z (Z.of_nat (snd c))) cl)%Q.
Proof.
  induction cl as [|[k d] cl IH]; intros Hn H; [congruence|]. destruct (H k d (or_introl eq_refl)) as [Hd [H1 H2]]. pose proof (inv_pos d Hd) as P. cbn [qsum fold_right fst snd]. fold (qsum (fun c : list nat * nat => 1 / inject_Z (Z.of_nat (snd c)))%Q cl). fold (qsum (fun c : list nat * nat => f (fst c) / inject_Z (Z.of_nat (snd c)))%Q cl).
  assert (E : (f k / inject_Z (Z.of_nat d) == f k * (1 / inject_Z (Z.of_nat d)))%Q) by (unfold Qdiv; ring). set (i := (1 / inject_Z (Z.of_nat d))%Q) in *. 
  destruct cl as [|c cl].
  - cbn [qsum fold_right]. rewrite E. split; [lra|]. split; nra.
  - destruct (IH ltac:(congruence) (fun k' d' Hin => H k' d' (or_intror Hin))) as (A & B & C). set (s := qsum _ _) in *. set (t := qsum (fun c0 => (f (fst c0) / _)%Q) _) in *. rewrite E. clearbody s t i. split; [lra|]. split; nra.
Qed.
(** new weights are taken over from known borders closer to the corner, if there are any, and stay between them *)
Theorem C71_extrapolate t known : ~ In t (map fst known) ->
  (extrapolateBorderAt t known = None <-> forall k, In k (map fst known) -> ~ Forall2 le k t) /\
  forall p i lo hi, extrapolateBorderAt t known = Some p -> (forall k q, In (k, q) known -> Forall2 le k t -> lo <= q i <= hi)%Q -> (lo <= p i <= hi)%Q.
Proof.
  intro HN. unfold extrapolateBorderAt. cbv zeta. set (cl := reachable _ _ _). split.
  - split.
    + intros E k Hk Hle. destruct cl eqn:EC; [|discriminate]. revert EC. apply (reachable_complete _ _ _ k t); try assumption; [intros s [<-|[]]; lia|intros s [<-|[]]; exact HN|left; reflexivity].
    + intro H. destruct cl as [|[k d] l] eqn:EC; [reflexivity|]. exfalso. assert (Y : In (k, d) cl) by (rewrite EC; left; reflexivity). pose proof (reachable_sound _ _ _ _ _ Y) as [A _]. apply reachable_below in Y as (s & [<-|[]] & B & _). exact (H k A B).
  - intros p i lo hi E H. destruct cl as [|c l] eqn:EC; [discriminate|]. injection E as <-. 
    destruct (average_between cl (fun k => qget k known i) lo hi) as (A & B & C); [rewrite EC; discriminate| |].
    + intros k d Hin. pose proof (reachable_sound _ _ _ _ _ Hin) as [X1 X2]. apply reachable_below in Hin as (s & [<-|[]] & X3 & _). destruct (qget_in k known X1) as (q & Y1 & ->). split; [exact X2|]. apply (H k q Y1 X3).
    + rewrite EC in A, B, C. split; [apply Qle_shift_div_l; [exact A|exact B]|apply Qle_shift_div_r; [exact A|exact C]].
Qed.
(** on the borders of a square board: the closest border towards the corner *)
Lemma reach_line dests n : forall fuel, n < fuel -> (forall k, k < n -> ~ In [k] dests) -> reachable fuel [[n]] dests = [].
Proof.
  induction n as [|n IH]; intros fuel Hf HN; (destruct fuel as [|fuel]; [lia|]); cbn [reachable]; (destruct dests as [|e ds]; [reflexivity|]); cbn [flat_map decrementAny app map].
  - cbn. destruct fuel; reflexivity.
  - cbn [nodup in_dec list_rec list_rect]. set (D := e :: ds) in *. assert (EX : existsb (tup_eqb [n]) D = false).
    { apply not_true_is_false. intro X. apply existsb_exists in X as (y & Hy & E). destruct (tup_eqb_spec [n] y); [subst y; exact (HN n ltac:(lia) Hy)|discriminate]. }
    cbn [nodup]. cbn [filter]. rewrite EX. cbn [negb map app existsb]. rewrite filter_all.
    rewrite IH; [reflexivity|lia|]. intros k Hk. apply HN. lia.
Qed.
Lemma reach_first dests k m : forall fuel, k + m < fuel -> In [k] dests -> (forall j, k < j < k + S m -> ~ In [j] dests) -> reachable fuel [[k + S m]] dests = [([k], S m)].
Proof.
  induction m as [|m IH]; intros fuel Hf Hk HN; (destruct fuel as [|fuel]; [lia|]); cbn [reachable]; (destruct dests as [|e ds]; [destruct Hk|]); set (D := e :: ds) in *; rewrite Nat.add_succ_r; cbn [flat_map decrementAny app map nodup filter].
  - rewrite Nat.add_0_r. assert (EX : existsb (tup_eqb [k]) D = true) by (apply existsb_exists; exists [k]; split; [exact Hk|destruct (tup_eqb_spec [k] [k]); congruence]).
    cbn [in_dec list_rec list_rect filter]. rewrite EX. cbn [negb map app]. destruct fuel; reflexivity.
  - assert (EX : existsb (tup_eqb [k + S m]) D = false).
    { apply not_true_is_false. intro X. apply existsb_exists in X as (y & Hy & E). destruct (tup_eqb_spec [k + S m] y); [subst y; exact (HN (k + S m) ltac:(lia) Hy)|discriminate]. }
    cbn [in_dec list_rec list_rect filter]. rewrite EX. cbn [negb map app existsb]. rewrite filter_all.
    rewrite IH; [cbn [map fst snd]; do 3 f_equal; lia|lia|exact Hk|]. intros j Hj. apply HN. lia.
Qed.
Theorem C71_extrapolate_square n k known : k < n -> In [k] (map fst known) -> (forall j, k < j < n -> ~ In [j] (map fst known)) ->
  exists p, extrapolateBorderAt [n] known = Some p /\ forall i, (p i == qget [k] known i)%Q.
Proof.
  intros H1 H2 H3. unfold extrapolateBorderAt. assert (E : reachable (S (list_sum [n])) [[n]] (map fst known) = [([k], n - k)]).
  { replace n with (k + S (n - k - 1)) at 2 by lia. rewrite reach_first; [do 3 f_equal; lia|cbn; lia|exact H2|]. intros j Hj. apply H3. lia. }
  rewrite E. eexists. split; [reflexivity|]. intro i. cbn [qsum fold_right fst snd]. pose proof (inv_pos (n - k) ltac:(lia)) as P. set (d := inject_Z (Z.of_nat (n - k))) in *.
  assert (D0 : ~ (d == 0)%Q) by (intro X; unfold Qdiv in P; rewrite X in P; cbn in P; lra). field. exact D0.
Qed.
Example ex_extrapolate : option_map (fun p => Qred (p 0)) (extrapolateBorderAt [2; 1] [([0; 0], fun _ => 6%Q); ([1; 1], fun _ => 3%Q); ([2; 0], fun _ => 9%Q); ([3; 3], fun _ => 100%Q)]) = Some 6%Q
  /\ option_map (fun p => Qred (p 0)) (extrapolateBorderAt [4] [([0], fun _ => 6%Q); ([2], fun _ => 5%Q)]) = Some 5%Q.
Proof. split; vm_compute; reflexivity. Qed.
Print Assumptions C71_views.
Print Assumptions C71_reflection_refuted.
Print Assumptions C71_exchange_refuted.
Print Assumptions C71_extrapolate.
Print Assumptions C71_extrapolate_square.
