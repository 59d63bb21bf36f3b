(** Property C54, continued: swiping networks. *)
From Verif Require Import Base Dict StableSort Topo_Model Topo_Spec Topo_Proofs Topo_Proofs2 Arch_Model Arch_Proofs Arch_Props Arch_Props2.
From Verif Require Utilities_Model Utilities_Proofs.

Definition ssame (a b : smod) : Prop := match a, b with SIn _, SIn _ | SOut _, SOut _ => True | SHid u s, SHid u' s' => u = u' /\ s = s' | _, _ => False end.
(** p is the neighbour of u from which a swipe in the direction given by bit d of s arrives *)
Definition arrives (dims u : list nat) (s d : nat) (p : list nat) : Prop :=
  Forall2 lt p dims /\ d < length dims /\ (forall e, e <> d -> nth e p 0 = nth e u 0) /\ (if Nat.testbit s d then nth d p 0 = nth d u 0 + 1 else nth d p 0 + 1 = nth d u 0).
Inductive sjoined (dims : list nat) : smod -> smod -> Prop :=
| sj_in u s : Forall2 lt u dims -> s < 2 ^ length dims -> sjoined dims (SIn u) (SHid u s)
| sj_out u s : Forall2 lt u dims -> s < 2 ^ length dims -> sjoined dims (SHid u s) (SOut u)
| sj_swipe u p s d : Forall2 lt u dims -> s < 2 ^ length dims -> arrives dims u s d p -> sjoined dims (SHid p s) (SHid u s).

Lemma f2_iff (l dims : list nat) : Forall2 lt l dims <-> length l = length dims /\ forall i, i < length dims -> nth i l 0 < nth i dims 0.
Proof.
  revert dims. induction l as [| x l IH]; intros dims; split.
  - intros H. inversion H. split; [auto |]. cbn. lia.
  - intros [E _]. destruct dims; [constructor | discriminate].
  - intros H. inversion H as [| ? y ? dims' Hxy H']; subst. apply IH in H' as [A B]. split; [cbn; lia |]. intros [| i] Hi; cbn in *; [auto | apply B; lia].
  - intros [E H]. destruct dims as [| y dims]; [discriminate |]. constructor; [apply (H 0); cbn; lia |]. apply IH. split; [cbn in E; lia |]. intros i Hi. apply (H (S i)). cbn. lia.
Qed.
Lemma nth_upd d x (u : list nat) e : nth e (upd d x u) 0 = if (e =? d) && (d <? length u) then x else nth e u 0.
Proof.
  revert d e. induction u as [| y u IH]; intros d e.
  - replace (d <? length []) with false by (destruct d; reflexivity). rewrite andb_false_r. destruct d; reflexivity.
  - destruct d as [| d], e as [| e]; try reflexivity. exact (IH d e).
Qed.
Lemma nth_ext0 (a b : list nat) : length a = length b -> (forall e, nth e a 0 = nth e b 0) -> a = b.
Proof. intros E H. apply (nth_ext _ _ 0 0); auto. Qed.
Lemma up_testbit s d : up s d = negb (Nat.testbit s d).
Proof. unfold up. rewrite Nat.testbit_eqb. pose proof (Nat.mod_upper_bound (s / 2 ^ d) 2 ltac:(lia)). destruct (Nat.eqb_spec ((s / 2 ^ d) mod 2) 0), (Nat.eqb_spec ((s / 2 ^ d) mod 2) 1); cbn; auto; lia. Qed.
Lemma previous_iff dims u s d p : Forall2 lt u dims -> d < length dims -> (previous dims u s d = Some p <-> arrives dims u s d p).
Proof.
  intros Hu Hd. apply f2_iff in Hu as [Lu Bu]. unfold previous, arrives. rewrite up_testbit. destruct (Nat.testbit s d); cbn [negb].
  - destruct (Nat.ltb_spec (nth d u 0 + 1) (nth d dims 0)) as [K | K].
    + split.
      * intros E. injection E as <-. split; [| split; [auto | split]].
        -- apply f2_iff. split; [rewrite upd_length; auto |]. intros i Hi. rewrite nth_upd. destruct (Nat.eqb_spec i d) as [-> |]; cbn [andb]; [| auto]. destruct (Nat.ltb_spec d (length u)); [auto | apply Bu; auto].
        -- intros e He. rewrite nth_upd. destruct (Nat.eqb_spec e d); [lia | auto].
        -- rewrite nth_upd, Nat.eqb_refl. destruct (Nat.ltb_spec d (length u)); [auto | lia].
      * intros (F & _ & G & E). apply f2_iff in F as [Lp Bp]. f_equal. apply nth_ext0; [rewrite upd_length; lia |]. intros e. rewrite nth_upd. destruct (Nat.eqb_spec e d) as [-> | N]; cbn [andb]; [destruct (Nat.ltb_spec d (length u)); lia | symmetry; auto].
    + split; [discriminate |]. intros (F & _ & G & E). apply f2_iff in F as [Lp Bp]. specialize (Bp d Hd). lia.
  - destruct (Nat.eqb_spec (nth d u 0) 0) as [K | K].
    + split; [discriminate |]. intros (F & _ & G & E). lia.
    + split.
      * intros E. injection E as <-. split; [| split; [auto | split]].
        -- apply f2_iff. split; [rewrite upd_length; auto |]. intros i Hi. specialize (Bu i Hi). rewrite nth_upd. destruct (Nat.eqb_spec i d) as [-> |]; cbn [andb]; [| auto]. destruct (Nat.ltb_spec d (length u)); lia.
        -- intros e He. rewrite nth_upd. destruct (Nat.eqb_spec e d); [lia | auto].
        -- rewrite nth_upd, Nat.eqb_refl. destruct (Nat.ltb_spec d (length u)); cbn [andb]; lia.
      * intros (F & _ & G & E). apply f2_iff in F as [Lp Bp]. f_equal. apply nth_ext0; [rewrite upd_length; lia |]. intros e. rewrite nth_upd. destruct (Nat.eqb_spec e d) as [-> | N]; cbn [andb]; [destruct (Nat.ltb_spec d (length u)); lia | symmetry; auto].
Qed.
Lemma sum_le {A} (f g : A -> nat) l : (forall x, In x l -> f x <= g x) -> sum f l <= sum g l.
Proof. induction l as [| x l IH]; intros H; [auto |]. rewrite !sum_cons. pose proof (H x (or_introl eq_refl)). assert (sum f l <= sum g l) by (apply IH; intros; apply H; right; auto). lia. Qed.
Lemma sum_lt {A} (f g : A -> nat) l y : (forall x, In x l -> f x <= g x) -> In y l -> f y < g y -> sum f l < sum g l.
Proof.
  induction l as [| x l IH]; intros H Hy L; [destruct Hy |]. rewrite !sum_cons. pose proof (H x (or_introl eq_refl)). assert (Hl : forall x, In x l -> f x <= g x) by (intros; apply H; right; auto). pose proof (sum_le f g l Hl). destruct Hy as [-> | Hy]; [lia |]. specialize (IH Hl Hy L). lia.
Qed.
Definition progress (dims u : list nat) (s d : nat) : nat := if Nat.testbit s d then nth d dims 0 - nth d u 0 else nth d u 0.
Definition srank (dims : list nat) (m : smod) : nat :=
  match m with SIn _ => 0 | SHid u s => 1 + sum (progress dims u s) (seq 0 (length dims)) | SOut _ => 2 + sum (fun d => nth d dims 0) (seq 0 (length dims)) end.
Lemma sjoined_rank dims u v : sjoined dims u v -> srank dims u < srank dims v.
Proof.
  intros J. destruct J as [u s Hu Hs | u s Hu Hs | u p s d Hu Hs (F & Hd & G & E)]; cbn [srank].
  - lia.
  - apply f2_iff in Hu as [Lu Bu]. assert (sum (progress dims u s) (seq 0 (length dims)) <= sum (fun d => nth d dims 0) (seq 0 (length dims))); [| lia]. apply sum_le. intros i Hi. apply in_seq in Hi. specialize (Bu i ltac:(lia)). unfold progress. destruct (Nat.testbit s i); lia.
  - apply f2_iff in Hu as [Lu Bu]. apply f2_iff in F as [Lp Bp]. assert (sum (progress dims p s) (seq 0 (length dims)) < sum (progress dims u s) (seq 0 (length dims))); [| lia]. apply (sum_lt _ _ _ d).
    + intros e He. apply in_seq in He. unfold progress. specialize (Bp e ltac:(lia)). destruct (Nat.eq_dec e d) as [-> | N]; [destruct (Nat.testbit s d); lia | rewrite (G e N); auto].
    + apply in_seq. lia.
    + unfold progress. specialize (Bu d Hd). specialize (Bp d Hd). destruct (Nat.testbit s d); lia.
Qed.

Section Sw.
Variables (symdims symdirs : bool) (z : ssizes) (dims : list nat).
Hypothesis Hne : dims <> [].
Definition units := Utilities_Model.iterCombinations dims.
Definition sops : list (aop smod smother) :=
  map (fun u => AMod (SIn u)) units ++ map (fun u => AMod (SOut u)) units ++
  flat_map (fun u => map (fun s => AMod (SHid u s)) (seq 0 (2 ^ length dims))) units ++
  flat_map (fun u => flat_map (sconns symdims symdirs z dims u) (seq 0 (2 ^ length dims))) units.
Lemma unit_iff u : In u units <-> Forall2 lt u dims.
Proof. unfold units. destruct (Utilities_Proofs.iterCombinations_ok dims Hne) as [A _]. apply A. Qed.
Lemma sw_eq : (forall d, In d dims -> 1 < d) -> 0 < s_in z /\ 0 < s_out z /\ 0 < s_hin z /\ 0 < s_hout z -> swiping symdims symdirs z dims = Ok sops.
Proof.
  intros Hd (A & B & C & D). unfold swiping, sops. fold units. assert (F : forallb (fun d => 1 <? d) dims = true) by (apply forallb_forall; intros d H; apply Nat.ltb_lt; auto). destruct dims as [| x t] eqn:E; [congruence |]. rewrite <- E in *. clear E. cbn zeta. rewrite F. cbn [negb orb].
  destruct (Nat.eqb_spec (s_in z * s_hin z) 0); [nia |]. destruct (Nat.eqb_spec (s_out z * s_hout z) 0); [nia |]. destruct (Nat.eqb_spec (s_hin z * s_hout z) 0); [nia |]. reflexivity.
Qed.
Lemma s_conn_mod m u s : ~ In (AMod m) (sconns symdims symdirs z dims u s).
Proof.
  unfold sconns. intros K. apply in_app_or in K as [K | K]; [cbn [In] in K; destruct K as [K | [K | []]]; discriminate |]. apply in_flat_map in K as (d & _ & K). destruct (previous dims u s d); [destruct K as [K | []]; discriminate | destruct K].
Qed.
Lemma s_mod m : In (AMod m) sops <-> match m with SIn u | SOut u => Forall2 lt u dims | SHid u s => Forall2 lt u dims /\ s < 2 ^ length dims end.
Proof.
  unfold sops. rewrite !in_app_iff, !in_map_iff, !in_flat_map. split.
  - intros [(u & E & Hu) | [(u & E & Hu) | [(u & Hu & E) | (u & Hu & E)]]].
    + injection E as <-. apply unit_iff; auto.
    + injection E as <-. apply unit_iff; auto.
    + apply in_map_iff in E as (s & E & Hs). injection E as <-. apply in_seq in Hs. split; [apply unit_iff; auto | lia].
    + apply in_flat_map in E as (s & _ & E). exfalso. revert E. apply s_conn_mod.
  - destruct m as [u | u | u s]; intros H.
    + left. exists u. split; [auto | apply unit_iff; auto].
    + right; left. exists u. split; [auto | apply unit_iff; auto].
    + right; right; left. exists u. split; [apply unit_iff; apply H |]. apply in_map_iff. exists s. split; [auto | apply in_seq; lia].
Qed.
Lemma s_conn c : In (AConn c) sops <-> exists u s, Forall2 lt u dims /\ s < 2 ^ length dims /\
  (c = {| a_in := SIn u; a_out := SHid u s; a_mother := MIn; a_inslice := (s_inoff z u, s_inoff z u + s_in z); a_outslice := (0, s_hin z) |} \/
   c = {| a_in := SHid u s; a_out := SOut u; a_mother := MOut; a_inslice := (0, s_hout z); a_outslice := (s_outoff z u, s_outoff z u + s_out z) |} \/
   exists d p, arrives dims u s d p /\ c = {| a_in := SHid p s; a_out := SHid u s; a_mother := hconn symdims symdirs d (negb (Nat.testbit s d)); a_inslice := (0, s_hout z); a_outslice := (0, s_hin z) |}).
Proof.
  unfold sops. rewrite !in_app_iff, !in_map_iff, !in_flat_map. split.
  - intros [(u & E & Hu) | [(u & E & Hu) | [(u & Hu & E) | (u & Hu & E)]]]; try discriminate; [apply in_map_iff in E as (s & E & _); discriminate |]. apply in_flat_map in E as (s & Hs & E). apply in_seq in Hs. apply unit_iff in Hu. exists u, s. split; [auto |]. split; [lia |].
    unfold sconns in E. apply in_app_or in E as [E | E]; [cbn [In] in E; destruct E as [E | [E | []]]; injection E as <-; auto |]. right; right. apply in_flat_map in E as (d & Hd & E). apply in_seq in Hd. destruct (previous dims u s d) as [p |] eqn:EP; [| destruct E]. destruct E as [E | []]. injection E as <-. exists d, p. split; [apply previous_iff; auto; lia |]. now rewrite up_testbit.
  - intros (u & s & Hu & Hs & K). right; right; right. exists u. split; [apply unit_iff; auto |]. apply in_flat_map. exists s. split; [apply in_seq; lia |]. unfold sconns. apply in_or_app. destruct K as [-> | [-> | (d & p & Ha & ->)]]; [left; left; auto | left; right; left; auto |]. right. apply in_flat_map. exists d. assert (Hd : d < length dims) by apply Ha. split; [apply in_seq; lia |]. apply previous_iff in Ha; auto. rewrite Ha. left. now rewrite up_testbit.
Qed.
Lemma s_joined u v : (exists c, In (AConn c) sops /\ a_in c = u /\ a_out c = v) <-> sjoined dims u v.
Proof.
  split.
  - intros (c & Hc & <- & <-). apply s_conn in Hc as (u & s & Hu & Hs & [-> | [-> | (d & p & Ha & ->)]]); cbn [a_in a_out]; [constructor; auto | constructor; auto | apply (sj_swipe dims u p s d); auto].
  - intros J. destruct J as [u s Hu Hs | u s Hu Hs | u p s d Hu Hs Ha].
    + eexists. split; [apply s_conn; exists u, s; split; [auto |]; split; [auto |]; left; reflexivity | auto].
    + eexists. split; [apply s_conn; exists u, s; split; [auto |]; split; [auto |]; right; left; reflexivity | auto].
    + eexists. split; [apply s_conn; exists u, s; split; [auto |]; split; [auto |]; right; right; exists d, p; split; [auto | reflexivity] | auto].
Qed.
Definition sms : list smother := MIn :: MOut :: flat_map (fun d => map (MHid d) (if symdirs then [None] else [Some true; Some false])) (if symdims then [0] else seq 0 (length dims)).
Lemma sms_nodup : NoDup sms.
Proof.
  assert (K : forall m, In m (flat_map (fun d => map (MHid d) (if symdirs then [None] else [Some true; Some false])) (if symdims then [0] else seq 0 (length dims))) -> exists d o, m = MHid d o).
  { intros m H. apply in_flat_map in H as (d & _ & H). apply in_map_iff in H as (o & <- & _). eauto. }
  unfold sms. constructor; [intros [H | H]; [discriminate |]; apply K in H as (d & o & H); discriminate |]. constructor; [intros H; apply K in H as (d & o & H); discriminate |]. clear K.
  assert (NS : NoDup (if symdims then [0] else seq 0 (length dims))) by (destruct symdims; [repeat constructor; auto | apply seq_NoDup]). induction NS as [| d l Hd NS IH]; cbn [flat_map]; [constructor |].
  assert (KD : forall o, ~ In (MHid d o) (flat_map (fun d => map (MHid d) (if symdirs then [None] else [Some true; Some false])) l)). { intros o H. apply in_flat_map in H as (d' & Hd' & H). apply in_map_iff in H as (o' & E & _). injection E as -> _. contradiction. }
  destruct symdirs; cbn [map app]; repeat constructor; auto. intros [H | H]; [discriminate |]. revert H. apply KD.
Qed.
Lemma repeat_f2 u : (forall d, In d dims -> 1 < d) -> length u = length dims -> (forall e, nth e u 0 <= 1) -> Forall2 lt u dims.
Proof. intros Hd L H. apply f2_iff. split; [auto |]. intros i Hi. specialize (H i). assert (1 < nth i dims 0) by (apply Hd, nth_In; auto). lia. Qed.
Lemma sms_iff m : (forall d, In d dims -> 1 < d) -> In m sms <-> exists c, In (AConn c) sops /\ a_mother c = m.
Proof.
  intros Hd. set (zero := map (fun _ : nat => 0) dims). assert (Lz : length zero = length dims) by apply map_length. assert (Nz : forall e, nth e zero 0 = 0). { intros e. unfold zero. clear. revert e. induction dims as [| x l IH]; intros [| e]; cbn; auto. }
  assert (Fz : Forall2 lt zero dims) by (apply repeat_f2; auto; intros e; rewrite Nz; lia). assert (P2 : 0 < 2 ^ length dims) by (apply Nat.neq_0_lt_0, Nat.pow_nonzero; lia).
  set (one d := upd d 1 zero). assert (L1 : forall d, length (one d) = length dims) by (intros; unfold one; now rewrite upd_length). assert (N1 : forall d e, d < length dims -> nth e (one d) 0 = if e =? d then 1 else 0).
  { intros d e H. unfold one. rewrite nth_upd, Lz, Nz. destruct (Nat.eqb_spec e d); cbn [andb]; auto. destruct (Nat.ltb_spec d (length dims)); [auto | lia]. }
  assert (F1 : forall d, d < length dims -> Forall2 lt (one d) dims) by (intros d H; apply repeat_f2; auto; intros e; rewrite N1 by auto; destruct (e =? d); lia).
  assert (X : forall d dir, d < length dims -> exists c, In (AConn c) sops /\ a_mother c = hconn symdims symdirs d dir).
  { intros d dir H. destruct dir.
    - eexists. split; [apply s_conn; exists (one d), 0; split; [auto |]; split; [auto |]; right; right; exists d, zero; split; [| reflexivity] |].
      + split; [auto |]. split; [auto |]. rewrite Nat.bits_0. split; [intros e He; rewrite Nz, N1 by auto; destruct (Nat.eqb_spec e d); [lia | auto] | rewrite Nz, N1 by auto; now rewrite Nat.eqb_refl].
      + cbn [a_mother]. now rewrite Nat.bits_0.
    - eexists. split; [apply s_conn; exists zero, (2 ^ d); split; [auto |]; split; [apply Nat.pow_lt_mono_r; lia |]; right; right; exists d, (one d); split; [| reflexivity] |].
      + split; [auto |]. split; [auto |]. rewrite Nat.pow2_bits_true. split; [intros e He; rewrite Nz, N1 by auto; destruct (Nat.eqb_spec e d); [lia | auto] | rewrite Nz, N1 by auto; now rewrite Nat.eqb_refl].
      + cbn [a_mother]. now rewrite Nat.pow2_bits_true. }
  unfold sms. cbn [In]. rewrite in_flat_map. split.
  - intros [<- | [<- | (d & H & K)]].
    + eexists. split; [apply s_conn; exists zero, 0; split; [auto |]; split; [auto |]; left; reflexivity | auto].
    + eexists. split; [apply s_conn; exists zero, 0; split; [auto |]; split; [auto |]; right; left; reflexivity | auto].
    + assert (LD : 0 < length dims) by (destruct dims; [congruence | cbn; lia]). assert (D : d < length dims /\ (symdims = true -> d = 0)) by (destruct symdims; [destruct H as [<- | []]; auto | apply in_seq in H; split; [lia | discriminate]]). destruct D as [D1 D2].
      apply in_map_iff in K as (o & <- & Ho). assert (exists dir, MHid d o = hconn symdims symdirs d dir) as (dir & ->); [| apply X; auto]. unfold hconn. replace (if symdims then 0 else d) with d by (destruct symdims; auto). destruct symdirs.
      * destruct Ho as [<- | []]. exists true. auto.
      * destruct Ho as [<- | [<- | []]]; [exists true | exists false]; auto.
  - intros (c & Hc & <-). apply s_conn in Hc as (u & s & Hu & Hs & [-> | [-> | (d & p & Ha & ->)]]); cbn [a_mother]; auto. right; right. assert (H : d < length dims) by apply Ha. unfold hconn. exists (if symdims then 0 else d). split; [destruct symdims; [left; auto | apply in_seq; lia] |]. apply in_map. destruct symdirs; [left; auto |]. destruct (negb _); [left | right; left]; auto.
Qed.
End Sw.

(** A swiping network over any number of dimensions, each of at least two positions, has one hidden layer per position and per direction of swipe; each receives the input of its position and the layers before it
    in its swipe, in every dimension; the network sorts, and the weights are shared as the symmetries demand. *)
Theorem C54_swiping symdims symdirs z dims name enc nm mp : dims <> [] -> (forall d, In d dims -> 1 < d) -> 0 < s_in z /\ 0 < s_out z /\ 0 < s_hin z /\ 0 < s_hout z -> (forall a b, enc a = enc b -> ssame a b) ->
  exists ops order conns, swiping symdims symdirs z dims = Ok ops /\ (forall u v, (exists c, In (AConn c) ops /\ a_in c = u /\ a_out c = v) <-> sjoined dims u v) /\ (forall c, In (AConn c) ops -> fits (smother_size z) c) /\
  sortModules name (nrun empty_net (map (lower enc nm) ops)) = Ok (order, conns) /\ NoDup order /\
  (forall x, In x order <-> exists u, Forall2 lt u dims /\ (x = enc (SIn u) \/ x = enc (SOut u) \/ exists s, s < 2 ^ length dims /\ x = enc (SHid u s))) /\
  (forall u v, sjoined dims u v -> before (enc u) (enc v) order) /\
  paramdim mp (fun _ => 0) (sum (smother_size z) (mothers sm_eqb ops [])) (order, conns) =
  sum mp order + (s_in z * s_hin z + s_hout z * s_out z + (if symdims then 1 else length dims) * (if symdirs then 1 else 2) * (s_hout z * s_hin z)).
Proof.
  intros Hne Hd Hz HE. set (ops := sops symdims symdirs z dims). pose proof (s_joined symdims symdirs z dims Hne) as SJ. fold ops in SJ. pose proof (s_mod symdims symdirs z dims Hne) as SM. fold ops in SM. pose proof (s_conn symdims symdirs z dims Hne) as SC. fold ops in SC.
  assert (HC : aclosed ops).
  { intros c Hc. rewrite !SM. apply SC in Hc as (u & s & Hu & Hs & [-> | [-> | (d & p & Ha & ->)]]); cbn [a_in a_out]; auto. assert (Forall2 lt p dims) by apply Ha. auto. }
  assert (MQ : forall a b : smother, sm_eqb a b = true <-> a = b).
  { intros [| | d o] [| | d' o']; cbn [sm_eqb]; try (split; intros E; [discriminate E | discriminate E]); try (split; intros _; reflexivity). rewrite andb_true_iff, Nat.eqb_eq. split.
    - intros [-> E]. destruct o as [x |], o' as [y |]; try discriminate; auto. destruct x, y; try discriminate; reflexivity.
    - intros E. injection E as -> ->. split; [auto |]. destruct o'; [destruct b; reflexivity | auto]. }
  destruct (shared_network sm_eqb MQ name enc nm ops (srank dims) (smother_size z) mp (sms symdims symdirs dims)) as (order & conns & ES & ND & Ho & Hb & HP).
  - intros a b _ _ E. apply HE in E. destruct a as [? | ? | u s], b as [? | ? | u' s']; cbn [ssame] in E; try contradiction; auto. destruct E as [-> ->]. auto.
  - exact HC.
  - intros c Hc. apply sjoined_rank. apply SJ. eauto.
  - apply sms_nodup.
  - intros m. apply sms_iff; auto.
  - exists ops, order, conns. split; [apply sw_eq; auto |]. split; [exact SJ |]. split; [| split; [exact ES | split; [exact ND | split; [| split]]]].
    + intros c Hc. unfold fits, width. apply SC in Hc as (u & s & Hu & Hs & [-> | [-> | (d & p & Ha & ->)]]); unfold hconn; cbn [a_inslice a_outslice a_mother smother_size fst snd]; rewrite ?Nat.sub_0_r, ?(Nat.add_comm (s_inoff z u)), ?(Nat.add_comm (s_outoff z u)), ?Nat.add_sub; lia.
    + intros x. rewrite Ho. split.
      * intros (m & Hm & <-). apply SM in Hm. destruct m as [u | u | u s]; [exists u; auto | exists u; auto |]. destruct Hm as [H1 H2]. exists u. split; [auto |]. right; right. eauto.
      * intros (u & Hu & [-> | [-> | (s & Hs & ->)]]); [exists (SIn u) | exists (SOut u) | exists (SHid u s)]; (split; [apply SM; auto | auto]).
    + intros u v J. apply SJ in J as (c & Hc & <- & <-). auto.
    + rewrite HP. f_equal. unfold sms. rewrite !sum_cons, sum_flat. rewrite (sum_const _ ((if symdirs then 1 else 2) * (s_hin z * s_hout z))).
      * cbn [smother_size]. replace (length (if symdims then [0] else seq 0 (length dims))) with (if symdims then 1 else length dims) by (destruct symdims; [auto | now rewrite seq_length]). lia.
      * intros d _. rewrite sum_map. cbn [smother_size]. destruct symdirs; rewrite ?sum_cons, ?sum_nil; lia.
Qed.
(** No dimension may have a single position, though nothing would be wrong with it. *)
Theorem C54_swiping_thin_refuted symdims symdirs z dims : In 1 dims -> swiping symdims symdirs z dims = Err AssertionError.
Proof.
  intros H. unfold swiping. cbn zeta. assert (F : forallb (fun d => 1 <? d) dims = false). { destruct (forallb _ dims) eqn:E; [| auto]. rewrite forallb_forall in E. specialize (E 1 H). discriminate. }
  rewrite F. destruct dims; [destruct H | reflexivity].
Qed.
Definition ex_senc (m : smod) : nat := match m with SIn _ => 0 | SOut _ => 1 | SHid u s => 2 + s + 4 * (nth 0 u 0 * 3 + nth 1 u 0) end.
Definition ex_sz : ssizes := {| s_in := 2; s_out := 1; s_hin := 5; s_hout := 5; s_inoff := fun u => 2 * (nth 0 u 0 * 3 + nth 1 u 0); s_outoff := fun u => nth 0 u 0 * 3 + nth 1 u 0 |}.
Example ex_sw : exists ops order conns, swiping false true ex_sz [2; 3] = Ok ops /\ sortModules (fun m => m) (nrun empty_net (map (lower ex_senc (fun _ => 0)) ops)) = Ok (order, conns) /\
  length order = 26 /\ sum (smother_size ex_sz) (mothers sm_eqb ops []) = 10 + 5 + 50.
Proof. do 3 eexists. split; [reflexivity |]. split; [vm_compute; reflexivity |]. split; vm_compute; reflexivity. Qed.
Print Assumptions C54_swiping.
Print Assumptions C54_swiping_thin_refuted.
