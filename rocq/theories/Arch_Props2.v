(** Property C54, continued: networks of shared connections. *)
From Verif Require Import Base Dict StableSort Topo_Model Topo_Spec Topo_Proofs Topo_Proofs2 Arch_Model Arch_Proofs Arch_Props.
From Verif Require Utilities_Model Utilities_Proofs.

(** the shape of a connection is the one of its mother *)
Definition width (s : nat * nat) : nat := snd s - fst s.
Definition fits {M Mo} (msize : Mo -> nat) (c : aconn M Mo) : Prop := width (a_inslice c) * width (a_outslice c) = msize (a_mother c).

(** ** Bidirectional networks *)
Definition bsame (a b : bmod) : Prop := match a, b with BIn _, BIn _ | BOut _, BOut _ => True | BHid d i, BHid d' i' => d = d' /\ i = i' | _, _ => False end.
(** forwards in time for the first row of hidden layers, backwards for the second *)
Inductive bjoined (n : nat) : bmod -> bmod -> Prop :=
| bj_in d i : d < 2 -> i < n -> bjoined n (BIn i) (BHid d i)
| bj_out d i : d < 2 -> i < n -> bjoined n (BHid d i) (BOut i)
| bj_forward i : i + 1 < n -> bjoined n (BHid 0 i) (BHid 0 (i + 1))
| bj_backward i : i + 1 < n -> bjoined n (BHid 1 (i + 1)) (BHid 1 i).
Definition brank (n : nat) (m : bmod) : nat := match m with BIn _ => 0 | BHid 0 i => 1 + i | BHid _ i => 1 + (n - i) | BOut _ => n + 2 end.

Section Bi.
Variables (sym : bool) (z : bsizes) (n : nat).
Hypothesis Hn : 1 < n.
Hypothesis Hz : 0 < b_in z /\ 0 < b_out z /\ 0 < b_hin z /\ 0 < b_hout z.
Definition bops : list (aop bmod bmother) := map (fun i => AMod (BIn i)) (seq 0 n) ++ map (fun i => AMod (BOut i)) (seq 0 n) ++
  map (fun i => AMod (BHid 0 i)) (seq 0 n) ++ map (fun i => AMod (BHid 1 i)) (seq 0 n) ++ flat_map (bconns sym z n) (seq 0 n).
Lemma bidir_eq : bidirectional sym z n = Ok bops.
Proof.
  unfold bidirectional, bops. destruct Hz as (A & B & C & D). destruct (Nat.leb_spec n 1); [lia |]. destruct (Nat.eqb_spec (b_in z * b_hin z) 0); [nia |]. destruct (Nat.eqb_spec (b_out z * b_hout z) 0); [nia |]. destruct (Nat.eqb_spec (b_hin z * b_hout z) 0); [nia |]. reflexivity.
Qed.
Lemma b_mod m : In (AMod m) bops <-> match m with BIn i | BOut i => i < n | BHid d i => d < 2 /\ i < n end.
Proof.
  unfold bops. rewrite !in_app_iff, !in_map_iff. assert (NF : ~ In (AMod m) (flat_map (bconns sym z n) (seq 0 n))).
  { intros K. apply in_flat_map in K as (i & _ & K). unfold bconns in K. cbn zeta in K. rewrite !in_app_iff in K. destruct K as [K | [K | K]].
    - cbn [In] in K. repeat destruct K as [K | K]; try discriminate; auto.
    - destruct (0 <? i); [destruct K as [K | []]; discriminate | destruct K].
    - destruct (i <? n - 1); [destruct K as [K | []]; discriminate | destruct K]. }
  split.
  - intros [(i & E & Hi) | [(i & E & Hi) | [(i & E & Hi) | [(i & E & Hi) | K]]]]; [| | | | contradiction]; apply in_seq in Hi; injection E as <-; lia.
  - destruct m as [i | i | d i]; intros H.
    + left. exists i. split; [auto | apply in_seq; lia].
    + right; left. exists i. split; [auto | apply in_seq; lia].
    + destruct d as [| [| d]]; [right; right; left | right; right; right; left | lia]; exists i; (split; [auto | apply in_seq; lia]).
Qed.
Lemma b_conn c : In (AConn c) bops <-> exists i, i < n /\ In (AConn c) (bconns sym z n i).
Proof.
  unfold bops. rewrite !in_app_iff, in_flat_map, !in_map_iff. split.
  - intros [(i & E & _) | [(i & E & _) | [(i & E & _) | [(i & E & _) | (i & Hi & K)]]]]; try discriminate. apply in_seq in Hi. exists i. split; [lia | auto].
  - intros (i & Hi & K). right; right; right; right. exists i. split; [apply in_seq; lia | auto].
Qed.
Ltac bcases K := unfold bconns in K; cbn zeta in K; rewrite !in_app_iff in K; destruct K as [K | [K | K]];
  [cbn [In] in K; destruct K as [K | [K | [K | [K | []]]]]; injection K as <- |
   match type of K with context[0 <? ?i] => destruct (Nat.ltb_spec 0 i) as [L | L] end; [destruct K as [K | []]; injection K as <- | destruct K] |
   match type of K with context[?i <? n - 1] => destruct (Nat.ltb_spec i (n - 1)) as [L | L] end; [destruct K as [K | []]; injection K as <- | destruct K]].
Lemma b_joined u v : (exists c, In (AConn c) bops /\ a_in c = u /\ a_out c = v) <-> bjoined n u v.
Proof.
  split.
  - intros (c & Hc & <- & <-). apply b_conn in Hc as (i & Hi & K). bcases K; cbn [a_in a_out]; try (constructor; lia).
    replace i with ((i - 1) + 1) at 2 by lia. constructor. lia.
  - assert (X : forall i c, i < n -> In (AConn c) (bconns sym z n i) -> a_in c = u -> a_out c = v -> exists c, In (AConn c) bops /\ a_in c = u /\ a_out c = v).
    { intros i c Hi K E1 E2. exists c. split; [apply b_conn; exists i; auto | auto]. }
    intros J. inversion J as [d i Hd Hi E1 E2 | d i Hd Hi E1 E2 | i Hi E1 E2 | i Hi E1 E2]; subst u v.
    + destruct d as [| [| d]]; [eapply (X i); [auto | unfold bconns; cbn zeta; left; reflexivity | auto | auto] | eapply (X i); [auto | unfold bconns; cbn zeta; right; left; reflexivity | auto | auto] | lia].
    + destruct d as [| [| d]]; [eapply (X i); [auto | unfold bconns; cbn zeta; right; right; left; reflexivity | auto | auto] | eapply (X i); [auto | unfold bconns; cbn zeta; right; right; right; left; reflexivity | auto | auto] | lia].
    + eapply (X (i + 1)); [lia | unfold bconns; cbn zeta; rewrite !in_app_iff; right; left; destruct (Nat.ltb_spec 0 (i + 1)); [left; reflexivity | lia] | cbn [a_in]; f_equal; lia | auto].
    + eapply (X i); [lia | unfold bconns; cbn zeta; rewrite !in_app_iff; right; right; destruct (Nat.ltb_spec i (n - 1)); [left; reflexivity | lia] | auto | auto].
Qed.
Lemma b_fits c : In (AConn c) bops -> fits (bmother_size z) c.
Proof.
  intros Hc. apply b_conn in Hc as (i & Hi & K). bcases K; unfold fits, width, bmother_size, bdir; cbn [a_inslice a_outslice a_mother fst snd]; nia.
Qed.
Definition bms : list bmother := [(0, false); (1, false); (2, false)] ++ (if sym then [] else [(0, true); (1, true); (2, true)]).
Lemma bms_iff m : In m bms <-> exists c, In (AConn c) bops /\ a_mother c = m.
Proof.
  split.
  - assert (X : forall i c, i < n -> In (AConn c) (bconns sym z n i) -> a_mother c = m -> exists c, In (AConn c) bops /\ a_mother c = m).
    { intros i c Hi K E1. exists c. split; [apply b_conn; exists i; auto | auto]. }
    unfold bms. intros H. apply in_app_or in H as [H | H].
    + destruct H as [<- | [<- | [<- | []]]].
      * eapply (X 0); [lia | unfold bconns; cbn zeta; left; reflexivity | unfold bdir; cbn [a_mother]; destruct sym; auto].
      * eapply (X 0); [lia | unfold bconns; cbn zeta; right; right; left; reflexivity | unfold bdir; cbn [a_mother]; destruct sym; auto].
      * eapply (X 1); [lia | unfold bconns; cbn zeta; rewrite !in_app_iff; right; left; left; reflexivity | unfold bdir; cbn [a_mother]; destruct sym; auto].
    + destruct sym eqn:ES; [destruct H |]. destruct H as [<- | [<- | [<- | []]]].
      * eapply (X 0); [lia | unfold bconns; cbn zeta; right; left; reflexivity | auto].
      * eapply (X 0); [lia | unfold bconns; cbn zeta; right; right; right; left; reflexivity | auto].
      * eapply (X 0); [lia | unfold bconns; cbn zeta; rewrite !in_app_iff; right; right; destruct (Nat.ltb_spec 0 (n - 1)); [left; reflexivity | lia] | auto].
  - intros (c & Hc & <-). apply b_conn in Hc as (i & Hi & K). unfold bms. bcases K; unfold bdir; cbn [a_mother]; destruct sym; cbn [app In]; auto 9.
Qed.
End Bi.

(** The construction succeeds for a sequence of at least two items and non-empty layers; the connections are those of the description; the network sorts; directions share
    their weights exactly when it is symmetric.  Modules of the input are views of one layer, so they may have the same identity; so for the output. *)
Theorem C54_bidirectional sym z n name enc nm mp : 1 < n -> 0 < b_in z /\ 0 < b_out z /\ 0 < b_hin z /\ 0 < b_hout z -> (forall a b, enc a = enc b -> bsame a b) ->
  exists ops order conns, bidirectional sym z n = Ok ops /\ (forall u v, (exists c, In (AConn c) ops /\ a_in c = u /\ a_out c = v) <-> bjoined n u v) /\ (forall c, In (AConn c) ops -> fits (bmother_size z) c) /\
  sortModules name (nrun empty_net (map (lower enc nm) ops)) = Ok (order, conns) /\ NoDup order /\
  (forall x, In x order <-> exists i, i < n /\ (x = enc (BIn i) \/ x = enc (BOut i) \/ x = enc (BHid 0 i) \/ x = enc (BHid 1 i))) /\
  (forall u v, bjoined n u v -> before (enc u) (enc v) order) /\
  paramdim mp (fun _ => 0) (sum (bmother_size z) (mothers bm_eqb ops [])) (order, conns) =
  sum mp order + (if sym then 1 else 2) * (b_in z * b_hin z + b_hout z * b_out z + b_hout z * b_hin z).
Proof.
  intros Hn Hz HE. set (ops := bops sym z n). assert (HC : aclosed ops).
  { intros c Hc. unfold ops. rewrite !(b_mod sym z n Hn Hz). assert (J : bjoined n (a_in c) (a_out c)) by (apply (b_joined sym z n Hn Hz); exists c; auto). destruct J; lia. }
  assert (MQ : forall a b : bmother, bm_eqb a b = true <-> a = b). { intros [a x] [b y]. unfold bm_eqb. cbn [fst snd]. rewrite andb_true_iff, Nat.eqb_eq, eqb_true_iff. split; [intros [-> ->]; auto | intros E; injection E; auto]. }
  destruct (shared_network bm_eqb MQ name enc nm ops (brank n) (bmother_size z) mp (bms sym)) as (order & conns & ES & ND & Ho & Hb & HP).
  - intros a b _ _ E. apply HE in E. destruct a as [? | ? | d i], b as [? | ? | d' i']; cbn [bsame] in E; try contradiction; auto. destruct E as [-> ->]. auto.
  - exact HC.
  - intros c Hc. assert (J : bjoined n (a_in c) (a_out c)) by (apply (b_joined sym z n Hn Hz); exists c; auto). destruct J as [d i Hd Hi | d i Hd Hi | i Hi | i Hi]; cbn [brank]; try (destruct d); lia.
  - unfold bms. destruct sym; cbn [app]; repeat constructor; cbn [In]; intuition discriminate.
  - apply bms_iff; auto.
  - exists ops, order, conns. split; [apply bidir_eq; auto |]. split; [apply (b_joined sym z n Hn Hz) |]. split; [apply (b_fits sym z n Hn Hz) |]. split; [auto |]. split; [auto |]. split; [| split].
    + intros x. rewrite Ho. split.
      * intros (m & Hm & <-). apply (b_mod sym z n Hn Hz) in Hm. destruct m as [i | i | d i]; [exists i; auto | exists i; auto |]. destruct Hm as [Hd Hi]. exists i. split; [auto |]. destruct d as [| [| d]]; [| | lia]; auto.
      * intros (i & Hi & [-> | [-> | [-> | ->]]]); [exists (BIn i) | exists (BOut i) | exists (BHid 0 i) | exists (BHid 1 i)]; (split; [apply (b_mod sym z n Hn Hz); lia | auto]).
    + intros u v J. apply (b_joined sym z n Hn Hz) in J as (c & Hc & <- & <-). auto.
    + rewrite HP. f_equal. unfold bms. destruct sym; cbn [app]; rewrite ?sum_cons, sum_nil; unfold bmother_size; cbn [fst]; lia.
Qed.
(** Sequences of one item cannot be handled at all: views on a layer must be proper slices. *)
Theorem C54_bidirectional_short_refuted sym z n : n <= 1 -> bidirectional sym z n = Err AssertionError.
Proof. intros H. unfold bidirectional. destruct (Nat.leb_spec n 1); [reflexivity | lia]. Qed.
Definition ex_benc (m : bmod) : nat := match m with BIn _ => 0 | BOut _ => 1 | BHid 0 i => 2 + 2 * i | BHid (S d) i => 3 + 2 * i end.
Definition ex_bz : bsizes := {| b_in := 2; b_out := 1; b_hin := 5; b_hout := 5 |}.
Example ex_bi : exists ops order conns, bidirectional false ex_bz 3 = Ok ops /\ sortModules (fun m => m) (nrun empty_net (map (lower ex_benc (fun _ => 0)) ops)) = Ok (order, conns) /\
  order = [0; 2; 7; 4; 5; 6; 3; 1] /\ sum (bmother_size ex_bz) (mothers bm_eqb ops []) = 80.
Proof. do 3 eexists. split; [reflexivity |]. split; [vm_compute; reflexivity |]. split; vm_compute; reflexivity. Qed.

(** ** Convolutional networks for boards *)
Section Conv.
Variables inputdim insize convSize features : nat.
Hypothesis H1 : 1 <= inputdim. Hypothesis H2 : 1 <= features. Hypothesis H3 : 1 <= convSize. Hypothesis H4 : convSize < insize.
Let outdim := insize - convSize + 1.
Definition cops : list (aop nat cmother) := map AMod [0; 1; 2] ++ flat_map (fun i => flat_map (fun j => cconns inputdim insize convSize features i j) (seq 0 outdim)) (seq 0 outdim).
Lemma conv_eq : convolutional inputdim insize convSize features = Ok cops.
Proof.
  unfold convolutional. fold outdim. destruct (Nat.eqb_spec (convSize * features * inputdim) 0); [nia |]. rewrite andb_false_r. destruct (Nat.eqb_spec features 0); [lia |]. cbn [orb].
  destruct (Nat.ltb_spec (features + features) (2 * (outdim * outdim * features))) as [| K]; cbn [negb].
  - destruct (Nat.ltb_spec (inputdim * insize * insize + convSize * inputdim) (2 * (inputdim * insize * insize))) as [| K]; [rewrite andb_false_r; reflexivity |]. exfalso. assert (convSize * inputdim < inputdim * insize) by nia. assert (inputdim * insize <= inputdim * insize * insize) by nia. lia.
  - exfalso. assert (2 <= outdim) by (unfold outdim; lia). clearbody outdim. assert (4 <= outdim * outdim) by nia. set (q := outdim * outdim) in *. clearbody q. nia.
Qed.
Lemma c_mod m : In (AMod m) cops <-> m < 3.
Proof.
  unfold cops. rewrite in_app_iff, in_flat_map. cbn [map In]. split.
  - intros [[E | [E | [E | []]]] | (i & _ & K)]; try (injection E as <-; lia). apply in_flat_map in K as (j & _ & K). unfold cconns in K. cbn zeta in K. destruct K as [K | K]; [discriminate |]. apply in_map_iff in K as (k & K & _). discriminate.
  - intros H. left. destruct m as [| [| [| m]]]; [auto | auto | auto | lia].
Qed.
Lemma c_conn c : In (AConn c) cops <-> exists i j, i < outdim /\ j < outdim /\ let offset := i * outdim + j in let hs := (offset * features, (offset + 1) * features) in
  (c = {| a_in := 1; a_out := 2; a_mother := None; a_inslice := hs; a_outslice := (offset, offset + 1) |} \/
   exists k, k < convSize /\ let off := insize * (i + k) + j in c = {| a_in := 0; a_out := 1; a_mother := Some k; a_inslice := (off * inputdim, off * inputdim + convSize * inputdim); a_outslice := hs |}).
Proof.
  unfold cops. rewrite in_app_iff, in_flat_map. split.
  - intros [[E | [E | [E | []]]] | (i & Hi & K)]; try discriminate. apply in_flat_map in K as (j & Hj & K). apply in_seq in Hi, Hj. exists i, j. split; [lia |]. split; [lia |]. cbn zeta. unfold cconns in K. cbn zeta in K. fold outdim in K. destruct K as [K | K]; [left; injection K as <-; auto |]. apply in_map_iff in K as (k & K & Hk). apply in_seq in Hk. right. exists k. split; [lia |]. injection K as <-. auto.
  - intros (i & j & Hi & Hj & K). right. exists i. split; [apply in_seq; lia |]. apply in_flat_map. exists j. split; [apply in_seq; lia |]. unfold cconns. cbn zeta in *. fold outdim. destruct K as [-> | (k & Hk & ->)]; [left; auto |]. right. apply in_map_iff. exists k. split; [auto | apply in_seq; lia].
Qed.
End Conv.

(** Every position of the window on the board has its own block of feature detectors, fed by exactly the rows of that window, and the k-th rows of all windows share their weights. *)
Theorem C54_convolutional inputdim insize convSize features name enc nm mp : 1 <= inputdim -> 1 <= features -> 1 <= convSize -> convSize < insize -> (forall a b, a < 3 -> b < 3 -> enc a = enc b -> a = b) ->
  let outdim := insize - convSize + 1 in
  let cells := inputdim * insize * insize in
  exists ops order conns, convolutional inputdim insize convSize features = Ok ops /\
  (forall c, In (AConn c) ops -> fits (cmother_size inputdim convSize features) c) /\
  (* the features of position p are read by output p; they read the k-th row of the window through the k-th mother *)
  (forall c, In (AConn c) ops -> a_in c = 1 -> a_out c = 2 /\ a_mother c = None /\ exists p, p < outdim * outdim /\ a_inslice c = (features * p, features * (p + 1)) /\ a_outslice c = (p, p + 1)) /\
  (forall c, In (AConn c) ops -> a_in c = 0 -> a_out c = 1 /\ exists i j k, i < outdim /\ j < outdim /\ k < convSize /\ a_mother c = Some k /\
     a_outslice c = (features * (i * outdim + j), features * (i * outdim + j + 1)) /\ a_inslice c = (inputdim * ((i + k) * insize + j), inputdim * ((i + k) * insize + j + convSize)) /\ i + k < insize /\ j + convSize <= insize /\ snd (a_inslice c) <= cells) /\
  (forall i j k, i < outdim -> j < outdim -> k < convSize -> exists c, In (AConn c) ops /\ a_in c = 0 /\ a_mother c = Some k /\ a_outslice c = (features * (i * outdim + j), features * (i * outdim + j + 1)) /\
     a_inslice c = (inputdim * ((i + k) * insize + j), inputdim * ((i + k) * insize + j + convSize))) /\
  (forall p, p < outdim * outdim -> exists c, In (AConn c) ops /\ a_in c = 1 /\ a_inslice c = (features * p, features * (p + 1)) /\ a_outslice c = (p, p + 1)) /\
  sortModules name (nrun empty_net (map (lower enc nm) ops)) = Ok (order, conns) /\ Permutation order (map enc [0; 1; 2]) /\ before (enc 0) (enc 1) order /\ before (enc 1) (enc 2) order /\
  paramdim mp (fun _ => 0) (sum (cmother_size inputdim convSize features) (mothers cm_eqb ops [])) (order, conns) =
  sum mp order + convSize * convSize * inputdim * features + features.
Proof.
  intros H1 H2 H3 H4 HE. cbn zeta. set (outdim := insize - convSize + 1). set (ops := cops inputdim insize convSize features).
  pose proof (c_conn inputdim insize convSize features H1 H2 H3 H4) as CC. cbn zeta in CC. fold outdim in CC. fold ops in CC. pose proof (c_mod inputdim insize convSize features H1 H2 H3 H4) as CM. fold ops in CM.
  assert (OD : outdim + convSize = insize + 1) by (unfold outdim; lia). clearbody outdim.
  assert (MQ : forall a b : cmother, cm_eqb a b = true <-> a = b). { intros [a |] [b |]; cbn [cm_eqb]; split; intros E; try (apply Nat.eqb_eq in E); try discriminate; try (injection E as E); try (apply Nat.eqb_eq); auto; congruence. }
  set (ms := None :: map (@Some nat) (seq 0 convSize)).
  assert (MI : forall m, In m ms <-> exists c, In (AConn c) ops /\ a_mother c = m).
  { intros m. unfold ms. cbn [In]. rewrite in_map_iff. split.
    - intros [<- | (k & <- & Hk)]; [eexists; split; [apply CC; exists 0, 0; split; [lia |]; split; [lia |]; left; reflexivity | reflexivity] |]. apply in_seq in Hk. eexists; split; [apply CC; exists 0, 0; split; [lia |]; split; [lia |]; right; exists k; split; [lia | reflexivity] | reflexivity].
    - intros (c & Hc & <-). apply CC in Hc as (i & j & Hi & Hj & [-> | (k & Hk & ->)]); cbn [a_mother]; [left; auto | right; exists k; split; [auto | apply in_seq; lia]]. }
  assert (RK : forall c, In (AConn c) ops -> a_in c < a_out c). { intros c Hc. apply CC in Hc as (i & j & Hi & Hj & [-> | (k & Hk & ->)]); cbn [a_in a_out]; lia. }
  destruct (shared_network cm_eqb MQ name enc nm ops (fun m => m) (cmother_size inputdim convSize features) mp ms) as (order & conns & ES & ND & Ho & Hb & HP).
  - intros a b Ha Hb. apply CM in Ha, Hb. auto.
  - intros c Hc. rewrite !CM. apply CC in Hc as (i & j & Hi & Hj & [-> | (k & Hk & ->)]); cbn [a_in a_out]; lia.
  - exact RK.
  - unfold ms. constructor; [intros K; apply in_map_iff in K as (k & K & _); discriminate |]. apply NoDup_map_on; [intros; congruence | apply seq_NoDup].
  - exact MI.
  - exists ops, order, conns. split; [apply conv_eq; auto |]. split; [| split; [| split; [| split; [| split; [| split; [| split; [| split; [| split]]]]]]]].
    + intros c Hc. apply CC in Hc as (i & j & Hi & Hj & [-> | (k & Hk & ->)]); unfold fits, width, cmother_size; cbn [a_inslice a_outslice a_mother fst snd]; [rewrite !(Nat.mul_add_distr_r _ 1); lia |].
      rewrite (Nat.mul_add_distr_r (i * outdim + j) 1 features). replace ((insize * (i + k) + j) * inputdim + convSize * inputdim - (insize * (i + k) + j) * inputdim) with (convSize * inputdim) by lia. replace ((i * outdim + j) * features + 1 * features - (i * outdim + j) * features) with features by lia. lia.
    + intros c Hc E. apply CC in Hc as (i & j & Hi & Hj & [-> | (k & Hk & ->)]); cbn [a_in] in E; [| discriminate]. cbn [a_out a_mother a_inslice a_outslice]. split; [auto |]. split; [auto |]. exists (i * outdim + j). split; [nia |]. split; [f_equal; lia | auto].
    + intros c Hc E. apply CC in Hc as (i & j & Hi & Hj & [-> | (k & Hk & ->)]); cbn [a_in] in E; [discriminate |]. cbn [a_out a_mother a_inslice a_outslice snd]. split; [auto |]. exists i, j, k. repeat (split; [auto; lia |]). split; [f_equal; lia |]. split; [f_equal; lia |]. split; [lia |]. split; [lia |].
      assert (insize * (i + k) + j + convSize <= insize * insize) by nia. nia.
    + intros i j k Hi Hj Hk. eexists. split; [apply CC; exists i, j; split; [auto |]; split; [auto |]; right; exists k; split; [auto | reflexivity] |]. cbn [a_in a_mother a_inslice a_outslice]. split; [auto |]. split; [auto |]. split; f_equal; lia.
    + intros p Hp. assert (DM := Nat.div_mod p outdim ltac:(lia)). eexists. split; [apply CC; exists (p / outdim), (p mod outdim); split; [apply Nat.div_lt_upper_bound; lia |]; split; [apply Nat.mod_upper_bound; lia |]; left; reflexivity |]. cbn [a_in a_mother a_inslice a_outslice]. replace (p / outdim * outdim + p mod outdim) with p by lia. split; [auto |]. split; [f_equal; lia | auto].
    + exact ES.
    + apply NoDup_Permutation; [auto | apply NoDup_map_on; [| repeat constructor; cbn [In]; lia] |].
      * intros a b Ha Hb'. apply HE; cbn [In] in *; lia.
      * intros x. rewrite Ho, in_map_iff. split; intros (m & A & B).
        -- apply CM in A. exists m. split; [auto |]. cbn [In]. lia.
        -- exists m. split; [apply CM; cbn [In] in B; lia | auto].
    + refine (Hb {| a_in := 0; a_out := 1; a_mother := Some 0; a_inslice := _; a_outslice := _ |} _). apply CC. exists 0, 0. split; [lia |]. split; [lia |]. right. exists 0. split; [lia | reflexivity].
    + refine (Hb {| a_in := 1; a_out := 2; a_mother := None; a_inslice := _; a_outslice := _ |} _). apply CC. exists 0, 0. split; [lia |]. split; [lia |]. left. reflexivity.
    + rewrite HP. assert (SM : sum (cmother_size inputdim convSize features) ms = features + convSize * (convSize * features * inputdim)).
      { unfold ms. rewrite sum_cons, sum_map. rewrite (sum_const _ (convSize * features * inputdim)) by reflexivity. rewrite seq_length. reflexivity. }
      rewrite SM. lia.
Qed.
(** A window as large as the board, though it makes sense, is refused. *)
Theorem C54_convolutional_whole_refuted inputdim insize features : 1 <= inputdim -> 1 <= features -> 1 <= insize -> convolutional inputdim insize insize features = Err AssertionError.
Proof.
  intros H1 H2 H3. unfold convolutional. replace (insize - insize + 1) with 1 by lia. destruct (Nat.eqb_spec (insize * features * inputdim) 0); [nia |]. rewrite andb_false_r. destruct (Nat.eqb_spec features 0); [lia |]. cbn [orb].
  destruct (Nat.ltb_spec (features + features) (2 * (1 * 1 * features))); [lia | reflexivity].
Qed.
Example ex_conv : exists ops order conns, convolutional 2 4 3 5 = Ok ops /\ sortModules (fun m => m) (nrun empty_net (map (lower (fun m => m) (fun _ => 0)) ops)) = Ok (order, conns) /\
  order = [0; 1; 2] /\ sum (cmother_size 2 3 5) (mothers cm_eqb ops []) = 95.
Proof. do 3 eexists. split; [reflexivity |]. split; [vm_compute; reflexivity |]. split; vm_compute; reflexivity. Qed.
Print Assumptions C54_bidirectional.
Print Assumptions C54_bidirectional_short_refuted.
Print Assumptions C54_convolutional.
Print Assumptions C54_convolutional_whole_refuted.
