(** Lemmas for C54: sorting and counting the parameters of a constructed network. *)
From Verif Require Import Base Dict StableSort Topo_Model Topo_Spec Topo_Proofs Topo_Proofs2 Arch_Model.

Definition conns_list (ops : list nop) : list conn := flat_map (fun o => match o with AddConnection c => [c] | _ => [] end) ops.
Definition sum {A} (f : A -> nat) (l : list A) : nat := list_sum (map f l).
Lemma sum_nil {A} (f : A -> nat) : sum f [] = 0. Proof. reflexivity. Qed.
Lemma sum_cons {A} (f : A -> nat) x l : sum f (x :: l) = f x + sum f l. Proof. reflexivity. Qed.
Lemma sum_app {A} (f : A -> nat) l l' : sum f (l ++ l') = sum f l + sum f l'.
Proof. unfold sum. now rewrite map_app, list_sum_app. Qed.
Lemma sum_perm {A} (f : A -> nat) l l' : Permutation l l' -> sum f l = sum f l'.
Proof. induction 1; rewrite ?sum_cons; lia. Qed.
Lemma sum_ext {A} (f g : A -> nat) l : (forall x, In x l -> f x = g x) -> sum f l = sum g l.
Proof. intros H. unfold sum. f_equal. now apply map_ext_in. Qed.
Lemma sum_map {A B} (f : B -> nat) (h : A -> B) l : sum f (map h l) = sum (fun x => f (h x)) l.
Proof. unfold sum. now rewrite map_map. Qed.
Lemma sum_plus {A} (f g : A -> nat) l : sum (fun x => f x + g x) l = sum f l + sum g l.
Proof. induction l; rewrite ?sum_nil, ?sum_cons; lia. Qed.
Lemma sum_flat {A B} (f : B -> nat) (h : A -> list B) l : sum f (flat_map h l) = sum (fun x => sum f (h x)) l.
Proof. induction l as [| x l IH]; cbn [flat_map]; rewrite ?sum_app, ?sum_cons; auto. Qed.
Lemma sum_const {A} (f : A -> nat) k l : (forall x, In x l -> f x = k) -> sum f l = length l * k.
Proof. induction l as [| x l IH]; intros H; [auto |]. rewrite sum_cons, IH by (intros; apply H; right; auto). rewrite (H x) by (left; auto). cbn. auto. Qed.

Lemma by_source (cp : conn -> nat) order : NoDup order -> forall ops, (forall c, In (AddConnection c) ops -> In (c_in c) order) ->
  sum (fun m => sum cp (outgoing ops m)) order = sum cp (conns_list ops).
Proof.
  intros ND. induction ops as [| o ops IH]; intros H.
  - cbn. rewrite (sum_const _ 0) by auto. lia.
  - assert (H' : forall c, In (AddConnection c) ops -> In (c_in c) order) by (intros; apply H; right; auto). specialize (IH H'). destruct o as [m | c]; [exact IH |].
    change (conns_list (AddConnection c :: ops)) with (c :: conns_list ops). rewrite sum_cons, <- IH. clear IH.
    assert (E : forall l, NoDup l -> sum (fun m => sum cp (outgoing (AddConnection c :: ops) m)) l = (if in_dec Nat.eq_dec (c_in c) l then cp c else 0) + sum (fun m => sum cp (outgoing ops m)) l).
    { induction l as [| m l IHl]; intros NDl; [reflexivity |]. inversion NDl as [| ? ? N1 N2]; subst. rewrite !sum_cons, IHl by auto. unfold outgoing at 1. cbn [flat_map]. fold (outgoing ops m). rewrite sum_app.
      destruct (Nat.eqb_spec (c_in c) m) as [E | N].
      - rewrite sum_cons, sum_nil. destruct (in_dec Nat.eq_dec (c_in c) l) as [K | _]; [subst m; contradiction |]. destruct (in_dec Nat.eq_dec (c_in c) (m :: l)) as [_ | K]; [lia | exfalso; apply K; left; auto].
      - rewrite sum_nil. destruct (in_dec Nat.eq_dec (c_in c) l) as [K | K]; destruct (in_dec Nat.eq_dec (c_in c) (m :: l)) as [K' | K']; try lia; [exfalso; apply K'; right; auto | exfalso; destruct K' as [K' | K']; [congruence | contradiction]]. }
    rewrite E by auto. destruct (in_dec Nat.eq_dec (c_in c) order) as [_ | K]; [auto |]. exfalso. apply K. apply H. left; auto.
Qed.
(** the parameters of a sorted network *)
Lemma paramdim_total name mp cp extra ops s mods : closed ops -> acyclic (linked ops) -> NoDup mods -> (forall m, In m mods <-> has_module ops m) ->
  sortModules name (nrun empty_net ops) = Ok s -> paramdim mp cp extra s = sum mp mods + sum cp (conns_list ops) + extra.
Proof.
  intros HC HA ND HM HS. unfold sortModules in HS. destruct (topo_session name ops HC) as [T _]. destruct (T HA) as (order & E & NDo & Ho & _). rewrite E in HS. cbn [rbind] in HS. injection HS as <-.
  unfold paramdim. f_equal. unfold containers. cbn [fst snd]. set (w := fun c => match c with CMod m => mp m | CConn c => cp c end). change (list_sum (map w ?l)) with (sum w l). rewrite sum_flat.
  pose proof (sess_run ops) as SS. set (n := nrun empty_net ops) in *.
  rewrite (sum_ext _ (fun m => mp m + sum cp (outgoing ops m))).
  - rewrite sum_plus. f_equal; [apply sum_perm; apply NoDup_Permutation; auto; intros m; rewrite Ho, HM; tauto |]. apply by_source; auto. intros c Hc. apply Ho. apply (HC c Hc).
  - intros m Hm. rewrite sum_cons. f_equal. rewrite sum_map. cbn [w]. change (fun x : conn => cp x) with cp. rewrite sort_conns_get by apply SS. destruct (dget m (n_conns n)) as [l |] eqn:EL; [| exfalso; apply (proj1 (s_src _ _ SS m EL)); apply Ho; auto].
    rewrite (s_get _ _ SS m l EL). fold (outgoing ops m). destruct (inS m (n_modules n)); [apply sum_perm; apply isort_perm | auto].
Qed.
(** a rank that grows along every connection *)
Lemma rank_acyclic {A} (R : A -> A -> Prop) (rk : A -> nat) : (forall u v, R u v -> rk u < rk v) -> acyclic R.
Proof.
  intros H x K. assert (L : forall u v, clos_trans A R u v -> rk u < rk v) by (induction 1; [auto | lia]). specialize (L x x K). lia.
Qed.

(** ** Networks of shared connections *)
Section Shared.
Context {M Mo : Type} (mo_eqb : Mo -> Mo -> bool) (mo_iff : forall a b, mo_eqb a b = true <-> a = b).
Notation aop := (aop M Mo). Notation aconn := (aconn M Mo).
Definition aclosed (ops : list aop) : Prop := forall c, In (AConn c) ops -> In (AMod (a_in c)) ops /\ In (AMod (a_out c)) ops.
Lemma lower_conn enc nm (ops : list aop) c : In (AddConnection c) (map (lower enc nm) ops) -> exists a, In (AConn a) ops /\ c_in c = enc (a_in a) /\ c_out c = enc (a_out a).
Proof. intros H. apply in_map_iff in H as (o & E & Ho). destruct o as [m | a]; cbn in E; [discriminate |]. injection E as <-. exists a. auto. Qed.
Lemma lower_closed enc nm ops : aclosed ops -> closed (map (lower enc nm) ops).
Proof.
  intros H c Hc. apply lower_conn in Hc as (a & Ha & -> & ->). destruct (H a Ha) as [H1 H2]. unfold has_module. split; [apply (in_map (lower enc nm) _ _ H1) | apply (in_map (lower enc nm) _ _ H2)].
Qed.
Lemma lower_acyclic enc nm (ops : list aop) (rk : M -> nat) : (forall a b, In (AMod a) ops -> In (AMod b) ops -> enc a = enc b -> rk a = rk b) -> aclosed ops ->
  (forall c, In (AConn c) ops -> rk (a_in c) < rk (a_out c)) -> acyclic (linked (map (lower enc nm) ops)).
Proof.
  intros HE HC HR x K. assert (L : forall u v, clos_trans nat (linked (map (lower enc nm) ops)) u v -> exists a b, In (AMod a) ops /\ In (AMod b) ops /\ enc a = u /\ enc b = v /\ rk a < rk b).
  { induction 1 as [u v (c & Hc & <- & <-) | u w v _ (a & b & A1 & A2 & A3 & A4 & A5) _ (a' & b' & B1 & B2 & B3 & B4 & B5)].
    - apply lower_conn in Hc as (a & Ha & -> & ->). destruct (HC a Ha) as [H1 H2]. exists (a_in a), (a_out a). repeat (split; auto).
    - exists a, b'. assert (rk b = rk a') by (apply HE; auto; congruence). repeat (split; auto). lia. }
  destruct (L x x K) as (a & b & A1 & A2 & A3 & A4 & A5). assert (rk a = rk b) by (apply HE; auto; congruence). lia.
Qed.
Lemma lower_conns enc nm (ops : list aop) : sum (fun _ : conn => 0) (conns_list (map (lower enc nm) ops)) = 0.
Proof. rewrite (sum_const _ 0) by auto. lia. Qed.
Lemma mothers_spec (ops : list aop) : forall acc, NoDup acc -> NoDup (mothers mo_eqb ops acc) /\ forall m, In m (mothers mo_eqb ops acc) <-> In m acc \/ exists c, In (AConn c) ops /\ a_mother c = m.
Proof.
  induction ops as [| o ops IH]; intros acc ND; cbn [mothers].
  - split; [auto |]. intros m. split; [auto |]. intros [H | (c & [] & _)]; auto.
  - destruct o as [x | c].
    + destruct (IH acc ND) as [A B]. split; [auto |]. intros m. rewrite B. split; (intros [H | (c & Hc & E)]; [auto |]); right; exists c; split; auto; [right; auto | destruct Hc as [Hc | Hc]; [discriminate | auto]].
    + destruct (existsb (mo_eqb (a_mother c)) acc) eqn:E.
      * assert (Hin : In (a_mother c) acc). { apply existsb_exists in E as (y & Hy & Ey). apply mo_iff in Ey. congruence. }
        destruct (IH acc ND) as [A B]. split; [auto |]. intros m. rewrite B. split; (intros [H | (c' & Hc & Em)]; [auto |]); [right; exists c'; split; auto; right; auto |]. destruct Hc as [Hc | Hc]; [left; injection Hc as <-; congruence | right; eauto].
      * assert (Hin : ~ In (a_mother c) acc). { intros K. apply Bool.not_true_iff_false in E. apply E. apply existsb_exists. exists (a_mother c). split; [auto | now apply mo_iff]. }
        destruct (IH (acc ++ [a_mother c])) as [A B]. { eapply Permutation_NoDup; [apply Permutation_cons_append | constructor; auto]. }
        split; [auto |]. intros m. rewrite B, in_app_iff. split.
        -- intros [[H | [H | []]] | (c' & Hc & Em)]; [auto | right; exists c; split; [left; auto | auto] | right; exists c'; split; [right; auto | auto]].
        -- intros [H | (c' & [Hc | Hc] & Em)]; [auto | left; right; left; injection Hc as <-; auto | right; eauto].
Qed.
(** the general statement for such networks *)
Lemma shared_network name enc nm (ops : list aop) (rk : M -> nat) (msize : Mo -> nat) (mp : nat -> nat) (ms : list Mo) :
  (forall a b, In (AMod a) ops -> In (AMod b) ops -> enc a = enc b -> rk a = rk b) -> aclosed ops -> (forall c, In (AConn c) ops -> rk (a_in c) < rk (a_out c)) ->
  NoDup ms -> (forall m, In m ms <-> exists c, In (AConn c) ops /\ a_mother c = m) ->
  let net := nrun empty_net (map (lower enc nm) ops) in
  exists order conns, sortModules name net = Ok (order, conns) /\ NoDup order /\ (forall x, In x order <-> exists m, In (AMod m) ops /\ enc m = x) /\
  (forall c, In (AConn c) ops -> before (enc (a_in c)) (enc (a_out c)) order) /\
  paramdim mp (fun _ => 0) (sum msize (mothers mo_eqb ops [])) (order, conns) = sum mp order + sum msize ms.
Proof.
  intros HE HC HR ND HM net. pose proof (lower_closed enc nm ops HC) as LC. pose proof (lower_acyclic enc nm ops rk HE HC HR) as LA. destruct (topo_session name _ LC) as [T _]. destruct (T LA) as (order & E & NDo & Ho & Hb).
  exists order, (sort_conns net). assert (ES : sortModules name net = Ok (order, sort_conns net)) by (unfold sortModules, net; rewrite E; reflexivity). split; [auto |]. split; [auto |].
  assert (HMO : forall x, has_module (map (lower enc nm) ops) x <-> exists m, In (AMod m) ops /\ enc m = x).
  { intros x. unfold has_module. rewrite in_map_iff. split; [intros (o & E' & Ho'); destruct o as [m | c]; cbn in E'; [injection E' as <-; eauto | discriminate] | intros (m & Hm & <-); exists (AMod m); auto]. }
  split; [intros x; rewrite Ho; apply HMO |]. split.
  - intros c Hc. apply Hb. eexists. split; [apply (in_map (lower enc nm) _ _ Hc) | auto].
  - destruct (mothers_spec ops [] ltac:(constructor)) as [M1 M2]. rewrite (paramdim_total name mp (fun _ => 0) _ (map (lower enc nm) ops) _ order LC LA NDo Ho ES). rewrite lower_conns, Nat.add_0_r. f_equal. apply sum_perm. apply NoDup_Permutation; auto.
    intros m. rewrite M2, HM. split; [intros [[] | H]; auto | auto].
Qed.
End Shared.
