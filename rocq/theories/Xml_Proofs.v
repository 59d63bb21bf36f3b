(** Proofs for saved networks. *)
From Coq Require Import String.
From Verif Require Import Base Topo_Model Topo_Spec Topo_Proofs Arch_Props Xml_Model Xml_Spec.

Section Induction.
Context {V P : Type} (Q : module V P -> Prop).
Hypothesis HP : forall i nm cls a p, Q (Prim i nm cls a p).
Hypothesis HN : forall i nm cls a fg ins outs mods mothers conns recs, Forall Q mods -> Q (Net i nm cls a fg ins outs mods mothers conns recs).
Fixpoint module_ind' (m : module V P) : Q m :=
  match m with
  | Prim i nm cls a p => HP i nm cls a p
  | Net i nm cls a fg ins outs mods mothers conns recs =>
      HN i nm cls a fg ins outs mods mothers conns recs ((fix go l : Forall Q l := match l with [] => Forall_nil Q | x :: t => Forall_cons x (module_ind' x) (go t) end) mods)
  end.
End Induction.

(** ** Lists *)
Lemma mem_iff i l : mem i l = true <-> In i l.
Proof. unfold mem. rewrite existsb_exists. split; [intros (x & H & E); apply Nat.eqb_eq in E; now subst | intros H; exists i; split; [auto | apply Nat.eqb_refl]]. Qed.
Lemma mem_false i l : mem i l = false <-> ~ In i l.
Proof. rewrite <- mem_iff. destruct (mem i l); split; congruence. Qed.
Lemma sexists_iff x l : existsb (String.eqb x) l = true <-> In x l.
Proof. rewrite existsb_exists. split; [intros (y & H & E); apply String.eqb_eq in E; now subst | intros H; exists x; split; [auto | apply String.eqb_refl]]. Qed.
Lemma lookup_None {A} x (l : list (string * A)) : lookup x l = None <-> ~ In x (map fst l).
Proof.
  induction l as [| [k y] l IH]; cbn [lookup map fst In]; [split; auto |]. destruct (String.eqb_spec x k) as [-> | N]; [split; [discriminate | intros H; exfalso; apply H; left; auto] |]. rewrite IH. split; [intros H [E | K]; auto | intros H K; apply H; right; auto].
Qed.
Lemma lookup_In {A} x (y : A) l : lookup x l = Some y -> In (x, y) l.
Proof. induction l as [| [k z] l IH]; cbn [lookup]; [discriminate |]. destruct (String.eqb_spec x k) as [-> | N]; [intros E; injection E as <-; left; auto | intros H; right; auto]. Qed.
Lemma lookup_nodup {A} x (y : A) l : NoDup (map fst l) -> In (x, y) l -> lookup x l = Some y.
Proof.
  induction l as [| [k z] l IH]; intros ND H; [destruct H |]. inversion ND as [| ? ? N ND']; subst. cbn [lookup]. destruct H as [E | H].
  - injection E as -> ->. now rewrite String.eqb_refl.
  - destruct (String.eqb_spec x k) as [-> | _]; [exfalso; apply N; apply (in_map fst) in H; exact H | auto].
Qed.
Lemma lookup_app {A} x (l l' : list (string * A)) : lookup x (l ++ l') = match lookup x l with Some y => Some y | None => lookup x l' end.
Proof. induction l as [| [k z] l IH]; cbn [lookup app]; auto. destruct (String.eqb x k); auto. Qed.
Lemma pick_map {A B} (h : A -> B) l i : pick (map (fun a => (fst a, h (snd a))) l) i = map h (pick l i).
Proof. induction l as [| [j x] l IH]; cbn [map pick fst snd]; auto. destruct (i =? j); auto. Qed.
Lemma pick_In {A} (l : list (nat * A)) i x : NoDup (map fst l) -> In (i, x) l -> pick l i = [x].
Proof.
  induction l as [| [j y] l IH]; intros ND H; [destruct H |]. inversion ND as [| ? ? N ND']; subst. cbn [pick]. destruct H as [E | H].
  - injection E as -> ->. now rewrite Nat.eqb_refl.
  - destruct (Nat.eqb_spec i j) as [-> | _]; [exfalso; apply N; apply (in_map fst) in H; exact H | auto].
Qed.
Lemma picks_map {A B} (key : A -> nat) (h : A -> B) l ids : picks (map (fun a => (key a, h a)) l) ids = map h (picks (map (fun a => (key a, a)) l) ids).
Proof.
  unfold picks. induction ids as [| i ids IH]; cbn [flat_map]; [auto |]. rewrite map_app, IH. f_equal. rewrite <- (pick_map h). f_equal. rewrite map_map. reflexivity.
Qed.
Lemma picks_ids {A} (key : A -> nat) l ids : NoDup (map key l) -> incl ids (map key l) -> map key (picks (map (fun a => (key a, a)) l) ids) = ids /\ incl (picks (map (fun a => (key a, a)) l) ids) l.
Proof.
  intros ND. induction ids as [| i ids IH]; intros HI; cbn [picks flat_map]; [split; [auto | intros x []] |]. destruct IH as [I1 I2]; [intros x Hx; apply HI; right; auto |]. assert (Hi : In i (map key l)) by (apply HI; left; auto). apply in_map_iff in Hi as (a & E & Ha).
  assert (EP : pick (map (fun a => (key a, a)) l) i = [a]). { apply pick_In; [rewrite map_map; exact ND |]. apply in_map_iff. exists a. split; [now rewrite E | auto]. }
  rewrite EP. cbn [app map]. unfold picks in I1, I2. rewrite I1, E. split; [auto |]. intros x [<- | Hx]; auto.
Qed.
Lemma order_perm ins outs ids : NoDup ids -> NoDup ins -> NoDup outs -> incl ins ids -> incl outs ids -> Permutation (order_ids ins outs ids) ids.
Proof.
  intros N1 N2 N3 I1 I2. apply NoDup_Permutation; [| auto |].
  - unfold order_ids. assert (G : forall a b : list nat, NoDup a -> NoDup b -> (forall x, In x a -> ~ In x b) -> NoDup (a ++ b)).
    { intros a b Ha Hb H. induction Ha as [| x a Hx Ha IH]; cbn [app]; [auto |]. constructor; [intros K; apply in_app_or in K as [K | K]; [contradiction | apply (H x); [left; auto | auto]] | apply IH; intros y Hy; apply H; right; auto]. }
    apply G; [auto | apply G; [apply NoDup_filter; auto | apply NoDup_filter; auto |] |].
    + intros x Hx K. apply filter_In in Hx as [Hx _]. apply filter_In in K as [_ K]. apply andb_prop in K as [_ K]. apply negb_true_iff, mem_false in K. contradiction.
    + intros x Hx K. apply in_app_or in K as [K | K]; apply filter_In in K as [_ K]; [| apply andb_prop in K as [K _]]; apply negb_true_iff, mem_false in K; contradiction.
  - intros x. unfold order_ids. rewrite !in_app_iff, !filter_In. split.
    + intros [H | [[H _] | [H _]]]; auto.
    + intros H. destruct (mem x ins) eqn:E1; [left; apply mem_iff; auto |]. destruct (mem x outs) eqn:E2; [right; left; split; [apply mem_iff; auto | auto] |]. right; right. auto.
Qed.
Lemma filter_all {A} (g : A -> bool) l : (forall x, In x l -> g x = true) -> filter g l = l.
Proof. induction l as [| x l IH]; intros H; cbn [filter]; [auto |]. rewrite H by (left; auto). f_equal. apply IH. intros; apply H; right; auto. Qed.
Lemma filter_none {A} (g : A -> bool) l : (forall x, In x l -> g x = false) -> filter g l = [].
Proof. induction l as [| x l IH]; intros H; cbn [filter]; [auto |]. rewrite H by (left; auto). apply IH. intros; apply H; right; auto. Qed.
Lemma order_ins ins outs ids : filter (fun i => mem i ins) (order_ids ins outs ids) = ins.
Proof.
  unfold order_ids. rewrite !filter_app. rewrite (filter_all _ ins) by (intros; apply mem_iff; auto). rewrite !filter_none, !app_nil_r; auto.
  - intros x H. apply filter_In in H as [_ H]. apply andb_prop in H as [H _]. now apply negb_true_iff in H.
  - intros x H. apply filter_In in H as [_ H]. now apply negb_true_iff in H.
Qed.
Lemma order_outs ins outs ids : (forall i, In i ins -> ~ In i outs) -> filter (fun i => negb (mem i ins) && mem i outs) (order_ids ins outs ids) = outs.
Proof.
  intros D. unfold order_ids. rewrite !filter_app. rewrite (filter_none _ ins) by (intros x H; apply mem_iff in H; now rewrite H). cbn [app]. assert (E : filter (fun i => negb (mem i ins)) outs = outs). { apply filter_all. intros x H. apply negb_true_iff, mem_false. intros K. apply (D x); auto. }
  rewrite E. rewrite (filter_all _ outs). 
  - rewrite filter_none, app_nil_r; [auto |]. intros x H. apply filter_In in H as [_ H]. apply andb_prop in H as [_ H]. apply negb_true_iff in H. rewrite H. apply andb_false_r.
  - intros x H. apply andb_true_iff. split; [| apply mem_iff; auto]. apply negb_true_iff, mem_false. intros K. apply (D x); auto.
Qed.
Lemma nd_app {A} (a b : list A) : NoDup (a ++ b) <-> NoDup a /\ NoDup b /\ forall x, In x a -> ~ In x b.
Proof.
  induction a as [| y a IH]; cbn [app]; [split; [intros H; repeat split; [constructor | auto | intros x []] | intros (_ & H & _); auto] |]. rewrite !NoDup_cons_iff, IH, in_app_iff. split.
  - intros (N & A1 & A2 & A3). repeat split; auto. intros x [<- | Hx]; auto.
  - intros ((N & A1) & A2 & A3). repeat split; auto; [intros [K | K]; [auto | apply (A3 y); [left; auto | auto]] | intros x Hx; apply A3; right; auto].
Qed.
Lemma nd_flat {A B} (h : A -> list B) l x : NoDup (flat_map h l) -> In x l -> NoDup (h x).
Proof. induction l as [| y l IH]; intros ND Hx; [destruct Hx |]. cbn [flat_map] in ND. apply nd_app in ND as (A1 & A2 & _). destruct Hx as [<- | Hx]; auto. Qed.
Lemma nd_keys {A} (h : A -> list nat) (key : A -> nat) l : (forall a, In (key a) (h a)) -> NoDup (flat_map h l) -> NoDup (map key l).
Proof.
  intros H. induction l as [| y l IH]; intros ND; cbn [map]; constructor; cbn [flat_map] in ND; apply nd_app in ND as (A1 & A2 & A3); [| auto]. intros K. apply in_map_iff in K as (z & E & Hz). apply (A3 (key y)); [apply H |]. apply in_flat_map. exists z. split; [auto |]. rewrite <- E. apply H.
Qed.
Lemma map_seq_app (f : nat -> nat) a b k : map f (a ++ b) = seq k (length (a ++ b)) -> map f a = seq k (length a) /\ map f b = seq (k + length a) (length b).
Proof.
  rewrite map_app, app_length, seq_app. intros H. assert (L : length (map f a) = length (seq k (length a))) by (rewrite map_length, seq_length; auto).
  apply app_eq_app in H. assert (X : forall (u v w x : list nat), u ++ v = w ++ x -> length u = length w -> u = w /\ v = x). { induction u as [| y u IH]; intros v w x E EL; destruct w as [| z w]; cbn in *; try lia; [auto |]. injection E as -> E. destruct (IH v w x E) as [-> ->]; [lia | auto]. }
  destruct H as (l & [[E1 E2] | [E1 E2]]).
  - rewrite E1, app_length in L. assert (l = []) by (destruct l; [auto | cbn in L; lia]). subst l. rewrite app_nil_r in E1. cbn in E2. auto.
  - rewrite E1, app_length in L. assert (l = []) by (destruct l; [auto | cbn in L; lia]). subst l. rewrite app_nil_r in E1. cbn in E2. auto.
Qed.

Section Proofs.
Context {V P : Type}.
Notation module := (module V P). Notation mother := (mother V P). Notation kconn := (kconn V P). Notation node := (node P). Notation st := (st V P). Notation arg := (arg V P).
Variable repr : V -> string.
Variable ev : string -> option (lit V).
Variable sig : string -> list string.
Variable short : string -> string.
Variable initial : string -> list (string * lit V) -> nat -> parts V P * nat.
Variable rank : nat -> nat.
Variables PN PM : string -> Prop.
Hypothesis Hev : forall v, ev (repr v) = Some (LVal v).
Hypothesis HNe : ~ PN EmptyString. Hypothesis HMe : ~ PM EmptyString.
Notation okarg := (okarg repr sig PN PM). Notation savable := (savable repr sig short initial PN PM). Notation clean := (clean PN PM). Notation okmother := (okmother repr sig PN PM). Notation okconn := (okconn repr sig PN PM).
Notation write := (write repr short). Notation write_arg := (@Xml_Model.write_arg V P repr). Notation read_args := (read_args ev). Notation read_network := (read_network ev sig initial rank). Notation read_prim := (read_prim ev sig). Notation write_mother := (write_mother repr short). Notation write_conn := (write_conn repr short). Notation read_mods := (read_mods ev sig). Notation read_mothers := (read_mothers ev sig). Notation read_conn := (read_conn ev sig). Notation read_conns := (read_conns ev sig).

Definition larg (a : string * lit V) : string * arg := (fst a, ArgLit (snd a)).
Definition silent (l : list node) : Prop := Forall (fun n => attr "val" n = EmptyString) l.
Lemma silent_none s l : clean s -> silent l -> read_args s l = Ok [].
Proof.
  intros [C1 C2] H. induction H as [| n l Hn H IH]; cbn [Xml_Model.read_args]; [auto |]. rewrite Hn. destruct (lookup EmptyString (modreg s)) eqn:E1; [exfalso; apply HNe; eauto |]. destruct (lookup EmptyString (mothreg s)) eqn:E2; [exfalso; apply HMe; eauto |]. cbn [String.eqb]. exact IH.
Qed.
Lemma read_larg s cls args l a : clean s -> Forall (okarg cls) args -> read_args s l = Ok a -> read_args s (map write_arg args ++ l) = Ok (map larg args ++ a).
Proof.
  intros [C1 C2] H E. induction H as [| [k x] args (H1 & H2 & v & Ev & H3 & H4 & H5) H IH]; cbn [map app]; [auto |]. cbn [snd] in Ev. subst x. cbn [Xml_Model.read_args]. change (attr "val" (write_arg (k, LVal v))) with (repr v). change (tag_of (write_arg (k, LVal v))) with k.
  destruct (lookup (repr v) (modreg s)) eqn:E1; [exfalso; eauto |]. destruct (lookup (repr v) (mothreg s)) eqn:E2; [exfalso; eauto |]. destruct (String.eqb_spec (repr v) EmptyString); [contradiction |]. rewrite Hev, IH. reflexivity.
Qed.
Lemma lits_larg args : lits (map larg args) = Some args.
Proof. induction args as [| [k x] args IH]; cbn [map lits larg fst snd]; [auto |]. rewrite IH. reflexivity. Qed.
Lemma accepted_larg cls args : Forall (okarg cls) args -> accepted sig cls (map larg args) = true.
Proof. intros H. unfold accepted. rewrite forallb_forall. intros a Ha. apply in_map_iff in Ha as (b & <- & Hb). rewrite Forall_forall in H. apply sexists_iff. apply (H b Hb). Qed.
Lemma elem_args args : filter is_elem (map write_arg args) = map write_arg args.
Proof. apply filter_all. intros x H. apply in_map_iff in H as (a & <- & _). reflexivity. Qed.
Lemma get_child_args cls t args l : In t reserved -> Forall (okarg cls) args -> get_child (map write_arg args ++ l) t = get_child l t.
Proof.
  intros Ht H. induction H as [| a args (H1 & H2 & _) H IH]; cbn [map app get_child]; [auto |]. unfold Xml_Model.write_arg at 1. cbn [tag_of]. destruct (String.eqb_spec t (fst a)) as [-> | _]; [contradiction | exact IH].
Qed.
Lemma buildable s nm cls args p n : clean s -> Forall (okarg cls) args -> kids_of n = map write_arg args ++ write_params p -> attr "name" n = nm -> attr "class" n = cls ->
  read_buildable ev sig s n = Ok (nm, cls, args, p).
Proof.
  intros C H K EN EC. unfold read_buildable, elements. rewrite EC, EN, K, filter_app, elem_args. rewrite (read_larg s cls args _ []); [| auto | auto |].
  - cbn [rbind]. rewrite app_nil_r, lits_larg, accepted_larg by auto. unfold read_params. rewrite K, (get_child_args cls) by (auto; left; auto). destruct p; reflexivity.
  - apply silent_none; auto. destruct p; repeat constructor.
Qed.

(** ** The mothers *)
Lemma read_mothers_ok f (ms : list mother) : forall s : st, clean s -> Forall okmother ms -> NoDup (map mo_name ms) -> map f (map mo_id ms) = seq (next s) (length ms) ->
  exists s', read_mothers s (map write_mother ms) = Ok s' /\ next s' = next s + length ms /\ modreg s' = modreg s /\ clean s' /\
  forall x, lookup x (mothreg s') = match lookup x (map (fun m => (mo_name m, m)) ms) with Some m => Some (mren f m) | None => lookup x (mothreg s) end.
Proof.
  induction ms as [| m ms IH]; intros s C H ND E; cbn [map Xml_Model.read_mothers].
  - exists s. repeat (split; [auto; cbn [length]; lia || auto |]). intros x. reflexivity.
  - inversion H as [| ? ? (H1 & H2 & H3) H4]; subst. inversion ND as [| ? ? N ND']; subst. cbn [length map seq] in E. injection E as E1 E2.
    rewrite (buildable s (mo_name m) (mo_class m) (mo_args m) (mo_params m)) by (auto; reflexivity). cbn [rbind].
    set (s1 := {| next := S (next s); modreg := modreg s; mothreg := _ :: mothreg s |}). assert (C1 : clean s1). { destruct C as [A B]. split; [exact A |]. intros x mo L. unfold s1 in L. cbn [mothreg lookup] in L. destruct (String.eqb_spec x (mo_name m)) as [-> | _]; [auto | eauto]. }
    destruct (IH s1 C1 H4 ND' E2) as (s' & R & I1 & I2 & I3 & I4). exists s'. split; [exact R |]. split; [rewrite I1; cbn [next s1 length]; lia |]. split; [rewrite I2; reflexivity |]. split; [auto |].
    intros x. rewrite I4. cbn [lookup]. unfold s1. cbn [mothreg lookup]. destruct (String.eqb_spec x (mo_name m)) as [-> | Nx]; [| reflexivity].
    assert (LN : lookup (mo_name m) (map (fun m => (mo_name m, m)) ms) = None) by (apply lookup_None; rewrite map_map; exact N). rewrite LN. unfold mren. rewrite <- E1. reflexivity.
Qed.

(** ** The connections *)
Lemma lookup_larg x args : (forall a, In a args -> fst a <> x) -> lookup x (map larg args) = None.
Proof. intros H. apply lookup_None. rewrite map_map. intros K. apply in_map_iff in K as (a & <- & Ha). apply (H a Ha). reflexivity. Qed.
Lemma read_name (s : st) k x i (l : list node) : lookup x (modreg s) = Some i -> read_args s (name_arg k x :: l) = (let! t := read_args s l in Ok ((k, ArgModule i) :: t)).
Proof. intros H. cbn [Xml_Model.read_args]. change (attr "val" (name_arg k x)) with x. rewrite H. reflexivity. Qed.
Lemma read_conn_ok f (s : st) (names : list (nat * string)) ids (ms : list mother) rec (c : kconn) : clean s -> okconn ids ms c -> NoDup (map fst names) -> map fst names = ids ->
  (forall i x, In (i, x) names -> lookup x (modreg s) = Some (f i)) -> (forall m, In m ms -> okmother m /\ lookup (mo_name m) (mothreg s) = Some (mren f m)) ->
  read_conn s (write_conn names rec c) = Ok (cren f c, rec).
Proof.
  intros C (I1 & I2 & S1 & S2 & O & M) ND EI R1 R2. rewrite <- EI in I1, I2. apply in_map_iff in I1 as ([i x] & Ei & Hi). apply in_map_iff in I2 as ([j y] & Ej & Hj). cbn [fst] in Ei, Ej.
  set (n := write_conn names rec c). assert (EK : kids_of n = name_arg "inmod" x :: name_arg "outmod" y :: (map write_arg (k_opts c) ++ match k_mother c with Some m => [name_arg "mother" (mo_name m)] | None => [] end) ++ write_params (match k_mother c with Some _ => None | None => k_params c end)).
  { unfold n, Xml_Model.write_conn, write_buildable, conn_args. rewrite <- Ei, <- Ej, (pick_In names i x ND Hi), (pick_In names j y ND Hj). destruct rec; reflexivity. }
  assert (EN : attr "name" n = k_name c) by (unfold n, Xml_Model.write_conn, write_buildable; destruct rec; reflexivity). assert (EC : attr "class" n = k_class c) by (unfold n, Xml_Model.write_conn, write_buildable; destruct rec; reflexivity). assert (ER : has_attr "recurrent" n = rec) by (unfold n, Xml_Model.write_conn, write_buildable; destruct rec; reflexivity).
  clearbody n. unfold Xml_Model.read_conn. rewrite EN, EC, ER. unfold elements. rewrite EK. cbn [filter is_elem name_arg].
  assert (OA : Forall (okarg (k_class c)) (k_opts c)) by (eapply Forall_impl; [| exact O]; intros a [Ha _]; auto).
  assert (OK : forall a, In a (k_opts c) -> ~ In (fst a) ckeys) by (rewrite Forall_forall in O; intros a Ha; apply (O a Ha)).
  set (mo := match k_mother c with Some m => [("mother"%string, ArgMother (mren f m))] | None => [] end).
  assert (RA : read_args s (filter is_elem ((map write_arg (k_opts c) ++ match k_mother c with Some m => [name_arg "mother" (mo_name m)] | None => [] end) ++ write_params (match k_mother c with Some _ => None | None => k_params c end))) = Ok (map larg (k_opts c) ++ mo)).
  { rewrite <- app_assoc, filter_app, elem_args. apply (read_larg s (k_class c)); auto. unfold mo. destruct (k_mother c) as [m |] eqn:Em.
    - destruct (M m eq_refl) as (M1 & M2 & M3). destruct (R2 m M1) as [(A1 & A2 & A3) L]. cbn [app filter is_elem name_arg write_params Xml_Model.read_args]. change (attr "val" (name_arg (P:=P) "mother" (mo_name m))) with (mo_name m). destruct (lookup (mo_name m) (modreg s)) eqn:E1; [exfalso; apply A3; destruct C as [C1 _]; eauto |]. rewrite L. reflexivity.
    - apply silent_none; auto. destruct (k_params c); repeat constructor. }
  rewrite (read_name s "inmod" x (f i)), (read_name s "outmod" y (f j)), RA by auto. cbn [rbind].
  assert (AC : accepted sig (k_class c) (("inmod"%string, ArgModule (f i)) :: ("outmod"%string, ArgModule (f j)) :: map larg (k_opts c) ++ mo) = true).
  { unfold accepted. cbn [forallb fst]. rewrite forallb_app. apply sexists_iff in S1, S2. rewrite S1, S2. cbn [andb]. apply andb_true_iff. split; [apply (accepted_larg (k_class c)); auto |]. unfold mo. destruct (k_mother c) as [m |]; [| reflexivity]. destruct (M m eq_refl) as (_ & M2 & _). apply sexists_iff in M2. cbn [forallb fst]. now rewrite M2. }
  set (a := ("inmod"%string, ArgModule (f i)) :: ("outmod"%string, ArgModule (f j)) :: map larg (k_opts c) ++ mo) in *.
  assert (L1 : lookup "inmod" a = Some (ArgModule (f i))) by reflexivity. assert (L2 : lookup "outmod" a = Some (ArgModule (f j))) by reflexivity.
  assert (L3 : lookup "mother" a = option_map (fun m => ArgMother (mren f m)) (k_mother c)).
  { change (lookup "mother" a) with (lookup "mother" (map larg (k_opts c) ++ mo)). rewrite lookup_app, lookup_larg; [unfold mo; destruct (k_mother c); reflexivity |]. intros b Hb E. apply (OK b Hb). rewrite E. cbn [In ckeys]. auto. }
  assert (FR : filter (fun x0 : string * arg => negb (existsb (String.eqb (fst x0)) ckeys)) a = map larg (k_opts c)).
  { change (filter (fun x0 : string * arg => negb (existsb (String.eqb (fst x0)) ckeys)) (map larg (k_opts c) ++ mo) = map larg (k_opts c)). rewrite filter_app. assert (F2 : filter (fun x0 : string * arg => negb (existsb (String.eqb (fst x0)) ckeys)) mo = []) by (unfold mo; destruct (k_mother c); reflexivity). rewrite F2, app_nil_r.
    apply filter_all. intros b Hb. apply in_map_iff in Hb as (b' & <- & Hb'). apply negb_true_iff. destruct (existsb _ ckeys) eqn:E; [| auto]. apply sexists_iff in E. exfalso. apply (OK b' Hb'). exact E. }
  rewrite AC, L1, L2, L3, FR, lits_larg.
  assert (RP : read_params n = k_params c).
  { unfold read_params. rewrite EK. cbn [get_child name_arg tag_of String.eqb Ascii.eqb Bool.eqb]. rewrite <- app_assoc, (get_child_args (k_class c)) by (auto; left; auto). destruct (k_mother c) as [m |] eqn:Em; [| destruct (k_params c); reflexivity]. destruct (M m eq_refl) as (_ & _ & ->). reflexivity. }
  rewrite RP. unfold cren. rewrite <- Ei, <- Ej. destruct (k_mother c) as [m |]; reflexivity.
Qed.
Lemma read_conns_ok f (s : st) (names : list (nat * string)) ids (ms : list mother) rec (cs : list kconn) : clean s -> Forall (okconn ids ms) cs -> NoDup (map fst names) -> map fst names = ids ->
  (forall i x, In (i, x) names -> lookup x (modreg s) = Some (f i)) -> (forall m, In m ms -> okmother m /\ lookup (mo_name m) (mothreg s) = Some (mren f m)) ->
  forall p rest, read_conns s p (map (write_conn names rec) cs ++ rest) = read_conns s (fold_left (fun p c => add_conn p (cren f c) rec) cs p) rest.
Proof.
  intros C H ND EI R1 R2. induction H as [| c cs Hc H IH]; intros p rest; cbn [map app fold_left]; [auto |]. cbn [Xml_Model.read_conns]. rewrite (read_conn_ok f s names ids ms rec c) by auto. cbn [rbind]. apply IH.
Qed.
Lemma add_conns f rec (cs : list kconn) : forall p, fold_left (fun p c => add_conn p (cren f c) rec) cs p =
  {| p_ins := p_ins p; p_outs := p_outs p; p_mods := p_mods p; p_mothers := fold_left add_mother (map k_mother (map (cren f) cs)) (p_mothers p);
     p_conns := if rec then p_conns p else p_conns p ++ map (cren f) cs; p_recs := if rec then p_recs p ++ map (cren f) cs else p_recs p |}.
Proof.
  induction cs as [| c cs IH]; intros p; cbn [fold_left map].
  - rewrite !app_nil_r. destruct p, rec; reflexivity.
  - rewrite IH. unfold add_conn. cbn [p_ins p_outs p_mods p_mothers p_conns p_recs]. destruct rec; rewrite <- app_assoc; reflexivity.
Qed.

(** ** The whole network *)
Definition ord (ins outs : list nat) (mods : list module) : list module := picks (map (fun m => (mid m, m)) mods) (order_ids ins outs (map mid mods)).
Fixpoint canon (f : nat -> nat) (m : module) : module :=
  match m with
  | Prim i nm cls a p => Prim (f i) nm cls a p
  | Net i nm cls a fg ins outs mods mothers conns recs =>
      Net (f i) nm cls a false (map f ins) (map f outs) (picks (map (fun m => (mid m, canon f m)) mods) (order_ids ins outs (map mid mods)))
          (fold_left add_mother (map k_mother (map (cren f) (conns ++ recs))) []) (map (cren f) conns) (map (cren f) recs)
  end.
Fixpoint trav (m : module) : list nat :=
  match m with
  | Prim i _ _ _ _ => [i]
  | Net i _ _ _ _ ins outs mods mothers _ _ => i :: concat (picks (map (fun m => (mid m, trav m)) mods) (order_ids ins outs (map mid mods))) ++ map mo_id mothers
  end.
Fixpoint inner (m : module) : list (string * nat) :=
  match m with
  | Prim _ _ _ _ _ => []
  | Net _ _ _ _ _ ins outs mods _ _ _ => concat (picks (map (fun m => (mid m, (mname m, mid m) :: inner m)) mods) (order_ids ins outs (map mid mods)))
  end.
Fixpoint depth (m : module) : nat := match m with Prim _ _ _ _ _ => 0 | Net _ _ _ _ _ _ _ mods _ _ _ => S (list_max (map depth mods)) end.

Lemma mid_in_objects (m : module) : In (mid m) (objects m).
Proof. destruct m; left; auto. Qed.
Section Ord.
Variables (ins outs : list nat) (mods : list module).
Hypothesis HD : NoDup (map mid mods). Hypothesis H1 : NoDup ins. Hypothesis H2 : NoDup outs. Hypothesis H3 : incl ins (map mid mods). Hypothesis H4 : incl outs (map mid mods).
Lemma ord_mid : map mid (ord ins outs mods) = order_ids ins outs (map mid mods).
Proof. apply picks_ids; auto. intros x Hx. apply (Permutation_in _ (order_perm ins outs (map mid mods) HD H1 H2 H3 H4)). auto. Qed.
Lemma ord_perm : Permutation mods (ord ins outs mods).
Proof.
  assert (PO := order_perm ins outs (map mid mods) HD H1 H2 H3 H4). rewrite <- ord_mid in PO. assert (NO : NoDup (map mid (ord ins outs mods))) by (eapply Permutation_NoDup; [symmetry; exact PO | auto]).
  assert (IO : incl (ord ins outs mods) mods). { apply picks_ids; auto. intros x Hx. apply (Permutation_in _ (order_perm ins outs (map mid mods) HD H1 H2 H3 H4)). auto. }
  symmetry. apply NoDup_Permutation_bis; [eapply NoDup_map_inv; eauto | rewrite <- (map_length mid mods), <- (Permutation_length PO), map_length; lia | auto].
Qed.
End Ord.
Lemma canon_net f i nm cls a fg ins outs mods mothers conns recs : canon f (Net i nm cls a fg ins outs mods mothers conns recs) =
  Net (f i) nm cls a false (map f ins) (map f outs) (map (canon f) (ord ins outs mods)) (fold_left add_mother (map k_mother (map (cren f) (conns ++ recs))) []) (map (cren f) conns) (map (cren f) recs).
Proof. cbn [canon]. rewrite (picks_map mid (canon f)). reflexivity. Qed.
Lemma trav_net i nm cls a fg ins outs mods mothers conns recs : trav (Net i nm cls a fg ins outs mods mothers conns recs) = i :: flat_map trav (ord ins outs mods) ++ map mo_id mothers.
Proof. cbn [trav]. rewrite (picks_map mid trav), flat_map_concat_map. reflexivity. Qed.
Lemma inner_net i nm cls a fg ins outs mods mothers conns recs : inner (Net i nm cls a fg ins outs mods mothers conns recs) = flat_map (fun m => (mname m, mid m) :: inner m) (ord ins outs mods).
Proof. cbn [inner]. rewrite (picks_map mid (fun m => (mname m, mid m) :: inner m)), flat_map_concat_map. reflexivity. Qed.
Lemma mid_canon f m : mid (canon f m) = f (mid m).
Proof. destruct m; reflexivity. Qed.
Lemma mname_canon f m : mname (canon f m) = mname m.
Proof. destruct m; reflexivity. Qed.
Lemma savable_mods mods : fold_right and True (map savable mods) <-> Forall savable mods.
Proof. induction mods as [| m mods IH]; cbn [map fold_right]; [split; auto |]. rewrite IH. split; [intros [A B]; constructor; auto | intros H; inversion H; auto]. Qed.
Lemma trav_perm m : savable m -> NoDup (objects m) -> Permutation (trav m) (objects m) /\ Permutation (map fst (inner m)) (inner_names m) /\ (forall x, In x (map fst (inner m)) -> PN x).
Proof.
  induction m as [i nm cls a p | i nm cls a fg ins outs mods mothers conns recs IH] using module_ind'; intros HS ND; [split; [reflexivity | split; [reflexivity | intros x []]] |].
  destruct HS as (_ & _ & _ & S1 & S2 & S3 & S4 & _ & _ & _ & _ & _ & _ & SN & SM). apply savable_mods in SM. rewrite trav_net, inner_net. cbn [objects inner_names] in *. inversion ND as [| ? ? Ni ND']; subst. apply nd_app in ND' as (N1 & N2 & N3). assert (NK : NoDup (map mid mods)) by (apply (nd_keys objects mid); [apply mid_in_objects | auto]).
  assert (PO := ord_perm ins outs mods NK S1 S2 S3 S4). rewrite Forall_forall in IH, SM, SN. assert (G : forall x, In x mods -> Permutation (trav x) (objects x) /\ Permutation (map fst (inner x)) (inner_names x) /\ forall y, In y (map fst (inner x)) -> PN y) by (intros x Hx; apply IH; auto; eapply nd_flat; eauto).
  split; [| split].
  - constructor. apply Permutation_app_tail. transitivity (flat_map trav mods); [apply Permutation_flat_map; symmetry; auto |]. clear - G. induction mods as [| m mods IHm]; cbn [flat_map]; [reflexivity |]. apply Permutation_app; [apply G; left; auto | apply IHm; intros; apply G; right; auto].
  - transitivity (map fst (flat_map (fun m => (mname m, mid m) :: inner m) mods)); [apply Permutation_map, Permutation_flat_map; symmetry; auto |]. clear - G. induction mods as [| m mods IHm]; cbn [flat_map map app]; [reflexivity |]. rewrite map_app. cbn [fst]. constructor. apply Permutation_app; [apply G; left; auto | apply IHm; intros; apply G; right; auto].
  - intros x Hx. apply in_map_iff in Hx as ([x' j] & E & Hx). cbn [fst] in E. subst x'. apply in_flat_map in Hx as (m & Hm & Hx). apply (Permutation_in _ (Permutation_sym PO)) in Hm. destruct Hx as [E | Hx]; [injection E as <- _; auto |]. apply (G m Hm). apply (in_map fst) in Hx. exact Hx.
Qed.

Definition regspec (f : nat -> nat) (ents : list (string * nat)) (s s' : st) : Prop :=
  forall x, lookup x (modreg s') = match lookup x ents with Some i => Some (f i) | None => lookup x (modreg s) end.
Lemma regspec_app f e1 e2 s1 s2 s3 : NoDup (map fst (e1 ++ e2)) -> regspec f e1 s1 s2 -> regspec f e2 s2 s3 -> regspec f (e1 ++ e2) s1 s3.
Proof.
  intros ND R1 R2 x. rewrite R2, R1, lookup_app. rewrite map_app in ND. apply nd_app in ND as (_ & _ & D). destruct (lookup x e1) eqn:E1; [| reflexivity]. destruct (lookup x e2) eqn:E2; [| reflexivity]. exfalso. apply (D x); [apply lookup_In in E1; apply (in_map fst) in E1; exact E1 | apply lookup_In in E2; apply (in_map fst) in E2; exact E2].
Qed.
Definition reads (m : module) : Prop := forall f (s : st) fuel n, savable m -> NoDup (objects m) -> NoDup (inner_names m) -> clean s -> map f (trav m) = seq (next s) (length (trav m)) -> depth m <= fuel ->
  tag_of n = tag_of (write m) -> kids_of n = kids_of (write m) -> attr "name" n = attr "name" (write m) -> attr "class" n = attr "class" (write m) ->
  exists s', (if String.eqb (tag_of n) "Network" then read_network fuel s n else read_prim s n) = Ok (canon f m, s') /\ next s' = next s + length (trav m) /\ regspec f (inner m) s s' /\ clean s'.
Lemma clean_reg f ents s s' : clean s -> regspec f ents s s' -> (forall x, In x (map fst ents) -> PN x) -> (forall x m, lookup x (mothreg s') = Some m -> PM x) -> clean s'.
Proof.
  intros [C1 C2] R H HM. split; [| auto]. intros x i L. rewrite R in L. destruct (lookup x ents) eqn:E; [apply lookup_In in E; apply (in_map fst) in E; auto | eauto].
Qed.
Lemma flag_facts ins outs i (n : node) : tag_of (flag ins outs i n) = tag_of n /\ kids_of (flag ins outs i n) = kids_of n.
Proof. unfold flag. destruct (mem i ins), (mem i outs); destruct n; split; reflexivity. Qed.
Lemma write_shape (m : module) : exists t nm cls k, write m = Elem t [("name", nm); ("class", cls)]%string k.
Proof. destruct m; cbn [Xml_Model.write]; unfold write_buildable; eauto 6. Qed.
Lemma flag_attrs ins outs i (m : module) : let n := flag ins outs i (write m) in
  attr "name" n = attr "name" (write m) /\ attr "class" n = attr "class" (write m) /\ has_attr "inmodule" n = mem i ins /\ has_attr "outmodule" n = negb (mem i ins) && mem i outs.
Proof. cbn zeta. destruct (write_shape m) as (t & nm & cls & k & ->). unfold flag. destruct (mem i ins), (mem i outs); cbn; auto. Qed.

Lemma read_mods_ok f fuel ins outs (L : list module) : Forall reads L -> Forall savable L -> Forall (fun m => PN (mname m)) L -> Forall (fun m => depth m <= fuel) L ->
  NoDup (flat_map objects L) -> NoDup (flat_map (fun m => mname m :: inner_names m) L) ->
  forall (s : st) p, clean s -> map f (flat_map trav L) = seq (next s) (length (flat_map trav L)) ->
  exists s', read_mods (read_network fuel) s p (map (fun m => flag ins outs (mid m) (write m)) L) =
    Ok ({| p_ins := p_ins p ++ map f (filter (fun i => mem i ins) (map mid L)); p_outs := p_outs p ++ map f (filter (fun i => negb (mem i ins) && mem i outs) (map mid L));
           p_mods := p_mods p ++ map (canon f) L; p_mothers := p_mothers p; p_conns := p_conns p; p_recs := p_recs p |}, s') /\
    next s' = next s + length (flat_map trav L) /\ regspec f (flat_map (fun m => (mname m, mid m) :: inner m) L) s s' /\ clean s'.
Proof.
  intros HR. induction HR as [| m L Hm HR IH]; intros HS HN HD ND NN s p C E; cbn [map Xml_Model.read_mods].
  - exists s. cbn [filter map flat_map length]. rewrite !app_nil_r, Nat.add_0_r. split; [destruct p; reflexivity |]. split; [auto |]. split; [intros x; reflexivity | auto].
  - inversion HS as [| ? ? S1 S2]; subst. inversion HN as [| ? ? N1 N2]; subst. inversion HD as [| ? ? D1 D2]; subst. cbn [flat_map] in ND, NN, E. apply nd_app in ND as (A1 & A2 & A3). apply nd_app in NN as (B1 & B2 & B3).
    apply map_seq_app in E as [E1 E2]. destruct (flag_facts ins outs (mid m) (write m)) as [F1 F2]. destruct (flag_attrs ins outs (mid m) m) as (F3 & F4 & F5 & F6). assert (B1' : NoDup (inner_names m)) by (inversion B1; auto).
    destruct (Hm f s fuel _ S1 A1 B1' C E1 D1 F1 F2 F3 F4) as (s1 & R1 & X1 & R2 & C1). rewrite R1. cbn [rbind]. rewrite mname_canon, mid_canon, F5, F6.
    destruct (trav_perm m S1 A1) as (_ & PI & PNI).
    set (s2 := register (mname m) (f (mid m)) s1). assert (R3 : regspec f ((mname m, mid m) :: inner m) s s2).
    { intros x. unfold s2, register. cbn [modreg lookup]. destruct (String.eqb_spec x (mname m)); [reflexivity | apply R2]. }
    assert (C2 : clean s2). { apply (clean_reg f _ _ _ C R3); [| exact (proj2 C1)]. intros x [<- | Hx]; [auto | apply PNI; auto]. }
    assert (E2' : map f (flat_map trav L) = seq (next s2) (length (flat_map trav L))) by (cbn [s2 register next]; rewrite X1; exact E2).
    destruct (IH S2 N2 D2 A2 B2 s2 (add_mod p (canon f m) (mem (mid m) ins) (negb (mem (mid m) ins) && mem (mid m) outs)) C2 E2') as (s' & R4 & X2 & R5 & C3).
    exists s'. rewrite R4. split; [| split; [| split]].
    + f_equal. f_equal. unfold add_mod. cbn [p_ins p_outs p_mods p_mothers p_conns p_recs filter map]. rewrite mid_canon. destruct (mem (mid m) ins), (mem (mid m) outs); cbn [negb andb map]; rewrite <- ?app_assoc; reflexivity.
    + cbn [flat_map]. rewrite app_length, X2. cbn [s2 register next]. lia.
    + cbn [flat_map]. apply (regspec_app f _ _ s s2 s'); auto. assert (FL : Forall (fun m => Permutation (map fst (inner m)) (inner_names m)) L). { clear - S2 A2. induction S2 as [| x L Hx S2 IH]; constructor; cbn [flat_map] in A2; apply nd_app in A2 as (A1 & A2 & _); [apply trav_perm; auto | auto]. }
      eapply Permutation_NoDup; [| apply nd_app; split; [exact B1 | split; [exact B2 | exact B3]]]. rewrite map_app. symmetry. cbn [map fst]. apply (Permutation_app (l := mname m :: map fst (inner m)) (l' := mname m :: inner_names m)); [constructor; auto |].
      clear - FL. induction FL as [| x L Hx FL IH]; cbn [flat_map map app]; [reflexivity |]. rewrite map_app. cbn [fst]. constructor. apply Permutation_app; auto.
    + auto.
Qed.

Lemma acyclic_map (f : nat -> nat) ids (R R' : nat -> nat -> Prop) : (forall a b, In a ids -> In b ids -> f a = f b -> a = b) -> (forall u v, R' u v -> exists a b, f a = u /\ f b = v /\ In a ids /\ In b ids /\ R a b) -> acyclic R -> acyclic R'.
Proof.
  intros HI HR HA x K. assert (G : forall u v, clos_trans nat R' u v -> exists a b, f a = u /\ f b = v /\ In a ids /\ In b ids /\ clos_trans nat R a b).
  { induction 1 as [u v H | u w v _ (a & b & A1 & A2 & A3 & A4 & A5) _ (a' & b' & B1 & B2 & B3 & B4 & B5)].
    - apply HR in H as (a & b & A1 & A2 & A3 & A4 & A5). exists a, b. repeat (split; auto). now constructor.
    - exists a, b'. assert (b = a') by (apply HI; auto; congruence). subst a'. repeat (split; auto). eapply t_trans; eauto. }
  destruct (G x x K) as (a & b & A1 & A2 & A3 & A4 & A5). assert (a = b) by (apply HI; auto; congruence). subst b. exact (HA a A5).
Qed.
Lemma seq_inj (f : nat -> nat) l k : map f l = seq k (length l) -> forall a b, In a l -> In b l -> f a = f b -> a = b.
Proof.
  revert k. induction l as [| x l IH]; intros k E a b Ha Hb Hf; [destruct Ha |]. cbn [map length seq] in E. injection E as E1 E2. assert (G : forall y, In y l -> S k <= f y). { intros y Hy. apply (in_map f) in Hy. rewrite E2 in Hy. apply in_seq in Hy. lia. }
  destruct Ha as [-> | Ha], Hb as [-> | Hb]; auto; [specialize (G b Hb); lia | specialize (G a Ha); lia | eapply IH; eauto].
Qed.
Lemma reads_all m : reads m.
Proof.
  induction m as [i nm cls a p | i nm cls a fg ins outs mods mothers conns recs IH] using module_ind'; intros f s fuel n HS ND NN C E HF T1 T2 T3 T4.
  - destruct HS as [S1 S2]. rewrite T1. cbn [Xml_Model.write write_buildable tag_of]. unfold write_buildable. cbn [tag_of]. destruct (String.eqb_spec (short cls) "Network"); [contradiction |]. unfold Xml_Model.read_prim. rewrite (buildable s nm cls a p n C S1 T2 T3 T4). cbn [rbind]. cbn in E. injection E as E.
    eexists. split; [cbn [canon]; rewrite E; reflexivity |]. cbn [next trav length inner]. split; [lia |]. split; [intros x; reflexivity | exact C].
  - destruct HS as (SA & SI & -> & S1 & S2 & S3 & S4 & S5 & S6 & S7 & S8 & S9 & S10 & SN & SM). apply savable_mods in SM. rewrite trav_net in E. rewrite trav_net, inner_net, canon_net. set (L := ord ins outs mods) in *.
    cbn [objects inner_names] in ND, NN. inversion ND as [| ? ? Ni ND']; subst. apply nd_app in ND' as (N1 & N2 & N3). assert (NK : NoDup (map mid mods)) by (apply (nd_keys objects mid); [apply mid_in_objects | auto]).
    assert (PO : Permutation mods L) by (apply ord_perm; auto). assert (OM : map mid L = order_ids ins outs (map mid mods)) by (apply ord_mid; auto).
    rewrite T1. cbn [Xml_Model.write tag_of]. change (String.eqb "Network" "Network") with true. cbn iota. destruct fuel as [| fuel]; [cbn [depth] in HF; lia |]. cbn [Xml_Model.read_network]. rewrite T3, T4. unfold elements at 1. rewrite T2. cbn [Xml_Model.write]. cbn [attr lookup kids_of].
    change (match lookup "name" [("name"%string, nm); ("class"%string, cls)] with Some s0 => s0 | None => EmptyString end) with nm. change (match lookup "class" [("name"%string, nm); ("class"%string, cls)] with Some s0 => s0 | None => EmptyString end) with cls.
    rewrite filter_app, elem_args. rewrite (read_larg s cls a _ []); [| auto | auto | apply silent_none; [auto | destruct mothers; repeat constructor]]. cbn [rbind]. rewrite app_nil_r, lits_larg, accepted_larg by auto. cbn [negb]. rewrite SI.
    rewrite !(get_child_args cls) by (auto; cbn [In reserved]; auto). 
    rewrite (picks_map mid (fun m => flag ins outs (mid m) (write m))). change (picks (map (fun a0 : module => (mid a0, a0)) mods) (order_ids ins outs (map mid mods))) with L.
    set (mnode := Elem "Modules" [] (map (fun m => flag ins outs (mid m) (write m)) L)). set (names := map (fun m => (mid m, mname m)) mods). set (cnode := Elem "Connections" [] (map (write_conn names false) conns ++ map (write_conn names true) recs)).
    set (mm := match mothers with [] => [] | _ :: _ => [Elem "MotherConnections" [] (map write_mother mothers)] end).
    assert (G1 : get_child ([mnode] ++ mm ++ [cnode]) "Modules" = Some mnode) by reflexivity. assert (G2 : get_child ([mnode] ++ mm ++ [cnode]) "Connections" = Some cnode) by (unfold mm; destruct mothers; reflexivity). assert (G3 : get_child ([mnode] ++ mm ++ [cnode]) "MotherConnections" = match mothers with [] => None | _ => Some (Elem "MotherConnections" [] (map write_mother mothers)) end) by (unfold mm; destruct mothers; reflexivity).
    rewrite G1, G2, G3. cbn [length map seq] in E. injection E as E0 E1. apply map_seq_app in E1 as [E1 E2].
    assert (EM : elements mnode = map (fun m => flag ins outs (mid m) (write m)) L). { unfold elements, mnode. cbn [kids_of]. apply filter_all. intros x Hx. apply in_map_iff in Hx as (m & <- & _). destruct (write_shape m) as (t & nm' & cls' & k & ->). unfold flag. destruct (mem (mid m) ins), (mem (mid m) outs); reflexivity. }
    rewrite EM. set (s0 := {| next := S (next s); modreg := modreg s; mothreg := mothreg s |}). assert (C0 : clean s0) by exact C.
    assert (FL : forall Q : module -> Prop, Forall Q mods -> Forall Q L) by (intros Q HQ; eapply Permutation_Forall; eauto).
    destruct (read_mods_ok f fuel ins outs L (FL _ IH) (FL _ SM) (FL _ SN)) with (s := s0) (p := @no_parts V P) as (s1 & R1 & X1 & R2 & C1); auto.
    { apply FL. apply Forall_forall. intros x Hx. cbn [depth] in HF. assert (depth x <= list_max (map depth mods)); [| lia]. pose proof (proj1 (list_max_le (map depth mods) _) (le_n _)) as K. rewrite Forall_forall in K. apply K. now apply in_map. }
    { eapply Permutation_NoDup; [apply Permutation_flat_map; exact PO | auto]. }
    { eapply Permutation_NoDup; [apply Permutation_flat_map; exact PO | auto]. }
    rewrite R1. cbn [rbind]. rewrite OM, order_ins, order_outs by auto. cbn [p_ins p_outs p_mods p_mothers p_conns p_recs no_parts app].
    assert (NF : NoDup (map fst (flat_map (fun m => (mname m, mid m) :: inner m) L))).
    { assert (FP : Permutation (map fst (flat_map (fun m => (mname m, mid m) :: inner m) L)) (flat_map (fun k => mname k :: inner_names k) mods)); [| eapply Permutation_NoDup; [symmetry; exact FP | auto]].
      transitivity (map fst (flat_map (fun m => (mname m, mid m) :: inner m) mods)); [apply Permutation_map, Permutation_flat_map; symmetry; auto |]. clear - SM N1. induction SM as [| x l Hx SM IHm]; cbn [flat_map map app]; [reflexivity |]. cbn [flat_map] in N1. apply nd_app in N1 as (A1 & A2 & _). rewrite map_app. cbn [fst]. constructor. apply Permutation_app; [apply trav_perm; auto | auto]. }
    assert (RM : exists s2, match (match mothers with [] => None | _ :: _ => Some (Elem "MotherConnections" [] (map write_mother mothers)) end) with Some mc => read_mothers s1 (elements mc) | None => Ok s1 end = Ok s2 /\ next s2 = next s1 + length mothers /\ modreg s2 = modreg s1 /\ clean s2 /\ forall m, In m mothers -> lookup (mo_name m) (mothreg s2) = Some (mren f m)).
    { destruct (read_mothers_ok f mothers s1 C1 S7 S6) as (s2 & Q1 & Q2 & Q3 & Q4 & Q5). { rewrite X1. cbn [s0 next]. rewrite map_length in E2. exact E2. }
      exists s2. split; [| split; [auto | split; [auto | split; [auto |]]]].
      - destruct mothers as [| m0 mothers']; [exact Q1 |]. unfold elements. cbn [kids_of]. rewrite filter_all; [exact Q1 |]. intros x Hx. apply in_map_iff in Hx as (m & <- & _). reflexivity.
      - intros m Hm. rewrite Q5. rewrite (lookup_nodup (mo_name m) m); [reflexivity | rewrite map_map; auto | apply in_map_iff; exists m; auto]. }
    destruct RM as (s2 & Q1 & Q2 & Q3 & Q4 & Q5). rewrite Q1. cbn [rbind].
    assert (EC : elements cnode = map (write_conn names false) conns ++ map (write_conn names true) recs ++ []). { rewrite app_nil_r. unfold elements, cnode. cbn [kids_of]. apply filter_all. intros x Hx. apply in_app_or in Hx as [Hx | Hx]; apply in_map_iff in Hx as (c & <- & _); reflexivity. }
    rewrite EC. apply Forall_app in S8 as [S8a S8b].
    assert (NM : map fst names = map mid mods) by (unfold names; now rewrite map_map). assert (NDn : NoDup (map fst names)) by (rewrite NM; auto).
    assert (RN : forall j x, In (j, x) names -> lookup x (modreg s2) = Some (f j)).
    { intros j x H. unfold names in H. apply in_map_iff in H as (m & Em & Hm). injection Em as <- <-. rewrite Q3, R2. rewrite (lookup_nodup (mname m) (mid m)); [reflexivity | auto |]. apply in_flat_map. exists m. split; [apply (Permutation_in _ PO); auto | left; auto]. }
    assert (RMo : forall m, In m mothers -> okmother m /\ lookup (mo_name m) (mothreg s2) = Some (mren f m)) by (intros m Hm; split; [rewrite Forall_forall in S7; auto | auto]).
    rewrite (read_conns_ok f s2 names (map mid mods) mothers false conns Q4 S8a NDn NM RN RMo). rewrite (read_conns_ok f s2 names (map mid mods) mothers true recs Q4 S8b NDn NM RN RMo). cbn [Xml_Model.read_conns rbind]. rewrite !add_conns. cbn [p_ins p_outs p_mods p_mothers p_conns p_recs app].
    assert (INJ : forall x y, In x (map mid mods) -> In y (map mid mods) -> f x = f y -> x = y).
    { assert (SUB : forall x, In x (map mid mods) -> In x (flat_map trav L)). { intros x Hx. apply in_map_iff in Hx as (m & <- & Hm). apply in_flat_map. exists m. split; [apply (Permutation_in _ PO); auto |]. destruct m; [left; auto | rewrite trav_net; left; auto]. } intros x y Hx Hy. apply (seq_inj f _ _ E1); auto. }
    set (ops := sort_ops (map (canon f) L) (map (cren f) conns)).
    assert (LK : forall u v, linked ops u v -> exists c, In c conns /\ f (k_in c) = u /\ f (k_out c) = v).
    { intros u v (c & Hc & <- & <-). unfold ops, sort_ops in Hc. apply in_app_or in Hc as [Hc | Hc]; apply in_map_iff in Hc as (y & Ey & Hy); [discriminate |]. injection Ey as <-. apply in_map_iff in Hy as (c' & <- & Hc'). exists c'. auto. }
    assert (MO : forall j, In j (map mid mods) -> has_module ops (f j)).
    { intros j Hj. unfold has_module, ops, sort_ops. apply in_or_app. left. apply in_map_iff in Hj as (m & <- & Hm). apply in_map_iff. exists (canon f m). split; [now rewrite mid_canon | apply in_map; apply (Permutation_in _ PO); auto]. }
    assert (CL : closed ops). { intros c Hc. assert (K : linked ops (c_in c) (c_out c)) by (exists c; auto). apply LK in K as (c' & Hc' & <- & <-). rewrite Forall_forall in S8a. destruct (S8a c' Hc') as (I1 & I2 & _). auto. }
    assert (AC : acyclic (linked ops)). { apply (acyclic_map f (map mid mods) _ _ INJ) with (2 := S10). intros u v K. apply LK in K as (c' & Hc' & <- & <-). rewrite Forall_forall in S8a. destruct (S8a c' Hc') as (I1 & I2 & _). exists (k_in c'), (k_out c'). repeat (split; auto). exists c'. auto. }
    destruct (topo_session rank ops CL) as [T _]. destruct (T AC) as (order & ES & _). rewrite ES. cbn [rbind]. exists s2. split; [| split; [| split]].
    + rewrite map_app, map_app, fold_left_app. rewrite E0. reflexivity.
    + cbn [length]. rewrite app_length, map_length, Q2, X1. cbn [s0 next]. lia.
    + intros x. rewrite Q3. apply R2.
    + exact Q4.
Qed.

(** ** The read network is the written one *)
Lemma mothers_from (l : list (option mother)) : forall acc x, In x (fold_left add_mother l acc) -> In x acc \/ In (Some x) l.
Proof.
  induction l as [| [m |] l IH]; intros acc x H; cbn [fold_left add_mother] in H; [auto | |].
  - destruct (existsb _ acc); apply IH in H as [H | H]; try (right; right; auto; fail); auto. apply in_app_or in H as [H | [<- | []]]; [auto | right; left; auto].
  - apply IH in H as [H | H]; [auto | right; right; auto].
Qed.
Lemma mothers_keep (l : list (option mother)) : forall acc x, In x acc -> In x (fold_left add_mother l acc).
Proof.
  induction l as [| [m |] l IH]; intros acc x H; cbn [fold_left add_mother]; auto. destruct (existsb _ acc); apply IH; auto. apply in_or_app; auto.
Qed.
Lemma mothers_nodup (l : list (option mother)) : forall acc, NoDup (map mo_id acc) -> NoDup (map mo_id (fold_left add_mother l acc)).
Proof.
  induction l as [| [m |] l IH]; intros acc H; cbn [fold_left add_mother]; auto. destruct (existsb _ acc) eqn:E; apply IH; auto. rewrite map_app. apply nd_app. split; [auto |]. split; [repeat constructor; auto |]. intros x Hx [<- | []]. apply in_map_iff in Hx as (y & Ey & Hy).
  assert (K : existsb (fun x => mo_id x =? mo_id m) acc = true); [| congruence]. apply existsb_exists. exists y. split; [auto | now apply Nat.eqb_eq].
Qed.
Lemma mothers_all (U : list mother) (l : list (option mother)) : (forall x y, In x U -> In y U -> mo_id x = mo_id y -> x = y) -> (forall x, In (Some x) l -> In x U) -> forall acc, incl acc U -> forall x, In (Some x) l -> In x (fold_left add_mother l acc).
Proof.
  intros HU. induction l as [| [m |] l IH]; intros HL acc HA x H; [destruct H | |].
  - cbn [fold_left add_mother]. destruct H as [E | H].
    + injection E as ->. destruct (existsb _ acc) eqn:E; apply mothers_keep; [| apply in_or_app; right; left; auto]. apply existsb_exists in E as (y & Hy & E). apply Nat.eqb_eq in E. assert (y = x) by (apply HU; auto; apply HL; left; auto). now subst y.
    + apply IH; auto; [intros; apply HL; right; auto |]. destruct (existsb _ acc); auto. intros y Hy. apply in_app_or in Hy as [Hy | [<- | []]]; auto. apply HL. left; auto.
  - cbn [fold_left add_mother]. destruct H as [E | H]; [discriminate |]. apply IH; auto. intros; apply HL; right; auto.
Qed.
Lemma NoDup_map_inj_on (f : nat -> nat) l : (forall a b, In a l -> In b l -> f a = f b -> a = b) -> NoDup l -> NoDup (map f l).
Proof.
  intros HI H. induction H as [| x l N H IH]; cbn [map]; constructor; [| apply IH; intros; apply HI; auto; right; auto]. intros K. apply in_map_iff in K as (y & E & Hy). assert (y = x) by (apply HI; auto; [right; auto | left; auto]). now subst y.
Qed.
Lemma same_canon f m : savable m -> NoDup (objects m) -> (forall a b, In a (objects m) -> In b (objects m) -> f a = f b -> a = b) -> same f m (canon f m).
Proof.
  induction m as [i nm cls a p | i nm cls a fg ins outs mods mothers conns recs IH] using module_ind'; intros HS ND HI; [constructor |].
  rewrite canon_net. destruct HS as (SA & SI & -> & S1 & S2 & S3 & S4 & S5 & S6 & S7 & S8 & S9 & S10 & SN & SM). apply savable_mods in SM. cbn [objects] in ND, HI. inversion ND as [| ? ? Ni ND']; subst. apply nd_app in ND' as (N1 & N2 & N3).
  assert (NK : NoDup (map mid mods)) by (apply (nd_keys objects mid); [apply mid_in_objects | auto]). assert (PO := ord_perm ins outs mods NK S1 S2 S3 S4).
  apply same_net with (l := ord ins outs mods); [auto | |].
  - rewrite Forall_forall in IH, SM. assert (G : forall x, In x (ord ins outs mods) -> same f x (canon f x)). { intros x Hx. apply (Permutation_in _ (Permutation_sym PO)) in Hx. apply IH; auto; [eapply nd_flat; eauto |]. intros u v Hu Hv. apply HI; right; apply in_or_app; left; apply in_flat_map; eauto. }
    clear - G. induction (ord ins outs mods) as [| x l IHl]; cbn [map]; constructor; [apply G; left; auto | apply IHl; intros; apply G; right; auto].
  - set (l := map k_mother (map (cren f) (conns ++ recs))). assert (HL : forall x, In (Some x) l -> In x (map (mren f) mothers)).
    { intros x Hx. unfold l in Hx. rewrite map_map in Hx. apply in_map_iff in Hx as (c & E & Hc). cbn [k_mother cren] in E. destruct (k_mother c) as [m |] eqn:Em; [| discriminate]. injection E as <-. apply in_map. rewrite Forall_forall in S8. destruct (S8 c Hc) as (_ & _ & _ & _ & _ & M). apply (M m Em). }
    assert (HID : map mo_id (map (mren f) mothers) = map f (map mo_id mothers)) by (rewrite !map_map; reflexivity).
    assert (NF : NoDup (map mo_id (map (mren f) mothers))). { rewrite HID. apply NoDup_map_inj_on; auto. intros u v Hu Hv. apply HI; right; apply in_or_app; right; auto. }
    assert (HU : forall x y, In x (map (mren f) mothers) -> In y (map (mren f) mothers) -> mo_id x = mo_id y -> x = y).
    { clear - NF. induction (map (mren f) mothers) as [| z k IHk]; intros x y Hx Hy E; [destruct Hx |]. inversion NF as [| ? ? N NF']; subst. destruct Hx as [-> | Hx], Hy as [-> | Hy]; auto; exfalso; apply N; [rewrite E | rewrite <- E]; apply in_map; auto. }
    apply NoDup_Permutation; [eapply NoDup_map_inv; exact NF | eapply NoDup_map_inv; apply mothers_nodup; constructor |]. intros x. split; intros Hx.
    + apply (mothers_all (map (mren f) mothers)); auto; [intros y [] |]. apply in_map_iff in Hx as (m & <- & Hm). destruct (S9 m Hm) as (c & Hc & Ec). unfold l. rewrite map_map. apply in_map_iff. exists c. split; [cbn [k_mother cren]; rewrite Ec; reflexivity | auto].
    + apply mothers_from in Hx as [[] | Hx]. auto.
Qed.
(** a numbering of the objects *)
Fixpoint index (l : list nat) (i : nat) : nat := match l with [] => 0 | x :: t => if i =? x then 0 else S (index t i) end.
Lemma index_seq l k : NoDup l -> map (fun i => k + index l i) l = seq k (length l).
Proof.
  intros H. revert k. induction H as [| x l N H IH]; intros k; cbn [map length seq]; [auto |]. cbn [index]. rewrite Nat.eqb_refl, Nat.add_0_r. f_equal. rewrite <- IH. apply map_ext_in. intros y Hy. destruct (Nat.eqb_spec y x) as [-> | _]; [contradiction | lia].
Qed.
Lemma index_lt l i : In i l -> index l i < length l.
Proof. induction l as [| x l IH]; intros H; [destruct H |]. cbn [index length]. destruct (Nat.eqb_spec i x); [lia |]. destruct H as [-> | H]; [congruence |]. apply IH in H. lia. Qed.
Lemma height_write m : savable m -> NoDup (objects m) -> depth m <= height (write m).
Proof.
  induction m as [i nm cls a p | i nm cls a fg ins outs mods mothers conns recs IH] using module_ind'; intros HS ND; [cbn [depth]; lia |].
  destruct HS as (SA & SI & -> & S1 & S2 & S3 & S4 & S5 & S6 & S7 & S8 & S9 & S10 & SN & SM). apply savable_mods in SM. cbn [objects] in ND. inversion ND as [| ? ? Ni ND']; subst. apply nd_app in ND' as (N1 & N2 & N3).
  assert (NK : NoDup (map mid mods)) by (apply (nd_keys objects mid); [apply mid_in_objects | auto]). assert (PO := ord_perm ins outs mods NK S1 S2 S3 S4). cbn [depth Xml_Model.write height]. apply le_n_S. apply list_max_le. apply Forall_forall. intros d Hd. apply in_map_iff in Hd as (m & <- & Hm).
  rewrite (picks_map mid (fun m => flag ins outs (mid m) (write m))). change (picks (map (fun a0 : module => (mid a0, a0)) mods) (order_ids ins outs (map mid mods))) with (ord ins outs mods). rewrite Forall_forall in IH, SM. transitivity (height (write m)); [apply IH; auto; eapply nd_flat; eauto |].
  assert (LM : forall l x, In x l -> x <= list_max l). { intros l x Hx. pose proof (proj1 (list_max_le l _) (le_n _)) as K. rewrite Forall_forall in K. auto. }
  transitivity (height (Elem "Modules" [] (map (fun m => flag ins outs (mid m) (write m)) (ord ins outs mods)))).
  - cbn [height]. apply le_S. apply LM. rewrite map_map. apply in_map_iff. exists m. split; [| apply (Permutation_in _ PO); auto]. unfold flag. destruct (write_shape m) as (t & n' & c' & k & ->). destruct (mem (mid m) ins), (mem (mid m) outs); reflexivity.
  - apply LM. rewrite map_app. apply in_or_app. right. left. reflexivity.
Qed.
Theorem roundtrip m (s : st) fuel : is_net m -> savable m -> NoDup (objects m) -> NoDup (inner_names m) -> clean s -> height (write m) <= fuel ->
  exists f m' s', read_network fuel s (write m) = Ok (m', s') /\ same f m m' /\ (forall a b, In a (objects m) -> In b (objects m) -> f a = f b -> a = b) /\
    (forall a, In a (objects m) -> next s <= f a < next s') /\ clean s'.
Proof.
  intros HN HS ND NN C HF. destruct (trav_perm m HS ND) as (PT & _ & _). set (f := fun i => next s + index (trav m) i). assert (NT : NoDup (trav m)) by (eapply Permutation_NoDup; [symmetry; exact PT | auto]).
  assert (E : map f (trav m) = seq (next s) (length (trav m))) by (apply index_seq; auto). assert (HI : forall a b, In a (objects m) -> In b (objects m) -> f a = f b -> a = b) by (intros a b Ha Hb; apply (seq_inj f _ _ E); apply (Permutation_in _ (Permutation_sym PT)); auto).
  destruct (reads_all m f s fuel (write m) HS ND NN C E) as (s' & R & X & _ & C'); auto; [pose proof (height_write m HS ND); lia |]. assert (T : tag_of (write m) = "Network"%string) by (destruct m; [destruct HN | reflexivity]). rewrite T in R. change (String.eqb "Network" "Network") with true in R. cbn iota in R.
  exists f, (canon f m), s'. split; [auto |]. split; [apply same_canon; auto |]. split; [auto |]. split; [| auto]. intros a Ha. apply (Permutation_in _ (Permutation_sym PT)) in Ha. apply index_lt in Ha. unfold f. lia.
Qed.
Lemma findNode_write (ms : list module) : Forall is_net ms -> forall i, findNode (map write ms) i = option_map write (nth_error ms i).
Proof.
  intros H. induction H as [| m ms Hm H IH]; intros i; [destruct i; reflexivity |]. cbn [map findNode]. assert (T : tag_of (write m) = "Network"%string) by (destruct m; [destruct Hm | reflexivity]). rewrite T. change (String.eqb "Network" "Network") with true. cbn iota. destruct i; [reflexivity | apply IH].
Qed.
Lemma findNamed_write (ms : list module) x : Forall is_net ms -> findNamed (map write ms) x = option_map write (find (fun m => String.eqb (mname m) x) ms).
Proof.
  intros H. induction H as [| m ms Hm H IH]; [reflexivity |]. cbn [map findNamed find]. assert (T : tag_of (write m) = "Network"%string /\ attr "name" (write m) = mname m) by (destruct m; [destruct Hm | split; reflexivity]). destruct T as [-> ->]. change (String.eqb "Network" "Network") with true. cbn [andb]. destruct (String.eqb (mname m) x); [reflexivity | exact IH].
Qed.
Lemma file_write (m : module) (ms : list module) : fold_left (fun f m => appendToFile repr short f m) ms (writeToFile repr short m) = map write (m :: ms).
Proof.
  cut (forall acc, fold_left (fun f (m : module) => appendToFile repr short f m) ms acc = acc ++ map write ms); [intros K; apply K |]. induction ms as [| x ms IH]; intros acc; cbn [fold_left map]; [now rewrite app_nil_r |]. rewrite IH. unfold appendToFile. now rewrite <- app_assoc.
Qed.
End Proofs.
