(** C55: saved networks.  Model: Xml_Model; vocabulary: Xml_Spec. *)
From Coq Require Import String Ascii.
From Verif Require Import Base Topo_Model Topo_Spec Xml_Model Xml_Spec Xml_Proofs.
Open Scope string_scope.

(** Reading what was written gives the same network: new objects, the same structure, whatever was read before. *)
Theorem C55_roundtrip {V P} : forall (repr : V -> string) ev sig short (initial : string -> list (string * lit V) -> nat -> parts V P * nat) rank (PN PM : string -> Prop) m s fuel,
  (forall v, ev (repr v) = Some (LVal v)) -> ~ PN "" -> ~ PM "" ->
  is_net m -> savable repr sig short initial PN PM m -> NoDup (objects m) -> NoDup (inner_names m) -> clean PN PM s -> height (write repr short m) <= fuel ->
  exists f m' s', read_network ev sig initial rank fuel s (write repr short m) = Ok (m', s') /\ same f m m' /\
    (forall a b, In a (objects m) -> In b (objects m) -> f a = f b -> a = b) /\ (forall a, In a (objects m) -> next s <= f a < next s') /\ clean PN PM s'.
Proof. intros. eapply roundtrip; eauto. Qed.

(** Files: the network asked for by its index, or the first with the name asked for, is the one read, any number of times and in any order. *)
Theorem C55_files {V P} : forall (repr : V -> string) ev sig short (initial : string -> list (string * lit V) -> nat -> parts V P * nat) rank (PN PM : string -> Prop) m0 ms s,
  (forall v, ev (repr v) = Some (LVal v)) -> ~ PN "" -> ~ PM "" ->
  Forall (fun m => is_net m /\ savable repr sig short initial PN PM m /\ NoDup (objects m) /\ NoDup (inner_names m)) (m0 :: ms) -> clean PN PM s ->
  let file := fold_left (appendToFile repr short) ms (writeToFile repr short m0) in
  (forall i m, nth_error (m0 :: ms) i = Some m -> exists f m' s', readFrom ev sig initial rank s file None i = Ok (m', s') /\ same f m m' /\ clean PN PM s') /\
  (forall i, length (m0 :: ms) <= i -> readFrom ev sig initial rank s file None i = Err AttributeError) /\
  (forall x i m, x <> "" -> nth_error (m0 :: ms) i = Some m -> mname m = x -> (forall j k, j < i -> nth_error (m0 :: ms) j = Some k -> mname k <> x) ->
     forall index, exists f m' s', readFrom ev sig initial rank s file (Some x) index = Ok (m', s') /\ same f m m' /\ clean PN PM s') /\
  (forall x index, x <> "" -> Forall (fun m => mname m <> x) (m0 :: ms) -> readFrom ev sig initial rank s file (Some x) index = Err AttributeError).
Proof.
  intros repr ev sig short initial rank PN PM m0 ms s H1 H2 H3 HA C file. assert (FE : file = map (write repr short) (m0 :: ms)) by (exact (file_write repr short m0 ms)). rewrite FE. clear FE. clear file. set (l := m0 :: ms) in *. clearbody l. assert (HN : Forall is_net l) by (eapply Forall_impl; [| exact HA]; intros m (A & _); exact A).
  assert (G : forall m, In m l -> exists f m' s', read_network ev sig initial rank (height (write repr short m)) s (write repr short m) = Ok (m', s') /\ same f m m' /\ clean PN PM s').
  { intros m Hm. rewrite Forall_forall in HA. destruct (HA m Hm) as (A & B & D & E). destruct (roundtrip repr ev sig short initial rank PN PM H1 H2 H3 m s (height (write repr short m)) A B D E C (le_n _)) as (f & m' & s' & R & S & _ & _ & C'). exists f, m', s'. auto. }
  split; [| split; [| split]].
  - intros i m E. unfold readFrom. rewrite (findNode_write repr short l HN i), E. cbn [option_map]. apply G. eapply nth_error_In; eauto.
  - intros i Hi. unfold readFrom. rewrite (findNode_write repr short l HN i), (proj2 (nth_error_None l i) Hi). reflexivity.
  - intros x i m Hx E EN HB index. unfold readFrom. destruct (String.eqb_spec x ""); [contradiction |]. rewrite (findNamed_write repr short l x HN). assert (F : find (fun m => mname m =? x) l = Some m).
    { clear - E EN HB. revert i E HB. induction l as [| k l IH]; intros i E HB; [destruct i; discriminate |]. destruct i as [| i]; cbn [find].
      - injection E as ->. rewrite EN, String.eqb_refl. reflexivity.
      - destruct (String.eqb_spec (mname k) x) as [K | _]; [exfalso; apply (HB 0 k); auto; lia |]. apply (IH i); auto. intros j z Hj Ez. apply (HB (S j) z); auto; lia. }
    rewrite F. cbn [option_map]. apply G. eapply nth_error_In; eauto.
  - intros x index Hx HB. unfold readFrom. destruct (String.eqb_spec x ""); [contradiction |]. rewrite (findNamed_write repr short l x HN). assert (F : find (fun m => mname m =? x) l = None).
    { clear - HB. induction HB as [| k l Hk HB IH]; [reflexivity |]. cbn [find]. destruct (String.eqb_spec (mname k) x); [contradiction | auto]. }
    rewrite F. reflexivity.
Qed.

(** ** A small world *)
Fixpoint ticks (n : nat) : string := match n with 0 => "" | S k => String "I"%char (ticks k) end.
Definition xrepr (n : nat) : string := String "#"%char (ticks n).
Fixpoint unticks (s : string) : option nat := match s with EmptyString => Some 0 | String c r => if Ascii.eqb c "I"%char then option_map S (unticks r) else None end.
Definition xev (s : string) : option (lit nat) :=
  match s with EmptyString => None | String c r => if Ascii.eqb c "#"%char then option_map (fun n => LVal n) (unticks r) else if String.eqb s "type" then Some (LClass "type") else None end.
Lemma xev_repr v : xev (xrepr v) = Some (LVal v).
Proof. unfold xev, xrepr. cbn [Ascii.eqb Bool.eqb]. assert (K : unticks (ticks v) = Some v) by (induction v as [| v IH]; [reflexivity |]; cbn [ticks unticks]; rewrite IH; reflexivity). rewrite K. reflexivity. Qed.
Definition xsig (c : string) : list string :=
  if String.eqb c "LinearLayer" then ["dim"; "name"] else if String.eqb c "GaussianLayer" then ["dim"; "name"] else if String.eqb c "LSTMLayer" then ["dim"; "peepholes"; "name"]
  else if String.eqb c "FullConnection" then ["inmod"; "outmod"; "name"; "inSliceFrom"; "outSliceFrom"] else if String.eqb c "SharedFullConnection" then ["mother"; "inmod"; "outmod"; "name"]
  else if String.eqb c "MotherConnection" then ["nbparams"; "name"] else if String.eqb c "BidirectionalNetwork" then ["seqlen"; "inputsize"; "componentclass"] else ["name"].
(** a class whose constructor makes modules by itself: one layer (all of basic.py's, customs and the sequence networks) *)
Definition xinitial (c : string) (l : list (string * lit nat)) (k : nat) : parts nat nat * nat :=
  if String.eqb c "BidirectionalNetwork" then ({| p_ins := [k]; p_outs := []; p_mods := [Prim k "inp" "LinearLayer" [("dim", LVal 1)] None]; p_mothers := []; p_conns := []; p_recs := [] |}, S k) else (no_parts, k).
Definition xread := @read_network nat nat xev xsig xinitial (fun i => i).
Definition xwrite := @write nat nat xrepr (fun c => c).
Definition s0 : st nat nat := {| next := 100; modreg := []; mothreg := [] |}.
Definition layer i nm d : module nat nat := Prim i nm "LinearLayer" [("dim", LVal d)] None.
Definition full nm i j p : kconn nat nat := {| k_name := nm; k_class := "FullConnection"; k_in := i; k_out := j; k_mother := None; k_opts := []; k_params := Some p |}.
Definition mo1 : mother nat nat := {| mo_id := 7; mo_name := "mum"; mo_class := "MotherConnection"; mo_args := [("nbparams", LVal 4)]; mo_params := Some 44 |}.
Definition shared nm i j m : kconn nat nat := {| k_name := nm; k_class := "SharedFullConnection"; k_in := i; k_out := j; k_mother := Some m; k_opts := []; k_params := None |}.
Definition inside : module nat nat := Net 2 "sub" "FeedForwardNetwork" [] false [3] [4] [layer 3 "si" 2; layer 4 "so" 2] [] [full "sc" 3 4 9] [].
Definition net1 : module nat nat :=
  Net 0 "net" "RecurrentNetwork" [] false [1] [5] [layer 1 "in" 2; inside; Prim 6 "hid" "LSTMLayer" [("dim", LVal 2); ("peepholes", LVal 1)] (Some 8); layer 5 "out" 2] [mo1]
      [full "c1" 1 2 5; shared "c2" 2 5 mo1; shared "c3" 1 6 mo1; full "c4" 6 5 6] [full "r" 6 6 3].
Definition names1 (x : string) : Prop := In x ["in"; "sub"; "hid"; "out"; "si"; "so"].
Definition mums1 (x : string) : Prop := x = "mum".
Ltac okarg_tac := split; [cbn; auto 6 | split; [cbn; intuition discriminate | eexists; split; [reflexivity | split; [discriminate | split; [cbn; unfold xrepr; intuition discriminate | discriminate]]]]].
Ltac oks := repeat (apply Forall_cons; [okarg_tac |]); apply Forall_nil.
Lemma clean0 PN PM : clean PN PM s0.
Proof. split; intros ? ? H; discriminate. Qed.
Lemma ranked (conns : list (kconn nat nat)) (r : nat -> nat) : forallb (fun c => Nat.ltb (r (k_in c)) (r (k_out c))) conns = true -> acyclic (fun u v => exists c, In c conns /\ k_in c = u /\ k_out c = v).
Proof.
  intros H x K. assert (G : forall u v, clos_trans nat (fun u v => exists c, In c conns /\ k_in c = u /\ k_out c = v) u v -> r u < r v); [| apply G in K; lia]. induction 1 as [u v (c & Hc & <- & <-) | u w v _ A _ B]; [| lia]. rewrite forallb_forall in H. apply H in Hc. now apply Nat.ltb_lt.
Qed.
Lemma net1_savable : savable xrepr xsig (fun c => c) xinitial names1 mums1 net1.
Proof.
  assert (L : forall i nm d, names1 nm -> savable xrepr xsig (fun c => c) xinitial names1 mums1 (layer i nm d)) by (intros i nm d _; split; [oks | discriminate]).
  cbn [net1 savable]. split; [constructor |]. split; [reflexivity |]. split; [auto |]. split; [repeat constructor; intros [] |]. split; [repeat constructor; intros [] |]. split; [intros x [<- | []]; cbn; auto |]. split; [intros x [<- | []]; cbn; auto 6 |]. split; [intros x [<- | []] [? | []]; discriminate |].
  split; [repeat constructor; intros [] |]. split; [apply Forall_cons; [split; [oks | split; [reflexivity | cbn; unfold names1; cbn; intuition discriminate]] | apply Forall_nil] |]. split; [| split; [| split; [| split]]].
  - assert (F : forall n i j p, In i [1; 2; 6; 5] -> In j [1; 2; 6; 5] -> okconn xrepr xsig names1 mums1 [1; 2; 6; 5] [mo1] (full n i j p)). { intros n i j p Hi Hj. split; [auto |]. split; [auto |]. split; [cbn; auto |]. split; [cbn; auto |]. split; [constructor |]. intros m E. discriminate. }
    assert (S : forall n i j, In i [1; 2; 6; 5] -> In j [1; 2; 6; 5] -> okconn xrepr xsig names1 mums1 [1; 2; 6; 5] [mo1] (shared n i j mo1)). { intros n i j Hi Hj. split; [auto |]. split; [auto |]. split; [cbn; auto |]. split; [cbn; auto |]. split; [constructor |]. intros m E. injection E as <-. split; [left; auto |]. split; [cbn; auto | auto]. }
    cbn [app map mid net1 inside layer]. repeat (apply Forall_cons; [first [apply F; cbn; auto 6 | apply S; cbn; auto 6] |]). apply Forall_nil.
  - intros mo [<- | []]. exists (shared "c2" 2 5 mo1). split; [cbn; auto | auto].
  - apply (ranked _ (fun i => match i with 1 => 0 | 5 => 2 | _ => 1 end)). reflexivity.
  - repeat (apply Forall_cons; [unfold names1; cbn; auto 10 |]). apply Forall_nil.
  - cbn [map fold_right]. split; [apply L; cbn; auto |]. split; [| split; [| split; [apply L; cbn; auto 8 | auto]]].
    + cbn [inside savable]. split; [constructor |]. split; [reflexivity |]. split; [auto |]. split; [repeat constructor; intros [] |]. split; [repeat constructor; intros [] |]. split; [intros x [<- | []]; cbn; auto |]. split; [intros x [<- | []]; cbn; auto 6 |]. split; [intros x [<- | []] [? | []]; discriminate |].
      split; [constructor |]. split; [constructor |]. split; [apply Forall_cons; [| apply Forall_nil]; split; [cbn; auto |]; split; [cbn; auto |]; split; [cbn; auto |]; split; [cbn; auto |]; split; [constructor | intros ? E; discriminate] |]. split; [intros ? [] |]. split; [apply (ranked _ (fun i => i)); reflexivity |]. split; [repeat (apply Forall_cons; [unfold names1; cbn; auto 10 |]); apply Forall_nil |]. cbn [map fold_right]. split; [apply L; cbn; auto 8 | split; [apply L; cbn; auto 8 | auto]].
    + split; [oks | discriminate].
Qed.
(** a recurrent network with a nested network, shared weights and a peephole layer, read after another reading has left its names *)
Example C55_roundtrip_case : exists f m' s', xread 10 s0 (xwrite net1) = Ok (m', s') /\ same f net1 m' /\ clean names1 mums1 s' /\ exists f' m'' s'', xread 10 s' (xwrite net1) = Ok (m'', s'') /\ same f' net1 m''.
Proof.
  assert (A : NoDup (objects net1)) by (cbn; repeat constructor; cbn; intuition discriminate). assert (B : NoDup (inner_names net1)) by (cbn; repeat constructor; cbn; intuition discriminate). assert (H1 : ~ names1 "") by (unfold names1; cbn; intuition discriminate). assert (H2 : ~ mums1 "") by discriminate. assert (HH : height (xwrite net1) <= 10) by (vm_compute; lia).
  destruct (C55_roundtrip xrepr xev xsig (fun c => c) xinitial (fun i => i) names1 mums1 net1 s0 10 xev_repr H1 H2 I net1_savable A B (clean0 _ _) HH) as (f & m' & s' & R & S & _ & _ & C).
  exists f, m', s'. split; [exact R |]. split; [exact S |]. split; [exact C |].
  destruct (C55_roundtrip xrepr xev xsig (fun c => c) xinitial (fun i => i) names1 mums1 net1 s' 10 xev_repr H1 H2 I net1_savable A B C HH) as (f' & m'' & s'' & R' & S' & _). exists f', m'', s''. auto.
Qed.
Example C55_roundtrip_value : exists s', xread 10 s0 (xwrite net1) = Ok (
  Net 100 "net" "RecurrentNetwork" [] false [101] [102]
    [layer 101 "in" 2; layer 102 "out" 2; Net 103 "sub" "FeedForwardNetwork" [] false [104] [105] [layer 104 "si" 2; layer 105 "so" 2] [] [full "sc" 104 105 9] [];
     Prim 106 "hid" "LSTMLayer" [("dim", LVal 2); ("peepholes", LVal 1)] (Some 8)]
    [mren (fun _ => 107) mo1] [full "c1" 101 103 5; shared "c2" 103 102 (mren (fun _ => 107) mo1); shared "c3" 101 106 (mren (fun _ => 107) mo1); full "c4" 106 102 6] [full "r" 106 106 3], s').
Proof. eexists. vm_compute. reflexivity. Qed.

Definition net2 : module nat nat := Net 50 "second" "FeedForwardNetwork" [] false [51] [] [layer 51 "in" 3] [] [] [].
Example C55_files_case : let file := fold_left (appendToFile xrepr (fun c => c)) [net2] (writeToFile xrepr (fun c => c) net1) in let rd := readFrom xev xsig xinitial (fun i => i) s0 file in
  (exists m s, rd None 0 = Ok (m, s) /\ mname m = "net") /\ (exists m s, rd None 1 = Ok (m, s) /\ mname m = "second") /\ rd None 2 = Err AttributeError /\ (exists m s, rd (Some "second") 0 = Ok (m, s) /\ mname m = "second") /\ rd (Some "third") 0 = Err AttributeError.
Proof. cbn zeta. split; [eexists; eexists; split; [vm_compute; reflexivity | reflexivity] |]. split; [eexists; eexists; split; [vm_compute; reflexivity | reflexivity] |]. split; [vm_compute; reflexivity |]. split; [eexists; eexists; split; [vm_compute; reflexivity | reflexivity] |]. vm_compute. reflexivity. Qed.

(** ** Networks that do not survive *)
Definition reread (m : module nat nat) : result (module nat nat) := let! r := xread 10 s0 (xwrite m) in Ok (fst r).
(** a module that is both input and output comes back as an input only *)
Theorem C55_roles_refuted : reread (Net 0 "n" "FeedForwardNetwork" [] false [1] [1] [layer 1 "a" 2] [] [] []) = Ok (Net 100 "n" "FeedForwardNetwork" [] false [101] [] [layer 101 "a" 2] [] [] []).
Proof. vm_compute. reflexivity. Qed.
(** two modules of one name: the connections of the first go to the second; here a chain of three becomes a loop *)
Theorem C55_same_names_refuted :
  reread (Net 0 "n" "RecurrentNetwork" [] false [1] [3] [layer 1 "a" 2; layer 2 "h" 2; layer 3 "b" 2; layer 4 "h" 2] [] [full "c" 1 2 5; full "d" 2 3 6] []) =
  Ok (Net 100 "n" "RecurrentNetwork" [] false [101] [102] [layer 101 "a" 2; layer 102 "b" 2; layer 103 "h" 2; layer 104 "h" 2] [] [full "c" 101 104 5; full "d" 104 102 6] []) /\
  reread (Net 0 "n" "FeedForwardNetwork" [] false [1] [3] [layer 1 "a" 2; layer 2 "h" 2; layer 4 "h" 2; layer 3 "b" 2] [] [full "c" 1 2 5; full "d" 2 4 6; full "e" 4 3 7] []) = Err NetworkConstructionError.
Proof. vm_compute. auto. Qed.
(** a network inside a network, with the usual names of inputs and outputs in both: the connections of the outer network go to the inner modules, and it cannot be sorted *)
Theorem C55_nested_names_refuted : reread
  (Net 0 "n" "FeedForwardNetwork" [] false [1] [5] [layer 1 "in" 2; Net 2 "sub" "FeedForwardNetwork" [] false [3] [4] [layer 3 "in" 2; layer 4 "out" 2] [] [full "c" 3 4 9] []; layer 5 "out" 2] [] [full "d" 1 2 5; full "e" 2 5 6] []) = Err KeyError.
Proof. vm_compute. reflexivity. Qed.
(** two mothers of one name (the two directions of an asymmetric bidirectional network, bidirectional.py:63-66) come back as one *)
Theorem C55_mothers_refuted : exists m', reread (Net 0 "n" "FeedForwardNetwork" [] false [1] [2] [layer 1 "a" 2; layer 2 "b" 2] [mo1; {| mo_id := 8; mo_name := "mum"; mo_class := "MotherConnection"; mo_args := [("nbparams", LVal 4)]; mo_params := Some 88 |}]
    [shared "c" 1 2 mo1; shared "d" 1 2 {| mo_id := 8; mo_name := "mum"; mo_class := "MotherConnection"; mo_args := [("nbparams", LVal 4)]; mo_params := Some 88 |}] []) = Ok m' /\
  match m' with Net _ _ _ _ _ _ _ _ [mo] _ _ => mo_params mo = Some 88 | _ => False end.
Proof. eexists. split; [vm_compute; reflexivity | reflexivity]. Qed.
(** an argument that is a class (componentclass) is written as the word type, and read as the metaclass of all classes *)
Theorem C55_classes_refuted : exists m', reread (Net 0 "n" "Other" [("name", LClass "TanhLayer")] false [1] [] [layer 1 "a" 2] [] [] []) = Ok m' /\ match m' with Net _ _ _ args _ _ _ _ _ _ _ => args = [("name", LClass "type")] | _ => False end.
Proof. eexists. split; [vm_compute; reflexivity | reflexivity]. Qed.
(** an argument the constructor does not take: GaussianLayer records the stdParams of its parameter container (gaussianlayer.py:13-16, parametercontainer.py:25-37) *)
Theorem C55_gaussian_refuted : reread (Net 0 "n" "FeedForwardNetwork" [] false [1] [2] [layer 1 "a" 2; Prim 2 "g" "GaussianLayer" [("dim", LVal 2); ("stdParams", LVal 0)] (Some 5)] [] [full "c" 1 2 5] []) = Err AttributeError.
Proof. vm_compute. reflexivity. Qed.
(** forget is an attribute and not an argument of a recurrent network: it is lost *)
Theorem C55_forget_refuted : reread (Net 0 "n" "RecurrentNetwork" [] true [1] [2] [layer 1 "a" 2; layer 2 "b" 2] [] [full "c" 1 2 5] []) = Ok (Net 100 "n" "RecurrentNetwork" [] false [101] [102] [layer 101 "a" 2; layer 102 "b" 2] [] [full "c" 101 102 5] []).
Proof. vm_compute. reflexivity. Qed.
(** a class that builds its own modules gets them twice *)
Theorem C55_builders_refuted : exists m', reread (Net 0 "n" "BidirectionalNetwork" [("seqlen", LVal 1)] false [1] [2] [layer 1 "inp" 1; layer 2 "b" 1] [] [full "c" 1 2 5] []) = Ok m' /\
  match m' with Net _ _ _ _ _ ins _ mods _ _ _ => length ins = 2 /\ map mname mods = ["inp"; "inp"; "b"] | _ => False end.
Proof. eexists. split; [vm_compute; reflexivity | split; reflexivity]. Qed.
(** the names read stay with the class: a file that reads well in a new process does not after another file with a module named like one of its arguments *)
Theorem C55_stale_refuted : exists m1 m2 s', is_ok (reread m2) = true /\ (let! r := xread 10 s0 (xwrite m1) in Ok (snd r)) = Ok s' /\ xread 10 s' (xwrite m2) = Err AttributeError.
Proof.
  exists (Net 0 "n" "FeedForwardNetwork" [] false [1] [] [layer 1 "#II" 3] [] [] []), (Net 0 "n" "FeedForwardNetwork" [] false [1] [] [layer 1 "a" 2] [] [] []). eexists. split; [vm_compute; reflexivity |]. split; vm_compute; reflexivity.
Qed.

Print Assumptions C55_roundtrip. Print Assumptions C55_files. Print Assumptions C55_roles_refuted. Print Assumptions C55_same_names_refuted. Print Assumptions C55_nested_names_refuted. Print Assumptions C55_mothers_refuted.
Print Assumptions C55_classes_refuted. Print Assumptions C55_gaussian_refuted. Print Assumptions C55_forget_refuted. Print Assumptions C55_builders_refuted. Print Assumptions C55_stale_refuted.
