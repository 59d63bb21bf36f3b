(** Specification vocabulary for saved networks: which networks can be saved, and what it means to be the same network. *)
From Coq Require Import String.
From Verif Require Import Base Topo_Model Topo_Spec Xml_Model.

Section Spec.
Context {V P : Type}.
Notation module := (module V P). Notation mother := (mother V P). Notation kconn := (kconn V P).

(** ** The same network, with objects renamed by f *)
Definition mren (f : nat -> nat) (m : mother) : mother := {| mo_id := f (mo_id m); mo_name := mo_name m; mo_class := mo_class m; mo_args := mo_args m; mo_params := mo_params m |}.
Definition cren (f : nat -> nat) (c : kconn) : kconn :=
  {| k_name := k_name c; k_class := k_class c; k_in := f (k_in c); k_out := f (k_out c); k_mother := option_map (mren f) (k_mother c); k_opts := k_opts c; k_params := k_params c |}.
(** names, classes, arguments, parameters, inputs and outputs in their order, connections and recurrent connections in their order; the modules and the mothers in any order *)
Inductive same (f : nat -> nat) : module -> module -> Prop :=
| same_prim i nm cls a p : same f (Prim i nm cls a p) (Prim (f i) nm cls a p)
| same_net i nm cls a fg ins outs mods l mods' mothers mothers' conns recs :
    Permutation mods l -> Forall2 (same f) l mods' -> Permutation (map (mren f) mothers) mothers' ->
    same f (Net i nm cls a fg ins outs mods mothers conns recs) (Net (f i) nm cls a fg (map f ins) (map f outs) mods' mothers' (map (cren f) conns) (map (cren f) recs)).

Definition is_net (m : module) : Prop := match m with Prim _ _ _ _ _ => False | Net _ _ _ _ _ _ _ _ _ _ _ => True end.
(** all the objects of a module, and the names under which its inner modules are known *)
Fixpoint objects (m : module) : list nat :=
  match m with Prim i _ _ _ _ => [i] | Net i _ _ _ _ _ _ mods mothers _ _ => i :: flat_map objects mods ++ map mo_id mothers end.
Fixpoint inner_names (m : module) : list string :=
  match m with Prim _ _ _ _ _ => [] | Net _ _ _ _ _ _ _ mods _ _ _ => flat_map (fun k => mname k :: inner_names k) mods end.

(** ** Networks that can be saved *)
Variable repr : V -> string.
Variable sig : string -> list string.
Variable short : string -> string.
Variable initial : string -> list (string * lit V) -> nat -> parts V P * nat.
(** names given to modules (now or in an earlier reading), and to mother connections *)
Variables PN PM : string -> Prop.
Definition reserved : list string := ["Parameters"; "Modules"; "MotherConnections"; "Connections"]%string.
(** an argument: taken by the constructor, not a class, and not written like a name *)
Definition okarg (cls : string) (a : string * lit V) : Prop :=
  In (fst a) (sig cls) /\ ~ In (fst a) reserved /\ exists v, snd a = LVal v /\ repr v <> EmptyString /\ ~ PN (repr v) /\ ~ PM (repr v).
Definition okmother (m : mother) : Prop := Forall (okarg (mo_class m)) (mo_args m) /\ PM (mo_name m) /\ ~ PN (mo_name m).
Definition okconn (ids : list nat) (mothers : list mother) (c : kconn) : Prop :=
  In (k_in c) ids /\ In (k_out c) ids /\ In "inmod"%string (sig (k_class c)) /\ In "outmod"%string (sig (k_class c)) /\
  Forall (fun a => okarg (k_class c) a /\ ~ In (fst a) (["inmod"; "outmod"; "mother"]%string)) (k_opts c) /\
  (forall m, k_mother c = Some m -> In m mothers /\ In "mother"%string (sig (k_class c)) /\ k_params c = None).
Fixpoint savable (m : module) : Prop :=
  match m with
  | Prim _ _ cls args _ => Forall (okarg cls) args /\ short cls <> "Network"%string
  | Net _ _ cls args fg ins outs mods mothers conns recs =>
      Forall (okarg cls) args /\ (forall l k, initial cls l k = (no_parts, k)) /\ fg = false /\
      NoDup ins /\ NoDup outs /\ incl ins (map mid mods) /\ incl outs (map mid mods) /\ (forall i, In i ins -> ~ In i outs) /\
      NoDup (map mo_name mothers) /\ Forall okmother mothers /\ Forall (okconn (map mid mods) mothers) (conns ++ recs) /\
      (forall mo, In mo mothers -> exists c, In c (conns ++ recs) /\ k_mother c = Some mo) /\
      acyclic (fun u v => exists c, In c conns /\ k_in c = u /\ k_out c = v) /\
      Forall (fun k => PN (mname k)) mods /\ fold_right and True (map savable mods)
  end.
(** the state of the reader: what earlier readings left behind *)
Definition clean (s : st V P) : Prop := (forall x i, lookup x (modreg s) = Some i -> PN x) /\ (forall x m, lookup x (mothreg s) = Some m -> PM x).
End Spec.
