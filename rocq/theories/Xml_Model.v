(** Model of tools/customxml/networkwriter.py, networkreader.py and handling.py: networks as XML trees.

    Every object has an identity (a number); reading makes new ones.  A module is a component with its class, its recorded arguments
    (the argdict of utilities.py:134-143) and its parameters, or a network of modules.  Left out: the text of the XML file (trees are
    written and parsed without loss), the text of parameter lists (str of a list of floats is exact), the import of classes.  What a
    class does is given by: [sig], the keyword arguments its constructor takes; [short], its __name__; [initial], the parts a
    constructor of a network makes by itself. *)
From Coq Require Import String.
From Verif Require Import Base Topo_Model.

Section Xml.
Context {V P : Type}.
(** arguments: plain values, and classes *)
Inductive lit := LVal (v : V) | LClass (c : string).
Record mother := { mo_id : nat; mo_name : string; mo_class : string; mo_args : list (string * lit); mo_params : option P }.
Record kconn := { k_name : string; k_class : string; k_in : nat; k_out : nat; k_mother : option mother; k_opts : list (string * lit); k_params : option P }.
(** a network: name, class, arguments, forget (recurrent.py:20-23), inmodules and outmodules, modules in the order of modulesSorted, motherconnections, connections, recurrentConns *)
Inductive module :=
| Prim (id : nat) (nm cls : string) (args : list (string * lit)) (params : option P)
| Net (id : nat) (nm cls : string) (args : list (string * lit)) (forget : bool) (ins outs : list nat) (mods : list module) (mothers : list mother) (conns recs : list kconn).
Definition mid (m : module) : nat := match m with Prim i _ _ _ _ => i | Net i _ _ _ _ _ _ _ _ _ _ => i end.
Definition mname (m : module) : string := match m with Prim _ n _ _ _ => n | Net _ n _ _ _ _ _ _ _ _ _ => n end.

(** XML *)
Inductive node := Elem (tag : string) (attrs : list (string * string)) (kids : list node) | Text (p : P).

Variable repr : V -> string.
Variable ev : string -> option lit.
Variable sig : string -> list string.
Variable short : string -> string.
Record parts := { p_ins : list nat; p_outs : list nat; p_mods : list module; p_mothers : list mother; p_conns : list kconn; p_recs : list kconn }.
Definition no_parts : parts := {| p_ins := []; p_outs := []; p_mods := []; p_mothers := []; p_conns := []; p_recs := [] |}.
Variable initial : string -> list (string * lit) -> nat -> parts * nat.
Variable rank : nat -> nat.        (* the order of the names, for sortModules *)

Fixpoint lookup {A} (k : string) (l : list (string * A)) : option A :=
  match l with [] => None | (k', x) :: t => if String.eqb k k' then Some x else lookup k t end.
Fixpoint pick {A} (l : list (nat * A)) (i : nat) : list A :=
  match l with [] => [] | (j, x) :: t => if i =? j then [x] else pick t i end.
Definition picks {A} (l : list (nat * A)) (is : list nat) : list A := flat_map (pick l) is.
Definition mem (i : nat) (l : list nat) : bool := existsb (Nat.eqb i) l.

(** ** Writing *)
(** networkwriter.py:96-106; canonicClassString of a class is the one of its metaclass, utilities.py:394-397 *)
Definition text (l : lit) : string := match l with LVal v => repr v | LClass _ => "type" end.
Definition write_arg (a : string * lit) : node := Elem (fst a) [("val", text (snd a))%string] [].
(** networkwriter.py:108-111 *)
Definition write_params (p : option P) : list node := match p with Some p => [Elem "Parameters" [] [Text p]] | None => [] end.
(** networkwriter.py:84-94 *)
Definition write_buildable (nm cls : string) (args : list node) (params : option P) : node :=
  Elem (short cls) [("name", nm); ("class", cls)]%string (args ++ write_params params).
Definition write_mother (m : mother) : node := write_buildable (mo_name m) (mo_class m) (map write_arg (mo_args m)) (mo_params m).
Definition add_attr (a : string) (n : node) : node := match n with Elem t at_ k => Elem t (at_ ++ [(a, "True"%string)]) k | Text p => Text p end.
(** networkwriter.py:79-82; the arguments of a connection, connection.py:57-65, shared.py:40; names: of the modules of the network *)
Definition name_arg (k : string) (s : string) : node := Elem k [("val", s)%string] [].
Definition conn_args (names : list (nat * string)) (c : kconn) : list node :=
  map (name_arg "inmod") (pick names (k_in c)) ++ map (name_arg "outmod") (pick names (k_out c)) ++ map write_arg (k_opts c) ++
  match k_mother c with Some m => [name_arg "mother" (mo_name m)] | None => [] end.
Definition write_conn (names : list (nat * string)) (rec : bool) (c : kconn) : node :=
  let n := write_buildable (k_name c) (k_class c) (conn_args names c) (match k_mother c with Some _ => None | None => k_params c end) in
  if rec then add_attr "recurrent" n else n.
(** networkwriter.py:43-52: the order of the modules *)
Definition order_ids (ins outs ids : list nat) : list nat :=
  ins ++ filter (fun i => negb (mem i ins)) outs ++ filter (fun i => negb (mem i ins) && negb (mem i outs)) ids.
(** networkwriter.py:75-78 *)
Definition flag (ins outs : list nat) (i : nat) (n : node) : node := if mem i ins then add_attr "inmodule" n else if mem i outs then add_attr "outmodule" n else n.
(** networkwriter.py:33-78 *)
Fixpoint write (m : module) : node :=
  match m with
  | Prim _ nm cls args params => write_buildable nm cls (map write_arg args) params
  | Net _ nm cls args _ ins outs mods mothers conns recs =>
      let written := map (fun m => (mid m, flag ins outs (mid m) (write m))) mods in
      let names := map (fun m => (mid m, mname m)) mods in
      Elem "Network" [("name", nm); ("class", cls)]%string
        (map write_arg args ++
         [Elem "Modules" [] (picks written (order_ids ins outs (map mid mods)))] ++
         (match mothers with [] => [] | _ => [Elem "MotherConnections" [] (map write_mother mothers)] end) ++
         [Elem "Connections" [] (map (write_conn names false) conns ++ map (write_conn names true) recs)])
  end.

(** ** Reading *)
Record st := { next : nat; modreg : list (string * nat); mothreg : list (string * mother) }.   (* networkreader.py:23-24: class variables *)
Inductive arg := ArgLit (l : lit) | ArgModule (i : nat) | ArgMother (m : mother).
Definition attr (a : string) (n : node) : string := match n with Elem _ at_ _ => match lookup a at_ with Some s => s | None => EmptyString end | Text _ => EmptyString end.
Definition has_attr (a : string) (n : node) : bool := match n with Elem _ at_ _ => match lookup a at_ with Some _ => true | None => false end | Text _ => false end.
Definition kids_of (n : node) : list node := match n with Elem _ _ k => k | Text _ => [] end.
Definition tag_of (n : node) : string := match n with Elem t _ _ => t | Text _ => "#text" end.
Definition is_elem (n : node) : bool := match n with Elem _ _ _ => true | Text _ => false end.
(** handling.py:65-73 *)
Fixpoint get_child (l : list node) (t : string) : option node := match l with [] => None | n :: r => if String.eqb t (tag_of n) then Some n else get_child r t end.
Definition elements (n : node) : list node := filter is_elem (kids_of n).
(** networkreader.py:102-111 *)
Fixpoint read_args (s : st) (l : list node) : result (list (string * arg)) :=
  match l with
  | [] => Ok []
  | c :: r =>
      let val := attr "val" c in
      match lookup val (modreg s) with
      | Some i => let! t := read_args s r in Ok ((tag_of c, ArgModule i) :: t)
      | None =>
        match lookup val (mothreg s) with
        | Some m => let! t := read_args s r in Ok ((tag_of c, ArgMother m) :: t)
        | None =>
          if String.eqb val EmptyString then read_args s r
          else match ev val with None => Err PlainException | Some l => let! t := read_args s r in Ok ((tag_of c, ArgLit l) :: t) end
        end
      end
  end.
(** networkreader.py:113-117 *)
Definition read_params (n : node) : option P :=
  match get_child (kids_of n) "Parameters" with Some (Elem _ _ (Text p :: _)) => Some p | _ => None end.
Fixpoint lits (l : list (string * arg)) : option (list (string * lit)) :=
  match l with [] => Some [] | (k, ArgLit x) :: t => option_map (cons (k, x)) (lits t) | _ => None end.
Definition accepted (cls : string) (l : list (string * arg)) : bool := forallb (fun a => existsb (String.eqb (fst a)) (sig cls)) l.
(** networkreader.py:88-100 for modules and mothers: with an argument the constructor does not take, or that is not a plain value, the
    result is None, and None has no name (line 79, 58) *)
Definition read_buildable (s : st) (n : node) : result (string * string * list (string * lit) * option P) :=
  let cls := attr "class" n in
  let! a := read_args s (elements n) in
  match lits a with
  | Some l => if accepted cls a then Ok (attr "name" n, cls, l, read_params n) else Err AttributeError
  | None => Err AttributeError
  end.
Definition read_prim (s : st) (n : node) : result (module * st) :=
  let! b := read_buildable s n in
  let '(nm, cls, l, p) := b in
  Ok (Prim (next s) nm cls l p, {| next := S (next s); modreg := modreg s; mothreg := mothreg s |}).
(** networkreader.py:55-58 *)
Fixpoint read_mothers (s : st) (l : list node) : result st :=
  match l with
  | [] => Ok s
  | n :: r =>
      let! b := read_buildable s n in
      let '(nm, cls, l, p) := b in
      read_mothers {| next := S (next s); modreg := modreg s; mothreg := (nm, {| mo_id := next s; mo_name := nm; mo_class := cls; mo_args := l; mo_params := p |}) :: mothreg s |} r
  end.
(** networkreader.py:83-86, 88-100 for connections *)
Definition ckeys : list string := ["inmod"; "outmod"; "mother"]%string.
Definition read_conn (s : st) (n : node) : result (kconn * bool) :=
  let cls := attr "class" n in
  let! a := read_args s (elements n) in
  let rest := filter (fun x => negb (existsb (String.eqb (fst x)) ckeys)) a in
  let rec := has_attr "recurrent" n in
  if accepted cls a then
    match lookup "inmod" a, lookup "outmod" a, lits rest with
    | Some (ArgModule i), Some (ArgModule j), Some l =>
      match lookup "mother" a with
      | None => Ok ({| k_name := attr "name" n; k_class := cls; k_in := i; k_out := j; k_mother := None; k_opts := l; k_params := read_params n |}, rec)
      | Some (ArgMother m) => Ok ({| k_name := attr "name" n; k_class := cls; k_in := i; k_out := j; k_mother := Some m; k_opts := l; k_params := read_params n |}, rec)
      | Some _ => Err AttributeError
      end
    | _, _, _ => Err AttributeError
    end
  else Err AttributeError.
(** network.py:128-138 and recurrent.py:36-45 *)
Definition add_mother (l : list mother) (m : option mother) : list mother :=
  match m with None => l | Some m => if existsb (fun x => mo_id x =? mo_id m) l then l else l ++ [m] end.
Definition add_conn (p : parts) (c : kconn) (rec : bool) : parts :=
  {| p_ins := p_ins p; p_outs := p_outs p; p_mods := p_mods p; p_mothers := add_mother (p_mothers p) (k_mother c);
     p_conns := if rec then p_conns p else p_conns p ++ [c]; p_recs := if rec then p_recs p ++ [c] else p_recs p |}.
Fixpoint read_conns (s : st) (p : parts) (l : list node) : result parts :=
  match l with [] => Ok p | n :: r => let! c := read_conn s n in let '(k, rec) := c in read_conns s (add_conn p k rec) r end.
Definition add_mod (p : parts) (m : module) (inm outm : bool) : parts :=
  {| p_ins := if inm then p_ins p ++ [mid m] else p_ins p; p_outs := if inm then p_outs p else if outm then p_outs p ++ [mid m] else p_outs p;
     p_mods := p_mods p ++ [m]; p_mothers := p_mothers p; p_conns := p_conns p; p_recs := p_recs p |}.
(** what the sort of the modules sees *)
Definition sort_ops (mods : list module) (conns : list kconn) : list nop :=
  map (fun m => AddModule (mid m)) mods ++ map (fun c => AddConnection (mkconn (k_in c) (k_out c) 0)) conns.
Definition register (nm : string) (i : nat) (s : st) : st := {| next := next s; modreg := (nm, i) :: modreg s; mothreg := mothreg s |}.
(** networkreader.py:45-53, 73-81 *)
Fixpoint read_mods (rd : st -> node -> result (module * st)) (s : st) (p : parts) (l : list node) : result (parts * st) :=
  match l with
  | [] => Ok (p, s)
  | n :: r =>
      let! ms := (if String.eqb (tag_of n) "Network" then rd s n else read_prim s n) in
      let '(m, s') := ms in
      read_mods rd (register (mname m) (mid m) s') (add_mod p m (has_attr "inmodule" n) (has_attr "outmodule" n)) r
  end.
(** networkreader.py:42-71; forget is not among the arguments, recurrent.py:150-156 *)
Fixpoint read_network (fuel : nat) (s : st) (n : node) : result (module * st) :=
  match fuel with
  | 0 => Err OutOfFuel
  | S k =>
      let cls := attr "class" n in
      let! a := read_args s (elements n) in
      match lits a with
      | None => Err TypeError
      | Some l =>
        if negb (accepted cls a) then Err TypeError else
        let id := next s in
        let '(p0, nx) := initial cls l (S id) in
        match get_child (kids_of n) "Modules", get_child (kids_of n) "Connections" with
        | Some ms, Some cs =>
            let! ps := read_mods (read_network k) {| next := nx; modreg := modreg s; mothreg := mothreg s |} p0 (elements ms) in
            let '(p1, s1) := ps in
            let! s2 := match get_child (kids_of n) "MotherConnections" with Some mc => read_mothers s1 (elements mc) | None => Ok s1 end in
            let! p2 := read_conns s2 p1 (elements cs) in
            let! _ := topologicalSort rank (nrun empty_net (sort_ops (p_mods p2) (p_conns p2))) in
            Ok (Net id (attr "name" n) cls l false (p_ins p2) (p_outs p2) (p_mods p2) (p_mothers p2) (p_conns p2) (p_recs p2), s2)
        | _, _ => Err AttributeError
        end
      end
  end.

(** ** Files: networkwriter.py:17-31, networkreader.py:26-40 *)
Definition file := list node.
Definition writeToFile (m : module) : file := [write m].
Definition appendToFile (f : file) (m : module) : file := f ++ [write m].
Fixpoint height (n : node) : nat := match n with Text _ => 0 | Elem _ _ k => S (list_max (map height k)) end.
(** handling.py:75-103 *)
Fixpoint findNode (f : file) (index : nat) : option node :=
  match f with [] => None | n :: r => if String.eqb (tag_of n) "Network" then match index with 0 => Some n | S i => findNode r i end else findNode r index end.
Fixpoint findNamed (f : file) (nm : string) : option node :=
  match f with [] => None | n :: r => if String.eqb (tag_of n) "Network" && String.eqb (attr "name" n) nm then Some n else findNamed r nm end.
Definition readFrom (s : st) (f : file) (nm : option string) (index : nat) : result (module * st) :=
  let root := match nm with Some x => if String.eqb x EmptyString then findNode f index else findNamed f x | None => findNode f index end in
  match root with None => Err AttributeError | Some n => read_network (height n) s n end.
End Xml.
Arguments lit : clear implicits. Arguments mother : clear implicits. Arguments kconn : clear implicits. Arguments module : clear implicits. Arguments node : clear implicits. Arguments parts : clear implicits. Arguments st : clear implicits. Arguments arg : clear implicits.
