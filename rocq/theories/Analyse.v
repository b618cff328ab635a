(** Model of /repo/analyse.go, /repo/catch.go and Read of /repo/gographviz.go: walking an AST and
    issuing the calls of Interface.  The implementation of Interface is a parameter: a state and
    what each call does to it.  (The maps passed to an implementation are passed by value: the
    model assumes that it does not modify its map arguments.) *)
From Verif Require Import Base Parser Maps Graph AttrMap.
From Verif Require Ast.

(** analyse.go:66-73 (stmtVisitor; the errInterface is the [istate] below) *)
Record visitor := Visitor {
  v_graph : gostr;            (* graphName *)
  v_nattrs : attrs;           (* currentNodeAttrs *)
  v_eattrs : attrs;           (* currentEdgeAttrs *)
  v_gattrs : attrs;           (* currentGraphAttrs *)
  v_created : names }.        (* createdNodes *)

(** The iteration orders: the [t]-th range loop over a map visits it in the order [ord t]. *)
Definition order := nat -> attrs -> list (gostr * gostr).
Definition fair_order (ord : order) : Prop := forall t m, ord t m ≡ₚ map_to_list m.

(** analyse.go:99-106 (ammend), 108-113 (overwrite): the bodies of the range loops *)
Definition ammend (a : attrs) (l : list (gostr * gostr)) : attrs :=
  fold_left (fun a kv => match a !! kv.1 with Some _ => a | None => <[kv.1 := kv.2]> a end) l a.
Definition overwrite (a : attrs) (l : list (gostr * gostr)) : attrs :=
  fold_left (fun a kv => <[kv.1 := kv.2]> a) l a.

Section Analyse.
  Variable S : Type.
  Variable step : S -> call -> S * option err.   (* an implementation of Interface *)
  Variable ord : order.

  (** catch.go:39-42 (errCatcher: the implementation and the errors so far); [i_tick] counts range loops *)
  Record istate := IState { i_impl : S; i_errs : list err; i_tick : nat }.

  (** catch.go:44-90 (the methods of errCatcher): make the call, remember the error *)
  Definition emit (st : istate) (c : call) : istate :=
    match step (i_impl st) c with
    | (s', None) => IState s' (i_errs st) (i_tick st)
    | (s', Some e) => IState s' (i_errs st ++ [e]) (i_tick st)
    end.
  (** A range loop over [m]. *)
  Definition range (st : istate) (m : attrs) : list (gostr * gostr) * istate :=
    (ord (i_tick st) m, IState (i_impl st) (i_errs st) (Datatypes.S (i_tick st))).

  (** analyse.go:60-64 (newStmtVisitor) *)
  Definition new_stmt_visitor (st : istate) (name : gostr) (nattrs eattrs : attrs) : visitor * istate :=
    let '(l1, st1) := range st nattrs in
    let '(l2, st2) := range st1 eattrs in
    (Visitor name (ammend ∅ l1) (ammend ∅ l2) ∅ ∅, st2).

  (** analyse.go:115-120 (addNodeFromEdge) *)
  Definition add_node_from_edge (w : visitor) (st : istate) (n : gostr) : visitor * istate :=
    if decide (n ∈ v_created w) then (w, st)
    else (Visitor (v_graph w) (v_nattrs w) (v_eattrs w) (v_gattrs w) ({[n]} ∪ v_created w),
          emit st (CAddNode (v_graph w) n (v_nattrs w))).

  (** analyse.go:122-133 (nodeStmt) *)
  Definition node_stmt (w : visitor) (st : istate) (n : Ast.node_id) (a : list (list Ast.attr)) : visitor * istate :=
    let id := Ast.node_id_str n in
    let '(defaults, w1) :=
      if decide (id ∈ v_created w) then (∅, w)
      else (v_nattrs w, Visitor (v_graph w) (v_nattrs w) (v_eattrs w) (v_gattrs w) ({[id]} ∪ v_created w)) in
    let '(l, st1) := range st defaults in
    (w1, emit st1 (CAddNode (v_graph w) id (ammend (get_map a) l))).

  (** analyse.go:144-156: the loop of edgeStmt *)
  Fixpoint edge_loop (w : visitor) (st : istate) (a : attrs) (src : gostr) (src_port : Ast.port) (rhs : list Ast.edge_rh)
    : visitor * istate :=
    match rhs with
    | [] => (w, st)
    | Ast.EdgeRH op dst :: rhs' =>
        let '(w1, st1) := if Ast.loc_is_node dst then add_node_from_edge w st (Ast.loc_id dst) else (w, st) in
        let st2 := emit st1 (CAddPortEdge src (Ast.port_str src_port) (Ast.loc_id dst) (Ast.port_str (Ast.loc_port dst)) op a) in
        edge_loop w1 st2 a (Ast.loc_id dst) (Ast.loc_port dst) rhs'
    end.
  (** analyse.go:135-158 (edgeStmt) *)
  Definition edge_stmt (w : visitor) (st : istate) (src : Ast.location) (rhs : list Ast.edge_rh) (a : list (list Ast.attr))
    : visitor * istate :=
    let '(l, st1) := range st (v_eattrs w) in
    let m := ammend (get_map a) l in
    let '(w2, st2) := if Ast.loc_is_node src then add_node_from_edge w st1 (Ast.loc_id src) else (w, st1) in
    edge_loop w2 st2 m (Ast.loc_id src) (Ast.loc_port src) rhs.

  (** analyse.go:160-163 (nodeAttrs), 165-168 (edgeAttrs) *)
  Definition node_attrs_stmt (w : visitor) (st : istate) (a : list (list Ast.attr)) : visitor * istate :=
    let '(l, st1) := range st (get_map a) in
    (Visitor (v_graph w) (overwrite (v_nattrs w) l) (v_eattrs w) (v_gattrs w) (v_created w), st1).
  Definition edge_attrs_stmt (w : visitor) (st : istate) (a : list (list Ast.attr)) : visitor * istate :=
    let '(l, st1) := range st (get_map a) in
    (Visitor (v_graph w) (v_nattrs w) (overwrite (v_eattrs w) l) (v_gattrs w) (v_created w), st1).
  (** analyse.go:170-177 (graphAttrs) *)
  Definition graph_attrs_stmt (w : visitor) (st : istate) (a : list (list Ast.attr)) : visitor * istate :=
    let '(l, st1) := range st (get_map a) in
    let st2 := fold_left (fun st kv => emit st (CAddAttr (v_graph w) kv.1 kv.2)) l st1 in
    let '(l', st3) := range st2 (get_map a) in
    (Visitor (v_graph w) (v_nattrs w) (v_eattrs w) (overwrite (v_gattrs w) l') (v_created w), st3).

  (** analyse.go:75-97 (stmtVisitor.Visit) with the Walk methods of ast/ast.go: 164-172 (StmtList),
      242-249 (SubGraph), 513-521 (EdgeStmt: the statement itself, then its locations from left to
      right), 599-606 (NodeStmt), 269-277, 297-305, 325-333 (attributes), 462-469 (Attr).  Visiting
      IDs, ports, operators and lists has no effect (analyse.go:93-95); the attributes of
      statements are walked by nilVisitor (analyse.go:91-92). *)
  Fixpoint walk_stmt (s : Ast.stmt) (w : visitor) (st : istate) {struct s} : visitor * istate :=
    match s with
    | Ast.SNode n a => node_stmt w st n a
    | Ast.SEdge src rhs a =>
        let '(w1, st1) := edge_stmt w st src rhs a in
        let st2 := walk_loc src w1 st1 in
        (w1, fold_left (fun st e => walk_rh e w1 st) rhs st2)
    | Ast.SNodeAttrs a => node_attrs_stmt w st a
    | Ast.SEdgeAttrs a => edge_attrs_stmt w st a
    | Ast.SGraphAttrs a => graph_attrs_stmt w st a
    | Ast.SSub g => (w, walk_sub g w st)
    | Ast.SAttr a => (w, emit st (CAddAttr (v_graph w) (Ast.at_field a) (Ast.at_value a)))   (* analyse.go:185-188 *)
    end
  with walk_loc (l : Ast.location) (w : visitor) (st : istate) {struct l} : istate :=
    match l with Ast.LNode _ => st | Ast.LSub g => walk_sub g w st end
  with walk_rh (e : Ast.edge_rh) (w : visitor) (st : istate) {struct e} : istate :=
    match e with Ast.EdgeRH _ dst => walk_loc dst w st end
  with walk_sub (g : Ast.subgraph) (w : visitor) (st : istate) {struct g} : istate :=
    match g with
    | Ast.SubGraph id body =>                                              (* analyse.go:179-183 *)
        let st1 := emit st (CAddSubGraph (v_graph w) id (v_gattrs w)) in
        let '(w2, st2) := new_stmt_visitor st1 id (v_nattrs w) (v_eattrs w) in
        snd (fold_left (fun x s => walk_stmt s (fst x) (snd x)) body (w2, st2))
    end.

  (** analyse.go:44-58 (graphVisitor), ast/ast.go:121-129 (Graph.Walk) *)
  Definition walk_graph (g : Ast.graph) (st : istate) : istate :=
    let st1 := emit st (CSetStrict (Ast.g_strict g)) in
    let st2 := emit st1 (CSetDir (Ast.g_type g)) in
    let st3 := emit st2 (CSetName (Ast.g_id g)) in
    let '(w, st4) := new_stmt_visitor st3 (Ast.g_id g) ∅ ∅ in
    snd (fold_left (fun x s => walk_stmt s (fst x) (snd x)) (Ast.g_stmts g) (w, st4)).

  (** catch.go:92-101 (getError) *)
  Definition get_error (errs : list err) : option err :=
    match errs with
    | [] => None
    | _ => Some (lit "errors: [" ++ join (lit ",") errs ++ lit "]")
    end.
  (** analyse.go:31-36 (Analyse) *)
  Definition analyse (g : Ast.graph) (s0 : S) : S * option err :=
    let st := walk_graph g (IState s0 [] 0) in (i_impl st, get_error (i_errs st)).
End Analyse.
Arguments IState {S}. Arguments i_impl {S}. Arguments i_errs {S}. Arguments i_tick {S}.

(** The Graph of graph.go as an implementation of Interface; its [i]-th call iterates over maps in
    the order [os i]. *)
Definition graph_step (os : nat -> oracle) (s : agraph * nat) (c : call) : (agraph * nat) * option err :=
  let '(g, i) := s in let '(g', r) := exec (os i) c g in ((g', Datatypes.S i), r).

(** analyse.go:22-28 (NewAnalysedGraph) *)
Definition new_analysed_graph (os : nat -> oracle) (ord : order) (a : Ast.graph) : agraph + err :=
  match analyse _ (graph_step os) ord a (new_graph, 0) with
  | ((g, _), None) => inl g
  | (_, Some e) => inr e
  end.
(** gographviz.go:52-58 (Read).  [rnd], [k]: the random stream for anonymous subgraphs and the
    number of values drawn so far. *)
Inductive read_error := ParseFailed (e : parse_error) | AnalyseFailed (e : err).
Definition read (rnd : nat -> N) (os : nat -> oracle) (ord : order) (k : nat) (src : gostr) : res read_error (agraph * nat) :=
  match parse_bytes rnd k src with
  | Ok (a, k') => match new_analysed_graph os ord a with inl g => Ok (g, k') | inr e => Err (AnalyseFailed e) end
  | Err e => Err (ParseFailed e)
  | Panic => Panic
  | OutOfFuel => OutOfFuel
  end.
