(** Model of /repo/analyse.go with maps by reference: the visitors hold references to maps, change them in place and give
    them to the implementation of Interface.  (Analyse.v models the same code with maps as values.) *)
From Verif Require Import Base Maps Graph AttrMap Analyse HeapGraph.
From Verif Require Ast.

(** analyse.go:66-73 (stmtVisitor): references to the three maps; createdNodes never leaves the visitor *)
Record hvisitor := HVisitor { hv_graph : gostr; hv_nattrs : nat; hv_eattrs : nat; hv_gattrs : nat; hv_created : names }.

Section HAnalyse.
  Variable S : Type.                                       (* an implementation of Interface, with the memory for maps *)
  Variable new : S -> attrs -> S * nat.                    (* a new map *)
  Variable get : S -> nat -> attrs.                        (* the content of a map *)
  Variable set : S -> nat -> gostr -> gostr -> S.          (* m[k] = v *)
  Variable step : S -> hcall -> S * option err.            (* the calls; they may change maps or keep references to them *)
  Variable ord : order.

  Notation istate := (istate S).
  Definition h_emit (st : istate) (c : hcall) : istate :=  (* catch.go:44-90 *)
    match step (i_impl st) c with
    | (s', None) => IState s' (i_errs st) (i_tick st)
    | (s', Some e) => IState s' (i_errs st ++ [e]) (i_tick st)
    end.
  Definition on_impl (st : istate) (f : S -> S) : istate := IState (f (i_impl st)) (i_errs st) (i_tick st).
  Definition h_new (st : istate) (m : attrs) : istate * nat :=
    let '(s, l) := new (i_impl st) m in (IState s (i_errs st) (i_tick st), l).
  (** A range loop over the map [l] (None: nil). *)
  Definition h_range (st : istate) (l : option nat) : list (gostr * gostr) * istate :=
    range S ord st (match l with Some l => get (i_impl st) l | None => ∅ end).
  (** analyse.go:99-106 (ammend), 108-113 (overwrite), in place *)
  Definition h_ammend (st : istate) (l : nat) (es : list (gostr * gostr)) : istate :=
    on_impl st (fun s => fold_left (fun s kv => match get s l !! kv.1 with Some _ => s | None => set s l kv.1 kv.2 end) es s).
  Definition h_overwrite (st : istate) (l : nat) (es : list (gostr * gostr)) : istate :=
    on_impl st (fun s => fold_left (fun s kv => set s l kv.1 kv.2) es s).
  (** ast/ast.go:393-401 (GetMap): a new map; filled at once here, since nobody else has it yet *)
  Definition h_get_map (st : istate) (a : list (list Ast.attr)) : istate * nat := h_new st (get_map a).

  (** analyse.go:60-64 (newStmtVisitor) *)
  Definition h_new_stmt_visitor (st : istate) (name : gostr) (nattrs eattrs : option nat) : hvisitor * istate :=
    let '(st1, ln) := h_new st ∅ in
    let '(es1, st2) := h_range st1 nattrs in
    let st3 := h_ammend st2 ln es1 in
    let '(st4, le) := h_new st3 ∅ in
    let '(es2, st5) := h_range st4 eattrs in
    let st6 := h_ammend st5 le es2 in
    let '(st7, lg) := h_new st6 ∅ in
    (HVisitor name ln le lg ∅, st7).
  Definition h_create (w : hvisitor) (n : gostr) : hvisitor :=
    HVisitor (hv_graph w) (hv_nattrs w) (hv_eattrs w) (hv_gattrs w) ({[n]} ∪ hv_created w).
  (** analyse.go:115-120 (addNodeFromEdge): the visitor's own map is given away *)
  Definition h_add_node_from_edge (w : hvisitor) (st : istate) (n : gostr) : hvisitor * istate :=
    if decide (n ∈ hv_created w) then (w, st)
    else (h_create w n, h_emit st (HAddNode (hv_graph w) n (Some (hv_nattrs w)))).
  (** analyse.go:122-133 (nodeStmt) *)
  Definition h_node_stmt (w : hvisitor) (st : istate) (n : Ast.node_id) (a : list (list Ast.attr)) : hvisitor * istate :=
    let id := Ast.node_id_str n in
    let '(defaults, w1) := if decide (id ∈ hv_created w) then (None, w) else (Some (hv_nattrs w), h_create w id) in
    let '(st1, l) := h_get_map st a in
    let '(es, st2) := h_range st1 defaults in
    let st3 := h_ammend st2 l es in
    (w1, h_emit st3 (HAddNode (hv_graph w) id (Some l))).
  (** analyse.go:144-156: one map for all edges of the statement *)
  Fixpoint h_edge_loop (w : hvisitor) (st : istate) (l : nat) (src : gostr) (src_port : Ast.port) (rhs : list Ast.edge_rh)
    : hvisitor * istate :=
    match rhs with
    | [] => (w, st)
    | Ast.EdgeRH op dst :: rhs' =>
        let '(w1, st1) := if Ast.loc_is_node dst then h_add_node_from_edge w st (Ast.loc_id dst) else (w, st) in
        let st2 := h_emit st1 (HAddPortEdge src (Ast.port_str src_port) (Ast.loc_id dst) (Ast.port_str (Ast.loc_port dst)) op (Some l)) in
        h_edge_loop w1 st2 l (Ast.loc_id dst) (Ast.loc_port dst) rhs'
    end.
  (** analyse.go:135-158 (edgeStmt) *)
  Definition h_edge_stmt (w : hvisitor) (st : istate) (src : Ast.location) (rhs : list Ast.edge_rh) (a : list (list Ast.attr))
    : hvisitor * istate :=
    let '(st1, l) := h_get_map st a in
    let '(es, st2) := h_range st1 (Some (hv_eattrs w)) in
    let st3 := h_ammend st2 l es in
    let '(w4, st4) := if Ast.loc_is_node src then h_add_node_from_edge w st3 (Ast.loc_id src) else (w, st3) in
    h_edge_loop w4 st4 l (Ast.loc_id src) (Ast.loc_port src) rhs.
  (** analyse.go:160-163 (nodeAttrs), 165-168 (edgeAttrs): the visitor's map changes in place *)
  Definition h_node_attrs_stmt (w : hvisitor) (st : istate) (a : list (list Ast.attr)) : hvisitor * istate :=
    let '(st1, l) := h_get_map st a in
    let '(es, st2) := h_range st1 (Some l) in
    (w, h_overwrite st2 (hv_nattrs w) es).
  Definition h_edge_attrs_stmt (w : hvisitor) (st : istate) (a : list (list Ast.attr)) : hvisitor * istate :=
    let '(st1, l) := h_get_map st a in
    let '(es, st2) := h_range st1 (Some l) in
    (w, h_overwrite st2 (hv_eattrs w) es).
  (** analyse.go:170-177 (graphAttrs) *)
  Definition h_graph_attrs_stmt (w : hvisitor) (st : istate) (a : list (list Ast.attr)) : hvisitor * istate :=
    let '(st1, l) := h_get_map st a in
    let '(es, st2) := h_range st1 (Some l) in
    let st3 := fold_left (fun st kv => h_emit st (HAddAttr (hv_graph w) kv.1 kv.2)) es st2 in
    let '(es', st4) := h_range st3 (Some l) in
    (w, h_overwrite st4 (hv_gattrs w) es').
  (** analyse.go:75-97 (stmtVisitor.Visit) with the Walk methods, as in Analyse.v *)
  Fixpoint h_walk_stmt (s : Ast.stmt) (w : hvisitor) (st : istate) {struct s} : hvisitor * istate :=
    match s with
    | Ast.SNode n a => h_node_stmt w st n a
    | Ast.SEdge src rhs a =>
        let '(w1, st1) := h_edge_stmt w st src rhs a in
        let st2 := h_walk_loc src w1 st1 in
        (w1, fold_left (fun st e => h_walk_rh e w1 st) rhs st2)
    | Ast.SNodeAttrs a => h_node_attrs_stmt w st a
    | Ast.SEdgeAttrs a => h_edge_attrs_stmt w st a
    | Ast.SGraphAttrs a => h_graph_attrs_stmt w st a
    | Ast.SSub g => (w, h_walk_sub g w st)
    | Ast.SAttr a => (w, h_emit st (HAddAttr (hv_graph w) (Ast.at_field a) (Ast.at_value a)))
    end
  with h_walk_loc (l : Ast.location) (w : hvisitor) (st : istate) {struct l} : istate :=
    match l with Ast.LNode _ => st | Ast.LSub g => h_walk_sub g w st end
  with h_walk_rh (e : Ast.edge_rh) (w : hvisitor) (st : istate) {struct e} : istate :=
    match e with Ast.EdgeRH _ dst => h_walk_loc dst w st end
  with h_walk_sub (g : Ast.subgraph) (w : hvisitor) (st : istate) {struct g} : istate :=
    match g with
    | Ast.SubGraph id body =>
        let st1 := h_emit st (HAddSubGraph (hv_graph w) id (Some (hv_gattrs w))) in
        let '(w2, st2) := h_new_stmt_visitor st1 id (Some (hv_nattrs w)) (Some (hv_eattrs w)) in
        snd (fold_left (fun x s => h_walk_stmt s (fst x) (snd x)) body (w2, st2))
    end.
  (** analyse.go:44-58 (graphVisitor) *)
  Definition h_walk_graph (g : Ast.graph) (st : istate) : istate :=
    let st1 := h_emit st (HSetStrict (Ast.g_strict g)) in
    let st2 := h_emit st1 (HSetDir (Ast.g_type g)) in
    let st3 := h_emit st2 (HSetName (Ast.g_id g)) in
    let '(w, st4) := h_new_stmt_visitor st3 (Ast.g_id g) None None in
    snd (fold_left (fun x s => h_walk_stmt s (fst x) (snd x)) (Ast.g_stmts g) (w, st4)).
  (** analyse.go:31-36 (Analyse) *)
  Definition h_analyse (g : Ast.graph) (s0 : S) : S * option err :=
    let st := h_walk_graph g (IState s0 [] 0) in (i_impl st, get_error (i_errs st)).
End HAnalyse.

(** Graph as an implementation of Interface, with its memory; the [i]-th call iterates in the order [os i]. *)
Definition hgraph_new (s : world * nat) (m : attrs) : (world * nat) * nat :=
  let '((h, g), i) := s in let '(h1, l) := new_map h m in (((h1, g), i), l).
Definition hgraph_get (s : world * nat) (l : nat) : attrs := at_map s.1.1 l.
Definition hgraph_set (s : world * nat) (l : nat) (k v : gostr) : world * nat :=
  let '((h, g), i) := s in ((set_key h l k v, g), i).
Definition hgraph_step (grow : nat -> nat) (os : nat -> oracle) (s : world * nat) (c : hcall) : (world * nat) * option err :=
  let '(w, i) := s in let '(w', r) := hexec grow (os i) c w in ((w', Datatypes.S i), r).
(** analyse.go:22-28 (NewAnalysedGraph) *)
Definition h_new_analysed_graph (grow : nat -> nat) (os : nat -> oracle) (ord : order) (a : Ast.graph) : world + err :=
  match h_analyse _ hgraph_new hgraph_get hgraph_set (hgraph_step grow os) ord a (h_new_graph, 0) with
  | ((w, _), None) => inl w
  | (_, Some e) => inr e
  end.
