(** Specification for C75: names, ports and attribute values replaced throughout calls, graphs and trees. *)
From Verif Require Import Base Maps Graph SpecGraph SpecAnalyse SpecWrite SpecRename.
From Verif Require Ast.

Section Label.
  (** [nm] replaces names of nodes, subgraphs and graphs, [pt] ports, [vl] values of attributes. *)
  Variables nm pt vl : gostr -> gostr.

  Definition lb_attrs (m : attrs) : attrs := vl <$> m.
  Definition lb_edge (e : edge) : edge :=
    Edge (nm (e_src e)) (pt (e_src_port e)) (nm (e_dst e)) (pt (e_dst_port e)) (e_dir e) (lb_attrs (e_attrs e)).
  Definition lb_call (c : call) : call :=
    match c with
    | CSetStrict b => CSetStrict b | CSetDir b => CSetDir b | CSetName n => CSetName (nm n)
    | CAddPortEdge s sp d dp dir m => CAddPortEdge (nm s) (pt sp) (nm d) (pt dp) dir (lb_attrs m)
    | CAddEdge s d dir m => CAddEdge (nm s) (nm d) dir (lb_attrs m)
    | CAddNode p n m => CAddNode (nm p) (nm n) (lb_attrs m)
    | CAddAttr p f v => CAddAttr (nm p) f (vl v)
    | CAddSubGraph p n m => CAddSubGraph (nm p) (nm n) (lb_attrs m)
    | CRemoveNode p n => CRemoveNode (nm p) (nm n)
    | CRemoveSubGraph p n => CRemoveSubGraph (nm p) (nm n)
    end.
  Definition lb_table (m : gmap gostr attrs) : gmap gostr attrs := kmap nm (lb_attrs <$> m).
  Definition lb_graph (s : sgraph) : sgraph :=
    SGraph (nm (s_name s)) (s_directed s) (s_strict s) (lb_attrs (s_attrs s))
      (lb_table (s_nodes s)) (map nm (s_order s)) (map lb_edge (s_edges s)) (lb_table (s_subs s))
      (set_map (fun pc => (nm pc.1, nm pc.2)) (s_rels s)).

  (** The texts of errors: names in them are replaced, names of attributes and ports are not. *)
  Inductive lb_error : err -> err -> Prop :=
  | Lb_attr k : lb_error (k ++ lit " is not a valid attribute") (k ++ lit " is not a valid attribute")
  | Lb_node n : lb_error (lit "node " ++ n ++ lit " not found") (lit "node " ++ nm n ++ lit " not found")
  | Lb_graph n : lb_error (lit "graph or subgraph " ++ n ++ lit " does not exist") (lit "graph or subgraph " ++ nm n ++ lit " does not exist")
  | Lb_end n : lb_error (n ++ lit " is not a node or a subgraph") (nm n ++ lit " is not a node or a subgraph")
  | Lb_port p : lb_error (lit "subgraph cannot have a port: " ++ p) (lit "subgraph cannot have a port: " ++ p).
  Definition lb_result (r r' : option err) : Prop :=
    match r, r' with None, None => True | Some e, Some e' => lb_error e e' | _, _ => False end.
End Label.

(** RemoveSubGraph(_, n) compares the ports of the edges with [n]; the other calls do not look at ports. *)
Definition ports_apart (nm pt : gostr -> gostr) (c : call) (s : sgraph) : Prop :=
  match c with
  | CRemoveSubGraph _ n => forall e, e ∈ s_edges s ->
      (pt (e_src_port e) = nm n <-> e_src_port e = n) /\ (pt (e_dst_port e) = nm n <-> e_dst_port e = n)
  | _ => True
  end.

(** ** Trees: only names are replaced *)
Definition lb_ast (nm : gostr -> gostr) (a : Ast.graph) : Ast.graph :=
  Ast.Graph (Ast.g_type a) (Ast.g_strict a) (nm (Ast.g_id a)) (map (ren_stmt nm nm) (Ast.g_stmts a)).
(** A graph in which only names are replaced. *)
Definition named (nm : gostr -> gostr) : sgraph -> sgraph := lb_graph nm id id.

(** A name that occurs in the graph. *)
Definition known (s : sgraph) (n : gostr) : Prop :=
  n = s_name s \/ s_is_node s n \/ s_is_sub s n \/ (exists e, e ∈ s_edges s /\ (n = e_src e \/ n = e_dst e)) \/
  (exists p, is_child s p n) \/ exists c, is_child s n c.
(** The order of the names that occur, and which of the subgraphs are clusters, stay. *)
Definition order_kept (nm : gostr -> gostr) (s : sgraph) : Prop := forall x y, known s x -> known s y -> before x y -> before (nm x) (nm y).
Definition clusters_kept (nm : gostr -> gostr) (s : sgraph) : Prop :=
  forall n, s_is_sub s n -> (exists t, nm n = lit "cluster" ++ t) <-> exists t, n = lit "cluster" ++ t.

(** ** Statements in a tree, at any depth *)
Inductive in_stmts : list Ast.stmt -> Ast.stmt -> Prop :=
| In_here l st : st ∈ l -> in_stmts l st
| In_sub l id body st : Ast.SSub (Ast.SubGraph id body) ∈ l -> in_stmts body st -> in_stmts l st
| In_src l id body rhs a st : Ast.SEdge (Ast.LSub (Ast.SubGraph id body)) rhs a ∈ l -> in_stmts body st -> in_stmts l st
| In_dst l src rhs op id body a st : Ast.SEdge src rhs a ∈ l -> Ast.EdgeRH op (Ast.LSub (Ast.SubGraph id body)) ∈ rhs ->
    in_stmts body st -> in_stmts l st.
(** A node statement with a port stands for a node whose name contains the port (C37); its name is replaced as a whole. *)
Definition whole_names (nm : gostr -> gostr) (a : Ast.graph) : Prop :=
  forall n l, in_stmts (Ast.g_stmts a) (Ast.SNode n l) ->
    nm (node_text n) = nm (Ast.nid_id n) ++ port_text (Ast.nid_port n).

(** ** Histories *)
(** The ports of the edges of a graph, and of the edges that a call adds. *)
Definition edge_ports (s : sgraph) : list gostr := flat_map (fun e => [e_src_port e; e_dst_port e]) (s_edges s).
Definition call_ports (c : call) : list gostr :=
  match c with CAddPortEdge _ p _ q _ _ => [p; q] | CAddEdge _ _ _ _ => [[]] | _ => [] end.
(** No port is, or becomes, the name of a subgraph that is removed, except where it was before. *)
Definition ports_clear (nm pt : gostr -> gostr) (s : sgraph) (cs : list call) : Prop :=
  forall p n q, CRemoveSubGraph p n ∈ cs -> q ∈ edge_ports s ++ flat_map call_ports cs -> (pt q = nm n <-> q = n).
