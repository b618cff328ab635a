(** Specification for C77: different ways to write the same statements. *)
From Verif Require Import Base Maps Graph SpecAnalyse.
From Verif Require Ast.

(** A node without a port. *)
Definition bare_node (i : gostr) : Ast.node_id := Ast.NodeID i (Ast.Port [] []).
Definition is_plain (l : Ast.location) : Prop := match l with Ast.LNode _ => True | Ast.LSub _ => False end.
(** Node statements, and edge statements between nodes. *)
Definition nodes_and_edges (s : Ast.stmt) : Prop :=
  match s with
  | Ast.SNode _ _ => True
  | Ast.SEdge src rhs _ => is_plain src /\ Forall (fun e => is_plain (dst_of e)) rhs
  | _ => False
  end.
(** The statement [d] does not concern the statement [s]: node defaults concern nodes, edges and subgraphs; edge defaults concern edges and
    subgraphs; graph defaults and attributes concern attributes and subgraphs. *)
Definition unconcerned (d s : Ast.stmt) : Prop :=
  match d, s with
  | Ast.SNodeAttrs _, (Ast.SEdgeAttrs _ | Ast.SGraphAttrs _ | Ast.SAttr _) => True
  | Ast.SEdgeAttrs _, (Ast.SNode _ _ | Ast.SNodeAttrs _ | Ast.SGraphAttrs _ | Ast.SAttr _) => True
  | (Ast.SGraphAttrs _ | Ast.SAttr _), _ => nodes_and_edges s
  | _, _ => False
  end.

(** Two lists of statements that may stand for each other. *)
Inductive same_stmts : list Ast.stmt -> list Ast.stmt -> Prop :=
| Ss_refl b : same_stmts b b
| Ss_sym b b' : same_stmts b b' -> same_stmts b' b
| Ss_trans b1 b2 b3 : same_stmts b1 b2 -> same_stmts b2 b3 -> same_stmts b1 b3
(** in any place, at any depth: *)
| Ss_app b1 b1' b2 b2' : same_stmts b1 b1' -> same_stmts b2 b2' -> same_stmts (b1 ++ b2) (b1' ++ b2')
| Ss_sub id b b' : same_stmts b b' -> same_stmts [Ast.SSub (Ast.SubGraph id b)] [Ast.SSub (Ast.SubGraph id b')]
| Ss_operands src src' rhs rhs' a : same_loc src src' -> same_rhs rhs rhs' -> same_stmts [Ast.SEdge src rhs a] [Ast.SEdge src' rhs' a]
(** How the attributes of a statement are put into brackets, their order, and overwritten values do not matter: [color=red][color=blue, shape=box] *)
| Ss_node_attrs_of n a a' : given a = given a' -> same_stmts [Ast.SNode n a] [Ast.SNode n a']
| Ss_edge_attrs_of src rhs a a' : given a = given a' -> same_stmts [Ast.SEdge src rhs a] [Ast.SEdge src rhs a']
| Ss_node_default a a' : given a = given a' -> same_stmts [Ast.SNodeAttrs a] [Ast.SNodeAttrs a']
| Ss_edge_default a a' : given a = given a' -> same_stmts [Ast.SEdgeAttrs a] [Ast.SEdgeAttrs a']
| Ss_graph_default a a' : given a = given a' -> same_stmts [Ast.SGraphAttrs a] [Ast.SGraphAttrs a']
(** node [] *)
| Ss_no_node_default : same_stmts [Ast.SNodeAttrs []] []
| Ss_no_edge_default : same_stmts [Ast.SEdgeAttrs []] []
| Ss_no_graph_default : same_stmts [Ast.SGraphAttrs []] []
(** node [a]; node [b]      node [a][b] *)
| Ss_node_defaults a b : same_stmts [Ast.SNodeAttrs a; Ast.SNodeAttrs b] [Ast.SNodeAttrs (a ++ b)]
| Ss_edge_defaults a b : same_stmts [Ast.SEdgeAttrs a; Ast.SEdgeAttrs b] [Ast.SEdgeAttrs (a ++ b)]
| Ss_graph_defaults a b : same_stmts [Ast.SGraphAttrs a; Ast.SGraphAttrs b] [Ast.SGraphAttrs (a ++ b)]
(** n [a]; n [b]            n [a][b] *)
| Ss_node_twice n a b : same_stmts [Ast.SNode n a; Ast.SNode n b] [Ast.SNode n (a ++ b)]
(** k=v; k=w                k=w *)
| Ss_attr_twice k v w : same_stmts [Ast.SAttr (Ast.Attr k v); Ast.SAttr (Ast.Attr k w)] [Ast.SAttr (Ast.Attr k w)]
(** defaults and attributes may move over statements that they do not concern *)
| Ss_swap d s : unconcerned d s -> same_stmts [d; s] [s; d]
(** a -> b -> c -> ... [x]      a -> b [x]; b -> c -> ... [x]       for nodes up to b *)
| Ss_chain src op n op' dst rhs a : is_plain src ->
    same_stmts [Ast.SEdge src (Ast.EdgeRH op (Ast.LNode n) :: Ast.EdgeRH op' dst :: rhs) a]
               [Ast.SEdge src [Ast.EdgeRH op (Ast.LNode n)] a; Ast.SEdge (Ast.LNode n) (Ast.EdgeRH op' dst :: rhs) a]
(** a -> b -> c                 a; b; c; a -> b -> c *)
| Ss_declare src rhs a :
    same_stmts [Ast.SEdge src rhs a]
               (map (fun i => Ast.SNode (bare_node i) []) (plain src ++ flat_map (fun e => plain (dst_of e)) rhs) ++ [Ast.SEdge src rhs a])
(** subgraph S { A } subgraph S { B }      subgraph S { A B } *)
| Ss_merge id A B : Forall nodes_and_edges A -> (forall n, n ∈ mentioned A -> n ∉ mentioned B) ->
    same_stmts [Ast.SSub (Ast.SubGraph id A); Ast.SSub (Ast.SubGraph id B)] [Ast.SSub (Ast.SubGraph id (A ++ B))]
with same_loc : Ast.location -> Ast.location -> Prop :=
| Sl_node n : same_loc (Ast.LNode n) (Ast.LNode n)
| Sl_sub id b b' : same_stmts b b' -> same_loc (Ast.LSub (Ast.SubGraph id b)) (Ast.LSub (Ast.SubGraph id b'))
with same_rhs : list Ast.edge_rh -> list Ast.edge_rh -> Prop :=
| Sr_nil : same_rhs [] []
| Sr_cons op l l' r r' : same_loc l l' -> same_rhs r r' -> same_rhs (Ast.EdgeRH op l :: r) (Ast.EdgeRH op l' :: r').
(** Two trees with the same name and kind whose statements may stand for each other. *)
Definition same_trees (a a' : Ast.graph) : Prop :=
  Ast.g_id a = Ast.g_id a' /\ Ast.g_type a = Ast.g_type a' /\ Ast.g_strict a = Ast.g_strict a' /\ same_stmts (Ast.g_stmts a) (Ast.g_stmts a').
