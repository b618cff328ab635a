(** Model of /repo/ast/ast.go: the abstract syntax tree, its printing, attribute maps. *)
From Coq Require Import List Ascii NArith Bool.
From Verif Require Import Base.
Import ListNotations.

(** ** Types *)

(** ast.go:675-678 (Port); ast.go:711 (ID is a string). *)
Record port := Port { port_id1 : gostr; port_id2 : gostr }.

(** ast.go:629-632 (NodeID) *)
Record node_id := NodeID { nid_id : gostr; nid_port : port }.

(** ast.go:436-439 (Attr) *)
Record attr := Attr { at_field : gostr; at_value : gostr }.

(** ast.go:403 (AList), ast.go:335 (AttrList) *)
Notation alist := (list attr).
Notation attr_list := (list (list attr)).

(** ast.go:174-187 (Stmt and its implementations NodeStmt 571, EdgeStmt 485, EdgeAttrs 251,
    NodeAttrs 279, GraphAttrs 307, *SubGraph 189, *Attr 436), ast.go:471-483 (Location and its
    implementations *NodeID and *SubGraph), ast.go:553-556 (EdgeRH; Op = true is DIRECTED),
    ast.go:189-192 (SubGraph).
    Simplification: a nil StmtList and an empty one are identified; the code prints both as "". *)
Inductive stmt : Type :=
| SNode (n : node_id) (attrs : attr_list)
| SEdge (src : location) (rhs : list edge_rh) (attrs : attr_list)
| SEdgeAttrs (a : attr_list)
| SNodeAttrs (a : attr_list)
| SGraphAttrs (a : attr_list)
| SSub (g : subgraph)
| SAttr (a : attr)
with location : Type :=
| LNode (n : node_id)
| LSub (g : subgraph)
with edge_rh : Type :=
| EdgeRH (op : bool) (dst : location)
with subgraph : Type :=
| SubGraph (id : gostr) (body : list stmt).

(** ast.go:90-95 (Graph); Type = true is DIGRAPH (ast.go:69-74). *)
Record graph := Graph { g_type : bool; g_strict : bool; g_id : gostr; g_stmts : list stmt }.

(** ** Printing *)

(** ast.go:691-700 (Port.String) *)
Definition port_str (p : port) : gostr :=
  match port_id1 p with
  | [] => []
  | _ => lit ":" ++ port_id1 p ++
         (match port_id2 p with [] => [] | _ => lit ":" ++ port_id2 p end)
  end.

(** ast.go:653-655 (NodeID.String) *)
Definition node_id_str (n : node_id) : gostr := nid_id n ++ port_str (nid_port n).

(** ast.go:458-460 (Attr.indentString); ast.go:454-456 (Attr.String) has indent "". *)
Definition attr_str (indent : gostr) (a : attr) : gostr :=
  indent ++ at_field a ++ lit "=" ++ at_value a.

(** ast.go:418-427 (AList.String) *)
Definition alist_str (l : alist) : gostr :=
  match l with
  | [] => []
  | a :: l' => fold_left (fun s x => s ++ lit ", " ++ attr_str [] x) l' (attr_str [] a)
  end.

(** ast.go:354-366 (AttrList.String) *)
Definition attr_list_str (l : attr_list) : gostr :=
  fold_left (fun s al => match alist_str al with
                         | [] => s
                         | ss => s ++ lit "[ " ++ ss ++ lit " ] "
                         end) l [].

(** ast.go:615-620 (EdgeOp.String) *)
Definition edge_op_str (op : bool) : gostr := if op then lit "->" else lit "--".

(** ast.go:261-267, 289-295, 317-323 ({Edge,Node,Graph}Attrs.indentString) *)
Definition attrs_stmt_str (kw : gostr) (indent : gostr) (a : attr_list) : gostr :=
  match attr_list_str a with
  | [] => []
  | s => indent ++ kw ++ s
  end.

(** ast.go:76-81 (GraphType.String) *)
Definition graph_type_str (t : bool) : gostr := if t then lit "digraph" else lit "graph".

(** The loop of ast.go:149-162 (StmtList.indentString) over the already printed statements. *)
Definition stmt_list_join (ss : list gostr) : gostr :=
  trim_suffix
    (fold_left (fun s x => match x with [] => s | _ => s ++ x ++ lit ";" ++ [nl] end) ss [])
    [nl].

(** ast.go:228-240 (SubGraph.indentString), 224-226 (SubGraph.String is indent "").
    The local variable gName of the code is computed but never used. *)
Fixpoint stmt_str (indent : gostr) (s : stmt) {struct s} : gostr :=
  match s with
  | SNode n a =>                       (* ast.go:595-597 *)
      indent ++ trim_space (node_id_str n ++ lit " " ++ attr_list_str a)
  | SEdge src rhs a =>                 (* ast.go:509-511 *)
      indent ++ trim_space
        (location_str src ++
         (* ast.go:535-541 (EdgeRHS.String) *)
         trim_space (fold_left (fun acc e => acc ++ e) (map edge_rh_str rhs) [])
         ++ lit " " ++ attr_list_str a)
  | SEdgeAttrs a => attrs_stmt_str (lit "edge ") indent a
  | SNodeAttrs a => attrs_stmt_str (lit "node ") indent a
  | SGraphAttrs a => attrs_stmt_str (lit "graph ") indent a
  | SSub g => subgraph_str indent g
  | SAttr a => attr_str indent a
  end
with location_str (l : location) {struct l} : gostr :=
  match l with
  | LNode n => node_id_str n
  | LSub g => subgraph_str [] g
  end
with edge_rh_str (e : edge_rh) {struct e} : gostr :=
  match e with
  | EdgeRH op dst => trim_space (edge_op_str op ++ location_str dst)   (* ast.go:558-560 *)
  end
with subgraph_str (indent : gostr) (g : subgraph) {struct g} : gostr :=
  match g with
  | SubGraph id body =>
      indent ++ lit "subgraph " ++ id ++ lit " {" ++ [nl]
      ++ stmt_list_join (map (stmt_str (indent ++ [tab])) body)
      ++ [nl] ++ indent ++ lit "}"
  end.

(** ast.go:149-162 (StmtList.indentString) *)
Definition stmts_str (indent : gostr) (l : list stmt) : gostr :=
  stmt_list_join (map (stmt_str indent) l).

(** ast.go:108-119 (Graph.String) *)
Definition graph_str (g : graph) : gostr :=
  (if g_strict g then lit "strict " else []) ++ graph_type_str (g_type g) ++ lit " " ++ g_id g
  ++ lit " {" ++ [nl] ++ stmts_str [tab] (g_stmts g) ++ [nl] ++ lit "}" ++ [nl].

(** ast.go:641-651 (MakeNodeID) *)
Definition make_node_id (id p : gostr) : node_id :=
  match p with
  | [] => NodeID id (Port [] [])
  | _ => match split_on ":"%char p with
         | a :: b :: _ => NodeID id (Port a b)
         | [a] => NodeID id (Port a [])
         | [] => NodeID id (Port [] [])      (* impossible: Split never returns an empty slice *)
         end
  end.

(** ast.go:216-222 (SubGraph.GetID/GetPort), 657-663 (NodeID.GetID/GetPort), 481-483 (IsNode) *)
Definition subgraph_id (g : subgraph) : gostr := match g with SubGraph id _ => id end.
Definition subgraph_body (g : subgraph) : list stmt := match g with SubGraph _ b => b end.
Definition loc_id (l : location) : gostr :=
  match l with LNode n => nid_id n | LSub g => subgraph_id g end.
Definition loc_port (l : location) : port :=
  match l with LNode n => nid_port n | LSub _ => Port [] [] end.
Definition loc_is_node (l : location) : bool :=
  match l with LNode _ => true | LSub _ => false end.
