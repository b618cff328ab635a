(** Model of the Walk methods of /repo/ast/ast.go: visiting an AST with any Visitor, and the
    visitors of /repo/analyse.go as an instance. *)
From Coq Require Import List.
From Verif Require Import Base Ast.
Import ListNotations.

(** ast.go:38-40 (Elem): the things that are visited. *)
Inductive elem :=
| EGraph (g : graph)                                          (* *Graph, ast.go:90 *)
| EType (t : bool)                                            (* GraphType, ast.go:69 *)
| EStmts (l : list stmt)                                      (* StmtList, ast.go:131 *)
| ESub (g : subgraph)                                         (* *SubGraph, ast.go:189 *)
| EEdgeAttrs (a : attr_list) | ENodeAttrs (a : attr_list) | EGraphAttrs (a : attr_list)   (* ast.go:251, 279, 307 *)
| EAttrList (a : attr_list)                                   (* AttrList, ast.go:335 *)
| EAList (l : alist)                                          (* AList, ast.go:403 *)
| EAttr (a : attr)                                            (* *Attr, ast.go:436 *)
| EEdgeStmt (src : location) (rhs : list edge_rh) (a : attr_list)    (* EdgeStmt, ast.go:485 *)
| EEdgeRHS (l : list edge_rh)                                 (* EdgeRHS, ast.go:523 *)
| EEdgeRH (e : edge_rh)                                       (* *EdgeRH, ast.go:553 *)
| ENodeStmt (n : node_id) (a : attr_list)                     (* NodeStmt, ast.go:571 *)
| EEdgeOp (op : bool)                                         (* EdgeOp, ast.go:608 *)
| ENodeID (n : node_id)                                       (* *NodeID, ast.go:629 *)
| EPort (p : port)                                            (* Port, ast.go:675 *)
| EID (i : gostr).                                            (* ID, ast.go:711 *)

Definition obind {A B} (x : option A) (f : A -> option B) : option B := match x with Some a => f a | None => None end.

(** A visitor is a value of [V] (None: nil); Visit may change the world [St] (the visitors are pointers). *)
Section Walk.
  Variables St V : Type.
  Variable visit : St -> V -> elem -> St * option V.            (* ast.go:34-36 (Visitor) *)

  (** A walk gives the new state; [None] is a panic (Visit called on a nil Visitor). *)
  (** for i := range l { l[i].Walk(v) } *)
  Definition w_each {A} (w : A -> option V -> St -> option St) : list A -> option V -> St -> option St :=
    fix go l v s := match l with [] => Some s | x :: l' => obind (w x v s) (go l' v) end.

  (** ast.go:724-729 (ID.Walk), 83-88 (GraphType.Walk), 622-627 (EdgeOp.Walk): no parts *)
  Definition w_leaf (e : elem) (v : option V) (s : St) : option St :=
    match v with None => Some s | Some v => Some (fst (visit s v e)) end.
  Definition w_id (i : gostr) := w_leaf (EID i).
  (** ast.go:702-709 (Port.Walk) *)
  Definition w_port (p : port) (v : option V) (s : St) : option St :=
    match v with
    | None => Some s
    | Some v => let '(s1, v1) := visit s v (EPort p) in obind (w_id (port_id1 p) v1 s1) (w_id (port_id2 p) v1)
    end.
  (** ast.go:665-672 (NodeID.Walk) *)
  Definition w_node_id (n : node_id) (v : option V) (s : St) : option St :=
    match v with
    | None => Some s
    | Some v => let '(s1, v1) := visit s v (ENodeID n) in obind (w_id (nid_id n) v1 s1) (w_port (nid_port n) v1)
    end.
  (** ast.go:462-469 (Attr.Walk) *)
  Definition w_attr (a : attr) (v : option V) (s : St) : option St :=
    match v with
    | None => Some s
    | Some v => let '(s1, v1) := visit s v (EAttr a) in obind (w_id (at_field a) v1 s1) (w_id (at_value a) v1)
    end.
  (** ast.go:429-434 (AList.Walk): no test for nil *)
  Definition w_alist (l : alist) (v : option V) (s : St) : option St :=
    match v with
    | None => None
    | Some v => let '(s1, v1) := visit s v (EAList l) in w_each w_attr l v1 s1
    end.
  (** ast.go:368-376 (AttrList.Walk), 269-277, 297-305, 325-333 ({Edge,Node,Graph}Attrs.Walk) *)
  Definition w_alists (e : elem) (l : attr_list) (v : option V) (s : St) : option St :=
    match v with
    | None => Some s
    | Some v => let '(s1, v1) := visit s v e in w_each w_alist l v1 s1
    end.

  (** ast.go:599-606 (NodeStmt.Walk), 513-521 (EdgeStmt.Walk), 543-551 (EdgeRHS.Walk), 562-569 (EdgeRH.Walk),
      242-249 (SubGraph.Walk), 164-172 (StmtList.Walk) *)
  Fixpoint w_stmt (x : stmt) (v : option V) (s : St) {struct x} : option St :=
    match x with
    | SNode n a =>
        match v with
        | None => Some s
        | Some v => let '(s1, v1) := visit s v (ENodeStmt n a) in
                    obind (w_node_id n v1 s1) (w_alists (EAttrList a) a v1)
        end
    | SEdge src rhs a =>
        match v with
        | None => Some s
        | Some v => let '(s1, v1) := visit s v (EEdgeStmt src rhs a) in
                    obind (w_loc src v1 s1) (fun s2 =>
                    obind (match v1 with
                           | None => Some s2
                           | Some v1 => let '(s3, v3) := visit s2 v1 (EEdgeRHS rhs) in w_each w_rh rhs v3 s3
                           end) (w_alists (EAttrList a) a v1))
        end
    | SEdgeAttrs a => w_alists (EEdgeAttrs a) a v s
    | SNodeAttrs a => w_alists (ENodeAttrs a) a v s
    | SGraphAttrs a => w_alists (EGraphAttrs a) a v s
    | SSub g => w_sub g v s
    | SAttr a => w_attr a v s
    end
  with w_loc (l : location) (v : option V) (s : St) {struct l} : option St :=
    match l with LNode n => w_node_id n v s | LSub g => w_sub g v s end
  with w_rh (e : edge_rh) (v : option V) (s : St) {struct e} : option St :=
    match e with
    | EdgeRH op dst =>
        match v with
        | None => Some s
        | Some v => let '(s1, v1) := visit s v (EEdgeRH e) in obind (w_leaf (EEdgeOp op) v1 s1) (w_loc dst v1)
        end
    end
  with w_sub (g : subgraph) (v : option V) (s : St) {struct g} : option St :=
    match g with
    | SubGraph id body =>
        match v with
        | None => Some s
        | Some v => let '(s1, v1) := visit s v (ESub g) in
                    obind (w_id id v1 s1) (fun s2 =>
                    match v1 with
                    | None => Some s2
                    | Some v1 => let '(s3, v3) := visit s2 v1 (EStmts body) in w_each w_stmt body v3 s3
                    end)
        end
    end.
  (** ast.go:164-172 (StmtList.Walk) *)
  Definition w_stmts (l : list stmt) (v : option V) (s : St) : option St :=
    match v with
    | None => Some s
    | Some v => let '(s1, v1) := visit s v (EStmts l) in w_each w_stmt l v1 s1
    end.
  (** ast.go:543-551 (EdgeRHS.Walk) *)
  Definition w_rhs (l : list edge_rh) (v : option V) (s : St) : option St :=
    match v with
    | None => Some s
    | Some v => let '(s1, v1) := visit s v (EEdgeRHS l) in w_each w_rh l v1 s1
    end.
  (** ast.go:121-129 (Graph.Walk) *)
  Definition w_graph (g : graph) (v : option V) (s : St) : option St :=
    match v with
    | None => Some s
    | Some v => let '(s1, v1) := visit s v (EGraph g) in
                obind (w_leaf (EType (g_type g)) v1 s1) (fun s2 => obind (w_id (g_id g) v1 s2) (w_stmts (g_stmts g) v1))
    end.
End Walk.
