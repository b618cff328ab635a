(** Model of /repo/ast/ast.go for syntax trees that a program makes by hand: any pointer or interface in
    the tree may be nil.  Printing and walking them panics in places. *)
From Coq Require Import List NArith.
From Verif Require Import Base Ast Walk.
Import ListNotations.

(** ** Trees with nils *)

(** AttrList (ast.go:335) of AList (403) of *Attr (436).  A nil slice is an empty one. *)
Notation rattrs := (list (list (option attr))).
(** Stmt (ast.go:174-187), Location (471-483), *EdgeRH (553-556), *SubGraph (189-192).
    [RNil] is a nil Stmt, or a nil pointer to a type with value receivers (that is *NodeStmt, *EdgeStmt, *EdgeAttrs,
    *NodeAttrs, *GraphAttrs): calling a method on either panics before the method starts. A statement by
    value and a pointer to it behave alike. *)
Inductive rstmt : Type :=
| RNil
| RNode (n : option node_id) (a : rattrs)
| REdge (src : rloc) (rhs : list rerh) (a : rattrs)
| REdgeAttrs (a : rattrs)
| RNodeAttrs (a : rattrs)
| RGraphAttrs (a : rattrs)
| RSub (g : rsub)
| RAttr (a : option attr)
with rloc : Type :=
| RLNil                                       (* a nil Location *)
| RLNode (n : option node_id)                 (* a *NodeID *)
| RLSub (g : rsub)
with rerh : Type :=
| RHNil                                       (* a nil *EdgeRH *)
| RH (op : bool) (dst : rloc)
with rsub : Type :=
| RSNil                                       (* a nil *SubGraph *)
| RSubGraph (id : gostr) (body : list rstmt).
(** ast.go:90-95 (Graph) *)
Record rgraph := RGraph { rg_type : bool; rg_strict : bool; rg_id : gostr; rg_stmts : list rstmt }.

(** ** Printing: [None] is a panic *)

(** The results of a loop whose body may panic. *)
Definition oeach {A B} (f : A -> option B) : list A -> option (list B) :=
  fix go l := match l with
              | [] => Some []
              | x :: l' => obind (f x) (fun y => obind (go l') (fun ys => Some (y :: ys)))
              end.

(** ast.go:653-655 (NodeID.String): this.ID of a nil pointer *)
Definition rnode_id_str (n : option node_id) : option gostr :=
  match n with None => None | Some n => Some (nid_id n ++ port_str (nid_port n)) end.
(** ast.go:458-460 (Attr.indentString) *)
Definition rattr_str (indent : gostr) (a : option attr) : option gostr :=
  match a with None => None | Some a => Some (indent ++ at_field a ++ lit "=" ++ at_value a) end.
(** ast.go:418-427 (AList.String) *)
Definition ralist_str (l : list (option attr)) : option gostr :=
  match l with
  | [] => Some []
  | a :: l' => obind (rattr_str [] a) (fun s0 => obind (oeach (rattr_str []) l') (fun ss =>
      Some (fold_left (fun s x => s ++ lit ", " ++ x) ss s0)))
  end.
(** ast.go:354-366 (AttrList.String) *)
Definition rattr_list_str (l : rattrs) : option gostr :=
  obind (oeach ralist_str l) (fun ss =>
    Some (fold_left (fun s x => match x with [] => s | _ => s ++ lit "[ " ++ x ++ lit " ] " end) ss [])).
(** ast.go:261-267, 289-295, 317-323 ({Edge,Node,Graph}Attrs.indentString) *)
Definition rattrs_stmt_str (kw : gostr) (indent : gostr) (a : rattrs) : option gostr :=
  obind (rattr_list_str a) (fun s => match s with [] => Some [] | _ => Some (indent ++ kw ++ s) end).
(** ast.go:595-597 (NodeStmt), 509-511 (EdgeStmt), 535-541 (EdgeRHS), 558-560 (EdgeRH), 228-240 (SubGraph),
    149-162 (StmtList) *)
Fixpoint rstmt_str (indent : gostr) (s : rstmt) {struct s} : option gostr :=
  match s with
  | RNil => None
  | RNode n a => obind (rnode_id_str n) (fun x => obind (rattr_list_str a) (fun y => Some (indent ++ trim_space (x ++ lit " " ++ y))))
  | REdge src rhs a =>
      obind (rloc_str src) (fun x => obind (oeach rerh_str rhs) (fun es => obind (rattr_list_str a) (fun y =>
        Some (indent ++ trim_space (x ++ trim_space (fold_left (fun acc e => acc ++ e) es []) ++ lit " " ++ y)))))
  | REdgeAttrs a => rattrs_stmt_str (lit "edge ") indent a
  | RNodeAttrs a => rattrs_stmt_str (lit "node ") indent a
  | RGraphAttrs a => rattrs_stmt_str (lit "graph ") indent a
  | RSub g => rsub_str indent g
  | RAttr a => rattr_str indent a
  end
with rloc_str (l : rloc) {struct l} : option gostr :=
  match l with RLNil => None | RLNode n => rnode_id_str n | RLSub g => rsub_str [] g end
with rerh_str (e : rerh) {struct e} : option gostr :=
  match e with
  | RHNil => None
  | RH op dst => obind (rloc_str dst) (fun x => Some (trim_space (edge_op_str op ++ x)))
  end
with rsub_str (indent : gostr) (g : rsub) {struct g} : option gostr :=
  match g with
  | RSNil => None
  | RSubGraph id body =>
      obind (oeach (rstmt_str (indent ++ [tab])) body) (fun ss =>
        Some (indent ++ lit "subgraph " ++ id ++ lit " {" ++ [nl] ++ stmt_list_join ss ++ [nl] ++ indent ++ lit "}"))
  end.
(** ast.go:108-119 (Graph.String) *)
Definition rgraph_str (g : option rgraph) : option gostr :=
  match g with
  | None => None
  | Some g =>
      obind (oeach (rstmt_str [tab]) (rg_stmts g)) (fun ss =>
        Some ((if rg_strict g then lit "strict " else []) ++ graph_type_str (rg_type g) ++ lit " " ++ rg_id g
              ++ lit " {" ++ [nl] ++ stmt_list_join ss ++ [nl] ++ lit "}" ++ [nl]))
  end.

(** ** Walking *)

(** What Visit is given (ast.go:38-40, Elem); pointers may be nil. *)
Inductive relem :=
| REGraph (g : option rgraph)
| REType (t : bool)
| REStmts (l : list rstmt)
| RESub (g : rsub)
| REEdgeAttrs (a : rattrs) | RENodeAttrs (a : rattrs) | REGraphAttrs (a : rattrs)
| REAttrList (a : rattrs)
| REAList (l : list (option attr))
| REAttr (a : option attr)
| REEdgeStmt (src : rloc) (rhs : list rerh) (a : rattrs)
| REEdgeRHS (l : list rerh)
| REEdgeRH (e : rerh)
| RENodeStmt (n : option node_id) (a : rattrs)
| REEdgeOp (op : bool)
| RENodeID (n : option node_id)
| REPort (p : port)
| REID (i : gostr).

(** How a call ends: it returns, or it panics; [s] is the world it leaves. *)
Inductive ending (St A : Type) := Returns (s : St) (a : A) | Panics (s : St).
Arguments Returns {St A}. Arguments Panics {St A}.
Definition after {St A} (x : ending St unit) (f : St -> ending St A) : ending St A :=
  match x with Returns s _ => f s | Panics s => Panics s end.

Section RawWalk.
  Variables St V : Type.
  (** Visit (ast.go:34-36) may itself panic; it returns a visitor or nil *)
  Variable visit : St -> V -> relem -> ending St (option V).

  (** if v == nil { return }; v = v.Visit(this); ... *)
  Definition enter (e : relem) (v : option V) (s : St) (parts : option V -> St -> ending St unit) : ending St unit :=
    match v with
    | None => Returns s tt
    | Some v => match visit s v e with Panics s1 => Panics s1 | Returns s1 v1 => parts v1 s1 end
    end.
  Definition rw_each {A} (w : A -> option V -> St -> ending St unit) : list A -> option V -> St -> ending St unit :=
    fix go l v s := match l with [] => Returns s tt | x :: l' => after (w x v s) (go l' v) end.
  (** ast.go:724-729 (ID.Walk), 83-88 (GraphType.Walk), 622-627 (EdgeOp.Walk) *)
  Definition rw_leaf (e : relem) (v : option V) (s : St) : ending St unit := enter e v s (fun _ s1 => Returns s1 tt).
  (** ast.go:702-709 (Port.Walk) *)
  Definition rw_port (p : port) (v : option V) (s : St) : ending St unit :=
    enter (REPort p) v s (fun v1 s1 => after (rw_leaf (REID (port_id1 p)) v1 s1) (rw_leaf (REID (port_id2 p)) v1)).
  (** ast.go:665-672 (NodeID.Walk): a nil pointer is visited, then this.ID panics *)
  Definition rw_node_id (n : option node_id) (v : option V) (s : St) : ending St unit :=
    enter (RENodeID n) v s (fun v1 s1 =>
      match n with
      | None => Panics s1
      | Some n => after (rw_leaf (REID (nid_id n)) v1 s1) (rw_port (nid_port n) v1)
      end).
  (** ast.go:462-469 (Attr.Walk) *)
  Definition rw_attr (a : option attr) (v : option V) (s : St) : ending St unit :=
    enter (REAttr a) v s (fun v1 s1 =>
      match a with
      | None => Panics s1
      | Some a => after (rw_leaf (REID (at_field a)) v1 s1) (rw_leaf (REID (at_value a)) v1)
      end).
  (** ast.go:429-434 (AList.Walk): no test for nil *)
  Definition rw_alist (l : list (option attr)) (v : option V) (s : St) : ending St unit :=
    match v with
    | None => Panics s
    | Some _ => enter (REAList l) v s (rw_each rw_attr l)
    end.
  (** ast.go:368-376 (AttrList.Walk), 269-277, 297-305, 325-333 ({Edge,Node,Graph}Attrs.Walk) *)
  Definition rw_alists (e : relem) (l : rattrs) (v : option V) (s : St) : ending St unit :=
    enter e v s (rw_each rw_alist l).
  (** ast.go:599-606 (NodeStmt.Walk), 513-521 (EdgeStmt.Walk), 543-551 (EdgeRHS.Walk), 562-569 (EdgeRH.Walk),
      242-249 (SubGraph.Walk), 164-172 (StmtList.Walk).  A nil interface, and a nil pointer to a type with
      value receivers, panics even if the visitor is nil. *)
  Fixpoint rw_stmt (x : rstmt) (v : option V) (s : St) {struct x} : ending St unit :=
    match x with
    | RNil => Panics s
    | RNode n a => enter (RENodeStmt n a) v s (fun v1 s1 => after (rw_node_id n v1 s1) (rw_alists (REAttrList a) a v1))
    | REdge src rhs a =>
        enter (REEdgeStmt src rhs a) v s (fun v1 s1 =>
          after (rw_loc src v1 s1) (fun s2 =>
          after (enter (REEdgeRHS rhs) v1 s2 (rw_each rw_erh rhs)) (rw_alists (REAttrList a) a v1)))
    | REdgeAttrs a => rw_alists (REEdgeAttrs a) a v s
    | RNodeAttrs a => rw_alists (RENodeAttrs a) a v s
    | RGraphAttrs a => rw_alists (REGraphAttrs a) a v s
    | RSub g => rw_sub g v s
    | RAttr a => rw_attr a v s
    end
  with rw_loc (l : rloc) (v : option V) (s : St) {struct l} : ending St unit :=
    match l with RLNil => Panics s | RLNode n => rw_node_id n v s | RLSub g => rw_sub g v s end
  with rw_erh (e : rerh) (v : option V) (s : St) {struct e} : ending St unit :=
    enter (REEdgeRH e) v s (fun v1 s1 =>
      match e with
      | RHNil => Panics s1                                                (* this.Op *)
      | RH op dst => after (rw_leaf (REEdgeOp op) v1 s1) (rw_loc dst v1)
      end)
  with rw_sub (g : rsub) (v : option V) (s : St) {struct g} : ending St unit :=
    enter (RESub g) v s (fun v1 s1 =>
      match g with
      | RSNil => Panics s1                                                (* this.ID *)
      | RSubGraph id body => after (rw_leaf (REID id) v1 s1) (fun s2 => enter (REStmts body) v1 s2 (rw_each rw_stmt body))
      end).
  (** ast.go:121-129 (Graph.Walk) *)
  Definition rw_graph (g : option rgraph) (v : option V) (s : St) : ending St unit :=
    enter (REGraph g) v s (fun v1 s1 =>
      match g with
      | None => Panics s1                                                 (* this.Type *)
      | Some g => after (rw_leaf (REType (rg_type g)) v1 s1) (fun s2 =>
                  after (rw_leaf (REID (rg_id g)) v1 s2) (fun s3 =>
                  enter (REStmts (rg_stmts g)) v1 s3 (rw_each rw_stmt (rg_stmts g))))
      end).
End RawWalk.
