(** Specification of Walk: an element has parts, in source order; a walk visits an element and then its
    parts, with the visitor that Visit returned for the element. *)
From Coq Require Import List.
From Verif Require Import Base Ast Walk.
Import ListNotations.

Inductive tree := T (e : elem) (parts : list tree).

(** The parts of the elements. *)
Definition t_id (i : gostr) : tree := T (EID i) [].
Definition t_port (p : port) : tree := T (EPort p) [t_id (port_id1 p); t_id (port_id2 p)].
Definition t_node_id (n : node_id) : tree := T (ENodeID n) [t_id (nid_id n); t_port (nid_port n)].
Definition t_attr (a : attr) : tree := T (EAttr a) [t_id (at_field a); t_id (at_value a)].
Definition t_alist (l : alist) : tree := T (EAList l) (map t_attr l).
Definition t_attr_list (a : attr_list) : tree := T (EAttrList a) (map t_alist a).
Fixpoint t_stmt (s : stmt) : tree :=
  match s with
  | SNode n a => T (ENodeStmt n a) [t_node_id n; t_attr_list a]
  | SEdge src rhs a => T (EEdgeStmt src rhs a) [t_loc src; T (EEdgeRHS rhs) (map t_rh rhs); t_attr_list a]
  | SEdgeAttrs a => T (EEdgeAttrs a) (map t_alist a)
  | SNodeAttrs a => T (ENodeAttrs a) (map t_alist a)
  | SGraphAttrs a => T (EGraphAttrs a) (map t_alist a)
  | SSub g => t_sub g
  | SAttr a => t_attr a
  end
with t_loc (l : location) : tree := match l with LNode n => t_node_id n | LSub g => t_sub g end
with t_rh (e : edge_rh) : tree := match e with EdgeRH op dst => T (EEdgeRH e) [T (EEdgeOp op) []; t_loc dst] end
with t_sub (g : subgraph) : tree :=
  match g with SubGraph id body => T (ESub g) [t_id id; T (EStmts body) (map t_stmt body)] end.
Definition t_graph (g : graph) : tree :=
  T (EGraph g) [T (EType (g_type g)) []; t_id (g_id g); T (EStmts (g_stmts g)) (map t_stmt (g_stmts g))].

(** An element before its parts, the parts in order. *)
Fixpoint preorder (t : tree) : list elem := match t with T e ps => e :: flat_map preorder ps end.

(** The tour of a visitor (None: nil) through a tree: the visits it makes, and the state it leaves. *)
Section Tour.
  Variables St V : Type.
  Variable visit : St -> V -> elem -> St * option V.
  Inductive tour : option V -> tree -> St -> list (V * elem) -> St -> Prop :=
  | Tour_visit v e ps s s1 v1 l s2 : visit s v e = (s1, v1) -> tours v1 ps s1 l s2 -> tour (Some v) (T e ps) s ((v, e) :: l) s2
  | Tour_skip e ps s : (forall al, e <> EAList al) -> tour None (T e ps) s [] s
  with tours : option V -> list tree -> St -> list (V * elem) -> St -> Prop :=
  | Tours_nil v s : tours v [] s [] s
  | Tours_cons v t ts s l1 s1 l2 s2 : tour v t s l1 s1 -> tours v ts s1 l2 s2 -> tours v (t :: ts) s (l1 ++ l2) s2.
  (** A tour that ends with a call of Visit on a nil visitor: at an AList. *)
  Inductive crash : option V -> tree -> St -> Prop :=
  | Crash_here al ps s : crash None (T (EAList al) ps) s
  | Crash_part v e ps s s1 v1 : visit s v e = (s1, v1) -> crashes v1 ps s1 -> crash (Some v) (T e ps) s
  with crashes : option V -> list tree -> St -> Prop :=
  | Crash_first v t ts s : crash v t s -> crashes v (t :: ts) s
  | Crash_later v t ts s l s1 : tour v t s l s1 -> crashes v ts s1 -> crashes v (t :: ts) s.
End Tour.
