(** Specification side of the AST round trip (C09): which ASTs are printable and what printing
    forgets. *)
From Coq Require Import List Ascii NArith Bool.
From Verif Require Import Base Ast.
Import ListNotations.

(** ** Well-formed ASTs: every identifier satisfies [P], ports have no second part without a
    first one, edge statements have at least one arrow.  [P] is not asked of the name of the
    graph when that is empty, nor of absent ports. *)
Section Wf.
  Variable P : gostr -> Prop.
  Definition wf_port (p : port) : Prop :=
    match port_id1 p, port_id2 p with
    | [], [] => True
    | [], _ :: _ => False
    | _ :: _, [] => P (port_id1 p)
    | _ :: _, _ :: _ => P (port_id1 p) /\ P (port_id2 p)
    end.
  Definition wf_node_id (n : node_id) : Prop := P (nid_id n) /\ wf_port (nid_port n).
  Definition wf_attr (a : attr) : Prop := P (at_field a) /\ P (at_value a).
  Definition wf_attrs (l : list (list attr)) : Prop := Forall (Forall wf_attr) l.
  Fixpoint wf_stmt (s : stmt) : Prop :=
    match s with
    | SNode n a => wf_node_id n /\ wf_attrs a
    | SEdge l r a => wf_loc l /\ r <> [] /\
        fold_right (fun e acc => (match e with EdgeRH _ d => wf_loc d end) /\ acc) True r /\ wf_attrs a
    | SEdgeAttrs a | SNodeAttrs a | SGraphAttrs a => wf_attrs a
    | SSub g => wf_sub g
    | SAttr a => wf_attr a
    end
  with wf_loc (l : location) : Prop :=
    match l with LNode n => wf_node_id n | LSub g => wf_sub g end
  with wf_sub (g : subgraph) : Prop :=
    match g with SubGraph i b => P i /\ fold_right (fun s acc => wf_stmt s /\ acc) True b end.
  Definition wf_stmts (l : list stmt) : Prop := Forall wf_stmt l.
  Definition wf_graph (g : graph) : Prop := (g_id g <> [] -> P (g_id g)) /\ wf_stmts (g_stmts g).
End Wf.

(** ** What printing forgets: empty bracket lists, and graph/node/edge statements left with none *)
Definition norm_attrs (l : list (list attr)) : list (list attr) :=
  filter (fun al => match al with [] => false | _ => true end) l.
Definition keep (s : stmt) : bool :=
  match s with
  | SEdgeAttrs a | SNodeAttrs a | SGraphAttrs a => match norm_attrs a with [] => false | _ => true end
  | _ => true
  end.
Fixpoint norm_stmt (s : stmt) : stmt :=
  match s with
  | SNode n a => SNode n (norm_attrs a)
  | SEdge l r a => SEdge (norm_loc l) (map (fun e => match e with EdgeRH o d => EdgeRH o (norm_loc d) end) r) (norm_attrs a)
  | SEdgeAttrs a => SEdgeAttrs (norm_attrs a)
  | SNodeAttrs a => SNodeAttrs (norm_attrs a)
  | SGraphAttrs a => SGraphAttrs (norm_attrs a)
  | SSub g => SSub (norm_sub g)
  | SAttr a => SAttr a
  end
with norm_loc (l : location) : location :=
  match l with LNode n => LNode n | LSub g => LSub (norm_sub g) end
with norm_sub (g : subgraph) : subgraph :=
  match g with SubGraph i b => SubGraph i (flat_map (fun s => if keep s then [norm_stmt s] else []) b) end.
Definition norm_stmts (l : list stmt) : list stmt := flat_map (fun s => if keep s then [norm_stmt s] else []) l.
Definition norm_graph (g : graph) : graph := Graph (g_type g) (g_strict g) (g_id g) (norm_stmts (g_stmts g)).
