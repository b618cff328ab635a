(** Specification for C71: names replaced in a tree. *)
From Verif Require Import Maps Graph Rename.
From Verif Require Ast.

(** [n] in the place of [a] *)
Definition instead (a n x : gostr) : gostr := if decide (x = a) then n else x.

(** A tree with every name of a node (also where an edge ends) changed by [f] and every name of a subgraph statement changed by [h]. *)
Definition ren_id (f : gostr -> gostr) (n : Ast.node_id) : Ast.node_id := Ast.NodeID (f (Ast.nid_id n)) (Ast.nid_port n).
Fixpoint ren_stmt (f h : gostr -> gostr) (st : Ast.stmt) : Ast.stmt :=
  match st with
  | Ast.SNode n a => Ast.SNode (ren_id f n) a
  | Ast.SEdge l rhs a => Ast.SEdge (ren_loc f h l) (map (ren_rh f h) rhs) a
  | Ast.SSub t => Ast.SSub (ren_tree f h t)
  | _ => st
  end
with ren_loc (f h : gostr -> gostr) (l : Ast.location) : Ast.location :=
  match l with Ast.LNode n => Ast.LNode (ren_id f n) | Ast.LSub t => Ast.LSub (ren_tree f h t) end
with ren_rh (f h : gostr -> gostr) (r : Ast.edge_rh) : Ast.edge_rh :=
  match r with Ast.EdgeRH op l => Ast.EdgeRH op (ren_loc f h l) end
with ren_tree (f h : gostr -> gostr) (t : Ast.subgraph) : Ast.subgraph :=
  match t with Ast.SubGraph id body => Ast.SubGraph (h id) (map (ren_stmt f h) body) end.
Definition ren_graph (f h : gostr -> gostr) (t : Ast.graph) : Ast.graph :=
  Ast.Graph (Ast.g_type t) (Ast.g_strict t) (Ast.g_id t) (map (ren_stmt f h) (Ast.g_stmts t)).
(** The name of the node [a], or of the subgraph [s], replaced. *)
Definition node_renamed (a n : gostr) : Ast.graph -> Ast.graph := ren_graph (instead a n) (fun x => x).
Definition sub_renamed (s t : gostr) : Ast.graph -> Ast.graph := ren_graph (fun x => x) (instead s t).

(** The names after several assignments: the last one counts. *)
Definition node_now (l : list naming) (x : gostr) : gostr :=
  fold_left (fun y c => match c with NameNode a n => if decide (a = x) then n else y | _ => y end) l x.
Definition sub_now (l : list naming) (x : gostr) : gostr :=
  fold_left (fun y c => match c with NameSub s t => if decide (s = x) then t else y | _ => y end) l x.
(** What is assumed of the assignments: they are made to nodes and subgraphs that exist; a name that changes becomes one that
    nothing in the graph has, and that no other node or subgraph gets; and it is not the name of both a node and a subgraph. *)
Definition free_name (g : agraph) (x : gostr) : Prop := is_node g x = false /\ is_subgraph g x = false.
Record new_names (g : agraph) (l : list naming) : Prop := {
  nn_there : forall c, c ∈ l -> match c with NameNode a _ => is_node g a = true | NameSub s _ => is_subgraph g s = true end;
  nn_node : forall x, node_now l x <> x -> free_name g (node_now l x) /\ is_subgraph g x = false;
  nn_sub : forall x, sub_now l x <> x -> free_name g (sub_now l x) /\ sub_now l x ∉ children (g_rels g) (g_name g) /\ is_node g x = false;
  nn_nodes : forall x y, node_now l x <> x -> node_now l y <> y -> node_now l x = node_now l y -> x = y;
  nn_subs : forall x y, sub_now l x <> x -> sub_now l y <> y -> sub_now l x = sub_now l y -> x = y;
  nn_both : forall x y, node_now l x <> x -> sub_now l y <> y -> node_now l x <> sub_now l y;
}.
(** The relations between the main graph and the subgraphs with another name, removed. *)
Definition without_renamed (g : agraph) (l : list naming) : agraph :=
  with_rels g (fold_left (fun r c => match c with NameSub s _ => if decide (sub_now l s = s) then r else relations_remove r (g_name g) s | _ => r end) l (g_rels g)).
