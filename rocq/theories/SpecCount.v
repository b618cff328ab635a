(** Specification for C62: how often things are written. *)
From Verif Require Import Maps Graph SpecGraph SpecWrite.
From Verif Require Ast.

(** The names of the subgraphs that have a statement in a tree, at any depth and as endpoints of edges, with repetitions. *)
Fixpoint subs_in (st : Ast.stmt) : list gostr :=
  match st with
  | Ast.SSub t => subs_of t
  | Ast.SEdge l rhs _ => subs_at l ++ flat_map (fun r => match r with Ast.EdgeRH _ l => subs_at l end) rhs
  | _ => []
  end
with subs_at (l : Ast.location) : list gostr :=
  match l with Ast.LNode _ => [] | Ast.LSub t => subs_of t end
with subs_of (t : Ast.subgraph) : list gostr :=
  match t with Ast.SubGraph id body => id :: flat_map subs_in body end.
(** The names in the node statements of a tree, at any depth, with repetitions. *)
Fixpoint nodes_in (st : Ast.stmt) : list gostr :=
  match st with
  | Ast.SNode n _ => [Ast.nid_id n]
  | Ast.SSub t => nodes_of t
  | Ast.SEdge l rhs _ => nodes_at l ++ flat_map (fun r => match r with Ast.EdgeRH _ l => nodes_at l end) rhs
  | _ => []
  end
with nodes_at (l : Ast.location) : list gostr :=
  match l with Ast.LNode _ => [] | Ast.LSub t => nodes_of t end
with nodes_of (t : Ast.subgraph) : list gostr :=
  match t with Ast.SubGraph _ body => flat_map nodes_in body end.
Definition graph_subs (a : Ast.graph) : list gostr := flat_map subs_in (Ast.g_stmts a).
Definition graph_nodes (a : Ast.graph) : list gostr := flat_map nodes_in (Ast.g_stmts a).
(** Those at the top level. *)
Definition top_subs (a : Ast.graph) : list gostr :=
  flat_map (fun st => match st with Ast.SSub (Ast.SubGraph id _) => [id] | _ => [] end) (Ast.g_stmts a).
Definition top_nodes (a : Ast.graph) : list gostr :=
  flat_map (fun st => match st with Ast.SNode n _ => [Ast.nid_id n] | _ => [] end) (Ast.g_stmts a).

Definition count (n : gostr) (l : list gostr) : nat := length (filter (fun m => m = n) l).
(** How often [n] is an endpoint of an edge. *)
Definition count_ends (s : sgraph) (n : gostr) : nat := count n (map e_src (s_edges s)) + count n (map e_dst (s_edges s)).
(** The parents of [n]. *)
Definition parents (s : sgraph) (n : gostr) : list gostr := map fst (filter (fun pc => pc.2 = n) (elements (s_rels s))).
(** The number of statements of its parents. *)
Definition count_parents (s : sgraph) (n : gostr) (l : list gostr) : nat := sum_list (map (fun p => count p l) (parents s n)).

(** Everything has at most one parent, and no edge ends at a subgraph that would be written there. *)
Definition tree_like (s : sgraph) : Prop :=
  (forall n p q, is_child s p n -> is_child s q n -> p = q) /\
  (forall n port, endpoint s n port -> s_is_node s n \/ cluster s n).
