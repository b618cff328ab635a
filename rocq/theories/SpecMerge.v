(** Specification for C68: one graph laid over another. *)
From Verif Require Import Maps Graph SpecGraph.
From Verif Require Ast.

(** The things of both, each with the attributes it has in either; where both give an attribute a value, the one in [new] counts. *)
Definition laid (old new : gmap gostr attrs) : gmap gostr attrs :=
  union_with (fun a b => Some (a ∪ b)) new old.
(** [t] laid over [s]: name and flags of [t]; the attributes, nodes, subgraphs and (parent, child) pairs of both; the nodes of [s] come
    first, then the ones only [t] has; all the edges of [s], then all the edges of [t]. *)
Definition overlay (s t : sgraph) : sgraph :=
  SGraph (s_name t) (s_directed t) (s_strict t) (s_attrs t ∪ s_attrs s)
    (laid (s_nodes s) (s_nodes t)) (s_order s ++ filter (fun n => s_nodes s !! n = None) (s_order t))
    (s_edges s ++ s_edges t)
    (laid (s_subs s) (s_subs t)) (s_rels t ∪ s_rels s).
(** The same name and flags, and nothing else. *)
Definition blank (s : sgraph) : sgraph := SGraph (s_name s) (s_directed s) (s_strict s) ∅ ∅ [] [] ∅ ∅.
(** A call that removes nothing. *)
Definition no_removal (c : call) : Prop := match c with CRemoveNode _ _ | CRemoveSubGraph _ _ => False | _ => True end.
(** [s] with the edges [es] added behind the ones it has. *)
Definition more_edges (s : sgraph) (es : list edge) : sgraph := s_with_edges s (s_edges s ++ es).
(** The statement is not a node [...] default. *)
Definition no_node_default (s : Ast.stmt) : Prop := match s with Ast.SNodeAttrs _ => False | _ => True end.
