(** Specification for C65: blocks of calls that fill a new subgraph. *)
From Verif Require Import Maps Graph SpecGraph.

(** The nodes that the calls add. *)
Definition new_nodes_of (cs : list call) : gset gostr :=
  list_to_set (omap (fun c => match c with CAddNode _ x _ => Some x | _ => None end) cs).
(** The call adds a node to [S], an edge that touches one of the nodes [X] or [S], or an attribute of [S]; with valid attributes. *)
Definition fills (S : gostr) (X : gset gostr) (c : call) : Prop :=
  match c with
  | CAddNode p x m => p = S /\ all_valid m
  | CAddEdge a b _ m | CAddPortEdge a _ b _ _ m => (a ∈ X \/ b ∈ X \/ a = S \/ b = S) /\ all_valid m
  | CAddAttr n k v => n = S /\ valid_attr k
  | _ => False
  end.
(** Nothing in [s] is called [n]: it is no node, no edge touches it, it is nowhere in [p]. *)
Definition unused_node (s : sgraph) (p n : gostr) : Prop :=
  ~ s_is_node s n /\ (forall e, e ∈ s_edges s -> e_src e <> n /\ e_dst e <> n) /\ ~ is_child s p n.
(** The same for subgraphs: also nothing is in it. *)
Definition unused_sub (s : sgraph) (p n : gostr) : Prop :=
  n <> s_name s /\ ~ s_is_sub s n /\ (forall c, ~ is_child s n c) /\ ~ is_child s p n /\
  (forall e, e ∈ s_edges s -> e_src e <> n /\ e_dst e <> n /\ e_src_port e <> n /\ e_dst_port e <> n).
