(** Specification for C89: which graphs can be written after removals. *)
From Verif Require Import Maps Graph SpecGraph SpecWrite.

(** No name is the name of a node and of a subgraph. *)
Definition disjoint_names (s : sgraph) : Prop := forall x, s_is_node s x -> s_is_sub s x -> False.
(** The graph can be written: nothing is missing, and no subgraph that gets written contains itself. *)
Definition writable (s : sgraph) : Prop := ~ unwritable s /\ acyclic s.

(** The subgraphs of [s] that are reached from the main graph or from an edge that satisfies [P]. *)
Definition reached (s : sgraph) (P : edge -> Prop) (q : gostr) : Prop :=
  exists r, rtc (nested s) r q /\ s_is_sub s r /\
    (is_child s (s_name s) r \/ (~ s_is_node s r /\ ~ cluster s r /\ exists e, e ∈ s_edges s /\ P e /\ (e_src e = r \/ e_dst e = r))).
(** The edge does not end at [n]. *)
Definition not_at (n : gostr) (e : edge) : Prop := e_src e <> n /\ e_dst e <> n.

(** Every name has at most one parent; what is in a subgraph exists; no name is that of a node and of a subgraph. *)
Record tree (s : sgraph) : Prop := Tree {
  tree_single : forall q q' c, is_child s q c -> is_child s q' c -> q = q';
  tree_known : forall q c, s_is_sub s q -> is_child s q c -> s_is_node s c \/ s_is_sub s c;
  tree_names : disjoint_names s }.
(** A removal that names the parent of what it removes, and removes no subgraph that has subgraphs. *)
Inductive right_removal (s : sgraph) : call -> Prop :=
| Right_node p n : s_is_node s n -> is_child s p n -> right_removal s (CRemoveNode p n)
| Right_sub p n : s_is_sub s n -> is_child s p n -> (forall c, is_child s n c -> s_is_node s c) -> right_removal s (CRemoveSubGraph p n).
(** What right removals make of a graph. *)
Inductive pruned (g0 : agraph) : agraph -> Prop :=
| Pruned_none : pruned g0 g0
| Pruned_call g o c : pruned g0 g -> fair o -> right_removal (view g) c -> pruned g0 (exec o c g).1.

(** Adding a node to a subgraph and removing it from there, for each of these subgraphs. *)
Definition add_and_remove (n : gostr) (qs : list gostr) : list call := flat_map (fun q => [CAddNode q n ∅; CRemoveNode q n]) qs.
(** The graph without the relations that say that [n] is in one of [qs]. *)
Definition unrelated (s : sgraph) (n : gostr) (qs : list gostr) : sgraph :=
  SGraph (s_name s) (s_directed s) (s_strict s) (s_attrs s) (s_nodes s) (s_order s) (s_edges s) (s_subs s)
    (filter (fun pc => ~ (pc.1 ∈ qs /\ pc.2 = n)) (s_rels s)).
