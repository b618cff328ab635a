(** What the text of a graph shows when clusters may end edges.  An edge that ends at a cluster is written with the name of
    the cluster alone, and reading such an edge makes a node of that name. *)
From Verif Require Import Base Maps Graph SpecGraph SpecWrite SpecRound.

(** [n] is a cluster, not also a node, and an edge ends there. *)
Definition cluster_end (s : sgraph) (n : gostr) : Prop := cluster s n /\ ~ s_is_node s n /\ exists port, endpoint s n port.

(** [shown_graph s s']: [s'] is what the text of [s] shows of [s].  This is [text_graph] of SpecRound.v but for the nodes:
    each cluster that ends an edge comes back as a node without attributes, too. *)
Record shown_graph (s s' : sgraph) : Prop := ShownGraph {
  sh_name : s_name s' = s_name s;
  sh_directed : s_directed s' = s_directed s;
  sh_strict : s_strict s' = s_strict s;
  sh_attrs : s_attrs s' = s_attrs s;
  sh_nodes : forall n m, s_nodes s' !! n = Some m <-> s_nodes s !! n = Some m \/ (cluster_end s n /\ m = ∅);
  sh_subs : forall n m, s_subs s' !! n = Some m <-> s_subs s !! n = Some m /\ written s n;
  sh_edges : exists es, s_edges s' ≡ₚ es /\ Forall2 printed_edge (s_edges s) es;
  sh_children : forall p c, written s p -> is_child s' p c <-> is_child s p c;
  sh_parents : forall p c, is_child s' p c -> p = s_name s \/ written s p;
  sh_top_nodes : forall n, s_is_node s n ->
    is_child s' (s_name s) n <-> (exists port, endpoint s n port) \/ forall p, written s p -> ~ is_child s p n;
  sh_top_subs : forall n, s_is_sub s n -> ~ s_is_node s n ->
    ((exists port, endpoint s n port) -> is_child s' (s_name s) n) /\
    (is_child s' (s_name s) n -> is_child s (s_name s) n \/ exists port, endpoint s n port) /\
    (is_child s (s_name s) n -> is_child s' (s_name s) n \/ exists p, written s p /\ is_child s p n) }.

(** The clusters that end edges stand in the main graph and in no subgraph that is written. *)
Definition outer_clusters (s : sgraph) : Prop :=
  forall n, cluster_end s n -> is_child s (s_name s) n /\ forall p, written s p -> ~ is_child s p n.
