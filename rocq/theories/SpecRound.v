(** Specification side of the graph round trip (C35, C36, C46). *)
From Coq Require Import Ascii.
From Verif Require Import Base Maps Graph SpecGraph SpecWrite LexPrint AstProofs.
From stdpp Require Import prelude.

(** A port as one passes it to AddPortEdge: absent, p, or p:c, where p and c are IDs without a colon. *)
Definition colon : Ascii.ascii := ":"%char.
Definition good_port (p : gostr) : Prop :=
  p = [] \/ (good_id p /\ colon ∉ p) \/ (exists a b, p = a ++ [colon] ++ b /\ good_id a /\ good_id b /\ colon ∉ a /\ colon ∉ b).
(** Reading DOT text gives ports with a colon in front. *)
Definition read_port (p : gostr) : gostr := match p with [] => [] | _ => colon :: p end.
Definition read_edge (e : edge) : edge :=
  Edge (e_src e) (read_port (e_src_port e)) (e_dst e) (read_port (e_dst_port e)) (e_dir e) (e_attrs e).

(** The attribute maps of a graph. *)
Inductive holds_attrs (s : sgraph) : attrs -> Prop :=
| Ha_graph : holds_attrs s (s_attrs s)
| Ha_node n m : s_nodes s !! n = Some m -> holds_attrs s m
| Ha_sub n m : s_subs s !! n = Some m -> holds_attrs s m
| Ha_edge e : e ∈ s_edges s -> holds_attrs s (e_attrs e).

(** The graphs that survive writing and reading.  [good_id]: a DOT ID that does not begin or end with
    a Unicode space. *)
Record tidy (s : sgraph) : Prop := Tidy {
  t_name : s_name s = [] \/ good_id (s_name s);
  t_names : forall n, s_is_node s n \/ s_is_sub s n -> good_id n;
  t_values : forall m k v, holds_attrs s m -> m !! k = Some v -> good_id v;
  (* no name is used twice *)
  t_apart : forall n, s_is_node s n -> s_is_sub s n -> False;
  t_root : ~ s_is_sub s (s_name s);
  (* edges join nodes and subgraphs other than clusters; only nodes have ports *)
  t_ends : forall n port, endpoint s n port ->
    (s_is_node s n /\ good_port port) \/ (s_is_sub s n /\ ~ cluster s n /\ port = []);
  (* subgraphs contain nodes and subgraphs, do not contain themselves, and none is lost *)
  t_children : forall p c, s_is_sub s p -> is_child s p c -> s_is_node s c \/ s_is_sub s c;
  t_acyclic : acyclic s;
  t_written : forall n, s_is_sub s n -> written s n }.

(** [same_graph s s']: [s'], read from the text of [s], is the same graph.  Edges may come in another
    order, and the text decides anew what the main graph contains directly: all nodes that end an edge
    or are in no subgraph, all subgraphs that end an edge, and enough of the others. *)
Record same_graph (s s' : sgraph) : Prop := SameGraph {
  sg_name : s_name s' = s_name s;
  sg_directed : s_directed s' = s_directed s;
  sg_strict : s_strict s' = s_strict s;
  sg_attrs : s_attrs s' = s_attrs s;
  sg_nodes : s_nodes s' = s_nodes s;
  sg_subs : s_subs s' = s_subs s;
  sg_edges : s_edges s' ≡ₚ map read_edge (s_edges s);
  sg_children : forall p c, s_is_sub s p -> is_child s' p c <-> is_child s p c;
  sg_parents : forall p c, is_child s' p c -> p = s_name s \/ s_is_sub s p;
  sg_top_nodes : forall n, s_is_node s n ->
    is_child s' (s_name s) n <-> (exists port, endpoint s n port) \/ forall p, s_is_sub s p -> ~ is_child s p n;
  sg_top_subs : forall n, s_is_sub s n ->
    ((exists port, endpoint s n port) -> is_child s' (s_name s) n) /\
    (is_child s' (s_name s) n -> is_child s (s_name s) n \/ exists port, endpoint s n port) /\
    (is_child s (s_name s) n -> is_child s' (s_name s) n \/ exists p, s_is_sub s p /\ is_child s p n) }.

(** No edge has a port. *)
Definition no_ports (s : sgraph) : Prop := forall n port, endpoint s n port -> port = [].

(** For a graph that was read from DOT text, these are enough (names and values are IDs already, except for
    the name of a node given by a statement like a:p). *)
Record clean_graph (s : sgraph) : Prop := CleanGraph {
  c_name : trim_space (s_name s) = s_name s;
  c_node_names : forall n, s_is_node s n -> is_id n /\ trim_space n = n;
  c_sub_names : forall n, s_is_sub s n -> trim_space n = n;
  c_values : forall m k v, holds_attrs s m -> m !! k = Some v -> trim_space v = v;
  c_apart : forall n, s_is_node s n -> s_is_sub s n -> False;
  c_root : ~ s_is_sub s (s_name s);
  c_ports : no_ports s;
  c_clusters : forall n port, endpoint s n port -> ~ cluster s n;
  c_acyclic : acyclic s }.

(** [prints_port p t]: the text [t] that is printed after a node for the port string [p] given to AddPortEdge. *)
Inductive prints_port : gostr -> gostr -> Prop :=
| Pp_none : prints_port [] []
| Pp_p p : p <> [] -> colon ∉ p -> prints_port p (colon :: p)                                       (* p     -> :p *)
| Pp_pc p c : p <> [] -> colon ∉ p -> c <> [] -> colon ∉ c ->
    prints_port (p ++ colon :: c) (colon :: p ++ colon :: c)                                        (* p:c   -> :p:c *)
| Pp_pcx p c x : p <> [] -> colon ∉ p -> c <> [] -> colon ∉ c ->
    prints_port (p ++ colon :: c ++ colon :: x) (colon :: p ++ colon :: c)                          (* p:c:x -> :p:c *)
| Pp_p_ p : p <> [] -> colon ∉ p -> prints_port (p ++ [colon]) (colon :: p)                         (* p:    -> :p *)
| Pp_p__ p x : p <> [] -> colon ∉ p -> prints_port (p ++ colon :: colon :: x) (colon :: p)          (* p::x  -> :p *)
| Pp_lost x : prints_port (colon :: x) [].                                                          (* :x    -> nothing *)

(** ** The text of any graph *)
(** The strings of a graph are DOT IDs (see [good_id]), and what is printed of a port is :p or :p:c where p and c are
    DOT IDs, or nothing.  Nothing is asked of the shape of the graph. *)
Record legible (s : sgraph) : Prop := Legible {
  l_name : s_name s = [] \/ good_id (s_name s);
  l_names : forall n, s_is_node s n \/ s_is_sub s n -> good_id n;
  l_values : forall m k v, holds_attrs s m -> m !! k = Some v -> good_id v;
  l_ports : forall n port t, endpoint s n port -> s_is_node s n -> prints_port port t -> exists p, good_port p /\ t = read_port p }.

(** The edge [e'] is [e] with its ports as printed. *)
Definition printed_edge (e e' : edge) : Prop :=
  e_src e' = e_src e /\ e_dst e' = e_dst e /\ e_dir e' = e_dir e /\ e_attrs e' = e_attrs e /\
  prints_port (e_src_port e) (e_src_port e') /\ prints_port (e_dst_port e) (e_dst_port e').

(** [text_graph s s']: [s'], read from the text of [s], is what the text shows of [s]: everything but the subgraphs
    that are not written (see SpecWrite.v), and the ports as printed.  As for [same_graph], the text decides anew what the
    main graph contains directly. *)
Record text_graph (s s' : sgraph) : Prop := TextGraph {
  tg_name : s_name s' = s_name s;
  tg_directed : s_directed s' = s_directed s;
  tg_strict : s_strict s' = s_strict s;
  tg_attrs : s_attrs s' = s_attrs s;
  tg_nodes : s_nodes s' = s_nodes s;
  tg_subs : forall n m, s_subs s' !! n = Some m <-> s_subs s !! n = Some m /\ written s n;
  tg_edges : exists es, s_edges s' ≡ₚ es /\ Forall2 printed_edge (s_edges s) es;
  tg_children : forall p c, written s p -> is_child s' p c <-> is_child s p c;
  tg_parents : forall p c, is_child s' p c -> p = s_name s \/ written s p;
  tg_top_nodes : forall n, s_is_node s n ->
    is_child s' (s_name s) n <-> (exists port, endpoint s n port) \/ forall p, written s p -> ~ is_child s p n;
  tg_top_subs : forall n, s_is_sub s n ->
    ((exists port, endpoint s n port) -> is_child s' (s_name s) n) /\
    (is_child s' (s_name s) n -> is_child s (s_name s) n \/ exists port, endpoint s n port) /\
    (is_child s (s_name s) n -> is_child s' (s_name s) n \/ exists p, written s p /\ is_child s p n) }.

(** The conditions on the shape of a graph under which its text has all that is written: no name is used twice, and no
    cluster ends an edge (it would come back as a node). *)
Record plain_graph (s : sgraph) : Prop := Plain {
  p_apart : forall n, s_is_node s n -> s_is_sub s n -> False;
  p_root : ~ s_is_sub s (s_name s);
  p_clusters : forall n port, endpoint s n port -> ~ cluster s n }.
(** No name or value of a graph begins or ends with a Unicode space, and node names are IDs (the node of a statement
    like a:p is named a:p). *)
Record trimmed (s : sgraph) : Prop := Trimmed {
  tr_name : trim_space (s_name s) = s_name s;
  tr_nodes : forall n, s_is_node s n -> is_id n /\ trim_space n = n;
  tr_subs : forall n, s_is_sub s n -> trim_space n = n;
  tr_values : forall m k v, holds_attrs s m -> m !! k = Some v -> trim_space v = v }.
