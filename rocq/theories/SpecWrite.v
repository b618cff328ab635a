(** Specification of what the writer (WriteAst and String) should do, on the abstract graph of SpecGraph. *)
From stdpp Require Import sorting.
From Verif Require Import Maps Graph SpecGraph.
From Verif Require Ast.

(** ** The order on edges *)
(** Byte order on strings. *)
Definition before (a b : gostr) : Prop := str_ltb a b = true.
(** The value of an attribute of an edge; an absent attribute counts as the empty string. *)
Definition attr_value (e : edge) (k : gostr) : gostr := match e_attrs e !! k with Some v => v | None => [] end.
(** The endpoints, ports and direction of two edges are the same. *)
Definition same_ends (x y : edge) : Prop :=
  e_src x = e_src y /\ e_dst x = e_dst y /\ e_src_port x = e_src_port y /\ e_dst_port x = e_dst_port y /\ e_dir x = e_dir y.
(** Lexicographic order: source, destination, source port, destination port, directed edges first,
    then the attributes in the order of their names. *)
Inductive edge_before (x y : edge) : Prop :=
| Eb_src : before (e_src x) (e_src y) -> edge_before x y
| Eb_dst : e_src x = e_src y -> before (e_dst x) (e_dst y) -> edge_before x y
| Eb_src_port : e_src x = e_src y -> e_dst x = e_dst y -> before (e_src_port x) (e_src_port y) -> edge_before x y
| Eb_dst_port : e_src x = e_src y -> e_dst x = e_dst y -> e_src_port x = e_src_port y ->
    before (e_dst_port x) (e_dst_port y) -> edge_before x y
| Eb_dir : e_src x = e_src y -> e_dst x = e_dst y -> e_src_port x = e_src_port y -> e_dst_port x = e_dst_port y ->
    e_dir x = true -> e_dir y = false -> edge_before x y
| Eb_attr k : same_ends x y -> before (attr_value x k) (attr_value y k) -> (forall k', before k' k -> attr_value x k' = attr_value y k') -> edge_before x y.
(** Indistinguishable for the order. *)
Definition same_key (x y : edge) : Prop := same_ends x y /\ forall k, attr_value x k = attr_value y k.

(** ** What is written *)
(** Attributes in the order of their names. *)
Definition lists_attrs (m : attrs) (l : list Ast.attr) : Prop :=
  StronglySorted (fun a b => before (Ast.at_field a) (Ast.at_field b)) l /\ forall k v, Ast.Attr k v ∈ l <-> m !! k = Some v.
(** A list of names in increasing order. *)
Definition lists_names (P : gostr -> Prop) (l : list gostr) : Prop :=
  StronglySorted before l /\ forall n, n ∈ l <-> P n.

(** [shows s c t]: the statement [t] is the right one for [c], which is a child of a subgraph. *)
Inductive shows (s : sgraph) : gostr -> Ast.stmt -> Prop :=
| Shows_node n a l : s_nodes s !! n = Some a -> lists_attrs a l ->
    shows s n (Ast.SNode (Ast.NodeID n (Ast.Port [] [])) [l])
| Shows_sub n t : ~ s_is_node s n -> shows_sub s n t -> shows s n (Ast.SSub t)
with shows_sub (s : sgraph) : gostr -> Ast.subgraph -> Prop :=
| Shows_body n a l cs body : s_subs s !! n = Some a -> lists_attrs a l -> lists_names (is_child s n) cs ->
    Forall2 (shows s) cs body -> shows_sub s n (Ast.SubGraph n (map Ast.SAttr l ++ body)).

Definition cluster (s : sgraph) (n : gostr) : Prop := s_is_sub s n /\ exists t, n = lit "cluster" ++ t.
(** The way an edge endpoint is written: nodes and clusters by name, other subgraphs with their content. *)
Inductive shows_end (s : sgraph) (n port : gostr) : Ast.location -> Prop :=
| Shows_end_node : s_is_node s n -> shows_end s n port (Ast.LNode (Ast.make_node_id n port))
| Shows_end_cluster : ~ s_is_node s n -> cluster s n -> port = [] -> shows_end s n port (Ast.LNode (Ast.NodeID n (Ast.Port [] [])))
| Shows_end_sub t : ~ s_is_node s n -> ~ cluster s n -> port = [] -> shows_sub s n t -> shows_end s n port (Ast.LSub t).
Inductive shows_edge (s : sgraph) (e : edge) : Ast.stmt -> Prop :=
| Shows_edge src dst l : shows_end s (e_src e) (e_src_port e) src -> shows_end s (e_dst e) (e_dst_port e) dst ->
    lists_attrs (e_attrs e) l -> shows_edge s e (Ast.SEdge src [Ast.EdgeRH (e_dir e) dst] [l]).

(** ** Which subgraphs are written *)
(** A child of a subgraph that is written as a nested subgraph. *)
Definition nested (s : sgraph) (p c : gostr) : Prop := is_child s p c /\ s_is_sub s c /\ ~ s_is_node s c.
Definition endpoint (s : sgraph) (n port : gostr) : Prop :=
  exists e, e ∈ s_edges s /\ ((n = e_src e /\ port = e_src_port e) \/ (n = e_dst e /\ port = e_dst_port e)).
(** The subgraphs from which writing starts: those of the main graph, and endpoints of edges. *)
Inductive starts (s : sgraph) (n : gostr) : Prop :=
| Starts_top : is_child s (s_name s) n -> s_is_sub s n -> starts s n
| Starts_end port : endpoint s n port -> s_is_sub s n -> ~ s_is_node s n -> ~ cluster s n -> starts s n.
Definition written (s : sgraph) (n : gostr) : Prop := exists r, starts s r /\ rtc (nested s) r n.

(** ** What cannot be written *)
Inductive bad_end (s : sgraph) (n port : gostr) : Prop :=
| Bad_unknown : ~ s_is_node s n -> ~ s_is_sub s n -> bad_end s n port
| Bad_port : ~ s_is_node s n -> s_is_sub s n -> port <> [] -> bad_end s n port.
Inductive unwritable (s : sgraph) : Prop :=
| Bad_edge n port : endpoint s n port -> bad_end s n port -> unwritable s
| Bad_child p c : written s p -> is_child s p c -> ~ s_is_node s c -> ~ s_is_sub s c -> unwritable s.
(** Messages *)
Definition complaint (s : sgraph) (e : err) : Prop :=
  (exists n, ~ s_is_node s n /\ ~ s_is_sub s n /\ e = n ++ lit " is not a node or a subgraph" /\
     ((exists port, endpoint s n port) \/ exists p, written s p /\ is_child s p n)) \/
  (exists n port, endpoint s n port /\ ~ s_is_node s n /\ s_is_sub s n /\ port <> [] /\ e = lit "subgraph cannot have a port: " ++ port).

(** No subgraph of the main graph has the name of a node. *)
Definition no_clash (s : sgraph) : Prop := forall n, s_is_sub s n -> s_is_node s n -> is_child s (s_name s) n -> False.
(** No subgraph that gets written contains itself. *)
Definition acyclic (s : sgraph) : Prop := forall n, written s n -> ~ tc (nested s) n n.

(** ** Occurrence in a tree *)
(** [t'] is [t] or a subgraph statement at any depth in it. *)
Inductive inside : Ast.subgraph -> Ast.subgraph -> Prop :=
| Inside_refl t : inside t t
| Inside_step id body t t' : Ast.SSub t ∈ body -> inside t t' -> inside (Ast.SubGraph id body) t'.
(** A subgraph occurs in a list of statements: as a statement or as an endpoint of an edge, or inside one of these. *)
Inductive occurs (l : list Ast.stmt) (t' : Ast.subgraph) : Prop :=
| Occurs_stmt t : Ast.SSub t ∈ l -> inside t t' -> occurs l t'
| Occurs_src t rhs a : Ast.SEdge (Ast.LSub t) rhs a ∈ l -> inside t t' -> occurs l t'
| Occurs_dst src op t a : Ast.SEdge src [Ast.EdgeRH op (Ast.LSub t)] a ∈ l -> inside t t' -> occurs l t'.
(** A statement occurs in a list of statements or in a subgraph that occurs there. *)
Definition occurs_stmt (l : list Ast.stmt) (st : Ast.stmt) : Prop :=
  st ∈ l \/ exists id body, occurs l (Ast.SubGraph id body) /\ st ∈ body.
