(** Specification for C73: what stands at the top level of the written graph, exactly, and which error is reported;
    on the abstract graph of SpecGraph, with the notions of SpecWrite.  Nodes and subgraphs may share names. *)
From stdpp Require Import sorting.
From Verif Require Import Maps Graph SpecGraph SpecWrite.
From Verif Require Ast.

(** ** Names that the text of a subgraph shows *)
(** The text of the subgraph [r] shows [n]: [n] is a subgraph written in it (or [r] itself), or a child of one. *)
Definition mentions (s : sgraph) (r n : gostr) : Prop := exists p, rtc (nested s) r p /\ (n = p \/ is_child s p n).
(** The subgraph [r] is written as the end of an edge. *)
Definition edge_start (s : sgraph) (r : gostr) : Prop :=
  exists port, endpoint s r port /\ s_is_sub s r /\ ~ s_is_node s r /\ ~ cluster s r.

(** ** The subgraph statements of the top level *)
(** The direct subgraphs of the main graph, in order, without those that the edges or an earlier one of these
    statements show already. *)
Definition top_subgraphs (s : sgraph) (T : list gostr) : Prop :=
  StronglySorted before T /\
  forall n, n ∈ T <-> s_is_sub s n /\ is_child s (s_name s) n /\
    (forall r, edge_start s r -> ~ mentions s r n) /\ (forall r, r ∈ T -> before r n -> ~ mentions s r n).
(** What is written at all, when [T] are the statements of the top level. *)
Definition is_written (s : sgraph) (T : list gostr) (n : gostr) : Prop := exists r, (edge_start s r \/ r ∈ T) /\ rtc (nested s) r n.
Definition is_shown (s : sgraph) (T : list gostr) (n : gostr) : Prop := exists r, (edge_start s r \/ r ∈ T) /\ mentions s r n.
(** The node statements of the top level: the nodes that nothing shows yet, in order. *)
Definition top_nodes (s : sgraph) (T N : list gostr) : Prop := lists_names (fun n => s_is_node s n /\ ~ is_shown s T n) N.

(** ** When writing fails or does not end *)
Inductive faulty (s : sgraph) (T : list gostr) : Prop :=
| Faulty_edge n port : endpoint s n port -> bad_end s n port -> faulty s T
| Faulty_child p c : is_written s T p -> is_child s p c -> ~ s_is_node s c -> ~ s_is_sub s c -> faulty s T.
Definition loops (s : sgraph) (T : list gostr) : Prop := exists n, is_written s T n /\ tc (nested s) n n.

(** ** The first error *)
Definition unknown (s : sgraph) (n : gostr) : Prop := ~ s_is_node s n /\ ~ s_is_sub s n.
Definition unknown_text (n : gostr) : err := n ++ lit " is not a node or a subgraph".
(** [fails s n e]: the children of the subgraph [n] are visited in order; those before one of them have a text, this
    one is unknown or a subgraph that fails. *)
Inductive fails (s : sgraph) : gostr -> err -> Prop :=
| Fails_here n cs c cs' : s_is_sub s n -> lists_names (is_child s n) (cs ++ c :: cs') ->
    (forall x, x ∈ cs -> exists st, shows s x st) -> unknown s c -> fails s n (unknown_text c)
| Fails_below n cs c cs' e : s_is_sub s n -> lists_names (is_child s n) (cs ++ c :: cs') ->
    (forall x, x ∈ cs -> exists st, shows s x st) -> nested s n c -> fails s c e -> fails s n e.
(** The end of an edge. *)
Inductive end_fails (s : sgraph) (n port : gostr) : err -> Prop :=
| End_unknown : unknown s n -> end_fails s n port (unknown_text n)
| End_port : ~ s_is_node s n -> s_is_sub s n -> port <> [] -> end_fails s n port (lit "subgraph cannot have a port: " ++ port)
| End_sub e : ~ s_is_node s n -> ~ cluster s n -> port = [] -> fails s n e -> end_fails s n port e.
(** An edge: first its source. *)
Inductive edge_fails (s : sgraph) (e : edge) : err -> Prop :=
| Edge_src x : end_fails s (e_src e) (e_src_port e) x -> edge_fails s e x
| Edge_dst l x : shows_end s (e_src e) (e_src_port e) l -> end_fails s (e_dst e) (e_dst_port e) x -> edge_fails s e x.
(** The whole graph: first the edges, in the order [es], then the subgraphs of the top level. *)
Inductive first_error (s : sgraph) (T : list gostr) (es : list edge) : err -> Prop :=
| First_edge es1 e es2 x : es = es1 ++ e :: es2 -> (forall y, y ∈ es1 -> exists st, shows_edge s y st) ->
    edge_fails s e x -> first_error s T es x
| First_sub T1 n T2 x : (forall y, y ∈ es -> exists st, shows_edge s y st) -> T = T1 ++ n :: T2 ->
    (forall y, y ∈ T1 -> exists t, shows_sub s y t) -> fails s n x -> first_error s T es x.
