(** Specification of the mutating API of a graph: a plain abstract graph, independent of the indexes
    and pointers of the implementation, and what each call may do to it. *)
From Verif Require Import Maps Graph.

(** The abstract graph: finite maps from names to attributes for nodes and subgraphs, the names of
    the nodes in the order of their creation, the edges in the order of their creation, and the set
    of (parent, child) pairs. *)
Record sgraph := SGraph {
  s_name : gostr; s_directed : bool; s_strict : bool; s_attrs : attrs;
  s_nodes : gmap gostr attrs; s_order : list gostr;
  s_edges : list edge;
  s_subs : gmap gostr attrs;
  s_rels : gset (gostr * gostr) }.

Definition s_empty : sgraph := SGraph [] false false ∅ ∅ [] [] ∅ ∅.

Definition s_with_attrs (s : sgraph) (a : attrs) : sgraph :=
  SGraph (s_name s) (s_directed s) (s_strict s) a (s_nodes s) (s_order s) (s_edges s) (s_subs s) (s_rels s).
Definition s_with_edges (s : sgraph) (es : list edge) : sgraph :=
  SGraph (s_name s) (s_directed s) (s_strict s) (s_attrs s) (s_nodes s) (s_order s) es (s_subs s) (s_rels s).
Definition s_with_subs (s : sgraph) (ss : gmap gostr attrs) : sgraph :=
  SGraph (s_name s) (s_directed s) (s_strict s) (s_attrs s) (s_nodes s) (s_order s) (s_edges s) ss (s_rels s).
Definition s_with_rels (s : sgraph) (r : gset (gostr * gostr)) : sgraph :=
  SGraph (s_name s) (s_directed s) (s_strict s) (s_attrs s) (s_nodes s) (s_order s) (s_edges s) (s_subs s) r.

(** Attribute names. *)
Definition valid_attr (k : gostr) : Prop := k ∈ valid_attrs.
Definition all_valid (m : attrs) : Prop := forall k v, m !! k = Some v -> valid_attr k.
(** [e] is the complaint about some invalid name of [m]. *)
Definition bad_attr (m : attrs) (e : err) : Prop :=
  exists k v, m !! k = Some v /\ ~ valid_attr k /\ e = k ++ lit " is not a valid attribute".

(** A node gets the attributes [m], which win over the ones it has; it is created if it is missing. *)
Definition s_put_node (s : sgraph) (parent n : gostr) (m : attrs) : sgraph :=
  SGraph (s_name s) (s_directed s) (s_strict s) (s_attrs s)
    (<[n := m ∪ default ∅ (s_nodes s !! n)]> (s_nodes s))
    (match s_nodes s !! n with Some _ => s_order s | None => s_order s ++ [n] end)
    (s_edges s) (s_subs s) ({[(parent, n)]} ∪ s_rels s).

(** The edge touches none of the given nodes. *)
Definition avoids (N : names) (e : edge) : Prop := e_src e ∉ N /\ e_dst e ∉ N.
(** The edge mentions the subgraph [n] neither as an endpoint nor as a port. *)
Definition avoids_sub (n : gostr) (e : edge) : Prop :=
  e_src e <> n /\ e_dst e <> n /\ e_src_port e <> n /\ e_dst_port e <> n.
Global Instance avoids_dec N e : Decision (avoids N e).
Proof. unfold avoids. apply _. Defined.
Global Instance avoids_sub_dec n e : Decision (avoids_sub n e).
Proof. unfold avoids_sub. apply _. Defined.

(** The nodes [N] disappear with their edges and their relations to [parent]. *)
Definition s_drop_nodes (s : sgraph) (parent : gostr) (N : names) : sgraph :=
  SGraph (s_name s) (s_directed s) (s_strict s) (s_attrs s)
    (filter (fun kv => kv.1 ∉ N) (s_nodes s)) (filter (fun n => n ∉ N) (s_order s))
    (filter (avoids N) (s_edges s)) (s_subs s)
    (filter (fun pc => ~ (pc.1 = parent /\ pc.2 ∈ N)) (s_rels s)).

(** The attributes [m] are given to the graph or subgraph [n]; [n] is the graph itself if it has
    that name. *)
Definition s_put_attrs (s : sgraph) (n : gostr) (m : attrs) : sgraph :=
  if decide (s_name s = n) then s_with_attrs s (m ∪ s_attrs s)
  else s_with_subs s (<[n := m ∪ default ∅ (s_subs s !! n)]> (s_subs s)).

(** The subgraph [n] is registered. *)
Definition s_open_sub (s : sgraph) (parent n : gostr) : sgraph :=
  s_with_subs (s_with_rels s ({[(parent, n)]} ∪ s_rels s)) (<[n := default ∅ (s_subs s !! n)]> (s_subs s)).

Definition is_child (s : sgraph) (parent c : gostr) : Prop := (parent, c) ∈ s_rels s.
Definition s_is_node (s : sgraph) (n : gostr) : Prop := is_Some (s_nodes s !! n).
Definition s_is_sub (s : sgraph) (n : gostr) : Prop := is_Some (s_subs s !! n).

(** [spec_call c s s' r]: the call [c] on [s] may give [s'] and return [r] (None: nil). *)
Inductive spec_call : call -> sgraph -> sgraph -> option err -> Prop :=
| Sp_strict b s : spec_call (CSetStrict b) s
    (SGraph (s_name s) (s_directed s) b (s_attrs s) (s_nodes s) (s_order s) (s_edges s) (s_subs s) (s_rels s)) None
| Sp_dir b s : spec_call (CSetDir b) s
    (SGraph (s_name s) b (s_strict s) (s_attrs s) (s_nodes s) (s_order s) (s_edges s) (s_subs s) (s_rels s)) None
| Sp_name n s : spec_call (CSetName n) s
    (SGraph n (s_directed s) (s_strict s) (s_attrs s) (s_nodes s) (s_order s) (s_edges s) (s_subs s) (s_rels s)) None
| Sp_port_edge a pa b pb dir m s : all_valid m ->
    spec_call (CAddPortEdge a pa b pb dir m) s (s_with_edges s (s_edges s ++ [Edge a pa b pb dir m])) None
| Sp_port_edge_bad a pa b pb dir m s e : bad_attr m e -> spec_call (CAddPortEdge a pa b pb dir m) s s (Some e)
| Sp_edge a b dir m s : all_valid m ->
    spec_call (CAddEdge a b dir m) s (s_with_edges s (s_edges s ++ [Edge a [] b [] dir m])) None
| Sp_edge_bad a b dir m s e : bad_attr m e -> spec_call (CAddEdge a b dir m) s s (Some e)
| Sp_node p n m s : all_valid m -> spec_call (CAddNode p n m) s (s_put_node s p n m) None
| Sp_node_bad p n m s e : bad_attr m e -> spec_call (CAddNode p n m) s s (Some e)
| Sp_attr n f v s : valid_attr f -> s_name s = n \/ s_is_sub s n ->
    spec_call (CAddAttr n f v) s (s_put_attrs s n {[f := v]}) None
| Sp_attr_bad n f v s : ~ valid_attr f -> s_name s = n \/ s_is_sub s n ->
    spec_call (CAddAttr n f v) s s (Some (f ++ lit " is not a valid attribute"))
| Sp_attr_unknown n f v s : s_name s <> n -> ~ s_is_sub s n ->
    spec_call (CAddAttr n f v) s s (Some (lit "graph or subgraph " ++ n ++ lit " does not exist"))
| Sp_sub p n m s : all_valid m -> spec_call (CAddSubGraph p n m) s (s_put_attrs (s_open_sub s p n) n m) None
| Sp_sub_bad p n m m' s e : bad_attr m e -> m' ⊆ m -> all_valid m' ->
    spec_call (CAddSubGraph p n m) s (s_put_attrs (s_open_sub s p n) n m') (Some e)
| Sp_remove_node p n s : s_is_node s n -> spec_call (CRemoveNode p n) s (s_drop_nodes s p {[n]}) None
| Sp_remove_node_bad p n s : ~ s_is_node s n ->
    spec_call (CRemoveNode p n) s s (Some (lit "node " ++ n ++ lit " not found"))
| Sp_remove_sub p n s N : (forall c, c ∈ N <-> is_child s n c) -> (forall c, c ∈ N -> s_is_node s c) ->
    spec_call (CRemoveSubGraph p n) s
      (let s1 := s_drop_nodes s p N in
       s_with_edges (s_with_subs (s_with_rels s1 (s_rels s1 ∖ {[(p, n)]})) (delete n (s_subs s1)))
         (filter (avoids_sub n) (s_edges s1))) None
| Sp_remove_sub_bad p n s N c : is_child s n c -> ~ s_is_node s c -> (forall c, c ∈ N -> is_child s n c /\ s_is_node s c) ->
    spec_call (CRemoveSubGraph p n) s (s_drop_nodes s p N) (Some (lit "node " ++ c ++ lit " not found")).

(** ** What a user can observe of a graph *)
Definition rel_pairs (m : gmap gostr names) : gset (gostr * gostr) :=
  list_to_set (flat_map (fun pc => map (pair pc.1) (elements pc.2)) (map_to_list m)).
Definition view (g : agraph) : sgraph :=
  SGraph (g_name g) (g_directed g) (g_strict g) (g_attrs g)
    ((fun p => node_attrs (deref (g_nodes g) p)) <$> nodes_lookup (g_nodes g))
    (map (fun p => node_name (deref (g_nodes g) p)) (nodes_list (g_nodes g)))
    (edges_list (g_edges g))
    (sub_attrs <$> g_subs g)
    (rel_pairs (parent_to_children (g_rels g))).

(** Histories of calls, with the results they returned; each call has its own iteration orders. *)
Fixpoint run (h : list (oracle * call)) (g : agraph) : agraph * list (option err) :=
  match h with
  | [] => (g, [])
  | (o, c) :: h' => let '(g1, r) := exec o c g in let '(g2, rs) := run h' g1 in (g2, r :: rs)
  end.
Inductive spec_run : list call -> sgraph -> sgraph -> list (option err) -> Prop :=
| Sr_nil s : spec_run [] s s []
| Sr_cons c cs s s1 s2 r rs : spec_call c s s1 r -> spec_run cs s1 s2 rs -> spec_run (c :: cs) s s2 (r :: rs).
