(** Model of /repo/graph.go, nodes.go, edges.go, subgraphs.go and relations.go: the analysed graph
    and its mutating API. *)
From Verif Require Import Maps.

(** ** Nodes, nodes.go.  *Node pointers are addresses in a heap, so that the sharing between the
    map Lookup and the slice Nodes is modelled. *)

(** nodes.go:22-25 *)
Record node := Node { node_name : gostr; node_attrs : attrs }.
(** nodes.go:28-31; [nodes_heap] and [nodes_next] stand for the Go heap. *)
Record nodes := Nodes {
  nodes_lookup : gmap gostr nat;
  nodes_list : list nat;
  nodes_heap : gmap nat node;
  nodes_next : nat }.

(** nodes.go:35-37 (NewNodes) *)
Definition new_nodes : nodes := Nodes ∅ [] ∅ 0.

(** Dereference; the pointers of Lookup and Nodes always point to a node. *)
Definition deref (ns : nodes) (p : nat) : node := default (Node [] ∅) (nodes_heap ns !! p).

(** nodes.go:40-53 (Remove): the loop over the slice, from index [length pre]. *)
Fixpoint nodes_remove_loop (ns : nodes) (name : gostr) (pre post : list nat) : nodes * option err :=
  match post with
  | [] => (ns, Some (lit "node " ++ name ++ lit " not found"))
  | p :: post' =>
      if str_eqb (node_name (deref ns p)) name
      then (Nodes (delete name (nodes_lookup ns)) (pre ++ post') (nodes_heap ns) (nodes_next ns), None)
      else nodes_remove_loop ns name (pre ++ [p]) post'
  end.
Definition nodes_remove (ns : nodes) (name : gostr) : nodes * option err :=
  nodes_remove_loop ns name [] (nodes_list ns).

(** nodes.go:56-64 (Add); the argument is a newly allocated node with attributes [a];
    [l] is the iteration order of [range more] in Extend. *)
Definition nodes_add (ns : nodes) (name : gostr) (a : attrs) (l : list (gostr * gostr)) : nodes :=
  match nodes_lookup ns !! name with
  | Some p =>
      let n := deref ns p in
      Nodes (nodes_lookup ns) (nodes_list ns)
            (<[p := Node (node_name n) (extend (node_attrs n) l)]> (nodes_heap ns)) (nodes_next ns)
  | None =>
      let p := nodes_next ns in
      Nodes (<[name := p]> (nodes_lookup ns)) (nodes_list ns ++ [p])
            (<[p := Node name a]> (nodes_heap ns)) (S p)
  end.

(** ** Edges, edges.go.  *Edge pointers are modelled by the (never modified) edges themselves. *)

(** edges.go:22-29 *)
Record edge := Edge {
  e_src : gostr; e_src_port : gostr; e_dst : gostr; e_dst_port : gostr; e_dir : bool; e_attrs : attrs }.
(** edges.go:32-36 *)
Record edges := Edges {
  src_to_dsts : gmap gostr (gmap gostr (list edge));
  dst_to_srcs : gmap gostr (gmap gostr (list edge));
  edges_list : list edge }.

(** edges.go:39-41 (NewEdges) *)
Definition new_edges : edges := Edges ∅ ∅ [].

(** edges.go:45-51, 53-59: m[a][b] = append(m[a][b], e), creating what is missing. *)
Definition add2 (m : gmap gostr (gmap gostr (list edge))) (a b : gostr) (e : edge) : gmap gostr (gmap gostr (list edge)) :=
  let inner := default ∅ (m !! a) in
  let l := default [] (inner !! b) in
  <[a := <[b := l ++ [e]]> inner]> m.

(** edges.go:44-62 (Add) *)
Definition edges_add (es : edges) (e : edge) : edges :=
  Edges (add2 (src_to_dsts es) (e_src e) (e_dst e) e)
        (add2 (dst_to_srcs es) (e_dst e) (e_src e) e)
        (edges_list es ++ [e]).

(** ** Relations, relations.go (the inner map[string]bool only ever holds true) *)
Record relations := Relations { parent_to_children : gmap gostr names; child_to_parents : gmap gostr names }.
(** relations.go:29-31 *)
Definition new_relations : relations := Relations ∅ ∅.
(** relations.go:35-38, 39-42 *)
Definition rel_insert (m : gmap gostr names) (a b : gostr) : gmap gostr names :=
  <[a := {[b]} ∪ default ∅ (m !! a)]> m.
(** relations.go:34-43 (Add) *)
Definition relations_add (r : relations) (parent child : gostr) : relations :=
  Relations (rel_insert (parent_to_children r) parent child) (rel_insert (child_to_parents r) child parent).
(** relations.go:47-49, 51-53 *)
Definition rel_delete (m : gmap gostr names) (a b : gostr) : gmap gostr names :=
  match m !! a with Some s => <[a := s ∖ {[b]}]> m | None => m end.
(** relations.go:46-54 (Remove) *)
Definition relations_remove (r : relations) (parent child : gostr) : relations :=
  Relations (rel_delete (parent_to_children r) parent child) (rel_delete (child_to_parents r) child parent).
(** The children ranged over by relations.go:59 and graph.go:157 (a missing map is empty). *)
Definition children (r : relations) (parent : gostr) : names := default ∅ (parent_to_children r !! parent).

(** ** SubGraphs, subgraphs.go (a *SubGraph is referenced only from the map) *)
(** subgraphs.go:22-25 *)
Record sub := Sub { sub_attrs : attrs; sub_name : gostr }.
(** subgraphs.go:46-50 (Add), 28-33 (NewSubGraph) *)
Definition subs_add (m : gmap gostr sub) (name : gostr) : gmap gostr sub :=
  match m !! name with Some _ => m | None => <[name := Sub ∅ name]> m end.

(** ** Graph, graph.go *)
(** graph.go:23-32 *)
Record agraph := AGraph {
  g_attrs : attrs; g_name : gostr; g_directed : bool; g_strict : bool;
  g_nodes : nodes; g_edges : edges; g_subs : gmap gostr sub; g_rels : relations }.

(** graph.go:35-46 (NewGraph) *)
Definition new_graph : agraph := AGraph ∅ [] false false new_nodes new_edges ∅ new_relations.

(** graph.go:51-54 (SetStrict), 57-60 (SetDir), 63-66 (SetName) *)
Definition set_strict (g : agraph) (b : bool) : agraph :=
  AGraph (g_attrs g) (g_name g) (g_directed g) b (g_nodes g) (g_edges g) (g_subs g) (g_rels g).
Definition set_dir (g : agraph) (b : bool) : agraph :=
  AGraph (g_attrs g) (g_name g) b (g_strict g) (g_nodes g) (g_edges g) (g_subs g) (g_rels g).
Definition set_name (g : agraph) (n : gostr) : agraph :=
  AGraph (g_attrs g) n (g_directed g) (g_strict g) (g_nodes g) (g_edges g) (g_subs g) (g_rels g).
Definition with_nodes (g : agraph) (ns : nodes) : agraph :=
  AGraph (g_attrs g) (g_name g) (g_directed g) (g_strict g) ns (g_edges g) (g_subs g) (g_rels g).
Definition with_edges (g : agraph) (es : edges) : agraph :=
  AGraph (g_attrs g) (g_name g) (g_directed g) (g_strict g) (g_nodes g) es (g_subs g) (g_rels g).
Definition with_subs (g : agraph) (ss : gmap gostr sub) : agraph :=
  AGraph (g_attrs g) (g_name g) (g_directed g) (g_strict g) (g_nodes g) (g_edges g) ss (g_rels g).
Definition with_rels (g : agraph) (r : relations) : agraph :=
  AGraph (g_attrs g) (g_name g) (g_directed g) (g_strict g) (g_nodes g) (g_edges g) (g_subs g) r.
Definition with_attrs (g : agraph) (a : attrs) : agraph :=
  AGraph a (g_name g) (g_directed g) (g_strict g) (g_nodes g) (g_edges g) (g_subs g) (g_rels g).

(** graph.go:71-78 (AddPortEdge) *)
Definition add_port_edge (o : oracle) (g : agraph) (src src_port dst dst_port : gostr) (dir : bool) (m : attrs)
  : agraph * option err :=
  match new_attrs (o_attrs o 0 m) with
  | inr e => (g, Some e)
  | inl a => (with_edges g (edges_add (g_edges g) (Edge src src_port dst dst_port dir a)), None)
  end.
(** graph.go:83-85 (AddEdge) *)
Definition add_edge (o : oracle) (g : agraph) (src dst : gostr) (dir : bool) (m : attrs) : agraph * option err :=
  add_port_edge o g src [] dst [] dir m.
(** graph.go:90-98 (AddNode) *)
Definition add_node (o : oracle) (g : agraph) (parent name : gostr) (m : attrs) : agraph * option err :=
  match new_attrs (o_attrs o 0 m) with
  | inr e => (g, Some e)
  | inl a =>
      let g1 := with_nodes g (nodes_add (g_nodes g) name a (o_attrs o 1 a)) in
      (with_rels g1 (relations_add (g_rels g1) parent name), None)
  end.
(** graph.go:109-118: copy the edges that satisfy [keep] into a new set of edges. *)
Definition filter_edges (keep : edge -> bool) (es : edges) : edges :=
  fold_left (fun acc e => if keep e then edges_add acc e else acc) (edges_list es) new_edges.
(** graph.go:101-121 (RemoveNode) *)
Definition remove_node (g : agraph) (parent name : gostr) : agraph * option err :=
  match nodes_remove (g_nodes g) name with
  | (_, Some e) => (g, Some e)
  | (ns, None) =>
      let g1 := with_nodes g ns in
      let g2 := with_rels g1 (relations_remove (g_rels g1) parent name) in
      (with_edges g2 (filter_edges (fun e => negb (str_eqb (e_dst e) name || str_eqb (e_src e) name)) (g_edges g2)), None)
  end.
(** graph.go:123-141 (getAttrs and AddAttr) *)
Definition add_attr (g : agraph) (parent field value : gostr) : agraph * option err :=
  if str_eqb (g_name g) parent then
    let '(a, e) := attrs_add (g_attrs g) field value in (with_attrs g a, e)
  else
    match g_subs g !! parent with
    | None => (g, Some (lit "graph or subgraph " ++ parent ++ lit " does not exist"))
    | Some s =>
        let '(a, e) := attrs_add (sub_attrs s) field value in
        (with_subs g (<[parent := Sub a (sub_name s)]> (g_subs g)), e)
    end.
(** graph.go:147-151: the loop of AddSubGraph, stopping at the first error *)
Fixpoint add_attrs_loop (g : agraph) (name : gostr) (l : list (gostr * gostr)) : agraph * option err :=
  match l with
  | [] => (g, None)
  | (k, v) :: l' =>
      match add_attr g name k v with
      | (g', None) => add_attrs_loop g' name l'
      | (g', Some e) => (g', Some e)
      end
  end.
(** graph.go:144-153 (AddSubGraph) *)
Definition add_subgraph (o : oracle) (g : agraph) (parent name : gostr) (m : attrs) : agraph * option err :=
  let g1 := with_rels g (relations_add (g_rels g) parent name) in
  let g2 := with_subs g1 (subs_add (g_subs g1) name) in
  add_attrs_loop g2 name (o_attrs o 0 m).
(** graph.go:157-162: the loop of RemoveSubGraph.  Deleting the current key of the map being
    ranged over does not disturb a range loop. *)
Fixpoint remove_nodes_loop (g : agraph) (parent : gostr) (l : list gostr) : agraph * option err :=
  match l with
  | [] => (g, None)
  | c :: l' =>
      match remove_node g parent c with
      | (g', None) => remove_nodes_loop g' parent l'
      | (g', Some e) => (g', Some e)
      end
  end.
(** graph.go:156-179 (RemoveSubGraph) *)
Definition remove_subgraph (o : oracle) (g : agraph) (parent name : gostr) : agraph * option err :=
  match remove_nodes_loop g parent (o_names o 0 (children (g_rels g) name)) with
  | (g1, Some e) => (g1, Some e)
  | (g1, None) =>
      let g2 := with_rels g1 (relations_remove (g_rels g1) parent name) in
      let g3 := with_subs g2 (delete name (g_subs g2)) in
      (with_edges g3 (filter_edges (fun e =>
         negb (str_eqb (e_dst e) name || str_eqb (e_dst_port e) name || str_eqb (e_src e) name || str_eqb (e_src_port e) name))
         (g_edges g3)), None)
  end.

(** graph.go:182-185 (IsNode), 188-191 (IsSubGraph), 193-197 (isClusterSubGraph) *)
Definition is_node (g : agraph) (name : gostr) : bool :=
  match nodes_lookup (g_nodes g) !! name with Some _ => true | None => false end.
Definition is_subgraph (g : agraph) (name : gostr) : bool :=
  match g_subs g !! name with Some _ => true | None => false end.
Definition is_cluster (g : agraph) (name : gostr) : bool :=
  is_subgraph g name && has_prefix name (lit "cluster").

(** ** Histories of API calls (the methods of Interface, gographviz.go:24-34, and the two removals) *)
Inductive call :=
| CSetStrict (b : bool) | CSetDir (b : bool) | CSetName (n : gostr)
| CAddPortEdge (src src_port dst dst_port : gostr) (dir : bool) (m : attrs)
| CAddEdge (src dst : gostr) (dir : bool) (m : attrs)
| CAddNode (parent name : gostr) (m : attrs)
| CAddAttr (parent field value : gostr)
| CAddSubGraph (parent name : gostr) (m : attrs)
| CRemoveNode (parent name : gostr)
| CRemoveSubGraph (parent name : gostr).

Definition exec (o : oracle) (c : call) (g : agraph) : agraph * option err :=
  match c with
  | CSetStrict b => (set_strict g b, None)
  | CSetDir b => (set_dir g b, None)
  | CSetName n => (set_name g n, None)
  | CAddPortEdge s sp d dp dir m => add_port_edge o g s sp d dp dir m
  | CAddEdge s d dir m => add_edge o g s d dir m
  | CAddNode p n m => add_node o g p n m
  | CAddAttr p f v => add_attr g p f v
  | CAddSubGraph p n m => add_subgraph o g p n m
  | CRemoveNode p n => remove_node g p n
  | CRemoveSubGraph p n => remove_subgraph o g p n
  end.

(** The graphs that API histories can produce, from NewGraph(); the caller may ignore errors. *)
Inductive reachable : agraph -> Prop :=
| reach_new : reachable new_graph
| reach_call g o c : reachable g -> fair o -> reachable (exec o c g).1.

(** ** Sorted views *)
(** nodes.go:67-78 (Nodes.Sorted); [i] numbers the range loop *)
Definition nodes_sorted (o : oracle) (i : nat) (ns : nodes) : list node :=
  map (fun k => deref ns (default 0 (nodes_lookup ns !! k))) (sorted_keys (o_names o i (keys (nodes_lookup ns)))).
(** subgraphs.go:58-69 (SubGraphs.Sorted) *)
Definition subs_sorted (o : oracle) (i : nat) (m : gmap gostr sub) : list sub :=
  map (fun k => default (Sub ∅ []) (m !! k)) (sorted_keys (o_names o i (keys m))).
(** relations.go:57-64 (SortedChildren) *)
Definition sorted_children (o : oracle) (i : nat) (r : relations) (parent : gostr) : list gostr :=
  sorted_keys (o_names o i (children r parent)).
