(** Model of /repo/graph.go with several graphs, whose containers may be shared: a Graph is a struct with
    references (graph.go:23-32), so [h := *g] and [h.Nodes = g.Nodes] make two graphs with the same containers.
    Simplification: what a container refers to (nodes, edges, subgraphs) is held by value in it, as in Graph.v; the
    methods of Graph never change an edge, and they change a node or subgraph only through the container that holds
    it (pointers that the caller keeps are in HeapGraph.v). *)
From Verif Require Import Maps Graph.

(** graph.go:23-32, a Graph with references to its map Attrs and to its four containers *)
Record gref := Gref {
  r_name : gostr; r_directed : bool; r_strict : bool;
  r_attrs : nat; r_nodes : nat; r_edges : nat; r_subs : nat; r_rels : nat }.
(** The Go heap: the maps Attrs, the containers, and the Graph structs, each kind by its reference *)
Record many := Many {
  m_attrs : list attrs; m_nodes : list nodes; m_edges : list edges; m_subs : list (gmap gostr sub); m_rels : list relations;
  m_graphs : list gref }.

Definition none_yet : many := Many [] [] [] [] [] [].

(** Dereference; a nil reference does not occur (Zero.v has these). *)
Definition the_graph (w : many) (i : nat) : gref := default (Gref [] false false 0 0 0 0 0) (m_graphs w !! i).
Definition the_attrs (w : many) (i : nat) : attrs := default ∅ (m_attrs w !! r_attrs (the_graph w i)).
Definition the_nodes (w : many) (i : nat) : nodes := default new_nodes (m_nodes w !! r_nodes (the_graph w i)).
Definition the_edges (w : many) (i : nat) : edges := default new_edges (m_edges w !! r_edges (the_graph w i)).
Definition the_subs (w : many) (i : nat) : gmap gostr sub := default ∅ (m_subs w !! r_subs (the_graph w i)).
Definition the_rels (w : many) (i : nat) : relations := default new_relations (m_rels w !! r_rels (the_graph w i)).

(** Writing to a container of graph [i], in place *)
Definition put_attrs (w : many) (i : nat) (x : attrs) : many :=
  Many (<[r_attrs (the_graph w i) := x]> (m_attrs w)) (m_nodes w) (m_edges w) (m_subs w) (m_rels w) (m_graphs w).
Definition put_nodes (w : many) (i : nat) (x : nodes) : many :=
  Many (m_attrs w) (<[r_nodes (the_graph w i) := x]> (m_nodes w)) (m_edges w) (m_subs w) (m_rels w) (m_graphs w).
Definition put_edges (w : many) (i : nat) (x : edges) : many :=
  Many (m_attrs w) (m_nodes w) (<[r_edges (the_graph w i) := x]> (m_edges w)) (m_subs w) (m_rels w) (m_graphs w).
Definition put_subs (w : many) (i : nat) (x : gmap gostr sub) : many :=
  Many (m_attrs w) (m_nodes w) (m_edges w) (<[r_subs (the_graph w i) := x]> (m_subs w)) (m_rels w) (m_graphs w).
Definition put_rels (w : many) (i : nat) (x : relations) : many :=
  Many (m_attrs w) (m_nodes w) (m_edges w) (m_subs w) (<[r_rels (the_graph w i) := x]> (m_rels w)) (m_graphs w).
(** Writing to the struct *)
Definition put_graph (w : many) (i : nat) (r : gref) : many :=
  Many (m_attrs w) (m_nodes w) (m_edges w) (m_subs w) (m_rels w) (<[i := r]> (m_graphs w)).
(** graph.go:109,118 and 167,176: [edges := NewEdges()], filled with [x], then [g.Edges = edges] *)
Definition renew_edges (w : many) (i : nat) (x : edges) : many :=
  let r := the_graph w i in
  put_graph (Many (m_attrs w) (m_nodes w) (m_edges w ++ [x]) (m_subs w) (m_rels w) (m_graphs w)) i
    (Gref (r_name r) (r_directed r) (r_strict r) (r_attrs r) (r_nodes r) (length (m_edges w)) (r_subs r) (r_rels r)).

(** graph.go:51-54 (SetStrict), 57-60 (SetDir), 63-66 (SetName) *)
Definition w_set_strict (w : many) (i : nat) (b : bool) : many :=
  let r := the_graph w i in
  put_graph w i (Gref (r_name r) (r_directed r) b (r_attrs r) (r_nodes r) (r_edges r) (r_subs r) (r_rels r)).
Definition w_set_dir (w : many) (i : nat) (b : bool) : many :=
  let r := the_graph w i in
  put_graph w i (Gref (r_name r) b (r_strict r) (r_attrs r) (r_nodes r) (r_edges r) (r_subs r) (r_rels r)).
Definition w_set_name (w : many) (i : nat) (n : gostr) : many :=
  let r := the_graph w i in
  put_graph w i (Gref n (r_directed r) (r_strict r) (r_attrs r) (r_nodes r) (r_edges r) (r_subs r) (r_rels r)).

(** graph.go:71-78 (AddPortEdge): NewAttrs, then g.Edges.Add *)
Definition w_add_port_edge (o : oracle) (w : many) (i : nat) (src src_port dst dst_port : gostr) (dir : bool) (m : attrs)
  : many * option err :=
  match new_attrs (o_attrs o 0 m) with
  | inr e => (w, Some e)
  | inl a => (put_edges w i (edges_add (the_edges w i) (Edge src src_port dst dst_port dir a)), None)
  end.
(** graph.go:83-85 (AddEdge) *)
Definition w_add_edge (o : oracle) (w : many) (i : nat) (src dst : gostr) (dir : bool) (m : attrs) : many * option err :=
  w_add_port_edge o w i src [] dst [] dir m.
(** graph.go:90-98 (AddNode): g.Nodes.Add, g.Relations.Add *)
Definition w_add_node (o : oracle) (w : many) (i : nat) (parent name : gostr) (m : attrs) : many * option err :=
  match new_attrs (o_attrs o 0 m) with
  | inr e => (w, Some e)
  | inl a =>
      let w1 := put_nodes w i (nodes_add (the_nodes w i) name a (o_attrs o 1 a)) in
      (put_rels w1 i (relations_add (the_rels w1 i) parent name), None)
  end.
(** graph.go:101-121 (RemoveNode): g.Nodes.Remove, g.Relations.Remove, then a new Edges *)
Definition w_remove_node (w : many) (i : nat) (parent name : gostr) : many * option err :=
  match nodes_remove (the_nodes w i) name with
  | (_, Some e) => (w, Some e)
  | (ns, None) =>
      let w1 := put_nodes w i ns in
      let w2 := put_rels w1 i (relations_remove (the_rels w1 i) parent name) in
      (renew_edges w2 i (filter_edges (fun e => negb (str_eqb (e_dst e) name || str_eqb (e_src e) name)) (the_edges w2 i)), None)
  end.
(** graph.go:123-141 (getAttrs and AddAttr): the map of the graph, or that of a subgraph, in place *)
Definition w_add_attr (w : many) (i : nat) (parent field value : gostr) : many * option err :=
  if str_eqb (r_name (the_graph w i)) parent then
    let '(a, e) := attrs_add (the_attrs w i) field value in (put_attrs w i a, e)
  else
    match the_subs w i !! parent with
    | None => (w, Some (lit "graph or subgraph " ++ parent ++ lit " does not exist"))
    | Some s =>
        let '(a, e) := attrs_add (sub_attrs s) field value in
        (put_subs w i (<[parent := Sub a (sub_name s)]> (the_subs w i)), e)
    end.
(** graph.go:147-151: the loop of AddSubGraph *)
Fixpoint w_add_attrs_loop (w : many) (i : nat) (name : gostr) (l : list (gostr * gostr)) : many * option err :=
  match l with
  | [] => (w, None)
  | (k, v) :: l' =>
      match w_add_attr w i name k v with
      | (w', None) => w_add_attrs_loop w' i name l'
      | (w', Some e) => (w', Some e)
      end
  end.
(** graph.go:144-153 (AddSubGraph) *)
Definition w_add_subgraph (o : oracle) (w : many) (i : nat) (parent name : gostr) (m : attrs) : many * option err :=
  let w1 := put_rels w i (relations_add (the_rels w i) parent name) in
  let w2 := put_subs w1 i (subs_add (the_subs w1 i) name) in
  w_add_attrs_loop w2 i name (o_attrs o 0 m).
(** graph.go:157-162: the loop of RemoveSubGraph *)
Fixpoint w_remove_nodes_loop (w : many) (i : nat) (parent : gostr) (l : list gostr) : many * option err :=
  match l with
  | [] => (w, None)
  | c :: l' =>
      match w_remove_node w i parent c with
      | (w', None) => w_remove_nodes_loop w' i parent l'
      | (w', Some e) => (w', Some e)
      end
  end.
(** graph.go:156-179 (RemoveSubGraph): g.Relations.Remove, g.SubGraphs.Remove, then a new Edges *)
Definition w_remove_subgraph (o : oracle) (w : many) (i : nat) (parent name : gostr) : many * option err :=
  match w_remove_nodes_loop w i parent (o_names o 0 (children (the_rels w i) name)) with
  | (w1, Some e) => (w1, Some e)
  | (w1, None) =>
      let w2 := put_rels w1 i (relations_remove (the_rels w1 i) parent name) in
      let w3 := put_subs w2 i (delete name (the_subs w2 i)) in
      (renew_edges w3 i (filter_edges (fun e =>
         negb (str_eqb (e_dst e) name || str_eqb (e_dst_port e) name || str_eqb (e_src e) name || str_eqb (e_src_port e) name))
         (the_edges w3 i)), None)
  end.

(** A call of a method on graph [i] *)
Definition w_exec (o : oracle) (c : call) (w : many) (i : nat) : many * option err :=
  match c with
  | CSetStrict b => (w_set_strict w i b, None)
  | CSetDir b => (w_set_dir w i b, None)
  | CSetName n => (w_set_name w i n, None)
  | CAddPortEdge s sp d dp dir m => w_add_port_edge o w i s sp d dp dir m
  | CAddEdge s d dir m => w_add_edge o w i s d dir m
  | CAddNode p n m => w_add_node o w i p n m
  | CAddAttr p f v => w_add_attr w i p f v
  | CAddSubGraph p n m => w_add_subgraph o w i p n m
  | CRemoveNode p n => w_remove_node w i p n
  | CRemoveSubGraph p n => w_remove_subgraph o w i p n
  end.

(** graph.go:35-46 (NewGraph): a map Attrs and four containers, all new *)
Definition w_new (w : many) : many :=
  Many (m_attrs w ++ [∅]) (m_nodes w ++ [new_nodes]) (m_edges w ++ [new_edges]) (m_subs w ++ [∅]) (m_rels w ++ [new_relations])
    (m_graphs w ++ [Gref [] false false (length (m_attrs w)) (length (m_nodes w)) (length (m_edges w)) (length (m_subs w)) (length (m_rels w))]).
(** The caller: [h := *g], which copies the struct (graph.go:23-32) *)
Definition w_copy (w : many) (i : nat) : many :=
  Many (m_attrs w) (m_nodes w) (m_edges w) (m_subs w) (m_rels w) (m_graphs w ++ [the_graph w i]).
(** The caller: [h.Attrs = g.Attrs], [h.Nodes = g.Nodes], ... for one of the fields of graph.go:23-32 *)
Inductive part := PAttrs | PNodes | PEdges | PSubGraphs | PRelations.
Definition w_assign (w : many) (p : part) (i j : nat) : many :=
  let h := the_graph w i in let g := the_graph w j in
  put_graph w i
    match p with
    | PAttrs => Gref (r_name h) (r_directed h) (r_strict h) (r_attrs g) (r_nodes h) (r_edges h) (r_subs h) (r_rels h)
    | PNodes => Gref (r_name h) (r_directed h) (r_strict h) (r_attrs h) (r_nodes g) (r_edges h) (r_subs h) (r_rels h)
    | PEdges => Gref (r_name h) (r_directed h) (r_strict h) (r_attrs h) (r_nodes h) (r_edges g) (r_subs h) (r_rels h)
    | PSubGraphs => Gref (r_name h) (r_directed h) (r_strict h) (r_attrs h) (r_nodes h) (r_edges h) (r_subs g) (r_rels h)
    | PRelations => Gref (r_name h) (r_directed h) (r_strict h) (r_attrs h) (r_nodes h) (r_edges h) (r_subs h) (r_rels g)
    end.

(** Histories *)
Inductive happening :=
| HNew                                     (* NewGraph() *)
| HCopy (i : nat)                          (* h := *g *)
| HAssign (p : part) (i j : nat)           (* h.P = g.P *)
| HCall (i : nat) (o : oracle) (c : call). (* g.M(...) *)
Definition happen (e : happening) (w : many) : many * list (option err) :=
  match e with
  | HNew => (w_new w, [])
  | HCopy i => (w_copy w i, [])
  | HAssign p i j => (w_assign w p i j, [])
  | HCall i o c => let '(w', r) := w_exec o c w i in (w', [r])
  end.
Fixpoint happens (es : list happening) (w : many) : many * list (option err) :=
  match es with
  | [] => (w, [])
  | e :: es' => let '(w1, r) := happen e w in let '(w2, rs) := happens es' w1 in (w2, r ++ rs)
  end.
(** The graphs that are talked about exist. *)
Definition exists_in (w : many) (e : happening) : Prop :=
  match e with
  | HNew => True
  | HCopy i | HCall i _ _ => i < length (m_graphs w)
  | HAssign _ i j => i < length (m_graphs w) /\ j < length (m_graphs w)
  end.
Fixpoint all_exist (es : list happening) (w : many) : Prop :=
  match es with [] => True | e :: es' => exists_in w e /\ all_exist es' (happen e w).1 end.
