(** Model of a program with several graphs (/repo/graph.go) that live on one heap (HeapGraph.v) and may come to have the same nodes and
    edges: the caller takes pointers from one graph and gives them to another, g.Nodes.Add(n) and g.Edges.Add(e).
    /repo/graph.go, nodes.go:56-64, edges.go:44-62.  Simplifications: those of HeapGraph.v; the caller has only the pointers
    that some graph has or has had, and maps of his own. *)
From Verif Require Import Maps Graph HeapGraph SpecHeap Direct.

(** graph.go:35-46 (NewGraph), on a heap that is in use *)
Definition h_new_graph_in (h : heap) : world :=
  let '(h1, l) := new_map h ∅ in
  let '(s, a) := alloc (narrs h1) [] in
  let h2 := with_narrs h1 s in
  let '(h3, es) := h_new_edges h2 in
  (h3, HGraph l [] false false (HNodes ∅ (Slice a 0)) es ∅ new_relations).
Definition empty_heap : heap := Heap empty_store empty_store empty_store empty_store empty_store empty_store.

(** nodes.go:56-64 (Add) of the node at [p]; [order] gives the order of the range loop in Extend. *)
Definition h_nodes_give (grow : nat -> nat) (order : attrs -> list (gostr * gostr)) (h : heap) (ns : hnodes) (p : nat) : heap * hnodes :=
  match hn_lookup ns !! no_name (at_node h p) with
  | Some q => (h_extend h (no_attrs (at_node h q)) (order (at_map h (no_attrs (at_node h p)))), ns)
  | None =>
      let '(t, x) := append1 grow (narrs h) (hn_nodes ns) p in
      (with_narrs h t, HNodes (<[no_name (at_node h p) := p]> (hn_lookup ns)) x)
  end.

(** The state: the heap, the graphs, the caller's maps.  Graphs and maps are named by the order in which they were made. *)
Record pool := Pool { p_heap : heap; p_graphs : list hgraph; p_mine : list nat }.
Definition nothing : pool := Pool empty_heap [] [].
Inductive pevent :=
| PNew                                                          (* NewGraph() *)
| PMake (m : attrs) | PSet (i : nat) (k v : gostr) | PDel (i : nat) (k : gostr)   (* the caller's maps *)
| PCall (i : nat) (grow : nat -> nat) (o : oracle) (c : hcall)  (* a method of graph [i] *)
| PGiveNode (i : nat) (grow : nat -> nat) (o : oracle) (p : nat)   (* graph [i]: g.Nodes.Add(p) *)
| PGiveEdge (i : nat) (grow : nat -> nat) (p : nat)             (* graph [i]: g.Edges.Add(p) *)
| PNodeAttr (o : oracle) (p : nat) (op : attr_op)               (* p.Attrs.Add(f, v), p.Attrs[f] = v, ..., p a *Node *)
| PEdgeAttr (o : oracle) (p : nat) (op : attr_op).              (* the same, p a *Edge *)
(** attrs.go:36-63, and statements a[f] = v, delete(a, f), on the map at [l]; AAssign fills the map anew (x.Attrs = m is in HeapEdit.v) *)
Definition h_attr_op (o : oracle) (op : attr_op) (h : heap) (l : nat) : heap * option err :=
  let '(a, r) := exec_attr o op (at_map h l) in (with_maps h (put (maps h) l a), r).
(** A pointer that no graph has had does nothing. *)
Definition pstep (e : pevent) (st : pool) : pool * list (option err) :=
  let '(Pool h gs mine) := st in
  match e with
  | PNew => let '(h1, g) := h_new_graph_in h in (Pool h1 (gs ++ [g]) mine, [])
  | PMake m => let '(h1, l) := new_map h m in (Pool h1 gs (mine ++ [l]), [])
  | PSet i k v => match mine !! i with Some l => (Pool (set_key h l k v) gs mine, []) | None => (st, []) end
  | PDel i k => match mine !! i with
                | Some l => (Pool (with_maps h (put (maps h) l (delete k (at_map h l)))) gs mine, [])
                | None => (st, []) end
  | PCall i grow o c =>
      match gs !! i with
      | Some g => let '(w, r) := hexec grow o (with_refs (ref_of mine) c) (h, g) in (Pool w.1 (<[i := w.2]> gs) mine, [r])
      | None => (st, [])
      end
  | PGiveNode i grow o p =>
      match gs !! i, cells (nobjs h) !! p with
      | Some g, Some _ => let '(h1, ns) := h_nodes_give grow (o_attrs o 0) h (hg_nodes g) p in
                          (Pool h1 (<[i := h_with_nodes g ns]> gs) mine, [None])
      | _, _ => (st, [])
      end
  | PGiveEdge i grow p =>
      match gs !! i, cells (eobjs h) !! p with
      | Some g, Some _ => let '(h1, es) := h_edges_add grow h (hg_edges g) p in
                          (Pool h1 (<[i := h_with_edges g es]> gs) mine, [None])
      | _, _ => (st, [])
      end
  | PNodeAttr o p op =>
      match cells (nobjs h) !! p with
      | Some n => let '(h1, r) := h_attr_op o op h (no_attrs n) in (Pool h1 gs mine, [r])
      | None => (st, [])
      end
  | PEdgeAttr o p op =>
      match cells (eobjs h) !! p with
      | Some e => let '(h1, r) := h_attr_op o op h (eo_attrs e) in (Pool h1 gs mine, [r])
      | None => (st, [])
      end
  end.
Fixpoint prun (es : list pevent) (st : pool) : pool * list (option err) :=
  match es with
  | [] => (st, [])
  | e :: es' => let '(st1, r) := pstep e st in let '(st2, rs) := prun es' st1 in (st2, r ++ rs)
  end.
