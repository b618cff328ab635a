(** Model of what bypasses the methods of Graph: the exported methods of the containers a graph consists of,
    called directly (g.Nodes.Add(n), g.Edges.Add(e), g.SubGraphs.Remove(n), g.Attrs.Extend(m), ...), and assignments to
    attribute maps and to exported fields (g.Attrs[k] = v, delete(node.Attrs, k), edge.Attrs = m, edge.Dir = b, ...).
    /repo/nodes.go, edges.go, subgraphs.go, relations.go, attrs.go.
    Simplifications: a node or edge that is passed, and an attribute map that is assigned, has a map of its own that is not
    nil. Assignments to Graph.Name, Directed and Strict are those of SetName, SetDir and SetStrict. Not modelled:
    assignments to Node.Name, SubGraph.Name, Edge.Src and Edge.Dst, and to the containers themselves. *)
From Verif Require Import Maps Graph.

(** Whose attributes: g.Attrs, g.SubGraphs.SubGraphs[n].Attrs, g.Nodes.Lookup[n].Attrs, g.Edges.Edges[i].Attrs, p.Attrs where
    p is a *Node that the graph has or has had *)
Inductive attr_target := TGraph | TSub (n : gostr) | TNode (n : gostr) | TEdge (i : nat) | TPtr (p : nat).
(** attrs.go:36-43 (Add), 50-54 (Extend), 57-63 (Ammend); the statements a[f] = v, delete(a, f), x.Attrs = m *)
Inductive attr_op := AAdd (f v : gostr) | AExtend (m : attrs) | AAmmend (m : attrs) | ASet (f v : gostr) | ADelete (f : gostr) | AAssign (m : attrs).
Definition exec_attr (o : oracle) (op : attr_op) (a : attrs) : attrs * option err :=
  match op with
  | AAdd f v => attrs_add a f v
  | AExtend m => (extend a (o_attrs o 0 m), None)
  | AAmmend m => (ammend_attrs a (o_attrs o 0 m), None)
  | ASet f v => (<[f := v]> a, None)
  | ADelete f => (delete f a, None)
  | AAssign m => (m, None)
  end.

Inductive direct_call :=
| DNodesAdd (n : gostr) (a : attrs)        (* g.Nodes.Add(&Node{n, a}) *)
| DNodesAddOld (p : nat)                   (* g.Nodes.Add(p), p a *Node the set has had before, or has *)
| DNodesRemove (n : gostr)                 (* g.Nodes.Remove(n) *)
| DEdgesAdd (e : edge)                     (* g.Edges.Add(&e) *)
| DSubGraphsAdd (n : gostr)                (* g.SubGraphs.Add(n) *)
| DSubGraphsRemove (n : gostr)             (* g.SubGraphs.Remove(n) *)
| DRelationsAdd (parent child : gostr)     (* g.Relations.Add(parent, child) *)
| DRelationsRemove (parent child : gostr)  (* g.Relations.Remove(parent, child) *)
| DAttrs (t : attr_target) (op : attr_op)  (* Attrs.Add, Extend, Ammend; assignments *)
| DEdgeFields (i : nat) (sp dp : gostr) (dir : bool). (* e := g.Edges.Edges[i]; e.SrcPort, e.DstPort, e.Dir = sp, dp, dir *)

(** nodes.go:56-64 (Add) with a pointer that is in the heap already. If Lookup has a node with its name, that node gets
    the attributes of [p] (attrs.go:50-54); if it is [p] itself, its map is extended while it is ranged over, with the
    entries it has. *)
Definition nodes_add_old (ns : nodes) (p : nat) (l : list (gostr * gostr)) : nodes :=
  let nd := deref ns p in
  match nodes_lookup ns !! node_name nd with
  | Some q =>
      let n := deref ns q in
      Nodes (nodes_lookup ns) (nodes_list ns)
            (<[q := Node (node_name n) (extend (node_attrs n) l)]> (nodes_heap ns)) (nodes_next ns)
  | None => Nodes (<[node_name nd := p]> (nodes_lookup ns)) (nodes_list ns ++ [p]) (nodes_heap ns) (nodes_next ns)
  end.
(** The attributes of the node that [p] points to are replaced. *)
Definition nodes_set_attrs (ns : nodes) (p : nat) (a : attrs) : nodes :=
  Nodes (nodes_lookup ns) (nodes_list ns) (<[p := Node (node_name (deref ns p)) a]> (nodes_heap ns)) (nodes_next ns).

(** The [i]-th edge is changed into [e], which has the same ends.  It is one *Edge (edges.go:32-36, 44-62) in the slice Edges and in the
    two indices; there it stands at the place of the edges before it with the same ends. *)
Definition same_ends (e e' : edge) : bool := str_eqb (e_src e) (e_src e') && str_eqb (e_dst e) (e_dst e').
Definition set2 (m : gmap gostr (gmap gostr (list edge))) (a b : gostr) (j : nat) (e : edge) : gmap gostr (gmap gostr (list edge)) :=
  let inner := default ∅ (m !! a) in
  <[a := <[b := <[j := e]> (default [] (inner !! b))]> inner]> m.
Definition edges_set (es : edges) (i : nat) (e : edge) : edges :=
  let j := length (List.filter (same_ends e) (take i (edges_list es))) in
  Edges (set2 (src_to_dsts es) (e_src e) (e_dst e) j e) (set2 (dst_to_srcs es) (e_dst e) (e_src e) j e) (<[i := e]> (edges_list es)).
(** The pointers that the caller goes through are not nil, the index is in range. *)
Definition possible (g : agraph) (d : direct_call) : Prop :=
  match d with
  | DNodesAddOld p | DAttrs (TPtr p) _ => is_Some (nodes_heap (g_nodes g) !! p)
  | DAttrs (TSub n) _ => is_Some (g_subs g !! n)
  | DAttrs (TNode n) _ => is_Some (nodes_lookup (g_nodes g) !! n)
  | DAttrs (TEdge i) _ | DEdgeFields i _ _ _ => is_Some (edges_list (g_edges g) !! i)
  | _ => True
  end.
Definition exec_direct (o : oracle) (d : direct_call) (g : agraph) : agraph * option err :=
  match d with
  | DNodesAdd n a => (with_nodes g (nodes_add (g_nodes g) n a (o_attrs o 0 a)), None)
  | DNodesAddOld p => (with_nodes g (nodes_add_old (g_nodes g) p (o_attrs o 0 (node_attrs (deref (g_nodes g) p)))), None)
  | DNodesRemove n => let '(ns, r) := nodes_remove (g_nodes g) n in (with_nodes g ns, r)
  | DEdgesAdd e => (with_edges g (edges_add (g_edges g) e), None)
  | DSubGraphsAdd n => (with_subs g (subs_add (g_subs g) n), None)
  (* subgraphs.go:53-55 *)
  | DSubGraphsRemove n => (with_subs g (delete n (g_subs g)), None)
  | DRelationsAdd p c => (with_rels g (relations_add (g_rels g) p c), None)
  | DRelationsRemove p c => (with_rels g (relations_remove (g_rels g) p c), None)
  | DAttrs TGraph op => let '(a, r) := exec_attr o op (g_attrs g) in (with_attrs g a, r)
  | DAttrs (TSub n) op =>
      match g_subs g !! n with
      | Some sb => let '(a, r) := exec_attr o op (sub_attrs sb) in (with_subs g (<[n := Sub a (sub_name sb)]> (g_subs g)), r)
      | None => (g, None) (* not possible *)
      end
  | DAttrs (TNode n) op =>
      match nodes_lookup (g_nodes g) !! n with
      | Some p => let '(a, r) := exec_attr o op (node_attrs (deref (g_nodes g) p)) in (with_nodes g (nodes_set_attrs (g_nodes g) p a), r)
      | None => (g, None) (* not possible *)
      end
  | DAttrs (TPtr p) op =>
      let '(a, r) := exec_attr o op (node_attrs (deref (g_nodes g) p)) in (with_nodes g (nodes_set_attrs (g_nodes g) p a), r)
  | DAttrs (TEdge i) op =>
      match edges_list (g_edges g) !! i with
      | Some e => let '(a, r) := exec_attr o op (e_attrs e) in
          (with_edges g (edges_set (g_edges g) i (Edge (e_src e) (e_src_port e) (e_dst e) (e_dst_port e) (e_dir e) a)), r)
      | None => (g, None) (* not possible *)
      end
  | DEdgeFields i sp dp dir =>
      match edges_list (g_edges g) !! i with
      | Some e => (with_edges g (edges_set (g_edges g) i (Edge (e_src e) sp (e_dst e) dp dir (e_attrs e))), None)
      | None => (g, None) (* not possible *)
      end
  end.

(** Graphs that come from any history of calls of methods of Graph and of its containers. *)
Inductive built : agraph -> Prop :=
| built_new : built new_graph
| built_call g o c : built g -> fair o -> built (exec o c g).1
| built_direct g o d : built g -> fair o -> possible g d -> built (exec_direct o d g).1.
Lemma reachable_built g : reachable g -> built g.
Proof. induction 1 as [|g o c R IH Fo]; [constructor|]. apply built_call; assumption. Qed.
