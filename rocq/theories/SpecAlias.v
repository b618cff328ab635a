(** Specification for HeapAlias.v: who shares a map with whom, which map an event changes and to what. *)
From Verif Require Import Maps Graph HeapGraph SpecHeap HeapEdit SpecHeapEdit Direct HeapAlias.

(** ** Where maps are referred to: the field Attrs of something, a map variable of the caller *)
Inductive site := At (x : owner) | Mine (i : nat).
Definition map_of (st : world * list nat) (s : site) : option nat := match s with At x => ref st.1.1 st.1.2 x | Mine i => st.2 !! i end.
Definition there (st : world * list nat) (s : site) : Prop := is_Some (map_of st s).
(** Two sites refer to the same map. *)
Definition together (st : world * list nat) (s t : site) : Prop := there st s /\ map_of st s = map_of st t.
(** What is seen at a site. *)
Definition content (st : world * list nat) (s : site) : attrs := match map_of st s with Some l => at_map st.1.1 l | None => ∅ end.

(** ** A graph by value without its attributes *)
Definition bare_node (n : node) : node := Node (node_name n) ∅.
Definition bare_edge (e : edge) : edge := Edge (e_src e) (e_src_port e) (e_dst e) (e_dst_port e) (e_dir e) ∅.
Definition bare_sub (s : sub) : sub := Sub ∅ (sub_name s).
Definition bare_index (m : gmap gostr (gmap gostr (list edge))) : gmap gostr (gmap gostr (list edge)) :=
  (fun inner : gmap gostr (list edge) => map bare_edge <$> inner) <$> m.
Definition bare (g : agraph) : agraph :=
  AGraph ∅ (g_name g) (g_directed g) (g_strict g)
    (Nodes (nodes_lookup (g_nodes g)) (nodes_list (g_nodes g)) (bare_node <$> nodes_heap (g_nodes g)) (nodes_next (g_nodes g)))
    (Edges (bare_index (src_to_dsts (g_edges g))) (bare_index (dst_to_srcs (g_edges g))) (map bare_edge (edges_list (g_edges g))))
    (bare_sub <$> g_subs g) (g_rels g).
(** The attributes at a place of a graph by value. *)
Definition attrs_at (g : agraph) (t : attr_target) : attrs :=
  match t with
  | TGraph => g_attrs g
  | TSub n => default ∅ (sub_attrs <$> g_subs g !! n)
  | TNode n => default ∅ ((fun p => node_attrs (deref (g_nodes g) p)) <$> nodes_lookup (g_nodes g) !! n)
  | TEdge i => default ∅ (e_attrs <$> edges_list (g_edges g) !! i)
  | TPtr p => node_attrs (deref (g_nodes g) p)
  end.

(** ** What an event changes *)
(** AddAttr and AddSubGraph with the name [n]: the graph, or the subgraph if there is one of that name (graph.go:123-130). *)
Definition named (w : world) (n : gostr) : option (owner * attr_target) :=
  if decide (hg_name w.2 = n) then Some (OGraph, TGraph) else (fun p => (OSub p, TSub n)) <$> hg_subs w.2 !! n.
(** The element that is there already and whose attributes a call adds to, and its place. *)
Definition adds_to (w : world) (c : hcall) : option (owner * attr_target) :=
  match c with
  | HAddNode _ n _ => (fun p => (ONode p, TPtr p)) <$> hn_lookup (hg_nodes w.2) !! n
  | HAddAttr n _ _ => named w n
  | HAddSubGraph _ n _ => named w n
  | _ => None
  end.
(** The site whose map an event changes, and what the map is then. For a call this is what the attributes of the element are after the same
    call on the graph by value. *)
Definition changes (st : world * list nat) (e : aevent) : option (site * attrs) :=
  let env := map (at_map st.1.1) st.2 in
  match e with
  | AEvent (XEvent (ECall _ o c)) =>
      (fun xt : owner * attr_target => (At xt.1, attrs_at (exec o (with_contents (content_of env) c) (abs st.1)).1 xt.2)) <$> adds_to st.1 c
  | AEvent (XEvent (ESet i k v)) => Some (Mine i, <[k := v]> (content st (Mine i)))
  | AEvent (XEvent (EDel i k)) => Some (Mine i, delete k (content st (Mine i)))
  | AEvent (XEdit _ (WNew _ _)) => None
  | AEvent (XEdit o e) => (fun xo : owner * attr_op => (At xo.1, (exec_attr o xo.2 (content st (At xo.1))).1)) <$> op_of env e
  | _ => None
  end.
(** The site that an event makes refer to another map, and what is seen there then. *)
Definition redirects (st : world * list nat) (e : aevent) : option (site * attrs) :=
  match e with
  | AEvent (XEdit _ (WNew x m)) => Some (At x, m)
  | AShare x y => match map_of st (At y) with Some _ => Some (At x, content st (At y)) | None => None end
  | AGive x i => match map_of st (Mine i) with Some _ => Some (At x, content st (Mine i)) | None => None end
  | _ => None
  end.
(** With what the redirected site is together afterwards. *)
Definition joins (st : world * list nat) (e : aevent) : option site :=
  match e with AShare _ y => Some (At y) | AGive _ i => Some (Mine i) | _ => None end.
Definition fair_aevent (e : aevent) : Prop := match e with AEvent e => fair_xevent e | _ => True end.
