(** Model of assignments of a user to what a graph on the heap (HeapGraph.v) refers to: he holds pointers that he got from the graph
    (n := g.Nodes.Lookup["a"], e := g.Edges.Edges[3], s := g.SubGraphs.SubGraphs["S"]) and changes attributes and fields
    through them, now or after the element was removed.  /repo/nodes.go:22-25, edges.go:22-29, subgraphs.go:22-25, graph.go:23-32.
    Simplifications: x.Attrs = m only with a map made for this (for another see PropsHeapEdit.v: [h_share]); a pointer
    that the graph has never had does nothing. *)
From Verif Require Import Maps Graph HeapGraph SpecHeap.

(** [x] is g, *Node, *Edge or *SubGraph; maps of the caller are numbers, as in [event]. *)
Inductive edit :=
| WAdd (x : owner) (f v : gostr)                  (* x.Attrs.Add(f, v), attrs.go:36-43 *)
| WSet (x : owner) (k v : gostr)                  (* x.Attrs[k] = v *)
| WDelete (x : owner) (k : gostr)                 (* delete(x.Attrs, k) *)
| WExtend (x : owner) (m : option nat)            (* x.Attrs.Extend(m), attrs.go:50-54 *)
| WAmmend (x : owner) (m : option nat)            (* x.Attrs.Ammend(m), attrs.go:57-63 *)
| WNew (x : owner) (m : attrs)                    (* x.Attrs = map[Attr]string{...} *)
| WEdge (p : nat) (sp dp : gostr) (dir : bool).   (* e.SrcPort, e.DstPort, e.Dir = sp, dp, dir *)

(** attrs.go:57-63 (Ammend): [es] are the entries of more *)
Definition h_ammend (h : heap) (l : nat) (es : list (gostr * gostr)) : heap :=
  fold_left (fun h kv => match at_map h l !! kv.1 with Some _ => h | None => set_key h l kv.1 kv.2 end) es h.
(** x.Attrs refers to the map at [l] *)
Definition set_ref (w : world) (x : owner) (l : nat) : world :=
  let '(h, g) := w in
  match x with
  | OGraph => (h, HGraph l (hg_name g) (hg_directed g) (hg_strict g) (hg_nodes g) (hg_edges g) (hg_subs g) (hg_rels g))
  | ONode p => (with_nobjs h (put (nobjs h) p (NObj (no_name (at_node h p)) l)), g)
  | OEdge p => let e := at_edge h p in
      (with_eobjs h (put (eobjs h) p (EObj (eo_src e) (eo_src_port e) (eo_dst e) (eo_dst_port e) (eo_dir e) l)), g)
  | OSub p => (with_sobjs h (put (sobjs h) p (SObj l (so_name (at_sub h p)))), g)
  end.
Definition hedit (o : oracle) (mine : list nat) (e : edit) (w : world) : world * option err :=
  let '(h, g) := w in
  match e with
  | WAdd x f v => match ref h g x with Some l => let '(h1, r) := h_attrs_add h l f v in ((h1, g), r) | None => (w, None) end
  | WSet x k v => match ref h g x with Some l => ((set_key h l k v, g), None) | None => (w, None) end
  | WDelete x k => match ref h g x with Some l => ((with_maps h (put (maps h) l (delete k (at_map h l))), g), None) | None => (w, None) end
  | WExtend x m => match ref h g x with Some l => ((h_extend h l (o_attrs o 0 (arg h (ref_of mine m))), g), None) | None => (w, None) end
  | WAmmend x m => match ref h g x with Some l => ((h_ammend h l (o_attrs o 0 (arg h (ref_of mine m))), g), None) | None => (w, None) end
  | WNew x m => match ref h g x with Some _ => let '(h1, l) := new_map h m in (set_ref (h1, g) x l, None) | None => (w, None) end
  | WEdge p sp dp dir =>
      match cells (eobjs h) !! p with
      | Some e => ((with_eobjs h (put (eobjs h) p (EObj (eo_src e) sp (eo_dst e) dp dir (eo_attrs e))), g), None)
      | None => (w, None)
      end
  end.

(** Histories of the events of HeapGraph.v and edits. *)
Inductive xevent := XEvent (e : event) | XEdit (o : oracle) (e : edit).
Definition xstep (e : xevent) (st : world * list nat) : (world * list nat) * list (option err) :=
  match e with
  | XEvent e => hstep e st
  | XEdit o e => let '(w, r) := hedit o st.2 e st.1 in ((w, st.2), [r])
  end.
Fixpoint xrun (es : list xevent) (st : world * list nat) : (world * list nat) * list (option err) :=
  match es with
  | [] => (st, [])
  | e :: es' => let '(st1, r) := xstep e st in let '(st2, rs) := xrun es' st1 in (st2, r ++ rs)
  end.
