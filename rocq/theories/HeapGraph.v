(** Model of /repo/graph.go, nodes.go, edges.go, subgraphs.go, relations.go and attrs.go with the sharing of Go: maps,
    nodes, edges and subgraphs live in a heap and are handled by reference, the slices Nodes.Nodes and Edges.Edges have
    backing arrays.  (Graph.v models the same code by value, except for nodes.)  Simplifications: the index maps (Lookup,
    SrcToDsts, DstToSrcs, SubGraphs, those of Relations) and the inner slices of SrcToDsts and DstToSrcs belong to one
    object each and stay values; objects that become garbage at once (the Node given to Nodes.Add when the name is
    known) are not allocated. *)
From Verif Require Import Maps Graph.

(** ** The heap *)
(** nodes.go:22-25, edges.go:22-29, subgraphs.go:22-25: the field Attrs is a reference to a map. *)
Record nobj := NObj { no_name : gostr; no_attrs : nat }.
Record eobj := EObj { eo_src : gostr; eo_src_port : gostr; eo_dst : gostr; eo_dst_port : gostr; eo_dir : bool; eo_attrs : nat }.
Record sobj := SObj { so_attrs : nat; so_name : gostr }.
(** One store per type (Go is typed); addresses are numbers, the next free one is kept with the store. *)
Record store (T : Type) := Store { cells : gmap nat T; next : nat }.
Arguments Store {T}. Arguments cells {T}. Arguments next {T}.
Definition alloc {T} (s : store T) (x : T) : store T * nat := (Store (<[next s := x]> (cells s)) (S (next s)), next s).
Definition put {T} (s : store T) (p : nat) (x : T) : store T := Store (<[p := x]> (cells s)) (next s).
Definition empty_store {T} : store T := Store ∅ 0.
Record heap := Heap {
  maps : store attrs; nobjs : store nobj; eobjs : store eobj; sobjs : store sobj;
  narrs : store (list nat);    (* backing arrays of []*Node *)
  earrs : store (list nat) }.  (* backing arrays of []*Edge *)
Definition with_maps h x := Heap x (nobjs h) (eobjs h) (sobjs h) (narrs h) (earrs h).
Definition with_nobjs h x := Heap (maps h) x (eobjs h) (sobjs h) (narrs h) (earrs h).
Definition with_eobjs h x := Heap (maps h) (nobjs h) x (sobjs h) (narrs h) (earrs h).
Definition with_sobjs h x := Heap (maps h) (nobjs h) (eobjs h) x (narrs h) (earrs h).
Definition with_narrs h x := Heap (maps h) (nobjs h) (eobjs h) (sobjs h) x (earrs h).
Definition with_earrs h x := Heap (maps h) (nobjs h) (eobjs h) (sobjs h) (narrs h) x.

(** ** Maps *)
(** The content of the map at [l]. *)
Definition at_map (h : heap) (l : nat) : attrs := default ∅ (cells (maps h) !! l).
(** m[k] = v *)
Definition set_key (h : heap) (l : nat) (k v : gostr) : heap := with_maps h (put (maps h) l (<[k := v]> (at_map h l))).
Definition new_map (h : heap) (m : attrs) : heap * nat := let '(s, l) := alloc (maps h) m in (with_maps h s, l).
(** attrs.go:36-47 (Attrs.Add) *)
Definition h_attrs_add (h : heap) (l : nat) (field value : gostr) : heap * option err :=
  match new_attr field with
  | inl k => (set_key h l k value, None)
  | inr e => (h, Some e)
  end.
(** attrs.go:27-31: the range loop of NewAttrs; [l] is the map as, [es] the entries of m. *)
Fixpoint h_new_attrs_loop (h : heap) (l : nat) (es : list (gostr * gostr)) : heap * option err :=
  match es with
  | [] => (h, None)
  | (k, v) :: es' =>
      match h_attrs_add h l k v with
      | (h', None) => h_new_attrs_loop h' l es'
      | (h', Some e) => (h', Some e)
      end
  end.
(** attrs.go:25-33 (NewAttrs) *)
Definition h_new_attrs (h : heap) (es : list (gostr * gostr)) : heap * (nat + err) :=
  let '(h1, l) := new_map h ∅ in
  match h_new_attrs_loop h1 l es with
  | (h2, None) => (h2, inl l)
  | (h2, Some e) => (h2, inr e)
  end.
(** attrs.go:50-54 (Extend): [es] are the entries of more *)
Definition h_extend (h : heap) (l : nat) (es : list (gostr * gostr)) : heap :=
  fold_left (fun h kv => set_key h l kv.1 kv.2) es h.
(** A map argument: None is nil, which has no entries. *)
Definition arg (h : heap) (m : option nat) : attrs := match m with Some l => at_map h l | None => ∅ end.

(** ** Slices of pointers *)
Record slice := Slice { sl_arr : nat; sl_len : nat }.
Definition array (s : store (list nat)) (a : nat) : list nat := default [] (cells s !! a).
Definition elems (s : store (list nat)) (x : slice) : list nat := take (sl_len x) (array s (sl_arr x)).
(** append(x, p): in place if there is room in the array, else in a new array with [grow] free places after it. *)
Definition append1 (grow : nat -> nat) (s : store (list nat)) (x : slice) (p : nat) : store (list nat) * slice :=
  let a := array s (sl_arr x) in
  if Nat.ltb (sl_len x) (length a) then (put s (sl_arr x) (<[sl_len x := p]> a), Slice (sl_arr x) (S (sl_len x)))
  else let '(s', b) := alloc s (elems s x ++ [p] ++ replicate (grow (sl_len x)) 0) in (s', Slice b (S (sl_len x))).
(** append(x[:i], x[i+1:]...): the elements after [i] move down, in place. *)
Definition cut_out (s : store (list nat)) (x : slice) (i : nat) : store (list nat) * slice :=
  let a := array s (sl_arr x) in
  (put s (sl_arr x) (take i a ++ drop (S i) (elems s x) ++ drop (sl_len x - 1) a), Slice (sl_arr x) (sl_len x - 1)).

(** ** Nodes *)
(** nodes.go:28-31 *)
Record hnodes := HNodes { hn_lookup : gmap gostr nat; hn_nodes : slice }.
Definition at_node (h : heap) (p : nat) : nobj := default (NObj [] 0) (cells (nobjs h) !! p).
(** nodes.go:40-53 (Remove): the loop, from index [i] on; [ps] are the elements from there. *)
Fixpoint h_nodes_remove_loop (h : heap) (ns : hnodes) (name : gostr) (i : nat) (ps : list nat) : heap * hnodes * option err :=
  match ps with
  | [] => (h, ns, Some (lit "node " ++ name ++ lit " not found"))
  | p :: ps' =>
      if str_eqb (no_name (at_node h p)) name
      then let '(s, x) := cut_out (narrs h) (hn_nodes ns) i in
           (with_narrs h s, HNodes (delete name (hn_lookup ns)) x, None)
      else h_nodes_remove_loop h ns name (S i) ps'
  end.
Definition h_nodes_remove (h : heap) (ns : hnodes) (name : gostr) : heap * hnodes * option err :=
  h_nodes_remove_loop h ns name 0 (elems (narrs h) (hn_nodes ns)).
(** nodes.go:56-64 (Add) of a new node with the attributes at [l]; [order] gives the order of the range loop in Extend. *)
Definition h_nodes_add (grow : nat -> nat) (order : attrs -> list (gostr * gostr)) (h : heap) (ns : hnodes) (name : gostr) (l : nat) : heap * hnodes :=
  match hn_lookup ns !! name with
  | Some p => (h_extend h (no_attrs (at_node h p)) (order (at_map h l)), ns)
  | None =>
      let '(s, p) := alloc (nobjs h) (NObj name l) in
      let '(t, x) := append1 grow (narrs h) (hn_nodes ns) p in
      (with_narrs (with_nobjs h s) t, HNodes (<[name := p]> (hn_lookup ns)) x)
  end.

(** ** Edges *)
(** edges.go:32-36 *)
Record hedges := HEdges { he_s2d : gmap gostr (gmap gostr (list nat)); he_d2s : gmap gostr (gmap gostr (list nat)); he_edges : slice }.
Definition at_edge (h : heap) (p : nat) : eobj := default (EObj [] [] [] [] false 0) (cells (eobjs h) !! p).
Definition h_add2 (m : gmap gostr (gmap gostr (list nat))) (a b : gostr) (p : nat) : gmap gostr (gmap gostr (list nat)) :=
  let inner := default ∅ (m !! a) in <[a := <[b := default [] (inner !! b) ++ [p]]> inner]> m.
(** edges.go:39-41 (NewEdges): a new array without elements *)
Definition h_new_edges (h : heap) : heap * hedges :=
  let '(s, a) := alloc (earrs h) [] in (with_earrs h s, HEdges ∅ ∅ (Slice a 0)).
(** edges.go:44-62 (Add) of the edge at [p] *)
Definition h_edges_add (grow : nat -> nat) (h : heap) (es : hedges) (p : nat) : heap * hedges :=
  let e := at_edge h p in
  let '(s, x) := append1 grow (earrs h) (he_edges es) p in
  (with_earrs h s, HEdges (h_add2 (he_s2d es) (eo_src e) (eo_dst e) p) (h_add2 (he_d2s es) (eo_dst e) (eo_src e) p) x).

(** ** Graph *)
(** graph.go:23-32 *)
Record hgraph := HGraph {
  hg_attrs : nat; hg_name : gostr; hg_directed : bool; hg_strict : bool;
  hg_nodes : hnodes; hg_edges : hedges; hg_subs : gmap gostr nat; hg_rels : relations }.
Definition h_with_nodes g x := HGraph (hg_attrs g) (hg_name g) (hg_directed g) (hg_strict g) x (hg_edges g) (hg_subs g) (hg_rels g).
Definition h_with_edges g x := HGraph (hg_attrs g) (hg_name g) (hg_directed g) (hg_strict g) (hg_nodes g) x (hg_subs g) (hg_rels g).
Definition h_with_subs g x := HGraph (hg_attrs g) (hg_name g) (hg_directed g) (hg_strict g) (hg_nodes g) (hg_edges g) x (hg_rels g).
Definition h_with_rels g x := HGraph (hg_attrs g) (hg_name g) (hg_directed g) (hg_strict g) (hg_nodes g) (hg_edges g) (hg_subs g) x.
Definition world : Type := heap * hgraph.
(** graph.go:35-46 (NewGraph) *)
Definition h_new_graph : world :=
  let h0 := Heap empty_store empty_store empty_store empty_store empty_store empty_store in
  let '(h1, l) := new_map h0 ∅ in
  let '(s, a) := alloc (narrs h1) [] in
  let h2 := with_narrs h1 s in
  let '(h3, es) := h_new_edges h2 in
  (h3, HGraph l [] false false (HNodes ∅ (Slice a 0)) es ∅ new_relations).

Section Exec.
  Variable grow : nat -> nat.
  Variable o : oracle.
  (** graph.go:71-78 (AddPortEdge); [m] is the map given by the caller *)
  Definition h_add_port_edge (w : world) (src src_port dst dst_port : gostr) (dir : bool) (m : option nat) : world * option err :=
    let '(h, g) := w in
    match h_new_attrs h (o_attrs o 0 (arg h m)) with
    | (h1, inr e) => ((h1, g), Some e)
    | (h1, inl l) =>
        let '(s, p) := alloc (eobjs h1) (EObj src src_port dst dst_port dir l) in
        let '(h2, es) := h_edges_add grow (with_eobjs h1 s) (hg_edges g) p in
        ((h2, h_with_edges g es), None)
    end.
  (** graph.go:90-98 (AddNode) *)
  Definition h_add_node (w : world) (parent name : gostr) (m : option nat) : world * option err :=
    let '(h, g) := w in
    match h_new_attrs h (o_attrs o 0 (arg h m)) with
    | (h1, inr e) => ((h1, g), Some e)
    | (h1, inl l) =>
        let '(h2, ns) := h_nodes_add grow (o_attrs o 1) h1 (hg_nodes g) name l in
        ((h2, h_with_rels (h_with_nodes g ns) (relations_add (hg_rels g) parent name)), None)
    end.
  (** graph.go:109-118, 167-176: the edges that satisfy [keep], in a new set of edges; [ps] is the slice ranged over. *)
  Definition h_filter_edges (keep : eobj -> bool) (h : heap) (ps : list nat) : heap * hedges :=
    fold_left (fun acc p => if keep (at_edge acc.1 p) then h_edges_add grow acc.1 acc.2 p else acc) ps (h_new_edges h).
  (** graph.go:101-121 (RemoveNode) *)
  Definition h_remove_node (w : world) (parent name : gostr) : world * option err :=
    let '(h, g) := w in
    match h_nodes_remove h (hg_nodes g) name with
    | (h1, ns, Some e) => ((h1, h_with_nodes g ns), Some e)
    | (h1, ns, None) =>
        let '(h2, es) := h_filter_edges (fun e => negb (str_eqb (eo_dst e) name || str_eqb (eo_src e) name)) h1 (elems (earrs h1) (he_edges (hg_edges g))) in
        ((h2, h_with_edges (h_with_rels (h_with_nodes g ns) (relations_remove (hg_rels g) parent name)) es), None)
    end.
  (** graph.go:123-141 (getAttrs and AddAttr) *)
  Definition at_sub (h : heap) (p : nat) : sobj := default (SObj 0 []) (cells (sobjs h) !! p).
  Definition h_add_attr (w : world) (parent field value : gostr) : world * option err :=
    let '(h, g) := w in
    if str_eqb (hg_name g) parent then let '(h1, e) := h_attrs_add h (hg_attrs g) field value in ((h1, g), e)
    else match hg_subs g !! parent with
         | None => (w, Some (lit "graph or subgraph " ++ parent ++ lit " does not exist"))
         | Some p => let '(h1, e) := h_attrs_add h (so_attrs (at_sub h p)) field value in ((h1, g), e)
         end.
  (** graph.go:147-151 *)
  Fixpoint h_add_attrs_loop (w : world) (name : gostr) (l : list (gostr * gostr)) : world * option err :=
    match l with
    | [] => (w, None)
    | (k, v) :: l' =>
        match h_add_attr w name k v with
        | (w', None) => h_add_attrs_loop w' name l'
        | (w', Some e) => (w', Some e)
        end
    end.
  (** subgraphs.go:46-50 (Add), 28-33 (NewSubGraph) *)
  Definition h_subs_add (h : heap) (m : gmap gostr nat) (name : gostr) : heap * gmap gostr nat :=
    match m !! name with
    | Some _ => (h, m)
    | None => let '(h1, l) := new_map h ∅ in
              let '(s, p) := alloc (sobjs h1) (SObj l name) in (with_sobjs h1 s, <[name := p]> m)
    end.
  (** graph.go:144-153 (AddSubGraph) *)
  Definition h_add_subgraph (w : world) (parent name : gostr) (m : option nat) : world * option err :=
    let '(h, g) := w in
    let '(h1, subs) := h_subs_add h (hg_subs g) name in
    h_add_attrs_loop (h1, h_with_subs (h_with_rels g (relations_add (hg_rels g) parent name)) subs) name (o_attrs o 0 (arg h1 m)).
  (** graph.go:157-162 *)
  Fixpoint h_remove_nodes_loop (w : world) (parent : gostr) (l : list gostr) : world * option err :=
    match l with
    | [] => (w, None)
    | c :: l' =>
        match h_remove_node w parent c with
        | (w', None) => h_remove_nodes_loop w' parent l'
        | (w', Some e) => (w', Some e)
        end
    end.
  (** graph.go:156-179 (RemoveSubGraph) *)
  Definition h_remove_subgraph (w : world) (parent name : gostr) : world * option err :=
    match h_remove_nodes_loop w parent (o_names o 0 (children (hg_rels w.2) name)) with
    | (w1, Some e) => (w1, Some e)
    | ((h1, g1), None) =>
        let g3 := h_with_subs (h_with_rels g1 (relations_remove (hg_rels g1) parent name)) (delete name (hg_subs g1)) in
        let '(h2, es) := h_filter_edges (fun e =>
          negb (str_eqb (eo_dst e) name || str_eqb (eo_dst_port e) name || str_eqb (eo_src e) name || str_eqb (eo_src_port e) name))
          h1 (elems (earrs h1) (he_edges (hg_edges g3))) in
        ((h2, h_with_edges g3 es), None)
    end.

  (** The calls of the API, with references to maps. *)
  Inductive hcall :=
  | HSetStrict (b : bool) | HSetDir (b : bool) | HSetName (n : gostr)
  | HAddPortEdge (src src_port dst dst_port : gostr) (dir : bool) (m : option nat)
  | HAddEdge (src dst : gostr) (dir : bool) (m : option nat)
  | HAddNode (parent name : gostr) (m : option nat)
  | HAddAttr (parent field value : gostr)
  | HAddSubGraph (parent name : gostr) (m : option nat)
  | HRemoveNode (parent name : gostr)
  | HRemoveSubGraph (parent name : gostr).
  Definition hexec (c : hcall) (w : world) : world * option err :=
    let '(h, g) := w in
    match c with
    | HSetStrict b => ((h, HGraph (hg_attrs g) (hg_name g) (hg_directed g) b (hg_nodes g) (hg_edges g) (hg_subs g) (hg_rels g)), None)
    | HSetDir b => ((h, HGraph (hg_attrs g) (hg_name g) b (hg_strict g) (hg_nodes g) (hg_edges g) (hg_subs g) (hg_rels g)), None)
    | HSetName n => ((h, HGraph (hg_attrs g) n (hg_directed g) (hg_strict g) (hg_nodes g) (hg_edges g) (hg_subs g) (hg_rels g)), None)
    | HAddPortEdge s sp d dp dir m => h_add_port_edge w s sp d dp dir m
    | HAddEdge s d dir m => h_add_port_edge w s [] d [] dir m
    | HAddNode p n m => h_add_node w p n m
    | HAddAttr p f v => h_add_attr w p f v
    | HAddSubGraph p n m => h_add_subgraph w p n m
    | HRemoveNode p n => h_remove_node w p n
    | HRemoveSubGraph p n => h_remove_subgraph w p n
    end.
End Exec.

(** ** Histories, with a caller that makes and changes maps of its own *)
(** Maps are named by the order in which the caller made them; [None] is nil. *)
Inductive event :=
| EMake (m : attrs)                                     (* a new map *)
| ESet (i : nat) (k v : gostr)                          (* m[k] = v *)
| EDel (i : nat) (k : gostr)                            (* delete(m, k) *)
| ECall (grow : nat -> nat) (o : oracle) (c : hcall).   (* a call; its maps are numbers of maps of the caller *)
(** The reference for the number [i] of a map in the list of references [mine]. *)
Definition ref_of (mine : list nat) (m : option nat) : option nat := match m with Some i => mine !! i | None => None end.
Definition with_refs (f : option nat -> option nat) (c : hcall) : hcall :=
  match c with
  | HAddPortEdge s sp d dp dir m => HAddPortEdge s sp d dp dir (f m)
  | HAddEdge s d dir m => HAddEdge s d dir (f m)
  | HAddNode p n m => HAddNode p n (f m)
  | HAddSubGraph p n m => HAddSubGraph p n (f m)
  | c => c
  end.
(** The state: world, references to the caller's maps. *)
Definition hstep (e : event) (st : world * list nat) : (world * list nat) * list (option err) :=
  let '(h, g, mine) := st in
  match e with
  | EMake m => let '(h1, l) := new_map h m in ((h1, g, mine ++ [l]), [])
  | ESet i k v => match mine !! i with Some l => ((set_key h l k v, g, mine), []) | None => (st, []) end
  | EDel i k => match mine !! i with
                | Some l => ((with_maps h (put (maps h) l (delete k (at_map h l))), g, mine), [])
                | None => (st, []) end
  | ECall grow o c => let '(w, r) := hexec grow o (with_refs (ref_of mine) c) (h, g) in ((w, mine), [r])
  end.
Fixpoint hrun (evs : list event) (st : world * list nat) : (world * list nat) * list (option err) :=
  match evs with
  | [] => (st, [])
  | e :: evs' => let '(st1, r) := hstep e st in let '(st2, rs) := hrun evs' st1 in (st2, r ++ rs)
  end.
