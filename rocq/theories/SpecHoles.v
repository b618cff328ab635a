(** Specification for C85: what a graph with nil pointers in its containers may stand for, which calls panic on it, and what a panic
    leaves behind. *)
From Verif Require Import Base Maps Graph SpecGraph Zero Holes.

(** ** Something in place of every nil *)
Definition instead {A : Type} (x : option A) (y : A) : Prop := forall a, x = Some a -> y = a.
Definition completes_map {A : Type} (m : gmap gostr (option A)) (m' : gmap gostr A) : Prop :=
  forall n, match m !! n, m' !! n with Some x, Some y => instead x y | None, None => True | _, _ => False end.
(** [g] is [h] with some pointer in place of every nil, in Nodes.Lookup, Nodes.Nodes, Edges.Edges and SubGraphs.SubGraphs; the objects and
    the indices are the same ones. *)
Record completes (h : hgraph) (g : agraph) : Prop := {
  co_attrs : g_attrs g = h_attrs h;
  co_name : g_name g = h_name h;
  co_directed : g_directed g = h_directed h;
  co_strict : g_strict g = h_strict h;
  co_rels : g_rels g = h_rels h;
  co_heap : nodes_heap (g_nodes g) = hn_heap (h_nodes h);
  co_next : nodes_next (g_nodes g) = hn_next (h_nodes h);
  co_lookup : completes_map (hn_lookup (h_nodes h)) (nodes_lookup (g_nodes g));
  co_nodes : Forall2 instead (hn_list (h_nodes h)) (nodes_list (g_nodes g));
  co_edges : Forall2 instead (he_list (h_edges h)) (edges_list (g_edges g));
  co_s2d : src_to_dsts (g_edges g) = h_s2d (h_edges h);
  co_d2s : dst_to_srcs (g_edges g) = h_d2s (h_edges h);
  co_subs : completes_map (h_subs h) (g_subs g) }.

(** ** Where there is nil *)
Definition nil_lookup (h : hgraph) (n : gostr) : Prop := hn_lookup (h_nodes h) !! n = Some None.
Definition nil_sub_entry (h : hgraph) (n : gostr) : Prop := h_subs h !! n = Some None.
Definition nil_edge (h : hgraph) : Prop := None ∈ he_list (h_edges h).
(** No node of the list has the name. *)
Definition unnamed (h : hgraph) (n : gostr) (l : list (option nat)) : Prop :=
  forall p, Some p ∈ l -> node_name (hderef (h_nodes h) p) <> n.
(** Looking for the name in the slice Nodes from its beginning, one meets a nil before a node with the name; or such a node before a nil. *)
Definition nil_first (h : hgraph) (n : gostr) : Prop :=
  exists pre post, hn_list (h_nodes h) = pre ++ None :: post /\ unnamed h n pre.
Definition node_first (h : hgraph) (n : gostr) : Prop :=
  exists pre p post, hn_list (h_nodes h) = pre ++ Some p :: post /\ None ∉ pre /\ unnamed h n pre /\ node_name (hderef (h_nodes h) p) = n.

(** ** Which calls panic *)
Definition remove_panics (h : hgraph) (n : gostr) : Prop := nil_first h n \/ (node_first h n /\ nil_edge h).
Definition touches (o : oracle) (c : call) (h : hgraph) : Prop :=
  match c with
  | CSetStrict _ | CSetDir _ | CSetName _ | CAddPortEdge _ _ _ _ _ _ | CAddEdge _ _ _ _ => False
  | CAddNode p n m => all_valid m /\ nil_lookup h n
  | CAddAttr p f v => h_name h <> p /\ nil_sub_entry h p
  | CAddSubGraph p n m => m <> ∅ /\ h_name h <> n /\ nil_sub_entry h n
  | CRemoveNode p n => remove_panics h n
  (* the children are removed in some order, up to one that panics or is not found; if there are none, the edges are looked through *)
  | CRemoveSubGraph p n =>
      let cs := o_names o 0 (children (h_rels h) n) in
      (cs = [] /\ nil_edge h) \/
      exists pre c post, cs = pre ++ c :: post /\ (forall x, x ∈ pre -> node_first h x /\ ~ nil_edge h) /\ remove_panics h c
  end.

(** ** What a panic leaves behind *)
(** Nothing has happened; or the first node with the name has gone from the slice, and from Lookup, and so has the relation, but not the edges. *)
Definition half_removed (p n : gostr) (h h' : hgraph) : Prop :=
  (nil_first h n /\ h' = h) \/
  exists pre q post, hn_list (h_nodes h) = pre ++ Some q :: post /\ None ∉ pre /\ unnamed h n pre /\ node_name (hderef (h_nodes h) q) = n /\
    h' = hw_rels (hw_nodes h (HNodes (delete n (hn_lookup (h_nodes h))) (pre ++ post) (hn_heap (h_nodes h)) (hn_next (h_nodes h))))
           (relations_remove (h_rels h) p n).
Definition holes_left (o : oracle) (c : call) (h h' : hgraph) : Prop :=
  match c with
  | CAddSubGraph p n _ => h' = hw_rels h (relations_add (h_rels h) p n)
  | CRemoveNode p n => half_removed p n h h'
  (* the children before the one that panics have been removed *)
  | CRemoveSubGraph p n =>
      let cs := o_names o 0 (children (h_rels h) n) in
      (cs = [] /\ h' = hw_subs (hw_rels h (relations_remove (h_rels h) p n)) (delete n (h_subs h))) \/
      exists pre c post h1, cs = pre ++ c :: post /\ hremove_nodes_loop h p pre = (h1, Done None) /\ half_removed p c h1 h'
  | _ => h' = h
  end.

(** ** Nothing but the slice Nodes has nil *)
Definition whole (h : hgraph) : Prop :=
  ~ nil_edge h /\ (forall n, ~ nil_lookup h n) /\ (forall n, ~ nil_sub_entry h n).
(** [h'] has nil only where [h] has. *)
Definition no_new_nil (h h' : hgraph) : Prop :=
  (forall n, nil_lookup h' n -> nil_lookup h n) /\ (forall n, nil_sub_entry h' n -> nil_sub_entry h n) /\ (nil_edge h' -> nil_edge h) /\
  (None ∈ hn_list (h_nodes h') -> None ∈ hn_list (h_nodes h)).

(** ** A graph without nil *)
Definition embed (g : agraph) : hgraph :=
  HGraph (g_attrs g) (g_name g) (g_directed g) (g_strict g)
    (HNodes (Some <$> nodes_lookup (g_nodes g)) (map Some (nodes_list (g_nodes g))) (nodes_heap (g_nodes g)) (nodes_next (g_nodes g)))
    (HEdges (src_to_dsts (g_edges g)) (dst_to_srcs (g_edges g)) (map Some (edges_list (g_edges g))))
    (Some <$> g_subs g) (g_rels g).
(** The assignment of nil is over an entry that is there. *)
Definition over (x : hole) (h : hgraph) : Prop :=
  match x with
  | HoleLookup n => is_Some (hn_lookup (h_nodes h) !! n)
  | HoleSub n => is_Some (h_subs h !! n)
  | HoleNode i => is_Some (hn_list (h_nodes h) !! i)
  | HoleEdge i => is_Some (he_list (h_edges h) !! i)
  | HoleNodeMore | HoleEdgeMore => False
  end.
(** A history of calls and of assignments of nil over entries, up to its end, without a panic: the calls and their results *)
Inductive hhistory : hgraph -> list (oracle * call) -> hgraph -> list (option err) -> Prop :=
| Hh_end h : hhistory h [] h []
| Hh_call h o c h1 r cs h2 rs : hexec o c h = (h1, Done r) -> hhistory h1 cs h2 rs -> hhistory h ((o, c) :: cs) h2 (r :: rs)
| Hh_hole h x cs h2 rs : over x h -> hhistory (make_hole x h) cs h2 rs -> hhistory h cs h2 rs.
