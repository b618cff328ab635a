(** Model of zero values: graphs some of whose maps or containers are nil, as in
    [g := &gographviz.Graph{}], [g.Nodes.Add(&gographviz.Node{Name: "a"})], [g.Edges = &gographviz.Edges{}], [node.Attrs = nil].
    /repo/graph.go, nodes.go, edges.go, subgraphs.go, relations.go, attrs.go, write.go, once more, with nil.
    A nil map reads as an empty one, ranging over it does nothing, deleting from it does nothing, writing to it panics; a field of a nil
    pointer panics.  A panic leaves what was written before it (the caller may recover).
    Simplifications: as in Graph.v and Direct.v; the inner maps of the indices are never nil (the code makes them), there are no nil
    *Node, *Edge or *SubGraph in the containers. *)
From Verif Require Import Base Parser Maps Graph AttrMap Direct Write.
From Verif Require Ast.

(** A call has returned, with an error or with nil, or it has panicked. *)
Inductive out := Done (r : option err) | Panicked.

(** nodes.go:22-25, 28-31: [None] is nil *)
Record znode := ZNode { zn_name : gostr; zn_attrs : option attrs }.
Record znodes := ZNodes { zn_lookup : option (gmap gostr nat); zn_list : list nat; zn_heap : gmap nat znode; zn_next : nat }.
(** edges.go:22-29, 32-36 *)
Record zedge := ZEdge { ze_src : gostr; ze_src_port : gostr; ze_dst : gostr; ze_dst_port : gostr; ze_dir : bool; ze_attrs : option attrs }.
Notation zindex := (gmap (list Ascii.ascii) (gmap (list Ascii.ascii) (list zedge))).
Record zedges := ZEdges { z_s2d : option zindex; z_d2s : option zindex; ze_list : list zedge }.
(** subgraphs.go:22-25, 36-38 *)
Record zsub := ZSub { zs_attrs : option attrs; zs_name : gostr }.
Record zsubs := ZSubs { zs_map : option (gmap gostr zsub) }.
(** relations.go:23-26 *)
Record zrels := ZRels { z_p2c : option (gmap gostr names); z_c2p : option (gmap gostr names) }.
(** graph.go:23-32; a container is a pointer *)
Record zgraph := ZGraph {
  z_attrs : option attrs; z_name : gostr; z_directed : bool; z_strict : bool;
  z_nodes : option znodes; z_edges : option zedges; z_subs : option zsubs; z_rels : option zrels }.

(** The zero value: Graph{} *)
Definition zero_graph : zgraph := ZGraph None [] false false None None None None.
(** nodes.go:35-37, edges.go:39-41, subgraphs.go:41-43, relations.go:29-31, graph.go:35-46 *)
Definition z_new_nodes : znodes := ZNodes (Some ∅) [] ∅ 0.
Definition z_new_edges : zedges := ZEdges (Some ∅) (Some ∅) [].
Definition z_new_subs : zsubs := ZSubs (Some ∅).
Definition z_new_rels : zrels := ZRels (Some ∅) (Some ∅).
Definition z_new_graph : zgraph :=
  ZGraph (Some ∅) [] false false (Some z_new_nodes) (Some z_new_edges) (Some z_new_subs) (Some z_new_rels).

Definition zw_attrs (z : zgraph) x := ZGraph x (z_name z) (z_directed z) (z_strict z) (z_nodes z) (z_edges z) (z_subs z) (z_rels z).
Definition zw_nodes (z : zgraph) x := ZGraph (z_attrs z) (z_name z) (z_directed z) (z_strict z) x (z_edges z) (z_subs z) (z_rels z).
Definition zw_edges (z : zgraph) x := ZGraph (z_attrs z) (z_name z) (z_directed z) (z_strict z) (z_nodes z) x (z_subs z) (z_rels z).
Definition zw_subs (z : zgraph) x := ZGraph (z_attrs z) (z_name z) (z_directed z) (z_strict z) (z_nodes z) (z_edges z) x (z_rels z).
Definition zw_rels (z : zgraph) x := ZGraph (z_attrs z) (z_name z) (z_directed z) (z_strict z) (z_nodes z) (z_edges z) (z_subs z) x.

(** ** Attrs *)
(** attrs.go:45-47: attrs[field] = value *)
Definition zadd (a : option attrs) (f v : gostr) : option attrs * out :=
  match a with None => (None, Panicked) | Some m => (Some (<[f := v]> m), Done None) end.
(** attrs.go:36-43 (Add) *)
Definition zattrs_add (a : option attrs) (f v : gostr) : option attrs * out :=
  match new_attr f with inl k => zadd a k v | inr e => (a, Done (Some e)) end.
(** attrs.go:50-54 (Extend); [l] is the order of the range loop *)
Fixpoint zextend (a : option attrs) (l : list (gostr * gostr)) : option attrs * out :=
  match l with
  | [] => (a, Done None)
  | (k, v) :: l' => match zadd a k v with (a', Done _) => zextend a' l' | (a', Panicked) => (a', Panicked) end
  end.
(** attrs.go:57-63 (Ammend) *)
Fixpoint zammend (a : option attrs) (l : list (gostr * gostr)) : option attrs * out :=
  match l with
  | [] => (a, Done None)
  | (k, v) :: l' =>
      match default ∅ a !! k with
      | Some _ => zammend a l'
      | None => match zadd a k v with (a', Done _) => zammend a' l' | (a', Panicked) => (a', Panicked) end
      end
  end.

(** ** Nodes *)
Definition zderef (ns : znodes) (p : nat) : znode := default (ZNode [] None) (zn_heap ns !! p).
(** nodes.go:56-64 (Add), for a new node; the receiver is a pointer *)
Definition znodes_add (x : option znodes) (name : gostr) (a : option attrs) (l : list (gostr * gostr)) : option znodes * out :=
  match x with
  | None => (None, Panicked)
  | Some ns =>
      match default ∅ (zn_lookup ns) !! name with
      | Some p =>
          let n := zderef ns p in
          let '(b, r) := zextend (zn_attrs n) l in
          (Some (ZNodes (zn_lookup ns) (zn_list ns) (<[p := ZNode (zn_name n) b]> (zn_heap ns)) (zn_next ns)), r)
      | None =>
          match zn_lookup ns with
          | None => (Some ns, Panicked)
          | Some lk =>
              let p := zn_next ns in
              (Some (ZNodes (Some (<[name := p]> lk)) (zn_list ns ++ [p]) (<[p := ZNode name a]> (zn_heap ns)) (S p)), Done None)
          end
      end
  end.
(** nodes.go:56-64 (Add), for a node that the set has or has had *)
Definition znodes_add_old (x : option znodes) (p : nat) (l : list (gostr * gostr)) : option znodes * out :=
  match x with
  | None => (None, Panicked)
  | Some ns =>
      let nd := zderef ns p in
      match default ∅ (zn_lookup ns) !! zn_name nd with
      | Some q =>
          let n := zderef ns q in
          let '(b, r) := zextend (zn_attrs n) l in
          (Some (ZNodes (zn_lookup ns) (zn_list ns) (<[q := ZNode (zn_name n) b]> (zn_heap ns)) (zn_next ns)), r)
      | None =>
          match zn_lookup ns with
          | None => (Some ns, Panicked)
          | Some lk => (Some (ZNodes (Some (<[zn_name nd := p]> lk)) (zn_list ns ++ [p]) (zn_heap ns) (zn_next ns)), Done None)
          end
      end
  end.
(** nodes.go:40-53 (Remove); delete on a nil map does nothing *)
Fixpoint znodes_remove_loop (ns : znodes) (name : gostr) (pre post : list nat) : znodes * option err :=
  match post with
  | [] => (ns, Some (lit "node " ++ name ++ lit " not found"))
  | p :: post' =>
      if str_eqb (zn_name (zderef ns p)) name
      then (ZNodes (delete name <$> zn_lookup ns) (pre ++ post') (zn_heap ns) (zn_next ns), None)
      else znodes_remove_loop ns name (pre ++ [p]) post'
  end.
Definition znodes_remove (x : option znodes) (name : gostr) : option znodes * out :=
  match x with
  | None => (None, Panicked)
  | Some ns => let '(ns', r) := znodes_remove_loop ns name [] (zn_list ns) in (Some ns', Done r)
  end.

(** ** Edges *)
Definition zadd2 (m : zindex) (a b : gostr) (e : zedge) : zindex :=
  let inner := default ∅ (m !! a) in
  <[a := <[b := default [] (inner !! b) ++ [e]]> inner]> m.
(** edges.go:44-62 (Add); [es] is not nil *)
Definition zedges_put (es : zedges) (e : zedge) : zedges * out :=
  match z_s2d es with
  | None => (es, Panicked)
  | Some m =>
      let es1 := ZEdges (Some (zadd2 m (ze_src e) (ze_dst e) e)) (z_d2s es) (ze_list es) in
      match z_d2s es1 with
      | None => (es1, Panicked)
      | Some m' => (ZEdges (z_s2d es1) (Some (zadd2 m' (ze_dst e) (ze_src e) e)) (ze_list es1 ++ [e]), Done None)
      end
  end.
Definition zedges_add (x : option zedges) (e : zedge) : option zedges * out :=
  match x with None => (None, Panicked) | Some es => let '(es', r) := zedges_put es e in (Some es', r) end.
(** graph.go:109-118, 167-176: copy edges into a new set; a panic would end the loop *)
Fixpoint zfilter (keep : zedge -> bool) (acc : zedges) (l : list zedge) : zedges * out :=
  match l with
  | [] => (acc, Done None)
  | e :: l' =>
      if keep e then match zedges_put acc e with (acc', Done _) => zfilter keep acc' l' | (acc', Panicked) => (acc', Panicked) end
      else zfilter keep acc l'
  end.
Definition zedges_filter (keep : zedge -> bool) (x : option zedges) : option zedges * out :=
  match x with
  | None => (None, Panicked)
  | Some es => match zfilter keep z_new_edges (ze_list es) with (es', Done r) => (Some es', Done r) | (_, Panicked) => (x, Panicked) end
  end.

(** ** SubGraphs, Relations *)
(** subgraphs.go:46-50 (Add), 53-55 (Remove) *)
Definition zsubs_add (x : option zsubs) (name : gostr) : option zsubs * out :=
  match x with
  | None => (None, Panicked)
  | Some ss =>
      match default ∅ (zs_map ss) !! name, zs_map ss with
      | Some _, _ => (Some ss, Done None)
      | None, None => (Some ss, Panicked)
      | None, Some m => (Some (ZSubs (Some (<[name := ZSub (Some ∅) name]> m))), Done None)
      end
  end.
Definition zsubs_remove (x : option zsubs) (name : gostr) : option zsubs * out :=
  match x with None => (None, Panicked) | Some ss => (Some (ZSubs (delete name <$> zs_map ss)), Done None) end.
(** relations.go:34-43 (Add), 46-54 (Remove) *)
Definition zrels_add (x : option zrels) (parent child : gostr) : option zrels * out :=
  match x with
  | None => (None, Panicked)
  | Some r =>
      match z_p2c r with
      | None => (Some r, Panicked)
      | Some m =>
          let r1 := ZRels (Some (rel_insert m parent child)) (z_c2p r) in
          match z_c2p r1 with
          | None => (Some r1, Panicked)
          | Some m' => (Some (ZRels (z_p2c r1) (Some (rel_insert m' child parent))), Done None)
          end
      end
  end.
Definition zrels_remove (x : option zrels) (parent child : gostr) : option zrels * out :=
  match x with
  | None => (None, Panicked)
  | Some r => (Some (ZRels ((fun m => rel_delete m parent child) <$> z_p2c r) ((fun m => rel_delete m child parent) <$> z_c2p r)), Done None)
  end.

(** ** The methods of Graph *)
(** graph.go:71-78, 83-85 (AddPortEdge, AddEdge) *)
Definition zadd_port_edge (o : oracle) (z : zgraph) (src sp dst dp : gostr) (dir : bool) (m : attrs) : zgraph * out :=
  match new_attrs (o_attrs o 0 m) with
  | inr e => (z, Done (Some e))
  | inl a => let '(es, r) := zedges_add (z_edges z) (ZEdge src sp dst dp dir (Some a)) in (zw_edges z es, r)
  end.
(** graph.go:90-98 (AddNode) *)
Definition zadd_node (o : oracle) (z : zgraph) (parent name : gostr) (m : attrs) : zgraph * out :=
  match new_attrs (o_attrs o 0 m) with
  | inr e => (z, Done (Some e))
  | inl a =>
      match znodes_add (z_nodes z) name (Some a) (o_attrs o 1 a) with
      | (ns, Panicked) => (zw_nodes z ns, Panicked)
      | (ns, Done _) =>
          let z1 := zw_nodes z ns in
          let '(rs, r) := zrels_add (z_rels z1) parent name in (zw_rels z1 rs, r)
      end
  end.
(** graph.go:101-121 (RemoveNode) *)
Definition zremove_node (z : zgraph) (parent name : gostr) : zgraph * out :=
  match znodes_remove (z_nodes z) name with
  | (ns, Panicked) => (zw_nodes z ns, Panicked)
  | (_, Done (Some e)) => (z, Done (Some e))
  | (ns, Done None) =>
      let z1 := zw_nodes z ns in
      match zrels_remove (z_rels z1) parent name with
      | (rs, Panicked) => (zw_rels z1 rs, Panicked)
      | (rs, Done _) =>
          let z2 := zw_rels z1 rs in
          let '(es, r) := zedges_filter (fun e => negb (str_eqb (ze_dst e) name || str_eqb (ze_src e) name)) (z_edges z2) in
          (zw_edges z2 es, r)
      end
  end.
(** graph.go:123-141 (getAttrs, AddAttr) *)
Definition zadd_attr (z : zgraph) (parent field value : gostr) : zgraph * out :=
  if str_eqb (z_name z) parent then let '(a, r) := zattrs_add (z_attrs z) field value in (zw_attrs z a, r)
  else match z_subs z with
  | None => (z, Panicked)
  | Some ss =>
      match default ∅ (zs_map ss) !! parent with
      | None => (z, Done (Some (lit "graph or subgraph " ++ parent ++ lit " does not exist")))
      | Some s =>
          let '(a, r) := zattrs_add (zs_attrs s) field value in
          (zw_subs z (Some (ZSubs (insert parent (ZSub a (zs_name s)) <$> zs_map ss))), r)
      end
  end.
(** graph.go:147-151 *)
Fixpoint zadd_attrs_loop (z : zgraph) (name : gostr) (l : list (gostr * gostr)) : zgraph * out :=
  match l with
  | [] => (z, Done None)
  | (k, v) :: l' =>
      match zadd_attr z name k v with
      | (z', Done None) => zadd_attrs_loop z' name l'
      | (z', r) => (z', r)
      end
  end.
(** graph.go:144-153 (AddSubGraph) *)
Definition zadd_subgraph (o : oracle) (z : zgraph) (parent name : gostr) (m : attrs) : zgraph * out :=
  match zrels_add (z_rels z) parent name with
  | (rs, Panicked) => (zw_rels z rs, Panicked)
  | (rs, Done _) =>
      let z1 := zw_rels z rs in
      match zsubs_add (z_subs z1) name with
      | (ss, Panicked) => (zw_subs z1 ss, Panicked)
      | (ss, Done _) => zadd_attrs_loop (zw_subs z1 ss) name (o_attrs o 0 m)
      end
  end.
(** graph.go:157-162 *)
Fixpoint zremove_nodes_loop (z : zgraph) (parent : gostr) (l : list gostr) : zgraph * out :=
  match l with
  | [] => (z, Done None)
  | c :: l' =>
      match zremove_node z parent c with
      | (z', Done None) => zremove_nodes_loop z' parent l'
      | (z', r) => (z', r)
      end
  end.
(** graph.go:156-179 (RemoveSubGraph) *)
Definition zchildren (r : zrels) (parent : gostr) : names := default ∅ (default ∅ (z_p2c r) !! parent).
Definition zremove_subgraph (o : oracle) (z : zgraph) (parent name : gostr) : zgraph * out :=
  match z_rels z with
  | None => (z, Panicked)
  | Some r0 =>
      match zremove_nodes_loop z parent (o_names o 0 (zchildren r0 name)) with
      | (z1, Done None) =>
          match zrels_remove (z_rels z1) parent name with
          | (rs, Panicked) => (zw_rels z1 rs, Panicked)
          | (rs, Done _) =>
              let z2 := zw_rels z1 rs in
              match zsubs_remove (z_subs z2) name with
              | (ss, Panicked) => (zw_subs z2 ss, Panicked)
              | (ss, Done _) =>
                  let z3 := zw_subs z2 ss in
                  let '(es, r) := zedges_filter (fun e =>
                    negb (str_eqb (ze_dst e) name || str_eqb (ze_dst_port e) name || str_eqb (ze_src e) name || str_eqb (ze_src_port e) name))
                    (z_edges z3) in
                  (zw_edges z3 es, r)
              end
          end
      | (z1, r) => (z1, r)
      end
  end.
(** graph.go:51-66 and the methods above *)
Definition zexec (o : oracle) (c : call) (z : zgraph) : zgraph * out :=
  match c with
  | CSetStrict b => (ZGraph (z_attrs z) (z_name z) (z_directed z) b (z_nodes z) (z_edges z) (z_subs z) (z_rels z), Done None)
  | CSetDir b => (ZGraph (z_attrs z) (z_name z) b (z_strict z) (z_nodes z) (z_edges z) (z_subs z) (z_rels z), Done None)
  | CSetName n => (ZGraph (z_attrs z) n (z_directed z) (z_strict z) (z_nodes z) (z_edges z) (z_subs z) (z_rels z), Done None)
  | CAddPortEdge s sp d dp dir m => zadd_port_edge o z s sp d dp dir m
  | CAddEdge s d dir m => zadd_port_edge o z s [] d [] dir m
  | CAddNode p n m => zadd_node o z p n m
  | CAddAttr p f v => zadd_attr z p f v
  | CAddSubGraph p n m => zadd_subgraph o z p n m
  | CRemoveNode p n => zremove_node z p n
  | CRemoveSubGraph p n => zremove_subgraph o z p n
  end.

(** ** The methods of the containers, assignments (Direct.v) *)
Inductive zattr_op := ZAdd (f v : gostr) | ZExtend (m : option attrs) | ZAmmend (m : option attrs) | ZSet (f v : gostr) | ZDelete (f : gostr) | ZAssign (m : option attrs).
Definition zexec_attr (o : oracle) (op : zattr_op) (a : option attrs) : option attrs * out :=
  match op with
  | ZAdd f v => zattrs_add a f v
  | ZExtend m => zextend a (o_attrs o 0 (default ∅ m))
  | ZAmmend m => zammend a (o_attrs o 0 (default ∅ m))
  | ZSet f v => zadd a f v
  | ZDelete f => (delete f <$> a, Done None)
  | ZAssign m => (m, Done None)
  end.
Inductive zdirect :=
| ZNodesAdd (n : gostr) (a : option attrs)
| ZNodesAddOld (p : nat)
| ZNodesRemove (n : gostr)
| ZEdgesAdd (e : zedge)
| ZSubGraphsAdd (n : gostr)
| ZSubGraphsRemove (n : gostr)
| ZRelationsAdd (parent child : gostr)
| ZRelationsRemove (parent child : gostr)
| ZAttrs (t : attr_target) (op : zattr_op)
| ZEdgeFields (i : nat) (sp dp : gostr) (dir : bool).
(** The [i]-th edge becomes [e], with the same ends (see Direct.v: edges_set). *)
Definition zsame_ends (e e' : zedge) : bool := str_eqb (ze_src e) (ze_src e') && str_eqb (ze_dst e) (ze_dst e').
Definition zset2 (m : zindex) (a b : gostr) (j : nat) (e : zedge) : zindex :=
  let inner := default ∅ (m !! a) in
  <[a := <[b := <[j := e]> (default [] (inner !! b))]> inner]> m.
Definition zedges_set (es : zedges) (i : nat) (e : zedge) : zedges :=
  let j := length (List.filter (zsame_ends e) (take i (ze_list es))) in
  ZEdges ((fun m => zset2 m (ze_src e) (ze_dst e) j e) <$> z_s2d es) ((fun m => zset2 m (ze_dst e) (ze_src e) j e) <$> z_d2s es) (<[i := e]> (ze_list es)).
Definition zexec_direct (o : oracle) (d : zdirect) (z : zgraph) : zgraph * out :=
  match d with
  | ZNodesAdd n a => let '(x, r) := znodes_add (z_nodes z) n a (o_attrs o 0 (default ∅ a)) in (zw_nodes z x, r)
  | ZNodesAddOld p =>
      let '(x, r) := znodes_add_old (z_nodes z) p
        (match z_nodes z with Some ns => o_attrs o 0 (default ∅ (zn_attrs (zderef ns p))) | None => [] end) in (zw_nodes z x, r)
  | ZNodesRemove n => let '(x, r) := znodes_remove (z_nodes z) n in (zw_nodes z x, r)
  | ZEdgesAdd e => let '(x, r) := zedges_add (z_edges z) e in (zw_edges z x, r)
  | ZSubGraphsAdd n => let '(x, r) := zsubs_add (z_subs z) n in (zw_subs z x, r)
  | ZSubGraphsRemove n => let '(x, r) := zsubs_remove (z_subs z) n in (zw_subs z x, r)
  | ZRelationsAdd p c => let '(x, r) := zrels_add (z_rels z) p c in (zw_rels z x, r)
  | ZRelationsRemove p c => let '(x, r) := zrels_remove (z_rels z) p c in (zw_rels z x, r)
  | ZAttrs TGraph op => let '(a, r) := zexec_attr o op (z_attrs z) in (zw_attrs z a, r)
  (* below: a missing container, pointer or index is a panic of the caller's own expression *)
  | ZAttrs (TSub n) op =>
      match z_subs z with
      | None => (z, Panicked)
      | Some ss =>
          match default ∅ (zs_map ss) !! n with
          | None => (z, Panicked)
          | Some s => let '(a, r) := zexec_attr o op (zs_attrs s) in (zw_subs z (Some (ZSubs (insert n (ZSub a (zs_name s)) <$> zs_map ss))), r)
          end
      end
  | ZAttrs (TNode n) op =>
      match z_nodes z with
      | None => (z, Panicked)
      | Some ns =>
          match default ∅ (zn_lookup ns) !! n with
          | None => (z, Panicked)
          | Some p => let '(a, r) := zexec_attr o op (zn_attrs (zderef ns p)) in
              (zw_nodes z (Some (ZNodes (zn_lookup ns) (zn_list ns) (<[p := ZNode (zn_name (zderef ns p)) a]> (zn_heap ns)) (zn_next ns))), r)
          end
      end
  | ZAttrs (TPtr p) op =>
      match z_nodes z with
      | None => (z, Panicked)
      | Some ns => let '(a, r) := zexec_attr o op (zn_attrs (zderef ns p)) in
          (zw_nodes z (Some (ZNodes (zn_lookup ns) (zn_list ns) (<[p := ZNode (zn_name (zderef ns p)) a]> (zn_heap ns)) (zn_next ns))), r)
      end
  | ZAttrs (TEdge i) op =>
      match z_edges z with
      | None => (z, Panicked)
      | Some es =>
          match ze_list es !! i with
          | None => (z, Panicked)
          | Some e =>
              match zexec_attr o op (ze_attrs e) with
              | (_, Panicked) => (z, Panicked)   (* nothing has been written *)
              | (a, Done r) => (zw_edges z (Some (zedges_set es i (ZEdge (ze_src e) (ze_src_port e) (ze_dst e) (ze_dst_port e) (ze_dir e) a))), Done r)
              end
          end
      end
  | ZEdgeFields i sp dp dir =>
      match z_edges z with
      | None => (z, Panicked)
      | Some es =>
          match ze_list es !! i with
          | None => (z, Panicked)
          | Some e => (zw_edges z (Some (zedges_set es i (ZEdge (ze_src e) sp (ze_dst e) dp dir (ze_attrs e)))), Done None)
          end
      end
  end.

(** ** Writing.  The functions of Write.v with pointers that may be nil; nil attributes read as empty ones. *)
(** edges.go:76-119 (Less) only reads and copies attributes *)
Definition zplain (e : zedge) : edge := Edge (ze_src e) (ze_src_port e) (ze_dst e) (ze_dst_port e) (ze_dir e) (default ∅ (ze_attrs e)).
Definition zedge_less (o : oracle) (x y : zedge) : bool := edge_less o (zplain x) (zplain y).
Definition zsorts (less : zedge -> zedge -> bool) (srt : list zedge -> list zedge) : Prop :=
  forall l, srt l ≡ₚ l /\ Sorted.StronglySorted (fun x y => less y x = false) (srt l).

Section ZWriter.
  Variable srt : list zedge -> list zedge.
  Variable o : oracle.
  Variable z : zgraph.

  (** graph.go:182-197 (IsNode, IsSubGraph, isClusterSubGraph): [None] is a panic *)
  Definition zis_node (name : gostr) : option bool :=
    ns ← z_nodes z; Some (match default ∅ (zn_lookup ns) !! name with Some _ => true | None => false end).
  Definition zis_subgraph (name : gostr) : option bool :=
    ss ← z_subs z; Some (match default ∅ (zs_map ss) !! name with Some _ => true | None => false end).
  Definition zis_cluster (name : gostr) : option bool :=
    b ← zis_subgraph name; Some (b && has_prefix name (lit "cluster")).

  (** write.go:71-79 (newNodeStmt) *)
  Definition znew_node_stmt (name : gostr) (st : wstate) : res err (Ast.stmt * wstate) :=
    match z_nodes z with
    | None => Panic
    | Some ns =>
        match default ∅ (zn_lookup ns) !! name with
        | None => Panic
        | Some p =>
            let node := zderef ns p in
            let '(a, st1) := attr_list o (default ∅ (zn_attrs node)) (mark (zn_name node) st) in
            Ok (Ast.SNode (Ast.make_node_id (zn_name node) []) a, st1)
        end
    end.
  (** write.go:50-62 *)
  Fixpoint zchildren_loop (rec : gostr -> wstate -> res err (Ast.subgraph * wstate)) (cs : list gostr)
      (acc : list Ast.stmt) (st : wstate) : res err (list Ast.stmt * wstate) :=
    match cs with
    | [] => Ok (acc, st)
    | c :: cs' =>
        match zis_node c with
        | None => Panic
        | Some true =>
            match znew_node_stmt c st with
            | Ok (s, st1) => zchildren_loop rec cs' (acc ++ [s]) st1
            | Err e => Err e | Panic => Panic | OutOfFuel => OutOfFuel
            end
        | Some false =>
            match zis_subgraph c with
            | None => Panic
            | Some true =>
                match rec c st with
                | Ok (t, st1) => zchildren_loop rec cs' (acc ++ [Ast.SSub t]) st1
                | Err e => Err e | Panic => Panic | OutOfFuel => OutOfFuel
                end
            | Some false => Err (c ++ lit " is not a node or a subgraph")
            end
        end
    end.
  (** write.go:43-64 (newSubGraph) *)
  Fixpoint znew_sub (fuel : nat) (name : gostr) (st : wstate) : res err (Ast.subgraph * wstate) :=
    match fuel with
    | O => OutOfFuel
    | S fuel' =>
        match z_subs z with
        | None => Panic
        | Some ss =>
            match default ∅ (zs_map ss) !! name with
            | None => Panic
            | Some sb =>
                let '(sa, st1) := append_attrs o (default ∅ (zs_attrs sb)) (mark (zs_name sb) st) in
                match z_rels z with
                | None => Panic
                | Some r =>
                    let cs := sorted_keys (o_names o (w_tick st1) (zchildren r name)) in
                    match zchildren_loop (znew_sub fuel') cs sa (tick 1 st1) with
                    | Ok (body, st2) => Ok (Ast.SubGraph (zs_name sb) body, st2)
                    | Err e => Err e | Panic => Panic | OutOfFuel => OutOfFuel
                    end
                end
            end
        end
    end.
  (** write.go:81-96 (newLocation), 66-69 (newNodeID) *)
  Definition znew_location (fuel : nat) (name port : gostr) (st : wstate) : res err (Ast.location * wstate) :=
    match zis_node name with
    | None => Panic
    | Some true =>
        match z_nodes z with
        | None => Panic
        | Some ns =>
            match default ∅ (zn_lookup ns) !! name with
            | None => Panic
            | Some p => Ok (Ast.LNode (Ast.make_node_id (zn_name (zderef ns p)) port), st)
            end
        end
    | Some false =>
        match zis_cluster name with
        | None => Panic
        | Some true =>
            match port with
            | [] => Ok (Ast.LNode (Ast.make_node_id name port), st)
            | _ => Err (lit "subgraph cannot have a port: " ++ port)
            end
        | Some false =>
            match zis_subgraph name with
            | None => Panic
            | Some true =>
                match port with
                | [] => match znew_sub fuel name st with
                        | Ok (t, st1) => Ok (Ast.LSub t, st1) | Err e => Err e | Panic => Panic | OutOfFuel => OutOfFuel
                        end
                | _ => Err (lit "subgraph cannot have a port: " ++ port)
                end
            | Some false => Err (name ++ lit " is not a node or a subgraph")
            end
        end
    end.
  (** write.go:98-118 (newEdgeStmt) *)
  Definition znew_edge_stmt (fuel : nat) (e : zedge) (st : wstate) : res err (Ast.stmt * wstate) :=
    match znew_location fuel (ze_src e) (ze_src_port e) st with
    | Ok (src, st1) =>
        match znew_location fuel (ze_dst e) (ze_dst_port e) st1 with
        | Ok (dst, st2) =>
            let '(a, st3) := attr_list o (default ∅ (ze_attrs e)) st2 in
            Ok (Ast.SEdge src [Ast.EdgeRH (ze_dir e) dst] a, st3)
        | Err e => Err e | Panic => Panic | OutOfFuel => OutOfFuel
        end
    | Err e => Err e | Panic => Panic | OutOfFuel => OutOfFuel
    end.
  (** write.go:128-134 *)
  Fixpoint zedges_loop (fuel : nat) (es : list zedge) (acc : list Ast.stmt) (st : wstate) : res err (list Ast.stmt * wstate) :=
    match es with
    | [] => Ok (acc, st)
    | e :: es' =>
        match znew_edge_stmt fuel e st with
        | Ok (s, st1) => zedges_loop fuel es' (acc ++ [s]) st1
        | Err e => Err e | Panic => Panic | OutOfFuel => OutOfFuel
        end
    end.
  (** write.go:136-147 *)
  Fixpoint zsubs_loop (fuel : nat) (ss : list zsub) (acc : list Ast.stmt) (st : wstate) : res err (list Ast.stmt * wstate) :=
    match ss with
    | [] => Ok (acc, st)
    | s :: ss' =>
        if decide (zs_name s ∈ w_written st) then zsubs_loop fuel ss' acc st
        else match z_rels z with
        | None => Panic
        | Some r =>
            if decide (zs_name s ∈ zchildren r (z_name z)) then
              match znew_sub fuel (zs_name s) st with
              | Ok (t, st1) => zsubs_loop fuel ss' (acc ++ [Ast.SSub t]) st1
              | Err e => Err e | Panic => Panic | OutOfFuel => OutOfFuel
              end
            else zsubs_loop fuel ss' acc st
        end
    end.
  (** write.go:149-154 *)
  Fixpoint znodes_loop (ns : list znode) (acc : list Ast.stmt) (st : wstate) : res err (list Ast.stmt * wstate) :=
    match ns with
    | [] => Ok (acc, st)
    | n :: ns' =>
        if decide (zn_name n ∈ w_written st) then znodes_loop ns' acc st
        else match znew_node_stmt (zn_name n) st with
             | Ok (s, st1) => znodes_loop ns' (acc ++ [s]) st1
             | Err e => Err e | Panic => Panic | OutOfFuel => OutOfFuel
             end
    end.
  (** nodes.go:67-78, subgraphs.go:58-69 (Sorted): the receivers are dereferenced *)
  Definition zsubs_sorted (i : nat) (ss : zsubs) : list zsub :=
    map (fun k => default (ZSub None []) (default ∅ (zs_map ss) !! k)) (sorted_keys (o_names o i (keys (default ∅ (zs_map ss))))).
  Definition znodes_sorted (i : nat) (ns : znodes) : list znode :=
    map (fun k => zderef ns (default 0 (default ∅ (zn_lookup ns) !! k))) (sorted_keys (o_names o i (keys (default ∅ (zn_lookup ns))))).
  (** write.go:120-163 (Write, WriteAst) *)
  Definition zwrite_ast (fuel : nat) : res err Ast.graph :=
    let '(sa, st1) := append_attrs o (default ∅ (z_attrs z)) (WState ∅ 0) in
    match z_edges z with
    | None => Panic
    | Some es =>
        match zedges_loop fuel (srt (ze_list es)) sa st1 with
        | Ok (l2, st2) =>
            match z_subs z with
            | None => Panic
            | Some ss =>
                match zsubs_loop fuel (zsubs_sorted (w_tick st2) ss) l2 (tick 1 st2) with
                | Ok (l3, st3) =>
                    match z_nodes z with
                    | None => Panic
                    | Some ns =>
                        match znodes_loop (znodes_sorted (w_tick st3) ns) l3 (tick 1 st3) with
                        | Ok (l4, _) => Ok (Ast.Graph (z_directed z) (z_strict z) (z_name z) l4)
                        | Err e => Err e | Panic => Panic | OutOfFuel => OutOfFuel
                        end
                    end
                | Err e => Err e | Panic => Panic | OutOfFuel => OutOfFuel
                end
            end
        | Err e => Err e | Panic => Panic | OutOfFuel => OutOfFuel
        end
    end.
  (** write.go:165-172 (String) *)
  Definition zgraph_string (fuel : nat) : res err gostr :=
    match zwrite_ast fuel with
    | Ok a => Ok (Ast.graph_str a)
    | Err e => Ok (lit "error: " ++ e)
    | Panic => Panic
    | OutOfFuel => OutOfFuel
    end.
End ZWriter.
