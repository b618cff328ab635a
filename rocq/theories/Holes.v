(** Model of graphs with nil pointers inside their containers, as after [g.Nodes.Lookup["a"] = nil], [g.Nodes.Nodes[0] = nil],
    [g.Edges.Edges = append(g.Edges.Edges, nil)] or [g.SubGraphs.SubGraphs["s"] = nil].
    /repo/graph.go, nodes.go, edges.go, subgraphs.go and write.go once more: reading a field of a nil pointer panics, and a
    panic leaves what was written before it (the caller may recover).
    Simplifications: as in Graph.v; the indices SrcToDsts and DstToSrcs, which the package never reads, have no nil; the maps and the containers
    themselves are not nil (Zero.v has those). *)
From Verif Require Import Base Parser Maps Graph AttrMap Write Zero.
From Verif Require Ast.

(** nodes.go:28-31; [None] is nil *)
Record hnodes := HNodes {
  hn_lookup : gmap gostr (option nat); hn_list : list (option nat); hn_heap : gmap nat node; hn_next : nat }.
(** edges.go:32-36 *)
Record hedges := HEdges {
  h_s2d : gmap gostr (gmap gostr (list edge)); h_d2s : gmap gostr (gmap gostr (list edge)); he_list : list (option edge) }.
(** graph.go:23-32, subgraphs.go:36-38 *)
Record hgraph := HGraph {
  h_attrs : attrs; h_name : gostr; h_directed : bool; h_strict : bool;
  h_nodes : hnodes; h_edges : hedges; h_subs : gmap gostr (option sub); h_rels : relations }.

Definition hw_attrs (h : hgraph) x := HGraph x (h_name h) (h_directed h) (h_strict h) (h_nodes h) (h_edges h) (h_subs h) (h_rels h).
Definition hw_nodes (h : hgraph) x := HGraph (h_attrs h) (h_name h) (h_directed h) (h_strict h) x (h_edges h) (h_subs h) (h_rels h).
Definition hw_edges (h : hgraph) x := HGraph (h_attrs h) (h_name h) (h_directed h) (h_strict h) (h_nodes h) x (h_subs h) (h_rels h).
Definition hw_subs (h : hgraph) x := HGraph (h_attrs h) (h_name h) (h_directed h) (h_strict h) (h_nodes h) (h_edges h) x (h_rels h).
Definition hw_rels (h : hgraph) x := HGraph (h_attrs h) (h_name h) (h_directed h) (h_strict h) (h_nodes h) (h_edges h) (h_subs h) x.

(** Dereference of a pointer that is not nil *)
Definition hderef (ns : hnodes) (p : nat) : node := default (Node [] ∅) (hn_heap ns !! p).

(** nodes.go:40-53 (Remove): nodes.Nodes[i].Name panics on nil *)
Fixpoint hremove_loop (ns : hnodes) (name : gostr) (pre post : list (option nat)) : hnodes * out :=
  match post with
  | [] => (ns, Done (Some (lit "node " ++ name ++ lit " not found")))
  | None :: _ => (ns, Panicked)
  | Some p :: post' =>
      if str_eqb (node_name (hderef ns p)) name
      then (HNodes (delete name (hn_lookup ns)) (pre ++ post') (hn_heap ns) (hn_next ns), Done None)
      else hremove_loop ns name (pre ++ [Some p]) post'
  end.
Definition hnodes_remove (ns : hnodes) (name : gostr) : hnodes * out := hremove_loop ns name [] (hn_list ns).
(** nodes.go:56-64 (Add), for a new node: n.Attrs panics on nil *)
Definition hnodes_add (ns : hnodes) (name : gostr) (a : attrs) (l : list (gostr * gostr)) : hnodes * out :=
  match hn_lookup ns !! name with
  | Some None => (ns, Panicked)
  | Some (Some p) =>
      let n := hderef ns p in
      (HNodes (hn_lookup ns) (hn_list ns) (<[p := Node (node_name n) (extend (node_attrs n) l)]> (hn_heap ns)) (hn_next ns), Done None)
  | None =>
      let p := hn_next ns in
      (HNodes (<[name := Some p]> (hn_lookup ns)) (hn_list ns ++ [Some p]) (<[p := Node name a]> (hn_heap ns)) (S p), Done None)
  end.
(** edges.go:44-62 (Add), for an edge that is not nil *)
Definition hedges_add (es : hedges) (e : edge) : hedges :=
  HEdges (add2 (h_s2d es) (e_src e) (e_dst e) e) (add2 (h_d2s es) (e_dst e) (e_src e) e) (he_list es ++ [Some e]).
Definition h_new_edges : hedges := HEdges ∅ ∅ [].
(** graph.go:109-118, 167-176: e.Dst panics on nil; [None]: it has *)
Fixpoint hfilter (keep : edge -> bool) (acc : hedges) (l : list (option edge)) : option hedges :=
  match l with
  | [] => Some acc
  | None :: _ => None
  | Some e :: l' => hfilter keep (if keep e then hedges_add acc e else acc) l'
  end.
(** The new edges are assigned after the loop. *)
Definition hdrop (keep : edge -> bool) (h : hgraph) : hgraph * out :=
  match hfilter keep h_new_edges (he_list (h_edges h)) with
  | None => (h, Panicked)
  | Some es => (hw_edges h es, Done None)
  end.
(** subgraphs.go:46-50 (Add): an entry that is nil is an entry *)
Definition hsubs_add (m : gmap gostr (option sub)) (name : gostr) : gmap gostr (option sub) :=
  match m !! name with Some _ => m | None => <[name := Some (Sub ∅ name)]> m end.

(** graph.go:71-78, 83-85 (AddPortEdge, AddEdge) *)
Definition hadd_port_edge (o : oracle) (h : hgraph) (src sp dst dp : gostr) (dir : bool) (m : attrs) : hgraph * out :=
  match new_attrs (o_attrs o 0 m) with
  | inr e => (h, Done (Some e))
  | inl a => (hw_edges h (hedges_add (h_edges h) (Edge src sp dst dp dir a)), Done None)
  end.
(** graph.go:90-98 (AddNode) *)
Definition hadd_node (o : oracle) (h : hgraph) (parent name : gostr) (m : attrs) : hgraph * out :=
  match new_attrs (o_attrs o 0 m) with
  | inr e => (h, Done (Some e))
  | inl a =>
      match hnodes_add (h_nodes h) name a (o_attrs o 1 a) with
      | (ns, Panicked) => (hw_nodes h ns, Panicked)
      | (ns, Done _) => let h1 := hw_nodes h ns in (hw_rels h1 (relations_add (h_rels h1) parent name), Done None)
      end
  end.
(** graph.go:101-121 (RemoveNode) *)
Definition hremove_node (h : hgraph) (parent name : gostr) : hgraph * out :=
  match hnodes_remove (h_nodes h) name with
  | (ns, Panicked) => (hw_nodes h ns, Panicked)
  | (_, Done (Some e)) => (h, Done (Some e))
  | (ns, Done None) =>
      let h1 := hw_nodes h ns in
      let h2 := hw_rels h1 (relations_remove (h_rels h1) parent name) in
      hdrop (fun e => negb (str_eqb (e_dst e) name || str_eqb (e_src e) name)) h2
  end.
(** graph.go:123-141 (getAttrs, AddAttr): sub.Attrs panics on nil, whatever the field *)
Definition hadd_attr (h : hgraph) (parent field value : gostr) : hgraph * out :=
  if str_eqb (h_name h) parent then let '(a, e) := attrs_add (h_attrs h) field value in (hw_attrs h a, Done e)
  else match h_subs h !! parent with
  | None => (h, Done (Some (lit "graph or subgraph " ++ parent ++ lit " does not exist")))
  | Some None => (h, Panicked)
  | Some (Some s) =>
      let '(a, e) := attrs_add (sub_attrs s) field value in
      (hw_subs h (<[parent := Some (Sub a (sub_name s))]> (h_subs h)), Done e)
  end.
(** graph.go:147-151 *)
Fixpoint hadd_attrs_loop (h : hgraph) (name : gostr) (l : list (gostr * gostr)) : hgraph * out :=
  match l with
  | [] => (h, Done None)
  | (k, v) :: l' =>
      match hadd_attr h name k v with
      | (h', Done None) => hadd_attrs_loop h' name l'
      | (h', r) => (h', r)
      end
  end.
(** graph.go:144-153 (AddSubGraph) *)
Definition hadd_subgraph (o : oracle) (h : hgraph) (parent name : gostr) (m : attrs) : hgraph * out :=
  let h1 := hw_rels h (relations_add (h_rels h) parent name) in
  let h2 := hw_subs h1 (hsubs_add (h_subs h1) name) in
  hadd_attrs_loop h2 name (o_attrs o 0 m).
(** graph.go:157-162 *)
Fixpoint hremove_nodes_loop (h : hgraph) (parent : gostr) (l : list gostr) : hgraph * out :=
  match l with
  | [] => (h, Done None)
  | c :: l' =>
      match hremove_node h parent c with
      | (h', Done None) => hremove_nodes_loop h' parent l'
      | (h', r) => (h', r)
      end
  end.
(** graph.go:156-179 (RemoveSubGraph) *)
Definition hremove_subgraph (o : oracle) (h : hgraph) (parent name : gostr) : hgraph * out :=
  match hremove_nodes_loop h parent (o_names o 0 (children (h_rels h) name)) with
  | (h1, Done None) =>
      let h2 := hw_rels h1 (relations_remove (h_rels h1) parent name) in
      let h3 := hw_subs h2 (delete name (h_subs h2)) in
      hdrop (fun e => negb (str_eqb (e_dst e) name || str_eqb (e_dst_port e) name || str_eqb (e_src e) name || str_eqb (e_src_port e) name)) h3
  | (h1, r) => (h1, r)
  end.
(** graph.go:51-66 and the methods above *)
Definition hexec (o : oracle) (c : call) (h : hgraph) : hgraph * out :=
  match c with
  | CSetStrict b => (HGraph (h_attrs h) (h_name h) (h_directed h) b (h_nodes h) (h_edges h) (h_subs h) (h_rels h), Done None)
  | CSetDir b => (HGraph (h_attrs h) (h_name h) b (h_strict h) (h_nodes h) (h_edges h) (h_subs h) (h_rels h), Done None)
  | CSetName n => (HGraph (h_attrs h) n (h_directed h) (h_strict h) (h_nodes h) (h_edges h) (h_subs h) (h_rels h), Done None)
  | CAddPortEdge s sp d dp dir m => hadd_port_edge o h s sp d dp dir m
  | CAddEdge s d dir m => hadd_port_edge o h s [] d [] dir m
  | CAddNode p n m => hadd_node o h p n m
  | CAddAttr p f v => hadd_attr h p f v
  | CAddSubGraph p n m => hadd_subgraph o h p n m
  | CRemoveNode p n => hremove_node h p n
  | CRemoveSubGraph p n => hremove_subgraph o h p n
  end.
(** graph.go:182-185 (IsNode), 188-191 (IsSubGraph), 193-197 (isClusterSubGraph): nothing is dereferenced *)
Definition his_node (h : hgraph) (name : gostr) : bool := match hn_lookup (h_nodes h) !! name with Some _ => true | None => false end.
Definition his_subgraph (h : hgraph) (name : gostr) : bool := match h_subs h !! name with Some _ => true | None => false end.
Definition his_cluster (h : hgraph) (name : gostr) : bool := his_subgraph h name && has_prefix name (lit "cluster").

(** ** Assignments by which the caller puts nil into a container *)
Inductive hole := HoleLookup (n : gostr) | HoleNode (i : nat) | HoleEdge (i : nat) | HoleSub (n : gostr) | HoleNodeMore | HoleEdgeMore.
(** g.Nodes.Lookup[n] = nil, g.Nodes.Nodes[i] = nil, g.Edges.Edges[i] = nil, g.SubGraphs.SubGraphs[n] = nil,
    g.Nodes.Nodes = append(g.Nodes.Nodes, nil), g.Edges.Edges = append(g.Edges.Edges, nil); an index out of range is a panic of
    the caller's own statement. *)
Definition make_hole (x : hole) (h : hgraph) : hgraph :=
  let ns := h_nodes h in let es := h_edges h in
  match x with
  | HoleLookup n => hw_nodes h (HNodes (<[n := None]> (hn_lookup ns)) (hn_list ns) (hn_heap ns) (hn_next ns))
  | HoleNode i => hw_nodes h (HNodes (hn_lookup ns) (<[i := None]> (hn_list ns)) (hn_heap ns) (hn_next ns))
  | HoleNodeMore => hw_nodes h (HNodes (hn_lookup ns) (hn_list ns ++ [None]) (hn_heap ns) (hn_next ns))
  | HoleEdge i => hw_edges h (HEdges (h_s2d es) (h_d2s es) (<[i := None]> (he_list es)))
  | HoleEdgeMore => hw_edges h (HEdges (h_s2d es) (h_d2s es) (he_list es ++ [None]))
  | HoleSub n => hw_subs h (<[n := None]> (h_subs h))
  end.

(** ** write.go *)
Section HWriter.
  Variable srt : list edge -> list edge.
  Variable o : oracle.
  Variable h : hgraph.

  (** write.go:71-79 (newNodeStmt); node.Name panics on nil *)
  Definition hnew_node_stmt (name : gostr) (st : wstate) : res err (Ast.stmt * wstate) :=
    match hn_lookup (h_nodes h) !! name with
    | None | Some None => Panic
    | Some (Some p) =>
        let node := hderef (h_nodes h) p in
        let id := Ast.make_node_id (node_name node) [] in
        let '(a, st1) := attr_list o (node_attrs node) (mark (node_name node) st) in
        Ok (Ast.SNode id a, st1)
    end.
  (** write.go:50-62 *)
  Fixpoint hchildren_loop (rec : gostr -> wstate -> res err (Ast.subgraph * wstate)) (cs : list gostr)
      (acc : list Ast.stmt) (st : wstate) : res err (list Ast.stmt * wstate) :=
    match cs with
    | [] => Ok (acc, st)
    | c :: cs' =>
        if his_node h c then
          match hnew_node_stmt c st with
          | Ok (s, st1) => hchildren_loop rec cs' (acc ++ [s]) st1
          | Err e => Err e | Panic => Panic | OutOfFuel => OutOfFuel
          end
        else if his_subgraph h c then
          match rec c st with
          | Ok (t, st1) => hchildren_loop rec cs' (acc ++ [Ast.SSub t]) st1
          | Err e => Err e | Panic => Panic | OutOfFuel => OutOfFuel
          end
        else Err (c ++ lit " is not a node or a subgraph")
    end.
  (** write.go:43-64 (newSubGraph); sub.Name panics on nil *)
  Fixpoint hnew_sub (fuel : nat) (name : gostr) (st : wstate) : res err (Ast.subgraph * wstate) :=
    match fuel with
    | O => OutOfFuel
    | S fuel' =>
        match h_subs h !! name with
        | None | Some None => Panic
        | Some (Some sb) =>
            let '(sa, st1) := append_attrs o (sub_attrs sb) (mark (sub_name sb) st) in
            let cs := sorted_children o (w_tick st1) (h_rels h) name in
            match hchildren_loop (hnew_sub fuel') cs sa (tick 1 st1) with
            | Ok (body, st2) => Ok (Ast.SubGraph (sub_name sb) body, st2)
            | Err e => Err e | Panic => Panic | OutOfFuel => OutOfFuel
            end
        end
    end.
  (** write.go:66-69 (newNodeID) *)
  Definition hnew_node_id (name port : gostr) : res err Ast.node_id :=
    match hn_lookup (h_nodes h) !! name with
    | None | Some None => Panic
    | Some (Some p) => Ok (Ast.make_node_id (node_name (hderef (h_nodes h) p)) port)
    end.
  (** write.go:81-96 (newLocation) *)
  Definition hnew_location (fuel : nat) (name port : gostr) (st : wstate) : res err (Ast.location * wstate) :=
    if his_node h name then
      match hnew_node_id name port with
      | Ok n => Ok (Ast.LNode n, st) | Err e => Err e | Panic => Panic | OutOfFuel => OutOfFuel
      end
    else if his_cluster h name then
      match port with
      | [] => Ok (Ast.LNode (Ast.make_node_id name port), st)
      | _ => Err (lit "subgraph cannot have a port: " ++ port)
      end
    else if his_subgraph h name then
      match port with
      | [] => match hnew_sub fuel name st with
              | Ok (t, st1) => Ok (Ast.LSub t, st1) | Err e => Err e | Panic => Panic | OutOfFuel => OutOfFuel
              end
      | _ => Err (lit "subgraph cannot have a port: " ++ port)
      end
    else Err (name ++ lit " is not a node or a subgraph").
  (** write.go:98-118 (newEdgeStmt) *)
  Definition hnew_edge_stmt (fuel : nat) (e : edge) (st : wstate) : res err (Ast.stmt * wstate) :=
    match hnew_location fuel (e_src e) (e_src_port e) st with
    | Ok (src, st1) =>
        match hnew_location fuel (e_dst e) (e_dst_port e) st1 with
        | Ok (dst, st2) =>
            let '(a, st3) := attr_list o (e_attrs e) st2 in
            Ok (Ast.SEdge src [Ast.EdgeRH (e_dir e) dst] a, st3)
        | Err e => Err e | Panic => Panic | OutOfFuel => OutOfFuel
        end
    | Err e => Err e | Panic => Panic | OutOfFuel => OutOfFuel
    end.
  (** write.go:128-134 *)
  Fixpoint hedges_loop (fuel : nat) (es : list edge) (acc : list Ast.stmt) (st : wstate) : res err (list Ast.stmt * wstate) :=
    match es with
    | [] => Ok (acc, st)
    | e :: es' =>
        match hnew_edge_stmt fuel e st with
        | Ok (s, st1) => hedges_loop fuel es' (acc ++ [s]) st1
        | Err e => Err e | Panic => Panic | OutOfFuel => OutOfFuel
        end
    end.
  (** write.go:136-147; s.Name panics on nil *)
  Fixpoint hsubs_loop (fuel : nat) (ss : list (option sub)) (acc : list Ast.stmt) (st : wstate) : res err (list Ast.stmt * wstate) :=
    match ss with
    | [] => Ok (acc, st)
    | None :: _ => Panic
    | Some s :: ss' =>
        if decide (sub_name s ∈ w_written st) then hsubs_loop fuel ss' acc st
        else if decide (sub_name s ∈ children (h_rels h) (h_name h)) then
          match hnew_sub fuel (sub_name s) st with
          | Ok (t, st1) => hsubs_loop fuel ss' (acc ++ [Ast.SSub t]) st1
          | Err e => Err e | Panic => Panic | OutOfFuel => OutOfFuel
          end
        else hsubs_loop fuel ss' acc st
    end.
  (** write.go:149-154; n.Name panics on nil *)
  Fixpoint hnodes_loop (ns : list (option node)) (acc : list Ast.stmt) (st : wstate) : res err (list Ast.stmt * wstate) :=
    match ns with
    | [] => Ok (acc, st)
    | None :: _ => Panic
    | Some n :: ns' =>
        if decide (node_name n ∈ w_written st) then hnodes_loop ns' acc st
        else match hnew_node_stmt (node_name n) st with
             | Ok (s, st1) => hnodes_loop ns' (acc ++ [s]) st1
             | Err e => Err e | Panic => Panic | OutOfFuel => OutOfFuel
             end
    end.
  (** nodes.go:67-78, subgraphs.go:58-69: Sorted sorts the keys and reads the entries, nil or not *)
  Definition hnodes_sorted (i : nat) : list (option node) :=
    map (fun k => hderef (h_nodes h) <$> default None (hn_lookup (h_nodes h) !! k)) (sorted_keys (o_names o i (keys (hn_lookup (h_nodes h))))).
  Definition hsubs_sorted (i : nat) : list (option sub) :=
    map (fun k => default None (h_subs h !! k)) (sorted_keys (o_names o i (keys (h_subs h)))).
  (** edges.go:64-75 (Edges.Sorted), then the loop over the edges: with two edges or more sort.Sort compares every one of them, and
      edgeSorter.Less (edges.go:76-119) reads es[i].Src and es[j].Src; with one, newEdgeStmt reads its Src.  [None]: some edge is nil. *)
  Fixpoint all_edges (l : list (option edge)) : option (list edge) :=
    match l with
    | [] => Some []
    | None :: _ => None
    | Some e :: l' => match all_edges l' with Some r => Some (e :: r) | None => None end
    end.
  (** write.go:120-157 (Write), 159-163 (WriteAst) *)
  Definition hwrite_ast (fuel : nat) : res err Ast.graph :=
    let '(sa, st1) := append_attrs o (h_attrs h) (WState ∅ 0) in
    match all_edges (he_list (h_edges h)) with
    | None => Panic
    | Some es =>
        match hedges_loop fuel (srt es) sa st1 with
        | Ok (l2, st2) =>
            match hsubs_loop fuel (hsubs_sorted (w_tick st2)) l2 (tick 1 st2) with
            | Ok (l3, st3) =>
                match hnodes_loop (hnodes_sorted (w_tick st3)) l3 (tick 1 st3) with
                | Ok (l4, _) => Ok (Ast.Graph (h_directed h) (h_strict h) (h_name h) l4)
                | Err e => Err e | Panic => Panic | OutOfFuel => OutOfFuel
                end
            | Err e => Err e | Panic => Panic | OutOfFuel => OutOfFuel
            end
        | Err e => Err e | Panic => Panic | OutOfFuel => OutOfFuel
        end
    end.
  (** write.go:165-172 (String) *)
  Definition hgraph_string (fuel : nat) : res err gostr :=
    match hwrite_ast fuel with
    | Ok a => Ok (Ast.graph_str a)
    | Err e => Ok (lit "error: " ++ e)
    | Panic => Panic
    | OutOfFuel => OutOfFuel
    end.
End HWriter.
