(** Specification for C74: what a graph with nil maps or nil containers stands for, and which calls panic on it. *)
From Verif Require Import Base Parser Maps Graph SpecGraph Direct Zero.

(** ** nil read as empty *)
Definition plain_attrs (a : option attrs) : attrs := default ∅ a.
Definition plain_node (n : znode) : node := Node (zn_name n) (plain_attrs (zn_attrs n)).
Definition plain_nodes (x : option znodes) : nodes :=
  match x with
  | None => new_nodes
  | Some ns => Nodes (default ∅ (zn_lookup ns)) (zn_list ns) (plain_node <$> zn_heap ns) (zn_next ns)
  end.
Definition plain_edge (e : zedge) : edge :=
  Edge (ze_src e) (ze_src_port e) (ze_dst e) (ze_dst_port e) (ze_dir e) (plain_attrs (ze_attrs e)).
Definition plain_index (m : option zindex) : gmap gostr (gmap gostr (list edge)) :=
  (fun inner : gmap gostr (list zedge) => map plain_edge <$> inner) <$> (default ∅ m : zindex).
Definition plain_edges (x : option zedges) : edges :=
  match x with
  | None => new_edges
  | Some es => Edges (plain_index (z_s2d es)) (plain_index (z_d2s es)) (map plain_edge (ze_list es))
  end.
Definition plain_sub (s : zsub) : sub := Sub (plain_attrs (zs_attrs s)) (zs_name s).
Definition plain_subs (x : option zsubs) : gmap gostr sub :=
  match x with None => ∅ | Some ss => plain_sub <$> default ∅ (zs_map ss) end.
Definition plain_rels (x : option zrels) : relations :=
  match x with None => new_relations | Some r => Relations (default ∅ (z_p2c r)) (default ∅ (z_c2p r)) end.
Definition fill (z : zgraph) : agraph :=
  AGraph (plain_attrs (z_attrs z)) (z_name z) (z_directed z) (z_strict z)
    (plain_nodes (z_nodes z)) (plain_edges (z_edges z)) (plain_subs (z_subs z)) (plain_rels (z_rels z)).

Definition plain_op (op : zattr_op) : attr_op :=
  match op with
  | ZAdd f v => AAdd f v | ZExtend m => AExtend (plain_attrs m) | ZAmmend m => AAmmend (plain_attrs m)
  | ZSet f v => ASet f v | ZDelete f => ADelete f | ZAssign m => AAssign (plain_attrs m)
  end.
Definition plain_direct (d : zdirect) : direct_call :=
  match d with
  | ZNodesAdd n a => DNodesAdd n (plain_attrs a) | ZNodesAddOld p => DNodesAddOld p | ZNodesRemove n => DNodesRemove n
  | ZEdgesAdd e => DEdgesAdd (plain_edge e) | ZSubGraphsAdd n => DSubGraphsAdd n | ZSubGraphsRemove n => DSubGraphsRemove n
  | ZRelationsAdd p c => DRelationsAdd p c | ZRelationsRemove p c => DRelationsRemove p c
  | ZAttrs t op => DAttrs t (plain_op op) | ZEdgeFields i sp dp dir => DEdgeFields i sp dp dir
  end.

(** ** What is nil *)
(** There is no container of nodes, or its Lookup is nil. *)
Definition nodes_nil (z : zgraph) : Prop := forall ns, z_nodes z = Some ns -> zn_lookup ns = None.
Definition edges_nil (z : zgraph) : Prop := forall es, z_edges z = Some es -> z_s2d es = None \/ z_d2s es = None.
Definition subs_nil (z : zgraph) : Prop := forall ss, z_subs z = Some ss -> zs_map ss = None.
Definition rels_nil (z : zgraph) : Prop := forall r, z_rels z = Some r -> z_p2c r = None \/ z_c2p r = None.
(** The node, subgraph, edge is there and its Attrs is nil. *)
Definition node_at (z : zgraph) (n : gostr) (nd : znode) : Prop :=
  exists ns lk p, z_nodes z = Some ns /\ zn_lookup ns = Some lk /\ lk !! n = Some p /\ zderef ns p = nd.
Definition sub_at (z : zgraph) (n : gostr) (s : zsub) : Prop :=
  exists ss m, z_subs z = Some ss /\ zs_map ss = Some m /\ m !! n = Some s.
(** (Edges.Add has put it there, so the index maps are not nil.) *)
Definition edge_at (z : zgraph) (i : nat) (e : zedge) : Prop :=
  exists es, z_edges z = Some es /\ ze_list es !! i = Some e /\ is_Some (z_s2d es) /\ is_Some (z_d2s es).
Definition ptr_at (z : zgraph) (p : nat) (nd : znode) : Prop := exists ns, z_nodes z = Some ns /\ zn_heap ns !! p = Some nd.
Definition nil_node (z : zgraph) (n : gostr) : Prop := exists nd, node_at z n nd /\ zn_attrs nd = None.
Definition nil_sub (z : zgraph) (n : gostr) : Prop := exists s, sub_at z n s /\ zs_attrs s = None.
(** The attributes of the graph or of the subgraph with that name are nil. *)
Definition nil_owner (z : zgraph) (n : gostr) : Prop :=
  (z_name z = n /\ z_attrs z = None) \/ (z_name z <> n /\ nil_sub z n).
(** Some node in the slice Nodes has that name. *)
Definition listed (z : zgraph) (n : gostr) : Prop :=
  exists ns p, z_nodes z = Some ns /\ p ∈ zn_list ns /\ zn_name (zderef ns p) = n.

(** ** Which calls panic; [first m] is the entry of the map that is met first *)
Definition panics (o : oracle) (c : call) (z : zgraph) : Prop :=
  match c with
  | CSetStrict _ | CSetDir _ | CSetName _ => False
  | CAddPortEdge _ _ _ _ _ m | CAddEdge _ _ _ m => all_valid m /\ edges_nil z
  | CAddNode p n m => all_valid m /\ (nodes_nil z \/ (nil_node z n /\ m <> ∅) \/ rels_nil z)
  | CAddAttr p f v => (z_name z <> p /\ z_subs z = None) \/ (nil_owner z p /\ valid_attr f)
  | CAddSubGraph p n m => rels_nil z \/ subs_nil z \/ (nil_owner z n /\ exists f v l, o_attrs o 0 m = (f, v) :: l /\ valid_attr f)
  | CRemoveNode p n => z_nodes z = None \/ (listed z n /\ (z_rels z = None \/ z_edges z = None))
  | CRemoveSubGraph p n =>
      forall r, z_rels z = Some r ->
      match o_names o 0 (zchildren r n) with
      | [] => z_subs z = None \/ z_edges z = None
      | c :: l => z_nodes z = None \/ (listed z c /\ z_edges z = None) \/ ((forall x, x ∈ c :: l -> listed z x) /\ z_subs z = None)
      end
  end.
(** The operation writes to the map. *)
Definition op_writes (op : zattr_op) : Prop :=
  match op with
  | ZAdd f _ => valid_attr f
  | ZExtend m | ZAmmend m => plain_attrs m <> ∅
  | ZSet _ _ => True
  | ZDelete _ | ZAssign _ => False
  end.
Definition target_attrs (z : zgraph) (t : attr_target) (a : option attrs) : Prop :=
  match t with
  | TGraph => a = z_attrs z
  | TSub n => exists s, sub_at z n s /\ a = zs_attrs s
  | TNode n => exists nd, node_at z n nd /\ a = zn_attrs nd
  | TEdge i => exists e, edge_at z i e /\ a = ze_attrs e
  | TPtr p => exists nd, ptr_at z p nd /\ a = zn_attrs nd
  end.
Definition panics_direct (d : zdirect) (z : zgraph) : Prop :=
  match d with
  | ZNodesAdd n a => nodes_nil z \/ (nil_node z n /\ plain_attrs a <> ∅)
  | ZNodesAddOld p => exists nd, ptr_at z p nd /\ (nodes_nil z \/ (nil_node z (zn_name nd) /\ plain_attrs (zn_attrs nd) <> ∅))
  | ZNodesRemove _ => z_nodes z = None
  | ZEdgesAdd _ => edges_nil z
  | ZSubGraphsAdd _ => subs_nil z
  | ZSubGraphsRemove _ => z_subs z = None
  | ZRelationsAdd _ _ => rels_nil z
  | ZRelationsRemove _ _ => z_rels z = None
  | ZAttrs t op => target_attrs z t None /\ op_writes op
  | ZEdgeFields _ _ _ _ => False
  end.
(** The expressions through which the caller reaches an object do not panic. *)
Definition zpossible (z : zgraph) (d : zdirect) : Prop :=
  match d with
  | ZNodesAddOld p => exists nd, ptr_at z p nd
  | ZAttrs t _ => exists a, target_attrs z t a
  | ZEdgeFields i _ _ _ => exists e, edge_at z i e
  | _ => True
  end.

(** ** No nil anywhere *)
Definition made (z : zgraph) : Prop :=
  (exists a, z_attrs z = Some a) /\
  (exists ns lk, z_nodes z = Some ns /\ zn_lookup ns = Some lk /\
     (forall n p, lk !! n = Some p -> is_Some (zn_heap ns !! p)) /\
     (forall p nd, zn_heap ns !! p = Some nd -> is_Some (zn_attrs nd))) /\
  (exists es m m', z_edges z = Some es /\ z_s2d es = Some m /\ z_d2s es = Some m' /\ (forall e, e ∈ ze_list es -> is_Some (ze_attrs e))) /\
  (exists ss m, z_subs z = Some ss /\ zs_map ss = Some m /\ (forall n s, m !! n = Some s -> is_Some (zs_attrs s))) /\
  (exists r m m', z_rels z = Some r /\ z_p2c r = Some m /\ z_c2p r = Some m').
(** The call brings in no nil. *)
Definition made_direct (d : zdirect) : Prop :=
  match d with
  | ZNodesAdd _ a => is_Some a
  | ZEdgesAdd e => is_Some (ze_attrs e)
  | ZAttrs _ (ZAssign m) => is_Some m
  | _ => True
  end.
(** Histories from NewGraph() that bring in no nil. *)
Inductive zbuilt : zgraph -> Prop :=
| zb_new : zbuilt z_new_graph
| zb_call z o c : zbuilt z -> fair o -> zbuilt (zexec o c z).1
| zb_direct z o d : zbuilt z -> fair o -> zpossible z d -> made_direct d -> zbuilt (zexec_direct o d z).1.

(** ** What a panic leaves behind *)
(** Lookup points to nodes: pointers are not nil. *)
Definition pointers_ok (z : zgraph) : Prop :=
  forall ns, z_nodes z = Some ns -> forall n lk p, zn_lookup ns = Some lk -> lk !! n = Some p -> is_Some (zn_heap ns !! p).
(** SrcToDsts is nil (or there is no Edges), ParentToChildren is nil (or there is no Relations). *)
Definition no_sources (z : zgraph) : Prop := forall es, z_edges z = Some es -> z_s2d es = None.
Definition no_parents (z : zgraph) : Prop := forall r, z_rels z = Some r -> z_p2c r = None.
(** Of the relation of [p] to [n], only the first map has been written, if it is there. *)
Definition half_related (z z' : zgraph) (p n : gostr) : Prop :=
  let r := g_rels (fill z) in
  (no_parents z /\ g_rels (fill z') = r) \/
  (~ no_parents z /\ g_rels (fill z') = Relations (parent_to_children (relations_add r p n)) (child_to_parents r)).
(** RemoveNode has panicked: there is no Nodes, or the node and the relation have gone and its edges are still there. *)
Definition left_by_remove (o : oracle) (p n : gostr) (z z' : zgraph) : Prop :=
  (z_nodes z = None /\ z' = z) \/
  (z_nodes z <> None /\
   fill z' = with_rels (with_nodes (fill z) (g_nodes (exec o (CRemoveNode p n) (fill z)).1)) (relations_remove (g_rels (fill z)) p n)).
Definition left_by (o : oracle) (c : call) (z z' : zgraph) : Prop :=
  match c with
  (* nothing, or the edge is in SrcToDsts only *)
  | CAddPortEdge _ _ _ _ _ _ | CAddEdge _ _ _ _ =>
      (no_sources z /\ z' = z) \/
      (~ no_sources z /\ fill z' = with_edges (fill z)
         (Edges (src_to_dsts (g_edges (exec o c (fill z)).1)) (dst_to_srcs (g_edges (fill z))) (edges_list (g_edges (fill z)))))
  | CAddAttr _ _ _ => z' = z
  (* nothing, or the node with its attributes has been added, and at most half of the relation *)
  | CAddNode p n m =>
      ((nodes_nil z \/ (nil_node z n /\ m <> ∅)) /\ z' = z) \/
      (~ (nodes_nil z \/ (nil_node z n /\ m <> ∅)) /\ rels_nil z /\ half_related z z' p n /\
       fill z' = with_rels (with_nodes (fill z) (g_nodes (exec o c (fill z)).1)) (g_rels (fill z')))
  (* at most half of the relation; or the relation; or relation and subgraph, but no attribute *)
  | CAddSubGraph p n m =>
      (rels_nil z /\ half_related z z' p n /\ fill z' = with_rels (fill z) (g_rels (fill z'))) \/
      (~ rels_nil z /\ subs_nil z /\ fill z' = with_rels (fill z) (relations_add (g_rels (fill z)) p n)) \/
      (~ rels_nil z /\ ~ subs_nil z /\ fill z' = (exec o (CAddSubGraph p n ∅) (fill z)).1)
  | CRemoveNode p n => left_by_remove o p n z z'
  (* nothing; or what the removal of the first child has left; or all children, the relation and the subgraph have gone, and the edges of
     the subgraph are still there *)
  | CRemoveSubGraph p n =>
      match z_rels z with
      | None => z' = z
      | Some r =>
          let cs := o_names o 0 (zchildren r n) in
          let g1 := (run (map (fun c => (o, CRemoveNode p c)) cs) (fill z)).1 in
          (exists c l, cs = c :: l /\ panics o (CRemoveNode p c) z /\ left_by_remove o p c z z') \/
          ((forall c, c ∈ cs -> ~ panics o (CRemoveNode p c) z) /\
           fill z' = with_subs (with_rels g1 (relations_remove (g_rels g1) p n)) (delete n (g_subs g1)))
      end
  | _ => False
  end.

(** The same for the methods of the containers and for assignments. *)
Definition left_by_direct (o : oracle) (d : zdirect) (z z' : zgraph) : Prop :=
  match d with
  | ZEdgesAdd e =>
      (no_sources z /\ z' = z) \/
      (~ no_sources z /\ fill z' = with_edges (fill z)
         (Edges (src_to_dsts (g_edges (exec_direct o (plain_direct d) (fill z)).1)) (dst_to_srcs (g_edges (fill z))) (edges_list (g_edges (fill z)))))
  | ZRelationsAdd p n => half_related z z' p n /\ fill z' = with_rels (fill z) (g_rels (fill z'))
  | _ => z' = z
  end.

(** ** Which maps and containers are nil *)
Definition nilb {A : Type} (x : option A) : bool := match x with None => true | Some _ => false end.
(** Attrs; Nodes, Nodes.Lookup; SubGraphs, SubGraphs.SubGraphs; Relations and its two maps; Edges. *)
Definition nils (z : zgraph) : list bool :=
  [nilb (z_attrs z); nilb (z_nodes z); nilb (z_nodes z ≫= zn_lookup); nilb (z_subs z); nilb (z_subs z ≫= zs_map);
   nilb (z_rels z); nilb (z_rels z ≫= z_p2c); nilb (z_rels z ≫= z_c2p); nilb (z_edges z)].
(** The two maps of Edges *)
Definition edge_nils (z : zgraph) : list bool := [nilb (z_edges z ≫= z_s2d); nilb (z_edges z ≫= z_d2s)].
Definition is_removal (c : call) : Prop := match c with CRemoveNode _ _ | CRemoveSubGraph _ _ => True | _ => False end.
