(** Specification for Pool.v: what is seen of each graph, and what two graphs share. *)
From Verif Require Import Maps Graph SpecGraph HeapGraph SpecHeap Direct Pool.

(** What is seen of graph [i], following all references *)
Definition shown (st : pool) (i : nat) : sgraph :=
  match p_graphs st !! i with Some g => view (abs (p_heap st, g)) | None => s_empty end.
(** What is seen of a node and of an edge through a pointer, and of the caller's maps *)
Definition node_shown (st : pool) (p : nat) : node := node_seen (p_heap st) p.
Definition edge_shown (st : pool) (p : nat) : edge := abs_edge (p_heap st) p.
Definition maps_shown (st : pool) : list attrs := map (at_map (p_heap st)) (p_mine st).
(** [p] is a *Node (a *Edge) that some graph has or has had. *)
Definition is_node_ptr (st : pool) (p : nat) : Prop := is_Some (cells (nobjs (p_heap st)) !! p).
Definition is_edge_ptr (st : pool) (p : nat) : Prop := is_Some (cells (eobjs (p_heap st)) !! p).
(** Graph [i] has the node [p] under the name [n]: g.Nodes.Lookup[n] == p *)
Definition has_node (st : pool) (i : nat) (n : gostr) (p : nat) : Prop :=
  exists g, p_graphs st !! i = Some g /\ hn_lookup (hg_nodes g) !! n = Some p.
(** g.Edges.Edges, as pointers *)
Definition edge_ptrs (st : pool) (i : nat) : list nat :=
  match p_graphs st !! i with Some g => elems (earrs (p_heap st)) (he_edges (hg_edges g)) | None => [] end.
(** Graphs [i] and [j] have one node [n]. *)
Definition shares_node (st : pool) (i j : nat) (n : gostr) : Prop := exists p, has_node st i n p /\ has_node st j n p.
Global Instance has_node_dec st i n p : Decision (has_node st i n p).
Proof.
  unfold has_node. destruct (p_graphs st !! i) as [g|]; [|right; intros (? & ? & _); done].
  destruct (decide (hn_lookup (hg_nodes g) !! n = Some p)) as [H|H]; [left; by exists g|right; intros (g' & [= <-] & ?); done].
Defined.
Global Instance shares_node_dec st i j n : Decision (shares_node st i j n).
Proof.
  destruct (p_graphs st !! i ≫= fun g => hn_lookup (hg_nodes g) !! n) as [p|] eqn:E.
  - destruct (decide (has_node st i n p /\ has_node st j n p)) as [H|H]; [left; by exists p|]. right. intros (q & (g & Hg & Hq) & Hj). apply H.
    rewrite Hg in E. cbn in E. rewrite Hq in E. injection E as <-. split; [by exists g|done].
  - right. intros (q & (g & Hg & Hq) & _). rewrite Hg in E. cbn in E. congruence.
Defined.
(** The node [n] has the attributes [a], the rest is as it was. *)
Definition s_set_node (s : sgraph) (n : gostr) (a : attrs) : sgraph :=
  SGraph (s_name s) (s_directed s) (s_strict s) (s_attrs s) (<[n := a]> (s_nodes s)) (s_order s) (s_edges s) (s_subs s) (s_rels s).
(** A node [n] with the attributes [a] is new. *)
Definition s_new_node (s : sgraph) (n : gostr) (a : attrs) : sgraph :=
  SGraph (s_name s) (s_directed s) (s_strict s) (s_attrs s) (<[n := a]> (s_nodes s)) (s_order s ++ [n]) (s_edges s) (s_subs s) (s_rels s).
(** The node [n] gets the attributes [m], which win over the ones it has. *)
Definition s_extend_node (s : sgraph) (n : gostr) (m : attrs) : sgraph := s_set_node s n (m ∪ default ∅ (s_nodes s !! n)).
(** The edge with other attributes *)
Definition with_e_attrs (e : edge) (a : attrs) : edge := Edge (e_src e) (e_src_port e) (e_dst e) (e_dst_port e) (e_dir e) a.
(** A call on graph [i] that returned [r] as another graph sees it that shares the nodes named by [shared]: it only sees
    attributes that are given to these nodes. *)
Definition from_afar (c : call) (r : option err) (shared : gostr -> Prop) `{!forall n, Decision (shared n)} (s : sgraph) : sgraph :=
  match c, r with
  | CAddNode _ n m, None => if decide (shared n) then s_extend_node s n m else s
  | _, _ => s
  end.
(** The same for a node, where [named n] says that it is the node [n] of graph [i] *)
Definition node_from_afar (c : call) (r : option err) (named : gostr -> Prop) `{!forall n, Decision (named n)} (nd : node) : node :=
  match c, r with
  | CAddNode _ n m, None => if decide (named n) then Node (node_name nd) (m ∪ node_attrs nd) else nd
  | _, _ => nd
  end.
(** What an event does to the caller's maps *)
Definition maps_after (e : pevent) (env : list attrs) : list attrs :=
  match e with
  | PMake m => env ++ [m]
  | PSet i k v => alter (fun m : attrs => <[k := v]> m) i env
  | PDel i k => alter (fun m : attrs => delete k m) i env
  | _ => env
  end.
(** g.Nodes.Nodes, as pointers *)
Definition node_ptrs (st : pool) (i : nat) : list nat :=
  match p_graphs st !! i with Some g => elems (narrs (p_heap st)) (hn_nodes (hg_nodes g)) | None => [] end.

(** ** Histories *)
Definition fair_pevent (e : pevent) : Prop :=
  match e with PCall _ _ o _ | PGiveNode _ _ o _ | PNodeAttr o _ _ | PEdgeAttr o _ _ => fair o | _ => True end.
(** The states that programs come to *)
Definition made (st : pool) : Prop := exists es, Forall fair_pevent es /\ st = (prun es nothing).1.
(** Nothing is done through pointers: only methods of Graph are called. *)
Definition only_calls (e : pevent) : Prop :=
  match e with PGiveNode _ _ _ _ | PGiveEdge _ _ _ | PNodeAttr _ _ _ | PEdgeAttr _ _ _ => False | _ => True end.
(** What is left of a history if there is no graph but [i]; [k] graphs are there before it. A call on a graph that is not there is none. *)
Fixpoint events_of (i k : nat) (es : list pevent) : list event :=
  match es with
  | [] => []
  | PNew :: es' => events_of i (S k) es'
  | PMake m :: es' => EMake m :: events_of i k es'
  | PSet j x v :: es' => ESet j x v :: events_of i k es'
  | PDel j x :: es' => EDel j x :: events_of i k es'
  | PCall j grow o c :: es' => if decide (j = i /\ i < k) then ECall grow o c :: events_of i k es' else events_of i k es'
  | _ :: es' => events_of i k es'
  end.
(** The results that calls on graph [i] returned *)
Fixpoint results_of (i : nat) (es : list pevent) (st : pool) : list (option err) :=
  match es with
  | [] => []
  | e :: es' => (match e with PCall j _ _ _ => if decide (j = i) then (pstep e st).2 else [] | _ => [] end) ++ results_of i es' (pstep e st).1
  end.
