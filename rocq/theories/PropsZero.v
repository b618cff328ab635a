(** Property C74: zero values and nil maps. *)
From Verif Require Import Base Parser Maps Graph AttrMap SpecGraph MapFacts GraphProofs Direct Write EdgeOrder PropsWrite Zero SpecZero ZeroProofs ZeroProofs2 ZeroProofs3 ZeroProofs4 ZeroProofs5 ZeroWrite.
From Verif Require Ast PropsGraph.
From Coq Require Import Sorting.Sorted.

Lemma sorts_any o : fair o -> sorts (edge_less o) srt0.
Proof.
  intros Fo l. destruct (sorts0 l) as [P S0]. split; [exact P|].
  assert (E : forall x y, edge_less o x y = edge_less o_id x y).
  { intros x y. destruct (edge_less o x y) eqn:A, (edge_less o_id x y) eqn:B; try reflexivity; exfalso.
    - apply (edge_less_spec o) in A; [|exact Fo]. apply (edge_less_spec o_id) in A; [congruence|apply PropsGraph.fair_id].
    - apply (edge_less_spec o_id) in B; [|apply PropsGraph.fair_id]. apply (edge_less_spec o) in B; [congruence|exact Fo]. }
  eapply (StronglySorted_ind (fun l => StronglySorted (fun x y => edge_less o y x = false) l)); [constructor| |exact S0]. intros x m _ IH F. constructor; [exact IH|].
  eapply Forall_impl; [exact F|]. intros y Hy. cbn in *. rewrite E. exact Hy.
Qed.

(** ** Calls *)
(** On any graph whatever, a method of Graph panics exactly when SpecZero.v says so; otherwise it does what it does on the graph in which
    nil is replaced by empty, and the nil that it leaves reads the same. *)
Theorem C74_calls : forall o c z, fair o ->
  ((zexec o c z).2 = Panicked <-> panics o c z) /\
  (forall z' r, zexec o c z = (z', Done r) -> exec o c (fill z) = (fill z', r)).
Proof. intros o c z Fo. split; [apply zexec_panics, Fo|intros z' r; apply zexec_agrees]. Qed.
(** The same for the methods of the containers and for assignments. *)
Theorem C74_direct : forall o d z, fair o -> zpossible z d ->
  ((zexec_direct o d z).2 = Panicked <-> panics_direct d z) /\
  (forall z' r, zexec_direct o d z = (z', Done r) -> possible (fill z) (plain_direct d) /\ exec_direct o (plain_direct d) (fill z) = (fill z', r)).
Proof.
  intros o d z Fo Ps. split; [apply zexec_direct_panics; assumption|]. intros z' r H. split; [apply zpossible_possible, Ps|apply zexec_direct_agrees; assumption].
Qed.
(** What a call that panics has done before. *)
Theorem C74_after_panic : forall o c z z', fair o -> pointers_ok z -> zexec o c z = (z', Panicked) -> left_by o c z z'.
Proof. intros o c z z'. apply zexec_left. Qed.
Theorem C74_after_panic_direct : forall o d z z', fair o -> pointers_ok z -> zpossible z d -> zexec_direct o d z = (z', Panicked) -> left_by_direct o d z z'.
Proof. intros o d z z'. apply zexec_direct_left. Qed.
(** No method of Graph makes a map or a container nil, or puts one where there is none, except that removals give Edges new maps. *)
Theorem C74_nil_stays : forall o c z z' r, zexec o c z = (z', r) -> nils z' = nils z /\ (~ is_removal c -> edge_nils z' = edge_nils z).
Proof. intros o c z z' r. apply zexec_nils. Qed.

(** ** Graphs from NewGraph() have no nil, as long as the caller brings in none, and nothing panics on them. *)
Theorem C74_no_nil : forall z, zbuilt z ->
  made z /\ built (fill z) /\
  (forall o c, fair o -> exists z' r, zexec o c z = (z', Done r) /\ exec o c (fill z) = (fill z', r)) /\
  (forall o d, fair o -> zpossible z d -> exists z' r, zexec_direct o d z = (z', Done r) /\ exec_direct o (plain_direct d) (fill z) = (fill z', r)).
Proof.
  intros z B. destruct (zbuilt_made z B) as [M Bf]. split; [exact M|]. split; [exact Bf|]. split.
  - intros o c Fo. pose proof (made_no_panic o c z Fo M) as N. destruct (zexec o c z) as [z' [r|]] eqn:E; [|contradiction]. exists z', r. split; [reflexivity|]. apply zexec_agrees, E.
  - intros o d Fo Ps. pose proof (made_no_panic_direct o d z Fo M Ps) as N. destruct (zexec_direct o d z) as [z' [r|]] eqn:E; [|contradiction]. exists z', r. split; [reflexivity|]. apply zexec_direct_agrees; assumption.
Qed.
(** Every graph that Graph.v and Direct.v speak of is one of these, read without nil. *)
Theorem C74_all_graphs : forall g, reachable g -> exists z, zbuilt z /\ fill z = g.
Proof.
  induction 1 as [|g o c _ (z & B & <-) Fo].
  - exists z_new_graph. split; [constructor|apply fill_new].
  - destruct (C74_no_nil z B) as (_ & _ & H & _). destruct (H o c Fo) as (z' & r & E & E'). exists z'. split; [|by rewrite E'].
    replace z' with (zexec o c z).1 by (by rewrite E). constructor; assumption.
Qed.

(** ** Writing *)
(** With all four containers, nil attributes and nil maps are written as empty ones. *)
Theorem C74_write : forall zsrt o z fuel, fair o -> zsorts (zedge_less o) zsrt ->
  z_nodes z <> None -> z_edges z <> None -> z_subs z <> None -> z_rels z <> None ->
  exists srt, sorts (edge_less o) srt /\ zwrite_ast zsrt o z fuel = write_ast srt o (fill z) fuel /\ zgraph_string zsrt o z fuel = graph_string srt o (fill z) fuel.
Proof.
  intros zsrt o z fuel Fo HZ HN HE HS HR. destruct (z_nodes z) as [ns|] eqn:N; [|contradiction]. destruct (z_edges z) as [es|] eqn:E; [|contradiction].
  destruct (z_subs z) as [ss|] eqn:S0; [|contradiction]. destruct (z_rels z) as [rs|] eqn:R; [|contradiction].
  destruct (zsort_sort o zsrt srt0 (ze_list es) HZ (sorts_any o Fo)) as (srt & Hs & X). exists srt. split; [exact Hs|].
  assert (W : zwrite_ast zsrt o z fuel = write_ast srt o (fill z) fuel) by (eapply zwrite_ast_eq; eauto). split; [exact W|]. unfold zgraph_string, graph_string. by rewrite W.
Qed.
(** Without Nodes, Edges or SubGraphs, WriteAst and String panic, whatever else the graph has (so on Graph{}). *)
Theorem C74_write_panics : forall zsrt o z fuel, z_nodes z = None \/ z_edges z = None \/ z_subs z = None ->
  zwrite_ast zsrt o z (S fuel) = Panic /\ zgraph_string zsrt o z (S fuel) = Panic.
Proof.
  intros zsrt o z fuel H. assert (W : zwrite_ast zsrt o z (S fuel) = Panic).
  { destruct H as [H|[H|H]]; [apply nn_write, H| |apply ns_write, H]. unfold zwrite_ast. destruct (append_attrs _ _ _). by rewrite H. }
  split; [exact W|]. unfold zgraph_string. by rewrite W.
Qed.
(** Without Relations they panic exactly if there is a subgraph, unless an edge is at fault first. *)
Theorem C74_write_relations : forall zsrt o z ss fuel, fair o -> zsorts (zedge_less o) zsrt ->
  z_nodes z <> None -> z_edges z <> None -> z_subs z = Some ss -> z_rels z = None ->
  exists srt, sorts (edge_less o) srt /\
    ((forall n, g_subs (fill z) !! n = None) -> zwrite_ast zsrt o z (S fuel) = write_ast srt o (fill z) (S fuel)) /\
    (forall n, is_Some (g_subs (fill z) !! n) -> zwrite_ast zsrt o z (S fuel) = Panic \/
       exists e, zwrite_ast zsrt o z (S fuel) = Err e /\ write_ast srt o (fill z) (S fuel) = Err e).
Proof.
  intros zsrt o z ss fuel Fo HZ HN HE S0 R. destruct (z_nodes z) as [ns|] eqn:N; [|contradiction]. destruct (z_edges z) as [es|] eqn:E; [|contradiction].
  destruct (zsort_sort o zsrt srt0 (ze_list es) HZ (sorts_any o Fo)) as (srt & Hs & X). exists srt. split; [exact Hs|].
  destruct (nr_write o z ns ss N S0 R zsrt srt es fuel E X Fo) as [W1 W2]. split.
  - intros H. apply W1. apply map_empty. intros n. specialize (H n). rewrite (g_sub z ss S0) in H. by destruct (default ∅ (zs_map ss) !! n).
  - intros n [s H]. apply W2. intros Y. rewrite (g_sub z ss S0), Y, lookup_empty in H. discriminate.
Qed.

(** ** The zero value *)
(** On Graph{} only SetName, SetDir and SetStrict succeed; the calls that fail before they touch the graph fail as always; the others panic. *)
Theorem C74_zero_graph : forall o c, fair o ->
  (zexec o c zero_graph).2 = Panicked <->
  match c with
  | CSetStrict _ | CSetDir _ | CSetName _ => False
  | CAddPortEdge _ _ _ _ _ m | CAddEdge _ _ _ m | CAddNode _ _ m => all_valid m
  | CAddAttr p f _ => p <> [] \/ valid_attr f
  | CAddSubGraph _ _ _ | CRemoveNode _ _ | CRemoveSubGraph _ _ => True
  end.
Proof.
  intros o c Fo. rewrite zexec_panics by exact Fo. unfold panics, edges_nil, nodes_nil, rels_nil, subs_nil, nil_owner.
  destruct c; cbn [zero_graph z_name z_attrs z_nodes z_edges z_subs z_rels]; try tauto.
  - split; [tauto|]. intros V. split; [exact V|]. discriminate.
  - split; [tauto|]. intros V. split; [exact V|]. discriminate.
  - split; [tauto|]. intros V. split; [exact V|]. left. discriminate.
  - split.
    + intros [[N _]|[_ V]]; [left; congruence|auto].
    + intros [N|V]; [left; split; [congruence|reflexivity]|]. destruct (decide ([] = parent)) as [<-|N]; [right; auto|left; auto].
  - split; [auto|]. intros _. left. discriminate.
  - split; [auto|]. intros _ r. discriminate.
Qed.

(** ** Examples *)
(** g := NewGraph(); g.SetName("G"); g.Nodes.Add(&Node{Name: "a"}): the node has nil attributes; String writes it, AddNode with
    attributes panics, AddNode without them succeeds. *)
Definition z_nil : zgraph := (zexec_direct o_id (ZNodesAdd (lit "a") None) (zexec o_id (CSetName (lit "G")) z_new_graph).1).1.
Definition zsrt0 : list zedge -> list zedge := sort_by (fun x y => negb (zedge_less o_id y x)).
Example C74_nil_node : nil_node z_nil (lit "a") /\
  zgraph_string zsrt0 o_id z_nil 9 = Ok (lit "graph G {
	a;
}
") /\
  (zexec o_id (CAddNode (lit "G") (lit "a") ∅) z_nil).2 = Done None /\
  (zexec o_id (CAddNode (lit "G") (lit "a") {[lit "color" := lit "red"]}) z_nil).2 = Panicked /\
  (zexec o_id (CAddNode (lit "G") (lit "a") {[lit "nonsense" := lit "red"]}) z_nil).2 = Done (Some (lit "nonsense is not a valid attribute")) /\
  (zexec_direct o_id (ZAttrs (TNode (lit "a")) (ZAssign (Some ∅))) z_nil).2 = Done None.
Proof.
  split.
  { exists (ZNode (lit "a") None). split; [|reflexivity]. exists (ZNodes (Some {[lit "a" := 0]}) [0] {[0 := ZNode (lit "a") None]} 1), {[lit "a" := 0]}, 0.
    repeat split; vm_compute; reflexivity. }
  repeat split; vm_compute; reflexivity.
Qed.
(** AddSubGraph for a name whose attributes are nil panics or returns an error, depending on the order in which the map is iterated. *)
Definition m_two : attrs := {[lit "color" := lit "red"; lit "nonsense" := lit "1"]}.
Definition o_rev : oracle := Oracle (fun _ m => rev (map_to_list m)) (fun _ s => elements s).
Lemma fair_rev : fair o_rev.
Proof. split; intros; cbn; [symmetry; apply Permutation_rev|reflexivity]. Qed.
Definition z_noattrs : zgraph := zw_attrs (zexec o_id (CSetName (lit "G")) z_new_graph).1 None.
Example C74_order_matters : exists o o', fair o /\ fair o' /\
  (zexec o (CAddSubGraph (lit "G") (lit "G") m_two) z_noattrs).2 = Panicked /\
  (zexec o' (CAddSubGraph (lit "G") (lit "G") m_two) z_noattrs).2 = Done (Some (lit "nonsense is not a valid attribute")).
Proof.
  assert (H : ((zexec o_id (CAddSubGraph (lit "G") (lit "G") m_two) z_noattrs).2 = Panicked /\
    (zexec o_rev (CAddSubGraph (lit "G") (lit "G") m_two) z_noattrs).2 = Done (Some (lit "nonsense is not a valid attribute"))) \/
   ((zexec o_rev (CAddSubGraph (lit "G") (lit "G") m_two) z_noattrs).2 = Panicked /\
    (zexec o_id (CAddSubGraph (lit "G") (lit "G") m_two) z_noattrs).2 = Done (Some (lit "nonsense is not a valid attribute")))).
  { first [left; split; vm_compute; reflexivity|right; split; vm_compute; reflexivity]. }
  destruct H as [[H1 H2]|[H1 H2]]; [exists o_id, o_rev|exists o_rev, o_id]; repeat split; auto; try apply PropsGraph.fair_id; apply fair_rev.
Qed.
(** g := &Graph{}; g.SetName("G"); then containers one by one: AddNode panics without Relations, but the node is there. *)
Definition z_half : zgraph := zw_nodes zero_graph (Some z_new_nodes).
Example C74_half : (zexec o_id (CAddNode (lit "G") (lit "a") ∅) z_half).2 = Panicked /\
  is_node (fill (zexec o_id (CAddNode (lit "G") (lit "a") ∅) z_half).1) (lit "a") = true /\ pointers_ok z_half.
Proof.
  split; [vm_compute; reflexivity|]. split; [vm_compute; reflexivity|]. intros ns [= <-] n lk p [= <-] L. rewrite lookup_empty in L. discriminate.
Qed.
(** g.Edges = &Edges{SrcToDsts: ...}: AddEdge panics, the edge is in SrcToDsts but not in Edges.  g.Relations = &Relations{ParentToChildren: ...}:
    AddSubGraph panics, the parent has its child. *)
Definition z_one_map : zgraph := zw_rels (zw_edges (zexec o_id (CSetName (lit "G")) z_new_graph).1 (Some (ZEdges (Some ∅) None []))) (Some (ZRels (Some ∅) None)).
Example C74_half_edge :
  let z' := (zexec o_id (CAddEdge (lit "a") (lit "b") true ∅) z_one_map).1 in
  (zexec o_id (CAddEdge (lit "a") (lit "b") true ∅) z_one_map).2 = Panicked /\
  map e_dst (default [] (default ∅ (src_to_dsts (g_edges (fill z')) !! lit "a") !! lit "b")) = [lit "b"] /\ edges_list (g_edges (fill z')) = [] /\
  (zexec o_id (CAddSubGraph (lit "G") (lit "S") ∅) z_one_map).2 = Panicked /\
  elements (children (g_rels (fill (zexec o_id (CAddSubGraph (lit "G") (lit "S") ∅) z_one_map).1)) (lit "G")) = [lit "S"].
Proof. repeat split; vm_compute; reflexivity. Qed.
(** g := NewGraph(); g.Relations = nil. *)
Example C74_no_relations : zgraph_string zsrt0 o_id (zw_rels (zexec o_id (CAddNode (lit "G") (lit "a") ∅) (zexec o_id (CSetName (lit "G")) z_new_graph).1).1 None) 9 = Ok (lit "graph G {
	a;
}
") /\
  zgraph_string zsrt0 o_id (zw_rels (zexec o_id (CAddSubGraph (lit "G") (lit "S") ∅) (zexec o_id (CSetName (lit "G")) z_new_graph).1).1 None) 9 = Panic.
Proof. split; vm_compute; reflexivity. Qed.
Print Assumptions C74_calls.
Print Assumptions C74_direct.
Print Assumptions C74_after_panic.
Print Assumptions C74_after_panic_direct.
Print Assumptions C74_nil_stays.
Print Assumptions C74_no_nil.
Print Assumptions C74_all_graphs.
Print Assumptions C74_write.
Print Assumptions C74_write_panics.
Print Assumptions C74_write_relations.
Print Assumptions C74_zero_graph.
