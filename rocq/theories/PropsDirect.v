(** Property C58: calls on the containers of a graph. (C13-C15, C17-C22, C28, C30, C32-C34 and C45 are stated for all
    graphs that such calls can build, too.) *)
From Verif Require Import Maps Graph SpecGraph MapFacts GraphProofs Direct SpecDirect DirectProofs Write.
From Verif Require PropsGraph PropsWrite.
Notation A := PropsGraph.A.
Notation o_id := PropsGraph.o_id.

(** Each call does what SpecDirect.v says, whatever was called before. *)
Theorem C58_direct_calls : forall o d g, fair o -> built g -> possible g d ->
  spec_direct (fun p => nodes_heap (g_nodes g) !! p) (fun n => nodes_lookup (g_nodes g) !! n) d (view g) (view (exec_direct o d g).1) (exec_direct o d g).2.
Proof.
  intros o d g Fo R Hp. destruct (@built_with_ok _ accepts_any g (built_any g R)) as [OK Hh].
  apply (@direct_ok _ accepts_any); try assumption. apply Forall_forall. intros m _ k v _. exact I.
Qed.
Print Assumptions C58_direct_calls.
(** The methods of Graph do what SpecGraph.v says also after such calls. *)
Theorem C58_graph_calls : forall o c g, fair o -> built g -> spec_call c (view g) (view (exec o c g).1) (exec o c g).2.
Proof. intros o c g Fo R. apply (@exec_ok _ accepts_any); [exact Fo|apply built_ok; exact R]. Qed.
Print Assumptions C58_graph_calls.
(** Names of attributes are not checked by these calls, but none appears from elsewhere: every name in the graph is valid
    or was brought in by such a call. *)
Theorem C58_attribute_names : forall (P : gostr -> Prop) g, (forall k, valid_attr k -> P k) -> built_with P g -> forall k v,
  (g_attrs g !! k = Some v -> P k) /\
  (forall n s, g_subs g !! n = Some s -> sub_attrs s !! k = Some v -> P k) /\
  (forall p nd, nodes_heap (g_nodes g) !! p = Some nd -> node_attrs nd !! k = Some v -> P k) /\
  (forall e, e ∈ edges_list (g_edges g) -> e_attrs e !! k = Some v -> P k).
Proof.
  intros P g HP R k v. destruct (@built_with_ok P HP g R) as [OK Hh]. split; [apply (go_attrs g OK)|]. split; [|split].
  - intros n s H. apply (go_sattrs g OK n s H).
  - intros p nd H. apply (Hh p nd H).
  - intros e H. apply (go_eattrs g OK e H).
Qed.
Print Assumptions C58_attribute_names.
(** In particular C16 holds if the names that are brought in are valid; without this it does not. *)
Theorem C58_invalid_name : exists g, built g /\ exists a, s_nodes (view g) !! lit "a" = Some a /\ is_Some (a !! lit "nonsense") /\ ~ valid_attr (lit "nonsense").
Proof.
  exists (exec_direct o_id (DNodesAdd (lit "a") (A [(lit "nonsense", lit "1")])) new_graph).1. split.
  - apply built_direct; [constructor|apply PropsGraph.fair_id|exact I].
  - eexists. split; [vm_compute; reflexivity|]. split; [vm_compute; eauto|]. unfold valid_attr. intros H. apply (bool_decide_pack _) in H. revert H. vm_compute. intros [].
Qed.
Print Assumptions C58_invalid_name.

(** ** Example: nodes, edges, subgraphs and relations made by hand; a node is removed and the old pointer is added again
    under a node of the same name. *)
Fixpoint drun (l : list (call + direct_call)) (g : agraph) : agraph :=
  match l with [] => g | inl c :: l' => drun l' (exec o_id c g).1 | inr d :: l' => drun l' (exec_direct o_id d g).1 end.
Fixpoint dpossible (l : list (call + direct_call)) (g : agraph) : Prop :=
  match l with [] => True | inl c :: l' => dpossible l' (exec o_id c g).1 | inr d :: l' => possible g d /\ dpossible l' (exec_direct o_id d g).1 end.
Lemma drun_built l : forall g, dpossible l g -> built g -> built (drun l g).
Proof.
  induction l as [|[c|d] l IH]; intros g H R; cbn in *; [exact R| |].
  - apply IH; [exact H|]. apply built_call; [exact R|apply PropsGraph.fair_id].
  - destruct H as [H1 H2]. apply IH; [exact H2|]. apply built_direct; [exact R|apply PropsGraph.fair_id|exact H1].
Qed.
Definition h9 : list (call + direct_call) :=
  [inl (CSetName (lit "G")); inl (CSetDir true); inr (DNodesAdd (lit "a") (A [(lit "color", lit "red")])); inr (DRelationsAdd (lit "G") (lit "a"));
   inr (DSubGraphsAdd (lit "S")); inr (DRelationsAdd (lit "G") (lit "S")); inl (CAddNode (lit "S") (lit "b") ∅);
   inr (DEdgesAdd (Edge (lit "a") [] (lit "b") [] true ∅)); inl (CRemoveNode (lit "G") (lit "a")); inl (CAddNode (lit "S") (lit "a") (A [(lit "label", lit "x")]));
   inr (DNodesAddOld 0); inr (DAttrs (TSub (lit "S")) (AExtend (A [(lit "rank", lit "same")]))); inr (DAttrs (TNode (lit "b")) (AAdd (lit "shape") (lit "box")));
   inr (DEdgesAdd (Edge (lit "b") [] (lit "a") [] true ∅)); inr (DRelationsAdd (lit "T") (lit "x")); inr (DRelationsRemove (lit "T") (lit "x"))].
Example C58_example : built (drun h9 new_graph) /\ graph_string PropsWrite.srt0 o_id (drun h9 new_graph) 9 = Parser.Ok (lit "digraph G {
	b->a;
	subgraph S {
		rank=same;
		a [ color=red, label=x ];
		b [ shape=box ];
	};
}
").
Proof. split; [apply drun_built; [vm_compute; repeat split; eauto|constructor]|]. vm_compute. reflexivity. Qed.

(** A pointer to a node keeps its name, and shows the same attributes unless it is in the graph or they are changed through it; then they change as said. *)
Theorem C58_pointers : forall o d g q nd, fair o -> built g -> possible g d -> nodes_heap (g_nodes g) !! q = Some nd ->
  exists nd', nodes_heap (g_nodes (exec_direct o d g).1) !! q = Some nd' /\ node_name nd' = node_name nd /\
    (forall op, d = DAttrs (TPtr q) op -> spec_attr op (node_attrs nd) (node_attrs nd') (exec_direct o d g).2) /\
    (nodes_lookup (g_nodes g) !! node_name nd <> Some q -> (forall op, d <> DAttrs (TPtr q) op) -> nd' = nd).
Proof.
  intros o d g q nd F R Hp Hq. pose proof (built_ok g R) as OK.
  assert (SAME : forall ns, nodes_heap ns = nodes_heap (g_nodes g) -> (forall op, d <> DAttrs (TPtr q) op) -> exists nd', nodes_heap ns !! q = Some nd' /\ node_name nd' = node_name nd /\
    (forall op, d = DAttrs (TPtr q) op -> spec_attr op (node_attrs nd) (node_attrs nd') (exec_direct o d g).2) /\
    (nodes_lookup (g_nodes g) !! node_name nd <> Some q -> (forall op, d <> DAttrs (TPtr q) op) -> nd' = nd)).
  { intros ns -> ND. exists nd. split; [exact Hq|]. split; [reflexivity|]. split; [intros op E; destruct (ND op E)|reflexivity]. }
  assert (SET : forall p a, (forall op, d <> DAttrs (TPtr q) op) -> nodes_lookup (g_nodes g) !! node_name (deref (g_nodes g) p) = Some p -> exists nd', <[p := Node (node_name (deref (g_nodes g) p)) a]> (nodes_heap (g_nodes g)) !! q = Some nd' /\ node_name nd' = node_name nd /\
    (forall op, d = DAttrs (TPtr q) op -> spec_attr op (node_attrs nd) (node_attrs nd') (exec_direct o d g).2) /\
    (nodes_lookup (g_nodes g) !! node_name nd <> Some q -> (forall op, d <> DAttrs (TPtr q) op) -> nd' = nd)).
  { intros p a ND Hl. assert (Dq : deref (g_nodes g) q = nd) by (unfold deref; rewrite Hq; reflexivity). destruct (decide (p = q)) as [->|Hn].
    - rewrite lookup_insert. eexists. split; [reflexivity|]. cbn. rewrite Dq in *. split; [reflexivity|]. split; [intros op E; destruct (ND op E)|]. intros N. contradiction.
    - rewrite lookup_insert_ne by exact Hn. exists nd. split; [exact Hq|]. split; [reflexivity|]. split; [intros op E; destruct (ND op E)|reflexivity]. }
  destruct d as [n a|p|n|e|n|n|p c|p c|t op|i sp dp dir]; cbn [exec_direct fst g_nodes]; try (apply SAME; [reflexivity|discriminate]).
  - cbn [with_nodes g_nodes]. unfold nodes_add. destruct (nodes_lookup (g_nodes g) !! n) as [p|] eqn:El.
    + cbn [nodes_heap]. apply SET; [discriminate|]. rewrite (deref_lookup _ (go_nodes g OK) n p El). exact El.
    + cbn [nodes_heap]. exists nd. split; [|split; [reflexivity|split; [discriminate|reflexivity]]]. rewrite lookup_insert_ne; [exact Hq|].
      pose proof (no_heap _ (go_nodes g OK) _ _ Hq). lia.
  - cbn [with_nodes g_nodes]. unfold nodes_add_old. destruct (nodes_lookup (g_nodes g) !! node_name (deref (g_nodes g) p)) as [r|] eqn:El; [|apply SAME; [reflexivity|discriminate]].
    cbn [nodes_heap]. apply SET; [discriminate|]. rewrite (deref_lookup _ (go_nodes g OK) _ r El). exact El.
  - pose proof (nodes_remove_heap (g_nodes g) n) as E. cbn [exec_direct] in SAME. destruct (nodes_remove (g_nodes g) n) as [ns r]. cbn in *. apply SAME; [exact E|discriminate].
  - destruct t as [|n|n|i|p].
    + cbn [exec_direct] in SAME. destruct (exec_attr _ _ _). apply SAME; [reflexivity|discriminate].
    + cbn [exec_direct] in SAME. destruct (g_subs g !! n); [|apply SAME; [reflexivity|discriminate]]. destruct (exec_attr _ _ _). apply SAME; [reflexivity|discriminate].
    + cbn [exec_direct] in SAME, SET. destruct (nodes_lookup (g_nodes g) !! n) as [p|] eqn:El; [|apply SAME; [reflexivity|discriminate]].
      destruct (exec_attr _ _ _) as [a r]. cbn [fst with_nodes g_nodes nodes_set_attrs nodes_heap]. apply SET; [discriminate|]. rewrite (deref_lookup _ (go_nodes g OK) n p El). exact El.
    + cbn [exec_direct] in SAME. destruct (edges_list (g_edges g) !! i) as [e|]; [|apply SAME; [reflexivity|discriminate]]. destruct (exec_attr _ _ _). apply SAME; [reflexivity|discriminate].
    + clear SAME SET. pose proof (exec_attr_spec o op (node_attrs (deref (g_nodes g) p)) F) as S. destruct (exec_attr o op (node_attrs (deref (g_nodes g) p))) as [a r]. cbn [fst snd with_nodes g_nodes nodes_set_attrs nodes_heap] in *.
      destruct (decide (p = q)) as [->|Hn].
      * assert (Dq : deref (g_nodes g) q = nd) by (unfold deref; rewrite Hq; reflexivity). rewrite Dq in *. rewrite lookup_insert. eexists. split; [reflexivity|]. split; [reflexivity|].
        split; [intros op' [= <-]; exact S|]. intros _ ND. destruct (ND op eq_refl).
      * rewrite lookup_insert_ne by exact Hn. exists nd. split; [exact Hq|]. split; [reflexivity|]. split; [intros op' [= -> _]; contradiction|reflexivity].
  - cbn [exec_direct] in SAME. destruct (edges_list (g_edges g) !! i) as [e|]; apply SAME; try reflexivity; discriminate.
Qed.
Print Assumptions C58_pointers.

(** ** Example: attributes and fields of edges are assigned, attributes are deleted, a whole map is assigned, a removed node is changed through a pointer. *)
Definition h10 : list (call + direct_call) :=
  [inl (CSetName (lit "G")); inl (CSetDir true); inl (CAddNode (lit "G") (lit "a") (A [(lit "color", lit "red")])); inl (CAddNode (lit "G") (lit "b") (A [(lit "color", lit "red"); (lit "label", lit "l")]));
   inl (CAddNode (lit "G") (lit "c") ∅); inl (CAddEdge (lit "a") (lit "b") true (A [(lit "label", lit "x")])); inl (CAddEdge (lit "b") (lit "c") true ∅); inl (CAddEdge (lit "a") (lit "b") true ∅);
   inr (DAttrs (TEdge 2) (ASet (lit "style") (lit "bold"))); inr (DAttrs (TEdge 0) (ADelete (lit "label"))); inr (DEdgeFields 1 (lit "p") [] true);
   inr (DAttrs (TNode (lit "b")) (ADelete (lit "color"))); inl (CRemoveNode (lit "G") (lit "a")); inl (CAddNode (lit "G") (lit "a") ∅);
   inr (DAttrs (TPtr 0) (ASet (lit "shape") (lit "box"))); inr (DAttrs (TPtr 1) (ASet (lit "shape") (lit "oval"))); inl (CAddEdge (lit "a") (lit "b") true ∅); inr (DAttrs (TEdge 1) (AAssign (A [(lit "my", lit "own")])))].
Example C58_edit_example : built (drun h10 new_graph) /\ graph_string PropsWrite.srt0 o_id (drun h10 new_graph) 9 = Parser.Ok (lit "digraph G {
	a->b [ my=own ];
	b:p->c;
	a;
	b [ label=l, shape=oval ];
	c;
}
").
Proof. split; [apply drun_built; [vm_compute; repeat split; eauto|constructor]|]. vm_compute. reflexivity. Qed.
