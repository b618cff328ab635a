(** Property C71: what becomes of a graph when the field Name of a node or of a subgraph is assigned through a pointer (Rename.v). *)
From Verif Require Import Maps MapFacts Parser Graph GraphProofs Write Direct DirectProofs SpecGraph SpecWrite SpecCount Rename SpecRename RenameProofs PropsWrite.
From Verif Require Ast.

(** A node [a] gets the new name [n].  If its statement was inside a subgraph, the written tree is the old one with the new name
    everywhere; if it was at the top level, WriteAst and String dereference a nil pointer.  Errors and endless recursion stay. *)
Theorem C71_node_text : forall srt o g a n fuel, fair o -> built g ->
  is_node g a = true -> is_node g n = false -> is_subgraph g a = false -> is_subgraph g n = false ->
  write_ast srt o (assign_node_name g a n) fuel =
  match write_ast srt o g fuel with
  | Ok t => if decide (a ∈ top_nodes t) then Panic else Ok (node_renamed a n t)
  | x => x
  end.
Proof. intros srt o g a n fuel Fo B N1 N2 S1 S2. apply node_text; auto. apply built_ok. exact B. Qed.
Print Assumptions C71_node_text.
Theorem C71_node_string : forall srt o g a n fuel t, fair o -> built g ->
  is_node g a = true -> is_node g n = false -> is_subgraph g a = false -> is_subgraph g n = false ->
  write_ast srt o g fuel = Ok t ->
  (a ∈ top_nodes t -> graph_string srt o (assign_node_name g a n) fuel = Panic) /\
  (a ∉ top_nodes t -> graph_string srt o (assign_node_name g a n) fuel = Ok (Ast.graph_str (node_renamed a n t))).
Proof.
  intros srt o g a n fuel t Fo B N1 N2 S1 S2 H. unfold graph_string. rewrite (C71_node_text srt o g a n fuel) by assumption. rewrite H.
  split; intros D; destruct (decide (a ∈ top_nodes t)); try contradiction; reflexivity.
Qed.
Print Assumptions C71_node_string.

(** The calls go by the key: IsNode answers as before; RemoveNode finds neither: with the old name it reports an error, with the
    new name it takes the node out of the slice Nodes but leaves it in Lookup (IsNode still answers true). *)
Theorem C71_node_calls : forall g a n parent, built g -> is_node g a = true -> is_node g n = false ->
  let g' := assign_node_name g a n in
  (forall x, is_node g' x = is_node g x) /\
  remove_node g' parent a = (g', Some (lit "node " ++ a ++ lit " not found")) /\
  exists g2 p, remove_node g' parent n = (g2, None) /\ (forall x, is_node g2 x = is_node g x) /\
    nodes_lookup (g_nodes g) !! a = Some p /\ nodes_list (g_nodes g2) = filter (fun q => q <> p) (nodes_list (g_nodes g)).
Proof.
  intros g a n parent B Na Nn g'. pose proof (built_ok g B) as G. pose proof (go_nodes _ G) as ON.
  destruct (g'_shape g a n G Na) as (p & x & Ep & Hx & Eg). change (assign_node_name g a n) with g' in Eg.
  assert (L : nodes_lookup (g_nodes g') = nodes_lookup (g_nodes g)) by (rewrite Eg; reflexivity).
  assert (LL : nodes_list (g_nodes g') = nodes_list (g_nodes g)) by (rewrite Eg; reflexivity).
  assert (An : a <> n) by (intros ->; congruence).
  assert (D : forall q, q ∈ nodes_list (g_nodes g) -> (q = p /\ node_name (deref (g_nodes g') q) = n) \/ (q <> p /\ node_name (deref (g_nodes g') q) <> n /\ node_name (deref (g_nodes g') q) <> a)).
  { intros q Hq. destruct (no_list _ ON q Hq) as (nd & H1 & H2). rewrite Eg. unfold deref. cbn [g_nodes with_nodes nodes_heap]. destruct (decide (q = p)) as [->|Q].
    - left. rewrite lookup_insert. auto.
    - right. split; [exact Q|]. rewrite lookup_insert_ne by congruence. rewrite H1. cbn [default from_option id]. split; intros E; rewrite E in H2.
      + unfold is_node in Nn. rewrite H2 in Nn. discriminate.
      + congruence. }
  split; [intros y; unfold is_node; rewrite L; reflexivity|]. split.
  - unfold remove_node, nodes_remove. rewrite remove_loop_none; [reflexivity|]. rewrite LL. intros q Hq. destruct (D q Hq) as [[_ E]|(_ & _ & E)]; congruence.
  - destruct (no_lookup _ ON a p Ep) as [Hp _].
    destruct (remove_loop_some (g_nodes g') n p (nodes_list (g_nodes g')) []) as (u & v & Euv & Nu & Er).
    + rewrite LL. exact Hp.
    + destruct (D p Hp) as [[_ E]|(X & _)]; [exact E|congruence].
    + intros q. rewrite LL. intros Hq E. destruct (D q Hq) as [[X _]|(_ & X & _)]; [exact X|contradiction].
    + unfold remove_node, nodes_remove. rewrite Er. eexists _, p. split; [reflexivity|]. split; [|split; [exact Ep|]].
      * intros y. unfold is_node. cbn. rewrite L. rewrite delete_notin; [reflexivity|]. unfold is_node in Nn. destruct (nodes_lookup (g_nodes g) !! n); [discriminate|reflexivity].
      * cbn [g_nodes with_edges with_rels with_nodes nodes_list app]. rewrite LL in Euv. rewrite Euv. pose proof (no_nodup _ ON) as ND. rewrite Euv in ND.
        apply NoDup_app in ND. destruct ND as (N1 & N2 & N3). apply NoDup_cons in N3. destruct N3 as [N3 N4].
        assert (F : forall l : list nat, p ∉ l -> filter (fun q => q <> p) l = l).
        { induction l as [|q l IH]; intros Hl; [reflexivity|]. apply not_elem_of_cons in Hl. destruct Hl as [H1 H2]. rewrite filter_cons_True by congruence. rewrite IH by exact H2. reflexivity. }
        rewrite filter_app, filter_cons_False by auto. rewrite (F u Nu), (F v N3). reflexivity.
Qed.
Print Assumptions C71_node_calls.

(** A subgraph [s] gets the new name [t]: the text is that of the graph without the relation between the main graph and [s]
    (g.Relations.Remove(g.Name, s)), with the new name in all subgraph statements.  (Edges at a cluster show the old name.) *)
Theorem C71_sub_text : forall srt o g s t fuel, fair o -> built g ->
  is_subgraph g s = true -> is_subgraph g t = false -> is_node g s = false -> is_node g t = false ->
  t ∉ children (g_rels g) (g_name g) -> is_subgraph g (g_name g) = false ->
  write_ast srt o (assign_sub_name g s t) fuel =
  match write_ast srt o (with_rels g (relations_remove (g_rels g) (g_name g) s)) fuel with
  | Ok a => Ok (sub_renamed s t a)
  | x => x
  end.
Proof. intros srt o g s t fuel Fo B S1 S2 N1 N2 C1 C2. apply sub_text; auto. apply built_ok. exact B. Qed.
Print Assumptions C71_sub_text.
(** So nothing is lost if the statement of [s] was nested, or was the end of an edge; *)
Theorem C71_sub_nested : forall srt o g s t fuel a, fair o -> built g ->
  is_subgraph g s = true -> is_subgraph g t = false -> is_node g s = false -> is_node g t = false ->
  t ∉ children (g_rels g) (g_name g) -> is_subgraph g (g_name g) = false ->
  write_ast srt o g fuel = Ok a -> s ∉ top_subs a ->
  write_ast srt o (assign_sub_name g s t) fuel = Ok (sub_renamed s t a).
Proof.
  intros srt o g s t fuel a Fo B S1 S2 N1 N2 C1 C2 H T. rewrite (C71_sub_text srt o g s t fuel) by assumption.
  pose proof (cut_text o g s t Fo (built_ok g B) S1 S2 N1 N2 C1 C2 srt fuel a H T) as Q. unfold cut in Q. rewrite Q. reflexivity.
Qed.
Print Assumptions C71_sub_nested.
(** but a subgraph at the top level is not written any more, under either name. *)
Theorem C71_sub_lost : forall srt o g s t fuel a, fair o -> built g ->
  is_subgraph g s = true -> is_subgraph g t = false -> is_node g s = false -> is_node g t = false ->
  t ∉ children (g_rels g) (g_name g) -> is_subgraph g (g_name g) = false ->
  write_ast srt o (assign_sub_name g s t) fuel = Ok a -> s ∉ top_subs a /\ t ∉ top_subs a.
Proof.
  intros srt o g s t fuel a Fo B S1 S2 N1 N2 C1 C2 H. rewrite (C71_sub_text srt o g s t fuel) in H by assumption.
  destruct (write_ast srt o (with_rels _ _) fuel) as [b| | |] eqn:E; try discriminate. injection H as <-.
  pose proof (lost_text o g s t Fo (built_ok g B) S1 S2 N1 N2 C1 C2 srt fuel b E) as L. rewrite top_renamed.
  assert (ST : s <> t) by (intros ->; congruence).
  split; intros X; apply elem_of_list_fmap in X; destruct X as (y & Ey & Hy); destruct (L y Hy) as [Y1 Y2]; unfold instead in Ey; rewrite decide_False in Ey by exact Y1; congruence.
Qed.
Print Assumptions C71_sub_lost.
(** The calls go by the key here too; a successful RemoveSubGraph with the old name undoes the assignment completely. *)
Theorem C71_sub_calls : forall o g s t parent, is_subgraph g s = true -> is_subgraph g t = false -> t <> g_name g ->
  let g' := assign_sub_name g s t in
  (forall x, is_subgraph g' x = is_subgraph g x) /\
  (forall f v, add_attr g' t f v = (g', Some (lit "graph or subgraph " ++ t ++ lit " does not exist"))) /\
  (remove_subgraph o g' parent s).2 = (remove_subgraph o g parent s).2 /\
  ((remove_subgraph o g parent s).2 = None -> (remove_subgraph o g' parent s).1 = (remove_subgraph o g parent s).1).
Proof.
  intros o g s t parent Ss St Ng g'. unfold is_subgraph in Ss, St. destruct (g_subs g !! s) as [sb|] eqn:E; [|discriminate]. destruct (g_subs g !! t) eqn:Et; [discriminate|].
  assert (Eg : g' = with_subs g (<[s := Sub (sub_attrs sb) t]> (g_subs g))) by (unfold g', assign_sub_name; rewrite E; reflexivity).
  assert (ST : s <> t) by (intros ->; congruence).
  split; [|split].
  - intros x. rewrite Eg. unfold is_subgraph. cbn [g_subs with_subs]. destruct (decide (x = s)) as [->|N]; [rewrite lookup_insert, E; reflexivity|rewrite lookup_insert_ne by congruence; reflexivity].
  - intros f v. rewrite Eg. unfold add_attr. cbn [g_name g_subs with_subs]. destruct (str_eqb (g_name g) t) eqn:X; [apply str_eqb_eq in X; congruence|].
    rewrite lookup_insert_ne by congruence. rewrite Et. reflexivity.
  - rewrite Eg. unfold remove_subgraph. cbn [g_rels with_subs]. rewrite remove_nodes_subs.
    pose proof (remove_nodes_subs_same parent (o_names o 0 (children (g_rels g) s)) g) as Q.
    destruct (remove_nodes_loop g parent _) as [g1 [e|]]; cbn [fst snd] in *; [split; [reflexivity|discriminate]|]. split; [reflexivity|]. intros _.
    cbn [g_rels g_subs g_edges with_subs with_rels with_edges]. rewrite Q, delete_insert_delete. reflexivity.
Qed.
Print Assumptions C71_sub_calls.

(** Examples, with the graph of PropsWrite.v. *)
Lemma built3 : built g3. Proof. apply reachable_built, build_reachable. Qed.
(** The node b is written inside S, the node a at the top level. *)
Example C71_node_example : (exists t, write_ast srt0 o_id g3 9 = Ok t /\ bool_decide (lit "b" ∈ top_nodes t) = false /\ bool_decide (lit "a" ∈ top_nodes t) = true) /\
  is_node g3 (lit "b") = true /\ is_node g3 (lit "z") = false /\ is_subgraph g3 (lit "b") = false /\ is_subgraph g3 (lit "z") = false /\
  graph_string srt0 o_id (assign_node_name g3 (lit "b") (lit "z")) 9 = Ok (lit "digraph G {
	rankdir=LR;
	a->subgraph T {
	c;
} [ label=x ];
	a:p:n->cluster0;
	z->a;
	subgraph S {
		rank=same;
		subgraph T {
			c;
		};
		z [ color=red ];
	};
	subgraph cluster0 {
		d;
	};
	a;
}
").
Proof. split; [eexists; split; [vm_compute; reflexivity|split; vm_compute; reflexivity]|]. repeat split; vm_compute; reflexivity. Qed.
Theorem C71_node_panics_refuted : exists g, reachable g /\ graph_string srt0 o_id g 9 <> Panic /\
  is_node g (lit "a") = true /\ is_node g (lit "z") = false /\ is_subgraph g (lit "a") = false /\ is_subgraph g (lit "z") = false /\
  graph_string srt0 o_id (assign_node_name g (lit "a") (lit "z")) 9 = Panic.
Proof. exists g3. split; [apply build_reachable|]. split; [vm_compute; discriminate|]. repeat split; vm_compute; reflexivity. Qed.
Print Assumptions C71_node_panics_refuted.
(** T is nested in S and the end of an edge, S is at the top level: it is lost, with the subgraph T in it. *)
Example C71_sub_example : (exists t, write_ast srt0 o_id g3 9 = Ok t /\ bool_decide (lit "T" ∈ top_subs t) = false /\ bool_decide (lit "S" ∈ top_subs t) = true) /\
  is_subgraph g3 (lit "T") = true /\ is_subgraph g3 (lit "Z") = false /\ is_node g3 (lit "T") = false /\ is_node g3 (lit "Z") = false /\
  bool_decide (lit "Z" ∈ children (g_rels g3) (g_name g3)) = false /\ is_subgraph g3 (g_name g3) = false.
Proof. split; [eexists; split; [vm_compute; reflexivity|split; vm_compute; reflexivity]|]. repeat split; vm_compute; reflexivity. Qed.
Theorem C71_sub_lost_refuted : exists g, reachable g /\ is_subgraph g (lit "S") = true /\
  graph_string srt0 o_id (assign_sub_name g (lit "S") (lit "Z")) 9 = Ok (lit "digraph G {
	rankdir=LR;
	a->subgraph T {
	c;
} [ label=x ];
	a:p:n->cluster0;
	b->a;
	subgraph cluster0 {
		d;
	};
	a;
	b [ color=red ];
}
").
Proof. exists g3. split; [apply build_reachable|]. repeat split; vm_compute; reflexivity. Qed.
Print Assumptions C71_sub_lost_refuted.
