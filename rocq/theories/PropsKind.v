(** Property C64: strict, directed and the name of a graph are labels. *)
From Verif Require Import Base Parser Maps Graph Direct SpecGraph Analyse SpecAnalyse MapFacts GraphProofs DirectProofs AnalyseProofs ReadProofs SpecWrite Write WriteProofs PropsGraph PropsWrite.
From Verif Require Ast PropsAnalyse PropsParse.

(** ** C64.  SetStrict and SetDir change nothing of what WriteAst returns but the two flags (nor whether and how it fails), *)
Definition relabel (strict directed : bool) (r : res err Ast.graph) : res err Ast.graph :=
  match r with Ok a => Ok (Ast.Graph directed strict (Ast.g_id a) (Ast.g_stmts a)) | _ => r end.
Theorem C64_write : forall srt o g fuel strict directed,
  write_ast srt o (set_strict (set_dir g directed) strict) fuel = relabel strict directed (write_ast srt o g fuel).
Proof.
  intros srt o g fuel st d. unfold write_ast. cbn [set_strict set_dir g_attrs g_edges g_subs g_nodes g_directed g_strict g_name].
  destruct (append_attrs o (g_attrs g) (WState ∅ 0)) as [sa st1].
  change (edges_loop o (set_strict (set_dir g d) st)) with (edges_loop o g).
  change (subs_loop o (set_strict (set_dir g d) st)) with (subs_loop o g).
  change (nodes_loop o (set_strict (set_dir g d) st)) with (nodes_loop o g).
  destruct (edges_loop o g fuel (srt (edges_list (g_edges g))) sa st1) as [[l2 st2]| | |]; try reflexivity.
  destruct (subs_loop o g fuel _ l2 _) as [[l3 st3]| | |]; try reflexivity.
  destruct (nodes_loop o g _ l3 _) as [[l4 st4]| | |]; reflexivity.
Qed.
Print Assumptions C64_write.
(** nor of the text but the words before the name. *)
Theorem C64_string : forall srt o g fuel a, write_ast srt o g fuel = Ok a -> exists rest, forall strict directed,
  graph_string srt o (set_strict (set_dir g directed) strict) fuel =
    Ok ((if strict then lit "strict " else []) ++ (if directed then lit "digraph " else lit "graph ") ++ g_name g ++ rest).
Proof.
  intros srt o g fuel a W. exists (lit " {" ++ [nl] ++ Ast.stmts_str [tab] (Ast.g_stmts a) ++ [nl] ++ lit "}" ++ [nl]). intros st d.
  unfold graph_string. rewrite C64_write, W. cbn [relabel]. f_equal. unfold Ast.graph_str. cbn [Ast.g_strict Ast.g_type Ast.g_id Ast.g_stmts].
  assert (E : Ast.g_id a = g_name g).
  { unfold write_ast in W. destruct (append_attrs _ _ _) as [sa st1]. destruct (edges_loop _ _ _ _ _ _) as [[l2 st2]| | |]; try discriminate.
    destruct (subs_loop _ _ _ _ _ _) as [[l3 st3]| | |]; try discriminate. destruct (nodes_loop _ _ _ _ _) as [[l4 st4]| | |]; try discriminate.
    injection W as <-. reflexivity. }
  rewrite E. unfold Ast.graph_type_str. destruct st, d; cbn [app]; rewrite <- ?app_assoc; reflexivity.
Qed.
Print Assumptions C64_string.

(** The analysis of an AST uses the flags of the AST for nothing but the flags of the graph: no edge is merged or refused because
    the graph is strict, or because its operator does not fit the kind of the graph. *)
Definition s_relabel (s : sgraph) (directed strict : bool) : sgraph :=
  SGraph (s_name s) directed strict (s_attrs s) (s_nodes s) (s_order s) (s_edges s) (s_subs s) (s_rels s).
Lemma build_relabel d st l : forall s, s_relabel (fold_left s_build l s) d st = fold_left s_build l (s_relabel s d st).
Proof.
  induction l as [|c l IH]; intros s; cbn [fold_left]; [reflexivity|]. rewrite IH. f_equal.
  destruct c; cbn [s_build]; try reflexivity; unfold s_put_attrs; cbn; destruct (decide _); reflexivity.
Qed.
Theorem C64_analyse : forall os os' ord ord' a strict directed,
  (forall i, fair (os i)) -> (forall i, fair (os' i)) -> fair_order ord -> fair_order ord' ->
  match new_analysed_graph os ord a, new_analysed_graph os' ord' (Ast.Graph directed strict (Ast.g_id a) (Ast.g_stmts a)) with
  | inl g, inl g' => view g' = s_relabel (view g) directed strict
  | inr _, inr _ => True
  | _, _ => False
  end.
Proof.
  intros os os' ord ord' a st d Fo Fo' Fd Fd'. destruct (analysed_graph os ord a Fo Fd) as (l & Hl & G).
  destruct (analysed_graph os' ord' (Ast.Graph d st (Ast.g_id a) (Ast.g_stmts a)) Fo' Fd') as (l' & Hl' & G'). cbn [Ast.g_id Ast.g_stmts] in Hl'.
  assert (T := body_det _ _ _ _ _ _ Hl _ Hl'). assert (OK := trace_eq_ok _ _ T).
  destruct (new_analysed_graph os ord a) as [g|e], (new_analysed_graph os' ord' _) as [g'|e'].
  - destruct G as (O & _ & V). destruct G' as (O' & _ & V'). rewrite V, V', build_relabel. symmetry.
    apply (trace_eq_build l l' T [Ast.g_id a]).
    + apply (body_wp _ _ _ _ _ _ Hl). apply elem_of_list_singleton. reflexivity.
    + intros n Hn. apply elem_of_list_singleton in Hn. subst. left. reflexivity.
  - destruct G. tauto.
  - destruct G'. tauto.
  - exact I.
Qed.
Print Assumptions C64_analyse.

(** SetName changes the name in the text and nothing else, if the same subgraphs are in the old and in the new name; *)
Theorem C64_rename : forall srt o g fuel n, fair o -> built g ->
  (forall c, s_is_sub (view g) c -> (is_child (view g) (g_name g) c <-> is_child (view g) n c)) ->
  write_ast srt o (set_name g n) fuel = match write_ast srt o g fuel with
    | Ok a => Ok (Ast.Graph (Ast.g_type a) (Ast.g_strict a) n (Ast.g_stmts a)) | r => r end.
Proof.
  intros srt o g fuel n Fo B H. unfold write_ast. cbn [set_name g_attrs g_edges g_subs g_nodes g_directed g_strict g_name].
  destruct (append_attrs o (g_attrs g) (WState ∅ 0)) as [sa st1].
  change (edges_loop o (set_name g n)) with (edges_loop o g).
  change (nodes_loop o (set_name g n)) with (nodes_loop o g).
  destruct (edges_loop o g fuel (srt (edges_list (g_edges g))) sa st1) as [[l2 st2]| | |]; try reflexivity.
  assert (E : subs_loop o (set_name g n) fuel (subs_sorted o (w_tick st2) (g_subs g)) l2 (tick 1 st2) = subs_loop o g fuel (subs_sorted o (w_tick st2) (g_subs g)) l2 (tick 1 st2)).
  { assert (A : Forall (fun s => sub_name s ∈ children (g_rels g) (g_name g) <-> sub_name s ∈ children (g_rels g) n) (subs_sorted o (w_tick st2) (g_subs g))).
    { apply Forall_forall. intros s Hs. apply (proj1 (proj2 (proj2 (proj2 (C45_sorted_views o (w_tick st2) g Fo B))))) in Hs. destruct Hs as [m Hm].
      rewrite (go_subs g (built_ok g B) m s Hm). rewrite <- !view_child. apply H. unfold s_is_sub. cbn. rewrite lookup_fmap, Hm. cbn. eauto. }
    revert A. generalize (subs_sorted o (w_tick st2) (g_subs g)) as ss. intros ss A. generalize (tick 1 st2) as st. revert l2.
    induction A as [|s ss Hs _ IH]; intros l2 st; [reflexivity|]. cbn [subs_loop]. cbn [set_name g_rels g_name].
    change (new_sub o (set_name g n)) with (new_sub o g).
    destruct (decide (sub_name s ∈ w_written st)); [apply IH|].
    destruct (decide (sub_name s ∈ children (g_rels g) n)) as [D|D], (decide (sub_name s ∈ children (g_rels g) (g_name g))) as [D'|D']; try tauto; [|apply IH].
    destruct (new_sub o g fuel (sub_name s) st) as [[t st']| | |]; try reflexivity. apply IH. }
  rewrite E. destruct (subs_loop o g fuel _ l2 _) as [[l3 st3]| | |]; try reflexivity.
  destruct (nodes_loop o g _ l3 _) as [[l4 st4]| | |]; reflexivity.
Qed.
Print Assumptions C64_rename.
(** otherwise not: the subgraphs of the old name are no longer in the graph (the text loses them). *)
Definition g_old : agraph := build [CSetName (lit "G"); CAddSubGraph (lit "G") (lit "S") ∅; CAddNode (lit "S") (lit "a") ∅].
Theorem C64_rename_refuted : reachable g_old /\
  graph_string srt0 o_id g_old 3 = Ok (lit "graph G {
	subgraph S {
		a;
	};
}
") /\
  graph_string srt0 o_id (set_name g_old (lit "H")) 3 = Ok (lit "graph H {
	a;
}
").
Proof. split; [apply build_reachable|]. split; vm_compute; reflexivity. Qed.
Print Assumptions C64_rename_refuted.

(** *** Examples: a strict graph with two equal edges, in an undirected graph a directed edge. *)
Definition kind_src : gostr := lit "strict graph G { a -- b; a -- b; a -> b }".
Definition kind_ok : bool :=
  match parse_bytes PropsParse.rnd0 0 kind_src with
  | Ok (a, _) => match new_analysed_graph PropsAnalyse.os_id PropsAnalyse.ord_id a with
    | inl g => g_strict g && negb (g_directed g) && bool_decide (map e_dir (s_edges (view g)) = [false; false; true]) | _ => false end
  | _ => false
  end.
Example C64_read_example : kind_ok = true.
Proof. vm_compute. reflexivity. Qed.
Example C64_write_example : exists a, write_ast srt1 o_id g3 9 = Ok a /\ length (Ast.g_stmts a) = 7.
Proof. eexists. split; vm_compute; reflexivity. Qed.
Definition g_two : agraph := build [CSetName (lit "G"); CAddNode (lit "G") (lit "b") ∅; CAddSubGraph (lit "G") (lit "S") ∅; CAddSubGraph (lit "H") (lit "S") ∅; CAddNode (lit "S") (lit "a") ∅].
Example C64_rename_example : built g_two /\ (forall c, s_is_sub (view g_two) c -> (is_child (view g_two) (g_name g_two) c <-> is_child (view g_two) (lit "H") c)) /\
  graph_string srt0 o_id (set_name g_two (lit "H")) 3 = Ok (lit "graph H {
	subgraph S {
		a;
	};
	b;
}
").
Proof.
  split; [apply reachable_built, build_reachable|]. split; [|vm_compute; reflexivity]. intros c Hc.
  assert (E : c ∈ dom (s_subs (view g_two))) by (apply elem_of_dom; exact Hc).
  assert (E' : dom (s_subs (view g_two)) = {[lit "S"]}) by (apply (bool_decide_unpack _); vm_compute; exact I).
  rewrite E' in E. apply elem_of_singleton in E. subst c. unfold is_child. split; intros _; apply (bool_decide_unpack _); vm_compute; exact I.
Qed.
