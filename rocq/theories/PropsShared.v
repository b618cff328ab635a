(** C78: several graphs, and copies of a Graph. *)
From stdpp Require Import sorting.
From Verif Require Import Base Parser Maps Graph SpecGraph GraphProofs Direct DirectProofs SpecWrite Write WriteProofs PropsWrite Shared SpecShared SharedProofs.
From Verif Require Import PropsGraph.

(** ** C78 Several graphs *)
(** A call does to its graph what it does to a graph that shares nothing, whatever is shared. *)
Theorem C78_call : forall o c w i, sound w -> i < length (m_graphs w) ->
  see (w_exec o c w i).1 i = (exec o c (see w i)).1 /\ (w_exec o c w i).2 = (exec o c (see w i)).2.
Proof. intros o c w i W L. apply (exec_good o c w i W L). Qed.
Print Assumptions C78_call.
(** What it does to the other graphs: the shared containers show the new content, the others the old; but the edges of other
    graphs are not changed by a removal, even if they were shared. *)
Theorem C78_others : forall o c w i j, sound w -> i < length (m_graphs w) -> j < length (m_graphs w) -> j <> i ->
  see (w_exec o c w i).1 j = mixed w i j (removal c) (see w j) (see (w_exec o c w i).1 i).
Proof. intros o c w i j W L Lj D. apply chg_mixed; try assumption. apply (exec_good o c w i W L). Qed.
Print Assumptions C78_others.
(** What is shared afterwards: as before, except that after a removal that succeeded the graph has edges of its own. *)
Theorem C78_sharing : forall o c w i j k p, sound w -> i < length (m_graphs w) -> j < length (m_graphs w) -> k < length (m_graphs w) ->
  let w' := (w_exec o c w i).1 in
  (p <> PEdges \/ removal c = false \/ (j <> i /\ k <> i) -> (shares p w' j k <-> shares p w j k)) /\
  (shares p w' j k -> shares p w j k) /\
  (removal c = true -> (w_exec o c w i).2 = None -> j <> i -> ~ shares PEdges w' i j).
Proof.
  intros o c w i j k p W L Lj Lk w'. destruct (exec_good o c w i W L) as (C & _). fold w' in C.
  assert (Q : p <> PEdges \/ removal c = false \/ (j <> i /\ k <> i) -> (shares p w' j k <-> shares p w j k)).
  { intros [H|[H|[H1 H2]]].
    - eapply chg_shares; try eassumption. contradiction.
    - eapply chg_shares; try eassumption. auto.
    - unfold shares. rewrite (the_other _ _ _ _ _ C H1), (the_other _ _ _ _ _ C H2). reflexivity. }
  split; [exact Q|]. split.
  - destruct (decide (p = PEdges)) as [->|Np]; [|apply Q; auto]. destruct (removal c) eqn:R; [|apply Q; auto]. eapply chg_shares_edges; eassumption.
  - intros R N D Sh. pose proof (removed_own o c w i W L R N) as O. unfold shares in Sh. cbn [ref_of] in Sh. rewrite (the_other _ _ _ _ _ C D) in Sh.
    destruct (sound_at w j W Lj) as (_ & _ & A & _). fold w' in O. lia.
Qed.
Print Assumptions C78_sharing.
(** NewGraph, copies and assignments; they change no other graph. *)
Theorem C78_new : forall w, sound w -> let n := length (m_graphs w) in
  sound (w_new w) /\ see (w_new w) n = new_graph /\ alone (w_new w) n /\ forall i, i < n -> see (w_new w) i = see w i.
Proof. intros w W n. split; [apply sound_new, W|]. split; [apply see_new|]. split; [apply alone_new, W|]. intros i L. apply (grown_see w _ i W (grown_new w) L). Qed.
Print Assumptions C78_new.
Theorem C78_copy_is : forall w i, sound w -> i < length (m_graphs w) -> let n := length (m_graphs w) in
  sound (w_copy w i) /\ see (w_copy w i) n = see w i /\ twins (w_copy w i) i n /\ forall j, j < n -> see (w_copy w i) j = see w j.
Proof.
  intros w i W L n. split; [apply sound_copy; assumption|]. split; [apply see_copy|]. split.
  - intros p. unfold shares. unfold n. rewrite the_copy. destruct (grown_see w _ i W (grown_copy w i) L) as [-> _]. reflexivity.
  - intros j Lj. apply (grown_see w _ j W (grown_copy w i) Lj).
Qed.
Print Assumptions C78_copy_is.
Theorem C78_assign : forall w p i j, sound w -> i < length (m_graphs w) -> j < length (m_graphs w) ->
  sound (w_assign w p i j) /\ see (w_assign w p i j) i = take_part p (see w i) (see w j) /\ shares p (w_assign w p i j) i j /\
  forall k, k <> i -> see (w_assign w p i j) k = see w k.
Proof.
  intros w p i j W Li Lj. split; [apply sound_assign; assumption|]. split; [apply see_assign, Li|]. split; [|intros k D; apply see_assign_other, D].
  unfold shares. rewrite ref_assign by exact Li. rewrite decide_True by reflexivity. destruct (decide (j = i)) as [->|D].
  - rewrite ref_assign by exact Li. rewrite decide_True by reflexivity. reflexivity.
  - rewrite the_assign_other by exact D. reflexivity.
Qed.
Print Assumptions C78_assign.

(** ** Graphs that share nothing *)
(** A graph that shares nothing and is not copied from is as if there were no other graphs: it is what its own calls make
    of it, in whatever way they are interleaved with calls on other graphs. *)
Theorem C78_alone : forall es w i, sound w -> all_exist es w -> Forall (leaves_alone i) es -> i < length (m_graphs w) -> alone w i ->
  see (happens es w).1 i = (run (calls_on i es) (see w i)).1 /\ results_on i es w = (run (calls_on i es) (see w i)).2.
Proof. exact happens_alone. Qed.
Print Assumptions C78_alone.
(** In particular graphs made by NewGraph. *)
Lemma separate_leaves i e : separate e -> leaves_alone i e.
Proof. destruct e; cbn; tauto. Qed.
Lemma separate_runs es : forall w i, sound w -> all_exist es w -> Forall separate es -> length (m_graphs w) <= i -> i < length (m_graphs (happens es w).1) ->
  see (happens es w).1 i = (run (calls_on i es) new_graph).1 /\ results_on i es w = (run (calls_on i es) new_graph).2.
Proof.
  induction es as [|e es IH]; intros w i W X F G L; [cbn in L; lia|]. pose proof X as X0. destruct X as [X1 X2]. inversion F as [|? ? F1 F2]; subst. rewrite happens_fst in *.
  pose proof (happen_sound e w W X1) as W1. cbn [results_on]. destruct e as [|k|p k l|k o c]; cbn [separate] in F1; try contradiction.
  - cbn [happen fst] in *. cbn [calls_on omap list_omap app]. fold (calls_on i es). destruct (decide (i = length (m_graphs w))) as [->|D].
    + destruct (happens_alone es (w_new w) (length (m_graphs w))) as [H1 H2]; try assumption.
      * eapply Forall_impl; [exact F2|apply separate_leaves].
      * cbn. rewrite app_length. cbn. lia.
      * apply alone_new, W.
      * rewrite see_new in H1, H2. split; assumption.
    + apply IH; try assumption. cbn. rewrite app_length. cbn. lia.
  - cbn [exists_in] in X1. assert (D : k <> i) by lia. cbn [calls_on omap list_omap]. rewrite !(decide_False (P := k = i)) by exact D. fold (calls_on i es).
    destruct (IH (happen (HCall k o c) w).1 i) as [H1 H2]; try assumption.
    + cbn [happen]. destruct (exec_good o c w k W X1) as (C & _). destruct (w_exec o c w k) as [w' r]. cbn [fst] in *. rewrite (c_len _ _ _ _ C). exact G.
    + split; [exact H1|]. exact H2.
Qed.
Theorem C78_independent : forall es i, all_exist es none_yet -> Forall separate es -> i < length (m_graphs (happens es none_yet).1) ->
  see (happens es none_yet).1 i = (run (calls_on i es) new_graph).1 /\ results_on i es none_yet = (run (calls_on i es) new_graph).2.
Proof. intros es i X F L. apply separate_runs; try assumption; [apply sound_none|cbn; lia]. Qed.
Print Assumptions C78_independent.

(** ** Copies *)
(** Two graphs that share everything, like g and h after h := *g: what is added to either is added to both, and both are
    what all the calls make of one graph, apart from the flags Directed and Strict, which each has of its own. *)
Theorem C78_copies : forall es w i j, sound w -> i < length (m_graphs w) -> j < length (m_graphs w) -> i <> j -> twins w i j ->
  g_name (see w i) = g_name (see w j) -> Forall (adding i j) es ->
  let w' := (happens es w).1 in let all := run (all_calls es) (see w i) in
  twins w' i j /\ same_content (see w' i) all.1 /\ same_content (see w' j) all.1 /\ (happens es w).2 = all.2.
Proof.
  intros es w i j W Li Lj D T N F. apply happens_twins; try assumption; [apply same_refl|].
  unfold same_content, see. cbn [g_attrs g_name g_nodes g_edges g_subs g_rels]. unfold the_attrs, the_nodes, the_edges, the_subs, the_rels.
  pose proof (T PAttrs) as T1. pose proof (T PNodes) as T2. pose proof (T PEdges) as T3. pose proof (T PSubGraphs) as T4. pose proof (T PRelations) as T5.
  unfold shares in *. cbn [ref_of] in *. rewrite T1, T2, T3, T4, T5. repeat split. symmetry. exact N.
Qed.
Print Assumptions C78_copies.
(** But a removal takes the node from both and the edges from one only. *)
Theorem C78_copy_removed : forall o w i j p n, fair o -> sound w -> i < length (m_graphs w) -> j < length (m_graphs w) -> i <> j -> twins w i j ->
  built (see w j) -> (w_exec o (CRemoveNode p n) w j).2 = None ->
  let w' := (w_exec o (CRemoveNode p n) w j).1 in
  view (see w' j) = s_drop_nodes (view (see w j)) p {[n]} /\
  view (see w' i) = s_with_edges (s_drop_nodes (view (see w i)) p {[n]}) (s_edges (view (see w i))).
Proof.
  intros o w i j p n Fo W Li Lj D T B N w'. destruct (C78_call o (CRemoveNode p n) w j W Lj) as [E R]. rewrite N in R. fold w' in E.
  pose proof (C23_refinement_step o (CRemoveNode p n) (see w j) Fo B) as S1. rewrite <- R, <- E in S1.
  assert (V : view (see w' j) = s_drop_nodes (view (see w j)) p {[n]}) by (revert S1; generalize (view (see w' j)), (view (see w j)); intros s1 s0 S1; inversion S1; subst; reflexivity). split; [exact V|].
  pose proof (C78_others o (CRemoveNode p n) w j i W Lj Li D) as M. fold w' in M. cbn [removal] in M. rewrite M.
  assert (T' : forall q, shares q w j i) by (intros q; specialize (T q); unfold shares in *; congruence).
  assert (Q : view (see w j) = SGraph (s_name (view (see w j))) (s_directed (view (see w j))) (s_strict (view (see w j))) (s_attrs (view (see w i)))
    (s_nodes (view (see w i))) (s_order (view (see w i))) (s_edges (view (see w i))) (s_subs (view (see w i))) (s_rels (view (see w i)))).
  { unfold view. cbn [s_name s_directed s_strict s_attrs s_nodes s_order s_edges s_subs s_rels see g_name g_directed g_strict g_attrs g_nodes g_edges g_subs g_rels].
    pose proof (T PAttrs) as T1. pose proof (T PNodes) as T2. pose proof (T PEdges) as T3. pose proof (T PSubGraphs) as T4. pose proof (T PRelations) as T5.
    unfold shares in *. cbn [ref_of] in *. unfold the_attrs, the_nodes, the_edges, the_subs, the_rels. rewrite T1, T2, T3, T4, T5. reflexivity. }
  pose proof (f_equal s_attrs V) as V1. pose proof (f_equal s_nodes V) as V2. pose proof (f_equal s_order V) as V3. pose proof (f_equal s_subs V) as V4. pose proof (f_equal s_rels V) as V5.
  rewrite Q in V1, V2, V3, V4, V5. cbn [s_drop_nodes s_attrs s_nodes s_order s_subs s_rels] in V1, V2, V3, V4, V5.
  unfold mixed. rewrite !(decide_True (P := shares _ w j i)) by apply T'.
  unfold s_with_edges, s_drop_nodes. cbn [s_name s_directed s_strict s_attrs s_nodes s_order s_edges s_subs s_rels].
  rewrite <- V1, <- V2, <- V3, <- V4, <- V5. reflexivity.
Qed.
Print Assumptions C78_copy_removed.

(** ** All theorems about graphs apply *)
(** However containers are shared, each graph is one that some history on it alone could have made. *)
Theorem C78_built : forall es i, all_exist es none_yet -> Forall fair_happening es -> i < length (m_graphs (happens es none_yet).1) ->
  built (see (happens es none_yet).1 i).
Proof. intros es i X F L. apply (happens_built es none_yet sound_none X F); [|exact L]. intros j Lj. cbn in Lj. lia. Qed.
Print Assumptions C78_built.
(** After h := *g and h.RemoveNode(p, n), g cannot be written any more if it has an edge at n. *)
Theorem C78_copy_unwritable : forall o w i j p n e, fair o -> sound w -> i < length (m_graphs w) -> j < length (m_graphs w) -> i <> j -> twins w i j ->
  built (see w i) -> built (see w j) -> no_clash (view (see w i)) -> ~ s_is_sub (view (see w i)) n ->
  e ∈ s_edges (view (see w i)) -> e_src e = n \/ e_dst e = n -> (w_exec o (CRemoveNode p n) w j).2 = None ->
  let w' := (w_exec o (CRemoveNode p n) w j).1 in
  forall srt o' fuel a, fair o' -> sorts (edge_less o') srt -> write_ast srt o' (see w' i) fuel <> Ok a.
Proof.
  intros o w i j p n e Fo W Li Lj D T Bi Bj NC NS He At N w' srt o' fuel a Fo' S1 H.
  destruct (C78_copy_removed o w i j p n Fo W Li Lj D T Bj N) as [_ V]. fold w' in V.
  assert (B : built (see w' i)).
  { unfold w'. rewrite (C78_others o (CRemoveNode p n) w j i W Lj Li D). apply mixed_built; [exact Bi|]. destruct (C78_call o (CRemoveNode p n) w j W Lj) as [-> _]. apply built_call; assumption. }
  assert (Nn : forall m, s_is_node (view (see w' i)) m <-> m <> n /\ s_is_node (view (see w i)) m).
  { intros m. rewrite V. unfold s_is_node. cbn [s_with_edges s_drop_nodes s_nodes]. split.
    - intros [x Hx]. apply map_filter_lookup_Some in Hx. destruct Hx as [Hx Hm]. cbn in Hm. split; [set_solver|eauto].
    - intros [Hm [x Hx]]. exists x. apply map_filter_lookup_Some. split; [exact Hx|]. cbn. set_solver. }
  assert (NC' : no_clash (view (see w' i))).
  { intros m Hs Hn Hc. apply (NC m).
    - rewrite V in Hs. exact Hs.
    - apply Nn in Hn. apply Hn.
    - rewrite V in Hc. unfold is_child in *. cbn [s_with_edges s_drop_nodes s_rels s_name] in Hc. apply elem_of_filter in Hc. apply Hc. }
  assert (U : unwritable (view (see w' i))).
  { destruct At as [At|At].
    - apply (Bad_edge _ n (e_src_port e)); [exists e; split; [rewrite V; exact He|left; auto]|]. apply Bad_unknown; [rewrite Nn; tauto|rewrite V; exact NS].
    - apply (Bad_edge _ n (e_dst_port e)); [exists e; split; [rewrite V; exact He|right; auto]|]. apply Bad_unknown; [rewrite Nn; tauto|rewrite V; exact NS]. }
  destruct (C33_iff srt o' (see w' i) fuel Fo' S1 B NC') as [_ I2]; [congruence|]. apply I2; [eauto|exact U].
Qed.
Print Assumptions C78_copy_unwritable.

(** ** Examples *)
Lemma happens_app es fs w : (happens (es ++ fs) w).1 = (happens fs (happens es w).1).1.
Proof. revert w. induction es as [|e es IH]; intros w; [reflexivity|]. cbn [app]. rewrite !happens_fst. apply IH. Qed.
Definition on (i : nat) (c : call) : happening := HCall i o_id c.
(** Two graphs, filled alternately, with the same names in both. *)
Definition two : list happening :=
  [HNew; on 0 (CSetName (lit "G")); HNew; on 1 (CSetName (lit "G")); on 0 (CAddNode (lit "G") (lit "a") ∅); on 1 (CAddNode (lit "G") (lit "a") (A [(lit "color", lit "red")]));
   on 0 (CAddEdge (lit "a") (lit "a") true ∅); on 1 (CRemoveNode (lit "G") (lit "a")); on 1 (CRemoveNode (lit "G") (lit "a"))].
(** A graph with two nodes and an edge, a copy of it, a node and an edge added through the copy. *)
Definition filled : list happening :=
  [HNew; on 0 (CSetName (lit "G")); on 0 (CAddNode (lit "G") (lit "a") ∅); on 0 (CAddNode (lit "G") (lit "b") ∅); on 0 (CAddEdge (lit "a") (lit "b") true ∅); HCopy 0].
Definition added : list happening :=
  [on 1 (CAddNode (lit "G") (lit "c") ∅); on 0 (CAddAttr (lit "G") (lit "label") (lit "x")); on 1 (CAddEdge (lit "b") (lit "c") true ∅); on 1 (CSetDir true)].
Definition w_filled : many := (happens filled none_yet).1.
Definition w_added : many := (happens added w_filled).1.
Definition w_removed : many := (w_exec o_id (CRemoveNode (lit "G") (lit "a")) w_added 1).1.
Lemma filled_sound : sound w_filled /\ length (m_graphs w_filled) = 2 /\ twins w_filled 0 1 /\ g_name (see w_filled 0) = g_name (see w_filled 1).
Proof.
  split; [apply (happens_sound filled none_yet sound_none); vm_compute; repeat split; lia|]. split; [vm_compute; reflexivity|].
  split; [intros []; vm_compute; reflexivity|vm_compute; reflexivity].
Qed.
Lemma added_twins : sound w_added /\ length (m_graphs w_added) = 2 /\ twins w_added 0 1.
Proof.
  split; [apply (happens_sound added w_filled (proj1 filled_sound)); vm_compute; repeat split; lia|]. split; [vm_compute; reflexivity|]. intros []; vm_compute; reflexivity.
Qed.
Lemma all_of_it : forall i, i < 2 -> built (see w_added i).
Proof.
  intros i L. assert (E : w_added = (happens (filled ++ added) none_yet).1) by (unfold w_added, w_filled; rewrite happens_app; reflexivity). rewrite E.
  apply C78_built; [vm_compute; repeat split; lia|repeat constructor; apply fair_id|]. rewrite <- E. destruct added_twins as (_ & -> & _). exact L.
Qed.
Example C78_independent_example : all_exist two none_yet /\ Forall separate two /\ length (m_graphs (happens two none_yet).1) = 2 /\
  results_on 1 two none_yet = [None; None; None; Some (lit "node a not found")] /\
  graph_string srt0 o_id (see (happens two none_yet).1 0) 9 = Ok (lit "graph G {
	a->a;
	a;
}
").
Proof. split; [vm_compute; repeat split; lia|]. split; [repeat constructor|]. repeat split; vm_compute; reflexivity. Qed.
Example C78_copies_example : Forall (adding 0 1) added /\ g_directed (see w_added 0) = false /\ graph_string srt0 o_id (see w_added 1) 9 = Ok (lit "digraph G {
	label=x;
	a->b;
	b->c;
	a;
	b;
	c;
}
").
Proof. split; [repeat constructor; auto; discriminate|]. split; vm_compute; reflexivity. Qed.
(** After the removal through the copy: the copy is fine, the original cannot be written. *)
Example C78_copy_removed_example : (w_exec o_id (CRemoveNode (lit "G") (lit "a")) w_added 1).2 = None /\ no_clash (view (see w_added 0)) /\
  graph_string srt0 o_id (see w_removed 1) 9 = Ok (lit "digraph G {
	label=x;
	b->c;
	b;
	c;
}
") /\ graph_string srt0 o_id (see w_removed 0) 9 = Ok (lit "error: a is not a node or a subgraph").
Proof. split; [vm_compute; reflexivity|]. split; [apply clash_free_ok; vm_compute; reflexivity|]. split; vm_compute; reflexivity. Qed.
Example C78_copy_unwritable_example : forall srt fuel a, sorts (edge_less o_id) srt -> write_ast srt o_id (see w_removed 0) fuel <> Ok a.
Proof.
  intros srt fuel a S1. destruct added_twins as (W & L & T). destruct C78_copy_removed_example as (R & NC & _).
  refine (C78_copy_unwritable o_id w_added 0 1 (lit "G") (lit "a") (Edge (lit "a") [] (lit "b") [] true ∅) fair_id W _ _ _ T _ _ NC _ _ _ R srt o_id fuel a fair_id S1);
    try (rewrite L; lia); try (apply all_of_it; lia).
  - lia.
  - rewrite view_is_sub. vm_compute. intros [x Hx]. discriminate.
  - apply elem_of_list_lookup. exists 0. vm_compute. reflexivity.
  - left. reflexivity.
Qed.
(** Only one container shared: h.Nodes = g.Nodes. *)
Example C78_assign_example : let w := (happens [HNew; HNew; on 0 (CSetName (lit "G")); HAssign PNodes 1 0; on 0 (CAddNode (lit "G") (lit "a") ∅)] none_yet).1 in
  is_node (see w 1) (lit "a") = true /\ sorted_children o_id 0 (g_rels (see w 1)) (lit "G") = [] /\ shares PNodes w 0 1 /\ ~ shares PRelations w 0 1.
Proof. split; [vm_compute; reflexivity|]. split; [vm_compute; reflexivity|]. split; [vm_compute; reflexivity|]. vm_compute. discriminate. Qed.
