(** Properties C52 to C55: sharing of memory between a graph and its caller (HeapGraph.v, HeapEscape.v, HeapAnalyse.v). *)
From Coq Require Import Lia.
From stdpp Require Import sorting.
From Verif Require Import Base Maps Graph SpecGraph MapFacts GraphProofs AttrMap Escape Analyse HeapGraph SpecHeap HeapProofs HeapSnap HeapRange.
From Verif Require Import HeapEscape HeapAnalyse SpecHeapAnalyse HeapAnalyseProofs HeapEscapeProofs.
From Verif Require PropsGraph Ast.
From Verif Require Import Direct SpecDirect DirectProofs.
Notation o_id := PropsGraph.o_id.
Notation A := PropsGraph.A.

(** A history from NewGraph(), with no map made so far. *)
Definition hstart : world * list nat := (h_new_graph, []).
Definition after (evs : list event) (st : world * list nat) : world * list nat := (hrun evs st).1.
Lemma after_inv evs : inv_mine (after evs hstart).
Proof. apply (hrun_sim evs hstart inv_mine_new). Qed.

(** ** C52: the graph shares no map with its caller *)
(** Calls are made in any number and order, with maps that the caller keeps, changes later, and gives to several calls.
    The graph, the results and the caller's maps are those of a program in which each call gets a copy of the content. *)
Theorem C52_no_sharing : forall evs,
  let '(w, mine, rs) := hrun evs (h_new_graph, []) in
  let '(g, env, rs') := vrun evs (new_graph, []) in
  abs w = g /\ map (at_map w.1) mine = env /\ rs = rs'.
Proof.
  intros evs. destruct (hrun_sim evs (h_new_graph, []) inv_mine_new) as [_ E]. rewrite seen_new in E.
  destruct (hrun evs (h_new_graph, [])) as [[w mine] rs]. cbn [fst snd] in E. rewrite <- E. unfold seen. cbn [fst snd]. auto.
Qed.
Print Assumptions C52_no_sharing.
(** No two of the graph, its nodes, edges and subgraphs (also removed ones) have the same map, and none has a map of the caller. *)
Theorem C52_own_maps : forall evs,
  let '(h, g, mine) := after evs hstart in
  (forall a b l, ref h g a = Some l -> ref h g b = Some l -> a = b) /\ (forall a l, ref h g a = Some l -> l ∉ mine).
Proof.
  intros evs. pose proof (after_inv evs) as (I & _ & M). destruct (after evs hstart) as [[h g] mine]. cbn [fst snd] in *.
  split; [exact (i_inj _ I)|]. intros a l R Hl. by apply (M l Hl) in R.
Qed.
Print Assumptions C52_own_maps.
(** So all that is proved of graphs built by calls holds of graphs on the heap. *)
Theorem C52_reachable : forall evs, Forall fair_event evs -> reachable (abs (after evs hstart).1).
Proof.
  intros evs F. assert (X : forall st, reachable st.1 -> reachable (vrun evs st).1.1).
  { induction evs as [|e evs IH]; intros [g env] R; cbn [vrun]; [done|]. inversion F as [|? ? F1 F2]; subst.
    assert (R1 : reachable (vstep e (g, env)).1.1).
    { destruct e; cbn [vstep]; try done. set (c' := with_contents _ _). pose proof (reach_call g o c' R F1) as K. by destruct (exec o c' g). }
    destruct (vstep e (g, env)) as [st1 r]. specialize (IH F2 st1 R1). by destruct (vrun evs st1). }
  specialize (X (new_graph, []) reach_new). pose proof (hrun_sim evs hstart inv_mine_new) as [_ E]. unfold hstart in E. rewrite seen_new in E.
  unfold after. unfold hstart. destruct (hrun evs (h_new_graph, [])) as [st rs]. cbn [fst snd] in *. rewrite <- E in X. exact X.
Qed.
Print Assumptions C52_reachable.
(** The same for an Escape; calls may panic, and the caller may go on after that. *)
Theorem C52_escape : forall uletter udigit evs,
  let '(w, mine, rs) := hesc_run uletter udigit evs (h_new_graph, []) in
  let '(g, env, rs') := vesc_run uletter udigit evs (new_graph, []) in
  abs w = g /\ map (at_map w.1) mine = env /\ rs = rs' /\ (forall a l, ref w.1 w.2 a = Some l -> l ∉ mine).
Proof.
  intros ul ud evs. destruct (hesc_run_sim ul ud evs (h_new_graph, []) inv_mine_new) as [(_ & _ & M) E]. rewrite seen_new in E.
  destruct (hesc_run ul ud evs (h_new_graph, [])) as [[w mine] rs]. cbn [fst snd] in *. rewrite <- E. unfold seen. cbn [fst snd].
  split; [done|]. split; [done|]. split; [done|]. intros a l R Hl. by apply (M l Hl) in R.
Qed.
Print Assumptions C52_escape.
(** One map is given to a node and to an edge, changed, and given to another node. *)
Definition g2 : nat -> nat := fun n => n.
Definition evs1 : list event :=
  [EMake (A [(lit "color", lit "red")]); ECall g2 o_id (HAddNode (lit "G") (lit "a") (Some 0));
   ECall g2 o_id (HAddEdge (lit "a") (lit "b") true (Some 0)); ESet 0 (lit "color") (lit "blue");
   ECall g2 o_id (HAddNode (lit "G") (lit "b") (Some 0)); EDel 0 (lit "color"); ECall g2 o_id (HAddNode (lit "G") (lit "a") (Some 0));
   ECall g2 o_id (HAddNode (lit "G") (lit "c") None)].
Example C52_example :
  let g := abs (after evs1 hstart).1 in
  (s_nodes (view g) !! lit "a", s_nodes (view g) !! lit "b") = (Some (A [(lit "color", lit "red")]), Some (A [(lit "color", lit "blue")])) /\
  map e_attrs (edges_list (g_edges g)) = [A [(lit "color", lit "red")]] /\ map (at_map (after evs1 hstart).1.1) (after evs1 hstart).2 = [∅].
Proof. cbv zeta. apply (bool_decide_unpack _). vm_compute. exact I. Qed.

(** ** C53: slices and pointers taken from a graph *)
(** The slice Edges.Edges is not disturbed by what is done to the graph later: it holds the same edges, with the same attributes. *)
Theorem C53_edges_snapshot : forall evs later,
  let st := after evs hstart in
  let y := he_edges (hg_edges st.1.2) in
  edges_seen (after later st).1.1 y = edges_seen st.1.1 y.
Proof. intros evs later st y. apply edges_seen_kept; [apply (after_inv evs)|]. apply hrun_edges, after_inv. Qed.
Print Assumptions C53_edges_snapshot.
(** The slice Nodes.Nodes holds the same nodes until something is removed. *)
Theorem C53_nodes_snapshot : forall evs later, Forall no_removal later ->
  let st := after evs hstart in
  let y := hn_nodes (hg_nodes st.1.2) in
  elems (narrs (after later st).1.1) y = elems (narrs st.1.1) y /\ names_seen (after later st).1.1 y = names_seen st.1.1 y.
Proof.
  intros evs later NR st y. pose proof (after_inv evs) as II. fold st in II. pose proof II as (I & _ & _).
  destruct (hrun_nodes later st II NR y) as [_ E]; [apply older_self, I|]. split; [exact E|].
  unfold names_seen. unfold after. rewrite E. apply map_ext_Forall. eapply Forall_impl; [apply (wn_elems _ _ (i_nodes _ I))|].
  cbn. intros p P. apply (wh_nobjs _ (i_heap _ I)) in P as [n N]. unfold at_node. rewrite N, (hrun_objs later st II p n N). done.
Qed.
Print Assumptions C53_nodes_snapshot.
(** A pointer to a node that is removed keeps showing what it showed at that moment, and the graph never hands it out again:
    a node that is added under the same name is another one. *)
Theorem C53_removed_node : forall evs grow parent n p later, Forall fair_event evs ->
  let st := after evs hstart in
  let '(w1, r) := h_remove_node grow st.1 parent n in
  let w2 := (after later (w1, st.2)).1 in
  hn_lookup (hg_nodes st.1.2) !! n = Some p -> r = None ->
  node_seen w2.1 p = node_seen st.1.1 p /\ forall n', hn_lookup (hg_nodes w2.2) !! n' <> Some p.
Proof.
  intros evs grow parent n p later F st. pose proof (after_inv evs) as II. fold st in II. pose proof II as (I & N & M).
  pose proof (reachable_ok _ (C52_reachable evs F)) as OK. fold st in OK.
  destruct (remove_node_sim grow st.1 parent n I) as (J & E & V).
  destruct (h_remove_node grow st.1 parent n) as [w1 r] eqn:ER. cbn [fst snd] in *. intros L R. subst r.
  assert (L' : nodes_lookup (g_nodes (abs st.1)) !! n = Some p) by (destruct st as [[h g] mine]; exact L).
  assert (G1 : gone (g_nodes (abs w1)) p (deref (g_nodes (abs st.1)) p)).
  { assert (E1 : abs w1 = (remove_node (abs st.1) parent n).1) by (by rewrite <- E).
    assert (E2 : (remove_node (abs st.1) parent n).2 = None) by (by rewrite <- E). rewrite E1. unfold remove_node in *.
    pose proof (removed_gone (g_nodes (abs st.1)) n p (go_nodes _ OK) L') as G.
    destruct (nodes_remove (g_nodes (abs st.1)) n) as [ns [e|]]; cbn in *; [done|]. by apply G. }
  assert (II1 : inv_mine (w1, st.2)).
  { split; [done|]. split; [done|]. cbn [fst snd]. intros l Hl. destruct (M l Hl) as [ML MR]. split; [pose proof (ev_maps _ _ V); lia|].
    intros a Ra. destruct (ev_refs _ _ V a l Ra) as [Ra'|Ra']; [by eapply MR|lia]. }
  destruct (hrun_sim later (w1, st.2) II1) as [_ E3]. unfold after.
  pose proof (vrun_gone later p _ (seen (w1, st.2)) G1) as G2. destruct (hrun later (w1, st.2)) as [[w2 mine2] rs]. cbn [fst snd] in *.
  rewrite <- E3 in G2. cbn [fst seen] in G2. split.
  - rewrite (gone_seen w2 p _ G2). destruct st as [[h g] mine]. cbn [fst snd] in *. unfold node_seen, at_node.
    assert (P : p < next (nobjs h)) by (by eapply (wn_lookup _ _ (i_nodes _ I))). apply (wh_nobjs _ (i_heap _ I)) in P as [x X]. cbn in X.
    rewrite X. apply (deref_abs h (hg_nodes g) p x X).
  - destruct G2 as (_ & _ & G2). destruct w2 as [h2 gg]. exact G2.
Qed.
Print Assumptions C53_removed_node.
(** Without the condition on removals the slice of nodes is disturbed: removing moves its elements down in place. *)
Theorem C53_nodes_refuted : exists evs later,
  let st := after evs hstart in let y := hn_nodes (hg_nodes st.1.2) in
  names_seen st.1.1 y = [lit "a"; lit "b"; lit "c"] /\ names_seen (after later st).1.1 y = [lit "b"; lit "c"; lit "c"].
Proof. exists evs1, [ECall g2 o_id (HRemoveNode (lit "G") (lit "a"))]. vm_compute. auto. Qed.
Print Assumptions C53_nodes_refuted.
Example C53_example : let st := after evs1 hstart in
  hn_lookup (hg_nodes st.1.2) !! lit "a" = Some 0 /\ (h_remove_node g2 st.1 (lit "G") (lit "a")).2 = None /\
  map (fun e => (e_src e, e_dst e, e_attrs e)) (edges_seen st.1.1 (he_edges (hg_edges st.1.2))) = [(lit "a", lit "b", A [(lit "color", lit "red")])].
Proof. cbv zeta. apply (bool_decide_unpack _). vm_compute. exact I. Qed.

(** ** C54: removing nodes in a loop over Nodes.Nodes *)
(** for _, n := range g.Nodes.Nodes { g.RemoveNode(parent, n.Name) } leaves every second node, except the last, ... *)
Theorem C54_range_loop : forall evs grow parent, Forall fair_event evs ->
  let w := (after evs hstart).1 in
  let w' := remove_all_loop grow parent w in
  names_seen w'.1 (hn_nodes (hg_nodes w'.2)) = survivors (names_seen w.1 (hn_nodes (hg_nodes w.2))).
Proof.
  intros evs grow parent F w. apply remove_all_spec; [apply (after_inv evs)|]. apply (go_nodes (P := SpecGraph.valid_attr)), reachable_ok. by apply C52_reachable.
Qed.
Print Assumptions C54_range_loop.
(** ... so it removes all nodes only if there are at most two. *)
Theorem C54_range_loop_all : forall evs grow parent, Forall fair_event evs ->
  let w := (after evs hstart).1 in
  let w' := remove_all_loop grow parent w in
  names_seen w'.1 (hn_nodes (hg_nodes w'.2)) = [] <-> length (names_seen w.1 (hn_nodes (hg_nodes w.2))) <= 2.
Proof.
  intros evs grow parent F w w'. pose proof (C54_range_loop evs grow parent F) as E. cbv zeta in E. fold w in E. fold w' in E. rewrite E.
  destruct (names_seen w.1 (hn_nodes (hg_nodes w.2))) as [|a [|b [|c l]]]; cbn; split; try done; lia.
Qed.
Print Assumptions C54_range_loop_all.
(** A loop over Nodes.Sorted(), a slice of its own, removes all nodes without an error. *)
Theorem C54_sorted_loop : forall evs grow o i parent, Forall fair_event evs -> fair o ->
  let w := (after evs hstart).1 in
  let r := h_remove_nodes_loop grow w parent (map node_name (nodes_sorted o i (g_nodes (abs w)))) in
  r.2 = None /\ s_nodes (view (abs r.1)) = ∅ /\ names_seen r.1.1 (hn_nodes (hg_nodes r.1.2)) = [].
Proof.
  intros evs grow o i parent F Fo w r. pose proof (C52_reachable evs F) as R. fold w in R. pose proof (reachable_ok _ R) as OK.
  destruct (PropsGraph.C45_sorted_views o i (abs w) Fo R) as [(ks & EK & SK & IK) _]. unfold r. rewrite EK.
  assert (ND : NoDup ks).
  { clear -SK. induction SK as [|a l S IH Fa]; constructor; [|done]. intros H. rewrite List.Forall_forall in Fa. apply elem_of_list_In, Fa in H.
    by rewrite str_ltb_irrefl in H. }
  pose proof (after_inv evs) as (I & _ & _). fold w in I.
  destruct (remove_nodes_loop_sim grow parent ks w I) as (J & E & _). 
  destruct (remove_nodes_loop_spec parent ks (abs w) OK ND) as (l1 & l2 & El & Fl & O & Ev & Rl). rewrite <- E in O, Ev, Rl. cbn [fst snd] in *.
  assert (isn : forall c, c ∈ ks <-> s_is_node (view (abs w)) c).
  { intros c. rewrite IK, view_is_node. unfold is_node. destruct (nodes_lookup _ !! c); split; eauto; try done. by intros [? ?]. }
  destruct l2 as [|c l2].
  2:{ exfalso. destruct Rl as [Rl _]. apply Rl, isn. rewrite El. apply elem_of_app. right. left. }
  rewrite app_nil_r in El. subst l1. split; [exact Rl|].
  assert (SN : s_nodes (view (abs (h_remove_nodes_loop grow w parent ks).1)) = ∅).
  { rewrite Ev. cbn. apply map_filter_empty_iff. intros k a H. cbn. intros X. apply X. apply elem_of_list_to_set, isn.
    unfold s_is_node. cbn. by rewrite H. }
  split; [exact SN|]. set (w' := (h_remove_nodes_loop grow w parent ks).1) in *. unfold names_seen.
  destruct (elems (narrs w'.1) (hn_nodes (hg_nodes w'.2))) as [|p ps] eqn:EL; [done|]. exfalso.
  destruct w' as [h' gg]. cbn [fst snd] in *. assert (P : p ∈ nodes_list (g_nodes (abs (h', gg)))) by (cbn; rewrite EL; left).
  destruct (no_list _ (go_nodes _ O) p P) as (nd & _ & L). assert (X : s_is_node (view (abs (h', gg))) (node_name nd)) by (apply view_is_node; eauto).
  unfold s_is_node in X. rewrite SN, lookup_empty in X. by destruct X.
Qed.
Print Assumptions C54_sorted_loop.
Example C54_example : let w := (after evs1 hstart).1 in let w' := remove_all_loop g2 (lit "G") w in
  names_seen w.1 (hn_nodes (hg_nodes w.2)) = [lit "a"; lit "b"; lit "c"] /\ names_seen w'.1 (hn_nodes (hg_nodes w'.2)) = [lit "b"].
Proof. vm_compute. auto. Qed.

(** ** C55: analysis hands out maps that it changes later *)
(** The result of Analyse for an implementation of Interface that neither changes the maps it is given nor looks at them after
    the call is the same as if each call got a copy of the map. *)
Theorem C55_any : forall (S S' : Type) new get set step step' (rel : S -> S' -> gmap nat attrs -> Prop), careful new get set step step' rel ->
  forall ord a s s', rel s s' ∅ ->
  let '(s1, r) := h_analyse S new get set step ord a s in
  let '(s1', r') := analyse S' step' ord a s' in
  r = r' /\ exists env, rel s1 s1' env.
Proof.
  intros S S' new get set step step' rel CA ord a s s' R. destruct (analyse_sim new get set step step' rel ord CA a s s' R) as (env & A & B).
  destruct (h_analyse S new get set step ord a s) as [s1 r]. destruct (analyse S' step' ord a s') as [s1' r']. cbn [fst snd] in *. eauto.
Qed.
Print Assumptions C55_any.
(** Graph copies what it is given, so NewAnalysedGraph yields the graph of the calls by value, which shares no map: the
    defaults that change later in the text do not show in nodes and edges that came before. *)
Theorem C55_graph : forall grow os ord a,
  match h_new_analysed_graph grow os ord a with
  | inl w => new_analysed_graph os ord a = inl (abs w) /\ forall b c l, ref w.1 w.2 b = Some l -> ref w.1 w.2 c = Some l -> b = c
  | inr e => new_analysed_graph os ord a = inr e
  end.
Proof.
  intros grow os ord a. pose proof (h_new_analysed_graph_sim grow os ord a) as H. destruct (h_new_analysed_graph grow os ord a) as [w|e]; [|exact H].
  destruct H as [I E]. split; [exact E|]. exact (i_inj _ I).
Qed.
Print Assumptions C55_graph.
(** The same for Analyse into an Escape; [b] tells whether a call panicked. *)
Theorem C55_escape : forall uletter udigit grow oes os ord a,
  let '(((w, _), b), r) := h_analyse _ hesc_new hesc_get hesc_set (hesc_call uletter udigit grow oes os) ord a ((h_new_graph, 0), false) in
  let '(((g, _), b'), r') := analyse _ (vesc_call uletter udigit oes os) ord a ((new_graph, 0), false) in
  r = r' /\ b = b' /\ abs w = g.
Proof.
  intros ul ud grow oes os ord a.
  pose proof (C55_any _ _ _ _ _ _ _ _ (esc_careful ul ud grow oes os) ord a ((h_new_graph, 0), false) ((new_graph, 0), false) (conj eq_refl graph_rel_new)) as H.
  destruct (h_analyse _ _ _ _ _ ord a _) as [[[w i] b] r]. destruct (analyse _ _ ord a _) as [[[g i'] b'] r']. destruct H as (E & env & Eb & _ & _ & A & _). done.
Qed.
Print Assumptions C55_escape.
(** An implementation that keeps the maps of AddNode: it has the memory, and for each node the map with its content at the call. *)
Definition keeper : Type := store attrs * list (gostr * nat * attrs).
Definition keeper_new (s : keeper) (m : attrs) : keeper * nat := let '(st, l) := alloc s.1 m in ((st, s.2), l).
Definition keeper_get (s : keeper) (l : nat) : attrs := default ∅ (cells s.1 !! l).
Definition keeper_set (s : keeper) (l : nat) (k v : gostr) : keeper := (put s.1 l (<[k := v]> (keeper_get s l)), s.2).
Definition keeper_step (s : keeper) (c : hcall) : keeper * option err :=
  match c with HAddNode _ n (Some l) => ((s.1, s.2 ++ [(n, l, keeper_get s l)]), None) | _ => (s, None) end.
(** digraph { a -> b; node [color=red] }: both nodes get one map, which is empty at the calls and has the colour in the end. *)
Definition late : Ast.graph := Ast.Graph true false (lit "G")
  [Ast.SEdge (Ast.LNode (Ast.NodeID (lit "a") (Ast.Port [] []))) [Ast.EdgeRH true (Ast.LNode (Ast.NodeID (lit "b") (Ast.Port [] [])))] [];
   Ast.SNodeAttrs [[Ast.Attr (lit "color") (lit "red")]]].
Definition ord_id : order := fun _ m => map_to_list m.
Theorem C55_keeper_refuted : exists a l,
  let s := (h_analyse keeper keeper_new keeper_get keeper_set keeper_step ord_id a (empty_store, [])).1 in
  s.2 = [(lit "a", l, ∅); (lit "b", l, ∅)] /\ keeper_get s l = A [(lit "color", lit "red")].
Proof. exists late, 0. cbv zeta. apply (bool_decide_unpack _). vm_compute. exact I. Qed.
Print Assumptions C55_keeper_refuted.
(** With Graph the nodes have no colour. *)
Example C55_example : match h_new_analysed_graph g2 (fun _ => o_id) ord_id late with
  | inl w => (s_nodes (view (abs w)) !! lit "a", s_nodes (view (abs w)) !! lit "b") = (Some ∅, Some ∅)
  | inr _ => False
  end.
Proof. vm_compute. reflexivity. Qed.
