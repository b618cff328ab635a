(** Property C69: changing a graph in place through pointers taken from it (HeapEdit.v, SpecHeapEdit.v). *)
From Coq Require Import Lia.
From Verif Require Import Base Maps Graph SpecGraph MapFacts GraphProofs HeapGraph SpecHeap HeapProofs HeapSnap HeapEdit SpecHeapEdit HeapEditProofs.
From Verif Require Import Direct SpecDirect DirectProofs.
From Verif Require PropsGraph PropsHeap.
Notation o_id := PropsGraph.o_id.
Notation A := PropsGraph.A.

(** A history of calls and edits from NewGraph(), with no map made so far. *)
Definition xstart : world * list nat := (h_new_graph, []).
Definition xafter (es : list xevent) (st : world * list nat) : world * list nat := (xrun es st).1.
Lemma xafter_good es : good (xafter es xstart).
Proof. apply xrun_good, good_new. Qed.

(** An edit through a pointer to something that is in the graph does to the graph exactly what Direct.v (SpecDirect.v, C58)
    says of this place: the node, the subgraph of this name, the edge at this index. *)
Theorem C69_edit : forall es o e t,
  let '(w, mine) := xafter es xstart in
  let env := map (at_map w.1) mine in
  exists_in w (through e) -> stands w (through e) t ->
  let '(w', r) := hedit o mine e w in
  possible (abs w) (direct_of env e t) /\ (abs w', r) = exec_direct o (direct_of env e t) (abs w).
Proof.
  intros es o e t. pose proof (xafter_good es) as G. destruct (xafter es xstart) as [w mine]. intros env X St.
  pose proof (ed_stands _ _ _ _ _ (hedit_edited o mine e w G X) t St) as E. destruct (hedit o mine e w) as [w' r]. exact E.
Qed.
Print Assumptions C69_edit.
(** Through a pointer to an edge or a subgraph that is no longer in the graph nothing happens to the graph. *)
Theorem C69_gone : forall es o e,
  let '(w, mine) := xafter es xstart in
  (forall t, ~ stands w (through e) t) -> abs (hedit o mine e w).1 = abs w.
Proof.
  intros es o e. pose proof (xafter_good es) as G. destruct (xafter es xstart) as [w mine]. intros N.
  destruct (ref w.1 w.2 (through e)) as [l|] eqn:R.
  - apply (ed_gone _ _ _ _ _ (hedit_edited o mine e w G (ex_intro _ l R)) N).
  - rewrite hedit_absent; [done|]. unfold exists_in. rewrite R. by intros [? ?].
Qed.
Print Assumptions C69_gone.
(** The attributes seen through this pointer change as said; all other pointers, of the graph or not, and the caller's maps
    show what they did. *)
Theorem C69_seen : forall es o e,
  let '(w, mine) := xafter es xstart in
  let env := map (at_map w.1) mine in
  exists_in w (through e) -> fair o ->
  let '(w', r) := hedit o mine e w in
  (forall x op, op_of env e = Some (x, op) -> spec_attr op (attrs_seen w x) (attrs_seen w' x) r) /\
  (forall y, y <> through e -> attrs_seen w' y = attrs_seen w y) /\
  map (at_map w'.1) mine = env.
Proof.
  intros es o e. pose proof (xafter_good es) as G. destruct (xafter es xstart) as [w mine]. intros env X F.
  destruct (hedit_edited o mine e w G X) as [_ E2 _ _ E5 E6 _]. destruct (hedit o mine e w) as [w' r]. cbn [fst snd] in *.
  split; [|split; [|exact E2]].
  - intros x op E. specialize (E5 x op E). pose proof (exec_attr_spec o op (attrs_seen w x) F) as S. rewrite <- E5 in S. exact S.
  - intros y N. apply E6. by left.
Qed.
Print Assumptions C69_seen.
(** Calls, and the caller's changes of its own maps, behave after any edits as by value (cf. C52). *)
Theorem C69_calls : forall es e,
  let st := xafter es xstart in
  (seen (hstep e st).1, (hstep e st).2) = vstep e (seen st).
Proof. intros es e st. apply hstep_sim. apply (xafter_good es). Qed.
Print Assumptions C69_calls.
(** No two of the graph, its nodes, edges and subgraphs share a map, and none has a map of the caller. *)
Theorem C69_own_maps : forall es,
  let '(h, g, mine) := xafter es xstart in
  (forall a b l, ref h g a = Some l -> ref h g b = Some l -> a = b) /\ (forall a l, ref h g a = Some l -> l ∉ mine).
Proof.
  intros es. pose proof (xafter_good es) as [(I & _ & M) _]. destruct (xafter es xstart) as [[h g] mine]. cbn [fst snd] in *.
  split; [exact (i_inj _ I)|]. intros a l R Hl. by apply (M l Hl) in R.
Qed.
Print Assumptions C69_own_maps.

Lemma stands_or w x : (exists t, stands w x t) \/ (forall t, ~ stands w x t).
Proof.
  destruct x as [|q|q|q].
  - left. eexists. constructor.
  - left. eexists. constructor.
  - destruct (decide (q ∈ elems (earrs w.1) (he_edges (hg_edges w.2)))) as [H|H].
    + apply elem_of_list_lookup in H as [i Hi]. left. eexists. by constructor.
    + right. intros t St. inversion St as [| | |? i Hi]; subst. apply H. by eapply elem_of_list_lookup_2.
  - destruct (decide (q ∈ map snd (map_to_list (hg_subs w.2)))) as [H|H].
    + apply elem_of_list_In, in_map_iff in H as ([x q'] & <- & H). apply elem_of_list_In, elem_of_map_to_list in H. left. eexists. by constructor.
    + right. intros t St. inversion St as [| |? x Hx|]; subst. apply H. apply elem_of_list_In, in_map_iff. exists (x, q). split; [done|]. by apply elem_of_list_In, elem_of_map_to_list.
Qed.
Lemma xstep_built e st : good st -> fair_xevent e -> built (abs st.1) -> built (abs (xstep e st).1.1).
Proof.
  intros G F B. destruct e as [e|o e]; cbn [xstep fair_xevent] in *.
  - destruct (hstep_sim e st (proj1 G)) as [_ E]. assert (E1 : abs (hstep e st).1.1 = (vstep e (seen st)).1.1) by (by rewrite <- E).
    rewrite E1. destruct e as [m|i k v|i k|grow o c]; cbn [vstep seen fst snd]; try done.
    pose proof (built_call (abs st.1) o (with_contents (content_of (map (at_map st.1.1) st.2)) c) B F) as K.
    by destruct (exec o (with_contents (content_of (map (at_map st.1.1) st.2)) c) (abs st.1)).
  - destruct st as [w mine]. cbn [fst snd] in *. destruct (ref w.1 w.2 (through e)) as [l|] eqn:R.
    2:{ rewrite hedit_absent; [done|]. unfold exists_in. rewrite R. by intros [? ?]. }
    destruct (hedit_edited o mine e w G (ex_intro _ l R)) as [_ _ E3 E4 _ _ _]. destruct (hedit o mine e w) as [w' r]. cbn [fst snd] in *.
    destruct (stands_or w (through e)) as [[t St]|N]; [|by rewrite E4].
    destruct (E3 t St) as [P E]. assert (E1 : abs w' = (exec_direct o (direct_of (map (at_map w.1) mine) e t) (abs w)).1) by (by rewrite <- E).
    rewrite E1. by apply built_direct.
Qed.
(** So every graph that comes from such a history is one that the calls and assignments of Direct.v build, and all that is proved of these
    (C13-C15, C17-C22, C28, C30, C32-C34, C45, C58) holds of it. *)
Theorem C69_built : forall es, Forall fair_xevent es -> built (abs (xafter es xstart).1).
Proof.
  intros es F. assert (X : forall st, good st -> built (abs st.1) -> built (abs (xrun es st).1.1)).
  { induction es as [|e es IH]; intros st G B; cbn [xrun]; [done|]. apply Forall_cons in F as [F1 F2].
    pose proof (xstep_built e st G F1 B) as B1. pose proof (xstep_good e st G) as G1. destruct (xstep e st) as [st1 r]. cbn [fst] in *.
    specialize (IH F2 st1 G1 B1). by destruct (xrun es st1). }
  apply X; [apply good_new|]. change (xstart.1) with h_new_graph. rewrite abs_new. constructor.
Qed.
Print Assumptions C69_built.
(** A slice Edges.Edges that was taken before shows the same pointers later, and of each edge what it was at that time, unless
    it was edited through a pointer to this edge. *)
Theorem C69_edges_snapshot : forall es later,
  let st := xafter es xstart in
  let y := he_edges (hg_edges st.1.2) in
  elems (earrs (xafter later st).1.1) y = elems (earrs st.1.1) y /\
  forall p, p ∈ elems (earrs st.1.1) y -> Forall (edge_untouched p) later -> abs_edge (xafter later st).1.1 p = abs_edge st.1.1 p.
Proof.
  intros es later st y. pose proof (xafter_good es) as G. fold st in G. destruct (xrun_edges later st G) as (K1 & K2 & K3).
  destruct G as [(I & _ & _) _]. split.
  - destruct (K1 y) as [_ E]; [apply older_self, I|]. exact E.
  - intros p Hp F. apply K3; [|exact F]. exact (proj1 (Forall_forall _ _) (we_elems _ _ (i_edges _ I)) p Hp).
Qed.
Print Assumptions C69_edges_snapshot.
(** A pointer to a node that was removed shows what it showed then, unless it is edited, and the graph never hands it out again. *)
Theorem C69_removed_node : forall es grow parent n p later, Forall fair_xevent es ->
  let st := xafter es xstart in
  let '(w1, r) := h_remove_node grow st.1 parent n in
  let w2 := (xafter later (w1, st.2)).1 in
  hn_lookup (hg_nodes st.1.2) !! n = Some p -> r = None ->
  (forall n', hn_lookup (hg_nodes w2.2) !! n' <> Some p) /\
  node_name (node_seen w2.1 p) = n /\
  (Forall (fun e => forall o e', e = XEdit o e' -> through e' <> ONode p) later -> node_seen w2.1 p = node_seen st.1.1 p).
Proof.
  intros es grow parent n p later F st. pose proof (xafter_good es) as Gd. fold st in Gd. pose proof Gd as [(I & N & M) X].
  pose proof (built_ok _ (C69_built es F)) as OK. fold st in OK.
  pose proof (remove_node_eix grow st.1 parent n (conj I X)) as X1.
  destruct (remove_node_sim grow st.1 parent n I) as (J & E & V).
  destruct (h_remove_node grow st.1 parent n) as [w1 r] eqn:ER. cbn [fst snd] in *. intros L R. subst r.
  assert (L' : nodes_lookup (g_nodes (abs st.1)) !! n = Some p) by (destruct st as [[h g] mine]; exact L).
  assert (G1 : gone (g_nodes (abs w1)) p (deref (g_nodes (abs st.1)) p)).
  { assert (E1 : abs w1 = (remove_node (abs st.1) parent n).1) by (by rewrite <- E).
    assert (E2 : (remove_node (abs st.1) parent n).2 = None) by (by rewrite <- E). rewrite E1. unfold remove_node in *.
    pose proof (removed_gone (g_nodes (abs st.1)) n p (go_nodes _ OK) L') as G.
    destruct (nodes_remove (g_nodes (abs st.1)) n) as [ns [e|]]; cbn in *; [done|]. by apply G. }
  assert (Gd1 : good (w1, st.2)).
  { split; [|exact X1]. split; [done|]. split; [done|]. cbn [fst snd]. intros l Hl. destruct (M l Hl) as [ML MR]. split; [pose proof (ev_maps _ _ V); lia|].
    intros a Ra. destruct (ev_refs _ _ V a l Ra) as [Ra'|Ra']; [by eapply MR|lia]. }
  destruct (xrun_gone later p (w1, st.2) _ Gd1 G1) as (n2 & G2 & NM & SM). unfold xafter.
  destruct (xrun later (w1, st.2)) as [[w2 mine2] rs]. cbn [fst snd] in *. rewrite (gone_seen w2 p _ G2).
  split; [|split].
  - destruct G2 as (_ & _ & G2). destruct w2 as [h2 gg]. exact G2.
  - rewrite NM. by rewrite (deref_lookup _ (go_nodes _ OK) n p L').
  - intros Fl. rewrite (SM Fl). destruct st as [[h g] mine]. cbn [fst snd] in *. unfold node_seen, at_node.
    assert (P : p < next (nobjs h)) by (by eapply (wn_lookup _ _ (i_nodes _ I))). apply (wh_nobjs _ (i_heap _ I)) in P as [x Ex]. cbn in Ex.
    rewrite Ex. apply (deref_abs h (hg_nodes g) p x Ex).
Qed.
Print Assumptions C69_removed_node.

(** ** x.Attrs = m with a map of the caller *)
Definition h_share (mine : list nat) (x : owner) (i : nat) (w : world) : world := match mine !! i with Some l => set_ref w x l | None => w end.
(** Then the graph changes when the caller changes its map. *)
Theorem C69_share_refuted : exists es x i e,
  let w := (xafter es xstart).1 in let mine := (xafter es xstart).2 in
  let st := (h_share mine x i w, mine) in
  (seen (hstep e st).1, (hstep e st).2) <> vstep e (seen st).
Proof.
  exists [XEvent (EMake ∅); XEvent (ECall (fun n => n) o_id (HAddNode (lit "G") (lit "a") (Some 0)))], (ONode 0), 0, (ESet 0 (lit "color") (lit "red")).
  intros w mine st H. apply (f_equal (fun r => (s_nodes (view r.1.1) !! lit "a"))) in H. unfold st, mine, w in H. revert H. vm_compute. discriminate.
Qed.
Print Assumptions C69_share_refuted.

(** ** Example: a node, two edges between the same nodes and a subgraph are changed through pointers, also after a removal. *)
Definition call (c : hcall) : xevent := XEvent (ECall (fun n => n) o_id c).
Definition es1 : list xevent :=
  [call (HAddNode (lit "G") (lit "a") None); call (HAddNode (lit "G") (lit "b") None); call (HAddSubGraph (lit "G") (lit "S") None);
   call (HAddEdge (lit "a") (lit "b") true None); call (HAddEdge (lit "b") (lit "a") true None); call (HAddEdge (lit "a") (lit "b") true None);
   XEvent (EMake (A [(lit "color", lit "red")])); XEdit o_id (WExtend (OEdge 2) (Some 0)); XEdit o_id (WSet (ONode 0) (lit "color") (lit "blue"));
   XEdit o_id (WNew (OEdge 0) (A [(lit "label", lit "x")])); XEdit o_id (WEdge 1 (lit "p") (lit "q") false); XEdit o_id (WAdd (OSub 0) (lit "rank") (lit "same"));
   XEvent (ESet 0 (lit "color") (lit "green"))].
Definition es2 : list xevent :=
  [call (HRemoveNode (lit "G") (lit "a")); call (HAddNode (lit "G") (lit "a") None); XEdit o_id (WSet (ONode 0) (lit "shape") (lit "box"));
   XEdit o_id (WDelete (OEdge 0) (lit "label")); call (HAddEdge (lit "a") (lit "b") true None); XEdit o_id (WSet (OEdge 3) (lit "style") (lit "bold"))].
Local Instance edge_eq_dec : EqDecision edge.
Proof. solve_decision. Defined.
Example C69_example :
  let w := (xafter es1 xstart).1 in let w2 := (xafter (es1 ++ es2) xstart).1 in
  Forall (fun e => exists_in w (through e)) [WDelete (OEdge 2) []; WSet (ONode 0) [] []; WAdd (OSub 0) [] []] /\
  stands w (OEdge 2) (TEdge 2) /\ stands w (OSub 0) (TSub (lit "S")) /\
  edges_list (g_edges (abs w)) = [Edge (lit "a") [] (lit "b") [] true (A [(lit "label", lit "x")]); Edge (lit "b") (lit "p") (lit "a") (lit "q") false ∅;
    Edge (lit "a") [] (lit "b") [] true (A [(lit "color", lit "red")])] /\
  (src_to_dsts (g_edges (abs w)) !! lit "a" ≫= fun m : gmap gostr (list edge) => m !! lit "b") =
    Some [Edge (lit "a") [] (lit "b") [] true (A [(lit "label", lit "x")]); Edge (lit "a") [] (lit "b") [] true (A [(lit "color", lit "red")])] /\
  s_nodes (view (abs w)) !! lit "a" = Some (A [(lit "color", lit "blue")]) /\
  s_subs (view (abs w)) !! lit "S" = Some (A [(lit "rank", lit "same")]) /\
  edges_list (g_edges (abs w2)) = [Edge (lit "a") [] (lit "b") [] true (A [(lit "style", lit "bold")])] /\
  s_nodes (view (abs w2)) !! lit "a" = Some ∅ /\ attrs_seen w2 (ONode 0) = A [(lit "color", lit "blue"); (lit "shape", lit "box")].
Proof.
  cbv zeta. split; [|split; [|split]].
  - repeat constructor; vm_compute; eauto.
  - constructor. vm_compute. reflexivity.
  - constructor. vm_compute. reflexivity.
  - apply (bool_decide_unpack _). vm_compute. exact I.
Qed.
