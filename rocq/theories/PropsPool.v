(** C79: several graphs on one heap, where the nodes and edges of one graph are given to another. *)
From Coq Require Import Lia.
From Verif Require Import Base Maps Graph SpecGraph MapFacts GraphProofs HeapGraph SpecHeap HeapProofs HeapSnap HeapRange HeapEditProofs.
From Verif Require Import Direct SpecDirect DirectProofs Pool SpecPool PoolFrame PoolIndex PoolProofs PoolSteps PoolEvents PoolEvents2 PoolAlone PoolPtrs PoolBuilt PropsGraph.

Lemma made_sound st : made st -> psound st.
Proof. intros (es & F & ->). apply prun_sound; [apply psound_nothing|done]. Qed.
Lemma prun_app es1 es2 st : (prun (es1 ++ es2) st).1 = (prun es2 (prun es1 st).1).1.
Proof.
  revert st. induction es1 as [|e es1 IH]; intros st; cbn [app prun]; [done|]. destruct (pstep e st) as [st1 r]. specialize (IH st1).
  destruct (prun (es1 ++ es2) st1), (prun es1 st1). cbn [fst] in *. done.
Qed.
Lemma made_nothing : made nothing.
Proof. by exists []. Qed.
Lemma made_step st e : made st -> fair_pevent e -> made (pstep e st).1.
Proof.
  intros (es & F & ->) Fe. exists (es ++ [e]). split; [by apply Forall_app; split; [|constructor]|]. rewrite prun_app. cbn [prun]. by destruct (pstep e (prun es nothing).1).
Qed.
Lemma made_run st es : made st -> Forall fair_pevent es -> made (prun es st).1.
Proof. intros (es0 & F & ->) Fe. exists (es0 ++ es). split; [by apply Forall_app|]. by rewrite prun_app. Qed.
Lemma graph_at st i : i < length (p_graphs st) -> exists g, p_graphs st !! i = Some g.
Proof. intros L. by apply lookup_lt_is_Some in L. Qed.

(** ** C79 A call, with whatever the graphs share *)
(** To its own graph a call does what is specified for a graph that is alone (C58). *)
Theorem C79_call : forall st i grow o c, made st -> i < length (p_graphs st) -> fair o ->
  let R := pstep (PCall i grow o c) st in
  exists r, R.2 = [r] /\ spec_call (with_contents (content_of (maps_shown st)) c) (shown st i) (shown R.1 i) r /\
    maps_shown R.1 = maps_shown st /\ length (p_graphs R.1) = length (p_graphs st).
Proof.
  intros st i grow o c M L F R. destruct (graph_at st i L) as [g G]. destruct (call_step st i g grow o c (made_sound st M) G F) as (r & E & CF). exists r.
  split; [exact E|]. split; [apply (cf_spec _ _ _ _ _ CF)|]. split; [apply (cf_maps _ _ _ _ _ CF)|apply (cf_count _ _ _ _ _ CF)].
Qed.
Print Assumptions C79_call.
(** Another graph sees of it only the attributes that AddNode gives to a node they share; it keeps its nodes and edges. *)
Theorem C79_others : forall st i j grow o c r, made st -> i < length (p_graphs st) -> fair o -> j <> i ->
  let R := pstep (PCall i grow o c) st in R.2 = [r] ->
  shown R.1 j = from_afar (with_contents (content_of (maps_shown st)) c) r (shares_node st i j) (shown st j) /\
  edge_ptrs R.1 j = edge_ptrs st j /\ forall n p, has_node R.1 j n p <-> has_node st j n p.
Proof.
  intros st i j grow o c r M L F N R E. destruct (graph_at st i L) as [g G]. destruct (call_step st i g grow o c (made_sound st M) G F) as (r' & E' & CF).
  unfold R in E. rewrite E' in E. injection E as ->. split; [by apply (cf_others _ _ _ _ _ CF)|]. split; [by apply (cf_ptrs _ _ _ _ _ CF)|]. intros n p. by apply (cf_has_other _ _ _ _ _ CF).
Qed.
Print Assumptions C79_others.
(** Through the pointers that the caller has he sees the same: a node that AddNode gives attributes, and nothing else. *)
Theorem C79_through_pointers : forall st i grow o c r, made st -> i < length (p_graphs st) -> fair o ->
  let R := pstep (PCall i grow o c) st in R.2 = [r] ->
  (forall p, is_node_ptr st p -> is_node_ptr R.1 p /\
     node_shown R.1 p = node_from_afar (with_contents (content_of (maps_shown st)) c) r (fun n => has_node st i n p) (node_shown st p)) /\
  (forall p, is_edge_ptr st p -> is_edge_ptr R.1 p /\ edge_shown R.1 p = edge_shown st p).
Proof.
  intros st i grow o c r M L F R E. destruct (graph_at st i L) as [g G]. destruct (call_step st i g grow o c (made_sound st M) G F) as (r' & E' & CF).
  unfold R in E. rewrite E' in E. injection E as ->. split; intros p Hp; [by apply (cf_node _ _ _ _ _ CF)|by apply (cf_edge _ _ _ _ _ CF)].
Qed.
Print Assumptions C79_through_pointers.
(** The nodes and edges that a call makes are new: no other graph and no pointer of the caller's leads to them. The old ones
    that stay are the ones that were there, the edges in their order. *)
Theorem C79_new_ones : forall st i grow o c, made st -> i < length (p_graphs st) -> fair o ->
  let R := pstep (PCall i grow o c) st in
  (forall n p, has_node R.1 i n p -> has_node st i n p \/ ~ is_node_ptr st p) /\
  (forall n p, has_node st i n p -> has_node R.1 i n p \/ s_nodes (shown R.1 i) !! n = None) /\
  exists old new, edge_ptrs R.1 i = old ++ new /\ old `sublist_of` edge_ptrs st i /\ Forall (fun p => ~ is_edge_ptr st p) new.
Proof.
  intros st i grow o c M L F R. destruct (graph_at st i L) as [g G]. pose proof (made_sound st M) as S. destruct (call_step st i g grow o c S G F) as (r' & E' & CF).
  split; [|split].
  - intros n p. by apply (call_back st i g grow o c n p S G F).
  - intros n p H. destruct (cf_has _ _ _ _ _ CF i n p H) as [A|[_ A]]; [by left|by right].
  - by apply (call_ptrs st i g grow o c S G F).
Qed.
Print Assumptions C79_new_ones.

(** ** C79 Giving pointers *)
(** g.Nodes.Add(p) with a name the graph has not: the graph has this node from now on, and shares it. Nothing else changes. *)
Theorem C79_give_node : forall st i grow o p, made st -> i < length (p_graphs st) -> fair o -> is_node_ptr st p ->
  let R := pstep (PGiveNode i grow o p) st in let n := node_name (node_shown st p) in
  s_nodes (shown st i) !! n = None ->
  R.2 = [None] /\ shown R.1 i = s_new_node (shown st i) n (node_attrs (node_shown st p)) /\ has_node R.1 i n p /\
  (forall j, j <> i -> shown R.1 j = shown st j) /\ (forall j m q, (j, m) <> (i, n) -> has_node R.1 j m q <-> has_node st j m q) /\
  (forall j, edge_ptrs R.1 j = edge_ptrs st j) /\ maps_shown R.1 = maps_shown st.
Proof.
  intros st i grow o p M L F Hp R n N. destruct (graph_at st i L) as [g G]. pose proof (made_sound st M) as S.
  destruct (give_node_step st i g grow o p S G F Hp) as (E1 & GF & E2 & E3). fold R n in E1, GF, E2, E3.
  assert (HL : hn_lookup (hg_nodes g) !! n = None).
  { destruct (hn_lookup (hg_nodes g) !! n) as [q|] eqn:Q; [|done]. exfalso. apply (has_node_none st i n S N q). by exists g. }
  rewrite HL in E3. destruct E3 as (E3 & E4 & E5 & E6). split; [done|]. split; [done|]. split; [done|]. split; [done|]. split; [|split; [done|apply (gf_maps _ _ _ GF)]].
  intros j m q Ne. split; [|apply (gf_has _ _ _ GF)]. intros H. destruct (decide (j = i)) as [->|Nj]; [|by apply (gf_has_other _ _ _ GF)].
  destruct (has_node_facts R.1 i m q (gf_sound _ _ _ GF) H) as (_ & _ & A). rewrite E3 in A. cbn [s_new_node s_nodes] in A. rewrite lookup_insert_ne in A by congruence.
  destruct (has_node_some st i m _ S A) as [q' Hq']. pose proof (gf_has _ _ _ GF i m q' Hq') as H'. by rewrite (has_node_same R.1 i m q q' H H').
Qed.
Print Assumptions C79_give_node.
(** With a name it has, its own node gets the attributes, in all graphs that have that node; no sharing is added. *)
Theorem C79_give_known_node : forall st i grow o p q, made st -> i < length (p_graphs st) -> fair o -> is_node_ptr st p ->
  let R := pstep (PGiveNode i grow o p) st in let n := node_name (node_shown st p) in let a := node_attrs (node_shown st p) in
  has_node st i n q ->
  R.2 = [None] /\ (forall j, shown R.1 j = if decide (has_node st j n q) then s_extend_node (shown st j) n a else shown st j) /\
  (forall j m s, has_node R.1 j m s <-> has_node st j m s) /\ (forall j, edge_ptrs R.1 j = edge_ptrs st j) /\ maps_shown R.1 = maps_shown st /\
  (forall s, is_node_ptr st s -> node_shown R.1 s = if decide (s = q) then Node n (a ∪ node_attrs (node_shown st q)) else node_shown st s).
Proof.
  intros st i grow o p q M L F Hp R n a N. destruct (graph_at st i L) as [g G]. pose proof (made_sound st M) as S.
  destruct (give_node_step st i g grow o p S G F Hp) as (E1 & GF & E2 & E3). fold R n a in E1, GF, E2, E3.
  assert (HL : hn_lookup (hg_nodes g) !! n = Some q) by (destruct N as (g' & G' & L'); congruence).
  rewrite HL in E3. destruct E3 as (E3 & E4 & E5). split; [done|]. split; [done|]. split; [done|]. split; [done|]. split; [apply (gf_maps _ _ _ GF)|done].
Qed.
Print Assumptions C79_give_known_node.
(** g.Edges.Add(p): the graph has this edge once more, at the end. *)
Theorem C79_give_edge : forall st i grow p, made st -> i < length (p_graphs st) -> is_edge_ptr st p ->
  let R := pstep (PGiveEdge i grow p) st in
  R.2 = [None] /\ shown R.1 i = s_with_edges (shown st i) (s_edges (shown st i) ++ [edge_shown st p]) /\ edge_ptrs R.1 i = edge_ptrs st i ++ [p] /\
  (forall j, j <> i -> shown R.1 j = shown st j /\ edge_ptrs R.1 j = edge_ptrs st j) /\ (forall j n q, has_node R.1 j n q <-> has_node st j n q) /\
  maps_shown R.1 = maps_shown st.
Proof.
  intros st i grow p M L Hp R. destruct (graph_at st i L) as [g G]. destruct (give_edge_step st i g grow p (made_sound st M) G Hp) as (E1 & GF & E2 & E3 & E4 & E5 & E6).
  split; [done|]. split; [done|]. split; [done|]. split; [done|]. split; [done|]. apply (gf_maps _ _ _ GF).
Qed.
Print Assumptions C79_give_edge.

(** ** C79 Attributes through pointers *)
(** Exactly the graphs that have the node see the change; sharing is as before. *)
Theorem C79_node_attr : forall st o p op, made st -> fair o -> is_node_ptr st p ->
  let R := pstep (PNodeAttr o p op) st in let n := node_name (node_shown st p) in
  exists a r, R.2 = [r] /\ spec_attr op (node_attrs (node_shown st p)) a r /\ node_shown R.1 p = Node n a /\
  (forall j, shown R.1 j = if decide (has_node st j n p) then s_set_node (shown st j) n a else shown st j) /\
  (forall q, is_node_ptr st q -> q <> p -> node_shown R.1 q = node_shown st q) /\
  (forall j m q, has_node R.1 j m q <-> has_node st j m q) /\ (forall j, edge_ptrs R.1 j = edge_ptrs st j) /\ maps_shown R.1 = maps_shown st.
Proof.
  intros st o p op M F Hp R n. destruct (node_attr_step st o p op (made_sound st M) F Hp) as (AF & a & r & E1 & E2 & E3 & E4 & E5). exists a, r. fold R n in E1, E3, E4, AF.
  split; [done|]. split; [done|]. split; [rewrite (E4 p Hp); by rewrite decide_True|]. split; [done|]. split; [|split; [apply (af_has _ _ AF)|split; [apply (af_ptrs _ _ AF)|apply (af_maps _ _ AF)]]].
  intros q Hq Ne. rewrite (E4 q Hq). by rewrite decide_False.
Qed.
Print Assumptions C79_node_attr.
(** The same for edges: it changes at every place at which the edge stands, in every graph. *)
Theorem C79_edge_attr : forall st o p op, made st -> fair o -> is_edge_ptr st p ->
  let R := pstep (PEdgeAttr o p op) st in
  exists a r, R.2 = [r] /\ spec_attr op (e_attrs (edge_shown st p)) a r /\
  (forall j, shown R.1 j = s_with_edges (shown st j) (map (fun q => if decide (q = p) then with_e_attrs (edge_shown st p) a else edge_shown st q) (edge_ptrs st j))) /\
  (forall q, is_edge_ptr st q -> edge_shown R.1 q = if decide (q = p) then with_e_attrs (edge_shown st p) a else edge_shown st q) /\
  (forall q, is_node_ptr st q -> node_shown R.1 q = node_shown st q) /\
  (forall j m q, has_node R.1 j m q <-> has_node st j m q) /\ (forall j, edge_ptrs R.1 j = edge_ptrs st j) /\ maps_shown R.1 = maps_shown st.
Proof.
  intros st o p op M F Hp R. destruct (edge_attr_step st o p op (made_sound st M) F Hp) as (AF & a & r & E1 & E2 & E3 & E4 & E5). exists a, r. fold R in E1, E3, E4, E5, AF.
  split; [done|]. split; [done|]. split; [done|]. split; [done|]. split; [done|]. split; [apply (af_has _ _ AF)|split; [apply (af_ptrs _ _ AF)|apply (af_maps _ _ AF)]].
Qed.
Print Assumptions C79_edge_attr.
(** What a graph's Edges shows is what its pointers show. *)
Theorem C79_edges_are : forall st j, s_edges (shown st j) = map (edge_shown st) (edge_ptrs st j).
Proof. exact edges_shown. Qed.
Print Assumptions C79_edges_are.
(** A node of a graph has its name and shows its attributes; two graphs that share a node agree on it. *)
Theorem C79_nodes_are : forall st i n p, made st -> has_node st i n p ->
  is_node_ptr st p /\ node_name (node_shown st p) = n /\ s_nodes (shown st i) !! n = Some (node_attrs (node_shown st p)).
Proof. intros st i n p M. apply has_node_facts, made_sound, M. Qed.
Print Assumptions C79_nodes_are.
Theorem C79_has_all : forall st i n, made st -> (exists p, has_node st i n p) <-> is_Some (s_nodes (shown st i) !! n).
Proof.
  intros st i n M. split.
  - intros [p H]. destruct (has_node_facts st i n p (made_sound st M) H) as (_ & _ & ->). by eexists.
  - intros [a A]. by apply (has_node_some st i n a (made_sound st M)).
Qed.
Print Assumptions C79_has_all.
Theorem C79_shared_equal : forall st i j n, made st -> shares_node st i j n -> s_nodes (shown st i) !! n = s_nodes (shown st j) !! n.
Proof. intros st i j n M. apply shares_equal, made_sound, M. Qed.
Print Assumptions C79_shared_equal.

(** ** C79 New graphs, the caller's maps *)
Theorem C79_new : forall st, made st -> let R := pstep PNew st in let n := length (p_graphs st) in
  R.2 = [] /\ length (p_graphs R.1) = S n /\ shown R.1 n = s_empty /\ (forall j, j <> n -> shown R.1 j = shown st j /\ edge_ptrs R.1 j = edge_ptrs st j) /\
  maps_shown R.1 = maps_shown st /\ (forall j m p, has_node R.1 j m p <-> has_node st j m p).
Proof.
  intros st M R n. destruct (new_step st (made_sound st M)) as (E1 & _ & E2 & E3 & _ & E4 & E5 & _ & _ & _ & _ & E6). done.
Qed.
Print Assumptions C79_new.
(** No graph sees what the caller does to his maps afterwards. *)
Theorem C79_maps : forall st e, made st -> match e with PMake _ | PSet _ _ _ | PDel _ _ => True | _ => False end -> let R := pstep e st in
  R.2 = [] /\ maps_shown R.1 = maps_after e (maps_shown st) /\ (forall j, shown R.1 j = shown st j) /\
  (forall p, is_node_ptr st p -> node_shown R.1 p = node_shown st p) /\ (forall p, is_edge_ptr st p -> edge_shown R.1 p = edge_shown st p) /\
  (forall j m p, has_node R.1 j m p <-> has_node st j m p) /\ (forall j, edge_ptrs R.1 j = edge_ptrs st j).
Proof.
  intros st e M He R. destruct (maps_step st e (made_sound st M) He) as [E MF]. fold R in E, MF. split; [done|]. split; [apply (mf_maps _ _ _ MF)|]. split; [apply (mf_shown _ _ _ MF)|].
  split; [apply (mf_node _ _ _ MF)|]. split; [apply (mf_edge _ _ _ MF)|]. split; [apply (mf_has _ _ _ MF)|apply (mf_ptrs _ _ _ MF)].
Qed.
Print Assumptions C79_maps.
(** An event that names a graph or pointer that is not there does nothing. *)
Theorem C79_nothing : forall st e, match e with
    | PCall i _ _ _ => length (p_graphs st) <= i
    | PGiveNode i _ _ p => length (p_graphs st) <= i \/ ~ is_node_ptr st p
    | PGiveEdge i _ p => length (p_graphs st) <= i \/ ~ is_edge_ptr st p
    | PNodeAttr _ p _ => ~ is_node_ptr st p
    | PEdgeAttr _ p _ => ~ is_edge_ptr st p
    | _ => False end -> pstep e st = (st, []).
Proof.
  intros [h gs mine] e. destruct e as [|m|i k v|i k|i grow o c|i grow o p|i grow p|o p op|o p op]; try done; unfold is_node_ptr, is_edge_ptr; cbn [p_graphs p_heap pstep].
  - intros L. by rewrite (lookup_ge_None_2 gs i L).
  - intros [L|L]; [by rewrite (lookup_ge_None_2 gs i L)|]. destruct (gs !! i); [|done]. apply eq_None_not_Some in L. by rewrite L.
  - intros [L|L]; [by rewrite (lookup_ge_None_2 gs i L)|]. destruct (gs !! i); [|done]. apply eq_None_not_Some in L. by rewrite L.
  - intros L. apply eq_None_not_Some in L. by rewrite L.
  - intros L. apply eq_None_not_Some in L. by rewrite L.
Qed.
Print Assumptions C79_nothing.

(** ** C79 Histories *)
(** A graph keeps the node it has under a name until it has none of that name. *)
Theorem C79_stays : forall st e i n p, made st -> fair_pevent e -> has_node st i n p ->
  has_node (pstep e st).1 i n p \/ s_nodes (shown (pstep e st).1 i) !! n = None.
Proof.
  intros st e i n p M Fe H. pose proof (made_sound st M) as S. destruct e as [|m|j k v|j k|j grow o c|j grow o q|j grow q|o q op|o q op].
  - left. destruct (new_step st S) as (_ & _ & _ & _ & _ & _ & _ & _ & _ & _ & _ & E). by apply E.
  - left. by apply (mf_has _ _ _ (proj2 (maps_step st (PMake m) S Logic.I))).
  - left. by apply (mf_has _ _ _ (proj2 (maps_step st (PSet j k v) S Logic.I))).
  - left. by apply (mf_has _ _ _ (proj2 (maps_step st (PDel j k) S Logic.I))).
  - destruct (p_graphs st !! j) as [g|] eqn:G; [|left; destruct st; cbn in *; by rewrite G].
    destruct (call_step st j g grow o c S G Fe) as (r & _ & CF). destruct (cf_has _ _ _ _ _ CF i n p H) as [A|[-> A]]; [by left|by right].
  - left. destruct (p_graphs st !! j) as [g|] eqn:G; [destruct (cells (nobjs (p_heap st)) !! q) as [nd|] eqn:N|].
    + destruct (give_node_step st j g grow o q S G Fe) as (_ & F & _); [by eexists|]. by apply F.
    + destruct st as [h gs mine]. cbn in *. by rewrite G, N.
    + destruct st as [h gs mine]. cbn in *. by rewrite G.
  - left. destruct (p_graphs st !! j) as [g|] eqn:G; [destruct (cells (eobjs (p_heap st)) !! q) as [nd|] eqn:N|].
    + destruct (give_edge_step st j g grow q S G) as (_ & F & _); [by eexists|]. by apply F.
    + destruct st as [h gs mine]. cbn in *. by rewrite G, N.
    + destruct st as [h gs mine]. cbn in *. by rewrite G.
  - left. destruct (cells (nobjs (p_heap st)) !! q) as [nd|] eqn:N.
    + destruct (node_attr_step st o q op S Fe) as (F & _); [by eexists|]. by apply F.
    + destruct st as [h gs mine]. cbn in *. by rewrite N.
  - left. destruct (cells (eobjs (p_heap st)) !! q) as [nd|] eqn:N.
    + destruct (edge_attr_step st o q op S Fe) as (F & _); [by eexists|]. by apply F.
    + destruct st as [h gs mine]. cbn in *. by rewrite N.
Qed.
Print Assumptions C79_stays.
(** So two graphs that share a node [n] go on doing so, and agree on its attributes, as long as neither removes it. *)
Theorem C79_linked : forall es st i j n, made st -> Forall fair_pevent es -> shares_node st i j n ->
  (forall es1, es1 `prefix_of` es -> is_Some (s_nodes (shown (prun es1 st).1 i) !! n) /\ is_Some (s_nodes (shown (prun es1 st).1 j) !! n)) ->
  shares_node (prun es st).1 i j n /\ s_nodes (shown (prun es st).1 i) !! n = s_nodes (shown (prun es st).1 j) !! n.
Proof.
  intros es st i j n M F Sh K. assert (Q : shares_node (prun es st).1 i j n); [|split; [done|apply C79_shared_equal; [by apply made_run|done]]].
  revert K. induction es as [|e es IH] using rev_ind; intros K; [done|]. apply Forall_app in F as [F1 F2]. apply Forall_singleton_1 in F2.
  specialize (IH F1). assert (K1 : shares_node (prun es st).1 i j n) by (apply IH; intros es1 P; apply K; by apply prefix_app_r). destruct K1 as (p & A & B).
  destruct (K (es ++ [e]) (reflexivity _)) as [K1 K2]. pose proof (made_run st es M F1) as M1.
  rewrite prun_app in *. assert (E : (prun [e] (prun es st).1).1 = (pstep e (prun es st).1).1) by (cbn [prun]; by destruct (pstep e (prun es st).1)). rewrite E in *.
  exists p. destruct (C79_stays _ e i n p M1 F2 A) as [A'|A']; [|rewrite A' in K1; by destruct K1]. destruct (C79_stays _ e j n p M1 F2 B) as [B'|B']; [done|rewrite B' in K2; by destruct K2].
Qed.
Print Assumptions C79_linked.
(** Without pointers: a program that only calls methods of its graphs, however it interleaves them, makes of each graph what
    it makes of it if there are no others. *)
Theorem C79_alone : forall es i, Forall fair_pevent es -> Forall only_calls es ->
  let V := vrun (events_of i 0 es) (new_graph, []) in
  shown (prun es nothing).1 i = view V.1.1 /\ results_of i es nothing = V.2 /\ maps_shown (prun es nothing).1 = V.1.2.
Proof.
  intros es i F O V. assert (D : separated nothing) by (intros a b n _ (p & (g & G & _) & _); cbn in G; by rewrite lookup_nil in G).
  assert (St : stands nothing i new_graph) by (unfold stands; cbn; by rewrite lookup_nil).
  destruct (run_alone es nothing i new_graph psound_nothing F O D St) as (A & B & C). split; [by apply stands_shown|done].
Qed.
Print Assumptions C79_alone.
Theorem C79_alone_apart : forall es i j n, Forall fair_pevent es -> Forall only_calls es -> i <> j -> ~ shares_node (prun es nothing).1 i j n.
Proof.
  intros es. assert (Q : forall st, psound st -> separated st -> Forall fair_pevent es -> Forall only_calls es -> separated (prun es st).1).
  { induction es as [|e es IH]; intros st S D F O; [done|]. inversion F as [|? ? F1 F2]; subst. inversion O as [|? ? O1 O2]; subst.
    pose proof (pstep_sound e st S F1) as S1. pose proof (separated_step e st S F1 O1 D) as D1. cbn [prun]. destruct (pstep e st) as [st1 r]. cbn [fst] in *.
    specialize (IH st1 S1 D1 F2 O2). by destruct (prun es st1). }
  intros i j n F O Ne. apply (Q nothing psound_nothing); try done. intros a b m _ (p & (g & G & _) & _). cbn in G. by rewrite lookup_nil in G.
Qed.
Print Assumptions C79_alone_apart.
(** Whatever is shared, each graph looks like a graph that can be made without sharing (to which what is proved of such graphs applies). *)
Theorem C79_built : forall st i, made st -> exists g, built g /\ view g = shown st i.
Proof.
  intros st i M. pose proof (made_sound st M) as [_ O]. destruct (p_graphs st !! i) as [g|] eqn:G.
  - rewrite (shown_at st i g G). apply any_built, (O i g G).
  - rewrite (shown_none st i G). exists new_graph. split; [constructor|]. by rewrite view_new.
Qed.
Print Assumptions C79_built.

(** ** C79 for _, n := range g.Nodes.Nodes { h.Nodes.Add(n) } *)
Lemma give_all grow o i j ps : fair o -> i <> j -> forall st, made st -> j < length (p_graphs st) ->
  Forall (fun p => has_node st i (node_name (node_shown st p)) p) ps -> NoDup (map (fun p => node_name (node_shown st p)) ps) ->
  (forall p, p ∈ ps -> s_nodes (shown st j) !! node_name (node_shown st p) = None) ->
  let st' := (prun (map (PGiveNode j grow o) ps) st).1 in
  shown st' i = shown st i /\ s_order (shown st' j) = s_order (shown st j) ++ map (fun p => node_name (node_shown st p)) ps /\
  (forall p, p ∈ ps -> has_node st' j (node_name (node_shown st p)) p) /\ (forall n q, has_node st i n q -> has_node st' i n q) /\ (forall n q, has_node st j n q -> has_node st' j n q) /\
  s_edges (shown st' j) = s_edges (shown st j).
Proof.
  intros Fo Ne. induction ps as [|p ps IH]; intros st M L H ND N st'.
  - unfold st'. cbn. rewrite app_nil_r. split; [done|]. split; [done|]. split; [intros p Hp; by apply elem_of_nil in Hp|]. done.
  - inversion H as [|? ? H1 H2]; subst. apply NoDup_cons in ND as [ND1 ND2]. set (nm := fun q => node_name (node_shown st q)) in *. pose proof (made_sound st M) as S.
    destruct (has_node_facts st i (nm p) p S H1) as (Hp & _). destruct (graph_at st j L) as [g G].
    destruct (give_node_step st j g grow o p S G Fo Hp) as (_ & GF & _ & E3). fold (nm p) in E3.
    assert (HL : hn_lookup (hg_nodes g) !! nm p = None).
    { destruct (hn_lookup (hg_nodes g) !! nm p) as [q|] eqn:Q; [|done]. exfalso. eapply (has_node_none st j (nm p) S); [apply N; by left|]. by exists g. }
    rewrite HL in E3. destruct E3 as (E1 & E2 & E4 & E5). set (st1 := (pstep (PGiveNode j grow o p) st).1) in *.
    assert (NM : forall q, q ∈ ps -> node_name (node_shown st1 q) = nm q).
    { intros q Hq. rewrite E5; [done|]. pose proof (proj1 (Forall_forall _ _) H2 q Hq) as Hq'. by destruct (has_node_facts st i _ q S Hq'). }
    assert (M1 : made st1) by (by apply made_step).
    assert (MP : map (fun q => node_name (node_shown st1 q)) ps = map nm ps) by (apply map_ext_in; intros q Hq; apply NM; by apply elem_of_list_In).
    destruct (IH st1) as (R1 & R2 & R3 & R4 & R5 & R6); [done| | | | |].
    + by rewrite (gf_count _ _ _ GF).
    + apply Forall_forall. intros q Hq. rewrite (NM q Hq). apply (gf_has _ _ _ GF). by apply (proj1 (Forall_forall _ _) H2 q Hq).
    + by rewrite MP.
    + intros q Hq. rewrite (NM q Hq), E1. cbn [s_new_node s_nodes]. rewrite lookup_insert_ne; [by apply N; right|]. intros E. apply ND1. change (nm p ∈ map nm ps). rewrite E. apply elem_of_list_In, in_map, elem_of_list_In, Hq.
    + assert (ES : st' = (prun (map (PGiveNode j grow o) ps) st1).1).
      { unfold st', st1. cbn [map prun]. destruct (pstep (PGiveNode j grow o p) st) as [x y]. cbn [fst]. by destruct (prun (map (PGiveNode j grow o) ps) x). }
      rewrite ES. split; [rewrite R1; by apply E4|]. split; [rewrite R2, MP, E1; cbn [s_new_node s_order map]; by rewrite <- app_assoc|]. split; [|split; [|split]].
      * intros q Hq. apply elem_of_cons in Hq as [->|Hq]; [by apply R5|]. pose proof (R3 q Hq) as Q. by rewrite (NM q Hq) in Q.
      * intros n q Hq. apply R4. by apply (gf_has _ _ _ GF).
      * intros n q Hq. apply R5. by apply (gf_has _ _ _ GF).
      * rewrite R6, E1. done.
Qed.
(** The nodes of graph [i] given to a graph that has none: it has the same nodes, in the same order, and shares them. *)
Theorem C79_copy_nodes : forall st i j grow o, made st -> j < length (p_graphs st) -> i <> j -> fair o -> s_nodes (shown st j) = ∅ ->
  let st' := (prun (map (PGiveNode j grow o) (node_ptrs st i)) st).1 in
  shown st' i = shown st i /\ s_nodes (shown st' j) = s_nodes (shown st i) /\ s_order (shown st' j) = s_order (shown st i) /\ s_edges (shown st' j) = s_edges (shown st j) /\
  forall n, is_Some (s_nodes (shown st i) !! n) -> shares_node st' i j n.
Proof.
  intros st i j grow o M L Ne Fo Em st'. pose proof (made_sound st M) as S. pose proof S as [P O].
  assert (K : Forall (fun p => has_node st i (node_name (node_shown st p)) p) (node_ptrs st i) /\ s_order (shown st i) = map (fun p => node_name (node_shown st p)) (node_ptrs st i) /\ NoDup (s_order (shown st i))).
  { unfold node_ptrs. destruct (p_graphs st !! i) as [g|] eqn:G; [|rewrite (shown_none st i G); cbn; split; [done|]; split; [done|constructor]]. pose proof (go_nodes _ (O i g G)) as NK.
    assert (D : forall q, q ∈ elems (narrs (p_heap st)) (hn_nodes (hg_nodes g)) -> deref (g_nodes (abs (p_heap st, g))) q = node_shown st q).
    { intros q Hq. destruct (no_list _ NK q Hq) as (nd & A & _). unfold deref. rewrite A. cbn [default from_option id]. cbn in A. rewrite lookup_fmap in A.
      unfold node_shown, node_seen, at_node. destruct (cells (nobjs (p_heap st)) !! q) as [x|]; [|done]. cbn in A. by injection A. }
    split; [|split].
    - apply Forall_forall. intros q Hq. exists g. split; [done|]. pose proof (lookup_deref _ NK q Hq) as Q. rewrite (D q Hq) in Q. exact Q.
    - rewrite (shown_at st i g G). cbn [view s_order]. change (nodes_list (g_nodes (abs (p_heap st, g)))) with (elems (narrs (p_heap st)) (hn_nodes (hg_nodes g))). apply map_ext_in. intros q Hq. rewrite D; [done|]. by apply elem_of_list_In.
    - rewrite (shown_at st i g G). exact (oview_nodup _ NK). }
  destruct K as (K1 & K2 & K3).
  destruct (give_all grow o i j (node_ptrs st i) Fo Ne st M L K1) as (R1 & R2 & R3 & R4 & R5 & R6); [by rewrite <- K2|intros p _; by rewrite Em, lookup_empty|]. fold st' in R1, R2, R3, R4, R5, R6.
  assert (M' : made st') by (apply made_run; [done|]; apply Forall_forall; intros e He; apply elem_of_list_In in He; apply in_map_iff in He as (q & <- & _); exact Fo).
  assert (OJ : forall x, made x -> forall k n, n ∈ s_order (shown x k) <-> is_Some (s_nodes (shown x k) !! n)).
  { intros x Mx k n. destruct (p_graphs x !! k) as [g|] eqn:G; [|rewrite (shown_none x k G); cbn; rewrite lookup_empty; split; [intros H; by apply elem_of_nil in H|by intros [? ?]]].
    rewrite (shown_at x k g G). pose proof (go_nodes _ (proj2 (made_sound x Mx) k g G)) as NK. pose proof (oview_in _ NK n) as Q. rewrite <- nview_lookup in Q. exact Q. }
  assert (O0 : s_order (shown st j) = []).
  { destruct (s_order (shown st j)) as [|x l] eqn:E; [done|]. exfalso. assert (X : x ∈ s_order (shown st j)) by (rewrite E; by left). apply (OJ st M) in X. rewrite Em, lookup_empty in X. by destruct X. }
  assert (OE : s_order (shown st' j) = s_order (shown st i)) by (rewrite R2, O0, K2; done).
  assert (Sh : forall n, is_Some (s_nodes (shown st i) !! n) -> shares_node st' i j n).
  { intros n Hn. apply (OJ st M i n) in Hn. rewrite K2 in Hn. apply elem_of_list_In in Hn. apply in_map_iff in Hn as (q & <- & Hq). apply elem_of_list_In in Hq.
    exists q. split; [|by apply R3]. apply R4. by apply (proj1 (Forall_forall _ _) K1 q Hq). }
  split; [done|]. split; [|split; [done|split; [done|exact Sh]]].
  apply map_eq. intros n. destruct (s_nodes (shown st i) !! n) as [a|] eqn:A.
  - rewrite <- (C79_shared_equal st' i j n M'); [by rewrite R1|]. apply Sh. by rewrite A.
  - destruct (s_nodes (shown st' j) !! n) as [b|] eqn:B; [|done]. exfalso. assert (X : n ∈ s_order (shown st' j)) by (apply (OJ st' M'); by rewrite B). rewrite OE in X. apply (OJ st M i n) in X. rewrite A in X. by destruct X.
Qed.
Print Assumptions C79_copy_nodes.

(** ** Examples *)
Definition pg : nat -> nat := fun n => n.
Definition say (i : nat) (c : hcall) : pevent := PCall i pg o_id c.
(** Two graphs; the first has nodes a and b and an edge, the second gets a and the edge. *)
Definition lent : list pevent :=
  [PNew; PNew; PMake {[lit "color" := lit "red"]}; say 0 (HAddNode (lit "G") (lit "a") (Some 0)); say 0 (HAddNode (lit "G") (lit "b") None);
   say 0 (HAddEdge (lit "a") (lit "b") true (Some 0)); PGiveNode 1 pg o_id 0; PGiveEdge 1 pg 0].
Definition st_lent : pool := (prun lent nothing).1.
Lemma made_lent : made st_lent.
Proof. exists lent. split; [|done]. repeat constructor; apply fair_id. Qed.
Example C79_lent_example : shares_node st_lent 0 1 (lit "a") /\ ~ shares_node st_lent 0 1 (lit "b") /\ edge_ptrs st_lent 0 = [0] /\ edge_ptrs st_lent 1 = [0] /\
  s_nodes (shown st_lent 1) !! lit "a" = Some {[lit "color" := lit "red"]} /\ is_node_ptr st_lent 1 /\ length (p_graphs st_lent) = 2 /\ s_nodes (shown st_lent 1) !! lit "b" = None.
Proof. apply (bool_decide_unpack _). vm_compute. exact I. Qed.
(** The second graph gives a another label: the first sees it. The first removes a and adds it again: they are two. *)
Definition m2 : list pevent := [PMake {[lit "label" := lit "x"]}; say 1 (HAddNode (lit "H") (lit "a") (Some 1))].
Definition st_label : pool := (prun m2 st_lent).1.
Example C79_seen_example : s_nodes (shown st_label 0) !! lit "a" = Some {[lit "color" := lit "red"; lit "label" := lit "x"]} /\ s_rels (shown st_label 0) = s_rels (shown st_lent 0) /\
  s_rels (shown st_label 1) <> s_rels (shown st_lent 1).
Proof. apply (bool_decide_unpack _). vm_compute. exact I. Qed.
Definition st_parted : pool := (prun [say 0 (HRemoveNode (lit "G") (lit "a")); say 0 (HAddNode (lit "G") (lit "a") None)] st_label).1.
Example C79_parted_example : ~ shares_node st_parted 0 1 (lit "a") /\ s_nodes (shown st_parted 0) !! lit "a" = Some ∅ /\ is_Some (s_nodes (shown st_parted 1) !! lit "a") /\
  edge_ptrs st_parted 0 = [] /\ edge_ptrs st_parted 1 = [0] /\ is_node_ptr st_parted 0.
Proof. apply (bool_decide_unpack _). vm_compute. exact I. Qed.
(** An edge that stands in both, twice in one, is changed at all places. *)
Definition st_edge : pool := (prun [PGiveEdge 1 pg 0; PEdgeAttr o_id 0 (ASet (lit "label") (lit "e"))] st_lent).1.
Example C79_edge_example : map e_attrs (s_edges (shown st_edge 0)) = [{[lit "color" := lit "red"; lit "label" := lit "e"]}] /\
  map e_attrs (s_edges (shown st_edge 1)) = [{[lit "color" := lit "red"; lit "label" := lit "e"]}; {[lit "color" := lit "red"; lit "label" := lit "e"]}].
Proof. apply (bool_decide_unpack _). vm_compute. exact I. Qed.
(** A known name: the node of the second graph is its own, and gets the attributes of the first one's. *)
Definition st_known : pool := (prun [say 1 (HAddNode (lit "H") (lit "b") (Some 0)); PGiveNode 1 pg o_id 1] st_lent).1.
Example C79_known_example : ~ shares_node st_known 0 1 (lit "b") /\ s_nodes (shown st_known 0) !! lit "b" = Some ∅ /\ s_nodes (shown st_known 1) !! lit "b" = Some {[lit "color" := lit "red"]} /\
  has_node (prun [say 1 (HAddNode (lit "H") (lit "b") (Some 0))] st_lent).1 1 (lit "b") 2 /\ node_name (node_shown st_lent 1) = lit "b".
Proof. apply (bool_decide_unpack _). vm_compute. exact I. Qed.
(** All nodes to a new graph. *)
Example C79_copy_example : let st := (prun [PNew] st_lent).1 in s_nodes (shown st 2) = ∅ /\ node_ptrs st 0 = [0; 1] /\
  s_order (shown (prun (map (PGiveNode 2 pg o_id) (node_ptrs st 0)) st).1 2) = [lit "a"; lit "b"].
Proof. cbv zeta. apply (bool_decide_unpack _). vm_compute. exact I. Qed.
(** Interleaved calls on two graphs. *)
Definition mixed_calls : list pevent :=
  [PNew; PMake {[lit "color" := lit "red"]}; PNew; say 0 (HAddNode (lit "G") (lit "a") (Some 0)); say 1 (HAddNode (lit "H") (lit "a") None); PSet 0 (lit "color") (lit "blue");
   say 1 (HAddNode (lit "H") (lit "a") (Some 0)); say 0 (HRemoveNode (lit "G") (lit "b")); say 0 (HAddEdge (lit "a") (lit "a") false None)].
Example C79_alone_example : Forall fair_pevent mixed_calls /\ Forall only_calls mixed_calls /\
  s_nodes (shown (prun mixed_calls nothing).1 0) = {[lit "a" := {[lit "color" := lit "red"]}]} /\ s_nodes (shown (prun mixed_calls nothing).1 1) = {[lit "a" := {[lit "color" := lit "blue"]}]} /\
  results_of 0 mixed_calls nothing = [None; Some (lit "node b not found"); None].
Proof. split; [repeat constructor; apply fair_id|]. split; [repeat constructor|]. apply (bool_decide_unpack _). vm_compute. exact I. Qed.
(** C79_linked: the shared node stays shared over calls on both. *)
Example C79_linked_example : forall es1, es1 `prefix_of` m2 -> is_Some (s_nodes (shown (prun es1 st_lent).1 0) !! lit "a") /\ is_Some (s_nodes (shown (prun es1 st_lent).1 1) !! lit "a").
Proof.
  intros es1 P. assert (Q : es1 = take (length es1) m2) by (destruct P as [k ->]; by rewrite take_app). rewrite Q.
  destruct (length es1) as [|[|[|n]]].
  1-3: apply (bool_decide_unpack _); vm_compute; exact I.
  rewrite take_ge by (cbn; lia). apply (bool_decide_unpack _). vm_compute. exact I.
Qed.
