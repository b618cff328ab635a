(** Proofs for Pool.v: the other events, histories. *)
From Coq Require Import Lia.
From Verif Require Import Base Maps Graph SpecGraph MapFacts GraphProofs HeapGraph SpecHeap HeapProofs HeapSnap HeapRange HeapEditProofs.
From Verif Require Import Direct SpecDirect DirectProofs Pool SpecPool PoolFrame PoolIndex PoolProofs PoolSteps PoolEvents.

(** ** Edges.Add with a pointer *)
Lemma give_edge_step st i g grow p : psound st -> p_graphs st !! i = Some g -> is_edge_ptr st p ->
  let R := pstep (PGiveEdge i grow p) st in
  R.2 = [None] /\ give_facts st R.1 i /\ shown R.1 i = s_with_edges (shown st i) (s_edges (shown st i) ++ [edge_shown st p]) /\ edge_ptrs R.1 i = edge_ptrs st i ++ [p] /\
  (forall j, j <> i -> shown R.1 j = shown st j /\ edge_ptrs R.1 j = edge_ptrs st j) /\ (forall q, is_node_ptr st q -> node_shown R.1 q = node_shown st q) /\
  (forall j n q, has_node R.1 j n q <-> has_node st j n q).
Proof.
  destruct st as [h gs mine]. cbn [p_graphs]. intros S G [e E]. cbn [p_heap] in E. cbn [pstep]. rewrite G, E. pose proof S as [P O].
  pose proof (inv_of _ i g P G) as I. pose proof (O i g G) as OG. pose proof (pi_graph _ P i g G) as W. cbn [p_heap] in *.
  assert (L : p < next (eobjs h)) by (apply (wh_eobjs _ (pi_heap _ P)); by eexists).
  pose proof (edges_give_sim grow h g p I (gw_cix _ _ W) L) as (J & A & V & F & X & PT).
  assert (NO : nobjs (h_edges_add grow h (hg_edges g) p).1 = nobjs h /\ maps (h_edges_add grow h (hg_edges g) p).1 = maps h) by (unfold h_edges_add; by destruct (append1 _ _ _ _)).
  destruct (h_edges_add grow h (hg_edges g) p) as [h1 es]. cbn [fst snd] in *. destruct NO as [NO MO].
  set (w' := (h1, h_with_edges g es)) in *. change h1 with w'.1. change (h_with_edges g es) with w'.2.
  assert (OK : any_ok (abs w')).
  { rewrite A. destruct OG as [O1 O2 O3 O4 _ _ _ _]. apply any_okI; cbn [with_edges g_nodes g_edges g_rels g_subs]; try done. by apply edges_add_ok. }
  set (st := Pool h gs mine) in *. set (st' := Pool w'.1 (<[i := w'.2]> gs) mine).
  assert (GI : p_graphs st' !! i = Some w'.2) by (cbn [p_graphs st']; rewrite (insert_graph gs i i g w'.2 G); by rewrite decide_True).
  assert (GO : forall j, j <> i -> p_graphs st' !! j = p_graphs st !! j) by (intros j Nj; cbn [p_graphs st']; rewrite (insert_graph gs i j g w'.2 G); by rewrite decide_False).
  assert (NS : forall s, node_shown st' s = node_shown st s).
  { intros s. unfold node_shown, node_seen, abs_node, at_node, at_map. change (p_heap st') with h1. cbn [p_heap st]. by rewrite NO, MO. }
  split; [done|]. split; [by apply (world_facts h gs mine i g w')|]. split; [|split; [|split; [|split]]].
  - rewrite (shown_at st' i w'.2 GI), (shown_at st i g G). change (p_heap st', w'.2) with w'. rewrite A. apply sgraph_eq; reflexivity.
  - rewrite (edge_ptrs_at st' i w'.2 GI), (edge_ptrs_at st i g G). exact PT.
  - intros j Nj. destruct (gs !! j) as [k|] eqn:K.
    + destruct (ws_other h gs mine i g w' S G J V F X OK j k K Nj) as (_ & V2 & V3). rewrite (shown_at st' j k), (edge_ptrs_at st' j k) by (by rewrite GO). cbn [p_heap st']. rewrite V2, V3.
      rewrite (edge_ptrs_at st j k K). split; [|done]. change (view (abs (h, k))) with (view (abs (p_heap st, k))). rewrite <- (shown_at st j k K).
      assert (Z : node_attrs_at w'.1 <$> hn_lookup (hg_nodes k) = s_nodes (shown st j)).
      { rewrite (s_nodes_at st j k S K). apply map_fmap_ext. intros m s Hm. pose proof (NS s) as NSs. unfold node_shown in NSs. cbn [p_heap st st'] in NSs. unfold node_attrs_at. by rewrite NSs. }
      rewrite Z. by destruct (shown st j).
    + rewrite (shown_none st' j) by (by rewrite GO). rewrite (shown_none st j K). split; [done|]. unfold edge_ptrs. rewrite GO by done. change (p_graphs st !! j) with (gs !! j). by rewrite K.
  - intros q _. apply NS.
  - intros j n q. destruct (decide (j = i)) as [->|Nj]; [|unfold has_node; by rewrite GO]. by rewrite (has_node_at st' i w'.2 n q GI), (has_node_at st i g n q G).
Qed.

(** ** Attributes through a pointer *)
Record attr_facts (st st' : pool) : Prop := {
  af_sound : psound st';
  af_count : length (p_graphs st') = length (p_graphs st);
  af_maps : maps_shown st' = maps_shown st;
  af_nodep : forall p, is_node_ptr st' p <-> is_node_ptr st p;
  af_edgep : forall p, is_edge_ptr st' p <-> is_edge_ptr st p;
  af_has : forall j n p, has_node st' j n p <-> has_node st j n p;
  af_ptrs : forall j, edge_ptrs st' j = edge_ptrs st j }.
Lemma mine_upd h gs mine l m : pinv (Pool h gs mine) -> (exists a, oref h a = Some l) -> map (at_map (upd h l m)) mine = map (at_map h) mine.
Proof.
  intros P [a R]. apply map_ext_Forall. apply Forall_forall. intros l' L'. destruct (pi_mine _ P l' L') as (_ & B & _). apply at_map_upd_ne. intros ->. by apply (B a).
Qed.
Lemma attr_factsI h gs mine l m : psound (Pool h gs mine) -> (exists a, oref h a = Some l) -> (forall j k, gs !! j = Some k -> any_ok (abs (upd h l m, k))) ->
  attr_facts (Pool h gs mine) (Pool (upd h l m) gs mine).
Proof.
  intros [P O] R K. pose proof R as [a Ra]. constructor; try done.
  - split; [|exact K]. apply pinv_upd; [done|]. by apply (pi_bound _ P a).
  - by apply (mine_upd h gs mine l m P).
Qed.
Lemma node_attr_step st o p op : psound st -> fair o -> is_node_ptr st p ->
  let R := pstep (PNodeAttr o p op) st in let n := node_name (node_shown st p) in
  attr_facts st R.1 /\ exists a r, R.2 = [r] /\ spec_attr op (node_attrs (node_shown st p)) a r /\
  (forall j, shown R.1 j = if decide (has_node st j n p) then s_set_node (shown st j) n a else shown st j) /\
  (forall q, is_node_ptr st q -> node_shown R.1 q = if decide (q = p) then Node n a else node_shown st q) /\
  (forall q, is_edge_ptr st q -> edge_shown R.1 q = edge_shown st q).
Proof.
  destruct st as [h gs mine]. intros S Fo [nd N]. cbn [p_heap] in N. cbn [pstep]. rewrite N. unfold h_attr_op. pose proof S as [P O].
  assert (D : node_seen h p = abs_node h nd) by (unfold node_seen, at_node; by rewrite N). unfold node_shown. cbn [p_heap]. rewrite D. cbn [abs_node node_name node_attrs].
  pose proof (exec_attr_spec o op (at_map h (no_attrs nd)) Fo) as SA. destruct (exec_attr o op (at_map h (no_attrs nd))) as [a r]. cbn [fst snd] in *.
  fold (upd h (no_attrs nd) a). assert (R0 : oref h (ONode p) = Some (no_attrs nd)) by (cbn; by rewrite N).
  assert (NS : forall q, is_node_ptr (Pool h gs mine) q -> node_seen (upd h (no_attrs nd) a) q = if decide (q = p) then Node (no_name nd) a else node_seen h q).
  { intros q [nq Q]. cbn [p_heap] in Q. unfold node_seen, at_node. cbn [nobjs upd with_maps]. rewrite Q. cbn [default from_option id]. unfold abs_node. destruct (decide (q = p)) as [->|Ne].
    - rewrite N in Q. injection Q as <-. by rewrite at_map_upd.
    - rewrite at_map_upd_ne; [done|]. intros E. apply Ne. assert (ONode q = ONode p) as [= ->]; [|done]. apply (pi_inj _ P _ _ (no_attrs nd)); [cbn; rewrite Q; cbn; by rewrite E|done]. }
  assert (AB : forall j k, gs !! j = Some k -> abs (upd h (no_attrs nd) a, k) = with_nodes (abs (h, k)) (nodes_set_attrs (g_nodes (abs (h, k))) p a)).
  { intros j k K. pose proof (inv_of _ j k P K) as I. cbn [p_heap] in I. rewrite (abs_upd_node h a k p nd I N). change (g_nodes (abs (h, k))) with (abs_nodes h (hg_nodes k)).
    unfold nodes_set_attrs. by rewrite (deref_abs h _ p nd N). }
  split.
  { apply attr_factsI; [done|by eexists|]. intros j k K. rewrite (AB j k K). pose proof (O j k K) as OG. cbn [p_heap] in OG. destruct OG as [O1 O2 O3 O4 _ _ _ _].
    apply any_okI; cbn [with_nodes g_nodes g_edges g_rels g_subs]; try done. eapply set_ptr_ok; [done|]. cbn. by rewrite lookup_fmap, N. }
  exists a, r. split; [done|]. split; [done|]. split; [|split].
  - intros j. cbn [fst]. set (st := Pool h gs mine) in *. set (st' := Pool (upd h (no_attrs nd) a) gs mine). destruct (gs !! j) as [k|] eqn:K.
    + rewrite <- (set_view st j k (no_name nd) p a (node_attrs_at (upd h (no_attrs nd) a)) S K); cycle 1.
      { unfold node_shown. cbn [p_heap st]. by rewrite D. }
      { intros q Hq. unfold node_attrs_at. rewrite (NS q Hq). by destruct (decide (q = p)). }
      rewrite (shown_at st' j k K), (shown_at st j k K). cbn [p_heap st st'].
      assert (NV : s_nodes (view (abs (upd h (no_attrs nd) a, k))) = node_attrs_at (upd h (no_attrs nd) a) <$> hn_lookup (hg_nodes k)).
      { pose proof (pinv_upd h (no_attrs nd) a gs mine P (pi_bound _ P _ _ R0)) as P'. pose proof (inv_of _ j k P' K) as I'. cbn [p_heap] in I'.
        apply (nview_abs (upd h (no_attrs nd) a) (hg_nodes k)); [apply (i_heap _ I')|apply (i_nodes _ I')]. }
      rewrite <- NV, (AB j k K). apply sgraph_eq; try reflexivity. exact (set_attrs_oview (g_nodes (abs (h, k))) p a).
    + rewrite (shown_none st' j K). rewrite <- (shown_none st j K). by apply set_view_none.
  - intros q Hq. exact (NS q Hq).
  - intros q [e Hq]. cbn [p_heap] in Hq. unfold edge_shown. cbn [fst p_heap]. apply abs_edge_ext; [done|]. apply at_map_upd_ne. intros E.
    assert (OEdge q = ONode p) as [=]. apply (pi_inj _ P _ _ (no_attrs nd)); [|done]. cbn. rewrite Hq. cbn. f_equal. unfold at_edge in E. by rewrite Hq in E.
Qed.
Lemma edges_shown st j : s_edges (shown st j) = map (edge_shown st) (edge_ptrs st j).
Proof. unfold shown, edge_ptrs. by destruct (p_graphs st !! j). Qed.
Lemma edge_ptrs_in st j p : psound st -> p ∈ edge_ptrs st j -> is_edge_ptr st p.
Proof.
  intros [P O]. unfold edge_ptrs. destruct (p_graphs st !! j) as [k|] eqn:K; [|by rewrite elem_of_nil]. pose proof (inv_of _ j k P K) as I.
  intros Hp. pose proof (proj1 (Forall_forall _ _) (we_elems _ _ (i_edges _ I)) p Hp) as L. cbn in L. by apply (wh_eobjs _ (pi_heap _ P)) in L.
Qed.
Lemma edge_attr_step st o p op : psound st -> fair o -> is_edge_ptr st p ->
  let R := pstep (PEdgeAttr o p op) st in
  attr_facts st R.1 /\ exists a r, R.2 = [r] /\ spec_attr op (e_attrs (edge_shown st p)) a r /\
  (forall q, is_edge_ptr st q -> edge_shown R.1 q = if decide (q = p) then with_e_attrs (edge_shown st p) a else edge_shown st q) /\
  (forall j, shown R.1 j = s_with_edges (shown st j) (map (fun q => if decide (q = p) then with_e_attrs (edge_shown st p) a else edge_shown st q) (edge_ptrs st j))) /\
  (forall q, is_node_ptr st q -> node_shown R.1 q = node_shown st q).
Proof.
  destruct st as [h gs mine]. intros S Fo [e N]. cbn [p_heap] in N. cbn [pstep]. rewrite N. unfold h_attr_op. pose proof S as [P O].
  assert (D : at_edge h p = e) by (unfold at_edge; by rewrite N). assert (DE : e_attrs (abs_edge h p) = at_map h (eo_attrs e)) by (unfold abs_edge; by rewrite D).
  unfold edge_shown. cbn [p_heap]. rewrite DE.
  pose proof (exec_attr_spec o op (at_map h (eo_attrs e)) Fo) as SA. destruct (exec_attr o op (at_map h (eo_attrs e))) as [a r]. cbn [fst snd] in *.
  fold (upd h (eo_attrs e) a). assert (R0 : oref h (OEdge p) = Some (eo_attrs e)) by (cbn; by rewrite N).
  assert (K : forall x l, oref h x = Some l -> x <> OEdge p -> at_map (upd h (eo_attrs e) a) l = at_map h l).
  { intros x l R Ne. apply at_map_upd_ne. intros ->. apply Ne. by apply (pi_inj _ P x (OEdge p) (eo_attrs e)). }
  assert (ES : forall q, is_edge_ptr (Pool h gs mine) q -> abs_edge (upd h (eo_attrs e) a) q = if decide (q = p) then with_e_attrs (abs_edge h p) a else abs_edge h q).
  { intros q [x Q]. cbn [p_heap] in Q. destruct (decide (q = p)) as [->|Ne].
    - unfold abs_edge, at_edge. cbn [eobjs upd with_maps]. rewrite N. cbn. by rewrite at_map_upd.
    - apply abs_edge_ext; [done|]. apply (K (OEdge q)); [|congruence]. cbn. unfold at_edge. by rewrite Q. }
  assert (AB : forall j k, gs !! j = Some k -> abs (upd h (eo_attrs e) a, k) = with_edges (abs (h, k)) (abs_edges (upd h (eo_attrs e) a) (hg_edges k))).
  { intros j k Kj. pose proof (inv_of _ j k P Kj) as I. cbn [p_heap] in I. unfold abs, with_edges. cbn [g_attrs g_name g_directed g_strict g_nodes g_subs g_rels]. f_equal.
    - apply at_map_upd_ne. intros E. apply (gw_own _ _ (pi_graph _ P j k Kj) (OEdge p)). by rewrite E.
    - apply abs_nodes_ext; [done..|]. intros q n Hq. apply (K (ONode q)); [cbn; by rewrite Hq|done].
    - apply abs_subs_ext; [by apply (i_subs _ I)|]. intros n q l Hn Hq. split; [done|]. apply (K (OSub q)); [cbn; by rewrite Hq|done]. }
  split.
  { apply attr_factsI; [done|by eexists|]. intros j k Kj. rewrite (AB j k Kj). pose proof (O j k Kj) as OG. cbn [p_heap] in OG. destruct OG as [O1 O2 O3 O4 _ _ _ _].
    apply any_okI; cbn [with_edges g_nodes g_edges g_rels g_subs]; try done. apply (abs_edges_ok h); [done|].
    pose proof (pinv_upd h (eo_attrs e) a gs mine P (pi_bound _ P _ _ R0)) as P'. apply (gw_cix _ _ (pi_graph _ P' j k Kj)). }
  exists a, r. split; [done|]. split; [done|]. split; [exact ES|]. split.
  - intros j. cbn [fst]. set (st := Pool h gs mine) in *. set (st' := Pool (upd h (eo_attrs e) a) gs mine). destruct (gs !! j) as [k|] eqn:Kj.
    + rewrite (shown_at st' j k Kj), (shown_at st j k Kj), (edge_ptrs_at st j k Kj). cbn [p_heap st st']. rewrite (AB j k Kj). apply sgraph_eq; try reflexivity.
      cbn [view s_edges with_edges g_edges s_with_edges abs_edges edges_list]. change (earrs (upd h (eo_attrs e) a)) with (earrs h). unfold ptrs. apply map_ext_in. intros q Hq.
      apply ES. apply (edge_ptrs_in st j q S). rewrite (edge_ptrs_at st j k Kj). by apply elem_of_list_In.
    + rewrite (shown_none st' j Kj), (shown_none st j Kj). unfold edge_ptrs. cbn [p_graphs st]. by rewrite Kj.
  - intros q [nq Q]. cbn [p_heap] in Q. unfold node_shown, node_seen, at_node, abs_node. cbn [fst p_heap nobjs upd with_maps]. rewrite Q. cbn [default from_option id]. f_equal.
    apply (K (ONode q)); [cbn; by rewrite Q|done].
Qed.

(** ** NewGraph *)
Lemma new_step st : psound st -> let st' := (pstep PNew st).1 in (pstep PNew st).2 = [] /\ psound st' /\
  length (p_graphs st') = S (length (p_graphs st)) /\ shown st' (length (p_graphs st)) = s_empty /\ edge_ptrs st' (length (p_graphs st)) = [] /\
  (forall j, j <> length (p_graphs st) -> shown st' j = shown st j /\ edge_ptrs st' j = edge_ptrs st j) /\
  maps_shown st' = maps_shown st /\ (forall p, is_node_ptr st' p <-> is_node_ptr st p) /\ (forall p, is_edge_ptr st' p <-> is_edge_ptr st p) /\
  (forall p, is_node_ptr st p -> node_shown st' p = node_shown st p) /\ (forall p, is_edge_ptr st p -> edge_shown st' p = edge_shown st p) /\
  (forall j n p, has_node st' j n p <-> has_node st j n p).
Proof.
  destruct st as [h gs mine]. intros S. pose proof S as [P O]. cbv zeta. cbn [pstep]. pose proof (pinv_new h gs mine P) as (P' & A & B & M & N & E & PT).
  assert (HN : hn_lookup (hg_nodes (h_new_graph_in h).2) = ∅ /\ hn_nodes (hg_nodes (h_new_graph_in h).2) = Slice (next (narrs h)) 0 /\ he_edges (hg_edges (h_new_graph_in h).2) = Slice (next (earrs h)) 0) by done.
  destruct (h_new_graph_in h) as [h1 g1]. cbn [fst snd] in *. destruct HN as (HN & HL & HE).
  set (st := Pool h gs mine) in *. set (st' := Pool h1 (gs ++ [g1]) mine) in *. change (length (p_graphs st)) with (length gs).
  assert (GN : p_graphs st' !! length gs = Some g1) by (cbn; rewrite lookup_app_r by lia; by rewrite Nat.sub_diag).
  assert (GO : forall j, j <> length gs -> p_graphs st' !! j = p_graphs st !! j).
  { intros j Nj. cbn. destruct (decide (j < length gs)) as [Y|Y]; [by rewrite lookup_app_l|]. rewrite lookup_app_r by lia. rewrite (lookup_ge_None_2 gs) by lia.
    apply lookup_ge_None_2. cbn. lia. }
  assert (GE : p_graphs st !! length gs = None) by (cbn; apply lookup_ge_None_2; lia).
  split; [done|]. split; [|split; [|split; [|split; [|split; [|split; [|split; [|split; [|split; [|split]]]]]]]]].
  - split; [exact P'|]. intros j k K. cbn [p_heap st']. destruct (decide (j = length gs)) as [->|Nj].
    + rewrite GN in K. injection K as <-. rewrite A. destruct (@graph_ok_new (fun _ => True)) as [O1 O2 O3 O4 _ _ _ _]. apply any_okI; cbn [with_nodes g_nodes g_edges g_rels g_subs]; try done.
      constructor; cbn.
      * intros n p X. by rewrite lookup_empty in X.
      * intros p X. by apply elem_of_nil in X.
      * constructor.
      * intros p nd. rewrite lookup_fmap. destruct (cells (nobjs h1) !! p) eqn:X; [|done]. intros _. apply (wh_nobjs _ (pi_heap _ P')). by eexists.
    + rewrite GO in K by done. rewrite (B j k K). by apply (O j k K).
  - cbn. rewrite app_length. cbn. lia.
  - rewrite (shown_at st' _ g1 GN). cbn [p_heap st']. rewrite A. rewrite <- view_new. apply sgraph_eq; try reflexivity. cbn. by rewrite !fmap_empty.
  - rewrite (edge_ptrs_at st' _ g1 GN). unfold ptrs, elems. by rewrite HE.
  - intros j Nj. unfold shown, edge_ptrs. rewrite GO by done. destruct (p_graphs st !! j) as [k|] eqn:K; [|done]. cbn [p_heap st st']. rewrite (B j k K). split; [done|]. exact (PT j k K).
  - apply map_ext_Forall. apply Forall_forall. intros l L. destruct (pi_mine _ P l L) as (L' & _). by apply M.
  - intros p. unfold is_node_ptr. cbn [p_heap st st']. by rewrite N.
  - intros p. unfold is_edge_ptr. cbn [p_heap st st']. by rewrite E.
  - intros p [nd Hp]. cbn [p_heap st] in Hp. unfold node_shown, node_seen, at_node, abs_node. cbn [p_heap st st']. rewrite N, Hp. cbn [default from_option id]. f_equal. apply M.
    apply (pi_bound _ P (ONode p)). cbn. by rewrite Hp.
  - intros p [e Hp]. cbn [p_heap st] in Hp. unfold edge_shown. cbn [p_heap st st']. apply abs_edge_ext; [by rewrite E|]. apply M. apply (pi_bound _ P (OEdge p)). cbn. unfold at_edge. by rewrite Hp.
  - intros j n p. destruct (decide (j = length gs)) as [->|Nj]; [|unfold has_node; by rewrite GO]. split.
    + intros H. apply (has_node_at st' _ g1 n p GN) in H. rewrite HN in H. by rewrite lookup_empty in H.
    + intros (k & K & _). by rewrite GE in K.
Qed.

(** ** The caller's maps *)
Record maps_facts (st st' : pool) (e : pevent) : Prop := {
  mf_sound : psound st';
  mf_count : length (p_graphs st') = length (p_graphs st);
  mf_maps : maps_shown st' = maps_after e (maps_shown st);
  mf_nodep : forall p, is_node_ptr st' p <-> is_node_ptr st p;
  mf_edgep : forall p, is_edge_ptr st' p <-> is_edge_ptr st p;
  mf_node : forall p, is_node_ptr st p -> node_shown st' p = node_shown st p;
  mf_edge : forall p, is_edge_ptr st p -> edge_shown st' p = edge_shown st p;
  mf_has : forall j n p, has_node st' j n p <-> has_node st j n p;
  mf_shown : forall j, shown st' j = shown st j;
  mf_ptrs : forall j, edge_ptrs st' j = edge_ptrs st j;
  mf_abs : p_graphs st' = p_graphs st /\ forall j k, p_graphs st !! j = Some k -> abs (p_heap st', k) = abs (p_heap st, k) }.
Lemma maps_factsI h s gs mine mine' e : psound (Pool h gs mine) -> pinv (Pool (with_maps h s) gs mine') ->
  (forall a l, oref h a = Some l -> at_map (with_maps h s) l = at_map h l) -> (forall j k, gs !! j = Some k -> at_map (with_maps h s) (hg_attrs k) = at_map h (hg_attrs k)) ->
  map (at_map (with_maps h s)) mine' = maps_after e (map (at_map h) mine) -> maps_facts (Pool h gs mine) (Pool (with_maps h s) gs mine') e.
Proof.
  intros [P O] P' K KG M.
  assert (AB : forall j k, gs !! j = Some k -> abs (with_maps h s, k) = abs (h, k)).
  { intros j k Kj. pose proof (inv_of _ j k P Kj) as I. cbn [p_heap] in I. apply abs_maps; [done|]. intros a l. rewrite ref_oref. destruct (decide (a = OGraph)); [intros [= <-]; by eapply KG|apply K]. }
  constructor; try done.
  - split; [exact P'|]. intros j k Kj. cbn [p_heap]. cbn [p_graphs] in Kj. rewrite (AB j k Kj). by apply (O j k Kj).
  - intros p [nd Hp]. cbn [p_heap] in Hp. unfold node_shown, node_seen, at_node, abs_node. cbn [p_heap nobjs with_maps]. rewrite Hp. cbn [default from_option id]. f_equal. apply (K (ONode p)). cbn. by rewrite Hp.
  - intros p [x Hp]. cbn [p_heap] in Hp. unfold edge_shown. cbn [p_heap]. apply abs_edge_ext; [done|]. apply (K (OEdge p)). cbn. unfold at_edge. by rewrite Hp.
  - intros j. unfold shown. cbn [p_graphs p_heap]. destruct (gs !! j) as [k|] eqn:Kj; [|done]. by rewrite (AB j k Kj).
Qed.
Lemma alter_maps (h : heap) (gs : list hgraph) (mine : list nat) (i l : nat) (f : attrs -> attrs) : pinv (Pool h gs mine) -> mine !! i = Some l -> map (at_map (upd h l (f (at_map h l)))) mine = alter f i (map (at_map h) mine).
Proof.
  intros P E. apply list_eq. intros j. rewrite list_lookup_fmap. destruct (decide (j = i)) as [->|Ne].
  - rewrite list_lookup_alter, list_lookup_fmap, E. cbn. by rewrite at_map_upd.
  - rewrite list_lookup_alter_ne by congruence. rewrite list_lookup_fmap. destruct (mine !! j) as [l'|] eqn:F; [|done].
    cbn. f_equal. apply at_map_upd_ne. intros ->. apply Ne. by eapply (NoDup_lookup mine); [apply (pi_nodup _ P)| |].
Qed.
Lemma maps_step st e : psound st -> match e with PMake _ | PSet _ _ _ | PDel _ _ => True | _ => False end ->
  (pstep e st).2 = [] /\ maps_facts st (pstep e st).1 e.
Proof.
  destruct st as [h gs mine]. intros S He. pose proof S as [P O].
  assert (Al : forall (i l : nat) (f : attrs -> attrs) (e' : pevent), mine !! i = Some l -> maps_after e' (map (at_map h) mine) = alter f i (map (at_map h) mine) -> maps_facts (Pool h gs mine) (Pool (upd h l (f (at_map h l))) gs mine) e').
  { intros i l f e' E M. pose proof (pi_mine _ P l (elem_of_list_lookup_2 _ _ _ E)) as (L & B & D). cbn [p_heap p_graphs] in *. apply maps_factsI; try done.
    - by apply pinv_upd.
    - intros a l' R. apply at_map_upd_ne. intros ->. by apply (B a).
    - intros j k K. apply at_map_upd_ne. by apply (D j).
    - rewrite M. by apply (alter_maps h gs mine i l f). }
  assert (No : forall (i : nat) (f : attrs -> attrs) (e' : pevent), mine !! i = None -> maps_after e' (map (at_map h) mine) = alter f i (map (at_map h) mine) -> maps_facts (Pool h gs mine) (Pool h gs mine) e').
  { intros i f e' E M. constructor; try done. unfold maps_shown. cbn [p_heap p_mine]. rewrite M. rewrite alter_out; [done|]. by rewrite list_lookup_fmap, E. }
  destruct e as [|m|i k v|i k| | | | |]; try done; cbn [pstep].
  - unfold new_map. change (alloc (maps h) m) with ((alloc (maps h) m).1, next (maps h)). cbn [fst snd]. split; [done|]. apply maps_factsI; try done.
    + by apply pinv_make.
    + intros a l R. apply (at_map_fresh_ne h m). apply (pi_bound _ P) in R. cbn in R. lia.
    + intros j k K. apply (at_map_fresh_ne h m). pose proof (gw_attrs _ _ (pi_graph _ P j k K)) as L. cbn in L. lia.
    + rewrite map_app. cbn. f_equal.
      * apply map_ext_Forall. apply Forall_forall. intros l Hl. apply (at_map_fresh_ne h m). destruct (pi_mine _ P l Hl) as (L & _). cbn in L. lia.
      * f_equal. apply (at_map_fresh h m).
  - destruct (mine !! i) as [l|] eqn:E; (split; [done|]); cbn [fst]; [rewrite set_key_upd; by apply (Al i l (fun m : attrs => <[k := v]> m) (PSet i k v) E)|by apply (No i (fun m : attrs => <[k := v]> m) (PSet i k v) E)].
  - destruct (mine !! i) as [l|] eqn:E; (split; [done|]); cbn [fst]; [fold (upd h l (delete k (at_map h l))); by apply (Al i l (fun m : attrs => delete k m) (PDel i k) E)|by apply (No i (fun m : attrs => delete k m) (PDel i k) E)].
Qed.

(** ** Histories *)
Lemma psound_nothing : psound nothing.
Proof. split; [apply pinv_nothing|]. intros i g E. cbn in E. by rewrite lookup_nil in E. Qed.
Lemma pstep_sound e st : psound st -> fair_pevent e -> psound (pstep e st).1.
Proof.
  intros S Fe. destruct e as [|m|i k v|i k|i grow o c|i grow o p|i grow p|o p op|o p op].
  - by destruct (new_step st S) as (_ & ? & _).
  - by apply (maps_step st (PMake m) S).
  - by apply (maps_step st (PSet i k v) S).
  - by apply (maps_step st (PDel i k) S).
  - destruct (p_graphs st !! i) as [g|] eqn:G.
    + destruct (call_step st i g grow o c S G Fe) as (r & _ & F). apply F.
    + destruct st as [h gs mine]. cbn in *. by rewrite G.
  - destruct (p_graphs st !! i) as [g|] eqn:G; [destruct (cells (nobjs (p_heap st)) !! p) as [nd|] eqn:N|].
    + destruct (give_node_step st i g grow o p S G Fe) as (_ & F & _); [by eexists|]. apply F.
    + destruct st as [h gs mine]. cbn in *. by rewrite G, N.
    + destruct st as [h gs mine]. cbn in *. by rewrite G.
  - destruct (p_graphs st !! i) as [g|] eqn:G; [destruct (cells (eobjs (p_heap st)) !! p) as [nd|] eqn:N|].
    + destruct (give_edge_step st i g grow p S G) as (_ & F & _); [by eexists|]. apply F.
    + destruct st as [h gs mine]. cbn in *. by rewrite G, N.
    + destruct st as [h gs mine]. cbn in *. by rewrite G.
  - destruct (cells (nobjs (p_heap st)) !! p) as [nd|] eqn:N.
    + destruct (node_attr_step st o p op S Fe) as (F & _); [by eexists|]. apply F.
    + destruct st as [h gs mine]. cbn in *. by rewrite N.
  - destruct (cells (eobjs (p_heap st)) !! p) as [nd|] eqn:N.
    + destruct (edge_attr_step st o p op S Fe) as (F & _); [by eexists|]. apply F.
    + destruct st as [h gs mine]. cbn in *. by rewrite N.
Qed.
Lemma prun_sound es : forall st, psound st -> Forall fair_pevent es -> psound (prun es st).1.
Proof.
  induction es as [|e es IH]; intros st S F; cbn [prun]; [done|]. inversion F as [|? ? F1 F2]; subst. pose proof (pstep_sound e st S F1) as S1.
  destruct (pstep e st) as [st1 r]. cbn [fst] in S1. specialize (IH st1 S1 F2). by destruct (prun es st1).
Qed.
