(** Proofs for Pool.v: each event. *)
From Coq Require Import Lia.
From Verif Require Import Base Maps Graph SpecGraph MapFacts GraphProofs HeapGraph SpecHeap HeapProofs HeapSnap HeapRange HeapEditProofs.
From Verif Require Import Direct SpecDirect DirectProofs Pool SpecPool PoolFrame PoolIndex PoolProofs.

(** ** What a call does to a node, by value *)
Definition node_after (c : call) (r : option err) (lk : gmap gostr nat) (q : nat) (a : attrs) : attrs :=
  match c, r with CAddNode _ n m, None => if decide (lk !! n = Some q) then m ∪ a else a | _, _ => a end.
Lemma exec_heap o c g q nd : fair o -> nodes_ok (g_nodes g) -> nodes_heap (g_nodes g) !! q = Some nd ->
  nodes_heap (g_nodes (exec o c g).1) !! q = Some (Node (node_name nd) (node_after c (exec o c g).2 (nodes_lookup (g_nodes g)) q (node_attrs nd))).
Proof.
  intros [Fo _] OK Q. assert (E : Node (node_name nd) (node_attrs nd) = nd) by (by destruct nd).
  destruct c as [b|b|n|s sp d dp dir m|s d dir m|p n m|p f v|p n m|p n|p n]; cbn [exec node_after]; rewrite ?E.
  1-3: exact Q.
  - unfold add_port_edge. by destruct (new_attrs _).
  - unfold add_edge, add_port_edge. by destruct (new_attrs _).
  - unfold add_node. destruct (new_attrs_enum m (o_attrs o 0 m) (Fo 0 m)) as [[V ->]|(V & k & v & H1 & H2 & ->)]; cbn [fst snd]; [|by rewrite E].
    cbn [with_rels with_nodes g_nodes]. unfold nodes_add. destruct (nodes_lookup (g_nodes g) !! n) as [q'|] eqn:L; cbn [nodes_heap].
    + destruct (decide (q' = q)) as [->|Ne].
      * rewrite lookup_insert, decide_True by done. rewrite (extend_enum _ m) by apply Fo. unfold deref. by rewrite Q.
      * rewrite lookup_insert_ne by done. rewrite (decide_False (P := Some q' = Some q)) by congruence. by rewrite E.
    + rewrite lookup_insert_ne; [rewrite (decide_False (P := None = Some q)) by done; by rewrite E|].
      apply (no_heap _ OK) in Q. lia.
  - by rewrite add_attr_nodes.
  - unfold add_subgraph. by rewrite add_attrs_nodes.
  - by rewrite remove_node_heap.
  - unfold remove_subgraph. pose proof (remove_loop_heap p (o_names o 0 (children (g_rels g) n)) g) as R.
    destruct (remove_nodes_loop _ _ _) as [g1 [e|]]; cbn in *; by rewrite R.
Qed.
Lemma nodes_remove_lookup ns n x : nodes_lookup (nodes_remove ns n).1 !! x = nodes_lookup ns !! x \/ nodes_lookup (nodes_remove ns n).1 !! x = None.
Proof.
  unfold nodes_remove. generalize (nodes_list ns); intros l. generalize (@nil nat). induction l as [|p l IH]; intros pre; cbn [nodes_remove_loop]; [by left|].
  destruct (str_eqb _ _); [|apply IH]. cbn. destruct (decide (n = x)) as [->|Ne]; [right; apply lookup_delete|left; by apply lookup_delete_ne].
Qed.
Lemma remove_node_lookup g p n x : nodes_lookup (g_nodes (remove_node g p n).1) !! x = nodes_lookup (g_nodes g) !! x \/ nodes_lookup (g_nodes (remove_node g p n).1) !! x = None.
Proof.
  unfold remove_node. pose proof (nodes_remove_lookup (g_nodes g) n x) as H. destruct (nodes_remove (g_nodes g) n) as [ns [e|]]; cbn in *; [by left|exact H].
Qed.
Lemma remove_loop_lookup p l x : forall g, nodes_lookup (g_nodes (remove_nodes_loop g p l).1) !! x = nodes_lookup (g_nodes g) !! x \/ nodes_lookup (g_nodes (remove_nodes_loop g p l).1) !! x = None.
Proof.
  induction l as [|c l IH]; intros g; cbn [remove_nodes_loop]; [by left|].
  pose proof (remove_node_lookup g p c x) as H. destruct (remove_node g p c) as [g' [e|]]; cbn [fst] in *; [exact H|].
  destruct (IH g') as [E|E]; [rewrite E; exact H|by right].
Qed.
(** A name that is there keeps its node as long as it is there. *)
Lemma exec_lookup o c g x q : nodes_lookup (g_nodes g) !! x = Some q ->
  nodes_lookup (g_nodes (exec o c g).1) !! x = Some q \/ nodes_lookup (g_nodes (exec o c g).1) !! x = None.
Proof.
  intros Q. destruct c as [b|b|n|s sp d dp dir m|s d dir m|p n m|p f v|p n m|p n|p n]; cbn [exec].
  1-3: by left.
  - unfold add_port_edge. destruct (new_attrs _); by left.
  - unfold add_edge, add_port_edge. destruct (new_attrs _); by left.
  - left. unfold add_node. destruct (new_attrs _) as [a|e]; [|done]. cbn. unfold nodes_add. destruct (nodes_lookup (g_nodes g) !! n) as [q'|] eqn:L; cbn; [done|].
    rewrite lookup_insert_ne; [done|]. congruence.
  - left. by rewrite add_attr_nodes.
  - left. unfold add_subgraph. by rewrite add_attrs_nodes.
  - rewrite <- Q. apply remove_node_lookup.
  - rewrite <- Q. unfold remove_subgraph. pose proof (remove_loop_lookup p (o_names o 0 (children (g_rels g) n)) x g) as R.
    destruct (remove_nodes_loop _ _ _) as [g1 [e|]]; cbn in *; exact R.
Qed.

(** ** Nodes.Add with a pointer *)
Lemma inv_narrs h s g ns : inv (h, g) -> swf s -> wf_nodes (with_narrs h s) ns -> inv (with_narrs h s, h_with_nodes g ns).
Proof.
  intros [[? ? ? ? ? ?] I2 I3 I4 I5 I6] S W. constructor; cbn in *.
  - by constructor.
  - exact W.
  - by destruct I3; constructor.
  - exact I4.
  - intros a l R. apply (I5 a). by destruct a.
  - intros a b l R1 R2. apply (I6 a b l); by destruct a, b.
Qed.
Lemma nodes_give_sim grow ord h g p nd : inv (h, g) -> cells (nobjs h) !! p = Some nd ->
  let r := h_nodes_give grow ord h (hg_nodes g) p in let w' := (r.1, h_with_nodes g r.2) in
  inv w' /\ abs w' = with_nodes (abs (h, g)) (nodes_add_old (g_nodes (abs (h, g))) p (ord (node_attrs (deref (g_nodes (abs (h, g))) p)))) /\ evolves (h, g) w' /\
  hg_edges w'.2 = hg_edges g /\ earrs w'.1 = earrs h /\ next (eobjs w'.1) = next (eobjs h).
Proof.
  intros I N. cbv zeta. assert (PN : at_node h p = nd) by (unfold at_node; by rewrite N).
  change (g_nodes (abs (h, g))) with (abs_nodes h (hg_nodes g)). unfold h_nodes_give, nodes_add_old. rewrite (deref_abs h _ p nd N), PN. cbn [abs_node node_name node_attrs].
  change (nodes_lookup (abs_nodes h (hg_nodes g))) with (hn_lookup (hg_nodes g)).
  destruct (hn_lookup (hg_nodes g) !! no_name nd) as [q|] eqn:L; cbn [fst snd].
  - assert (Q : is_Some (cells (nobjs h) !! q)) by (apply (wh_nobjs _ (i_heap _ I)); by eapply (wn_lookup _ _ (i_nodes _ I))).
    destruct Q as [nq Q]. assert (R : ref h g (ONode q) = Some (no_attrs nq)) by (cbn; by rewrite Q).
    assert (QN : at_node h q = nq) by (unfold at_node; by rewrite Q). rewrite QN.
    rewrite h_extend_upd; [|apply (i_heap _ I)|by apply (i_bound _ I) in R].
    assert (HG : forall x, h_with_nodes x (hg_nodes x) = x) by (by intros []). rewrite HG.
    destruct (upd_ok h (no_attrs nq) (extend (at_map h (no_attrs nq)) (ord (at_map h (no_attrs nd)))) g (ONode q) I R) as [J V]; [done|].
    split; [exact J|]. split; [|done]. rewrite (abs_upd_node h _ g q nq I Q). by rewrite (deref_abs h _ q nq Q).
  - pose proof (append1_spec grow (narrs h) (hn_nodes (hg_nodes g)) p (wh_narrs _ (i_heap _ I)) (wn_slice _ _ (i_nodes _ I))) as (A1 & A2 & A3).
    destruct (append1 grow (narrs h) (hn_nodes (hg_nodes g)) p) as [s x]. cbn [fst snd] in *.
    assert (LT : p < next (nobjs h)) by (apply (wh_nobjs _ (i_heap _ I)); cbn; eauto).
    split; [|split; [|split; [|done]]].
    + apply inv_narrs; [done|done|]. destruct (i_nodes _ I) as [W1 W2 W3]. constructor; cbn; [done| |].
      * rewrite A3. apply Forall_app. split; [exact W2|by constructor].
      * intros n' q. destruct (decide (n' = no_name nd)) as [->|Ne]; [rewrite lookup_insert; by intros [= <-]|]. rewrite lookup_insert_ne by congruence. apply W3.
    + unfold abs, with_nodes. cbn. f_equal. unfold abs_nodes. cbn. by rewrite A3.
    + constructor; cbn; auto.
Qed.
(** ** Edges.Add with a pointer *)
Lemma edges_give_sim grow h g p : inv (h, g) -> cix h (hg_edges g) -> p < next (eobjs h) ->
  let r := h_edges_add grow h (hg_edges g) p in let w' := (r.1, h_with_edges g r.2) in
  inv w' /\ abs w' = with_edges (abs (h, g)) (edges_add (g_edges (abs (h, g))) (abs_edge h p)) /\ evolves (h, g) w' /\ frame (h, g) w' /\ cix w'.1 (hg_edges w'.2) /\
  ptrs w'.1 (hg_edges w'.2) = ptrs h (hg_edges g) ++ [p].
Proof.
  intros I C L. cbv zeta. destruct (h_edges_add_spec grow h (hg_edges g) p (wh_earrs _ (i_heap _ I)) (i_edges _ I) L) as (s & x & E1 & E2 & E3 & E4 & E5).
  destruct (edges_add_cix grow h (hg_edges g) p (wh_earrs _ (i_heap _ I)) (i_edges _ I) L C) as [C' P'].
  pose proof (append1_frame grow (earrs h) (he_edges (hg_edges g)) p) as A. rewrite <- E2 in A. rewrite E1 in *. cbn [fst snd] in *.
  split; [by apply inv_earrs|]. split; [rewrite abs_earrs, E5; done|]. split; [by apply evolves_earrs|]. split; [by apply frame_earrs|]. done.
Qed.

(** ** All graphs *)
Notation any_ok := (graph_okP (fun _ => True)).
Definition psound (st : pool) : Prop := pinv st /\ forall i g, p_graphs st !! i = Some g -> any_ok (abs (p_heap st, g)).
Lemma any_in m : all_in (fun _ => True) m.
Proof. done. Qed.
Lemma any_okI g : nodes_ok (g_nodes g) -> edges_ok (g_edges g) -> rels_ok (g_rels g) -> (forall n s, g_subs g !! n = Some s -> sub_name s = n) -> any_ok g.
Proof. intros A B C D. by constructor. Qed.
Definition node_attrs_at (h : heap) (p : nat) : attrs := node_attrs (node_seen h p).
Definition s_with_nodes (s : sgraph) (m : gmap gostr attrs) : sgraph :=
  SGraph (s_name s) (s_directed s) (s_strict s) (s_attrs s) m (s_order s) (s_edges s) (s_subs s) (s_rels s).
Lemma nview_abs h ns : wf_heap h -> wf_nodes h ns -> nview (abs_nodes h ns) = node_attrs_at h <$> hn_lookup ns.
Proof.
  intros H W. unfold nview. cbn [nodes_lookup abs_nodes]. apply map_fmap_ext. intros n p E. apply (wn_lookup _ _ W), (wh_nobjs _ H) in E as [nd E].
  rewrite (deref_abs h ns p nd E). unfold node_attrs_at, node_seen, at_node. by rewrite E.
Qed.
Lemma nodes_ok_grow h h' ns : nodes_ok (abs_nodes h ns) -> swf (nobjs h') -> (forall p n, cells (nobjs h) !! p = Some n -> cells (nobjs h') !! p = Some n) ->
  nodes_ok (Nodes (hn_lookup ns) (elems (narrs h) (hn_nodes ns)) (abs_node h' <$> cells (nobjs h')) (next (nobjs h'))).
Proof.
  intros [O1 O2 O3 O4] S E. cbn in *.
  assert (K : forall p nd, (abs_node h <$> cells (nobjs h)) !! p = Some nd -> exists a, (abs_node h' <$> cells (nobjs h')) !! p = Some (Node (node_name nd) a)).
  { intros p nd. rewrite !lookup_fmap. destruct (cells (nobjs h) !! p) as [x|] eqn:X; [|done]. intros [= <-]. rewrite (E p x X). cbn. by eexists. }
  constructor; cbn.
  - intros n p H. destruct (O1 n p H) as [A [a B]]. split; [done|]. destruct (K p _ B) as [a' B']. by exists a'.
  - intros p H. destruct (O2 p H) as (nd & A & B). destruct (K p nd A) as [a' A']. by eexists.
  - done.
  - intros p nd. rewrite lookup_fmap. destruct (cells (nobjs h') !! p) as [x|] eqn:X; [|done]. intros _. apply S. by eexists.
Qed.
Lemma oview_grow h h' ns : nodes_ok (abs_nodes h ns) -> (forall p n, cells (nobjs h) !! p = Some n -> cells (nobjs h') !! p = Some n) ->
  oview (Nodes (hn_lookup ns) (elems (narrs h) (hn_nodes ns)) (abs_node h' <$> cells (nobjs h')) (next (nobjs h'))) = oview (abs_nodes h ns).
Proof.
  intros [O1 O2 O3 O4] E. unfold oview. cbn [nodes_list abs_nodes]. apply map_ext_in. intros p Hp. apply elem_of_list_In in Hp.
  destruct (O2 p Hp) as (nd & A & _). unfold deref. cbn [nodes_heap abs_nodes] in *. rewrite A. rewrite lookup_fmap in *.
  destruct (cells (nobjs h) !! p) as [x|] eqn:X; [|done]. injection A as <-. by rewrite (E p x X).
Qed.
Lemma node_seen_abs h g p : cells (nobjs h) !! p <> None -> nodes_heap (g_nodes (abs (h, g))) !! p = Some (node_seen h p).
Proof. intros N. cbn. rewrite lookup_fmap. unfold node_seen, at_node. by destruct (cells (nobjs h) !! p). Qed.

Section World.
  Context (h : heap) (gs : list hgraph) (mine : list nat) (i : nat) (g : hgraph) (w' : world).
  Context (P : psound (Pool h gs mine)) (G : gs !! i = Some g) (I' : inv w') (V : evolves (h, g) w') (F : frame (h, g) w') (C : cix w'.1 (hg_edges w'.2)) (O : any_ok (abs w')).
  Lemma ws_other j k : gs !! j = Some k -> j <> i ->
    any_ok (abs (w'.1, k)) /\ view (abs (w'.1, k)) = s_with_nodes (view (abs (h, k))) (node_attrs_at w'.1 <$> hn_lookup (hg_nodes k)) /\
    ptrs w'.1 (hg_edges k) = ptrs h (hg_edges k).
  Proof.
    intros K N. destruct P as [PI PO]. pose proof (inv_of _ i g PI G) as I. pose proof (inv_of _ j k PI K) as IK. cbn [p_heap] in *.
    assert (A : apart g k) by (by eapply (pi_apart _ PI i j)). pose proof (PO j k K) as OK. cbn [p_heap] in OK.
    pose proof (other_abs h g w' k I IK V F A) as E. split; [|split].
    - rewrite E. destruct OK as [O1 O2 O3 O4 _ _ _ _]. apply any_okI; cbn [with_nodes g_nodes g_edges g_rels g_subs]; try done.
      destruct w' as [h' g']. apply (nodes_ok_grow h h' (hg_nodes k) O1); [apply (i_heap _ I')|exact (ev_nodes _ _ V)].
    - assert (W : wf_nodes w'.1 (hg_nodes k)).
      { pose proof (frame_gwf h g w' k I I' V F A (pi_graph _ PI j k K)) as Q. apply Q. }
      assert (NV : s_nodes (view (abs (w'.1, k))) = node_attrs_at w'.1 <$> hn_lookup (hg_nodes k)) by (apply (nview_abs w'.1 (hg_nodes k)); [apply (i_heap _ I')|done]).
      rewrite <- NV. rewrite E. apply sgraph_eq; try reflexivity. destruct w' as [h' g']. exact (oview_grow h h' (hg_nodes k) (go_nodes _ OK) (ev_nodes _ _ V)).
    - unfold ptrs, elems. pose proof (arr_kept _ _ _ _ _ (f_earr _ _ F) (we_slice _ _ (i_edges _ IK)) (ap_earr _ _ A)) as EE. cbn [fst snd] in EE. by rewrite EE.
  Qed.
  Lemma ws_sound : psound (Pool w'.1 (<[i := w'.2]> gs) mine).
  Proof.
    destruct P as [PI PO]. split; [by eapply pinv_step|]. cbn [p_heap p_graphs]. intros j k E. destruct (decide (j = i)) as [->|N].
    - rewrite list_lookup_insert in E by (by eapply lookup_lt_Some). injection E as <-. by destruct w'.
    - rewrite list_lookup_insert_ne in E by congruence. by eapply ws_other.
  Qed.
  Lemma ws_maps : map (at_map w'.1) mine = map (at_map h) mine.
  Proof.
    destruct P as [PI _]. apply map_ext_Forall. apply Forall_forall. intros l L. destruct (pi_mine _ PI l L) as (A & B & D). cbn [p_heap p_graphs] in *.
    apply (ev_at _ _ V); [done|]. intros a R. cbn [fst snd] in R. rewrite ref_oref in R. destruct (decide (a = OGraph)) as [->|]; [|by apply B in R].
    injection R as R. by apply (D i g G) in R.
  Qed.
  Lemma ws_edge p : p < next (eobjs h) -> abs_edge w'.1 p = abs_edge h p /\ is_Some (cells (eobjs w'.1) !! p).
  Proof.
    destruct P as [PI _]. pose proof (inv_of _ i g PI G) as I. cbn [p_heap] in I. intros Hp. apply (wh_eobjs _ (i_heap _ I)) in Hp as [e E]. cbn in E.
    pose proof (ev_edges _ _ V p e E) as E'. cbn in E'. split; [|by eexists].
    apply abs_edge_ext; [by rewrite E|].
    unfold at_edge. rewrite E. cbn. assert (R : ref h g (OEdge p) = Some (eo_attrs e)) by (cbn; by rewrite E).
    apply (ev_at _ _ V); [by apply (i_bound _ I (OEdge p))|]. intros a R'. exists p. by apply (i_inj _ I _ _ _ R' R).
  Qed.
  Lemma ws_node p : is_Some (cells (nobjs h) !! p) -> nodes_heap (g_nodes (abs w')) !! p = Some (node_seen w'.1 p) /\ nodes_heap (g_nodes (abs (h, g))) !! p = Some (node_seen h p) /\ is_Some (cells (nobjs w'.1) !! p) /\
    node_name (node_seen w'.1 p) = node_name (node_seen h p).
  Proof.
    intros [n N]. pose proof (ev_nodes _ _ V p n N) as N'. cbn in N'. destruct w' as [h' g']. cbn [fst] in *.
    split; [apply node_seen_abs; by rewrite N'|]. split; [apply node_seen_abs; by rewrite N|]. split; [by eexists|]. unfold node_seen, at_node. by rewrite N, N'.
  Qed.
End World.
