(** Proofs for Pool.v: the edges of a graph as pointers, over a call. *)
From Coq Require Import Lia.
From Verif Require Import Base Maps Graph SpecGraph MapFacts GraphProofs HeapGraph SpecHeap HeapProofs HeapSnap HeapRange HeapEditProofs.
From Verif Require Import Direct SpecDirect DirectProofs Pool SpecPool PoolFrame PoolIndex PoolProofs PoolSteps PoolEvents PoolEvents2.

Definition kept_new (n : nat) (L L' : list nat) : Prop := exists K N, L' = K ++ N /\ K `sublist_of` L /\ Forall (fun p => n <= p) N.
Lemma kept_new_refl n L : kept_new n L L.
Proof. exists L, []. by rewrite app_nil_r. Qed.
Lemma kept_new_sub n L L' : L' `sublist_of` L -> kept_new n L L'.
Proof. intros H. exists L', []. by rewrite app_nil_r. Qed.
Lemma filter_edges_ptrs grow (keep : eobj -> bool) h0 ps : Forall (fun p => p < next (eobjs h0)) ps ->
  forall s es, let h := with_earrs h0 s in swf s -> wf_edges h es ->
  let r := fold_left (fun acc p => if keep (at_edge acc.1 p) then h_edges_add grow acc.1 acc.2 p else acc) ps (h, es) in
  exists K, ptrs r.1 r.2 = ptrs h es ++ K /\ K `sublist_of` ps.
Proof.
  induction ps as [|p ps IH]; intros F s es h S W r; [exists []; by rewrite app_nil_r|].
  subst r. inversion F as [|? ? F1 F2]; subst. cbn [fold_left fst snd].
  destruct (keep (at_edge h p)).
  - destruct (h_edges_add_spec grow h es p S W F1) as (s1 & x & E1 & E2 & E3 & E4 & _).
    assert (PT : ptrs (h_edges_add grow h es p).1 (h_edges_add grow h es p).2 = ptrs h es ++ [p]).
    { pose proof (append1_spec grow (earrs h) (he_edges es) p S (we_slice _ _ W)) as (_ & _ & A3). unfold h_edges_add. by destruct (append1 grow (earrs h) (he_edges es) p) as [s' x']. }
    rewrite E1 in *. cbn [fst snd] in *. destruct (IH F2 s1 _ E3 E4) as (K & EK & SK). exists (p :: K). split; [|by apply sublist_skip].
    etrans; [exact EK|]. etrans; [exact (f_equal (fun x => x ++ K) PT)|]. by rewrite <- app_assoc.
  - destruct (IH F2 s es S W) as (K & EK & SK). exists K. split; [done|]. by apply sublist_cons.
Qed.
Lemma h_filter_edges_ptrs grow keep h g : inv (h, g) -> let r := h_filter_edges grow keep h (elems (earrs h) (he_edges (hg_edges g))) in ptrs r.1 r.2 `sublist_of` ptrs h (hg_edges g).
Proof.
  intros I r. unfold h_filter_edges, h_new_edges in r.
  change (alloc (earrs h) []) with ((alloc (earrs h) []).1, next (earrs h)) in r. cbn [fst snd] in r.
  destruct (filter_edges_ptrs grow keep h (elems (earrs h) (he_edges (hg_edges g))) (we_elems _ _ (i_edges _ I)) (alloc (earrs h) []).1 (HEdges ∅ ∅ (Slice (next (earrs h)) 0))) as (K & E & S).
  - apply swf_alloc; apply (i_heap _ I).
  - constructor; cbn; [split; cbn; [lia|apply Nat.le_0_l]|constructor| |]; intros a inner b l Ha; by rewrite lookup_empty in Ha.
  - unfold r. rewrite E. unfold ptrs at 1, elems. cbn [he_edges sl_len take app]. exact S.
Qed.
Lemma remove_node_ptrs grow w p n : inv w -> ptrs (h_remove_node grow w p n).1.1 (hg_edges (h_remove_node grow w p n).1.2) `sublist_of` ptrs w.1 (hg_edges w.2).
Proof.
  destruct w as [h g]. intros I. unfold h_remove_node, h_nodes_remove.
  destruct (h_nodes_remove_loop_spec h (hg_nodes g) n (i_heap _ I) (i_nodes _ I) _ [] eq_refl) as (s & E1 & E2 & E3 & E4 & E5).
  cbn [length] in *. destruct (h_nodes_remove_loop h (hg_nodes g) n 0 (elems (narrs h) (hn_nodes (hg_nodes g)))) as [[h1 ns] r]. cbn [fst snd] in *. subst h1.
  destruct r as [e|]; [done|].
  match goal with |- context [h_filter_edges grow ?k ?h1 ?l] => pose proof (h_filter_edges_ptrs grow k h1 (h_with_nodes g ns)) as K end.
  cbn [hg_edges h_with_nodes] in K. match goal with |- context [h_filter_edges grow ?k ?h1 ?l] => destruct (h_filter_edges grow k h1 l) as [h2 es] end.
  cbn [fst snd hg_edges h_with_edges] in *. apply K.
  destruct I as [[? ? ? ? ? ?] J2 J3 J4 J5 J6]. constructor; cbn in *.
  - by constructor.
  - done.
  - by destruct J3; constructor.
  - done.
  - intros a l R. apply (J5 a). by destruct a.
  - intros a b l R1 R2. apply (J6 a b l); by destruct a, b.
Qed.
Lemma remove_loop_ptrs grow p l : forall w, inv w -> inv (h_remove_nodes_loop grow w p l).1 /\
  ptrs (h_remove_nodes_loop grow w p l).1.1 (hg_edges (h_remove_nodes_loop grow w p l).1.2) `sublist_of` ptrs w.1 (hg_edges w.2).
Proof.
  induction l as [|c l IH]; intros w I; cbn; [done|].
  pose proof (remove_node_ptrs grow w p c I) as K. destruct (remove_node_sim grow w p c I) as (J & _ & _).
  destruct (h_remove_node grow w p c) as [w1 [e|]]; cbn [fst] in *; [by split|]. destruct (IH w1 J) as [J2 K2]. split; [done|]. by etrans.
Qed.
Lemma remove_subgraph_ptrs grow o w p n : inv w -> ptrs (h_remove_subgraph grow o w p n).1.1 (hg_edges (h_remove_subgraph grow o w p n).1.2) `sublist_of` ptrs w.1 (hg_edges w.2).
Proof.
  intros I. unfold h_remove_subgraph. set (l := o_names o 0 _). destruct (remove_loop_ptrs grow p l w I) as [J K].
  destruct (h_remove_nodes_loop grow w p l) as [w1 [e|]]; cbn [fst] in *; [by destruct w1|]. destruct w1 as [h1 g1].
  cbn [hg_edges h_with_subs h_with_rels].
  match goal with |- context [h_filter_edges grow ?k ?h1 ?l] => pose proof (h_filter_edges_ptrs grow k h1 g1 J) as Q; destruct (h_filter_edges grow k h1 l) as [h2 es] end.
  cbn [fst snd hg_edges h_with_edges] in *. by etrans.
Qed.
Lemma add_port_edge_ptrs grow o w s sp d dp dir m : inv w ->
  kept_new (next (eobjs w.1)) (ptrs w.1 (hg_edges w.2)) (ptrs (h_add_port_edge grow o w s sp d dp dir m).1.1 (hg_edges (h_add_port_edge grow o w s sp d dp dir m).1.2)).
Proof.
  destruct w as [h g]. intros I. unfold h_add_port_edge. pose proof (new_attrs_maps h (o_attrs o 0 (arg h m))) as A.
  destruct (h_new_attrs h (o_attrs o 0 (arg h m))) as [h1 [l|e]]; cbn [fst] in *; rewrite A in *; clear A h1 || idtac; [|apply kept_new_refl].
  unfold alloc. set (e := EObj s sp d dp dir l). set (p := next (eobjs (with_maps h _))). set (h2 := with_eobjs _ _).
  pose proof (append1_spec grow (earrs h2) (he_edges (hg_edges g)) p (wh_earrs _ (i_heap _ I)) (we_slice _ _ (i_edges _ I))) as (_ & _ & A3).
  unfold h_edges_add. destruct (append1 grow (earrs h2) (he_edges (hg_edges g)) p) as [s' x]. cbn [fst snd] in *. exists (ptrs h (hg_edges g)), [p].
  split; [exact A3|]. split; [done|]. apply Forall_singleton. unfold p. cbn. lia.
Qed.
Lemma hexec_ptrs grow o c w : inv w -> (forall l, arg_of c = Some l -> l < next (maps w.1)) ->
  kept_new (next (eobjs w.1)) (ptrs w.1 (hg_edges w.2)) (ptrs (hexec grow o c w).1.1 (hg_edges (hexec grow o c w).1.2)).
Proof.
  intros I M.
  assert (FR : earrs (hexec grow o c w).1.1 = earrs w.1 -> hg_edges (hexec grow o c w).1.2 = hg_edges w.2 ->
    kept_new (next (eobjs w.1)) (ptrs w.1 (hg_edges w.2)) (ptrs (hexec grow o c w).1.1 (hg_edges (hexec grow o c w).1.2))).
  { intros A B. unfold ptrs. rewrite A, B. apply kept_new_refl. }
  destruct w as [h g]. destruct c as [b|b|n|s sp d dp dir m|s d dir m|p n m|p f v|p n m|p n|p n]; cbn [hexec] in *.
  1-3: by apply FR.
  - by apply add_port_edge_ptrs.
  - by apply add_port_edge_ptrs.
  - apply FR; clear FR M; cbn [fst snd]; unfold h_add_node; pose proof (new_attrs_maps h (o_attrs o 0 (arg h m))) as A;
      destruct (h_new_attrs h (o_attrs o 0 (arg h m))) as [h1 [l|e]]; cbn [fst] in *; rewrite A in *; try done; unfold h_nodes_add;
      destruct (hn_lookup (hg_nodes g) !! n) as [q|]; cbn [fst snd]; try done.
    + pose proof (extend_maps (with_maps h (maps h1)) (no_attrs (at_node (with_maps h (maps h1)) q)) (o_attrs o 1 (at_map (with_maps h (maps h1)) l))) as Em. by rewrite Em.
    + unfold alloc. by destruct (append1 grow (narrs (with_maps h (maps h1))) (hn_nodes (hg_nodes g)) (next (nobjs (with_maps h (maps h1))))).
    + unfold alloc. by destruct (append1 grow (narrs (with_maps h (maps h1))) (hn_nodes (hg_nodes g)) (next (nobjs (with_maps h (maps h1))))).
  - destruct (add_attr_maps (h, g) p f v) as [A1 A2]. cbn [fst snd] in *. apply FR; [by rewrite A1|by rewrite A2].
  - assert (E : earrs (h_subs_add h (hg_subs g) n).1 = earrs h) by (unfold h_subs_add; by destruct (hg_subs g !! n)).
    unfold h_add_subgraph in *. destruct (h_subs_add h (hg_subs g) n) as [h1 ss]. cbn [fst] in E. match type of FR with context [h_add_attrs_loop ?w1 ?n1 ?l1] => destruct (add_attrs_loop_maps n1 l1 w1) as [A1 A2]; set (r := h_add_attrs_loop w1 n1 l1) in * end.
    cbn [fst snd] in *. apply FR; [by rewrite A1|by rewrite A2].
  - apply kept_new_sub. by apply remove_node_ptrs.
  - apply kept_new_sub. by apply remove_subgraph_ptrs.
Qed.
Lemma call_ptrs st i g grow o c : psound st -> p_graphs st !! i = Some g -> fair o ->
  exists old new, edge_ptrs (pstep (PCall i grow o c) st).1 i = old ++ new /\ old `sublist_of` edge_ptrs st i /\ Forall (fun p => ~ is_edge_ptr st p) new.
Proof.
  destruct st as [h gs mine]. cbn [p_graphs]. intros S G Fo. cbn [pstep]. rewrite G. pose proof S as [P O]. pose proof (inv_of _ i g P G) as I. cbn [p_heap] in I.
  assert (B : forall l, arg_of (with_refs (ref_of mine) c) = Some l -> l < next (maps h)) by (intros l Hl; by apply (pi_mine _ P), (arg_of_refs mine c)).
  destruct (hexec_ptrs grow o (with_refs (ref_of mine) c) (h, g) I B) as (K & N & E & SK & FN). cbn [fst snd] in *.
  destruct (hexec grow o (with_refs (ref_of mine) c) (h, g)) as [w' r]. cbn [fst snd] in *. exists K, N.
  rewrite (edge_ptrs_at (Pool w'.1 (<[i := w'.2]> gs) mine) i w'.2) by (cbn [p_graphs]; rewrite (insert_graph gs i i g w'.2 G); by rewrite decide_True).
  rewrite (edge_ptrs_at (Pool h gs mine) i g G). cbn [p_heap]. split; [exact E|]. split; [exact SK|].
  eapply Forall_impl; [exact FN|]. intros q Hq Hs. apply (wh_eobjs _ (pi_heap _ P)) in Hs. cbn [p_heap] in Hs. cbn in Hq, Hs. lia.
Qed.
