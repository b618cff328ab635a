(** Slices taken from the graph and kept by the caller. *)
From Verif Require Import Maps Graph SpecGraph GraphProofs HeapGraph SpecHeap HeapProofs.
From Coq Require Import Lia.

(** [y] was cut from the array of [x] earlier, or lies in another array. *)
Definition older (s : store (list nat)) (x y : slice) : Prop :=
  wf_slice s y /\ (sl_arr y = sl_arr x -> sl_len y <= sl_len x).
Lemma older_self s x : wf_slice s x -> older s x x.
Proof. split; [done|lia]. Qed.
Lemma append1_older grow s x p y : swf s -> wf_slice s x -> older s x y ->
  older (append1 grow s x p).1 (append1 grow s x p).2 y /\ elems (append1 grow s x p).1 y = elems s y.
Proof.
  intros S [X1 X2] [[Y1 Y2] Y3]. unfold append1. destruct (Nat.ltb_spec (sl_len x) (length (array s (sl_arr x)))) as [L|L]; cbn [fst snd].
  - unfold older, wf_slice, elems, array in *; cbn. destruct (decide (sl_arr y = sl_arr x)) as [E|E].
    + specialize (Y3 E). rewrite E in *. rewrite lookup_insert; cbn. split; [split; [split; [done|]|lia]|].
      * rewrite insert_length. lia.
      * rewrite take_insert by lia. done.
    + rewrite lookup_insert_ne by congruence. split; [|done]. split; [done|]. done.
  - unfold alloc, older, wf_slice, elems, array in *; cbn. rewrite lookup_insert_ne by lia. split; [|done]. split; [split; [lia|done]|]. lia.
Qed.

(** ** Edges *)
Definition kept (w w' : world) : Prop := forall y, older (earrs w.1) (he_edges (hg_edges w.2)) y ->
  older (earrs w'.1) (he_edges (hg_edges w'.2)) y /\ elems (earrs w'.1) y = elems (earrs w.1) y.
Lemma kept_refl w : kept w w.
Proof. done. Qed.
Lemma kept_trans w w' w'' : kept w w' -> kept w' w'' -> kept w w''.
Proof. intros A B y O. destruct (A y O) as [O1 E1]. destruct (B y O1) as [O2 E2]. split; [done|congruence]. Qed.
Lemma kept_same w w' : earrs w'.1 = earrs w.1 -> hg_edges w'.2 = hg_edges w.2 -> kept w w'.
Proof. intros A B y O. by rewrite A, B. Qed.

(** What changes only maps. *)
Definition only_maps (h h' : heap) : Prop := h' = with_maps h (maps h').
Lemma only_maps_refl h : only_maps h h.
Proof. by destruct h. Qed.
Lemma only_maps_trans h h' h'' : only_maps h h' -> only_maps h' h'' -> only_maps h h''.
Proof. unfold only_maps. intros -> ->. done. Qed.
Lemma attrs_add_maps h l f v : only_maps h (h_attrs_add h l f v).1.
Proof. unfold h_attrs_add. destruct (new_attr f); [done|apply only_maps_refl]. Qed.
Lemma new_attrs_maps h es : only_maps h (h_new_attrs h es).1.
Proof.
  assert (X : forall l h1, only_maps h h1 -> only_maps h (h_new_attrs_loop h1 l es).1).
  { induction es as [|[k v] es IH]; intros l h1 H1; cbn; [done|].
    pose proof (attrs_add_maps h1 l k v) as A. destruct (h_attrs_add h1 l k v) as [h2 [e|]]; cbn [fst] in *; [by eapply only_maps_trans|].
    apply IH. by eapply only_maps_trans. }
  unfold h_new_attrs, new_map, alloc. specialize (X (next (maps h)) (with_maps h (Store (<[next (maps h):=∅]> (cells (maps h))) (S (next (maps h)))))).
  destruct (h_new_attrs_loop _ _ es) as [h2 [e|]]; cbn [fst] in *; by apply X.
Qed.
Lemma extend_maps h l es : only_maps h (h_extend h l es).
Proof.
  unfold h_extend. assert (X : forall h1, only_maps h h1 -> only_maps h (fold_left (fun h kv => set_key h l kv.1 kv.2) es h1)).
  { induction es as [|[k v] es IH]; intros h1 H1; cbn; [done|]. apply IH. by eapply only_maps_trans. }
  apply X, only_maps_refl.
Qed.
Lemma add_attr_maps w p f v : only_maps w.1 (h_add_attr w p f v).1.1 /\ (h_add_attr w p f v).1.2 = w.2.
Proof.
  destruct w as [h g]. unfold h_add_attr. destruct (str_eqb (hg_name g) p); [|destruct (hg_subs g !! p) as [q|]; [|split; [apply only_maps_refl|done]]].
  - pose proof (attrs_add_maps h (hg_attrs g) f v). by destruct (h_attrs_add h (hg_attrs g) f v).
  - pose proof (attrs_add_maps h (so_attrs (at_sub h q)) f v). by destruct (h_attrs_add h (so_attrs (at_sub h q)) f v).
Qed.
Lemma add_attrs_loop_maps n l : forall w, only_maps w.1 (h_add_attrs_loop w n l).1.1 /\ (h_add_attrs_loop w n l).1.2 = w.2.
Proof.
  induction l as [|[k v] l IH]; intros w; cbn; [split; [apply only_maps_refl|done]|].
  destruct (add_attr_maps w n k v) as [A B]. destruct (h_add_attr w n k v) as [w1 [e|]]; cbn [fst] in *; [done|].
  destruct (IH w1) as [C D]. split; [by eapply only_maps_trans|congruence].
Qed.

Lemma edges_add_older grow h es p y : swf (earrs h) -> wf_slice (earrs h) (he_edges es) -> older (earrs h) (he_edges es) y ->
  let r := h_edges_add grow h es p in older (earrs r.1) (he_edges r.2) y /\ elems (earrs r.1) y = elems (earrs h) y.
Proof.
  intros S W O. unfold h_edges_add. pose proof (append1_older grow (earrs h) (he_edges es) p y S W O) as A.
  destruct (append1 grow (earrs h) (he_edges es) p) as [s x]. done.
Qed.
Lemma edges_add_wf grow h es p : swf (earrs h) -> wf_slice (earrs h) (he_edges es) ->
  let r := h_edges_add grow h es p in swf (earrs r.1) /\ wf_slice (earrs r.1) (he_edges r.2).
Proof.
  intros S W. unfold h_edges_add. pose proof (append1_spec grow (earrs h) (he_edges es) p S W) as A.
  destruct (append1 grow (earrs h) (he_edges es) p) as [s x]. cbn in *. tauto.
Qed.
Lemma filter_fold_older grow (keep : eobj -> bool) ps y : forall h es, swf (earrs h) -> wf_slice (earrs h) (he_edges es) -> older (earrs h) (he_edges es) y ->
  let r := fold_left (fun acc p => if keep (at_edge acc.1 p) then h_edges_add grow acc.1 acc.2 p else acc) ps (h, es) in
  older (earrs r.1) (he_edges r.2) y /\ elems (earrs r.1) y = elems (earrs h) y.
Proof.
  induction ps as [|p ps IH]; intros h es S W O r; [done|]. subst r. cbn [fold_left fst snd]. destruct (keep (at_edge h p)); [|by apply IH].
  pose proof (edges_add_older grow h es p y S W O) as [A1 A2]. pose proof (edges_add_wf grow h es p S W) as [B1 B2].
  destruct (h_edges_add grow h es p) as [h1 es1]. cbn [fst snd] in *. destruct (IH h1 es1 B1 B2 A1) as [C1 C2]. split; [done|]. congruence.
Qed.
Lemma filter_kept grow keep h g ps : wf_heap h -> let r := h_filter_edges grow keep h ps in kept (h, g) (r.1, h_with_edges g r.2).
Proof.
  intros W r y O. cbn [fst snd] in *. unfold h_filter_edges, h_new_edges, alloc in r.
  set (s := Store (<[next (earrs h):=[]]> (cells (earrs h))) (S (next (earrs h)))) in r.
  assert (S : swf s) by (apply (swf_alloc (earrs h)); apply W).
  destruct O as [[O1 O2] O3].
  assert (E : array s (sl_arr y) = array (earrs h) (sl_arr y)) by (unfold array; cbn; rewrite lookup_insert_ne by lia; done).
  destruct (filter_fold_older grow keep ps y (with_earrs h s) (HEdges ∅ ∅ (Slice (next (earrs h)) 0)) S) as [A B].
  - split; cbn; [lia|apply Nat.le_0_l].
  - split; [split; cbn; [lia|by rewrite E]|]. cbn. lia.
  - fold r in A, B. split; [exact A|]. rewrite B. unfold elems. cbn. by rewrite E.
Qed.
Lemma remove_node_kept grow w p n : inv w -> kept w (h_remove_node grow w p n).1.
Proof.
  destruct w as [h g]. intros I. unfold h_remove_node, h_nodes_remove.
  destruct (h_nodes_remove_loop_spec h (hg_nodes g) n (i_heap _ I) (i_nodes _ I) _ [] eq_refl) as (s & E1 & E2 & E3 & E4 & E5).
  cbn [length] in *. destruct (h_nodes_remove_loop h (hg_nodes g) n 0 (elems (narrs h) (hn_nodes (hg_nodes g)))) as [[h1 ns] r]. cbn [fst snd] in *.
  subst h1. destruct r as [e|]; [by apply kept_same|].
  assert (W : wf_heap (with_narrs h s)) by (destruct (i_heap _ I); by constructor).
  pose proof (filter_kept grow (fun e => negb (str_eqb (eo_dst e) n || str_eqb (eo_src e) n)) (with_narrs h s)
    (h_with_rels (h_with_nodes g ns) (relations_remove (hg_rels g) p n)) (elems (earrs (with_narrs h s)) (he_edges (hg_edges g))) W) as K.
  destruct (h_filter_edges grow _ (with_narrs h s) (elems (earrs (with_narrs h s)) (he_edges (hg_edges g)))) as [h2 es]. cbn [fst snd] in *.
  eapply kept_trans; [|exact K]. by apply kept_same.
Qed.
Lemma remove_nodes_loop_kept grow p l : forall w, inv w -> kept w (h_remove_nodes_loop grow w p l).1.
Proof.
  induction l as [|c l IH]; intros w I; cbn; [done|].
  pose proof (remove_node_kept grow w p c I) as K. destruct (remove_node_sim grow w p c I) as (J & _ & _).
  destruct (h_remove_node grow w p c) as [w1 [e|]]; cbn [fst] in *; [done|]. eapply kept_trans; [exact K|]. by apply IH.
Qed.
Lemma remove_subgraph_kept grow o w p n : inv w -> kept w (h_remove_subgraph grow o w p n).1.
Proof.
  intros I. unfold h_remove_subgraph. set (l := o_names o 0 _).
  pose proof (remove_nodes_loop_kept grow p l w I) as K. destruct (remove_nodes_loop_sim grow p l w I) as (J & _ & _).
  destruct (h_remove_nodes_loop grow w p l) as [w1 [e|]]; cbn [fst] in *; [by destruct w1|]. destruct w1 as [h1 g1].
  set (g3 := h_with_subs _ _). set (keep := fun e : eobj => _).
  pose proof (filter_kept grow keep h1 g3 (elems (earrs h1) (he_edges (hg_edges g3))) (i_heap _ J)) as K2.
  destruct (h_filter_edges grow keep h1 (elems (earrs h1) (he_edges (hg_edges g3)))) as [h2 es]. cbn [fst snd] in *.
  eapply kept_trans; [exact K|]. eapply kept_trans; [|exact K2]. by apply kept_same.
Qed.
Lemma add_port_edge_kept grow o w s sp d dp dir m : inv w -> kept w (h_add_port_edge grow o w s sp d dp dir m).1.
Proof.
  destruct w as [h g]. intros I. unfold h_add_port_edge. pose proof (new_attrs_maps h (o_attrs o 0 (arg h m))) as A.
  destruct (h_new_attrs h (o_attrs o 0 (arg h m))) as [h1 [l|e]]; cbn [fst] in *; rewrite A in *.
  2:{ by apply kept_same. }
  unfold alloc. cbn [fst snd]. set (p := next _). set (h2 := with_eobjs _ _). intros y O.
  pose proof (edges_add_older grow h2 (hg_edges g) p y (wh_earrs _ (i_heap _ I)) (we_slice _ _ (i_edges _ I)) O) as K.
  destruct (h_edges_add grow h2 (hg_edges g) p) as [h3 es]. exact K.
Qed.
Lemma add_node_kept grow o w p n m : kept w (h_add_node grow o w p n m).1.
Proof.
  destruct w as [h g]. unfold h_add_node. pose proof (new_attrs_maps h (o_attrs o 0 (arg h m))) as A.
  destruct (h_new_attrs h (o_attrs o 0 (arg h m))) as [h1 [l|e]]; cbn [fst] in *; rewrite A in *; [|by apply kept_same].
  unfold h_nodes_add. destruct (hn_lookup (hg_nodes g) !! n) as [q|].
  - set (x := no_attrs _). pose proof (extend_maps (with_maps h (maps h1)) x (o_attrs o 1 (at_map (with_maps h (maps h1)) l))) as B. rewrite B. by apply kept_same.
  - destruct (alloc _ _). destruct (append1 _ _ _ _). by apply kept_same.
Qed.
Lemma add_subgraph_kept o w p n m : kept w (h_add_subgraph o w p n m).1.
Proof.
  destruct w as [h g]. unfold h_add_subgraph.
  assert (E : earrs (h_subs_add h (hg_subs g) n).1 = earrs h) by (unfold h_subs_add; by destruct (hg_subs g !! n)).
  destruct (h_subs_add h (hg_subs g) n) as [h1 ss]. cbn [fst] in E. set (g1 := h_with_subs _ _).
  destruct (add_attrs_loop_maps n (o_attrs o 0 (arg h1 m)) (h1, g1)) as [A B]. cbn [fst snd] in *.
  apply kept_same; cbn [fst snd]; [rewrite A; done|by rewrite B].
Qed.
Lemma hexec_kept grow o c w : inv w -> kept w (hexec grow o c w).1.
Proof.
  intros I. destruct w as [h g]. destruct c; cbn [hexec fst].
  1-3: by apply kept_same.
  - by apply add_port_edge_kept.
  - by apply add_port_edge_kept.
  - apply add_node_kept.
  - destruct (add_attr_maps (h, g) parent field value) as [A B]. apply kept_same; [by rewrite A|by rewrite B].
  - apply add_subgraph_kept.
  - by apply remove_node_kept.
  - by apply remove_subgraph_kept.
Qed.

(** ** Edges along histories *)
Definition edges_kept (w w' : world) : Prop := kept w w' /\ next (eobjs w.1) <= next (eobjs w'.1)
  /\ forall p, p < next (eobjs w.1) -> abs_edge w'.1 p = abs_edge w.1 p.
Lemma edges_kept_refl w : edges_kept w w.
Proof. split; [done|]. split; [lia|done]. Qed.
Lemma edges_kept_trans w w' w'' : edges_kept w w' -> edges_kept w' w'' -> edges_kept w w''.
Proof.
  intros (A1 & A2 & A3) (B1 & B2 & B3). split; [by eapply kept_trans|]. split; [lia|]. intros p P. rewrite B3 by lia. by apply A3.
Qed.
Lemma edges_kept_maps h s g : inv (h, g) -> (forall a l, ref h g a = Some l -> at_map (with_maps h s) l = at_map h l) ->
  edges_kept (h, g) (with_maps h s, g).
Proof.
  intros I E. split; [by apply kept_same|]. split; [done|]. cbn [fst]. apply (abs_edge_maps h s g I). intros p l. apply E.
Qed.
Lemma hstep_edges e st : inv_mine st -> edges_kept st.1 (hstep e st).1.1.
Proof.
  destruct st as [[h g] mine]. intros (I & N & M). cbn [fst snd] in I, N, M. destruct e as [m|i k v|i k|grow o c]; cbn [hstep fst snd].
  - unfold new_map, alloc. cbn [fst snd]. apply edges_kept_maps; [done|]. intros a l R. apply (at_map_fresh_ne h m).
    apply (i_bound _ I) in R. cbn in R. lia.
  - destruct (mine !! i) as [l|] eqn:E; cbn [fst snd]; [|apply edges_kept_refl]. apply edges_kept_maps; [done|]. intros a l' R.
    apply (at_map_upd_ne h l). intros ->. destruct (M l) as [_ Q]; [by eapply elem_of_list_lookup_2|]. by eapply Q.
  - destruct (mine !! i) as [l|] eqn:E; cbn [fst snd]; [|apply edges_kept_refl]. apply edges_kept_maps; [done|]. intros a l' R.
    apply (at_map_upd_ne h l). intros ->. destruct (M l) as [_ Q]; [by eapply elem_of_list_lookup_2|]. by eapply Q.
  - pose proof (hexec_kept grow o (with_refs (ref_of mine) c) (h, g) I) as K.
    destruct (hexec_sim grow o (with_refs (ref_of mine) c) (h, g) I) as (J & A & V).
    { intros l Hl. by apply M, (arg_of_refs mine c). }
    destruct (hexec grow o (with_refs (ref_of mine) c) (h, g)) as [w r]. cbn [fst snd] in *.
    assert (L : next (eobjs h) <= next (eobjs w.1)).
    { destruct (Nat.le_gt_cases (next (eobjs h)) (next (eobjs w.1))) as [|G]; [done|]. exfalso.
      assert (is_Some (cells (eobjs h) !! next (eobjs w.1))) as [x X] by (apply (wh_eobjs _ (i_heap _ I)); done).
      apply (ev_edges _ _ V) in X. pose proof (wh_eobjs _ (i_heap _ J) (next (eobjs w.1))) as Q. rewrite X in Q. destruct Q as [Q _]. specialize (Q (ex_intro _ x eq_refl)). lia. }
    split; [done|]. split; [done|]. cbn [fst]. intros p P. apply (wh_eobjs _ (i_heap _ I)) in P as [x X]. cbn [fst] in X.
    assert (R : ref h g (OEdge p) = Some (eo_attrs x)) by (cbn; by rewrite X).
    apply abs_edge_ext.
    + rewrite X. by apply (ev_edges _ _ V).
    + unfold at_edge. rewrite X; cbn [default from_option id]. apply (ev_at _ _ V); [by apply (i_bound _ I) in R|].
      intros a Ra. exists p. by eapply (i_inj _ I).
Qed.
Lemma hrun_edges evs : forall st, inv_mine st -> edges_kept st.1 (hrun evs st).1.1.
Proof.
  induction evs as [|e evs IH]; intros st I; cbn [hrun]; [apply edges_kept_refl|].
  pose proof (hstep_edges e st I) as K. destruct (hstep_sim e st I) as [J _]. destruct (hstep e st) as [st1 r]. cbn [fst] in *.
  specialize (IH st1 J). destruct (hrun evs st1) as [st2 rs]. cbn [fst] in *. by eapply edges_kept_trans.
Qed.
Lemma edges_seen_kept w w' : inv w -> edges_kept w w' ->
  edges_seen w'.1 (he_edges (hg_edges w.2)) = edges_seen w.1 (he_edges (hg_edges w.2)).
Proof.
  intros I (K1 & K2 & K3). unfold edges_seen. destruct (K1 (he_edges (hg_edges w.2))) as [_ E]; [apply older_self, I|]. rewrite E.
  apply map_ext_Forall. eapply Forall_impl; [apply (we_elems _ _ (i_edges _ I))|]. exact K3.
Qed.

(** ** Nodes, as long as nothing is removed *)
Definition nkept (w w' : world) : Prop := forall y, older (narrs w.1) (hn_nodes (hg_nodes w.2)) y ->
  older (narrs w'.1) (hn_nodes (hg_nodes w'.2)) y /\ elems (narrs w'.1) y = elems (narrs w.1) y.
Lemma nkept_trans w w' w'' : nkept w w' -> nkept w' w'' -> nkept w w''.
Proof. intros A B y O. destruct (A y O) as [O1 E1]. destruct (B y O1) as [O2 E2]. split; [done|congruence]. Qed.
Lemma nkept_same w w' : narrs w'.1 = narrs w.1 -> hg_nodes w'.2 = hg_nodes w.2 -> nkept w w'.
Proof. intros A B y O. by rewrite A, B. Qed.
Lemma hstep_nodes e st : inv_mine st -> no_removal e -> nkept st.1 (hstep e st).1.1.
Proof.
  destruct st as [[h g] mine]. intros (I & _ & _) NR. cbn [fst snd] in I. destruct e as [m|i k v|i k|grow o c]; cbn [hstep fst snd].
  - by apply nkept_same.
  - destruct (mine !! i); by apply nkept_same.
  - destruct (mine !! i); by apply nkept_same.
  - set (c' := with_refs (ref_of mine) c). assert (NR' : no_removal (ECall grow o c')) by (by destruct c). clearbody c'. clear NR.
    enough (nkept (h, g) (hexec grow o c' (h, g)).1) as E by (by destruct (hexec grow o c' (h, g))).
    assert (PE : forall s sp d dp dir m, nkept (h, g) (h_add_port_edge grow o (h, g) s sp d dp dir m).1).
    { intros. unfold h_add_port_edge. pose proof (new_attrs_maps h (o_attrs o 0 (arg h m))) as A.
      destruct (h_new_attrs h (o_attrs o 0 (arg h m))) as [h1 [l|e]]; cbn [fst] in *; rewrite A in *; [|by apply nkept_same].
      unfold alloc, h_edges_add. destruct (append1 _ _ _ _). by apply nkept_same. }
    destruct c'; cbn [hexec fst]; try done; try apply PE; try by apply nkept_same.
    + unfold h_add_node. pose proof (new_attrs_maps h (o_attrs o 0 (arg h m))) as A.
      destruct (h_new_attrs h (o_attrs o 0 (arg h m))) as [h1 [l|e]]; cbn [fst] in *; rewrite A in *; [|by apply nkept_same].
      unfold h_nodes_add. destruct (hn_lookup (hg_nodes g) !! name) as [q|].
      * set (x := no_attrs _). pose proof (extend_maps (with_maps h (maps h1)) x (o_attrs o 1 (at_map (with_maps h (maps h1)) l))) as B. rewrite B. by apply nkept_same.
      * unfold alloc. cbn [fst snd]. set (q := next _). intros y O. cbn [fst snd] in O.
        pose proof (append1_older grow (narrs h) (hn_nodes (hg_nodes g)) q y (wh_narrs _ (i_heap _ I)) (wn_slice _ _ (i_nodes _ I)) O) as K.
        change (narrs (with_maps h (maps h1))) with (narrs h). destruct (append1 grow (narrs h) (hn_nodes (hg_nodes g)) q) as [s x]. exact K.
    + destruct (add_attr_maps (h, g) parent field value) as [A B]. apply nkept_same; [by rewrite A|by rewrite B].
    + unfold h_add_subgraph.
      assert (E : narrs (h_subs_add h (hg_subs g) name).1 = narrs h) by (unfold h_subs_add; by destruct (hg_subs g !! name)).
      destruct (h_subs_add h (hg_subs g) name) as [h1 ss]. cbn [fst] in E. set (g1 := h_with_subs _ _).
      destruct (add_attrs_loop_maps name (o_attrs o 0 (arg h1 m)) (h1, g1)) as [A B]. cbn [fst snd] in *.
      apply nkept_same; cbn [fst snd]; [rewrite A; done|by rewrite B].
Qed.
Lemma hrun_nodes evs : forall st, inv_mine st -> Forall no_removal evs -> nkept st.1 (hrun evs st).1.1.
Proof.
  induction evs as [|e evs IH]; intros st I F; cbn [hrun]; [by apply nkept_same|]. inversion F as [|? ? F1 F2]; subst.
  pose proof (hstep_nodes e st I F1) as K. destruct (hstep_sim e st I) as [J _]. destruct (hstep e st) as [st1 r]. cbn [fst] in *.
  specialize (IH st1 J F2). destruct (hrun evs st1) as [st2 rs]. cbn [fst] in *. by eapply nkept_trans.
Qed.

(** ** Nodes keep their name; a node that is no longer in the graph keeps everything *)
Lemma hstep_objs e st : inv_mine st -> forall p n, cells (nobjs st.1.1) !! p = Some n -> cells (nobjs (hstep e st).1.1.1) !! p = Some n.
Proof.
  destruct st as [[h g] mine]. intros (I & N & M). cbn [fst snd] in I, N, M. intros p n E. cbn [fst] in E. destruct e as [m|i k v|i k|grow o c]; cbn [hstep fst snd].
  - done.
  - by destruct (mine !! i).
  - by destruct (mine !! i).
  - destruct (hexec_sim grow o (with_refs (ref_of mine) c) (h, g) I) as (J & A & V).
    { intros l Hl. by apply M, (arg_of_refs mine c). }
    destruct (hexec grow o (with_refs (ref_of mine) c) (h, g)) as [w r]. cbn [fst snd] in *. by apply (ev_nodes _ _ V).
Qed.
Lemma hrun_objs evs : forall st, inv_mine st -> forall p n, cells (nobjs st.1.1) !! p = Some n -> cells (nobjs (hrun evs st).1.1.1) !! p = Some n.
Proof.
  induction evs as [|e evs IH]; intros st I p n E; cbn [hrun]; [done|].
  pose proof (hstep_objs e st I p n E) as K. destruct (hstep_sim e st I) as [J _]. destruct (hstep e st) as [st1 r]. cbn [fst] in *.
  specialize (IH st1 J p n K). by destruct (hrun evs st1).
Qed.

(** [p] is a node that no name leads to. *)
Definition gone (ns : nodes) (p : nat) (n : node) : Prop :=
  p < nodes_next ns /\ nodes_heap ns !! p = Some n /\ forall x, nodes_lookup ns !! x <> Some p.
Lemma nodes_add_gone ns x a l p n : gone ns p n -> gone (nodes_add ns x a l) p n.
Proof.
  intros (G1 & G2 & G3). unfold nodes_add. destruct (nodes_lookup ns !! x) as [q|] eqn:E.
  - split; [done|]. cbn. split; [|done]. rewrite lookup_insert_ne; [done|]. intros ->. by eapply G3.
  - split; [cbn; lia|]. cbn. split; [rewrite lookup_insert_ne; [done|lia]|]. intros y. destruct (decide (y = x)) as [->|Ne].
    + rewrite lookup_insert. intros [= <-]. lia.
    + rewrite lookup_insert_ne by congruence. apply G3.
Qed.
Lemma nodes_remove_gone ns x p n : gone ns p n -> gone (nodes_remove ns x).1 p n.
Proof.
  intros (G1 & G2 & G3). unfold nodes_remove.
  destruct (nodes_remove_loop_spec ns x (nodes_list ns) []) as [[_ ->]|(a & q & b & _ & _ & _ & ->)]; [done|].
  split; [done|]. split; [done|]. cbn. intros y. destruct (decide (y = x)) as [->|Ne]; [by rewrite lookup_delete|].
  rewrite lookup_delete_ne by congruence. apply G3.
Qed.
Lemma remove_node_gone g x y p n : gone (g_nodes g) p n -> gone (g_nodes (remove_node g x y).1) p n.
Proof.
  intros G. unfold remove_node. pose proof (nodes_remove_gone (g_nodes g) y p n G) as G'.
  destruct (nodes_remove (g_nodes g) y) as [ns [e|]]; done.
Qed.
Lemma remove_nodes_loop_gone x l p n : forall g, gone (g_nodes g) p n -> gone (g_nodes (remove_nodes_loop g x l).1) p n.
Proof.
  induction l as [|c l IH]; intros g G; cbn; [done|]. pose proof (remove_node_gone g x c p n G) as G'.
  destruct (remove_node g x c) as [g' [e|]]; [done|]. by apply IH.
Qed.
Lemma add_attr_nodes g x f v : g_nodes (add_attr g x f v).1 = g_nodes g.
Proof.
  unfold add_attr. destruct (str_eqb (g_name g) x); [by destruct (attrs_add (g_attrs g) f v)|].
  destruct (g_subs g !! x) as [s|]; [|done]. by destruct (attrs_add (sub_attrs s) f v).
Qed.
Lemma add_attrs_loop_nodes x l : forall g, g_nodes (add_attrs_loop g x l).1 = g_nodes g.
Proof.
  induction l as [|[k v] l IH]; intros g; cbn; [done|]. pose proof (add_attr_nodes g x k v) as E.
  destruct (add_attr g x k v) as [g' [e|]]; [done|]. cbn in E. by rewrite IH.
Qed.
Lemma exec_gone o c g p n : gone (g_nodes g) p n -> gone (g_nodes (exec o c g).1) p n.
Proof.
  intros G. destruct c; cbn [exec]; try done.
  - unfold add_port_edge. by destruct (new_attrs _).
  - unfold add_edge, add_port_edge. by destruct (new_attrs _).
  - unfold add_node. destruct (new_attrs _); [|done]. cbn. by apply nodes_add_gone.
  - by rewrite add_attr_nodes.
  - unfold add_subgraph. by rewrite add_attrs_loop_nodes.
  - by apply remove_node_gone.
  - unfold remove_subgraph. set (l := o_names o 0 _). pose proof (remove_nodes_loop_gone parent l p n g G) as G'.
    destruct (remove_nodes_loop g parent l) as [g1 [e|]]; done.
Qed.
Lemma vrun_gone evs p n : forall st, gone (g_nodes st.1) p n -> gone (g_nodes (vrun evs st).1.1) p n.
Proof.
  induction evs as [|e evs IH]; intros [g env] G; cbn [vrun]; [done|].
  assert (G1 : gone (g_nodes (vstep e (g, env)).1.1) p n).
  { destruct e; cbn [vstep]; try done. set (c' := with_contents _ _). pose proof (exec_gone o c' g p n G) as K. by destruct (exec o c' g). }
  destruct (vstep e (g, env)) as [st1 r]. specialize (IH st1 G1). by destruct (vrun evs st1).
Qed.
Lemma gone_seen w p n : gone (g_nodes (abs w)) p n -> node_seen w.1 p = n.
Proof.
  destruct w as [h g]. intros (_ & G & _). cbn in G. rewrite lookup_fmap in G. unfold node_seen, at_node; cbn [fst].
  destruct (cells (nobjs h) !! p) as [x|]; [|done]. cbn in G. by injection G.
Qed.
(** The nodes of a graph reached are in order. *)
Lemma vrun_ok evs : Forall fair_event evs -> forall st, graph_ok st.1 -> graph_ok (vrun evs st).1.1.
Proof.
  induction evs as [|e evs IH]; intros F [g env] G; cbn [vrun]; [done|]. inversion F as [|? ? F1 F2]; subst.
  assert (G1 : graph_ok (vstep e (g, env)).1.1).
  { destruct e; cbn [vstep]; try done. set (c' := with_contents _ _). destruct (exec_ok o c' g F1 G) as [K _]. by destruct (exec o c' g). }
  destruct (vstep e (g, env)) as [st1 r]. specialize (IH F2 st1 G1). by destruct (vrun evs st1).
Qed.
Lemma removed_gone ns x p : nodes_ok ns -> nodes_lookup ns !! x = Some p -> (nodes_remove ns x).2 = None ->
  gone (nodes_remove ns x).1 p (deref ns p).
Proof.
  intros OK L R. unfold nodes_remove in *. destruct (no_lookup ns OK x p L) as [P1 [a P2]].
  destruct (nodes_remove_loop_spec ns x (nodes_list ns) []) as [[_ E]|(u & q & v & _ & _ & _ & E)]; rewrite E in *; [done|].
  split; [by apply (no_heap ns OK) in P2|]. cbn. split; [unfold deref; by rewrite P2|]. intros y. destruct (decide (y = x)) as [->|Ne]; [by rewrite lookup_delete|].
  rewrite lookup_delete_ne by congruence. intros L'. apply Ne. by rewrite <- (deref_lookup ns OK y p L'), <- (deref_lookup ns OK x p L).
Qed.
