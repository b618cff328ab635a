(** Proofs for Pool.v: the indices of edges at the level of pointers, when a pointer may be there several times
    (after HeapEditProofs.v, where it is there once). *)
From Coq Require Import Lia.
From Verif Require Import Base Maps Graph SpecGraph MapFacts GraphProofs HeapGraph SpecHeap HeapProofs HeapSnap HeapEditProofs Direct SpecDirect DirectProofs.

Record cix (h : heap) (es : hedges) : Prop := {
  cx_s2d : coherent (he_s2d es) (srcs h) (dsts h) (ptrs h es);
  cx_d2s : coherent (he_d2s es) (dsts h) (srcs h) (ptrs h es) }.
Lemma cix_frame h h' es : earrs h' = earrs h -> (forall p, p ∈ ptrs h es -> srcs h' p = srcs h p /\ dsts h' p = dsts h p) -> cix h es -> cix h' es.
Proof.
  intros A E [X2 X3]. assert (P : ptrs h' es = ptrs h es) by (unfold ptrs; by rewrite A). constructor; rewrite P.
  - eapply coherent_ext; [|exact X2]. done.
  - eapply coherent_ext; [|exact X3]. intros p Hp. destruct (E p Hp). done.
Qed.
Lemma edges_add_cix grow h es p : swf (earrs h) -> wf_edges h es -> p < next (eobjs h) -> cix h es ->
  let r := h_edges_add grow h es p in cix r.1 r.2 /\ ptrs r.1 r.2 = ptrs h es ++ [p].
Proof.
  intros S W P [X2 X3]. pose proof (append1_spec grow (earrs h) (he_edges es) p S (we_slice _ _ W)) as (_ & _ & A3).
  unfold h_edges_add. destruct (append1 grow (earrs h) (he_edges es) p) as [s x]. cbn [fst snd] in *. unfold ptrs at 2. cbn [earrs with_earrs he_edges].
  split; [|done]. constructor; unfold ptrs; cbn [earrs with_earrs he_edges he_s2d he_d2s]; rewrite A3.
  - apply (coherent_add _ (srcs h) (dsts h)). exact X2.
  - apply (coherent_add _ (dsts h) (srcs h)). exact X3.
Qed.
Lemma filter_edges_cix grow (keep : eobj -> bool) h0 ps : Forall (fun p => p < next (eobjs h0)) ps ->
  forall s es, let h := with_earrs h0 s in swf s -> wf_edges h es -> cix h es ->
  let r := fold_left (fun acc p => if keep (at_edge acc.1 p) then h_edges_add grow acc.1 acc.2 p else acc) ps (h, es) in cix r.1 r.2.
Proof.
  induction ps as [|p ps IH]; intros F s es h S W X r; [done|].
  subst r. inversion F as [|? ? F1 F2]; subst. cbn [fold_left fst snd].
  destruct (keep (at_edge h p)); [|by apply (IH F2 s es S W X)].
  destruct (h_edges_add_spec grow h es p S W F1) as (s1 & x & E1 & E2 & E3 & E4 & _).
  destruct (edges_add_cix grow h es p S W F1 X) as [X1 P1]. rewrite E1 in *. cbn [fst snd] in *. apply (IH F2 s1 _ E3 E4 X1).
Qed.
Lemma h_filter_edges_cix grow keep h g : inv (h, g) -> cix h (hg_edges g) ->
  let r := h_filter_edges grow keep h (elems (earrs h) (he_edges (hg_edges g))) in cix r.1 r.2.
Proof.
  intros I X r. unfold h_filter_edges, h_new_edges in r.
  change (alloc (earrs h) []) with ((alloc (earrs h) []).1, next (earrs h)) in r. cbn [fst snd] in r.
  apply filter_edges_cix.
  - apply (we_elems _ _ (i_edges _ I)).
  - apply swf_alloc; apply (i_heap _ I).
  - constructor; cbn; [split; cbn; [lia|apply Nat.le_0_l]|constructor| |]; intros a inner b l Ha; by rewrite lookup_empty in Ha.
  - constructor; unfold ptrs; cbn; intros a b; by rewrite lookup_empty.
Qed.

(** ** The calls *)
Definition cinv (w : world) : Prop := inv w /\ cix w.1 (hg_edges w.2).
Lemma cix_evolves w w' : inv w -> evolves w w' -> earrs w'.1 = earrs w.1 -> hg_edges w'.2 = hg_edges w.2 -> cix w.1 (hg_edges w.2) -> cix w'.1 (hg_edges w'.2).
Proof.
  intros I V A B X. rewrite B. eapply cix_frame; [exact A| |exact X]. intros p Hp.
  pose proof (Forall_forall (fun p => p < next (eobjs w.1)) (ptrs w.1 (hg_edges w.2))) as [Q _]. specialize (Q (we_elems _ _ (i_edges _ I)) p Hp).
  apply (wh_eobjs _ (i_heap _ I)) in Q as [e E]. unfold srcs, dsts, at_edge. by rewrite E, (ev_edges _ _ V p e E).
Qed.
Lemma remove_node_cix grow w p n : cinv w -> cix (h_remove_node grow w p n).1.1 (hg_edges (h_remove_node grow w p n).1.2).
Proof.
  destruct w as [h g]. intros [I X]. unfold h_remove_node, h_nodes_remove.
  destruct (h_nodes_remove_loop_spec h (hg_nodes g) n (i_heap _ I) (i_nodes _ I) _ [] eq_refl) as (s & E1 & E2 & E3 & E4 & E5).
  cbn [length] in *. destruct (h_nodes_remove_loop h (hg_nodes g) n 0 (elems (narrs h) (hn_nodes (hg_nodes g)))) as [[h1 ns] r]. cbn [fst snd] in *. subst h1.
  destruct r as [e|]; [eapply cix_frame; [| |exact X]; done|].
  match goal with |- context [h_filter_edges grow ?k ?h1 ?l] => pose proof (h_filter_edges_cix grow k h1 (h_with_nodes g ns)) as K end.
  cbn [hg_edges h_with_nodes] in K. match goal with |- context [h_filter_edges grow ?k ?h1 ?l] => destruct (h_filter_edges grow k h1 l) as [h2 es] end.
  cbn [fst snd hg_edges h_with_edges] in *. apply K.
  - destruct I as [[? ? ? ? ? ?] J2 J3 J4 J5 J6]. constructor; cbn in *.
    + by constructor.
    + done.
    + by destruct J3; constructor.
    + done.
    + intros a l R. apply (J5 a). by destruct a.
    + intros a b l R1 R2. apply (J6 a b l); by destruct a, b.
  - eapply cix_frame; [| |exact X]; done.
Qed.
Lemma remove_nodes_loop_cinv grow p l : forall w, cinv w -> cinv (h_remove_nodes_loop grow w p l).1.
Proof.
  induction l as [|c l IH]; intros w I; cbn; [done|].
  pose proof (remove_node_cix grow w p c I) as K. destruct (remove_node_sim grow w p c (proj1 I)) as (J & _ & _).
  destruct (h_remove_node grow w p c) as [w1 [e|]]; cbn [fst] in *; [by split|]. apply IH. by split.
Qed.
Lemma remove_subgraph_cix grow o w p n : cinv w -> cix (h_remove_subgraph grow o w p n).1.1 (hg_edges (h_remove_subgraph grow o w p n).1.2).
Proof.
  intros I. unfold h_remove_subgraph. set (l := o_names o 0 _).
  pose proof (remove_nodes_loop_cinv grow p l w I) as K.
  destruct (h_remove_nodes_loop grow w p l) as [w1 [e|]]; cbn [fst] in *; [by destruct w1, K|]. destruct w1 as [h1 g1]. destruct K as [K1 K2]. cbn [fst snd] in K1, K2.
  cbn [hg_edges h_with_subs h_with_rels].
  match goal with |- context [h_filter_edges grow ?k ?h1 ?l] => pose proof (h_filter_edges_cix grow k h1 g1 K1 K2) as Q; destruct (h_filter_edges grow k h1 l) as [h2 es] end.
  exact Q.
Qed.
Lemma add_port_edge_cix grow o w s sp d dp dir m : cinv w ->
  cix (h_add_port_edge grow o w s sp d dp dir m).1.1 (hg_edges (h_add_port_edge grow o w s sp d dp dir m).1.2).
Proof.
  destruct w as [h g]. intros [I X]. unfold h_add_port_edge. pose proof (new_attrs_maps h (o_attrs o 0 (arg h m))) as A.
  destruct (h_new_attrs h (o_attrs o 0 (arg h m))) as [h1 [l|e]]; cbn [fst] in *; rewrite A in *; clear A h1 || idtac.
  2:{ eapply cix_frame; [| |exact X]; done. }
  unfold alloc. set (e := EObj s sp d dp dir l). set (p := next (eobjs (with_maps h _))). set (h2 := with_eobjs _ _).
  assert (Old : forall q, q < next (eobjs h) -> at_edge h2 q = at_edge h q).
  { intros q Hq. unfold at_edge, h2; cbn. rewrite lookup_insert_ne; [done|]. unfold p; cbn. lia. }
  pose proof (proj1 (Forall_forall _ _) (we_elems _ _ (i_edges _ I))) as B. cbn [fst snd] in B.
  assert (X2 : cix h2 (hg_edges g)).
  { eapply cix_frame; [| |exact X]; [done|]. intros q Hq. unfold srcs, dsts. rewrite Old; [done|]. by apply B. }
  assert (W2 : wf_edges h2 (hg_edges g)).
  { destruct (i_edges _ I) as [W1 W2 W3 W4]. cbn [fst snd] in *. constructor; cbn; [done| | |].
    - eapply Forall_impl; [exact W2|]. unfold h2, p; cbn. intros q Hq. lia.
    - intros a inner b l' Ha Hb. eapply Forall_impl; [eapply W3; eassumption|]. unfold h2, p; cbn. intros q Hq. lia.
    - intros a inner b l' Ha Hb. eapply Forall_impl; [eapply W4; eassumption|]. unfold h2, p; cbn. intros q Hq. lia. }
  destruct (edges_add_cix grow h2 (hg_edges g) p) as [Q _]; [apply (i_heap _ I)|done|unfold h2, p; cbn; lia|done|].
  destruct (h_edges_add grow h2 (hg_edges g) p) as [h3 es]. exact Q.
Qed.
Lemma hexec_cix grow o c w : cinv w -> (forall l, arg_of c = Some l -> l < next (maps w.1)) ->
  cix (hexec grow o c w).1.1 (hg_edges (hexec grow o c w).1.2).
Proof.
  intros IX M. destruct (hexec_sim grow o c w (proj1 IX) M) as (J & _ & V). destruct IX as [I X].
  assert (FR : earrs (hexec grow o c w).1.1 = earrs w.1 -> hg_edges (hexec grow o c w).1.2 = hg_edges w.2 ->
    cix (hexec grow o c w).1.1 (hg_edges (hexec grow o c w).1.2)) by (intros FA FB; exact (cix_evolves w _ I V FA FB X)).
  destruct w as [h g]. destruct c as [b|b|n|s sp d dp dir m|s d dir m|p n m|p f v|p n m|p n|p n]; cbn [hexec] in *.
  1-3: exact X.
  - by apply add_port_edge_cix.
  - by apply add_port_edge_cix.
  - apply FR; clear FR V J M; cbn [fst snd]; unfold h_add_node; pose proof (new_attrs_maps h (o_attrs o 0 (arg h m))) as A;
      destruct (h_new_attrs h (o_attrs o 0 (arg h m))) as [h1 [l|e]]; cbn [fst] in *; rewrite A in *; try done; unfold h_nodes_add;
      destruct (hn_lookup (hg_nodes g) !! n) as [q|]; cbn [fst snd]; try done.
    + pose proof (extend_maps (with_maps h (maps h1)) (no_attrs (at_node (with_maps h (maps h1)) q)) (o_attrs o 1 (at_map (with_maps h (maps h1)) l))) as Em. by rewrite Em.
    + unfold alloc. by destruct (append1 grow (narrs (with_maps h (maps h1))) (hn_nodes (hg_nodes g)) (next (nobjs (with_maps h (maps h1))))).
    + unfold alloc. by destruct (append1 grow (narrs (with_maps h (maps h1))) (hn_nodes (hg_nodes g)) (next (nobjs (with_maps h (maps h1))))).
  - destruct (add_attr_maps (h, g) p f v) as [A1 A2]. cbn [fst snd] in *. apply FR; [by rewrite A1|by rewrite A2].
  - assert (E : earrs (h_subs_add h (hg_subs g) n).1 = earrs h) by (unfold h_subs_add; by destruct (hg_subs g !! n)).
    unfold h_add_subgraph in *. destruct (h_subs_add h (hg_subs g) n) as [h1 ss]. cbn [fst] in E. match type of FR with context [h_add_attrs_loop ?w1 ?n1 ?l1] => destruct (add_attrs_loop_maps n1 l1 w1) as [A1 A2]; set (r := h_add_attrs_loop w1 n1 l1) in * end.
    cbn [fst snd] in *. apply FR; [by rewrite A1|by rewrite A2].
  - by apply remove_node_cix.
  - by apply remove_subgraph_cix.
Qed.


(** ** From pointers to edges *)
Lemma filter_fmap_ptr (f : nat -> edge) (P : nat -> Prop) (Q : edge -> Prop) `{!forall p, Decision (P p)} `{!forall e, Decision (Q e)} L :
  (forall p, p ∈ L -> P p <-> Q (f p)) -> map f (filter P L) = filter Q (map f L).
Proof.
  induction L as [|p L IH]; intros E; [done|]. cbn [map]. rewrite !filter_cons. destruct (E p (elem_of_list_here _ _)) as [E1 E2].
  destruct (decide (P p)) as [Y|Y], (decide (Q (f p))) as [Z|Z]; cbn [map]; rewrite ?IH by (intros q Hq; apply E; by right); try done; exfalso; auto.
Qed.
Lemma lookup2_abs h m a b : lookup2 (abs_index h m) a b = map (abs_edge h) <$> (m !! a ≫= fun inner : gmap gostr (list nat) => inner !! b).
Proof. unfold lookup2, abs_index. rewrite lookup_fmap. destruct (m !! a) as [inner|]; [|done]. cbn. by rewrite lookup_fmap. Qed.
(** If the edges were in order and the pointers still are, the edges still are, whatever became of their attributes. *)
Lemma abs_edges_ok h h' es : edges_ok (abs_edges h es) -> cix h' es -> edges_ok (abs_edges h' es).
Proof.
  intros [O1 O2 O3 O4] [C1 C2].
  assert (K : forall m ka kb (ea eb : edge -> gostr) a b, coherent m ka kb (ptrs h' es) ->
    (forall p, ka p = ea (abs_edge h' p) /\ kb p = eb (abs_edge h' p)) ->
    lookup2 (abs_index h m) a b <> Some [] ->
    forall (Q : edge -> Prop) `{!forall e, Decision (Q e)}, (forall e, Q e <-> ea e = a /\ eb e = b) ->
    lookup2 (abs_index h' m) a b = nonempty (filter Q (edges_list (abs_edges h' es)))).
  { intros m ka kb ea eb a b C E Ne Q DQ HQ. pose proof (C a b) as Cab. rewrite lookup2_abs. cbn [edges_list abs_edges]. fold (ptrs h' es).
    rewrite <- (filter_fmap_ptr (abs_edge h') (two ka kb a b) Q).
    2:{ intros p _. rewrite HQ. unfold two. destruct (E p) as [<- <-]. done. }
    destruct (m !! a ≫= fun inner : gmap gostr (list nat) => inner !! b) as [l|] eqn:El; cbn [default fmap option_fmap option_map] in *.
    - rewrite <- Cab. rewrite lookup2_abs, El in Ne. cbn in Ne. unfold id. by destruct l.
    - by rewrite <- Cab. }
  constructor.
  - intros s d. apply (K _ (srcs h') (dsts h') e_src e_dst); [exact C1|done| |intros e; unfold between; tauto].
    intros H. pose proof (O1 s d) as O. cbn [src_to_dsts abs_edges] in O. rewrite H in O. by destruct (filter _ _).
  - intros s d. apply (K _ (dsts h') (srcs h') e_dst e_src); [exact C2|done| |intros e; unfold between; tauto].
    intros H. pose proof (O2 s d) as O. cbn [dst_to_srcs abs_edges] in O. rewrite H in O. by destruct (filter _ _).
  - intros s E. apply (O3 s). unfold abs_edges, abs_index in *. cbn [src_to_dsts] in *. rewrite lookup_fmap in *. destruct (he_s2d es !! s) as [m|]; [|done].
    cbn in *. injection E as E. f_equal. apply fmap_empty_iff in E as ->. apply fmap_empty.
  - intros s E. apply (O4 s). unfold abs_edges, abs_index in *. cbn [dst_to_srcs] in *. rewrite lookup_fmap in *. destruct (he_d2s es !! s) as [m|]; [|done].
    cbn in *. injection E as E. f_equal. apply fmap_empty_iff in E as ->. apply fmap_empty.
Qed.
