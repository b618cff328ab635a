(** Proofs for HeapEdit.v. *)
From Coq Require Import Lia.
From Verif Require Import Base Maps Graph SpecGraph MapFacts GraphProofs HeapGraph SpecHeap HeapProofs HeapSnap HeapEdit SpecHeapEdit.
From Verif Require Import Direct SpecDirect DirectProofs.

(** ** The index maps at the level of pointers *)
Definition ptrs (h : heap) (es : hedges) : list nat := elems (earrs h) (he_edges es).
Definition srcs (h : heap) (p : nat) : gostr := eo_src (at_edge h p).
Definition dsts (h : heap) (p : nat) : gostr := eo_dst (at_edge h p).
Definition two (ka kb : nat -> gostr) (a b : gostr) (p : nat) : Prop := ka p = a /\ kb p = b.
Global Instance two_dec ka kb a b p : Decision (two ka kb a b p).
Proof. unfold two. apply _. Defined.
Definition coherent (m : gmap gostr (gmap gostr (list nat))) (ka kb : nat -> gostr) (L : list nat) : Prop :=
  forall a b, default [] (m !! a ≫= fun inner : gmap gostr (list nat) => inner !! b) = filter (two ka kb a b) L.
Record eix (h : heap) (es : hedges) : Prop := {
  ex_nodup : NoDup (ptrs h es);
  ex_s2d : coherent (he_s2d es) (srcs h) (dsts h) (ptrs h es);
  ex_d2s : coherent (he_d2s es) (dsts h) (srcs h) (ptrs h es) }.

Lemma coherent_ext m ka kb ka' kb' L : (forall p, p ∈ L -> ka' p = ka p /\ kb' p = kb p) -> coherent m ka kb L -> coherent m ka' kb' L.
Proof.
  intros E C a b. rewrite (C a b). clear C. induction L as [|p L IH]; [done|]. rewrite !filter_cons.
  rewrite IH by (intros q Hq; apply E; by right). destruct (E p) as [E1 E2]; [by left|].
  destruct (decide (two ka kb a b p)) as [Y|Y], (decide (two ka' kb' a b p)) as [Z|Z]; try done; exfalso; unfold two in *; rewrite E1, E2 in *; done.
Qed.
Lemma eix_frame h h' es : earrs h' = earrs h -> (forall p, p ∈ ptrs h es -> srcs h' p = srcs h p /\ dsts h' p = dsts h p) -> eix h es -> eix h' es.
Proof.
  intros A E [X1 X2 X3]. assert (P : ptrs h' es = ptrs h es) by (unfold ptrs; by rewrite A). constructor; rewrite P.
  - done.
  - eapply coherent_ext; [|exact X2]. done.
  - eapply coherent_ext; [|exact X3]. intros p Hp. destruct (E p Hp). done.
Qed.
Lemma lookup_h_add2 m a b p a' b' :
  default [] (h_add2 m a b p !! a' ≫= fun inner : gmap gostr (list nat) => inner !! b')
  = default [] (m !! a' ≫= fun inner : gmap gostr (list nat) => inner !! b') ++ (if decide (a = a' /\ b = b') then [p] else []).
Proof.
  unfold h_add2. destruct (decide (a = a')) as [->|N].
  - rewrite lookup_insert. cbn. destruct (decide (b = b')) as [->|N'].
    + rewrite lookup_insert. cbn. rewrite decide_True by done. f_equal. destruct (m !! a') as [inner|]; [done|]. cbn. by rewrite lookup_empty.
    + rewrite lookup_insert_ne by done. rewrite decide_False by (intros [_ ?]; done). rewrite app_nil_r.
      destruct (m !! a') as [inner|]; [done|]. cbn. by rewrite lookup_empty.
  - rewrite lookup_insert_ne by done. rewrite decide_False by (intros [? _]; done). by rewrite app_nil_r.
Qed.
Lemma coherent_add m ka kb L p : coherent m ka kb L -> coherent (h_add2 m (ka p) (kb p) p) ka kb (L ++ [p]).
Proof.
  intros C a b. rewrite lookup_h_add2, (C a b), filter_app. apply (f_equal (app _)). rewrite filter_cons, filter_nil.
  destruct (decide (ka p = a /\ kb p = b)) as [Y|Y], (decide (two ka kb a b p)) as [Z|Z]; try done; by exfalso.
Qed.
Lemma edges_add_eix grow h es p : swf (earrs h) -> wf_edges h es -> p < next (eobjs h) -> p ∉ ptrs h es -> eix h es ->
  let r := h_edges_add grow h es p in eix r.1 r.2 /\ ptrs r.1 r.2 = ptrs h es ++ [p].
Proof.
  intros S W P N [X1 X2 X3]. pose proof (append1_spec grow (earrs h) (he_edges es) p S (we_slice _ _ W)) as (_ & _ & A3).
  unfold h_edges_add. destruct (append1 grow (earrs h) (he_edges es) p) as [s x]. cbn [fst snd] in *. unfold ptrs at 2. cbn [earrs with_earrs he_edges].
  split; [|done]. constructor; unfold ptrs; cbn [earrs with_earrs he_edges he_s2d he_d2s]; rewrite A3.
  - apply NoDup_app. split; [done|]. split; [|by apply NoDup_singleton]. intros q Hq Hq'. apply elem_of_list_singleton in Hq' as ->. done.
  - apply (coherent_add _ (srcs h) (dsts h)). exact X2.
  - apply (coherent_add _ (dsts h) (srcs h)). exact X3.
Qed.
Lemma filter_edges_eix grow (keep : eobj -> bool) h0 ps : NoDup ps -> Forall (fun p => p < next (eobjs h0)) ps ->
  forall s es, let h := with_earrs h0 s in swf s -> wf_edges h es -> eix h es -> (forall p, p ∈ ps -> p ∉ ptrs h es) ->
  let r := fold_left (fun acc p => if keep (at_edge acc.1 p) then h_edges_add grow acc.1 acc.2 p else acc) ps (h, es) in eix r.1 r.2.
Proof.
  intros ND. induction ps as [|p ps IH]; intros F s es h S W X D r; [done|].
  subst r. inversion F as [|? ? F1 F2]; subst. apply NoDup_cons in ND as [N1 N2]. cbn [fold_left fst snd].
  destruct (keep (at_edge h p)).
  - destruct (h_edges_add_spec grow h es p S W F1) as (s1 & x & E1 & E2 & E3 & E4 & _).
    destruct (edges_add_eix grow h es p S W F1 (D p (elem_of_list_here _ _)) X) as [X1 P1].
    rewrite E1 in *. cbn [fst snd] in *. apply (IH N2 F2 s1 _ E3 E4 X1). intros q Hq. unfold h in *.
    change (with_earrs (with_earrs h0 s) s1) with (with_earrs h0 s1) in P1. rewrite P1. intros H. apply elem_of_app in H as [H|H].
    + by apply (D q); [right|].
    + apply elem_of_list_singleton in H as ->. done.
  - apply (IH N2 F2 s es S W X). intros q Hq. apply D. by right.
Qed.
Lemma h_filter_edges_eix grow keep h g : inv (h, g) -> eix h (hg_edges g) ->
  let r := h_filter_edges grow keep h (elems (earrs h) (he_edges (hg_edges g))) in eix r.1 r.2.
Proof.
  intros I X r. unfold h_filter_edges, h_new_edges in r.
  change (alloc (earrs h) []) with ((alloc (earrs h) []).1, next (earrs h)) in r. cbn [fst snd] in r.
  apply filter_edges_eix.
  - apply X.
  - apply (we_elems _ _ (i_edges _ I)).
  - apply swf_alloc; apply (i_heap _ I).
  - constructor; cbn; [split; cbn; [lia|apply Nat.le_0_l]|constructor| |]; intros a inner b l Ha; by rewrite lookup_empty in Ha.
  - constructor; unfold ptrs; cbn; [constructor| |]; intros a b; by rewrite lookup_empty.
  - intros p _. unfold ptrs; cbn. apply not_elem_of_nil.
Qed.

(** ** The calls *)
Definition xinv (w : world) : Prop := inv w /\ eix w.1 (hg_edges w.2).
Lemma eix_evolves w w' : inv w -> evolves w w' -> earrs w'.1 = earrs w.1 -> hg_edges w'.2 = hg_edges w.2 -> eix w.1 (hg_edges w.2) -> eix w'.1 (hg_edges w'.2).
Proof.
  intros I V A B X. rewrite B. eapply eix_frame; [exact A| |exact X]. intros p Hp.
  pose proof (Forall_forall (fun p => p < next (eobjs w.1)) (ptrs w.1 (hg_edges w.2))) as [Q _]. specialize (Q (we_elems _ _ (i_edges _ I)) p Hp).
  apply (wh_eobjs _ (i_heap _ I)) in Q as [e E]. unfold srcs, dsts, at_edge. by rewrite E, (ev_edges _ _ V p e E).
Qed.
Lemma remove_node_eix grow w p n : xinv w -> eix (h_remove_node grow w p n).1.1 (hg_edges (h_remove_node grow w p n).1.2).
Proof.
  destruct w as [h g]. intros [I X]. unfold h_remove_node, h_nodes_remove.
  destruct (h_nodes_remove_loop_spec h (hg_nodes g) n (i_heap _ I) (i_nodes _ I) _ [] eq_refl) as (s & E1 & E2 & E3 & E4 & E5).
  cbn [length] in *. destruct (h_nodes_remove_loop h (hg_nodes g) n 0 (elems (narrs h) (hn_nodes (hg_nodes g)))) as [[h1 ns] r]. cbn [fst snd] in *. subst h1.
  destruct r as [e|]; [eapply eix_frame; [| |exact X]; done|].
  match goal with |- context [h_filter_edges grow ?k ?h1 ?l] => pose proof (h_filter_edges_eix grow k h1 (h_with_nodes g ns)) as K end.
  cbn [hg_edges h_with_nodes] in K. match goal with |- context [h_filter_edges grow ?k ?h1 ?l] => destruct (h_filter_edges grow k h1 l) as [h2 es] end.
  cbn [fst snd hg_edges h_with_edges] in *. apply K.
  - destruct I as [[? ? ? ? ? ?] J2 J3 J4 J5 J6]. constructor; cbn in *.
    + by constructor.
    + done.
    + by destruct J3; constructor.
    + done.
    + intros a l R. apply (J5 a). by destruct a.
    + intros a b l R1 R2. apply (J6 a b l); by destruct a, b.
  - eapply eix_frame; [| |exact X]; done.
Qed.
Lemma remove_nodes_loop_xinv grow p l : forall w, xinv w -> xinv (h_remove_nodes_loop grow w p l).1.
Proof.
  induction l as [|c l IH]; intros w I; cbn; [done|].
  pose proof (remove_node_eix grow w p c I) as K. destruct (remove_node_sim grow w p c (proj1 I)) as (J & _ & _).
  destruct (h_remove_node grow w p c) as [w1 [e|]]; cbn [fst] in *; [by split|]. apply IH. by split.
Qed.
Lemma remove_subgraph_eix grow o w p n : xinv w -> eix (h_remove_subgraph grow o w p n).1.1 (hg_edges (h_remove_subgraph grow o w p n).1.2).
Proof.
  intros I. unfold h_remove_subgraph. set (l := o_names o 0 _).
  pose proof (remove_nodes_loop_xinv grow p l w I) as K.
  destruct (h_remove_nodes_loop grow w p l) as [w1 [e|]]; cbn [fst] in *; [by destruct w1, K|]. destruct w1 as [h1 g1]. destruct K as [K1 K2]. cbn [fst snd] in K1, K2.
  cbn [hg_edges h_with_subs h_with_rels].
  match goal with |- context [h_filter_edges grow ?k ?h1 ?l] => pose proof (h_filter_edges_eix grow k h1 g1 K1 K2) as Q; destruct (h_filter_edges grow k h1 l) as [h2 es] end.
  exact Q.
Qed.
Lemma add_port_edge_eix grow o w s sp d dp dir m : xinv w ->
  eix (h_add_port_edge grow o w s sp d dp dir m).1.1 (hg_edges (h_add_port_edge grow o w s sp d dp dir m).1.2).
Proof.
  destruct w as [h g]. intros [I X]. unfold h_add_port_edge. pose proof (new_attrs_maps h (o_attrs o 0 (arg h m))) as A.
  destruct (h_new_attrs h (o_attrs o 0 (arg h m))) as [h1 [l|e]]; cbn [fst] in *; rewrite A in *; clear A h1 || idtac.
  2:{ eapply eix_frame; [| |exact X]; done. }
  unfold alloc. set (e := EObj s sp d dp dir l). set (p := next (eobjs (with_maps h _))). set (h2 := with_eobjs _ _).
  assert (Old : forall q, q < next (eobjs h) -> at_edge h2 q = at_edge h q).
  { intros q Hq. unfold at_edge, h2; cbn. rewrite lookup_insert_ne; [done|]. unfold p; cbn. lia. }
  pose proof (proj1 (Forall_forall _ _) (we_elems _ _ (i_edges _ I))) as B. cbn [fst snd] in B.
  assert (X2 : eix h2 (hg_edges g)).
  { eapply eix_frame; [| |exact X]; [done|]. intros q Hq. unfold srcs, dsts. rewrite Old; [done|]. by apply B. }
  assert (W2 : wf_edges h2 (hg_edges g)).
  { destruct (i_edges _ I) as [W1 W2 W3 W4]. cbn [fst snd] in *. constructor; cbn; [done| | |].
    - eapply Forall_impl; [exact W2|]. unfold h2, p; cbn. intros q Hq. lia.
    - intros a inner b l' Ha Hb. eapply Forall_impl; [eapply W3; eassumption|]. unfold h2, p; cbn. intros q Hq. lia.
    - intros a inner b l' Ha Hb. eapply Forall_impl; [eapply W4; eassumption|]. unfold h2, p; cbn. intros q Hq. lia. }
  destruct (edges_add_eix grow h2 (hg_edges g) p) as [Q _]; [apply (i_heap _ I)|done|unfold h2, p; cbn; lia| |done|].
  { intros H. apply B in H. unfold p in H; cbn in H. lia. }
  destruct (h_edges_add grow h2 (hg_edges g) p) as [h3 es]. exact Q.
Qed.
Lemma hexec_eix grow o c w : xinv w -> (forall l, arg_of c = Some l -> l < next (maps w.1)) ->
  eix (hexec grow o c w).1.1 (hg_edges (hexec grow o c w).1.2).
Proof.
  intros IX M. destruct (hexec_sim grow o c w (proj1 IX) M) as (J & _ & V). destruct IX as [I X].
  assert (FR : earrs (hexec grow o c w).1.1 = earrs w.1 -> hg_edges (hexec grow o c w).1.2 = hg_edges w.2 ->
    eix (hexec grow o c w).1.1 (hg_edges (hexec grow o c w).1.2)) by (intros FA FB; exact (eix_evolves w _ I V FA FB X)).
  destruct w as [h g]. destruct c as [b|b|n|s sp d dp dir m|s d dir m|p n m|p f v|p n m|p n|p n]; cbn [hexec] in *.
  1-3: exact X.
  - by apply add_port_edge_eix.
  - by apply add_port_edge_eix.
  - apply FR; clear FR V J M; cbn [fst snd]; unfold h_add_node; pose proof (new_attrs_maps h (o_attrs o 0 (arg h m))) as A;
      destruct (h_new_attrs h (o_attrs o 0 (arg h m))) as [h1 [l|e]]; cbn [fst] in *; rewrite A in *; try done; unfold h_nodes_add;
      destruct (hn_lookup (hg_nodes g) !! n) as [q|]; cbn [fst snd]; try done.
    + pose proof (extend_maps (with_maps h (maps h1)) (no_attrs (at_node (with_maps h (maps h1)) q)) (o_attrs o 1 (at_map (with_maps h (maps h1)) l))) as Em. by rewrite Em.
    + unfold alloc. by destruct (append1 grow (narrs (with_maps h (maps h1))) (hn_nodes (hg_nodes g)) (next (nobjs (with_maps h (maps h1))))).
    + unfold alloc. by destruct (append1 grow (narrs (with_maps h (maps h1))) (hn_nodes (hg_nodes g)) (next (nobjs (with_maps h (maps h1))))).
  - destruct (add_attr_maps (h, g) p f v) as [A1 A2]. cbn [fst snd] in *. apply FR; [by rewrite A1|by rewrite A2].
  - assert (E : earrs (h_subs_add h (hg_subs g) n).1 = earrs h) by (unfold h_subs_add; by destruct (hg_subs g !! n)).
    unfold h_add_subgraph in *. destruct (h_subs_add h (hg_subs g) n) as [h1 ss]. cbn [fst] in E. match type of FR with context [h_add_attrs_loop ?w1 ?n1 ?l1] => destruct (add_attrs_loop_maps n1 l1 w1) as [A1 A2]; set (r := h_add_attrs_loop w1 n1 l1) in * end.
    cbn [fst snd] in *. apply FR; [by rewrite A1|by rewrite A2].
  - by apply remove_node_eix.
  - by apply remove_subgraph_eix.
Qed.

(** ** One edge object is changed *)
Lemma list_map_insert_mid {A} (f f' : nat -> A) (P : nat -> Prop) `{!forall p, Decision (P p)} L i p e' : NoDup L -> L !! i = Some p -> P p ->
  (forall q, q ∈ L -> q <> p -> f' q = f q) -> f' p = e' ->
  map f' (filter P L) = <[length (filter P (take i L)) := e']> (map f (filter P L)).
Proof.
  intros ND Hi Pp E Ep. pose proof (take_drop_middle L i p Hi) as T. rewrite <- T in ND, E.
  set (l1 := take i L) in *. set (l2 := drop (S i) L) in *. rewrite <- T. clear T Hi. clearbody l1 l2.
  apply NoDup_app in ND as (N1 & N2 & N3). apply NoDup_cons in N3 as [N3 N4].
  rewrite filter_app, filter_cons_True by done. rewrite !map_app. cbn [map].
  assert (X1 : map f' (filter P l1) = map f (filter P l1)).
  { apply map_ext_Forall. apply Forall_forall. intros q Hq. apply elem_of_list_filter in Hq as [_ Hq]. apply E; [apply elem_of_app; by left|].
    intros ->. apply (N2 p Hq). left. }
  assert (X2 : map f' (filter P l2) = map f (filter P l2)).
  { apply map_ext_Forall. apply Forall_forall. intros q Hq. apply elem_of_list_filter in Hq as [_ Hq].
    apply E; [apply elem_of_app; right; by right|]. by intros ->. }
  rewrite X1, X2, Ep. set (k := map f (filter P l1)). assert (K : length (filter P l1) = length k + 0) by (unfold k; rewrite map_length; lia).
  rewrite K, insert_app_r. done.
Qed.
Lemma index_set m ka kb L i p (f f' : nat -> edge) e' : coherent m ka kb L -> NoDup L -> L !! i = Some p ->
  (forall q, q ∈ L -> q <> p -> f' q = f q) -> f' p = e' ->
  (fun inner : gmap gostr (list nat) => map f' <$> inner) <$> m
  = set2 ((fun inner : gmap gostr (list nat) => map f <$> inner) <$> m) (ka p) (kb p) (length (filter (two ka kb (ka p) (kb p)) (take i L))) e'.
Proof.
  intros C ND Hi E Ep. assert (Hp : p ∈ filter (two ka kb (ka p) (kb p)) L) by (apply elem_of_list_filter; split; [done|by eapply elem_of_list_lookup_2]).
  pose proof (C (ka p) (kb p)) as CC. destruct (m !! ka p) as [inner|] eqn:Em; cbn in CC; [|rewrite <- CC in Hp; by apply elem_of_nil in Hp].
  destruct (inner !! kb p) as [l|] eqn:El; cbn in CC; [|rewrite <- CC in Hp; by apply elem_of_nil in Hp]. subst l.
  assert (Other : forall a b inner' l, m !! a = Some inner' -> inner' !! b = Some l -> (a, b) <> (ka p, kb p) -> map f' l = map f l).
  { intros a b inner' l Ha Hb N. pose proof (C a b) as Cab. rewrite Ha in Cab. cbn in Cab. rewrite Hb in Cab. cbn in Cab. subst l.
    apply map_ext_Forall. apply Forall_forall. intros q Hq. apply elem_of_list_filter in Hq as [[Q1 Q2] Hq]. apply E; [done|]. intros ->. by rewrite Q1, Q2 in N. }
  unfold set2. rewrite lookup_fmap, Em. cbn [fmap option_fmap option_map default from_option id]. rewrite lookup_fmap, El. cbn [fmap option_fmap option_map default from_option id].
  apply map_eq. intros a. rewrite lookup_fmap. destruct (decide (a = ka p)) as [->|Na].
  - rewrite lookup_insert, Em. cbn. f_equal. apply map_eq. intros b. rewrite lookup_fmap. destruct (decide (b = kb p)) as [->|Nb].
    + rewrite lookup_insert, El. cbn. f_equal. by apply (list_map_insert_mid f f' _ L i p e').
    + rewrite lookup_insert_ne by done. rewrite lookup_fmap. destruct (inner !! b) as [l|] eqn:Eb; [|done]. cbn. f_equal. eapply Other; [exact Em|exact Eb|]. by intros [= ?].
  - rewrite lookup_insert_ne by done. rewrite lookup_fmap. destruct (m !! a) as [inner'|] eqn:Ea; [|done]. cbn. f_equal. apply map_fmap_ext.
    intros b l Hb. eapply Other; [exact Ea|exact Hb|]. by intros [= ? ?].
Qed.
Lemma abs_edges_set h h' es i p e' : wf_edges h es -> eix h es -> earrs h' = earrs h -> ptrs h es !! i = Some p ->
  (forall q, q < next (eobjs h) -> q <> p -> abs_edge h' q = abs_edge h q) -> abs_edge h' p = e' ->
  e_src e' = srcs h p -> e_dst e' = dsts h p ->
  abs_edges h' es = edges_set (abs_edges h es) i e'.
Proof.
  intros W [X1 X2 X3] A Hi E Ep Es Ed. pose proof (proj1 (Forall_forall _ _) (we_elems _ _ W)) as B. cbn beta in B.
  assert (E' : forall q, q ∈ ptrs h es -> q <> p -> abs_edge h' q = abs_edge h q) by (intros q Hq; apply E, B, Hq).
  assert (J : forall ka kb, (forall q, two ka kb (ka p) (kb p) q <-> srcs h q = srcs h p /\ dsts h q = dsts h p) ->
    length (List.filter (same_ends e') (take i (edges_list (abs_edges h es)))) = length (filter (two ka kb (ka p) (kb p)) (take i (ptrs h es)))).
  { intros ka kb K. cbn [edges_list abs_edges]. fold (ptrs h es). change (map (abs_edge h) (ptrs h es)) with (abs_edge h <$> ptrs h es). rewrite <- fmap_take. generalize (take i (ptrs h es)).
    induction l as [|q l IH]; [done|]. rewrite fmap_cons, filter_cons. cbn [List.filter].
    assert (T : same_ends e' (abs_edge h q) = true <-> two ka kb (ka p) (kb p) q).
    { rewrite same_ends_true, K. unfold between. rewrite Es, Ed. unfold srcs, dsts. cbn. done. }
    destruct (same_ends e' (abs_edge h q)), (decide (two ka kb (ka p) (kb p) q)) as [Y|Y]; cbn [length]; rewrite ?IH; try done.
    - exfalso. apply Y. by apply T.
    - exfalso. apply T in Y. done. }
  unfold abs_edges at 1, edges_set. rewrite A. f_equal.
  - rewrite (J (srcs h) (dsts h)) by done. rewrite Es, Ed. unfold abs_edges, abs_index; cbn [src_to_dsts]. by apply index_set.
  - rewrite (J (dsts h) (srcs h)) by (intros q; unfold two; tauto). rewrite Es, Ed. unfold abs_edges, abs_index; cbn [dst_to_srcs]. by apply index_set.
  - cbn [edges_list abs_edges]. fold (ptrs h es). apply list_eq. intros j. change (map (abs_edge h') (ptrs h es)) with (abs_edge h' <$> ptrs h es). change (map (abs_edge h) (ptrs h es)) with (abs_edge h <$> ptrs h es). rewrite list_lookup_fmap.
    destruct (decide (j = i)) as [->|N].
    + rewrite list_lookup_insert by (rewrite fmap_length; by eapply lookup_lt_Some). rewrite Hi. cbn. by rewrite Ep.
    + rewrite list_lookup_insert_ne by done. rewrite list_lookup_fmap. destruct (ptrs h es !! j) as [q|] eqn:Hj; [|done]. cbn. f_equal. apply E'; [by eapply elem_of_list_lookup_2|].
      intros ->. apply N. by eapply NoDup_lookup.
Qed.
Lemma coherent_in m ka kb L a b inner l q : coherent m ka kb L -> m !! a = Some inner -> inner !! b = Some l -> q ∈ l -> q ∈ L.
Proof.
  intros C Ha Hb Hq. pose proof (C a b) as Cab. rewrite Ha in Cab. cbn in Cab. rewrite Hb in Cab. cbn in Cab. subst l.
  by apply elem_of_list_filter in Hq as [_ Hq].
Qed.
Lemma abs_edges_dead h h' es p : eix h es -> earrs h' = earrs h -> p ∉ ptrs h es ->
  (forall q, q ∈ ptrs h es -> q <> p -> abs_edge h' q = abs_edge h q) -> abs_edges h' es = abs_edges h es.
Proof.
  intros [X1 X2 X3] A N E. assert (E' : forall q, q ∈ ptrs h es -> abs_edge h' q = abs_edge h q) by (intros q Hq; apply E; [done|by intros ->]).
  unfold abs_edges. rewrite A. f_equal.
  - unfold abs_index. apply map_fmap_ext. intros a inner Ha. apply map_fmap_ext. intros b l Hb. apply map_ext_Forall, Forall_forall.
    intros q Hq. apply E'. by eapply (coherent_in _ _ _ _ a b inner l q X2).
  - unfold abs_index. apply map_fmap_ext. intros a inner Ha. apply map_fmap_ext. intros b l Hb. apply map_ext_Forall, Forall_forall.
    intros q Hq. apply E'. by eapply (coherent_in _ _ _ _ a b inner l q X3).
  - apply map_ext_Forall, Forall_forall. exact E'.
Qed.

(** ** Edits *)
Lemma upd_xinv h g x l m : xinv (h, g) -> ref h g x = Some l -> xinv (upd h l m, g).
Proof.
  intros [I X] R. split.
  - apply inv_maps; [done|apply swf_put; [apply (i_heap _ I)|by apply (i_bound _ I) in R]|done].
  - cbn [fst snd]. eapply eix_frame; [| |exact X]; done.
Qed.
Lemma upd_others h g x l m : inv (h, g) -> ref h g x = Some l -> forall y l', ref h g y = Some l' -> y <> x -> at_map (upd h l m) l' = at_map h l'.
Proof. intros I R y l' R' N. apply at_map_upd_ne. intros ->. apply N. by apply (i_inj _ I y x l). Qed.
Lemma abs_upd_edge h g p e i m : xinv (h, g) -> cells (eobjs h) !! p = Some e -> ptrs h (hg_edges g) !! i = Some p ->
  abs (upd h (eo_attrs e) m, g) = with_edges (abs (h, g)) (edges_set (g_edges (abs (h, g))) i
    (Edge (eo_src e) (eo_src_port e) (eo_dst e) (eo_dst_port e) (eo_dir e) m)).
Proof.
  intros [I X] He Hi. cbn [fst snd] in X. assert (R : ref h g (OEdge p) = Some (eo_attrs e)) by (cbn; by rewrite He).
  pose proof (upd_others h g _ _ m I R) as K. assert (Ae : at_edge h p = e) by (unfold at_edge; by rewrite He).
  unfold abs, with_edges; cbn. f_equal.
  - by apply (K OGraph).
  - apply abs_nodes_ext; [done..|]. intros q n Hq. apply (K (ONode q)); [cbn; by rewrite Hq|done].
  - apply (abs_edges_set h _ _ i p); [apply (i_edges _ I)|done|done|done| | | |].
    + intros q Hq Nq. apply abs_edge_ext; [done|]. apply (wh_eobjs _ (i_heap _ I)) in Hq as [e' He']. cbn in He'. unfold at_edge. rewrite He'; cbn.
      apply (K (OEdge q)); [cbn; by rewrite He'|congruence].
    + unfold abs_edge. change (at_edge (upd h (eo_attrs e) m) p) with (at_edge h p). rewrite Ae, at_map_upd. done.
    + unfold srcs. by rewrite Ae.
    + unfold dsts. by rewrite Ae.
  - apply abs_subs_ext; [apply (i_subs _ I)|]. intros n q l' Hn Hq. split; [done|]. apply (K (OSub q)); [cbn; by rewrite Hq|done].
Qed.
Lemma abs_upd_edge_dead h g p e m : xinv (h, g) -> cells (eobjs h) !! p = Some e -> p ∉ ptrs h (hg_edges g) ->
  abs (upd h (eo_attrs e) m, g) = abs (h, g).
Proof.
  intros [I X] He Hi. cbn [fst snd] in X. assert (R : ref h g (OEdge p) = Some (eo_attrs e)) by (cbn; by rewrite He).
  pose proof (upd_others h g _ _ m I R) as K.
  unfold abs; cbn. f_equal.
  - by apply (K OGraph).
  - apply abs_nodes_ext; [done..|]. intros q n Hq. apply (K (ONode q)); [cbn; by rewrite Hq|done].
  - apply (abs_edges_dead h _ _ p); [done|done|done|].
    intros q Hq Nq. apply (proj1 (Forall_forall _ _) (we_elems _ _ (i_edges _ I))) in Hq. cbn in Hq.
    apply abs_edge_ext; [done|]. apply (wh_eobjs _ (i_heap _ I)) in Hq as [e' He']. cbn in He'. unfold at_edge. rewrite He'; cbn.
    apply (K (OEdge q)); [cbn; by rewrite He'|congruence].
  - apply abs_subs_ext; [apply (i_subs _ I)|]. intros n q l' Hn Hq. split; [done|]. apply (K (OSub q)); [cbn; by rewrite Hq|done].
Qed.
Lemma abs_upd_sub_dead h g p l m : inv (h, g) -> ref h g (OSub p) = Some l -> (forall n, hg_subs g !! n <> Some p) -> abs (upd h l m, g) = abs (h, g).
Proof.
  intros I R N. pose proof (upd_others h g _ _ m I R) as K. unfold abs; cbn. f_equal.
  - by apply (K OGraph).
  - apply abs_nodes_ext; [done..|]. intros q n Hq. apply (K (ONode q)); [cbn; by rewrite Hq|done].
  - apply abs_edges_ext; [apply (i_edges _ I)|done|]. intros q Hq. apply abs_edge_ext; [done|]. apply (wh_eobjs _ (i_heap _ I)) in Hq as [e' He']. cbn in He'.
    unfold at_edge. rewrite He'; cbn. apply (K (OEdge q)); [cbn; by rewrite He'|done].
  - apply abs_subs_ext; [apply (i_subs _ I)|]. intros n q l' Hn Hq. split; [done|]. apply (K (OSub q)); [cbn; by rewrite Hq|]. intros [= ->]. by apply (N n).
Qed.
(** The map of [x] is changed as the operation says. *)
Lemma abs_upd_stands o op h g x l t : xinv (h, g) -> ref h g x = Some l -> stands (h, g) x t ->
  possible (abs (h, g)) (DAttrs t op) /\
  (abs (upd h l (exec_attr o op (at_map h l)).1, g), (exec_attr o op (at_map h l)).2) = exec_direct o (DAttrs t op) (abs (h, g)).
Proof.
  intros [I X] R S. inversion S as [|p|p n Hn|p i Hi]; subst x t; cbn [possible exec_direct].
  - injection R as <-. split; [done|]. rewrite abs_upd_graph by done. change (g_attrs (abs (h, g))) with (at_map h (hg_attrs g)).
    by destruct (exec_attr o op (at_map h (hg_attrs g))).
  - cbn in R. destruct (cells (nobjs h) !! p) as [nd|] eqn:E; [|done]. injection R as <-.
    split; [cbn; rewrite lookup_fmap, E; by eexists|]. change (g_nodes (abs (h, g))) with (abs_nodes h (hg_nodes g)).
    rewrite (deref_abs h (hg_nodes g) p nd E). rewrite (abs_upd_node h _ g p nd I E). cbn [node_attrs abs_node].
    destruct (exec_attr o op (at_map h (no_attrs nd))) as [a r]. cbn [fst snd]. unfold nodes_set_attrs.
    rewrite (deref_abs h (hg_nodes g) p nd E). done.
  - cbn in Hn, R. destruct (i_subs _ I n p Hn) as [l' E]. cbn in E. rewrite E in R. injection R as <-.
    assert (L : g_subs (abs (h, g)) !! n = Some (Sub (at_map h l') n)) by (cbn; unfold abs_subs; rewrite lookup_fmap, Hn; cbn; unfold abs_sub, at_sub; by rewrite E).
    split; [rewrite L; by eexists|]. rewrite L. cbn [sub_attrs sub_name so_attrs]. rewrite (abs_upd_sub h _ g n p l' I Hn E).
    by destruct (exec_attr o op (at_map h l')).
  - cbn in Hi, R. destruct (cells (eobjs h) !! p) as [e|] eqn:E; [|done]. injection R as <-.
    assert (L : edges_list (g_edges (abs (h, g))) !! i = Some (Edge (eo_src e) (eo_src_port e) (eo_dst e) (eo_dst_port e) (eo_dir e) (at_map h (eo_attrs e)))).
    { cbn. rewrite list_lookup_fmap, Hi. cbn. unfold abs_edge, at_edge. by rewrite E. }
    split; [rewrite L; by eexists|]. rewrite L. cbn [e_attrs e_src e_src_port e_dst e_dst_port e_dir].
    rewrite (abs_upd_edge h g p e i _ (conj I X) E Hi). by destruct (exec_attr o op (at_map h (eo_attrs e))).
Qed.
Lemma abs_upd_dead h g x l m : xinv (h, g) -> ref h g x = Some l -> (forall t, ~ stands (h, g) x t) -> abs (upd h l m, g) = abs (h, g).
Proof.
  intros IX R N. destruct x as [|p|p|p].
  - destruct (N TGraph). constructor.
  - destruct (N (TPtr p)). constructor.
  - cbn in R. destruct (cells (eobjs h) !! p) as [e|] eqn:E; [|done]. injection R as <-. apply (abs_upd_edge_dead h g p e); [done|done|].
    intros H. apply elem_of_list_lookup in H as [i Hi]. apply (N (TEdge i)). by constructor.
  - apply (abs_upd_sub_dead h g p l m (proj1 IX) R). intros n Hn. apply (N (TSub n)). by constructor.
Qed.

(** *** A new map *)
Lemma ref_set_ref h g x l y : is_Some (ref h g x) ->
  ref (set_ref (h, g) x l).1 (set_ref (h, g) x l).2 y = if decide (y = x) then Some l else ref h g y.
Proof.
  intros R. destruct x as [|p|p|p]; cbn [set_ref fst snd].
  - destruct y; cbn; try done.
  - destruct y as [|q|q|q]; cbn; try done. destruct (decide (ONode q = ONode p)) as [[= ->]|N]; [by rewrite lookup_insert|]. rewrite lookup_insert_ne by congruence. done.
  - destruct y as [|q|q|q]; cbn; try done. destruct (decide (OEdge q = OEdge p)) as [[= ->]|N]; [by rewrite lookup_insert|]. rewrite lookup_insert_ne by congruence. done.
  - destruct y as [|q|q|q]; cbn; try done. destruct (decide (OSub q = OSub p)) as [[= ->]|N]; [by rewrite lookup_insert|]. rewrite lookup_insert_ne by congruence. done.
Qed.
Lemma at_map_set_ref h g x l : maps (set_ref (h, g) x l).1 = maps h.
Proof. by destruct x. Qed.
Lemma set_ref_xinv h g x l : xinv (h, g) -> is_Some (ref h g x) -> l < next (maps h) -> (forall y, ref h g y <> Some l) -> xinv (set_ref (h, g) x l).
Proof.
  intros [I X] R L N. cbn [fst snd] in X. destruct I as [[W1 W2 W3 W4 W5 W6] I2 I3 I4 I5 I6]. cbn [fst snd] in *. split.
  - constructor.
    + destruct R as [l0 R]. destruct x as [|p|p|p]; cbn in R |- *; constructor; cbn; try done; apply swf_put; try done.
      * destruct (cells (nobjs h) !! p) eqn:E; [|done]. apply W2. by eexists.
      * destruct (cells (eobjs h) !! p) eqn:E; [|done]. apply W3. by eexists.
      * destruct (cells (sobjs h) !! p) eqn:E; [|done]. apply W4. by eexists.
    + destruct x; cbn; by destruct I2; constructor.
    + destruct x; cbn; by destruct I3; constructor.
    + destruct x as [|p|p|p]; cbn; try done. intros n q Hq. destruct (I4 n q Hq) as [l' E]. cbn. destruct (decide (p = q)) as [->|Np].
      * rewrite lookup_insert. unfold at_sub. rewrite E. cbn. by eexists.
      * rewrite lookup_insert_ne by done. by eexists.
    + intros y l'. rewrite ref_set_ref by done. rewrite at_map_set_ref. destruct (decide (y = x)); [by intros [= <-]|apply I5].
    + intros y z l'. rewrite !ref_set_ref by done. destruct (decide (y = x)) as [->|Ny], (decide (z = x)) as [->|Nz]; try done.
      * intros [= <-] H. by apply N in H.
      * intros H [= <-]. by apply N in H.
      * apply I6.
  - assert (E : hg_edges (set_ref (h, g) x l).2 = hg_edges g) by (by destruct x). rewrite E. eapply eix_frame; [| |exact X].
    + by destruct x.
    + intros q Hq. destruct x as [|p|p|p]; cbn; try done. unfold srcs, dsts, at_edge; cbn. destruct (decide (p = q)) as [->|Np].
      * by rewrite lookup_insert.
      * by rewrite lookup_insert_ne by done.
Qed.
(** The graph is the same whether the map of [x] is changed or replaced. *)
Lemma set_ref_abs h g x l l0 m : inv (h, g) -> ref h g x = Some l0 -> at_map h l = m -> (forall y, ref h g y <> Some l) ->
  abs (set_ref (h, g) x l) = abs (upd h l0 m, g).
Proof.
  intros I R Hl N. pose proof (upd_others h g _ _ m I R) as K.
  assert (Same : forall p, p < next (eobjs h) -> OEdge p <> x -> abs_edge (upd h l0 m) p = abs_edge h p).
  { intros q Hq Nq. apply abs_edge_ext; [done|]. apply (wh_eobjs _ (i_heap _ I)) in Hq as [e' He']. cbn in He'. unfold at_edge. rewrite He'; cbn.
    apply (K (OEdge q)); [cbn; by rewrite He'|done]. }
  assert (SameN : forall p nd, cells (nobjs h) !! p = Some nd -> ONode p <> x -> at_map (upd h l0 m) (no_attrs nd) = at_map h (no_attrs nd)).
  { intros p nd Hp Np. apply (K (ONode p)); [cbn; by rewrite Hp|done]. }
  assert (SameS : forall n p l', hg_subs g !! n = Some p -> cells (sobjs h) !! p = Some (SObj l' n) -> OSub p <> x -> at_map (upd h l0 m) l' = at_map h l').
  { intros n p l' Hn Hp Np. apply (K (OSub p)); [cbn; by rewrite Hp|done]. }
  destruct x as [|p|p|p].
  - cbn in R. injection R as <-. unfold abs. cbn [set_ref hg_attrs hg_name hg_directed hg_strict hg_nodes hg_edges hg_subs hg_rels]. f_equal.
    + by rewrite at_map_upd.
    + symmetry. apply abs_nodes_ext; [done..|]. intros q nd Hq. by apply (SameN q).
    + symmetry. apply abs_edges_ext; [apply (i_edges _ I)|done|]. intros q Hq. by apply Same.
    + symmetry. apply abs_subs_ext; [apply (i_subs _ I)|]. intros n q l' Hn Hq. split; [done|]. by eapply (SameS n q).
  - cbn in R. destruct (cells (nobjs h) !! p) as [nd|] eqn:E; [|done]. injection R as <-. rewrite (abs_upd_node h m g p nd I E).
    unfold abs, with_nodes; cbn. f_equal.
    unfold abs_nodes; cbn. f_equal. apply map_eq. intros q. rewrite lookup_fmap. destruct (decide (q = p)) as [->|Nq].
    + rewrite !lookup_insert. cbn. unfold abs_node, at_node. cbn. rewrite E. cbn. unfold at_map at 1. cbn. f_equal. f_equal. exact Hl.
    + rewrite !lookup_insert_ne by congruence. by rewrite lookup_fmap.
  - cbn in R. destruct (cells (eobjs h) !! p) as [e|] eqn:E; [|done]. injection R as <-.
    assert (EQ : forall q, q < next (eobjs h) -> abs_edge (upd h (eo_attrs e) m) q = abs_edge (set_ref (h, g) (OEdge p) l).1 q).
    { intros q Hq. destruct (decide (q = p)) as [->|Nq].
      - unfold abs_edge, at_edge; cbn. rewrite lookup_insert, E; cbn. rewrite at_map_upd. assert (Ae : at_edge h p = e) by (unfold at_edge; by rewrite E). rewrite !Ae. f_equal. symmetry. exact Hl.
      - rewrite Same by congruence. unfold abs_edge, at_edge; cbn. rewrite lookup_insert_ne by congruence. done. }
    unfold abs. cbn [set_ref fst snd] in *. f_equal.
    + symmetry. by apply (K OGraph).
    + symmetry. change (abs_nodes (with_eobjs h _) ?ns) with (abs_nodes h ns). apply abs_nodes_ext; [done..|]. intros q nd Hq. by apply (SameN q).
    + destruct (i_edges _ I) as [B1 B2 B3 B4]. cbn [fst snd] in *. unfold abs_edges. f_equal.
      * symmetry. by apply abs_index_ext.
      * symmetry. by apply abs_index_ext.
      * symmetry. apply map_ext_Forall. eapply Forall_impl; [exact B2|]. exact EQ.
    + symmetry. change (abs_subs (with_eobjs h _) ?ns) with (abs_subs h ns). apply abs_subs_ext; [apply (i_subs _ I)|]. intros n q l' Hn Hq. split; [done|]. by eapply (SameS n q).
  - unfold abs. cbn [set_ref]. f_equal.
    + symmetry. by apply (K OGraph).
    + symmetry. change (abs_nodes (with_sobjs h _) ?ns) with (abs_nodes h ns). apply abs_nodes_ext; [done..|]. intros q nd Hq. by apply (SameN q).
    + symmetry. change (abs_edges (with_sobjs h _) ?ns) with (abs_edges h ns). apply abs_edges_ext; [apply (i_edges _ I)|done|]. intros q Hq. by apply Same.
    + unfold abs_subs. apply map_fmap_ext. intros n q Hq. destruct (i_subs _ I n q Hq) as [l' E']. cbn [fst] in E'. unfold abs_sub, at_sub; cbn. destruct (decide (q = p)) as [->|Nq].
      * rewrite lookup_insert, E'. cbn in R |- *. rewrite E' in R. cbn in R. injection R as <-. rewrite at_map_upd. f_equal. exact Hl.
      * rewrite lookup_insert_ne by congruence. rewrite E'. cbn. f_equal. symmetry. apply (SameS n q l' Hq E'). congruence.
Qed.

(** *** All edits *)
Lemma h_ammend_upd h l es : swf (maps h) -> l < next (maps h) -> h_ammend h l es = upd h l (ammend_attrs (at_map h l) es).
Proof.
  revert h. induction es as [|[k v] es IH]; intros h H L; cbn.
  - by rewrite upd_same.
  - destruct (at_map h l !! k) as [v0|] eqn:E.
    + apply IH; done.
    + rewrite set_key_upd. fold (h_ammend (upd h l (<[k:=v]> (at_map h l))) l es). rewrite IH.
      * by rewrite upd_upd, at_map_upd.
      * by apply swf_put.
      * done.
Qed.
Definition is_new (e : edit) : Prop := match e with WNew _ _ => True | _ => False end.
Lemma hedit_upd o mine e h g x op l : inv (h, g) -> ~ is_new e -> op_of (map (at_map h) mine) e = Some (x, op) -> ref h g x = Some l ->
  hedit o mine e (h, g) = ((upd h l (exec_attr o op (at_map h l)).1, g), (exec_attr o op (at_map h l)).2).
Proof.
  intros I N E R. pose proof (wh_maps _ (i_heap _ I)) as W. pose proof (i_bound _ I _ _ R) as L. cbn [fst snd] in W, L.
  destruct e; cbn in E; try discriminate; injection E as <- <-; cbn [hedit]; rewrite R.
  - rewrite h_attrs_add_upd by done. done.
  - done.
  - done.
  - rewrite arg_content, h_extend_upd by done. done.
  - rewrite arg_content, h_ammend_upd by done. done.
  - destruct N. done.
Qed.
Definition good (st : world * list nat) : Prop := inv_mine st /\ eix st.1.1 (hg_edges st.1.2).
Record edited (o : oracle) (e : edit) (w : world) (mine : list nat) (r : world * option err) : Prop := {
  ed_good : good (r.1, mine);
  ed_mine : map (at_map r.1.1) mine = map (at_map w.1) mine;
  ed_stands : forall t, stands w (through e) t -> possible (abs w) (direct_of (map (at_map w.1) mine) e t) /\
    (abs r.1, r.2) = exec_direct o (direct_of (map (at_map w.1) mine) e t) (abs w);
  ed_gone : (forall t, ~ stands w (through e) t) -> abs r.1 = abs w;
  ed_attrs : forall x op, op_of (map (at_map w.1) mine) e = Some (x, op) -> (attrs_seen r.1 x, r.2) = exec_attr o op (attrs_seen w x);
  ed_others : forall y, y <> through e \/ op_of (map (at_map w.1) mine) e = None -> attrs_seen r.1 y = attrs_seen w y;
  ed_refs : forall y, exists_in r.1 y <-> exists_in w y }.
Lemma through_op env e x op : op_of env e = Some (x, op) -> through e = x /\ forall t, direct_of env e t = DAttrs t op.
Proof. destruct e; cbn; intros [= <- <-]; done. Qed.
Lemma edited_upd o e h g mine x op l : good (h, g, mine) -> op_of (map (at_map h) mine) e = Some (x, op) -> ref h g x = Some l ->
  edited o e (h, g) mine ((upd h l (exec_attr o op (at_map h l)).1, g), (exec_attr o op (at_map h l)).2).
Proof.
  intros [(I & ND & M) X] E R. cbn [fst snd] in *. destruct (through_op _ _ _ _ E) as [T D]. set (m := (exec_attr o op (at_map h l)).1).
  assert (IX : xinv (h, g)) by (by split). destruct (upd_xinv h g x l m IX R) as [J X'].
  assert (RF : forall y, ref (upd h l m) g y = ref h g y) by (intros y; unfold upd; apply ref_maps).
  assert (MM : forall l', l' ∈ mine -> at_map (upd h l m) l' = at_map h l').
  { intros l' Hl. apply at_map_upd_ne. intros ->. by apply (proj2 (M l Hl) x). }
  constructor; cbn [fst snd].
  - split; [|done]. split; [done|]. split; [done|]. cbn [fst snd]. intros l' Hl. destruct (M l' Hl) as [M1 M2]. split; [done|]. intros a. rewrite RF. apply M2.
  - apply map_ext_Forall, Forall_forall. exact MM.
  - rewrite T. intros t St. rewrite D. by apply (abs_upd_stands o op h g x l t).
  - rewrite T. intros N. by apply (abs_upd_dead h g x).
  - intros x' op' E'. rewrite E in E'. injection E' as <- <-. unfold attrs_seen; cbn [fst snd]. rewrite RF, R, at_map_upd. unfold m. by destruct (exec_attr o op (at_map h l)).
  - intros y [N|N]; [|congruence]. unfold attrs_seen; cbn [fst snd]. rewrite RF. destruct (ref h g y) as [l'|] eqn:Ry; [|done].
    apply (upd_others h g x l m I R y); [done|]. congruence.
  - intros y. unfold exists_in; cbn [fst snd]. by rewrite RF.
Qed.
Lemma edited_new o h g mine x l m : good (h, g, mine) -> ref h g x = Some l -> edited o (WNew x m) (h, g) mine (set_ref (fresh_map h m, g) x (next (maps h)), None).
Proof.
  intros G R. pose proof G as [(I & ND & M) X]. cbn [fst snd] in *.
  destruct (fresh_ok h m g I) as (J & A & V).
  assert (R1 : ref (fresh_map h m) g x = Some l) by (unfold fresh_map; by rewrite ref_maps).
  assert (NR : forall y, ref (fresh_map h m) g y <> Some (next (maps h))).
  { intros y. unfold fresh_map. rewrite ref_maps. intros H. apply (i_bound _ I) in H. cbn in H. lia. }
  assert (L : next (maps h) < next (maps (fresh_map h m))) by (cbn; lia).
  assert (XF : eix (fresh_map h m) (hg_edges g)) by (eapply eix_frame; [| |exact X]; done).
  assert (IX : xinv (fresh_map h m, g)) by (by split).
  destruct (set_ref_xinv (fresh_map h m) g x (next (maps h)) IX (ex_intro _ _ R1) L NR) as [K1 K2].
  pose proof (set_ref_abs (fresh_map h m) g x (next (maps h)) l m J R1 (at_map_fresh h m) NR) as SA.
  assert (RS : forall y, ref (set_ref (fresh_map h m, g) x (next (maps h))).1 (set_ref (fresh_map h m, g) x (next (maps h))).2 y =
    if decide (y = x) then Some (next (maps h)) else ref h g y).
  { intros y. rewrite ref_set_ref by (by eexists). unfold fresh_map. by rewrite ref_maps. }
  assert (MS : forall l', at_map (set_ref (fresh_map h m, g) x (next (maps h))).1 l' = at_map (fresh_map h m) l') by (intros l'; unfold at_map; by rewrite at_map_set_ref).
  set (w' := set_ref (fresh_map h m, g) x (next (maps h))) in *.
  assert (MM : forall l', l' < next (maps h) -> at_map w'.1 l' = at_map h l').
  { intros l' Hl. rewrite MS. apply at_map_fresh_ne. lia. }
  assert (UA : abs (upd (fresh_map h m) l m, g) = abs (upd h l m, g)).
  { (* both are the graph with the map of x replaced *)
    assert (E : upd (fresh_map h m) l m = fresh_map (upd h l m) m).
    { unfold upd, fresh_map, with_maps, put, alloc; cbn. f_equal. f_equal. apply insert_commute. apply (i_bound _ I) in R. cbn in R. lia. }
    rewrite E. apply fresh_ok. apply (upd_xinv h g x l m (conj I X) R). }
  destruct (edited_upd o (WNew x m) h g mine x (AAssign m) l G eq_refl R) as [E1 E2 E3 E4 E5 E6 E7]. cbn [exec_attr fst snd] in *.
  constructor; cbn [fst snd].
  - split; [|done]. split; [done|]. split; [done|]. cbn [fst snd]. intros l' Hl. destruct (M l' Hl) as [M1 M2]. split.
    + unfold w'. rewrite at_map_set_ref. cbn. lia.
    + intros a. rewrite RS. destruct (decide (a = x)); [|apply M2]. intros [= <-]. lia.
  - apply map_ext_Forall, Forall_forall. intros l' Hl. apply MM, M, Hl.
  - rewrite SA, UA. exact E3.
  - rewrite SA, UA. exact E4.
  - intros x' op [= <- <-]. unfold attrs_seen. rewrite RS, decide_True by done. cbn [exec_attr]. f_equal. rewrite MS. apply at_map_fresh.
  - intros y [N|N]; [|discriminate]. cbn [through] in N. unfold attrs_seen. rewrite RS, decide_False by done. cbn [fst snd].
    destruct (ref h g y) as [l'|] eqn:Ry; [|done]. apply MM. by apply (i_bound _ I) in Ry.
  - intros y. unfold exists_in. rewrite RS. destruct (decide (y = x)) as [->|N]; [|done]. cbn [fst snd]. rewrite R. split; by eexists.
Qed.
Lemma edited_fields o h g mine p e sp dp dir : good (h, g, mine) -> cells (eobjs h) !! p = Some e ->
  edited o (WEdge p sp dp dir) (h, g) mine ((with_eobjs h (put (eobjs h) p (EObj (eo_src e) sp (eo_dst e) dp dir (eo_attrs e))), g), None).
Proof.
  intros [(I & ND & M) X] E. cbn [fst snd] in *. set (e' := EObj _ _ _ _ _ _). set (h' := with_eobjs _ _).
  assert (Lp : p < next (eobjs h)) by (apply (wh_eobjs _ (i_heap _ I)); by eexists).
  assert (RF : forall y, ref h' g y = ref h g y).
  { intros [|q|q|q]; cbn; try done. destruct (decide (p = q)) as [->|N]; [by rewrite lookup_insert, E|by rewrite lookup_insert_ne]. }
  assert (AE : forall q, at_edge h' q = if decide (q = p) then e' else at_edge h q).
  { intros q. unfold at_edge; cbn. destruct (decide (q = p)) as [->|N]; [by rewrite lookup_insert|by rewrite lookup_insert_ne by congruence]. }
  assert (Ae : at_edge h p = e) by (unfold at_edge; by rewrite E).
  assert (X' : eix h' (hg_edges g)).
  { eapply eix_frame; [| |exact X]; [done|]. intros q Hq. unfold srcs, dsts. rewrite AE. destruct (decide (q = p)) as [->|N]; [|done]. by rewrite Ae. }
  assert (J : inv (h', g)).
  { destruct I as [[? ? ? ? ? ?] I2 I3 I4 I5 I6]. constructor; cbn [fst snd] in *.
    - constructor; try done. cbn. by apply swf_put.
    - by destruct I2; constructor.
    - by destruct I3; constructor.
    - done.
    - intros a l. rewrite RF. apply I5.
    - intros a b l. rewrite !RF. apply I6. }
  assert (AB : forall q, q <> p -> abs_edge h' q = abs_edge h q) by (intros q N; unfold abs_edge; rewrite AE, decide_False by done; done).
  constructor; cbn [fst snd].
  - split; [|done]. split; [done|]. split; [done|]. cbn [fst snd]. intros l' Hl. destruct (M l' Hl) as [M1 M2]. split; [done|]. intros a. rewrite RF. apply M2.
  - done.
  - intros t St. cbn [through] in St. inversion St as [| | |p' i Hi Q1 Q2]; subst t p'. cbn [fst snd] in Hi. cbn [direct_of possible exec_direct].
    assert (L : edges_list (g_edges (abs (h, g))) !! i = Some (Edge (eo_src e) (eo_src_port e) (eo_dst e) (eo_dst_port e) (eo_dir e) (at_map h (eo_attrs e)))).
    { cbn. rewrite list_lookup_fmap, Hi. cbn. unfold abs_edge. by rewrite Ae. }
    split; [rewrite L; by eexists|]. rewrite L. cbn [e_attrs e_src e_dst]. f_equal.
    change (abs (h', g)) with (with_edges (abs (h, g)) (abs_edges h' (hg_edges g))). f_equal. change (g_edges (abs (h, g))) with (abs_edges h (hg_edges g)).
    apply (abs_edges_set h h' (hg_edges g) i p); [apply (i_edges _ I)|done|done|done| | | |].
    + intros q _. apply AB.
    + unfold abs_edge. rewrite AE, decide_True by done. done.
    + unfold srcs. by rewrite Ae.
    + unfold dsts. by rewrite Ae.
  - intros N. change (abs (h', g)) with (with_edges (abs (h, g)) (abs_edges h' (hg_edges g))).
    rewrite (abs_edges_dead h h' (hg_edges g) p); [done|done|done| |].
    + intros H. apply elem_of_list_lookup in H as [i Hi]. apply (N (TEdge i)). by constructor.
    + intros q _. apply AB.
  - discriminate.
  - intros y _. unfold attrs_seen; cbn [fst snd]. rewrite RF. done.
  - intros y. unfold exists_in; cbn [fst snd]. by rewrite RF.
Qed.
Lemma hedit_edited o mine e w : good (w, mine) -> exists_in w (through e) -> edited o e w mine (hedit o mine e w).
Proof.
  destruct w as [h g]. intros G [l R]. cbn [fst snd] in R.
  destruct (op_of (map (at_map h) mine) e) as [[x op]|] eqn:E.
  - destruct (through_op _ _ _ _ E) as [T _]. rewrite T in R. destruct (match e with WNew _ _ => true | _ => false end) eqn:EN.
    + destruct e; try discriminate. cbn in E. injection E as -> <-. cbn [hedit]. rewrite R. unfold new_map, alloc. by apply (edited_new o h g mine x l m).
    + rewrite (hedit_upd o mine e h g x op l); [by apply (edited_upd o e h g mine x op l)|apply G|destruct e; cbn; tauto || discriminate|done|done].
  - destruct e; try discriminate. cbn in R |- *. destruct (cells (eobjs h) !! p) as [e|] eqn:Ep; [|done]. by apply edited_fields.
Qed.
Lemma hedit_absent o mine e w : ~ exists_in w (through e) -> hedit o mine e w = (w, None).
Proof.
  destruct w as [h g]. intros N. assert (R : ref h g (through e) = None) by (unfold exists_in in N; cbn [fst snd] in N; destruct (ref h g (through e)); [destruct N; by eexists|done]).
  destruct e; cbn [hedit through] in *; try by rewrite R. cbn in R. by destruct (cells (eobjs h) !! p).
Qed.
(** ** Histories *)
Lemma hstep_good e st : good st -> good (hstep e st).1.
Proof.
  intros [I X]. split; [apply (hstep_sim e st I)|]. destruct st as [[h g] mine]. destruct I as (I & ND & M). cbn [fst snd] in *.
  destruct e as [m|i k v|i k|grow o c]; cbn [hstep].
  - eapply eix_frame; [| |exact X]; done.
  - destruct (mine !! i); [|done]. eapply eix_frame; [| |exact X]; done.
  - destruct (mine !! i); [|done]. eapply eix_frame; [| |exact X]; done.
  - pose proof (hexec_eix grow o (with_refs (ref_of mine) c) (h, g) (conj I X)) as K.
    destruct (hexec grow o (with_refs (ref_of mine) c) (h, g)) as [w r]. cbn [fst snd] in *. apply K. intros l Hl. by apply M, (arg_of_refs mine c).
Qed.
Lemma xstep_good e st : good st -> good (xstep e st).1.
Proof.
  intros G. destruct e as [e|o e]; cbn [xstep]; [by apply hstep_good|]. destruct st as [w mine]. cbn [fst snd] in *.
  destruct (ref w.1 w.2 (through e)) as [l|] eqn:R.
  - pose proof (ed_good _ _ _ _ _ (hedit_edited o mine e w G (ex_intro _ l R))) as K. by destruct (hedit o mine e w).
  - rewrite hedit_absent; [done|]. unfold exists_in. rewrite R. by intros [? ?].
Qed.
Lemma xrun_good es : forall st, good st -> good (xrun es st).1.
Proof.
  induction es as [|e es IH]; intros st G; cbn [xrun]; [done|]. pose proof (xstep_good e st G) as K. destruct (xstep e st) as [st1 r]. cbn [fst] in K.
  specialize (IH st1 K). by destruct (xrun es st1).
Qed.
Lemma good_new : good (h_new_graph, []).
Proof.
  split; [apply inv_mine_new|]. constructor; unfold ptrs; cbn; [constructor| |]; intros a b; by rewrite lookup_empty.
Qed.

(** *** Pointers to nodes that were removed, slices taken before *)
Lemma direct_gone o env e t g p n w : stands w (through e) t -> gone (g_nodes g) p n ->
  exists n', gone (g_nodes (exec_direct o (direct_of env e t) g).1) p n' /\ node_name n' = node_name n /\ (through e <> ONode p -> n' = n).
Proof.
  intros St G. assert (S0 : exists n', gone (g_nodes g) p n' /\ node_name n' = node_name n /\ (through e <> ONode p -> n' = n)) by (exists n; done).
  assert (D : (exists op, direct_of env e t = DAttrs t op) \/ (exists i sp dp dir, direct_of env e t = DEdgeFields i sp dp dir)).
  { destruct (op_of env e) as [[x op]|] eqn:E; [left; exists op; by apply (through_op env e x)|]. right. destruct e; try discriminate.
    cbn in St. inversion St; subst. cbn. eauto. }
  destruct D as [[op ->]|(i & sp & dp & dir & ->)]; cbn [exec_direct].
  2:{ destruct (edges_list (g_edges g) !! i); done. }
  destruct t as [|m|m|i|q].
  - by destruct (exec_attr _ _ _).
  - destruct (g_subs g !! m); [|done]. by destruct (exec_attr _ _ _).
  - inversion St.
  - destruct (edges_list (g_edges g) !! i); [|done]. by destruct (exec_attr _ _ _).
  - destruct (exec_attr _ _ _) as [a r]. cbn. destruct G as (G1 & G2 & G3). destruct (decide (q = p)) as [->|N].
    + eexists. split; [split; [done|split; [cbn; apply lookup_insert|done]]|]. unfold deref. rewrite G2. split; [done|].
      inversion St as [|p' H1 H2| |]. done.
    + exists n. split; [|done]. split; [done|]. split; [cbn; by rewrite lookup_insert_ne|done].
Qed.
Lemma xstep_gone e st p n : good st -> gone (g_nodes (abs st.1)) p n ->
  exists n', gone (g_nodes (abs (xstep e st).1.1)) p n' /\ node_name n' = node_name n /\
    ((forall o e', e = XEdit o e' -> through e' <> ONode p) -> n' = n).
Proof.
  intros Gd G. destruct e as [e|o e]; cbn [xstep].
  - exists n. split; [|done]. destruct (hstep_sim e st (proj1 Gd)) as [_ E]. assert (E1 : abs (hstep e st).1.1 = (vstep e (seen st)).1.1) by (by rewrite <- E).
    rewrite E1. pose proof (vrun_gone [e] p n (seen st) G) as K. cbn [vrun] in K. by destruct (vstep e (seen st)).
  - destruct st as [w mine]. cbn [fst snd] in *. destruct (ref w.1 w.2 (through e)) as [l|] eqn:R.
    2:{ rewrite hedit_absent; [exists n; done|]. unfold exists_in. rewrite R. by intros [? ?]. }
    destruct (hedit_edited o mine e w Gd (ex_intro _ l R)) as [_ _ E3 E4 _ _ _]. destruct (hedit o mine e w) as [w' r]. cbn [fst snd] in *.
    assert (D : (exists t, stands w (through e) t) \/ (forall t, ~ stands w (through e) t)).
    { destruct (through e) as [|q|q|q].
      - left. eexists. constructor.
      - left. eexists. constructor.
      - destruct (decide (q ∈ elems (earrs w.1) (he_edges (hg_edges w.2)))) as [H|H].
        + apply elem_of_list_lookup in H as [i Hi]. left. eexists. by constructor.
        + right. intros t St. inversion St as [| | |? i Hi]; subst. apply H. by eapply elem_of_list_lookup_2.
      - destruct (decide (q ∈ map snd (map_to_list (hg_subs w.2)))) as [H|H].
        + apply elem_of_list_In, in_map_iff in H as ([x q'] & <- & H). apply elem_of_list_In, elem_of_map_to_list in H. left. eexists. by constructor.
        + right. intros t St. inversion St as [| |? x Hx|]; subst. apply H. apply elem_of_list_In, in_map_iff. exists (x, q). split; [done|]. by apply elem_of_list_In, elem_of_map_to_list. }
    destruct D as [[t St]|D].
    + destruct (E3 t St) as [_ E]. assert (E1 : abs w' = (exec_direct o (direct_of (map (at_map w.1) mine) e t) (abs w)).1) by (by rewrite <- E). rewrite E1.
      destruct (direct_gone o (map (at_map w.1) mine) e t (abs w) p n w St G) as (n' & A & B & C). exists n'. split; [done|]. split; [done|].
      intros H. apply C. by apply (H o e).
    + rewrite (E4 D). exists n. done.
Qed.
Lemma xrun_gone es p : forall st n, good st -> gone (g_nodes (abs st.1)) p n ->
  exists n', gone (g_nodes (abs (xrun es st).1.1)) p n' /\ node_name n' = node_name n /\
    (Forall (fun e => forall o e', e = XEdit o e' -> through e' <> ONode p) es -> n' = n).
Proof.
  induction es as [|e es IH]; intros st n Gd G; cbn [xrun]; [exists n; done|].
  destruct (xstep_gone e st p n Gd G) as (n1 & A1 & B1 & C1). pose proof (xstep_good e st Gd) as Gd1. destruct (xstep e st) as [st1 r]. cbn [fst] in *.
  destruct (IH st1 n1 Gd1 A1) as (n2 & A2 & B2 & C2). destruct (xrun es st1) as [st2 rs]. cbn [fst] in *. exists n2. split; [done|]. split; [congruence|].
  intros F. apply Forall_cons in F as [F1 F2]. rewrite C2 by done. by apply C1.
Qed.
Lemma hedit_frame o mine e w : earrs (hedit o mine e w).1.1 = earrs w.1 /\ hg_edges (hedit o mine e w).1.2 = hg_edges w.2 /\
  next (eobjs (hedit o mine e w).1.1) = next (eobjs w.1) /\
  forall q, OEdge q <> through e -> cells (eobjs (hedit o mine e w).1.1) !! q = cells (eobjs w.1) !! q.
Proof.
  destruct w as [h g]. destruct e; cbn [hedit through].
  1-5: destruct (ref h g x) as [l|]; [|done]; cbn [fst snd].
  - pose proof (attrs_add_maps h l f v) as A. destruct (h_attrs_add h l f v) as [h1 r]. cbn [fst snd] in *. by rewrite A.
  - done.
  - done.
  - pose proof (extend_maps h l (o_attrs o 0 (arg h (ref_of mine m)))) as A. by rewrite A.
  - assert (A : forall es, only_maps h (h_ammend h l es)).
    { intros es. unfold h_ammend. assert (A : forall h1, only_maps h h1 -> only_maps h (fold_left (fun h kv => match at_map h l !! kv.1 with Some _ => h | None => set_key h l kv.1 kv.2 end) es h1)).
      { induction es as [|[k v] es IH]; intros h1 H1; cbn; [done|]. apply IH. destruct (at_map h1 l !! k); [done|]. by eapply only_maps_trans. }
      apply A, only_maps_refl. }
    by rewrite A.
  - destruct (ref h g x) as [l|]; [|done]. unfold new_map, alloc. destruct x as [|p|p|p]; cbn; try done. split; [done|]. split; [done|]. split; [done|].
    intros q N. rewrite lookup_insert_ne by congruence. done.
  - destruct (cells (eobjs h) !! p) as [e|]; [|done]. cbn. split; [done|]. split; [done|]. split; [done|]. intros q N. by rewrite lookup_insert_ne by congruence.
Qed.
Definition edge_untouched (p : nat) (e : xevent) : Prop := forall o e', e = XEdit o e' -> through e' <> OEdge p.
Lemma xstep_edges e st : good st -> kept st.1 (xstep e st).1.1 /\ next (eobjs st.1.1) <= next (eobjs (xstep e st).1.1.1) /\
  forall p, p < next (eobjs st.1.1) -> edge_untouched p e -> abs_edge (xstep e st).1.1.1 p = abs_edge st.1.1 p.
Proof.
  intros Gd. destruct e as [e|o e]; cbn [xstep].
  - destruct (hstep_edges e st (proj1 Gd)) as (A & B & C). split; [done|]. split; [done|]. intros p P _. by apply C.
  - destruct st as [w mine]. cbn [fst snd]. destruct (hedit_frame o mine e w) as (A & B & C & D).
    assert (O : forall y, y <> through e -> attrs_seen (hedit o mine e w).1 y = attrs_seen w y).
    { intros y N. destruct (ref w.1 w.2 (through e)) as [l|] eqn:R.
      - apply (ed_others _ _ _ _ _ (hedit_edited o mine e w Gd (ex_intro _ l R))). by left.
      - rewrite hedit_absent; [done|]. unfold exists_in. rewrite R. by intros [? ?]. }
    destruct (hedit o mine e w) as [w' r]. cbn [fst snd] in *. split; [by apply kept_same|]. split; [lia|]. intros p P U.
    assert (N : OEdge p <> through e) by (intros E; by apply (U o e)). specialize (O (OEdge p) N). specialize (D p N).
    destruct Gd as [(I & _ & _) _]. cbn [fst snd] in I. apply (wh_eobjs _ (i_heap _ I)) in P as [x Ex]. unfold abs_edge, at_edge. unfold attrs_seen in O. cbn in O.
    rewrite D, Ex in *. cbn in *. by rewrite O.
Qed.
Lemma xrun_edges es : forall st, good st -> kept st.1 (xrun es st).1.1 /\ next (eobjs st.1.1) <= next (eobjs (xrun es st).1.1.1) /\
  forall p, p < next (eobjs st.1.1) -> Forall (edge_untouched p) es -> abs_edge (xrun es st).1.1.1 p = abs_edge st.1.1 p.
Proof.
  induction es as [|e es IH]; intros st Gd; cbn [xrun]; [split; [done|split; [done|done]]|].
  destruct (xstep_edges e st Gd) as (A & B & C). pose proof (xstep_good e st Gd) as Gd1. destruct (xstep e st) as [st1 r]. cbn [fst] in *.
  destruct (IH st1 Gd1) as (A1 & B1 & C1). destruct (xrun es st1) as [st2 rs]. cbn [fst] in *. split; [by eapply kept_trans|]. split; [lia|].
  intros p P F. apply Forall_cons in F as [F1 F2]. rewrite C1 by (done || lia). by apply C.
Qed.
