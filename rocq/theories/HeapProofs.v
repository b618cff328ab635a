(** Proofs about HeapGraph.v: the heap model computes what Graph.v computes by value. *)
From Verif Require Import Maps Graph HeapGraph SpecHeap.
From Coq Require Import Lia.

(** ** Stores and slices *)
Definition swf {T} (s : store T) : Prop := forall p, is_Some (cells s !! p) <-> p < next s.
Lemma swf_empty {T} : swf (@empty_store T).
Proof. intros p. cbn. rewrite lookup_empty. split; [intros [? [=]]|lia]. Qed.
Lemma swf_alloc {T} (s : store T) x : swf s -> swf (alloc s x).1.
Proof.
  intros H p. cbn. destruct (decide (p = next s)) as [->|N]; [rewrite lookup_insert; split; [lia|eauto]|].
  rewrite lookup_insert_ne by congruence. rewrite (H p). lia.
Qed.
Lemma swf_put {T} (s : store T) p x : swf s -> p < next s -> swf (put s p x).
Proof.
  intros H L q. cbn. destruct (decide (q = p)) as [->|N]; [rewrite lookup_insert; split; [easy|eauto]|].
  rewrite lookup_insert_ne by congruence. apply H.
Qed.
Lemma swf_fresh {T} (s : store T) : swf s -> cells s !! next s = None.
Proof. intros H. apply eq_None_not_Some. rewrite (H (next s)). lia. Qed.

Definition wf_slice (s : store (list nat)) (x : slice) : Prop := sl_arr x < next s /\ sl_len x <= length (array s (sl_arr x)).
Lemma append1_spec grow s x p : swf s -> wf_slice s x ->
  swf (append1 grow s x p).1 /\ wf_slice (append1 grow s x p).1 (append1 grow s x p).2
  /\ elems (append1 grow s x p).1 (append1 grow s x p).2 = elems s x ++ [p].
Proof.
  intros Hs [Ha Hl]. unfold append1. destruct (Nat.ltb_spec (sl_len x) (length (array s (sl_arr x)))) as [L|L]; cbn [fst snd].
  - split; [by apply swf_put|]. unfold wf_slice, elems, array in *; cbn. rewrite lookup_insert; cbn. split.
    + split; [done|]. rewrite insert_length. lia.
    + rewrite (take_S_r _ _ p) by (by apply list_lookup_insert). by rewrite take_insert.
  - unfold alloc; cbn [fst snd]. split; [by apply (swf_alloc s)|]. unfold wf_slice, elems, array in *; cbn. rewrite lookup_insert; cbn.
    set (a := default [] (cells s !! sl_arr x)) in *.
    assert (E : length (take (sl_len x) a) = sl_len x) by (rewrite take_length; lia). split.
    + split; [lia|]. rewrite app_length, E. cbn. lia.
    + change (p :: replicate (grow (sl_len x)) 0) with ([p] ++ replicate (grow (sl_len x)) 0).
      rewrite (assoc_L (++)). apply take_app_alt. rewrite app_length, E. cbn. lia.
Qed.
Lemma cut_out_spec s x i : swf s -> wf_slice s x -> i < sl_len x ->
  swf (cut_out s x i).1 /\ wf_slice (cut_out s x i).1 (cut_out s x i).2
  /\ elems (cut_out s x i).1 (cut_out s x i).2 = take i (elems s x) ++ drop (S i) (elems s x).
Proof.
  intros Hs [Ha Hl] Hi. unfold cut_out; cbn [fst snd]. split; [by apply swf_put|].
  unfold wf_slice, elems, array in *; cbn. rewrite lookup_insert; cbn. set (a := default [] (cells s !! sl_arr x)) in *.
  assert (E : length (take i a) = i) by (rewrite take_length; lia).
  assert (F : length (drop (S i) (take (sl_len x) a)) = sl_len x - S i) by (rewrite drop_length, take_length; lia). split.
  - split; [done|]. rewrite !app_length, E, F, drop_length. lia.
  - rewrite take_take, Nat.min_l by lia. rewrite (assoc_L (++)). apply take_app_alt. rewrite app_length, E, F. lia.
Qed.

(** ** Maps *)
Definition upd (h : heap) (l : nat) (m : attrs) : heap := with_maps h (put (maps h) l m).
Lemma at_map_upd h l m : at_map (upd h l m) l = m.
Proof. unfold at_map, upd; cbn. by rewrite lookup_insert. Qed.
Lemma at_map_upd_ne h l m l' : l' <> l -> at_map (upd h l m) l' = at_map h l'.
Proof. intros N. unfold at_map, upd; cbn. by rewrite lookup_insert_ne by congruence. Qed.
Lemma upd_upd h l m m' : upd (upd h l m) l m' = upd h l m'.
Proof. unfold upd, with_maps, put; cbn. by rewrite insert_insert. Qed.
Lemma upd_same h l : swf (maps h) -> l < next (maps h) -> upd h l (at_map h l) = h.
Proof.
  intros H L. apply H in L as [m E]. unfold upd, with_maps, put, at_map. rewrite E; cbn. rewrite insert_id by done. by destruct h as [[]].
Qed.
Lemma set_key_upd h l k v : set_key h l k v = upd h l (<[k := v]> (at_map h l)).
Proof. done. Qed.
Lemma h_attrs_add_upd h l f v : swf (maps h) -> l < next (maps h) ->
  h_attrs_add h l f v = (upd h l (attrs_add (at_map h l) f v).1, (attrs_add (at_map h l) f v).2).
Proof. intros H L. unfold h_attrs_add, attrs_add. destruct (new_attr f); cbn; [done|]. by rewrite upd_same. Qed.
Lemma h_extend_upd h l es : swf (maps h) -> l < next (maps h) -> h_extend h l es = upd h l (extend (at_map h l) es).
Proof.
  revert h. induction es as [|[k v] es IH]; intros h H L; cbn.
  - by rewrite upd_same.
  - rewrite set_key_upd. fold (h_extend (upd h l (<[k:=v]> (at_map h l))) l es). rewrite IH.
    + by rewrite upd_upd, at_map_upd.
    + by apply swf_put.
    + done.
Qed.
Definition fresh_map (h : heap) (m : attrs) : heap := with_maps h (alloc (maps h) m).1.
Lemma upd_fresh h m m' : upd (fresh_map h m) (next (maps h)) m' = fresh_map h m'.
Proof. unfold upd, fresh_map, with_maps, put; cbn. by rewrite insert_insert. Qed.
Lemma at_map_fresh h m : at_map (fresh_map h m) (next (maps h)) = m.
Proof. unfold at_map, fresh_map; cbn. by rewrite lookup_insert. Qed.
Lemma at_map_fresh_ne h m l : l <> next (maps h) -> at_map (fresh_map h m) l = at_map h l.
Proof. intros N. unfold at_map, fresh_map; cbn. by rewrite lookup_insert_ne by congruence. Qed.
Lemma h_new_attrs_loop_spec h es : swf (maps h) -> forall m, exists m',
  h_new_attrs_loop (fresh_map h m) (next (maps h)) es =
    (fresh_map h m', match new_attrs_loop m es with inl _ => None | inr e => Some e end)
  /\ (forall a, new_attrs_loop m es = inl a -> a = m').
Proof.
  intros H. induction es as [|[k v] es IH]; intros m; cbn.
  - exists m. split; [done|congruence].
  - rewrite h_attrs_add_upd; [|by apply (swf_alloc (maps h))|cbn; lia]. rewrite at_map_fresh, upd_fresh.
    unfold attrs_add. destruct (new_attr k) as [k'|e]; cbn.
    + apply IH.
    + exists m. done.
Qed.
Lemma h_new_attrs_spec h es : swf (maps h) -> exists m,
  h_new_attrs h es = (fresh_map h m, match new_attrs es with inl _ => inl (next (maps h)) | inr e => inr e end)
  /\ (forall a, new_attrs es = inl a -> a = m).
Proof.
  intros H. destruct (h_new_attrs_loop_spec h es H ∅) as (m & E & F). exists m. split; [|done].
  unfold h_new_attrs, new_map. change (alloc (maps h) ∅) with ((alloc (maps h) ∅).1, next (maps h)); cbn [fst snd].
  fold (fresh_map h ∅). rewrite E. unfold new_attrs. by destruct (new_attrs_loop ∅ es).
Qed.

(** ** Invariant *)
Definition index_in (h : heap) (m : gmap gostr (gmap gostr (list nat))) : Prop :=
  forall a inner b l, m !! a = Some inner -> inner !! b = Some l -> Forall (fun p => p < next (eobjs h)) l.
Record wf_nodes (h : heap) (ns : hnodes) : Prop := {
  wn_slice : wf_slice (narrs h) (hn_nodes ns);
  wn_elems : Forall (fun p => p < next (nobjs h)) (elems (narrs h) (hn_nodes ns));
  wn_lookup : forall n p, hn_lookup ns !! n = Some p -> p < next (nobjs h) }.
Record wf_edges (h : heap) (es : hedges) : Prop := {
  we_slice : wf_slice (earrs h) (he_edges es);
  we_elems : Forall (fun p => p < next (eobjs h)) (elems (earrs h) (he_edges es));
  we_s2d : index_in h (he_s2d es);
  we_d2s : index_in h (he_d2s es) }.
Definition wf_subs (h : heap) (m : gmap gostr nat) : Prop :=
  forall n p, m !! n = Some p -> exists l, cells (sobjs h) !! p = Some (SObj l n).
Record wf_heap (h : heap) : Prop := {
  wh_maps : swf (maps h); wh_nobjs : swf (nobjs h); wh_eobjs : swf (eobjs h); wh_sobjs : swf (sobjs h);
  wh_narrs : swf (narrs h); wh_earrs : swf (earrs h) }.
Record inv (w : world) : Prop := {
  i_heap : wf_heap w.1;
  i_nodes : wf_nodes w.1 (hg_nodes w.2);
  i_edges : wf_edges w.1 (hg_edges w.2);
  i_subs : wf_subs w.1 (hg_subs w.2);
  i_bound : forall a l, ref w.1 w.2 a = Some l -> l < next (maps w.1);
  i_inj : forall a b l, ref w.1 w.2 a = Some l -> ref w.1 w.2 b = Some l -> a = b }.

(** How a call may change the heap. *)
Record evolves (w w' : world) : Prop := {
  ev_maps : next (maps w.1) <= next (maps w'.1);
  ev_refs : forall a l, ref w'.1 w'.2 a = Some l -> ref w.1 w.2 a = Some l \/ next (maps w.1) <= l;
  ev_at : forall l, l < next (maps w.1) -> (forall a, ref w.1 w.2 a = Some l -> exists p, a = OEdge p) -> at_map w'.1 l = at_map w.1 l;
  ev_edges : forall p e, cells (eobjs w.1) !! p = Some e -> cells (eobjs w'.1) !! p = Some e;
  ev_nodes : forall p n, cells (nobjs w.1) !! p = Some n -> cells (nobjs w'.1) !! p = Some n }.
Lemma evolves_refl w : evolves w w.
Proof. constructor; auto. Qed.
Lemma evolves_trans w w' w'' : evolves w w' -> evolves w' w'' -> evolves w w''.
Proof.
  intros [A1 A2 A3 A4 A5] [B1 B2 B3 B4 B5]. constructor; auto; [lia| |].
  - intros a l H. destruct (B2 a l H) as [H'|H']; [by apply A2|right; lia].
  - intros l L H. rewrite <- (A3 l L H). apply B3; [lia|]. intros a R. destruct (A2 a l R) as [R'|R']; [by apply H|lia].
Qed.

(** ** Frames *)
Lemma abs_edge_ext h h' p : cells (eobjs h') !! p = cells (eobjs h) !! p ->
  at_map h' (eo_attrs (at_edge h p)) = at_map h (eo_attrs (at_edge h p)) -> abs_edge h' p = abs_edge h p.
Proof. intros E F. unfold abs_edge, at_edge in *. rewrite E. by rewrite F. Qed.
Lemma abs_index_ext h h' m : index_in h m -> (forall p, p < next (eobjs h) -> abs_edge h' p = abs_edge h p) ->
  abs_index h' m = abs_index h m.
Proof.
  intros I E. unfold abs_index. apply map_fmap_ext. intros a inner Ha. apply map_fmap_ext. intros b l Hb.
  apply map_ext_Forall. eapply Forall_impl; [by eapply I|]. cbn. intros p Hp. by apply E.
Qed.
Lemma abs_edges_ext h h' es : wf_edges h es -> earrs h' = earrs h -> (forall p, p < next (eobjs h) -> abs_edge h' p = abs_edge h p) ->
  abs_edges h' es = abs_edges h es.
Proof.
  intros [W1 W2 W3 W4] A E. unfold abs_edges. rewrite A. f_equal; [by apply abs_index_ext|by apply abs_index_ext|].
  apply map_ext_Forall. eapply Forall_impl; [exact W2|]. cbn. intros p Hp. by apply E.
Qed.
Lemma abs_subs_ext h h' m : wf_subs h m ->
  (forall n p l, m !! n = Some p -> cells (sobjs h) !! p = Some (SObj l n) -> cells (sobjs h') !! p = Some (SObj l n) /\ at_map h' l = at_map h l) ->
  abs_subs h' m = abs_subs h m.
Proof.
  intros W E. unfold abs_subs. apply map_fmap_ext. intros n p Hp. destruct (W n p Hp) as [l L].
  destruct (E n p l Hp L) as [E1 E2]. unfold abs_sub, at_sub. rewrite L, E1; cbn. by rewrite E2.
Qed.
Lemma abs_nodes_ext h h' ns : narrs h' = narrs h -> nobjs h' = nobjs h ->
  (forall p n, cells (nobjs h) !! p = Some n -> at_map h' (no_attrs n) = at_map h (no_attrs n)) ->
  abs_nodes h' ns = abs_nodes h ns.
Proof.
  intros A B E. unfold abs_nodes. rewrite A, B. f_equal. apply map_fmap_ext. intros p n Hp. unfold abs_node. by rewrite (E p n Hp).
Qed.

(** *** Changes of maps only *)
Lemma ref_maps h s g a : ref (with_maps h s) g a = ref h g a.
Proof. by destruct a. Qed.
Lemma inv_maps h s g : inv (h, g) -> swf s -> next (maps h) <= next s -> inv (with_maps h s, g).
Proof.
  intros [[? ? ? ? ? ?] I2 I3 I4 I5 I6] S L. constructor; cbn in *.
  - by constructor.
  - by destruct I2; constructor.
  - by destruct I3; constructor.
  - exact I4.
  - intros a l. rewrite ref_maps. intros R. specialize (I5 a l R). lia.
  - intros a b l. rewrite !ref_maps. apply I6.
Qed.
Lemma abs_edge_maps h s g : inv (h, g) -> (forall p l, ref h g (OEdge p) = Some l -> at_map (with_maps h s) l = at_map h l) ->
  forall p, p < next (eobjs h) -> abs_edge (with_maps h s) p = abs_edge h p.
Proof.
  intros I E p Hp. apply abs_edge_ext; [done|]. apply (wh_eobjs _ (i_heap _ I)) in Hp as [e He]. cbn in He.
  unfold at_edge. rewrite He; cbn. apply (E p). cbn. by rewrite He.
Qed.
Lemma abs_maps h s g : inv (h, g) -> (forall a l, ref h g a = Some l -> at_map (with_maps h s) l = at_map h l) ->
  abs (with_maps h s, g) = abs (h, g).
Proof.
  intros I E. unfold abs. f_equal.
  - by apply (E OGraph).
  - apply abs_nodes_ext; [done..|]. intros p n Hp. apply (E (ONode p)). cbn. by rewrite Hp.
  - apply abs_edges_ext; [by apply I|done|]. eapply abs_edge_maps; [exact I|]. intros p l. apply E.
  - apply abs_subs_ext; [by apply (i_subs _ I)|]. intros n p l Hn Hp. split; [done|]. apply (E (OSub p)). cbn. by rewrite Hp.
Qed.
Lemma fresh_ok h m g : inv (h, g) -> inv (fresh_map h m, g) /\ abs (fresh_map h m, g) = abs (h, g) /\ evolves (h, g) (fresh_map h m, g).
Proof.
  intros I. assert (S : swf (maps h)) by apply (i_heap _ I). split; [|split].
  - apply inv_maps; [done|by apply (swf_alloc (maps h))|cbn; lia].
  - apply abs_maps; [done|]. intros a l R. apply at_map_fresh_ne. apply (i_bound _ I) in R. cbn in R. lia.
  - constructor; cbn; auto.
    + intros l L _. apply at_map_fresh_ne. lia.
Qed.
Lemma upd_ok h l m g a : inv (h, g) -> ref h g a = Some l -> (forall p, a <> OEdge p) ->
  inv (upd h l m, g) /\ evolves (h, g) (upd h l m, g).
Proof.
  intros I R N. assert (S : swf (maps h)) by apply (i_heap _ I). split.
  - apply inv_maps; [done|apply swf_put; [done|by apply (i_bound _ I) in R]|done].
  - constructor; cbn; auto. intros l' _ H. apply at_map_upd_ne. intros ->. destruct (H a R) as [p P]. by apply (N p).
Qed.
Lemma abs_upd_graph h m g : inv (h, g) -> abs (upd h (hg_attrs g) m, g) = with_attrs (abs (h, g)) m.
Proof.
  intros I. assert (K : forall a l, ref h g a = Some l -> a <> OGraph -> at_map (upd h (hg_attrs g) m) l = at_map h l).
  { intros a l R N. apply at_map_upd_ne. intros ->. apply N. by apply (i_inj _ I a OGraph (hg_attrs g)). }
  unfold abs, with_attrs; cbn. f_equal.
  - apply at_map_upd.
  - apply abs_nodes_ext; [done..|]. intros p n Hp. apply (K (ONode p)); [cbn; by rewrite Hp|done].
  - apply abs_edges_ext; [by apply I|done|]. eapply abs_edge_maps; [exact I|]. intros p l R. by eapply K.
  - apply abs_subs_ext; [by apply (i_subs _ I)|]. intros n p l Hn Hp. split; [done|]. apply (K (OSub p)); [cbn; by rewrite Hp|done].
Qed.
Lemma abs_upd_node h m g p n : inv (h, g) -> cells (nobjs h) !! p = Some n ->
  abs (upd h (no_attrs n) m, g) =
    with_nodes (abs (h, g)) (Nodes (hn_lookup (hg_nodes g)) (elems (narrs h) (hn_nodes (hg_nodes g)))
      (<[p := Node (no_name n) m]> (abs_node h <$> cells (nobjs h))) (next (nobjs h))).
Proof.
  intros I Hp. assert (R0 : ref h g (ONode p) = Some (no_attrs n)) by (cbn; by rewrite Hp).
  assert (K : forall a l, ref h g a = Some l -> a <> ONode p -> at_map (upd h (no_attrs n) m) l = at_map h l).
  { intros a l R N. apply at_map_upd_ne. intros ->. apply N. by apply (i_inj _ I a (ONode p) (no_attrs n)). }
  unfold abs, with_nodes; cbn. f_equal.
  - by apply (K OGraph).
  - unfold abs_nodes; cbn. f_equal. apply map_eq. intros q. rewrite lookup_fmap. destruct (decide (q = p)) as [->|N].
    + rewrite lookup_insert, Hp; cbn. unfold abs_node. by rewrite at_map_upd.
    + rewrite lookup_insert_ne by congruence. rewrite lookup_fmap. destruct (cells (nobjs h) !! q) as [n'|] eqn:Hq; cbn; [|done].
      unfold abs_node. do 2 f_equal. apply (K (ONode q)); [cbn; by rewrite Hq|congruence].
  - apply abs_edges_ext; [by apply I|done|]. eapply abs_edge_maps; [exact I|]. intros q l R. by eapply K.
  - apply abs_subs_ext; [by apply (i_subs _ I)|]. intros n' q l Hn Hq. split; [done|]. apply (K (OSub q)); [cbn; by rewrite Hq|done].
Qed.
Lemma abs_upd_sub h m g n p l : inv (h, g) -> hg_subs g !! n = Some p -> cells (sobjs h) !! p = Some (SObj l n) ->
  abs (upd h l m, g) = with_subs (abs (h, g)) (<[n := Sub m n]> (abs_subs h (hg_subs g))).
Proof.
  intros I Hn Hp. assert (R0 : ref h g (OSub p) = Some l) by (cbn; by rewrite Hp).
  assert (K : forall a l', ref h g a = Some l' -> a <> OSub p -> at_map (upd h l m) l' = at_map h l').
  { intros a l' R N. apply at_map_upd_ne. intros ->. apply N. by apply (i_inj _ I a (OSub p) l). }
  unfold abs, with_subs; cbn. f_equal.
  - by apply (K OGraph).
  - apply abs_nodes_ext; [done..|]. intros q n' Hq. apply (K (ONode q)); [cbn; by rewrite Hq|done].
  - apply abs_edges_ext; [by apply I|done|]. eapply abs_edge_maps; [exact I|]. intros q l' R. by eapply K.
  - unfold abs_subs. apply map_eq. intros n'. rewrite lookup_fmap. destruct (decide (n' = n)) as [->|N].
    + rewrite lookup_insert, Hn; cbn. unfold abs_sub, at_sub; cbn. rewrite Hp; cbn. by rewrite at_map_upd.
    + rewrite lookup_insert_ne by congruence. rewrite lookup_fmap. destruct (hg_subs g !! n') as [q|] eqn:Hq; cbn; [|done].
      destruct (i_subs _ I n' q Hq) as [l' Hl']. cbn in Hl'. unfold abs_sub, at_sub; cbn. rewrite Hl'; cbn. do 2 f_equal.
      apply (K (OSub q)); [cbn; by rewrite Hl'|]. intros [= ->]. congruence.
Qed.

(** *** Edges *)
Lemma ref_earrs h s g es a : ref (with_earrs h s) (h_with_edges g es) a = ref h g a.
Proof. by destruct a. Qed.
Lemma index_in_add2 h m a b p : index_in h m -> p < next (eobjs h) -> index_in h (h_add2 m a b p).
Proof.
  intros I P a' inner b' l. unfold h_add2. destruct (decide (a' = a)) as [->|N].
  - rewrite lookup_insert. intros [= <-]. destruct (decide (b' = b)) as [->|N'].
    + rewrite lookup_insert. intros [= <-]. apply Forall_app. split; [|by constructor].
      destruct (m !! a) as [inner|] eqn:E; cbn; [|rewrite lookup_empty; constructor].
      destruct (inner !! b) as [l|] eqn:F; cbn; [by eapply I|constructor].
    + rewrite lookup_insert_ne by congruence. destruct (m !! a) as [inner|] eqn:E; cbn; [by eapply I|by rewrite lookup_empty].
  - rewrite lookup_insert_ne by congruence. by apply I.
Qed.
Lemma abs_index_add2 h m a b p : abs_index h (h_add2 m a b p) = add2 (abs_index h m) a b (abs_edge h p).
Proof.
  unfold abs_index, h_add2, add2. rewrite fmap_insert, fmap_insert. rewrite lookup_fmap.
  destruct (m !! a) as [inner|]; cbn.
  - rewrite lookup_fmap. rewrite map_app. destruct (inner !! b); done.
  - by rewrite !lookup_empty, !fmap_empty.
Qed.
Lemma h_edges_add_spec grow h es p : swf (earrs h) -> wf_edges h es -> p < next (eobjs h) ->
  exists s x, h_edges_add grow h es p = (with_earrs h s, HEdges (h_add2 (he_s2d es) (eo_src (at_edge h p)) (eo_dst (at_edge h p)) p)
      (h_add2 (he_d2s es) (eo_dst (at_edge h p)) (eo_src (at_edge h p)) p) x)
  /\ (s, x) = append1 grow (earrs h) (he_edges es) p /\ swf s
  /\ wf_edges (h_edges_add grow h es p).1 (h_edges_add grow h es p).2
  /\ abs_edges (h_edges_add grow h es p).1 (h_edges_add grow h es p).2 = edges_add (abs_edges h es) (abs_edge h p).
Proof.
  intros S W P. pose proof (append1_spec grow (earrs h) (he_edges es) p S (we_slice _ _ W)) as (A1 & A2 & A3).
  unfold h_edges_add. destruct (append1 grow (earrs h) (he_edges es) p) as [s x]. cbn [fst snd] in *.
  exists s, x. split; [done|]. split; [done|]. split; [done|]. split; [constructor; cbn|].
  - exact A2.
  - rewrite A3. apply Forall_app. split; [apply W|by constructor].
  - apply (index_in_add2 h); [apply W|done].
  - apply (index_in_add2 h); [apply W|done].
  - unfold abs_edges, edges_add; cbn. f_equal.
    + apply (abs_index_add2 h).
    + apply (abs_index_add2 h).
    + rewrite A3. rewrite map_app. done.
Qed.
Lemma inv_earrs h s g es : inv (h, g) -> swf s -> wf_edges (with_earrs h s) es -> inv (with_earrs h s, h_with_edges g es).
Proof.
  intros [[? ? ? ? ? ?] I2 I3 I4 I5 I6] S W. constructor; cbn in *.
  - by constructor.
  - by destruct I2; constructor.
  - exact W.
  - exact I4.
  - intros a l. rewrite ref_earrs. apply I5.
  - intros a b l. rewrite !ref_earrs. apply I6.
Qed.
Lemma abs_earrs h s g es : abs (with_earrs h s, h_with_edges g es) = with_edges (abs (h, g)) (abs_edges (with_earrs h s) es).
Proof. done. Qed.
Lemma evolves_earrs h s g es : evolves (h, g) (with_earrs h s, h_with_edges g es).
Proof. constructor; cbn; auto; intros a l; rewrite ref_earrs; auto. Qed.

Lemma filter_fold_spec grow (keep : eobj -> bool) (keep' : edge -> bool) h0 ps :
  (forall p, keep (at_edge h0 p) = keep' (abs_edge h0 p)) -> Forall (fun p => p < next (eobjs h0)) ps ->
  forall s es, let h := with_earrs h0 s in swf s -> wf_edges h es ->
  let r := fold_left (fun acc p => if keep (at_edge acc.1 p) then h_edges_add grow acc.1 acc.2 p else acc) ps (h, es) in
  exists s', r.1 = with_earrs h0 s' /\ swf s' /\ wf_edges r.1 r.2
    /\ abs_edges r.1 r.2 = fold_left (fun acc e => if keep' e then edges_add acc e else acc) (map (abs_edge h0) ps) (abs_edges h es).
Proof.
  intros K. induction ps as [|p ps IH]; intros F s es h S W r.
  - exists s. done.
  - subst r. inversion F as [|? ? F1 F2]; subst. cbn [fold_left map fst snd]. change (at_edge h p) with (at_edge h0 p). rewrite K.
    destruct (keep' (abs_edge h0 p)).
    + destruct (h_edges_add_spec grow h es p S W F1) as (s1 & x & E1 & E2 & E3 & E4 & E5).
      rewrite E1 in *. cbn [fst snd] in *. change (abs_edge h p) with (abs_edge h0 p) in E5. rewrite <- E5.
      apply (IH F2 s1 _ E3 E4).
    + apply (IH F2 s es S W).
Qed.
Lemma h_filter_edges_spec grow keep keep' h g : inv (h, g) -> (forall p, keep (at_edge h p) = keep' (abs_edge h p)) ->
  let r := h_filter_edges grow keep h (elems (earrs h) (he_edges (hg_edges g))) in
  inv (r.1, h_with_edges g r.2) /\ abs (r.1, h_with_edges g r.2) = with_edges (abs (h, g)) (filter_edges keep' (g_edges (abs (h, g))))
  /\ evolves (h, g) (r.1, h_with_edges g r.2).
Proof.
  intros I K r. unfold h_filter_edges, h_new_edges in r.
  change (alloc (earrs h) []) with ((alloc (earrs h) []).1, next (earrs h)) in r. cbn [fst snd] in r.
  assert (S : swf (alloc (earrs h) []).1) by (apply swf_alloc; apply (i_heap _ I)).
  destruct (filter_fold_spec grow keep keep' h (elems (earrs h) (he_edges (hg_edges g))) K (we_elems _ _ (i_edges _ I)) _
    (HEdges ∅ ∅ (Slice (next (earrs h)) 0)) S) as (s' & E1 & E2 & E3 & E4).
  { constructor; cbn; [split; cbn; [lia|apply Nat.le_0_l]|constructor| |];
      intros a inner b l Ha; by rewrite lookup_empty in Ha. }
  fold r in E1, E3, E4. destruct r as [h' es']. cbn [fst snd] in *. subst h'.
  split; [by apply inv_earrs|split; [|by apply evolves_earrs]].
  rewrite abs_earrs, E4. unfold filter_edges. cbn. do 2 f_equal. unfold abs_edges, abs_index, elems; cbn. by rewrite fmap_empty.
Qed.

(** ** The calls *)
(** What is to be shown of one call: the invariant is kept, the result is that of the by-value graph. *)
Definition simulates (w : world) (r : world * option err) (r' : agraph * option err) : Prop :=
  inv r.1 /\ (abs r.1, r.2) = r' /\ evolves w r.1.

Lemma add_port_edge_sim grow o w s sp d dp dir m : inv w ->
  simulates w (h_add_port_edge grow o w s sp d dp dir m) (add_port_edge o (abs w) s sp d dp dir (arg w.1 m)).
Proof.
  destruct w as [h g]. intros I. unfold h_add_port_edge, add_port_edge. cbn [fst].
  destruct (h_new_attrs_spec h (o_attrs o 0 (arg h m)) (wh_maps _ (i_heap _ I))) as (a & E & F). rewrite E. clear E.
  destruct (fresh_ok h a g I) as (J & A & V).
  destruct (new_attrs (o_attrs o 0 (arg h m))) as [a'|e] eqn:N; cbn [fst snd].
  2:{ split; [done|]. split; [cbn [fst snd]; by rewrite A|done]. }
  specialize (F a' eq_refl) as ->. set (l := next (maps h)). set (h1 := fresh_map h a) in *.
  unfold alloc. set (p := next (eobjs h1)). set (e := EObj s sp d dp dir l).
  set (h2 := with_eobjs h1 (Store (<[p:=e]> (cells (eobjs h1))) (S p))).
  assert (PF : cells (eobjs h1) !! p = None) by (apply swf_fresh; apply (i_heap _ J)).
  assert (SE : swf (eobjs h2)) by (apply (swf_alloc (eobjs h1)); apply (i_heap _ J)).
  assert (KE : forall q, q < p -> abs_edge h2 q = abs_edge h1 q).
  { intros q Hq. unfold abs_edge, at_edge; cbn. rewrite lookup_insert_ne by (unfold p in *; cbn in *; lia). done. }
  assert (RF : forall a' l', ref h1 g a' = Some l' -> l' < l).
  { intros a' l' R. apply (i_bound _ I a' l'). cbn. by destruct a'. }
  assert (R2 : forall a', ref h2 g a' = if decide (a' = OEdge p) then Some l else ref h1 g a').
  { intros a'. destruct (decide (a' = OEdge p)) as [->|Ne]; [cbn; by rewrite lookup_insert|].
    destruct a'; try done. cbn. rewrite lookup_insert_ne by congruence. done. }
  assert (I2 : inv (h2, g)).
  { destruct J as [[? ? ? ? ? ?] J2 J3 J4 J5 J6]. constructor; cbn in *.
    - by constructor.
    - by destruct J2; constructor.
    - assert (X : forall ps, Forall (fun p0 => p0 < next (eobjs h)) ps -> Forall (fun p0 => p0 < S p) ps).
      { intros ps. apply List.Forall_impl. intros q Hq. unfold p; cbn. lia. }
      destruct J3 as [K1 K2 K3 K4]; constructor; cbn.
      + exact K1.
      + by apply X.
      + intros a1 inner b l1 H1 H2'. apply X. by eapply K3.
      + intros a1 inner b l1 H1 H2'. apply X. by eapply K4.
    - exact J4.
    - intros a1 l1. rewrite R2. destruct (decide (a1 = OEdge p)) as [->|]; [intros [= <-]; unfold l; lia|apply J5].
    - intros a1 b1 l1. rewrite !R2. repeat case_decide; intros H1 H2'; subst; try done.
      + injection H1 as <-. apply RF in H2'. lia.
      + injection H2' as <-. apply RF in H1. lia.
      + by eapply J6. }
  assert (W1 : wf_edges h2 (hg_edges g)) by apply I2.
  assert (AE : abs_edges h2 (hg_edges g) = abs_edges h1 (hg_edges g)).
  { apply abs_edges_ext; [apply J|done|]. exact KE. }
  destruct (h_edges_add_spec grow h2 (hg_edges g) p (wh_earrs _ (i_heap _ I2)) W1) as (s1 & x & E1 & E2 & E3 & E4 & E5).
  { unfold h2; cbn. lia. }
  rewrite E1 in *. cbn [fst snd] in *. split; [by apply inv_earrs|]. split; [|].
  - f_equal. cbn [fst snd]. rewrite abs_earrs, E5, AE. rewrite <- A. unfold abs, with_edges; cbn. f_equal. f_equal.
    unfold abs_edge, at_edge; cbn. rewrite lookup_insert; cbn. f_equal. apply at_map_fresh.
  - eapply evolves_trans; [|apply evolves_earrs]. constructor; cbn [fst snd].
    + cbn. lia.
    + intros a1 l1. rewrite R2. destruct (decide (a1 = OEdge p)) as [->|]; [intros [= <-]; by right|left; by destruct a1].
    + intros l1 L1 _. apply at_map_fresh_ne. lia.
    + intros q e' He. cbn. rewrite lookup_insert_ne; [done|]. intros <-. cbn in *. congruence.
    + done.
Qed.

Lemma deref_abs h ns p n : cells (nobjs h) !! p = Some n -> deref (abs_nodes h ns) p = abs_node h n.
Proof. intros E. unfold deref; cbn. rewrite lookup_fmap, E. done. Qed.
Lemma ref_rels h g r a : ref h (h_with_rels g r) a = ref h g a.
Proof. by destruct a. Qed.
Lemma inv_rels h g r : inv (h, g) -> inv (h, h_with_rels g r).
Proof.
  intros [I1 I2 I3 I4 I5 I6]. constructor; cbn in *; done || intros a; intros; rewrite ?ref_rels in *; eauto.
Qed.
Lemma evolves_rels w h g r : evolves w (h, g) -> evolves w (h, h_with_rels g r).
Proof. intros [E1 E2 E3 E4 E5]. constructor; cbn in *; auto; intros a l; rewrite ref_rels; apply E2. Qed.
Lemma abs_rels h g r : abs (h, h_with_rels g r) = with_rels (abs (h, g)) r.
Proof. done. Qed.

Lemma add_node_sim grow o w p n m : inv w -> simulates w (h_add_node grow o w p n m) (add_node o (abs w) p n (arg w.1 m)).
Proof.
  destruct w as [h g]. intros I. unfold h_add_node, add_node. cbn [fst].
  destruct (h_new_attrs_spec h (o_attrs o 0 (arg h m)) (wh_maps _ (i_heap _ I))) as (a & E & F). rewrite E. clear E.
  destruct (fresh_ok h a g I) as (J & A & V).
  destruct (new_attrs (o_attrs o 0 (arg h m))) as [a'|e] eqn:N; cbn [fst snd].
  2:{ split; [done|]. split; [cbn [fst snd]; by rewrite A|done]. }
  specialize (F a' eq_refl) as ->. set (l := next (maps h)). assert (ML : at_map (fresh_map h a) l = a) by apply at_map_fresh.
  set (h1 := fresh_map h a) in *. rewrite <- A.
  unfold h_nodes_add. rewrite ML. unfold nodes_add.
  change (nodes_lookup (g_nodes (abs (h1, g)))) with (hn_lookup (hg_nodes g)).
  destruct (hn_lookup (hg_nodes g) !! n) as [q|] eqn:L; cbn [fst snd].
  - (* a known node *)
    assert (Q : is_Some (cells (nobjs h1) !! q)).
    { apply (wh_nobjs _ (i_heap _ J)). cbn. by eapply (wn_lookup _ _ (i_nodes _ J)). }
    destruct Q as [nd Q]. assert (QN : at_node h1 q = nd) by (unfold at_node; by rewrite Q). rewrite QN.
    assert (R : ref h1 g (ONode q) = Some (no_attrs nd)) by (cbn in *; by rewrite Q).
    rewrite h_extend_upd; [|apply (i_heap _ J)|by apply (i_bound _ J) in R].
    destruct (upd_ok h1 (no_attrs nd) (extend (at_map h1 (no_attrs nd)) (o_attrs o 1 a)) g (ONode q) J R) as [J' V']; [done|].
    unfold simulates; cbn [fst snd].
    set (hf := upd h1 _ _) in *. assert (HG : forall x, h_with_nodes x (hg_nodes x) = x) by (by intros []). rewrite HG.
    split; [by apply inv_rels|]. split; [|apply evolves_rels; by eapply evolves_trans].
    f_equal. rewrite abs_rels. unfold hf. rewrite (abs_upd_node h1 _ g q nd J Q).
    change (g_nodes (abs (h1, g))) with (abs_nodes h1 (hg_nodes g)). rewrite (deref_abs h1 _ q nd Q). done.
  - (* a new node *)
    unfold alloc. cbn [fst snd]. set (q := next (nobjs h1)). set (nd := NObj n l).
    pose proof (append1_spec grow (narrs h1) (hn_nodes (hg_nodes g)) q (wh_narrs _ (i_heap _ J)) (wn_slice _ _ (i_nodes _ J))) as (A1 & A2 & A3).
    destruct (append1 grow (narrs h1) (hn_nodes (hg_nodes g)) q) as [s x]. cbn [fst snd] in *.
    set (h2 := with_narrs (with_nobjs h1 (Store (<[q:=nd]> (cells (nobjs h1))) (S q))) s).
    set (g2 := h_with_nodes g (HNodes (<[n:=q]> (hn_lookup (hg_nodes g))) x)).
    assert (QF : cells (nobjs h1) !! q = None) by (apply swf_fresh; apply (i_heap _ J)).
    assert (RF : forall a' l', ref h1 g a' = Some l' -> l' < l).
    { intros a' l' R. apply (i_bound _ I a' l'). cbn. by destruct a'. }
    assert (R2 : forall a', ref h2 g2 a' = if decide (a' = ONode q) then Some l else ref h1 g a').
    { intros a'. destruct (decide (a' = ONode q)) as [->|Ne]; [cbn; by rewrite lookup_insert|].
      destruct a'; try done. cbn. rewrite lookup_insert_ne by congruence. done. }
    assert (I2 : inv (h2, g2)).
    { assert (SN : swf (nobjs h2)) by (apply (swf_alloc (nobjs h1)); apply (i_heap _ J)).
      destruct J as [[? ? ? ? ? ?] J2 J3 J4 J5 J6]. constructor; cbn in *.
      - by constructor.
      - destruct J2 as [K1 K2 K3]; constructor; cbn.
        + done.
        + rewrite A3. apply Forall_app. split; [|constructor; [lia|constructor]].
          eapply List.Forall_impl; [|exact K2]. intros q' Hq. unfold q; cbn in *. lia.
        + intros n' p'. destruct (decide (n' = n)) as [->|Ne]; [rewrite lookup_insert; intros [= <-]; lia|].
          rewrite lookup_insert_ne by congruence. intros Hp. apply K3 in Hp. unfold q; cbn in *. lia.
      - by destruct J3; constructor.
      - exact J4.
      - intros a1 l1. rewrite R2. destruct (decide (a1 = ONode q)) as [->|]; [intros [= <-]; unfold l; lia|apply J5].
      - intros a1 b1 l1. rewrite !R2. destruct (decide (a1 = ONode q)) as [X1|_], (decide (b1 = ONode q)) as [X2|_]; intros H1 H2'; [congruence| | |].
        + injection H1 as <-. apply RF in H2'. lia.
        + injection H2' as <-. apply RF in H1. lia.
        + by eapply J6. }
    unfold simulates; cbn [fst snd]. split; [by apply inv_rels|]. split.
    + f_equal. rewrite abs_rels. unfold abs, with_rels, with_nodes. cbn [g_attrs g_name g_directed g_strict g_nodes g_edges g_subs g_rels hg_nodes hg_rels hg_attrs hg_name
        hg_directed hg_strict hg_edges hg_subs h2 g2 h_with_nodes]. f_equal. unfold abs_nodes; cbn. f_equal.
      * exact A3.
      * rewrite fmap_insert. f_equal. unfold abs_node; cbn. f_equal. exact ML.
    + apply evolves_rels. constructor; cbn [fst snd].
      * cbn. lia.
      * intros a1 l1. rewrite R2. destruct (decide (a1 = ONode q)) as [->|]; [intros [= <-]; by right|left; by destruct a1].
      * intros l1 L1 _. apply at_map_fresh_ne. lia.
      * done.
      * intros q' e' He. cbn. rewrite lookup_insert_ne; [done|]. intros <-. cbn in *. congruence.
Qed.

(** *** Removal of nodes *)
Lemma h_nodes_remove_loop_spec h ns name : wf_heap h -> wf_nodes h ns ->
  forall post pre, elems (narrs h) (hn_nodes ns) = pre ++ post ->
  let r := h_nodes_remove_loop h ns name (length pre) post in
  exists s, r.1.1 = with_narrs h s /\ swf s /\ wf_nodes r.1.1 r.1.2
    /\ (abs_nodes r.1.1 r.1.2, r.2) = nodes_remove_loop (abs_nodes h ns) name pre post
    /\ (r.2 <> None -> r.1.1 = h /\ r.1.2 = ns).
Proof.
  intros Wh W. induction post as [|p post IH]; intros pre E r.
  - exists (narrs h). subst r. cbn. split; [by destruct h|]. split; [apply Wh|]. split; [exact W|]. split; [done|]. by destruct ns, h.
  - subst r. cbn [h_nodes_remove_loop nodes_remove_loop].
    assert (P : p < next (nobjs h)).
    { pose proof (wn_elems _ _ W) as F. rewrite E in F. apply Forall_app in F as [_ F]. by inversion F. }
    apply (wh_nobjs _ Wh) in P as [nd P]. rewrite (deref_abs _ _ _ _ P). unfold at_node. rewrite P. cbn [default from_option id no_name node_name abs_node].
    destruct (str_eqb (no_name nd) name) eqn:Q.
    + assert (LT : length pre < sl_len (hn_nodes ns)).
      { assert (length (elems (narrs h) (hn_nodes ns)) <= sl_len (hn_nodes ns)) as B by (unfold elems; rewrite take_length; lia).
        rewrite E, app_length in B. cbn in B. lia. }
      pose proof (cut_out_spec (narrs h) (hn_nodes ns) (length pre) (wh_narrs _ Wh) (wn_slice _ _ W) LT) as (A1 & A2 & A3).
      destruct (cut_out (narrs h) (hn_nodes ns) (length pre)) as [s x]. cbn [fst snd] in *.
      assert (A4 : elems s x = pre ++ post).
      { rewrite A3, E. rewrite take_app. f_equal. rewrite cons_middle, (assoc_L (++)). apply drop_app_alt. rewrite app_length. cbn. lia. }
      exists s. split; [done|]. split; [done|]. split; [|split; [|done]].
      * constructor; cbn; [done| |].
        -- rewrite A4. pose proof (wn_elems _ _ W) as F. rewrite E in F. apply Forall_app in F as [F1 F2]. apply Forall_app. split; [done|]. by inversion F2.
        -- intros n' p'. destruct (decide (n' = name)) as [->|Ne]; [by rewrite lookup_delete|]. rewrite lookup_delete_ne by congruence. apply W.
      * unfold abs_nodes; cbn. by rewrite A4.
    + specialize (IH (pre ++ [p])). rewrite app_length in IH. cbn in IH. replace (length pre + 1) with (S (length pre)) in IH by lia.
      apply IH. by rewrite <- (assoc_L (++)).
Qed.
Lemma remove_node_sim grow w p n : inv w -> simulates w (h_remove_node grow w p n) (remove_node (abs w) p n).
Proof.
  destruct w as [h g]. intros I. unfold h_remove_node, remove_node, h_nodes_remove, nodes_remove.
  change (g_nodes (abs (h, g))) with (abs_nodes h (hg_nodes g)). change (nodes_list (abs_nodes h (hg_nodes g))) with (elems (narrs h) (hn_nodes (hg_nodes g))).
  destruct (h_nodes_remove_loop_spec h (hg_nodes g) n (i_heap _ I) (i_nodes _ I) _ [] eq_refl) as (s & E1 & E2 & E3 & E4 & E5).
  cbn [length] in *. destruct (h_nodes_remove_loop h (hg_nodes g) n 0 (elems (narrs h) (hn_nodes (hg_nodes g)))) as [[h1 ns] r]. cbn [fst snd] in *.
  rewrite <- E4. destruct r as [e|].
  { destruct E5 as [-> ->]; [done|]. unfold simulates; cbn [fst snd]. assert (HG : forall x, h_with_nodes x (hg_nodes x) = x) by (by intros []). rewrite HG.
    split; [done|]. split; [done|apply evolves_refl]. }
  clear E4 E5. subst h1. set (g1 := h_with_rels (h_with_nodes g ns) (relations_remove (hg_rels g) p n)).
  assert (RR : forall a, ref (with_narrs h s) g1 a = ref h g a) by (by intros []).
  assert (I1 : inv (with_narrs h s, g1)).
  { destruct I as [[? ? ? ? ? ?] I2 I3 I4 I5 I6]. constructor; cbn in *.
    - by constructor.
    - done.
    - by destruct I3; constructor.
    - exact I4.
    - intros a l. rewrite RR. apply I5.
    - intros a b l. rewrite !RR. apply I6. }
  assert (V1 : evolves (h, g) (with_narrs h s, g1)).
  { constructor; cbn [fst snd]; auto; intros a l; rewrite RR; auto. }
  pose proof (h_filter_edges_spec grow (fun e => negb (str_eqb (eo_dst e) n || str_eqb (eo_src e) n))
    (fun e => negb (str_eqb (e_dst e) n || str_eqb (e_src e) n)) (with_narrs h s) g1 I1 (fun _ => eq_refl)) as (F1 & F2 & F3).
  change (hg_edges g1) with (hg_edges g) in *. 
  destruct (h_filter_edges grow (fun e => negb (str_eqb (eo_dst e) n || str_eqb (eo_src e) n)) (with_narrs h s) (elems (earrs (with_narrs h s)) (he_edges (hg_edges g)))) as [h2 es].
  cbn [fst snd] in *. unfold simulates; cbn [fst snd]. split; [done|]. split; [|by eapply evolves_trans].
  rewrite F2. done.
Qed.

(** *** Attributes and subgraphs *)
Lemma add_attr_sim w p f v : inv w -> simulates w (h_add_attr w p f v) (add_attr (abs w) p f v).
Proof.
  destruct w as [h g]. intros I. unfold h_add_attr, add_attr. change (g_name (abs (h, g))) with (hg_name g).
  destruct (str_eqb (hg_name g) p).
  - assert (R : ref h g OGraph = Some (hg_attrs g)) by done.
    rewrite h_attrs_add_upd; [|apply (i_heap _ I)|by apply (i_bound _ I) in R].
    change (g_attrs (abs (h, g))) with (at_map h (hg_attrs g)).
    destruct (attrs_add (at_map h (hg_attrs g)) f v) as [a e]. cbn [fst snd].
    destruct (upd_ok h (hg_attrs g) a g OGraph I R) as [I' V]; [done|].
    split; [done|]. split; [|done]. cbn [fst snd]. f_equal. by apply abs_upd_graph.
  - change (g_subs (abs (h, g))) with (abs_subs h (hg_subs g)). unfold abs_subs at 1. rewrite lookup_fmap.
    destruct (hg_subs g !! p) as [q|] eqn:Q; cbn [fmap option_fmap option_map].
    2:{ split; [done|]. split; [done|]. apply evolves_refl. }
    destruct (i_subs _ I p q Q) as [l L]. cbn in L.
    assert (R : ref h g (OSub q) = Some l) by (cbn; by rewrite L).
    assert (AS : at_sub h q = SObj l p) by (unfold at_sub; by rewrite L). unfold abs_sub. rewrite AS. cbn [so_attrs so_name sub_attrs sub_name].
    rewrite h_attrs_add_upd; [|apply (i_heap _ I)|by apply (i_bound _ I) in R].
    destruct (attrs_add (at_map h l) f v) as [a e]. cbn [fst snd].
    destruct (upd_ok h l a g (OSub q) I R) as [I' V]; [done|].
    split; [done|]. split; [|done]. cbn [fst snd]. f_equal. by eapply abs_upd_sub.
Qed.
Lemma add_attrs_loop_sim n l : forall w, inv w -> simulates w (h_add_attrs_loop w n l) (add_attrs_loop (abs w) n l).
Proof.
  induction l as [|[k v] l IH]; intros w I; cbn.
  - split; [done|]. split; [done|]. apply evolves_refl.
  - destruct (add_attr_sim w n k v I) as (J & E & V). destruct (h_add_attr w n k v) as [w' r]. cbn [fst snd] in *. rewrite <- E.
    destruct r as [e|]; [done|]. destruct (IH w' J) as (J' & E' & V'). split; [done|]. split; [done|]. by eapply evolves_trans.
Qed.
Lemma subs_add_sim h g n : inv (h, g) -> let r := h_subs_add h (hg_subs g) n in
  inv (r.1, h_with_subs g r.2) /\ abs (r.1, h_with_subs g r.2) = with_subs (abs (h, g)) (subs_add (g_subs (abs (h, g))) n)
  /\ evolves (h, g) (r.1, h_with_subs g r.2) /\ (forall m, arg h m = arg r.1 m \/ m = Some (next (maps h))).
Proof.
  intros I r. subst r. unfold h_subs_add, subs_add. change (g_subs (abs (h, g))) with (abs_subs h (hg_subs g)).
  unfold abs_subs at 1. rewrite lookup_fmap. destruct (hg_subs g !! n) as [q|] eqn:Q; cbn [fmap option_fmap option_map fst snd].
  { assert (HG : forall x, h_with_subs x (hg_subs x) = x) by (by intros []). rewrite HG. split; [done|]. split; [done|].
    split; [apply evolves_refl|by left]. }
  unfold new_map, alloc. cbn [fst snd]. set (l := next (maps h)).
  destruct (fresh_ok h ∅ g I) as (J & A & _). rewrite <- A. unfold fresh_map, alloc in J, A. cbn [fst snd] in J, A.
  assert (ML : at_map (fresh_map h ∅) l = ∅) by apply at_map_fresh. unfold fresh_map, alloc in ML. cbn [fst] in ML.
  assert (NE : forall l', l' <> l -> at_map (fresh_map h ∅) l' = at_map h l') by (intros; by apply at_map_fresh_ne).
  unfold fresh_map, alloc in NE. cbn [fst] in NE.
  set (h1 := with_maps h _) in *. set (q := next (sobjs h1)). set (so := SObj l n).
  set (h2 := with_sobjs h1 (Store (<[q:=so]> (cells (sobjs h1))) (S q))). set (g2 := h_with_subs g (<[n:=q]> (hg_subs g))).
  assert (QF : cells (sobjs h1) !! q = None) by (apply swf_fresh; apply (i_heap _ J)).
  assert (RF : forall a' l', ref h1 g a' = Some l' -> l' < l).
  { intros a' l' R. apply (i_bound _ I a' l'). cbn. by destruct a'. }
  assert (R2 : forall a', ref h2 g2 a' = if decide (a' = OSub q) then Some l else ref h1 g a').
  { intros a'. destruct (decide (a' = OSub q)) as [->|Ne]; [cbn; by rewrite lookup_insert|].
    destruct a'; try done. cbn. rewrite lookup_insert_ne by congruence. done. }
  assert (KS : forall q' x, cells (sobjs h1) !! q' = Some x -> cells (sobjs h2) !! q' = Some x).
  { intros q' x E. cbn. rewrite lookup_insert_ne; [done|]. intros <-. congruence. }
  split; [|split; [|split]].
  - assert (SN : swf (sobjs h2)) by (apply (swf_alloc (sobjs h1)); apply (i_heap _ J)).
    destruct J as [[? ? ? ? ? ?] J2 J3 J4 J5 J6]. constructor; cbn [fst snd] in *.
    + by constructor.
    + by destruct J2; constructor.
    + by destruct J3; constructor.
    + intros n' q'. cbn. destruct (decide (n' = n)) as [->|Ne].
      * rewrite lookup_insert. intros [= <-]. exists l. by rewrite lookup_insert.
      * rewrite lookup_insert_ne by congruence. intros Hq. destruct (J4 n' q' Hq) as [l' L']. exists l'. by apply KS.
    + intros a1 l1. rewrite R2. destruct (decide (a1 = OSub q)) as [->|]; [intros [= <-]; cbn; lia|apply J5].
    + intros a1 b1 l1. rewrite !R2. destruct (decide (a1 = OSub q)) as [X1|_], (decide (b1 = OSub q)) as [X2|_]; intros H1 H2'; [congruence| | |].
      * injection H1 as <-. apply RF in H2'. lia.
      * injection H2' as <-. apply RF in H1. lia.
      * by eapply J6.
  - unfold abs, with_subs. cbn [g_attrs g_name g_directed g_strict g_nodes g_edges g_subs g_rels hg_nodes hg_rels hg_attrs hg_name
        hg_directed hg_strict hg_edges hg_subs h2 g2 h_with_subs]. f_equal.
    unfold abs_subs at 1. rewrite fmap_insert. f_equal.
    + unfold abs_sub, at_sub; cbn. rewrite lookup_insert; cbn. f_equal. exact ML.
    + change (abs_subs h2 (hg_subs g) = abs_subs h (hg_subs g)). apply abs_subs_ext; [apply (i_subs _ I)|].
      intros n' q' l' Hn Hq. split; [by apply KS|]. apply NE. assert (l' < l); [|lia].
      apply (i_bound _ I (OSub q') l'). cbn. by rewrite Hq.
  - constructor; cbn [fst snd].
    + cbn. lia.
    + intros a1 l1. rewrite R2. destruct (decide (a1 = OSub q)) as [->|]; [intros [= <-]; by right|left; by destruct a1].
    + intros l1 L1 _. apply NE. fold l in L1. lia.
    + done.
    + done.
  - intros [l'|]; [|by left]. destruct (decide (l' = l)) as [->|Ne]; [by right|left; symmetry; by apply NE].
Qed.
Lemma add_subgraph_sim o w p n m : inv w -> (forall l, m = Some l -> l < next (maps w.1)) ->
  simulates w (h_add_subgraph o w p n m) (add_subgraph o (abs w) p n (arg w.1 m)).
Proof.
  destruct w as [h g]. intros I M. unfold h_add_subgraph, add_subgraph. cbn [fst] in *.
  destruct (subs_add_sim h (h_with_rels g (relations_add (hg_rels g) p n)) n (inv_rels _ _ _ I)) as (J & A & V & Q).
  change (hg_subs (h_with_rels g (relations_add (hg_rels g) p n))) with (hg_subs g) in *.
  destruct (h_subs_add h (hg_subs g) n) as [h1 ss]. cbn [fst snd] in *.
  destruct (Q m) as [Qm|Qm]; [|specialize (M _ Qm); lia]. rewrite Qm. rewrite abs_rels in A.
  change (g_rels (abs (h, g))) with (hg_rels g). rewrite <- A.
  destruct (add_attrs_loop_sim n (o_attrs o 0 (arg h1 m)) _ J) as (J' & E' & V'). split; [done|]. split; [done|].
  eapply evolves_trans; [|exact V']. eapply evolves_trans; [|exact V]. apply evolves_rels, evolves_refl.
Qed.
Lemma remove_nodes_loop_sim grow p l : forall w, inv w -> simulates w (h_remove_nodes_loop grow w p l) (remove_nodes_loop (abs w) p l).
Proof.
  induction l as [|c l IH]; intros w I; cbn.
  - split; [done|]. split; [done|]. apply evolves_refl.
  - destruct (remove_node_sim grow w p c I) as (J & E & V). destruct (h_remove_node grow w p c) as [w' r]. cbn [fst snd] in *. rewrite <- E.
    destruct r as [e|]; [done|]. destruct (IH w' J) as (J' & E' & V'). split; [done|]. split; [done|]. by eapply evolves_trans.
Qed.
Lemma remove_subgraph_sim grow o w p n : inv w -> simulates w (h_remove_subgraph grow o w p n) (remove_subgraph o (abs w) p n).
Proof.
  intros I. unfold h_remove_subgraph, remove_subgraph.
  assert (R0 : g_rels (abs w) = hg_rels w.2) by (by destruct w). rewrite R0.
  destruct (remove_nodes_loop_sim grow p (o_names o 0 (children (hg_rels w.2) n)) w I) as (J & E & V).
  destruct (h_remove_nodes_loop grow w p (o_names o 0 (children (hg_rels w.2) n))) as [w1 r]. cbn [fst snd] in *. rewrite <- E.
  destruct r as [e|]; [by destruct w1|]. destruct w1 as [h1 g1].
  set (g3 := h_with_subs (h_with_rels g1 (relations_remove (hg_rels g1) p n)) (delete n (hg_subs g1))).
  assert (I3 : inv (h1, g3)).
  { destruct J as [J1 J2 J3 J4 J5 J6]. constructor; cbn [fst snd] in *; [done|done|done| | |].
    - intros n' q'. cbn. destruct (decide (n' = n)) as [->|Ne]; [by rewrite lookup_delete|]. rewrite lookup_delete_ne by congruence. apply J4.
    - intros a l R. apply (J5 a). by destruct a.
    - intros a b l R1 R2. apply (J6 a b l); by destruct a, b. }
  pose proof (h_filter_edges_spec grow (fun e => negb (str_eqb (eo_dst e) n || str_eqb (eo_dst_port e) n || str_eqb (eo_src e) n || str_eqb (eo_src_port e) n))
    (fun e => negb (str_eqb (e_dst e) n || str_eqb (e_dst_port e) n || str_eqb (e_src e) n || str_eqb (e_src_port e) n)) h1 g3 I3 (fun _ => eq_refl)) as (F1 & F2 & F3).
  fold g3. destruct (h_filter_edges grow _ h1 (elems (earrs h1) (he_edges (hg_edges g3)))) as [h2 es]. cbn [fst snd] in *.
  split; [done|]. split.
  - cbn [fst snd]. rewrite F2. f_equal. f_equal. unfold abs, with_subs, with_rels; cbn. f_equal. unfold abs_subs. by rewrite fmap_delete.
  - eapply evolves_trans; [|exact F3]. eapply evolves_trans; [exact V|]. constructor; cbn [fst snd]; auto; intros a l R; left; by destruct a.
Qed.

Theorem hexec_sim grow o c w : inv w -> (forall l, arg_of c = Some l -> l < next (maps w.1)) ->
  simulates w (hexec grow o c w) (exec o (with_contents (arg w.1) c) (abs w)).
Proof.
  intros I M. destruct c; cbn [hexec exec with_contents arg_of] in *.
  1-3: destruct w as [h g]; cbn [hexec exec with_contents]; split; [destruct I as [J1 J2 J3 J4 J5 J6]; constructor; cbn [fst snd] in *; [done|done|done|done|
     intros a l R; apply (J5 a); by destruct a|intros a b' l R1 R2; apply (J6 a b' l); by destruct a, b']|
    split; [done|constructor; cbn [fst snd]; auto; intros a l R; left; by destruct a]].
  all: destruct w as [h g].
  - by apply add_port_edge_sim.
  - by apply add_port_edge_sim.
  - by apply add_node_sim.
  - by apply add_attr_sim.
  - by apply add_subgraph_sim.
  - by apply remove_node_sim.
  - by apply remove_subgraph_sim.
Qed.

(** ** Histories *)
Definition inv_mine (st : world * list nat) : Prop :=
  inv st.1 /\ NoDup st.2 /\ (forall l, l ∈ st.2 -> l < next (maps st.1.1) /\ forall a, ref st.1.1 st.1.2 a <> Some l).
Definition seen (st : world * list nat) : agraph * list attrs := (abs st.1, map (at_map st.1.1) st.2).
Lemma arg_content h mine m : arg h (ref_of mine m) = content_of (map (at_map h) mine) m.
Proof. destruct m as [i|]; cbn; [|done]. rewrite list_lookup_fmap. by destruct (mine !! i). Qed.
Lemma with_contents_refs f f' g c : (forall m, f (f' m) = g m) -> with_contents f (with_refs f' c) = with_contents g c.
Proof. intros E. destruct c; cbn; by rewrite ?E. Qed.
Lemma arg_of_refs mine c l : arg_of (with_refs (ref_of mine) c) = Some l -> l ∈ mine.
Proof.
  assert (X : forall m, ref_of mine m = Some l -> l ∈ mine) by (intros [i|] E; [by eapply elem_of_list_lookup_2|done]).
  destruct c; cbn; try done; apply X.
Qed.
Lemma alter_mine (h : heap) (g : hgraph) (mine : list nat) (i l : nat) (f : attrs -> attrs) : inv_mine (h, g, mine) -> mine !! i = Some l ->
  inv_mine (upd h l (f (at_map h l)), g, mine) /\ seen (upd h l (f (at_map h l)), g, mine) = (abs (h, g), alter f i (map (at_map h) mine)).
Proof.
  intros (I & N & M) E. cbn [fst snd] in *. destruct (M l) as [L R]; [by eapply elem_of_list_lookup_2|].
  split; [split; [|split]|]; cbn [fst snd].
  - apply inv_maps; [done|apply swf_put; [apply (i_heap _ I)|done]|done].
  - done.
  - intros l' Hl'. destruct (M l' Hl') as [L' R']. split; [done|]. intros a. unfold upd. rewrite ref_maps. apply R'.
  - unfold seen; cbn [fst snd]. f_equal.
    + apply abs_maps; [done|]. intros a l' Ra. apply at_map_upd_ne. intros ->. by eapply R.
    + apply list_eq. intros j. rewrite list_lookup_fmap. destruct (decide (j = i)) as [->|Ne].
      * rewrite list_lookup_alter, list_lookup_fmap, E. cbn. by rewrite at_map_upd.
      * rewrite list_lookup_alter_ne by congruence. rewrite list_lookup_fmap. destruct (mine !! j) as [l'|] eqn:F; [|done].
        cbn. f_equal. apply at_map_upd_ne. intros ->. apply Ne. by eapply NoDup_lookup.
Qed.
Lemma alter_out {A} (f : A -> A) i (l : list A) : l !! i = None -> alter f i l = l.
Proof.
  intros E. apply list_eq. intros j. destruct (decide (j = i)) as [->|Ne]; [by rewrite list_lookup_alter, E|by rewrite list_lookup_alter_ne].
Qed.
Lemma hstep_sim e st : inv_mine st -> let r := hstep e st in inv_mine r.1 /\ (seen r.1, r.2) = vstep e (seen st).
Proof.
  destruct st as [[h g] mine]. intros II. pose proof II as (I & N & M). cbn [fst snd] in I, N, M. destruct e as [m|i k v|i k|grow o c]; cbn [hstep vstep seen fst snd].
  - unfold new_map. change (alloc (maps h) m) with ((alloc (maps h) m).1, next (maps h)). cbn [fst snd]. fold (fresh_map h m).
    destruct (fresh_ok h m g I) as (J & A & V). split.
    + split; [done|]. cbn [fst snd]. split.
      * apply NoDup_app. split; [done|]. split; [|by apply NoDup_singleton]. intros l Hl Hl'. apply elem_of_list_singleton in Hl'. apply M in Hl as [Hl _]. lia.
      * intros l Hl. apply elem_of_app in Hl as [Hl|Hl].
        -- destruct (M l Hl) as [L R]. split; [cbn; lia|]. intros a. unfold fresh_map. rewrite ref_maps. apply R.
        -- apply elem_of_list_singleton in Hl as ->. split; [cbn; lia|]. intros a. unfold fresh_map. rewrite ref_maps. intros Ra. apply (i_bound _ I) in Ra. cbn in Ra. lia.
    + unfold seen; cbn [fst snd]. rewrite A, map_app. cbn. do 2 f_equal. f_equal.
      * apply map_ext_Forall. apply Forall_forall. intros l Hl. apply at_map_fresh_ne. apply M in Hl as [Hl _]. lia.
      * f_equal. apply at_map_fresh.
  - destruct (mine !! i) as [l|] eqn:E.
    + rewrite set_key_upd. destruct (alter_mine h g mine i l (fun m => <[k:=v]> m) II E) as [J A]. split; [done|]. cbn [fst snd]. by rewrite A.
    + split; [done|]. cbn [fst snd]. rewrite alter_out; [done|]. by rewrite list_lookup_fmap, E.
  - destruct (mine !! i) as [l|] eqn:E.
    + fold (upd h l (delete k (at_map h l))). destruct (alter_mine h g mine i l (fun m => delete k m) II E) as [J A]. split; [done|]. cbn [fst snd]. by rewrite A.
    + split; [done|]. cbn [fst snd]. rewrite alter_out; [done|]. by rewrite list_lookup_fmap, E.
  - destruct (hexec_sim grow o (with_refs (ref_of mine) c) (h, g) I) as (J & A & V).
    { intros l Hl. by apply M, (arg_of_refs mine c). }
    rewrite (with_contents_refs _ _ (content_of (map (at_map h) mine))) in A by (intros; apply arg_content).
    destruct (hexec grow o (with_refs (ref_of mine) c) (h, g)) as [w r]. cbn [fst snd] in *. rewrite <- A. split.
    + split; [done|]. split; [done|]. cbn [fst snd]. intros l Hl. destruct (M l Hl) as [L R].
      split; [pose proof (ev_maps _ _ V); cbn in *; lia|]. intros a Ra. destruct (ev_refs _ _ V a l Ra) as [Ra'|Ra']; [by eapply R|cbn in *; lia].
    + unfold seen; cbn [fst snd]. do 2 f_equal. apply map_ext_Forall. apply Forall_forall. intros l Hl. destruct (M l Hl) as [L R].
      apply (ev_at _ _ V); [done|]. intros a Ra. by apply R in Ra.
Qed.
Lemma hrun_sim evs : forall st, inv_mine st -> let r := hrun evs st in inv_mine r.1 /\ (seen r.1, r.2) = vrun evs (seen st).
Proof.
  induction evs as [|e evs IH]; intros st I; cbn [hrun vrun]; [done|].
  destruct (hstep_sim e st I) as [J A]. destruct (hstep e st) as [st1 r]. cbn [fst snd] in *. rewrite <- A.
  destruct (IH st1 J) as [K B]. destruct (hrun evs st1) as [st2 rs]. cbn [fst snd] in *. rewrite <- B. done.
Qed.
Lemma inv_new : inv h_new_graph.
Proof.
  unfold h_new_graph; cbn. constructor; cbn.
  - constructor; cbn; try apply swf_empty; apply (swf_alloc empty_store), swf_empty.
  - constructor; cbn; [split; cbn; [lia|apply Nat.le_0_l]|constructor|intros n p E; by rewrite lookup_empty in E].
  - constructor; cbn; [split; cbn; [lia|apply Nat.le_0_l]|constructor| |]; intros a inner b l E; by rewrite lookup_empty in E.
  - intros n p E. by rewrite lookup_empty in E.
  - intros [|p|p|p] l; cbn; rewrite ?lookup_empty; cbn; try done. intros [= <-]. lia.
  - intros [|p|p|p] [|q|q|q] l; cbn; rewrite ?lookup_empty; cbn; done.
Qed.
Lemma abs_new : abs h_new_graph = new_graph.
Proof. unfold abs, h_new_graph, abs_nodes, abs_edges, abs_index, abs_subs; cbn. by rewrite !fmap_empty. Qed.
Lemma inv_mine_new : inv_mine (h_new_graph, []).
Proof. split; [apply inv_new|]. split; [constructor|]. intros l Hl. by apply elem_of_nil in Hl. Qed.
Lemma seen_new : seen (h_new_graph, []) = (new_graph, []).
Proof. unfold seen. cbn [fst snd map]. by rewrite abs_new. Qed.
