(** Proofs for Pool.v: what a call on one graph leaves as it is on the heap. *)
From Coq Require Import Lia.
From Verif Require Import Maps Graph HeapGraph SpecHeap HeapProofs HeapSnap HeapRange Direct Pool.

Definition arr_frame (s : store (list nat)) (x : slice) (s' : store (list nat)) (x' : slice) : Prop :=
  next s <= next s' /\ (forall a, a < next s -> a <> sl_arr x -> cells s' !! a = cells s !! a) /\ (sl_arr x' = sl_arr x \/ next s <= sl_arr x').
Lemma arr_frame_refl s x : arr_frame s x s x.
Proof. split; [done|]. split; [done|by left]. Qed.
Lemma arr_frame_trans s x s1 x1 s2 x2 : arr_frame s x s1 x1 -> arr_frame s1 x1 s2 x2 -> arr_frame s x s2 x2.
Proof.
  intros (A1 & A2 & A3) (B1 & B2 & B3). split; [lia|]. split; [|lia]. intros a L N. rewrite B2; [by apply A2|lia|]. destruct A3 as [->|A3]; [done|lia].
Qed.
Lemma append1_frame grow s x p : arr_frame s x (append1 grow s x p).1 (append1 grow s x p).2.
Proof.
  unfold append1. destruct (Nat.ltb _ _); cbn.
  - split; [done|]. split; [|by left]. cbn. intros a _ N. by rewrite lookup_insert_ne by congruence.
  - split; [cbn; lia|]. split; [|by right]. cbn. intros a L _. rewrite lookup_insert_ne; [done|lia].
Qed.
Lemma cut_out_frame s x i : arr_frame s x (cut_out s x i).1 (cut_out s x i).2.
Proof. unfold cut_out. cbn. split; [done|]. split; [|by left]. cbn. intros a _ N. by rewrite lookup_insert_ne by congruence. Qed.

(** What a call on the graph of [w] leaves of the arrays and subgraphs of others *)
Record frame (w w' : world) : Prop := {
  f_attrs : hg_attrs w'.2 = hg_attrs w.2;
  f_narr : arr_frame (narrs w.1) (hn_nodes (hg_nodes w.2)) (narrs w'.1) (hn_nodes (hg_nodes w'.2));
  f_earr : arr_frame (earrs w.1) (he_edges (hg_edges w.2)) (earrs w'.1) (he_edges (hg_edges w'.2));
  f_next : next (sobjs w.1) <= next (sobjs w'.1);
  f_sobj : forall p s, cells (sobjs w.1) !! p = Some s -> cells (sobjs w'.1) !! p = Some s;
  f_subs : forall p s, cells (sobjs w.1) !! p = Some s -> (forall n, hg_subs w.2 !! n <> Some p) -> at_map w'.1 (so_attrs s) = at_map w.1 (so_attrs s);
  f_new : forall n p, hg_subs w'.2 !! n = Some p -> hg_subs w.2 !! n = Some p \/ next (sobjs w.1) <= p }.
Lemma frame_refl w : frame w w.
Proof. constructor; auto using arr_frame_refl. Qed.
Lemma frame_trans w w1 w2 : swf (sobjs w.1) -> frame w w1 -> frame w1 w2 -> frame w w2.
Proof.
  intros S [A1 A2 A3 A4 A5 A6 A7] [B1 B2 B3 B4 B5 B6 B7]. constructor; auto.
  - congruence.
  - by eapply arr_frame_trans.
  - by eapply arr_frame_trans.
  - lia.
  - intros p s E N. rewrite <- (A6 p s E N). apply (B6 p); [by apply A5|]. intros n H. apply A7 in H as [H|H]; [by apply (N n)|].
    assert (p < next (sobjs w.1)) by (apply S; eauto). lia.
  - intros n p H. apply B7 in H as [H|H]; [by apply A7|right; lia].
Qed.
(** Changes that do not concern arrays and subgraphs *)
Lemma frame_same h h' g g' : hg_attrs g' = hg_attrs g -> narrs h' = narrs h -> hn_nodes (hg_nodes g') = hn_nodes (hg_nodes g) ->
  earrs h' = earrs h -> he_edges (hg_edges g') = he_edges (hg_edges g) -> sobjs h' = sobjs h -> (forall n p, hg_subs g' !! n = Some p -> hg_subs g !! n = Some p) ->
  (forall p s, cells (sobjs h) !! p = Some s -> (forall n, hg_subs g !! n <> Some p) -> at_map h' (so_attrs s) = at_map h (so_attrs s)) ->
  frame (h, g) (h', g').
Proof.
  intros E1 E2 E3 E4 E5 E6 E7 K. constructor; cbn [fst snd]; rewrite ?E1, ?E2, ?E3, ?E4, ?E5, ?E6; auto using arr_frame_refl.
Qed.
Lemma frame_fresh h m g : inv (h, g) -> frame (h, g) (fresh_map h m, g).
Proof.
  intros I. apply frame_same; try done. intros p s E _. apply at_map_fresh_ne.
  assert (L : so_attrs s < next (maps h)); [|lia]. apply (i_bound _ I (OSub p)). cbn. by rewrite E.
Qed.
Lemma frame_upd h l m g a : inv (h, g) -> ref h g a = Some l -> (forall p, a = OSub p -> exists n, hg_subs g !! n = Some p) -> frame (h, g) (upd h l m, g).
Proof.
  intros I R O. apply frame_same; try done. intros p s E N. apply at_map_upd_ne. intros <-.
  assert (a = OSub p) by (apply (i_inj _ I a (OSub p) (so_attrs s)); [done|cbn; by rewrite E]). destruct (O p) as [n Hn]; [done|]. by apply (N n).
Qed.
Lemma frame_rels w h g r : frame w (h, g) -> frame w (h, h_with_rels g r).
Proof. by intros []. Qed.
Lemma frame_earrs h s g es : arr_frame (earrs h) (he_edges (hg_edges g)) s (he_edges es) -> frame (h, g) (with_earrs h s, h_with_edges g es).
Proof. intros A. constructor; cbn; auto using arr_frame_refl. Qed.
Lemma frame_narrs h s g ns : arr_frame (narrs h) (hn_nodes (hg_nodes g)) s (hn_nodes ns) -> frame (h, g) (with_narrs h s, h_with_nodes g ns).
Proof. intros A. constructor; cbn; auto using arr_frame_refl. Qed.

Lemma add_port_edge_frame grow o w s sp d dp dir m : inv w -> frame w (h_add_port_edge grow o w s sp d dp dir m).1.
Proof.
  destruct w as [h g]. intros I. unfold h_add_port_edge.
  destruct (h_new_attrs_spec h (o_attrs o 0 (arg h m)) (wh_maps _ (i_heap _ I))) as (a & E & F). rewrite E. clear E.
  pose proof (frame_fresh h a g I) as F1. destruct (fresh_ok h a g I) as (J & _ & _).
  destruct (new_attrs (o_attrs o 0 (arg h m))) as [a'|e]; cbn [fst snd]; [|done].
  unfold alloc, h_edges_add. cbn [fst snd]. set (h1 := fresh_map h a) in *. set (q := next (eobjs h1)). set (h2 := with_eobjs h1 _).
  pose proof (append1_frame grow (earrs h2) (he_edges (hg_edges g)) q) as A. destruct (append1 grow (earrs h2) (he_edges (hg_edges g)) q) as [t x]. cbn [fst snd] in *.
  eapply frame_trans; [apply (i_heap _ I)|exact F1|]. apply (frame_trans _ (h2, g)); [apply (i_heap _ J)| |].
  - by apply frame_same.
  - by apply frame_earrs.
Qed.
Lemma nodes_give_frame grow ord h g p : inv (h, g) -> is_Some (cells (nobjs h) !! p) ->
  let r := h_nodes_give grow ord h (hg_nodes g) p in frame (h, g) (r.1, h_with_nodes g r.2).
Proof.
  intros I [n N]. cbv zeta. unfold h_nodes_give. destruct (hn_lookup (hg_nodes g) !! no_name (at_node h p)) as [q|] eqn:L; cbn [fst snd].
  - assert (Q : is_Some (cells (nobjs h) !! q)) by (apply (wh_nobjs _ (i_heap _ I)); by eapply (wn_lookup _ _ (i_nodes _ I))).
    destruct Q as [nd Q]. assert (R : ref h g (ONode q) = Some (no_attrs nd)) by (cbn; by rewrite Q).
    assert (QN : at_node h q = nd) by (unfold at_node; by rewrite Q). rewrite QN.
    rewrite h_extend_upd; [|apply (i_heap _ I)|by apply (i_bound _ I) in R]. 
    assert (HG : forall x, h_with_nodes x (hg_nodes x) = x) by (by intros []). rewrite HG. by apply (frame_upd h _ _ g (ONode q)).
  - pose proof (append1_frame grow (narrs h) (hn_nodes (hg_nodes g)) p) as A. destruct (append1 grow (narrs h) (hn_nodes (hg_nodes g)) p) as [t x]. cbn [fst snd] in *.
    by apply frame_narrs.
Qed.
Lemma add_node_frame grow o w p n m : inv w -> frame w (h_add_node grow o w p n m).1.
Proof.
  destruct w as [h g]. intros I. unfold h_add_node.
  destruct (h_new_attrs_spec h (o_attrs o 0 (arg h m)) (wh_maps _ (i_heap _ I))) as (a & E & F). rewrite E. clear E.
  pose proof (frame_fresh h a g I) as F1. destruct (fresh_ok h a g I) as (J & _ & _).
  destruct (new_attrs (o_attrs o 0 (arg h m))) as [a'|e]; cbn [fst snd]; [|done].
  set (h1 := fresh_map h a) in *. set (l := next (maps h)). unfold h_nodes_add.
  destruct (hn_lookup (hg_nodes g) !! n) as [q|] eqn:L; cbn [fst snd].
  - assert (Q : is_Some (cells (nobjs h1) !! q)) by (apply (wh_nobjs _ (i_heap _ J)); by eapply (wn_lookup _ _ (i_nodes _ J))).
    destruct Q as [nd Q]. assert (R : ref h1 g (ONode q) = Some (no_attrs nd)) by (cbn in *; by rewrite Q).
    assert (QN : at_node h1 q = nd) by (unfold at_node; by rewrite Q). rewrite QN.
    rewrite h_extend_upd; [|apply (i_heap _ J)|by apply (i_bound _ J) in R].
    assert (HG : forall x, h_with_nodes x (hg_nodes x) = x) by (by intros []). rewrite HG. apply frame_rels.
    eapply frame_trans; [apply (i_heap _ I)|exact F1|]. by apply (frame_upd h1 _ _ g (ONode q)).
  - unfold alloc. cbn [fst snd]. set (q := next (nobjs h1)).
    pose proof (append1_frame grow (narrs h1) (hn_nodes (hg_nodes g)) q) as A. destruct (append1 grow (narrs h1) (hn_nodes (hg_nodes g)) q) as [t x]. cbn [fst snd] in *.
    apply frame_rels. eapply frame_trans; [apply (i_heap _ I)|exact F1|]. set (h2 := with_nobjs h1 _). apply (frame_trans _ (h2, g)); [apply (i_heap _ J)| |].
    + by apply frame_same.
    + by apply frame_narrs.
Qed.
Lemma filter_edges_frame grow keep h g ps : let r := h_filter_edges grow keep h ps in
  exists s, r.1 = with_earrs h s /\ arr_frame (earrs h) (he_edges (hg_edges g)) s (he_edges r.2).
Proof.
  cbv zeta. unfold h_filter_edges, h_new_edges, alloc. cbn [fst snd]. set (s0 := Store _ _). set (x0 := Slice _ _).
  assert (A0 : arr_frame (earrs h) (he_edges (hg_edges g)) s0 x0).
  { split; [cbn; lia|]. split; [|by right]. cbn. intros a L _. rewrite lookup_insert_ne; [done|lia]. }
  assert (X : forall ps acc s, acc.1 = with_earrs h s -> arr_frame (earrs h) (he_edges (hg_edges g)) s (he_edges acc.2) ->
    let r := fold_left (fun acc p => if keep (at_edge acc.1 p) then h_edges_add grow acc.1 acc.2 p else acc) ps acc in
    exists s', r.1 = with_earrs h s' /\ arr_frame (earrs h) (he_edges (hg_edges g)) s' (he_edges r.2)).
  { induction ps0 as [|p ps0 IH]; intros acc s E A; cbn [fold_left]; [by exists s|]. destruct (keep _); [|by apply (IH acc s)].
    unfold h_edges_add. pose proof (append1_frame grow (earrs acc.1) (he_edges acc.2) p) as B. destruct (append1 grow (earrs acc.1) (he_edges acc.2) p) as [t x]. cbn [fst snd] in *.
    apply (IH _ t); cbn [fst snd]; [by rewrite E|]. cbn. eapply arr_frame_trans; [exact A|]. by rewrite E in B. }
  by apply (X ps _ s0).
Qed.
Lemma nodes_remove_frame h ns name : forall ps i, let r := h_nodes_remove_loop h ns name i ps in
  exists s, r.1.1 = with_narrs h s /\ arr_frame (narrs h) (hn_nodes ns) s (hn_nodes r.1.2).
Proof.
  induction ps as [|p ps IH]; intros i; cbn [h_nodes_remove_loop].
  - exists (narrs h). cbn. split; [by destruct h|apply arr_frame_refl].
  - destruct (str_eqb _ _); [|apply IH]. pose proof (cut_out_frame (narrs h) (hn_nodes ns) i) as A. destruct (cut_out (narrs h) (hn_nodes ns) i) as [s x].
    exists s. done.
Qed.
Lemma remove_node_frame grow w p n : swf (sobjs w.1) -> frame w (h_remove_node grow w p n).1.
Proof.
  destruct w as [h g]. cbn [fst]. intros S. unfold h_remove_node, h_nodes_remove.
  destruct (nodes_remove_frame h (hg_nodes g) n (elems (narrs h) (hn_nodes (hg_nodes g))) 0) as (s & E & A).
  destruct (h_nodes_remove_loop h (hg_nodes g) n 0 _) as [[h1 ns] r]. cbn [fst snd] in *. subst h1.
  pose proof (frame_narrs h s g ns A) as F1. destruct r as [e|]; cbn [fst]; [exact F1|].
  destruct (filter_edges_frame grow (fun e => negb (str_eqb (eo_dst e) n || str_eqb (eo_src e) n)) (with_narrs h s) g (elems (earrs (with_narrs h s)) (he_edges (hg_edges g)))) as (t & E & B).
  destruct (h_filter_edges grow _ (with_narrs h s) _) as [h2 es]. cbn [fst snd] in *. subst h2.
  apply (frame_trans _ (with_narrs h s, h_with_rels (h_with_nodes g ns) (relations_remove (hg_rels g) p n))); [exact S|by apply frame_rels|].
  by apply frame_earrs.
Qed.
Lemma add_attr_frame w p f v : inv w -> frame w (h_add_attr w p f v).1.
Proof.
  destruct w as [h g]. intros I. unfold h_add_attr. destruct (str_eqb (hg_name g) p).
  - assert (R : ref h g OGraph = Some (hg_attrs g)) by done. rewrite h_attrs_add_upd; [|apply (i_heap _ I)|by apply (i_bound _ I) in R].
    cbn [fst]. by apply (frame_upd h _ _ g OGraph).
  - destruct (hg_subs g !! p) as [q|] eqn:Q; [|apply frame_refl]. destruct (i_subs _ I p q Q) as [l L]. cbn in L.
    assert (R : ref h g (OSub q) = Some l) by (cbn; by rewrite L). assert (AS : at_sub h q = SObj l p) by (unfold at_sub; by rewrite L). rewrite AS. cbn [so_attrs].
    rewrite h_attrs_add_upd; [|apply (i_heap _ I)|by apply (i_bound _ I) in R]. cbn [fst]. apply (frame_upd h _ _ g (OSub q)); [done|done|]. intros ? [= <-]. eauto.
Qed.
Lemma add_attrs_loop_frame n l : forall w, inv w -> frame w (h_add_attrs_loop w n l).1.
Proof.
  induction l as [|[k v] l IH]; intros w I; cbn [h_add_attrs_loop]; [apply frame_refl|].
  pose proof (add_attr_frame w n k v I) as F. destruct (add_attr_sim w n k v I) as (J & _ & _). destruct (h_add_attr w n k v) as [w' [e|]]; cbn [fst] in *; [done|].
  eapply frame_trans; [apply (i_heap _ I)|exact F|by apply IH].
Qed.
Lemma subs_add_frame h g n : inv (h, g) -> let r := h_subs_add h (hg_subs g) n in frame (h, g) (r.1, h_with_subs g r.2).
Proof.
  intros I. cbv zeta. unfold h_subs_add. destruct (hg_subs g !! n) as [q|] eqn:Q; cbn [fst snd].
  { assert (HG : forall x, h_with_subs x (hg_subs x) = x) by (by intros []). rewrite HG. apply frame_refl. }
  unfold new_map. change (alloc (maps h) ∅) with ((alloc (maps h) ∅).1, next (maps h)). cbn [fst snd]. fold (fresh_map h ∅).
  eapply frame_trans; [apply (i_heap _ I)|exact (frame_fresh h ∅ g I)|]. destruct (fresh_ok h ∅ g I) as (J & _ & _).
  set (h1 := fresh_map h ∅) in *. unfold alloc. cbn [fst snd]. 
  assert (QF : cells (sobjs h1) !! next (sobjs h1) = None) by (apply swf_fresh; apply (i_heap _ J)).
  constructor; cbn [fst snd]; auto; try exact (arr_frame_refl _ _).
  - cbn. lia.
  - intros p s E. cbn. rewrite lookup_insert_ne; [done|]. intros <-. cbn in *. congruence.
  - intros n' p. cbn. destruct (decide (n' = n)) as [->|Ne]; [rewrite lookup_insert; intros [= <-]; by right|].
    rewrite lookup_insert_ne by congruence. by left.
Qed.
Lemma add_subgraph_frame o w p n m : inv w -> frame w (h_add_subgraph o w p n m).1.
Proof.
  destruct w as [h g]. intros I. unfold h_add_subgraph. pose proof (inv_rels _ _ (relations_add (hg_rels g) p n) I) as I1.
  set (g1 := h_with_rels g (relations_add (hg_rels g) p n)) in *. change (hg_subs g) with (hg_subs g1).
  pose proof (subs_add_frame h g1 n I1) as F. destruct (subs_add_sim h g1 n I1) as (J & _ & _ & _).
  destruct (h_subs_add h (hg_subs g1) n) as [h1 ss]. cbn [fst snd] in *.
  eapply frame_trans; [apply (i_heap _ I)|apply frame_rels, frame_refl|]. eapply frame_trans; [apply (i_heap _ I)|exact F|]. by apply add_attrs_loop_frame.
Qed.
Lemma remove_nodes_loop_frame grow p l : forall w, inv w -> frame w (h_remove_nodes_loop grow w p l).1.
Proof.
  induction l as [|c l IH]; intros w I; cbn [h_remove_nodes_loop]; [apply frame_refl|].
  pose proof (remove_node_frame grow w p c (wh_sobjs _ (i_heap _ I))) as F. destruct (remove_node_sim grow w p c I) as (J & _ & _).
  destruct (h_remove_node grow w p c) as [w' [e|]]; cbn [fst] in *; [done|]. eapply frame_trans; [apply (i_heap _ I)|exact F|by apply IH].
Qed.
Lemma remove_subgraph_frame grow o w p n : inv w -> frame w (h_remove_subgraph grow o w p n).1.
Proof.
  intros I. unfold h_remove_subgraph. set (l := o_names o 0 _). pose proof (remove_nodes_loop_frame grow p l w I) as F.
  destruct (remove_nodes_loop_sim grow p l w I) as (J & _ & _). destruct (h_remove_nodes_loop grow w p l) as [[h1 g1] [e|]]; cbn [fst snd] in *; [done|].
  set (g3 := h_with_subs (h_with_rels g1 (relations_remove (hg_rels g1) p n)) (delete n (hg_subs g1))).
  destruct (filter_edges_frame grow (fun e => negb (str_eqb (eo_dst e) n || str_eqb (eo_dst_port e) n || str_eqb (eo_src e) n || str_eqb (eo_src_port e) n)) h1 g3 (elems (earrs h1) (he_edges (hg_edges g3)))) as (t & E & B).
  destruct (h_filter_edges grow _ h1 _) as [h2 es]. cbn [fst snd] in *. subst h2.
  eapply frame_trans; [apply (i_heap _ I)|exact F|]. apply (frame_trans _ (h1, g3)); [apply (i_heap _ J)| |by apply frame_earrs].
  apply frame_same; try done. intros n' q. cbn. destruct (decide (n' = n)) as [->|Ne]; [by rewrite lookup_delete|]. by rewrite lookup_delete_ne by congruence.
Qed.
Theorem hexec_frame grow o c w : inv w -> frame w (hexec grow o c w).1.
Proof.
  intros I. destruct w as [h g]. destruct c; cbn [hexec].
  1-3: constructor; cbn; auto using arr_frame_refl.
  - by apply add_port_edge_frame.
  - by apply add_port_edge_frame.
  - by apply add_node_frame.
  - by apply add_attr_frame.
  - by apply add_subgraph_frame.
  - apply remove_node_frame, (i_heap _ I).
  - by apply remove_subgraph_frame.
Qed.
