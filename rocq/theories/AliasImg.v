(** Proofs for HeapAlias.v: the calls run in step on a heap with sharing and on one in which everything has a map of its own. *)
From Coq Require Import Lia.
From Verif Require Import Base Maps Graph HeapGraph SpecHeap HeapProofs.

(** ** A world with other references to maps *)
Definition img_n (f : nat -> nat) (n : nobj) : nobj := NObj (no_name n) (f (no_attrs n)).
Definition img_e (f : nat -> nat) (e : eobj) : eobj := EObj (eo_src e) (eo_src_port e) (eo_dst e) (eo_dst_port e) (eo_dir e) (f (eo_attrs e)).
Definition img_s (f : nat -> nat) (s : sobj) : sobj := SObj (f (so_attrs s)) (so_name s).
Definition img_store {T} (F : T -> T) (s : store T) : store T := Store (F <$> cells s) (next s).
Definition img_h (f : nat -> nat) (M : store attrs) (h : heap) : heap :=
  Heap M (img_store (img_n f) (nobjs h)) (img_store (img_e f) (eobjs h)) (img_store (img_s f) (sobjs h)) (narrs h) (earrs h).
Definition img_g (f : nat -> nat) (g : hgraph) : hgraph :=
  HGraph (f (hg_attrs g)) (hg_name g) (hg_directed g) (hg_strict g) (hg_nodes g) (hg_edges g) (hg_subs g) (hg_rels g).
Definition img (f : nat -> nat) (M : store attrs) (w : world) : world := (img_h f M w.1, img_g f w.2).
Lemma ref_img f M h g x : ref (img_h f M h) (img_g f g) x = f <$> ref h g x.
Proof.
  destruct x as [|p|p|p]; cbn [ref]; [done|..]; cbn [img_h nobjs eobjs sobjs img_store cells]; rewrite lookup_fmap;
    [destruct (cells (nobjs h) !! p)|destruct (cells (eobjs h) !! p)|destruct (cells (sobjs h) !! p)]; done.
Qed.
(** Names and ends are the same. *)
Lemma img_node_name f M h p : no_name (at_node (img_h f M h) p) = no_name (at_node h p).
Proof. unfold at_node. cbn [img_h nobjs img_store cells]. rewrite lookup_fmap. by destruct (cells (nobjs h) !! p). Qed.
Definition blind (keep : eobj -> bool) : Prop := forall e l, keep (EObj (eo_src e) (eo_src_port e) (eo_dst e) (eo_dst_port e) (eo_dir e) l) = keep e.
Lemma img_keep f M h p keep : blind keep -> keep (at_edge (img_h f M h) p) = keep (at_edge h p).
Proof.
  intros B. unfold at_edge. cbn [img_h eobjs img_store cells]. rewrite lookup_fmap. destruct (cells (eobjs h) !! p) as [e|]; cbn; [|done]. apply B.
Qed.
Lemma img_edge_ends f M h p : eo_src (at_edge (img_h f M h) p) = eo_src (at_edge h p) /\ eo_dst (at_edge (img_h f M h) p) = eo_dst (at_edge h p).
Proof. unfold at_edge. cbn [img_h eobjs img_store cells]. rewrite lookup_fmap. by destruct (cells (eobjs h) !! p). Qed.
(** The references there are are below [b]. *)
Definition refs_below (b : nat) (h : heap) (g : hgraph) : Prop := forall x l, ref h g x = Some l -> l < b.
Lemma img_ext f f' M h g b : refs_below b h g -> (forall l, l < b -> f' l = f l) -> img f' M (h, g) = img f M (h, g).
Proof.
  intros B E. unfold img, img_h, img_g, img_store. cbn [fst snd]. f_equal.
  - f_equal; f_equal; apply map_fmap_ext; intros p x Hp.
    + unfold img_n. f_equal. apply E, (B (ONode p)). cbn. by rewrite Hp.
    + unfold img_e. f_equal. apply E, (B (OEdge p)). cbn. by rewrite Hp.
    + unfold img_s. f_equal. apply E, (B (OSub p)). cbn. by rewrite Hp.
  - f_equal. apply E, (B OGraph). done.
Qed.
Lemma img_h_ext f f' M h g b : refs_below b h g -> (forall l, l < b -> f' l = f l) -> img_h f' M h = img_h f M h /\ img_g f' g = img_g f g.
Proof. intros B E. pose proof (img_ext f f' M h g b B E) as H. split; [exact (f_equal fst H)|exact (f_equal snd H)]. Qed.

(** What is seen is the same if the maps referred to are. *)
Lemma abs_img f M h g : inv (h, g) -> (forall x l, ref h g x = Some l -> at_map h l = default ∅ (cells M !! f l)) -> abs (img f M (h, g)) = abs (h, g).
Proof.
  intros I E. assert (AE : forall p, p < next (eobjs h) -> abs_edge (img_h f M h) p = abs_edge h p).
  { intros p Hp. apply (wh_eobjs _ (i_heap _ I)) in Hp as [e He]. cbn in He. unfold abs_edge, at_edge. cbn [img_h eobjs img_store cells]. rewrite lookup_fmap, He. cbn.
    f_equal. symmetry. apply (E (OEdge p)). cbn. by rewrite He. }
  pose proof (i_edges _ I) as [W1 W2 W3 W4]. cbn [fst snd] in *.
  unfold abs, img. cbn [fst snd]. f_equal.
  - symmetry. by apply (E OGraph).
  - unfold abs_nodes. cbn [img_h nobjs narrs img_store cells next img_g hg_nodes]. f_equal. apply map_eq. intros p. rewrite !lookup_fmap.
    destruct (cells (nobjs h) !! p) as [n|] eqn:Hn; cbn [fmap option_fmap option_map]; [|done]. f_equal. unfold abs_node. cbn. f_equal. symmetry. apply (E (ONode p)). cbn. by rewrite Hn.
  - unfold abs_edges. cbn [img_h earrs img_g hg_edges]. f_equal.
    + apply abs_index_ext; [exact W3|exact AE].
    + apply abs_index_ext; [exact W4|exact AE].
    + apply map_ext_Forall. eapply Forall_impl; [exact W2|]. cbn. intros p Hp. by apply AE.
  - unfold abs_subs. cbn [img_g hg_subs]. apply map_fmap_ext. intros n p Hp. destruct (i_subs _ I n p Hp) as [l L]. cbn in L.
    unfold abs_sub, at_sub. cbn [img_h sobjs img_store cells]. rewrite lookup_fmap, L. cbn. f_equal. symmetry. apply (E (OSub p)). cbn. by rewrite L.
Qed.

(** ** The parts of the calls that change no map *)
Lemma img_edges_add grow f M h es p :
  h_edges_add grow (img_h f M h) es p = (img_h f M (h_edges_add grow h es p).1, (h_edges_add grow h es p).2).
Proof.
  unfold h_edges_add. destruct (img_edge_ends f M h p) as [-> ->]. cbn [img_h earrs]. by destruct (append1 grow (earrs h) (he_edges es) p).
Qed.
Lemma img_filter_edges grow keep f M h ps : blind keep ->
  h_filter_edges grow keep (img_h f M h) ps = (img_h f M (h_filter_edges grow keep h ps).1, (h_filter_edges grow keep h ps).2).
Proof.
  intros B. unfold h_filter_edges. assert (X : forall ps h es, fold_left (fun acc p => if keep (at_edge acc.1 p) then h_edges_add grow acc.1 acc.2 p else acc) ps (img_h f M h, es) =
    (img_h f M (fold_left (fun acc p => if keep (at_edge acc.1 p) then h_edges_add grow acc.1 acc.2 p else acc) ps (h, es)).1,
     (fold_left (fun acc p => if keep (at_edge acc.1 p) then h_edges_add grow acc.1 acc.2 p else acc) ps (h, es)).2)).
  { clear ps h. induction ps as [|p ps IH]; intros h es; [done|]. cbn [fold_left fst snd]. rewrite (img_keep f M h p keep B). destruct (keep (at_edge h p)); [|apply IH].
    rewrite img_edges_add. destruct (h_edges_add grow h es p) as [h1 es1]. cbn [fst snd]. apply IH. }
  unfold h_new_edges, alloc. cbn [img_h earrs]. exact (X ps (with_earrs h (Store (<[next (earrs h):=[]]> (cells (earrs h))) (S (next (earrs h))))) _).
Qed.
Lemma img_nodes_remove f M h ns name : h_nodes_remove (img_h f M h) ns name =
  (img_h f M (h_nodes_remove h ns name).1.1, (h_nodes_remove h ns name).1.2, (h_nodes_remove h ns name).2).
Proof.
  unfold h_nodes_remove. change (narrs (img_h f M h)) with (narrs h). generalize (elems (narrs h) (hn_nodes ns)) as ps. generalize 0 as i. intros i ps. revert i.
  induction ps as [|p ps IH]; intros i; cbn [h_nodes_remove_loop]; [done|].
  rewrite img_node_name. destruct (str_eqb (no_name (at_node h p)) name); [|apply IH].
  change (narrs (img_h f M h)) with (narrs h). by destruct (cut_out (narrs h) (hn_nodes ns) i).
Qed.
Lemma img_remove_node grow f M w p n : h_remove_node grow (img f M w) p n = (img f M (h_remove_node grow w p n).1, (h_remove_node grow w p n).2).
Proof.
  destruct w as [h g]. unfold h_remove_node, img. cbn [fst snd]. change (hg_nodes (img_g f g)) with (hg_nodes g). rewrite img_nodes_remove.
  destruct (h_nodes_remove h (hg_nodes g) n) as [[h1 ns] [e|]]; cbn [fst snd]; [done|].
  change (earrs (img_h f M h1)) with (earrs h1). change (hg_edges (img_g f g)) with (hg_edges g). rewrite img_filter_edges by done.
  by destruct (h_filter_edges grow _ h1 _).
Qed.
Lemma img_remove_nodes_loop grow f M p l : forall w, h_remove_nodes_loop grow (img f M w) p l = (img f M (h_remove_nodes_loop grow w p l).1, (h_remove_nodes_loop grow w p l).2).
Proof.
  induction l as [|c l IH]; intros w; cbn [h_remove_nodes_loop]; [done|]. rewrite img_remove_node. destruct (h_remove_node grow w p c) as [w1 [e|]]; cbn [fst snd]; [done|]. apply IH.
Qed.
Lemma img_remove_subgraph grow o f M w p n : h_remove_subgraph grow o (img f M w) p n = (img f M (h_remove_subgraph grow o w p n).1, (h_remove_subgraph grow o w p n).2).
Proof.
  unfold h_remove_subgraph. change (hg_rels (img f M w).2) with (hg_rels w.2). rewrite img_remove_nodes_loop.
  destruct (h_remove_nodes_loop grow w p _) as [[h1 g1] [e|]]; cbn [fst snd]; [done|]. unfold img. cbn [fst snd].
  cbn [h_with_subs h_with_rels img_g hg_rels hg_subs hg_edges].
  change (earrs (img_h f M h1)) with (earrs h1). rewrite img_filter_edges by done.
  by destruct (h_filter_edges grow _ h1 _).
Qed.
Lemma remove_node_same_maps grow w p n : maps (h_remove_node grow w p n).1.1 = maps w.1 /\ (forall x, ref (h_remove_node grow w p n).1.1 (h_remove_node grow w p n).1.2 x = ref w.1 w.2 x).
Proof.
  destruct w as [h g]. assert (F : forall keep h ps, let r := h_filter_edges grow keep h ps in exists s, r.1 = with_earrs h s).
  { intros keep h0 ps. unfold h_filter_edges, h_new_edges, alloc. set (s0 := Store _ _). set (es0 := HEdges _ _ _). generalize s0 es0.
    induction ps as [|q ps IH]; intros s es; cbn [fold_left fst snd]; [by exists s|]. destruct (keep _); [|apply IH].
    unfold h_edges_add. destruct (append1 _ _ _ _) as [s1 x1]. cbn [with_earrs]. apply (IH s1). }
  assert (N : forall ps i ns, exists s, (h_nodes_remove_loop h ns n i ps).1.1 = with_narrs h s).
  { induction ps as [|q ps IH]; intros i ns; cbn [h_nodes_remove_loop]; [exists (narrs h); by destruct h|]. destruct (str_eqb _ _); [|apply IH].
    destruct (cut_out _ _ _) as [s x]. by exists s. }
  unfold h_remove_node, h_nodes_remove. destruct (N (elems (narrs h) (hn_nodes (hg_nodes g))) 0 (hg_nodes g)) as [s E].
  destruct (h_nodes_remove_loop h (hg_nodes g) n 0 _) as [[h1 ns] [e|]]; cbn [fst snd] in *; subst h1; [split; [done|]; by intros []|].
  set (keep := fun e : eobj => _). set (ps := elems _ _). destruct (F keep (with_narrs h s) ps) as [s' E']. destruct (h_filter_edges grow keep (with_narrs h s) ps) as [h2 es]. cbn [fst snd] in *.
  subst h2. split; [done|]. by intros [].
Qed.
Lemma filter_earrs grow keep h ps : exists s, (h_filter_edges grow keep h ps).1 = with_earrs h s.
Proof.
  unfold h_filter_edges, h_new_edges, alloc. set (s0 := Store _ _). set (es0 := HEdges _ _ _). generalize s0 es0.
  induction ps as [|q ps IH]; intros s es; cbn [fold_left fst snd]; [by exists s|]. destruct (keep _); [|apply IH].
  unfold h_edges_add. destruct (append1 _ _ _ _) as [s1 x1]. cbn [with_earrs]. apply (IH s1).
Qed.
Lemma remove_nodes_loop_same_maps grow p l : forall w, let r := h_remove_nodes_loop grow w p l in maps r.1.1 = maps w.1 /\ (forall x, ref r.1.1 r.1.2 x = ref w.1 w.2 x).
Proof.
  induction l as [|c l IH]; intros w; cbn [h_remove_nodes_loop]; [done|]. pose proof (remove_node_same_maps grow w p c) as [A B].
  destruct (h_remove_node grow w p c) as [w1 [e|]]; cbn [fst snd] in *; [done|]. destruct (IH w1) as [C D]. split; [by rewrite C|]. intros x. by rewrite D, B.
Qed.
Lemma remove_subgraph_same_maps grow o w p n : let r := h_remove_subgraph grow o w p n in maps r.1.1 = maps w.1 /\ (forall x, ref r.1.1 r.1.2 x = ref w.1 w.2 x).
Proof.
  unfold h_remove_subgraph. pose proof (remove_nodes_loop_same_maps grow p (o_names o 0 (children (hg_rels w.2) n)) w) as [A B].
  destruct (h_remove_nodes_loop grow w p _) as [[h1 g1] [e|]]; cbn [fst snd] in *; [done|].
  set (keep := fun e : eobj => _). set (ps := elems _ _). destruct (filter_earrs grow keep h1 ps) as [s E]. destruct (h_filter_edges grow keep h1 ps) as [h2 es]. cbn [fst snd] in *. subst h2.
  split; [done|]. intros x. rewrite <- B. by destruct x.
Qed.
