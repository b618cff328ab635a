(** Proofs for HeapAlias.v: the calls that change maps, in step on both heaps. *)
From Coq Require Import Lia.
From Verif Require Import Base Maps Graph MapFacts HeapGraph SpecHeap HeapProofs HeapEdit SpecHeapEdit HeapEditProofs Direct HeapAlias SpecAlias AliasImg.

(** ** Changes of maps: perhaps a new one, perhaps another content for one that is there *)
Definition mapply (fr : option attrs) (t : option (nat * attrs)) (s : store attrs) : store attrs :=
  let s1 := match fr with Some a => (alloc s a).1 | None => s end in match t with Some (l, m) => put s1 l m | None => s1 end.
Definition lift (fr : option attrs) (f : nat -> nat) (b b' : nat) : nat -> nat :=
  match fr with Some _ => fun l => if decide (l = b) then b' else f l | None => f end.
Definition over (f : nat -> nat) (t : option (nat * attrs)) : option (nat * attrs) := (fun lm : nat * attrs => (f lm.1, lm.2)) <$> t.
Definition at_m (M : store attrs) (l : nat) : attrs := default ∅ (cells M !! l).
Lemma lift_below fr f b b' l : l < b -> lift fr f b b' l = f l.
Proof. intros L. destruct fr; cbn; [|done]. rewrite decide_False by lia. done. Qed.
Lemma lift_new a f b b' : lift (Some a) f b b' b = b'.
Proof. cbn. by rewrite decide_True. Qed.

(** What the attributes of an element are on the graph by value. *)
Lemma attrs_at_abs w x t : exists_in w x -> stands w x t -> attrs_at (abs w) t = attrs_seen w x.
Proof.
  destruct w as [h g]. intros [l R] St. inversion St as [|p|p n Hn|p i Hi]; subst x t; unfold attrs_seen; cbn [fst snd] in *; rewrite R; cbn [attrs_at].
  - by injection R as <-.
  - cbn in R. destruct (cells (nobjs h) !! p) as [nd|] eqn:E; [|done]. injection R as <-. change (g_nodes (abs (h, g))) with (abs_nodes h (hg_nodes g)).
    by rewrite (deref_abs h (hg_nodes g) p nd E).
  - cbn in R. cbn. unfold abs_subs. rewrite lookup_fmap, Hn. cbn. unfold at_sub. destruct (cells (sobjs h) !! p); [|done]. cbn. by injection R as <-.
  - cbn in R. cbn. rewrite list_lookup_fmap, Hi. cbn. unfold at_edge. destruct (cells (eobjs h) !! p); [|done]. cbn. by injection R as <-.
Qed.

(** ** NewAttrs *)
Fixpoint na_content (m : attrs) (es : list (gostr * gostr)) : attrs :=
  match es with [] => m | (k, v) :: es' => match new_attr k with inl k' => na_content (<[k' := v]> m) es' | inr _ => m end end.
Lemma h_new_attrs_exact h es : swf (maps h) ->
  h_new_attrs h es = (fresh_map h (na_content ∅ es), match new_attrs es with inl _ => inl (next (maps h)) | inr e => inr e end)
  /\ (forall a, new_attrs es = inl a -> a = na_content ∅ es).
Proof.
  intros H. assert (X : forall es m, h_new_attrs_loop (fresh_map h m) (next (maps h)) es =
      (fresh_map h (na_content m es), match new_attrs_loop m es with inl _ => None | inr e => Some e end)
    /\ (forall a, new_attrs_loop m es = inl a -> a = na_content m es)).
  { clear es. induction es as [|[k v] es IH]; intros m; cbn.
    - split; [done|congruence].
    - rewrite h_attrs_add_upd; [|by apply (swf_alloc (maps h))|cbn; lia]. rewrite at_map_fresh, upd_fresh.
      unfold attrs_add. destruct (new_attr k) as [k'|e]; cbn; [apply IH|done]. }
  destruct (X es ∅) as [E F]. split; [|exact F].
  unfold h_new_attrs, new_map. change (alloc (maps h) ∅) with ((alloc (maps h) ∅).1, next (maps h)); cbn [fst snd].
  fold (fresh_map h ∅). rewrite E. unfold new_attrs. by destruct (new_attrs_loop ∅ es).
Qed.

(** ** AddAttr in a loop *)
Fixpoint add_all (a : attrs) (es : list (gostr * gostr)) : attrs * option err :=
  match es with [] => (a, None) | (k, v) :: es' => match attrs_add a k v with (a', None) => add_all a' es' | r => r end end.
Lemma named_add_attr h g n x t l k v : named (h, g) n = Some (x, t) -> ref h g x = Some l -> swf (maps h) -> l < next (maps h) ->
  h_add_attr (h, g) n k v = ((upd h l (attrs_add (at_map h l) k v).1, g), (attrs_add (at_map h l) k v).2).
Proof.
  unfold named, h_add_attr. cbn [fst snd]. intros E R S L. destruct (decide (hg_name g = n)) as [N|N].
  - injection E as <- <-. injection R as <-. rewrite (proj2 (str_eqb_eq _ _) N). rewrite h_attrs_add_upd by done. by destruct (attrs_add _ _ _).
  - assert (F : str_eqb (hg_name g) n = false) by (destruct (str_eqb (hg_name g) n) eqn:F; [apply str_eqb_eq in F; congruence|done]). rewrite F.
    destruct (hg_subs g !! n) as [p|] eqn:Q; [|done]. cbn in E. injection E as <- <-. cbn in R. unfold at_sub. destruct (cells (sobjs h) !! p) as [so|]; [|done].
    injection R as <-. cbn. rewrite h_attrs_add_upd by done. by destruct (attrs_add _ _ _).
Qed.
Lemma unnamed_add_attr h g n k v : named (h, g) n = None -> h_add_attr (h, g) n k v = ((h, g), Some (lit "graph or subgraph " ++ n ++ lit " does not exist")).
Proof.
  unfold named, h_add_attr. cbn [fst snd]. destruct (decide (hg_name g = n)) as [N|N]; [done|]. intros E.
  assert (F : str_eqb (hg_name g) n = false) by (destruct (str_eqb (hg_name g) n) eqn:F; [apply str_eqb_eq in F; congruence|done]). rewrite F.
  by destruct (hg_subs g !! n).
Qed.
Lemma named_add_attrs g n x t l es : forall h, named (h, g) n = Some (x, t) -> ref h g x = Some l -> swf (maps h) -> l < next (maps h) ->
  h_add_attrs_loop (h, g) n es = ((upd h l (add_all (at_map h l) es).1, g), (add_all (at_map h l) es).2).
Proof.
  induction es as [|[k v] es IH]; intros h E R S L; cbn [h_add_attrs_loop add_all]; [by rewrite upd_same|].
  rewrite (named_add_attr h g n x t l k v E R S L). destruct (attrs_add (at_map h l) k v) as [a [e|]]; cbn [fst snd]; [done|].
  rewrite IH; [by rewrite at_map_upd, upd_upd|done|unfold upd; by rewrite ref_maps|by apply swf_put|done].
Qed.

(** ** One call *)
Record in_step (grow : nat -> nat) (o : oracle) (c : hcall) (f : nat -> nat) (M : store attrs) (u : world) (c' : hcall) (fr : option attrs) (t : option (nat * attrs)) : Prop := {
  is_maps : maps (hexec grow o c u).1.1 = mapply fr t (maps u.1);
  is_img : hexec grow o c' (img f M u) = (img (lift fr f (next (maps u.1)) (next M)) (mapply fr (over f t) M) (hexec grow o c u).1, (hexec grow o c u).2);
  is_target : forall l m, t = Some (l, m) -> exists x pl, adds_to u c = Some (x, pl) /\ ref u.1 u.2 x = Some l;
  is_stands : forall x pl, adds_to u c = Some (x, pl) -> is_Some (ref u.1 u.2 x) /\ stands (hexec grow o c u).1 x pl;
  is_refs : (forall x, ref (hexec grow o c u).1.1 (hexec grow o c u).1.2 x = ref u.1 u.2 x) \/
    (fr <> None /\ exists y, ref u.1 u.2 y = None /\ forall x, ref (hexec grow o c u).1.1 (hexec grow o c u).1.2 x = if decide (x = y) then Some (next (maps u.1)) else ref u.1 u.2 x) }.

Section Call.
  Context (grow : nat -> nat) (o : oracle) (f : nat -> nat) (M : store attrs) (h : heap) (g : hgraph).
  Context (I : inv (h, g)) (S : swf M) (B : forall l, l < next (maps h) -> f l < next M) (A : forall l, l < next (maps h) -> at_map h l = at_m M (f l)).

  Lemma arg_img m : (forall l, m = Some l -> l < next (maps h)) -> arg (img_h f M h) (f <$> m) = arg h m.
  Proof. intros L. destruct m as [l|]; cbn; [|done]. symmetry. by apply (A l), L. Qed.
  Lemma below_refs : refs_below (next (maps h)) h g.
  Proof. intros x l R. by apply (i_bound _ I x). Qed.
  Lemma named_there n x t : named (h, g) n = Some (x, t) -> is_Some (ref h g x).
  Proof.
    unfold named. cbn [fst snd]. destruct (decide (hg_name g = n)); [intros [= <- <-]; by eexists|]. destruct (hg_subs g !! n) as [p|] eqn:Q; [|done]. intros [= <- <-].
    destruct (i_subs _ I n p Q) as [l L]. cbn in L. cbn. rewrite L. by eexists.
  Qed.
  Lemma named_stands n x t w' : named (h, g) n = Some (x, t) -> hg_subs w'.2 !! n = hg_subs g !! n -> stands w' x t.
  Proof.
    unfold named. cbn [fst snd]. destruct (decide (hg_name g = n)); [intros [= <- <-] _; constructor|]. destruct (hg_subs g !! n) as [p|] eqn:Q; [|done]. intros [= <- <-] E.
    by constructor.
  Qed.
  (** Nothing happens to maps. *)
  Lemma in_step_none c c' : maps (hexec grow o c (h, g)).1.1 = maps h -> (forall x, ref (hexec grow o c (h, g)).1.1 (hexec grow o c (h, g)).1.2 x = ref h g x) ->
    hexec grow o c' (img f M (h, g)) = (img f M (hexec grow o c (h, g)).1, (hexec grow o c (h, g)).2) ->
    (forall x pl, adds_to (h, g) c = Some (x, pl) -> is_Some (ref h g x) /\ stands (hexec grow o c (h, g)).1 x pl) ->
    in_step grow o c f M (h, g) c' None None.
  Proof. intros E1 E2 E3 E4. constructor; [exact E1|exact E3|discriminate|exact E4|by left]. Qed.

  Lemma fresh_img (a : attrs) : let f' := lift (Some a) f (next (maps h)) (next M) in
    fresh_map (img_h f M h) a = img_h f' (alloc M a).1 (fresh_map h a) /\ img_g f' g = img_g f g.
  Proof.
    intros f'. destruct (img_h_ext f f' (alloc M a).1 (fresh_map h a) g (next (maps h))) as [E1 E2].
    - intros x l. unfold fresh_map. rewrite ref_maps. apply below_refs.
    - intros l L. by apply lift_below.
    - rewrite E1, E2. done.
  Qed.

  Lemma port_edge_in_step s sp d dp dir m : (forall l, m = Some l -> l < next (maps h)) ->
    exists a, in_step grow o (HAddPortEdge s sp d dp dir m) f M (h, g) (HAddPortEdge s sp d dp dir (f <$> m)) (Some a) None.
  Proof.
    intros L. pose proof (wh_maps _ (i_heap _ I)) as SM. cbn in SM.
    exists (na_content ∅ (o_attrs o 0 (arg h m))). set (a := na_content ∅ (o_attrs o 0 (arg h m))). set (f' := lift (Some a) f (next (maps h)) (next M)).
    destruct (fresh_img a) as [FI GI]. fold f' in FI, GI.
    assert (E : hexec grow o (HAddPortEdge s sp d dp dir m) (h, g) =
       match new_attrs (o_attrs o 0 (arg h m)) with
       | inr e => ((fresh_map h a, g), Some e)
       | inl _ => let h1 := fresh_map h a in let p := next (eobjs h1) in
           let h2 := with_eobjs h1 (Store (<[p := EObj s sp d dp dir (next (maps h))]> (cells (eobjs h1))) (Datatypes.S p)) in
           let r := h_edges_add grow h2 (hg_edges g) p in ((r.1, h_with_edges g r.2), None)
       end).
    { cbn [hexec h_add_port_edge]. destruct (h_new_attrs_exact h (o_attrs o 0 (arg h m)) SM) as [-> _]. fold a. destruct (new_attrs _); [|done]. unfold alloc. cbv zeta. by destruct (h_edges_add _ _ _ _). }
    assert (Ei : hexec grow o (HAddPortEdge s sp d dp dir (f <$> m)) (img f M (h, g)) =
       match new_attrs (o_attrs o 0 (arg h m)) with
       | inr e => ((fresh_map (img_h f M h) a, img_g f g), Some e)
       | inl _ => let h1 := fresh_map (img_h f M h) a in let p := next (eobjs h1) in
           let h2 := with_eobjs h1 (Store (<[p := EObj s sp d dp dir (next M)]> (cells (eobjs h1))) (Datatypes.S p)) in
           let r := h_edges_add grow h2 (hg_edges g) p in ((r.1, h_with_edges (img_g f g) r.2), None)
       end).
    { unfold img. cbn [hexec h_add_port_edge fst snd]. rewrite (arg_img m L). destruct (h_new_attrs_exact (img_h f M h) (o_attrs o 0 (arg h m)) S) as [-> _]. fold a. destruct (new_attrs _); [|done].
      unfold alloc. cbv zeta. change (maps (img_h f M h)) with M. change (hg_edges (img_g f g)) with (hg_edges g). by destruct (h_edges_add _ _ _ _). }
    destruct (new_attrs (o_attrs o 0 (arg h m))) as [a'|e] eqn:N.
    - cbv zeta in E, Ei. set (p := next (eobjs (fresh_map h a))) in *. set (h2 := with_eobjs (fresh_map h a) _) in E.
      assert (H2 : with_eobjs (fresh_map (img_h f M h) a) (Store (<[next (eobjs (fresh_map (img_h f M h) a)):=EObj s sp d dp dir (next M)]> (cells (eobjs (fresh_map (img_h f M h) a)))) (Datatypes.S (next (eobjs (fresh_map (img_h f M h) a))))) = img_h f' (alloc M a).1 h2).
      { rewrite FI. unfold h2, with_eobjs, img_h, img_store. cbn [maps nobjs eobjs sobjs narrs earrs fresh_map with_maps cells next]. f_equal. f_equal. rewrite fmap_insert. f_equal.
        unfold img_e. cbn. by rewrite decide_True. }
      assert (R2 : forall x, ref h2 g x = if decide (x = OEdge p) then Some (next (maps h)) else ref h g x).
      { intros x. destruct (decide (x = OEdge p)) as [->|Ne]; [cbn; by rewrite lookup_insert|]. destruct x; try done. cbn. rewrite lookup_insert_ne by congruence. done. }
      destruct (h_edges_add grow h2 (hg_edges g) p) as [h3 es] eqn:EA.
      assert (H3 : exists s3, h3 = with_earrs h2 s3) by (unfold h_edges_add in EA; destruct (append1 _ _ _ _) as [s3 x3]; injection EA as <- <-; by exists s3). destruct H3 as [s3 H3].
      constructor; rewrite ?E; cbn [fst snd].
      + by rewrite H3.
      + rewrite Ei, H2. change (next (eobjs (fresh_map (img_h f M h) a))) with p. rewrite img_edges_add, EA. cbn [fst snd]. unfold img. cbn [fst snd]. f_equal. f_equal.
        rewrite <- GI. done.
      + discriminate.
      + discriminate.
      + right. split; [done|]. exists (OEdge p). split; [cbn; unfold p; cbn; by rewrite (swf_fresh (eobjs h) (wh_eobjs _ (i_heap _ I)))|]. intros x. rewrite H3, ref_earrs. apply R2.
    - constructor; rewrite ?E; cbn [fst snd].
      + done.
      + rewrite Ei, FI. unfold img. cbn [fst snd]. by rewrite <- GI.
      + discriminate.
      + discriminate.
      + left. intros x. unfold fresh_map. apply ref_maps.
  Qed.

  Lemma add_node_in_step pa n m : (forall l, m = Some l -> l < next (maps h)) ->
    exists a t, in_step grow o (HAddNode pa n m) f M (h, g) (HAddNode pa n (f <$> m)) (Some a) t.
  Proof.
    intros L. pose proof (wh_maps _ (i_heap _ I)) as SM. cbn in SM.
    set (es := o_attrs o 0 (arg h m)). set (a := na_content ∅ es). set (f' := lift (Some a) f (next (maps h)) (next M)).
    destruct (fresh_img a) as [FI GI]. fold f' in FI, GI.
    assert (St : forall w' x pl, adds_to (h, g) (HAddNode pa n m) = Some (x, pl) -> is_Some (ref h g x) /\ stands w' x pl).
    { intros w' x pl. cbn. destruct (hn_lookup (hg_nodes g) !! n) as [q|] eqn:Q; [|done]. intros [= <- <-]. split; [|constructor].
      apply (wn_lookup _ _ (i_nodes _ I)) in Q. cbn in Q. apply (wh_nobjs _ (i_heap _ I)) in Q as [nd E]. cbn in E. cbn. rewrite E. by eexists. }
    assert (E0 : h_new_attrs h es = (fresh_map h a, match new_attrs es with inl _ => inl (next (maps h)) | inr e => inr e end)) by apply (h_new_attrs_exact h es SM).
    assert (E1 : h_new_attrs (img_h f M h) es = (fresh_map (img_h f M h) a, match new_attrs es with inl _ => inl (next M) | inr e => inr e end)) by apply (h_new_attrs_exact (img_h f M h) es S).
    destruct (new_attrs es) as [a'|e] eqn:N.
    2:{ exists a, None. assert (E : hexec grow o (HAddNode pa n m) (h, g) = ((fresh_map h a, g), Some e)) by (cbn [hexec h_add_node]; fold es; by rewrite E0).
      constructor; rewrite ?E; cbn [fst snd].
      + done.
      + unfold img. cbn [hexec h_add_node fst snd]. rewrite (arg_img m L). fold es. rewrite E1, FI. by rewrite <- GI.
      + discriminate.
      + apply St.
      + left. intros x. unfold fresh_map. apply ref_maps. }
    destruct (hn_lookup (hg_nodes g) !! n) as [q|] eqn:Q.
    - assert (Qn : exists nd, cells (nobjs h) !! q = Some nd).
      { pose proof (wn_lookup _ _ (i_nodes _ I) n q Q) as Qb. cbn in Qb. apply (wh_nobjs _ (i_heap _ I)) in Qb as [nd E]. by exists nd. }
      destruct Qn as [nd Qn]. set (l := no_attrs nd). assert (Rl : ref h g (ONode q) = Some l) by (cbn; by rewrite Qn).
      pose proof (i_bound _ I _ _ Rl) as Ll. cbn in Ll.
      set (v := extend (at_map h l) (o_attrs o 1 a)).
      exists a, (Some (l, v)).
      assert (HG : forall x, h_with_nodes x (hg_nodes x) = x) by (by intros []).
      assert (E : hexec grow o (HAddNode pa n m) (h, g) = ((upd (fresh_map h a) l v, h_with_rels g (relations_add (hg_rels g) pa n)), None)).
      { cbn [hexec h_add_node]. fold es. rewrite E0. unfold h_nodes_add. rewrite Q, at_map_fresh. assert (An : at_node (fresh_map h a) q = nd) by (unfold at_node; cbn; by rewrite Qn). rewrite An. fold l.
        rewrite h_extend_upd; [|by apply (swf_alloc (maps h))|cbn; lia]. rewrite at_map_fresh_ne by lia. fold v. by rewrite HG. }
      constructor; rewrite ?E; cbn [fst snd].
      + done.
      + unfold img. cbn [hexec h_add_node fst snd]. rewrite (arg_img m L). fold es. rewrite E1. unfold h_nodes_add. change (hg_nodes (img_g f g)) with (hg_nodes g). rewrite Q.
        assert (Am : at_map (fresh_map (img_h f M h) a) (next M) = a) by apply (at_map_fresh (img_h f M h)). rewrite Am.
        assert (An : at_node (fresh_map (img_h f M h) a) q = img_n f nd) by (unfold at_node; cbn; by rewrite lookup_fmap, Qn). rewrite An. cbn [img_n no_attrs]. fold l.
        rewrite h_extend_upd; [|by apply (swf_alloc M)|cbn; specialize (B l Ll); lia].
        assert (Av : at_map (fresh_map (img_h f M h) a) (f l) = at_map h l) by (rewrite (at_map_fresh_ne (img_h f M h)) by (cbn; specialize (B l Ll); lia); symmetry; by apply A). rewrite Av. fold v.
        cbn [fst snd]. f_equal. f_equal.
        * rewrite FI. done.
        * change (h_with_nodes (img_g f g) (hg_nodes g)) with (h_with_nodes (img_g f g) (hg_nodes (img_g f g))). rewrite HG. change (next (maps h)) with (next (maps (h, g).1)) in GI. rewrite <- GI. done.
      + intros l0 m0 [= <- <-]. exists (ONode q), (TPtr q). split; [|done]. cbn. by rewrite Q.
      + apply St.
      + left. intros x. rewrite ref_rels. unfold upd, fresh_map. by rewrite !ref_maps.
    - exists a, None. set (q := next (nobjs h)). destruct (append1 grow (narrs h) (hn_nodes (hg_nodes g)) q) as [s x] eqn:EA.
      assert (E : hexec grow o (HAddNode pa n m) (h, g) = ((with_narrs (with_nobjs (fresh_map h a) (Store (<[q := NObj n (next (maps h))]> (cells (nobjs h))) (Datatypes.S q))) s,
         h_with_rels (h_with_nodes g (HNodes (<[n := q]> (hn_lookup (hg_nodes g))) x)) (relations_add (hg_rels g) pa n)), None)).
      { cbn [hexec h_add_node]. fold es. rewrite E0. unfold h_nodes_add. rewrite Q. unfold alloc. change (narrs (fresh_map h a)) with (narrs h). change (nobjs (fresh_map h a)) with (nobjs h). fold q.
        rewrite EA. done. }
      constructor; rewrite ?E; cbn [fst snd].
      + done.
      + unfold img. cbn [hexec h_add_node fst snd]. rewrite (arg_img m L). fold es. rewrite E1. unfold h_nodes_add. change (hg_nodes (img_g f g)) with (hg_nodes g). rewrite Q.
        unfold alloc. change (narrs (fresh_map (img_h f M h) a)) with (narrs h). change (nobjs (fresh_map (img_h f M h) a)) with (img_store (img_n f) (nobjs h)).
        change (next (img_store (img_n f) (nobjs h))) with q. rewrite EA. cbn [fst snd]. f_equal. f_equal.
        * rewrite FI. unfold with_narrs, with_nobjs, img_h, img_store. cbn [maps nobjs eobjs sobjs narrs earrs fresh_map with_maps cells next]. f_equal. f_equal. rewrite fmap_insert. f_equal.
          -- unfold img_n. cbn. by rewrite decide_True.
          -- apply map_fmap_ext. intros p nd Hp. unfold img_n. f_equal. symmetry. apply lift_below. apply (below_refs (ONode p)). cbn. by rewrite Hp.
        * cbn [fst]. fold f'. change (relations_add (hg_rels (img_g f g)) pa n) with (relations_add (hg_rels g) pa n). rewrite <- GI. done.
      + discriminate.
      + apply St.
      + right. split; [done|]. exists (ONode q). split; [cbn; unfold q; by rewrite (swf_fresh (nobjs h) (wh_nobjs _ (i_heap _ I)))|].
        intros y. destruct (decide (y = ONode q)) as [->|Ne]; [cbn; by rewrite lookup_insert|]. destruct y; try done. cbn. rewrite lookup_insert_ne by congruence. done.
  Qed.

  Lemma add_attr_in_step n k v : exists t, in_step grow o (HAddAttr n k v) f M (h, g) (HAddAttr n k v) None t.
  Proof.
    pose proof (wh_maps _ (i_heap _ I)) as SM. cbn in SM. destruct (named (h, g) n) as [[x pl]|] eqn:N.
    - destruct (named_there n x pl N) as [l R]. pose proof (i_bound _ I _ _ R) as Ll. cbn in Ll. exists (Some (l, (attrs_add (at_map h l) k v).1)).
      pose proof (named_add_attr h g n x pl l k v N R SM Ll) as E.
      assert (Ei : h_add_attr (img f M (h, g)) n k v = ((upd (img_h f M h) (f l) (attrs_add (at_map h l) k v).1, img_g f g), (attrs_add (at_map h l) k v).2)).
      { rewrite (A l Ll). apply (named_add_attr (img_h f M h) (img_g f g) n x pl); [exact N|by rewrite ref_img, R|exact S|exact (B l Ll)]. }
      constructor; change (hexec grow o (HAddAttr n k v) (h, g)) with (h_add_attr (h, g) n k v); change (hexec grow o (HAddAttr n k v) (img f M (h, g))) with (h_add_attr (img f M (h, g)) n k v); rewrite ?E; cbn [fst snd].
      + done.
      + rewrite Ei. done.
      + intros l0 m0 [= <- <-]. by exists x, pl.
      + cbn [adds_to]. rewrite N. intros ? ? [= <- <-]. split; [by eexists|]. by eapply named_stands.
      + left. intros y. unfold upd. by rewrite ref_maps.
    - exists None. pose proof (unnamed_add_attr h g n k v N) as E. apply in_step_none; change (hexec grow o (HAddAttr n k v) (h, g)) with (h_add_attr (h, g) n k v); rewrite ?E; cbn [fst snd].
      + done.
      + done.
      + change (hexec grow o (HAddAttr n k v) (img f M (h, g))) with (h_add_attr (img f M (h, g)) n k v). by apply (unnamed_add_attr (img_h f M h) (img_g f g)).
      + cbn [adds_to]. by rewrite N.
  Qed.

  Lemma add_subgraph_in_step pa n m : (forall l, m = Some l -> l < next (maps h)) ->
    exists fr t, in_step grow o (HAddSubGraph pa n m) f M (h, g) (HAddSubGraph pa n (f <$> m)) fr t.
  Proof.
    intros L. pose proof (wh_maps _ (i_heap _ I)) as SM. cbn in SM. set (es := o_attrs o 0 (arg h m)).
    set (g1 := h_with_rels g (relations_add (hg_rels g) pa n)).
    destruct (hg_subs g !! n) as [q|] eqn:Q.
    - (* the subgraph is there *)
      assert (HG : h_with_subs g1 (hg_subs g) = g1) by (unfold g1; by destruct g).
      destruct (named (h, g) n) as [[x pl]|] eqn:N; [|unfold named in N; cbn [fst snd] in N; rewrite Q in N; by destruct (decide _)].
      destruct (named_there n x pl N) as [l R]. pose proof (i_bound _ I _ _ R) as Ll. cbn in Ll.
      assert (R1 : ref h g1 x = Some l) by (unfold g1; by rewrite ref_rels).
      exists None, (Some (l, (add_all (at_map h l) es).1)).
      assert (E : hexec grow o (HAddSubGraph pa n m) (h, g) = ((upd h l (add_all (at_map h l) es).1, g1), (add_all (at_map h l) es).2)).
      { cbn [hexec h_add_subgraph]. unfold h_subs_add. rewrite Q. fold es g1. rewrite HG. by apply (named_add_attrs g1 n x pl l es h). }
      assert (Ei : hexec grow o (HAddSubGraph pa n (f <$> m)) (img f M (h, g)) = ((upd (img_h f M h) (f l) (add_all (at_map h l) es).1, img_g f g1), (add_all (at_map h l) es).2)).
      { unfold img. cbn [hexec h_add_subgraph fst snd]. unfold h_subs_add. change (hg_subs (img_g f g)) with (hg_subs g). rewrite Q. rewrite (arg_img m L). fold es.
        change (h_with_subs (h_with_rels (img_g f g) (relations_add (hg_rels (img_g f g)) pa n)) (hg_subs g)) with (img_g f (h_with_subs g1 (hg_subs g))). rewrite HG.
        rewrite (A l Ll). apply (named_add_attrs (img_g f g1) n x pl (f l) es (img_h f M h)); [exact N|by rewrite ref_img, R1|exact S|exact (B l Ll)]. }
      constructor; rewrite ?E; cbn [fst snd].
      + done.
      + rewrite Ei. done.
      + intros l0 m0 [= <- <-]. by exists x, pl.
      + cbn [adds_to]. rewrite N. intros ? ? [= <- <-]. split; [by eexists|]. by eapply named_stands.
      + left. intros y. unfold upd, g1. by rewrite ref_maps, ref_rels.
    - (* a new subgraph *)
      set (q := next (sobjs h)). set (g2 := h_with_subs g1 (<[n := q]> (hg_subs g))).
      set (h2 a := with_sobjs (fresh_map h a) (Store (<[q := SObj (next (maps h)) n]> (cells (sobjs h))) (Datatypes.S q))).
      set (h2i a := with_sobjs (fresh_map (img_h f M h) a) (Store (<[q := SObj (next M) n]> (img_s f <$> cells (sobjs h))) (Datatypes.S q))).
      assert (Ag : arg (h2 ∅) m = arg h m) by (destruct m as [l|]; cbn [arg]; [|done]; unfold h2; apply (at_map_fresh_ne h ∅ l); specialize (L l eq_refl); lia).
      assert (Agi : arg (h2i ∅) (f <$> m) = arg h m).
      { rewrite <- (arg_img m L). destruct m as [l|]; cbn [arg fmap option_fmap option_map]; [|done]. apply (at_map_fresh_ne (img_h f M h) ∅ (f l)). specialize (L l eq_refl). specialize (B l L). cbn. lia. }
      assert (E0 : hexec grow o (HAddSubGraph pa n m) (h, g) = h_add_attrs_loop (h2 ∅, g2) n es).
      { cbn [hexec h_add_subgraph]. unfold h_subs_add. rewrite Q. unfold new_map, alloc. cbn [fst snd]. unfold es. rewrite <- Ag. done. }
      assert (E0i : hexec grow o (HAddSubGraph pa n (f <$> m)) (img f M (h, g)) = h_add_attrs_loop (h2i ∅, img_g f g2) n es).
      { unfold img. cbn [hexec h_add_subgraph fst snd]. unfold h_subs_add. change (hg_subs (img_g f g)) with (hg_subs g). rewrite Q. unfold new_map, alloc. cbn [fst snd]. unfold es. rewrite <- Agi. done. }
      assert (R2 : forall a y, ref (h2 a) g2 y = if decide (y = OSub q) then Some (next (maps h)) else ref h g y).
      { intros a y. destruct (decide (y = OSub q)) as [->|Ne]; [cbn; by rewrite lookup_insert|]. destruct y; try done. cbn. rewrite lookup_insert_ne by congruence. done. }
      assert (Nw : ref h g (OSub q) = None) by (cbn; unfold q; by rewrite (swf_fresh (sobjs h) (wh_sobjs _ (i_heap _ I)))).
      assert (H2 : forall a, h2i a = img_h (lift (Some a) f (next (maps h)) (next M)) (alloc M a).1 (h2 a)).
      { intros a. unfold h2i. destruct (fresh_img a) as [-> _]. unfold h2, with_sobjs, img_h, img_store. cbn [maps nobjs eobjs sobjs narrs earrs fresh_map with_maps cells next]. f_equal. f_equal. rewrite fmap_insert. f_equal.
        - unfold img_s. cbn. by rewrite decide_True.
        - apply map_fmap_ext. intros p so Hp. unfold img_s. f_equal. symmetry. apply lift_below. apply (below_refs (OSub p)). cbn. by rewrite Hp. }
      assert (G2 : forall a, img_g (lift (Some a) f (next (maps h)) (next M)) g2 = img_g f g2).
      { intros a. destruct (fresh_img a) as [_ GI]. pose proof (f_equal hg_attrs GI) as X. unfold img_g, g2. cbn in X |- *. by rewrite X. }
      destruct (decide (hg_name g = n)) as [Hn|Hn].
      + (* the graph has this name: its attributes *)
        assert (N : named (h, g) n = Some (OGraph, TGraph)) by (unfold named; cbn [fst snd]; by rewrite decide_True).
        assert (Ll : hg_attrs g < next (maps h)) by (by apply (i_bound _ I OGraph)). set (l := hg_attrs g) in *.
        exists (Some ∅), (Some (l, (add_all (at_map h l) es).1)).
        assert (E : hexec grow o (HAddSubGraph pa n m) (h, g) = ((upd (h2 ∅) l (add_all (at_map h l) es).1, g2), (add_all (at_map h l) es).2)).
        { rewrite E0. assert (Am : at_map (h2 ∅) l = at_map h l) by (apply (at_map_fresh_ne h ∅ l); lia). rewrite <- Am.
          apply (named_add_attrs g2 n OGraph TGraph l es (h2 ∅)); [unfold named; cbn; by rewrite decide_True|done|by apply (swf_alloc (maps h))|cbn; lia]. }
        assert (Ei : hexec grow o (HAddSubGraph pa n (f <$> m)) (img f M (h, g)) = ((upd (h2i ∅) (f l) (add_all (at_map h l) es).1, img_g f g2), (add_all (at_map h l) es).2)).
        { rewrite E0i. assert (Am : at_map (h2i ∅) (f l) = at_map h l) by (etrans; [apply (at_map_fresh_ne (img_h f M h) ∅ (f l)); specialize (B l Ll); cbn; lia|symmetry; by apply A]). rewrite <- Am.
          apply (named_add_attrs (img_g f g2) n OGraph TGraph (f l) es (h2i ∅)); [unfold named; cbn; by rewrite decide_True|done|by apply (swf_alloc M)|cbn; specialize (B l Ll); lia]. }
        constructor; rewrite ?E; cbn [fst snd].
        * done.
        * rewrite Ei, H2. unfold img. cbn [fst snd]. rewrite G2. done.
        * intros l0 m0 [= <- <-]. by exists OGraph, TGraph.
        * cbn [adds_to]. rewrite N. intros ? ? [= <- <-]. split; [by eexists|]. constructor.
        * right. split; [done|]. exists (OSub q). split; [exact Nw|]. intros y. unfold upd. rewrite ref_maps. apply R2.
      + assert (N : named (h, g) n = None) by (unfold named; cbn [fst snd]; rewrite decide_False by done; by rewrite Q).
        set (a := (add_all ∅ es).1). exists (Some a), None. set (l := next (maps h)).
        assert (N2 : forall g', hg_name g' = hg_name g -> hg_subs g' = <[n:=q]> (hg_subs g) -> forall h', named (h', g') n = Some (OSub q, TSub n)).
        { intros g' Eg Es h'. unfold named. cbn [fst snd]. rewrite Eg, Es, decide_False by done. by rewrite lookup_insert. }
        assert (E : hexec grow o (HAddSubGraph pa n m) (h, g) = ((h2 a, g2), (add_all ∅ es).2)).
        { rewrite E0. assert (Am : at_map (h2 ∅) l = ∅) by apply (at_map_fresh h ∅).
          rewrite (named_add_attrs g2 n (OSub q) (TSub n) l es (h2 ∅)); [|by apply N2|by rewrite R2, decide_True|by apply (swf_alloc (maps h))|cbn; lia].
          rewrite Am. fold a. f_equal. f_equal. unfold h2, l, upd, fresh_map, with_maps, with_sobjs, put, alloc. cbn. by rewrite insert_insert. }
        assert (Ei : hexec grow o (HAddSubGraph pa n (f <$> m)) (img f M (h, g)) = ((h2i a, img_g f g2), (add_all ∅ es).2)).
        { rewrite E0i. assert (Am : at_map (h2i ∅) (next M) = ∅) by apply (at_map_fresh (img_h f M h) ∅).
          rewrite (named_add_attrs (img_g f g2) n (OSub q) (TSub n) (next M) es (h2i ∅)); [|by apply N2|cbn; by rewrite lookup_insert|by apply (swf_alloc M)|cbn; lia].
          rewrite Am. fold a. f_equal. f_equal. unfold h2i, upd, fresh_map, with_maps, with_sobjs, put, alloc. cbn. by rewrite insert_insert. }
        constructor; rewrite ?E; cbn [fst snd].
        * done.
        * rewrite Ei, H2. unfold img. cbn [fst snd]. by rewrite G2.
        * discriminate.
        * cbn [adds_to]. rewrite N. discriminate.
        * right. split; [done|]. exists (OSub q). split; [exact Nw|]. intros y. apply R2.
  Qed.
End Call.

Definition over_refs (f : nat -> nat) (c : hcall) : hcall := with_refs (fun m => f <$> m) c.
Lemma hexec_in_step grow o c f M u : inv u -> swf M -> (forall l, l < next (maps u.1) -> f l < next M) -> (forall l, l < next (maps u.1) -> at_map u.1 l = at_m M (f l)) ->
  (forall l, arg_of c = Some l -> l < next (maps u.1)) -> exists fr t, in_step grow o c f M u (over_refs f c) fr t.
Proof.
  destruct u as [h g]. intros I S B A L. cbn [fst] in *. unfold over_refs. destruct c as [b|b|n|s sp d dp dir m|s d dir m|p n m|p k v|p n m|p n|p n]; cbn [with_refs arg_of] in *.
  - exists None, None. apply in_step_none; [done|by intros []|done|discriminate].
  - exists None, None. apply in_step_none; [done|by intros []|done|discriminate].
  - exists None, None. apply in_step_none; [done|by intros []|done|discriminate].
  - destruct (port_edge_in_step grow o f M h g I S A s sp d dp dir m L) as [a H]. by exists (Some a), None.
  - destruct (port_edge_in_step grow o f M h g I S A s [] d [] dir m L) as [a H]. exists (Some a), None. destruct H as [H1 H2 H3 H4 H5]. constructor; [exact H1|exact H2|discriminate|discriminate|exact H5].
  - destruct (add_node_in_step grow o f M h g I S B A p n m L) as (a & t & H). by exists (Some a), t.
  - destruct (add_attr_in_step grow o f M h g I S B A p k v) as (t & H). by exists None, t.
  - apply (add_subgraph_in_step grow o f M h g I S B A p n m L).
  - exists None, None. apply in_step_none; [apply (remove_node_same_maps grow (h, g) p n)|apply (remove_node_same_maps grow (h, g) p n)|apply (img_remove_node grow f M (h, g) p n)|discriminate].
  - exists None, None. apply in_step_none; [apply (remove_subgraph_same_maps grow o (h, g) p n)|apply (remove_subgraph_same_maps grow o (h, g) p n)|apply (img_remove_subgraph grow o f M (h, g) p n)|discriminate].
Qed.
