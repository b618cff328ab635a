(** The programs of HeapWrite.v return what Write.v and Graph.v say, whatever else happens on the heap. *)
From Coq Require Import Sorting.Sorted.
From Verif Require Import Base Maps Graph Parser Write MapFacts AttrMap HeapGraph SpecHeap HeapProofs HeapWrite SpecLook LookProofs.
From Verif Require Ast.

Definition keeps (ow ow' : own) : Prop :=
  (forall l m, o_maps ow !! l = Some m -> o_maps ow' !! l = Some m) /\ (forall a x, o_arrs ow !! a = Some x -> o_arrs ow' !! a = Some x).
Lemma keeps_refl ow : keeps ow ow.
Proof. split; auto. Qed.
Lemma keeps_trans a b c : keeps a b -> keeps b c -> keeps a c.
Proof. intros [A1 A2] [B1 B2]. split; auto. Qed.

Section Spec.
  Variable w0 : world.
  Hypothesis I : inv w0.
  Variable o : oracle.
  Hypothesis FO : fair o.
  Let h := w0.1.
  Let hg := w0.2.
  Let g : agraph := abs w0.
  (** The program returns [r] and leaves alone what the goroutine had made before. *)
  Definition spec {A} (ow : own) (p : prog A) (r : res err A) : Prop := wp w0 ow p (fun ow' r' => r' = r /\ keeps ow ow').
  Lemma spec_ret {A} ow (a : A) : spec ow (Ret a) (Ok a).
  Proof. split; [done|apply keeps_refl]. Qed.
  Lemma spec_fail {A} ow e : spec (A := A) ow (Fail e) (Err e).
  Proof. split; [done|apply keeps_refl]. Qed.
  Lemma spec_bind {A B} ow (p : prog A) (f : A -> prog B) r (k : A -> res err B) : spec ow p r ->
    (forall ow' a, r = Ok a -> keeps ow ow' -> spec ow' (f a) (k a)) -> spec ow (bind p f) (rbind r k).
  Proof.
    intros P F. apply wp_bind. eapply wp_mono; [|exact P]. intros ow' r' [-> K]. cbn [rbind].
    destruct r as [a|e| |]; [|done..]. eapply wp_mono; [|by apply F]. intros ow'' r'' [-> K']. split; [done|by eapply keeps_trans].
  Qed.
  Lemma spec_let {A B} ow (p : prog A) (f : A -> prog B) a r : spec ow p (Ok a) ->
    (forall ow', keeps ow ow' -> spec ow' (f a) r) -> spec ow (bind p f) r.
  Proof. intros P F. apply (spec_bind ow p f (Ok a) (fun _ => r) P). intros ow' a' [= <-] K. by apply F. Qed.
  Lemma spec_get {T} ow (c : cell T) x : look w0 c = Some x -> spec ow (get c) (Ok x).
  Proof. intros L. unfold spec, get. cbn [wp]. unfold oget. rewrite L. split; [done|apply keeps_refl]. Qed.
  Lemma spec_own_arr ow a x : cells (earrs h) !! a = None -> o_arrs ow !! a = Some x -> spec ow (get (CArr a)) (Ok x).
  Proof. intros L E. unfold spec, get. cbn [wp]. unfold oget. cbn [look]. fold h. rewrite L, E. split; [done|apply keeps_refl]. Qed.
  Lemma spec_own_map ow a x : cells (maps h) !! a = None -> o_maps ow !! a = Some x -> spec ow (get (CMap a)) (Ok x).
  Proof. intros L E. unfold spec, get. cbn [wp]. unfold oget. cbn [look]. fold h. rewrite L, E. split; [done|apply keeps_refl]. Qed.
  (** Maps that can be read: those of the graph and those the goroutine has made. *)
  Definition readable (ow : own) (l : nat) (m : attrs) : Prop := forall ow', keeps ow ow' -> spec ow' (get (CMap l)) (Ok m).
  Lemma readable_base ow l m : cells (maps h) !! l = Some m -> readable ow l m.
  Proof. intros E ow' _. by apply spec_get. Qed.
  Lemma readable_own ow l m : cells (maps h) !! l = None -> o_maps ow !! l = Some m -> readable ow l m.
  Proof. intros E E' ow' [K _]. apply spec_own_map; auto. Qed.
  Lemma readable_keeps ow ow' l m : keeps ow ow' -> readable ow l m -> readable ow' l m.
  Proof. intros K R ow'' K'. apply R. by eapply keeps_trans. Qed.
  Lemma spec_read ow l m : readable ow l m -> spec ow (get (CMap l)) (Ok m).
  Proof. intros R. apply R, keeps_refl. Qed.

  (** ** attrs.go *)
  Lemma spec_names ow l m : readable ow l m -> spec ow (h_sorted_names l) (Ok (sorted (keys m))).
  Proof.
    intros R. unfold spec, h_sorted_names, keys_of. apply wp_bind, wp_bind. eapply wp_mono; [|by apply spec_read].
    intros ow' r [-> K]. cbn [wp]. intros ks P. split; [|done]. f_equal. by apply sorted_enum.
  Qed.
  Lemma wp_set_all l es : cells (maps h) !! l = None -> forall ow m (Q : own -> res err unit -> Prop), o_maps ow !! l = Some m ->
    Q (Own (<[l := extend m es]> (o_maps ow)) (o_arrs ow)) (Ok tt) -> wp w0 ow (set_all l es) Q.
  Proof.
    intros L. induction es as [|[k v] es IH]; intros ow m Q E H; cbn [set_all].
    - cbn [wp]. cbn [extend fold_left] in H. rewrite insert_id in H by done. by destruct ow.
    - apply wp_bind. unfold get. cbn [wp]. unfold oget. cbn [look]. fold h. rewrite L, E. cbn [oput]. fold h. rewrite L, E.
      apply (IH _ (<[k := v]> m)); cbn [o_maps o_arrs]; [apply lookup_insert|]. rewrite insert_insert. exact H.
  Qed.
  Lemma wp_copy ow l m (Q : own -> res err nat -> Prop) : cells (maps h) !! l = Some m ->
    (forall n, cells (maps h) !! n = None -> o_maps ow !! n = None -> Q (Own (<[n := m]> (o_maps ow)) (o_arrs ow)) (Ok n)) ->
    wp w0 ow (h_copy l) Q.
  Proof.
    intros L H. unfold h_copy. apply wp_bind. cbn [wp]. intros n N1 N2. apply wp_bind. unfold entries. apply wp_bind.
    unfold get. cbn [wp]. unfold oget. cbn [look]. fold h. rewrite L. cbn [wp]. intros es P. apply wp_bind.
    apply (wp_set_all n es N1 _ ∅); cbn [o_maps o_arrs]; [apply lookup_insert|]. cbn [wp]. rewrite insert_insert.
    change (extend ∅ es) with (copy_attrs es). rewrite (copy_enum m es P). by apply H.
  Qed.
  Lemma keeps_new ow n m : o_maps ow !! n = None -> keeps ow (Own (<[n := m]> (o_maps ow)) (o_arrs ow)).
  Proof. intros N. split; cbn; [|done]. intros l m' E. rewrite lookup_insert_ne; [done|congruence]. Qed.

  (** ** edges.go *)
  Lemma spec_attrs_less l l' x y ks : forall ow, readable ow l x -> readable ow l' y ->
    spec ow (h_attrs_less l l' ks) (Ok (attrs_less x y ks)).
  Proof.
    induction ks as [|k ks IH]; intros ow R R'; cbn [h_attrs_less attrs_less]; [apply spec_ret|].
    apply (spec_let _ _ _ x); [by apply spec_read|]. intros ow1 K1. apply (spec_let _ _ _ y); [apply spec_read; by eapply readable_keeps|].
    intros ow2 K2. unfold attr_at. destruct (str_ltb _ _); [apply spec_ret|]. destruct (str_ltb _ _); [apply spec_ret|].
    pose proof (keeps_trans _ _ _ K1 K2). apply IH; by eapply readable_keeps.
  Qed.
  Lemma edge_map p x : cells (eobjs h) !! p = Some x -> exists m, cells (maps h) !! eo_attrs x = Some m /\ abs_edge h p = Edge (eo_src x) (eo_src_port x) (eo_dst x) (eo_dst_port x) (eo_dir x) m.
  Proof.
    intros E. assert (L : eo_attrs x < next (maps h)).
    { apply (i_bound _ I (OEdge p)). cbn. fold h. by rewrite E. }
    apply (wh_maps _ (i_heap _ I)) in L as [m M]. fold h in M. exists m. split; [done|]. unfold abs_edge, at_edge, at_map. rewrite E. cbn. by rewrite M.
  Qed.
  Lemma spec_less ow a es i j p q : cells (earrs h) !! a = None -> o_arrs ow !! a = Some es -> es !! i = Some p -> es !! j = Some q ->
    is_Some (cells (eobjs h) !! p) -> is_Some (cells (eobjs h) !! q) ->
    spec ow (h_less a i j) (Ok (edge_less o (abs_edge h p) (abs_edge h q))).
  Proof.
    intros A1 A2 E1 E2 [x X] [y Y]. destruct (edge_map p x X) as (mx & MX & ->). destruct (edge_map q y Y) as (my & MY & ->).
    unfold h_less, edge_less. cbn [e_src e_dst e_src_port e_dst_port e_dir e_attrs].
    apply (spec_let _ _ _ es); [by apply spec_own_arr|]. intros ow1 K1. rewrite E1, E2.
    apply (spec_let _ _ _ x); [by apply spec_get|]. intros ow2 K2. apply (spec_let _ _ _ y); [by apply spec_get|]. intros ow3 K3.
    do 8 (destruct (str_ltb _ _); [apply spec_ret|]). destruct (negb _); [apply spec_ret|].
    rewrite (copy_enum mx) by (apply FO). rewrite (extend_enum mx my) by (apply FO).
    unfold spec. apply wp_bind. apply (wp_copy _ _ mx); [done|]. intros n N1 N2. apply wp_bind. unfold entries. apply wp_bind.
    unfold get. cbn [wp]. unfold oget. cbn [look]. fold h. rewrite MY. cbn [wp]. intros es' P. apply wp_bind.
    apply (wp_set_all n es' N1 _ mx); cbn [o_maps o_arrs]; [apply lookup_insert|]. rewrite insert_insert.
    rewrite (extend_enum mx my es' P).
    set (ow4 := Own (<[n := my ∪ mx]> (o_maps ow3)) (o_arrs ow3)).
    assert (K4 : keeps ow3 ow4) by (by apply keeps_new).
    apply wp_bind. eapply wp_mono; [|apply (spec_names ow4 n (my ∪ mx)); apply readable_own; [done|]; unfold ow4; cbn; apply lookup_insert].
    intros ow5 r [-> K5]. cbv beta iota.
    eapply wp_mono; [|apply (spec_attrs_less (eo_attrs x) (eo_attrs y) mx my (sorted (keys (my ∪ mx))) ow5); by apply readable_base].
    intros ow6 r' [-> K6]. split; [|by do 2 (eapply keeps_trans; [eassumption|])]. do 2 f_equal. symmetry. apply sorted_enum. apply FO.
  Qed.
  Definition less_ptr (p q : nat) : bool := edge_less o (abs_edge h p) (abs_edge h q).
  Lemma swapped_length {A} i j (l : list A) : length (swapped i j l) = length l.
  Proof. unfold swapped. destruct (l !! i), (l !! j); rewrite ?insert_length; done. Qed.
  Lemma swapped_Forall {A} (P : A -> Prop) i j (l : list A) : Forall P l -> Forall P (swapped i j l).
  Proof.
    intros F. unfold swapped. destruct (l !! i) as [x|] eqn:E1; [|done]. destruct (l !! j) as [y|] eqn:E2; [|done].
    apply Forall_insert; [apply Forall_insert; [done|]|]; by eapply Forall_lookup_1.
  Qed.
  Lemma wp_sort a n s : cells (earrs h) !! a = None -> in_range n s -> forall ow es, o_arrs ow !! a = Some es -> length es = n ->
    Forall (fun p => is_Some (cells (eobjs h) !! p)) es ->
    wp w0 ow (h_sort a s) (fun ow' r => r = Ok tt /\ o_arrs ow' !! a = Some (sort_with less_ptr s es) /\
      (forall l m, o_maps ow !! l = Some m -> o_maps ow' !! l = Some m) /\ (forall b x, b <> a -> o_arrs ow !! b = Some x -> o_arrs ow' !! b = Some x)).
  Proof.
    intros A1. induction s as [|i j k IH|i j k IH]; cbn [in_range h_sort sort_with]; intros R ow es E L F.
    - cbn [wp]. auto.
    - destruct R as (R1 & R2 & R3). destruct (lookup_lt_is_Some_2 es i) as [p P1]; [lia|]. destruct (lookup_lt_is_Some_2 es j) as [q P2]; [lia|].
      apply wp_bind. eapply wp_mono; [|apply (spec_less ow a es i j p q); [done..|exact (Forall_lookup_1 _ _ _ _ F P1)|exact (Forall_lookup_1 _ _ _ _ F P2)]].
      intros ow1 r [-> [K1 K2]]. cbv beta iota. unfold ask. rewrite P1, P2. fold (less_ptr p q).
      eapply wp_mono; [|apply (IH (less_ptr p q) (R3 _) ow1 es); auto]. intros ow2 r (-> & H1 & H2 & H3). auto 10.
    - destruct R as (R1 & R2 & R3). destruct (lookup_lt_is_Some_2 es i) as [p P1]; [lia|]. destruct (lookup_lt_is_Some_2 es j) as [q P2]; [lia|].
      apply wp_bind. unfold h_swap. apply wp_bind. unfold get. cbn [wp]. unfold oget. cbn [look]. fold h. rewrite A1, E. rewrite P1, P2.
      cbn [wp oput]. fold h. rewrite A1, E.
      eapply wp_mono; [|apply (IH R3 _ (swapped i j es)); cbn [o_arrs o_maps]].
      + intros ow2 r (-> & H1 & H2 & H3). cbn [o_arrs o_maps] in *. split; [done|]. split; [done|]. split; [done|]. intros b x N B. apply H3; [done|]. by rewrite lookup_insert_ne.
      + unfold swapped. rewrite P1, P2. apply lookup_insert.
      + by rewrite swapped_length.
      + by apply swapped_Forall.
  Qed.
  Lemma swapped_map {A B} (f : A -> B) i j l : map f (swapped i j l) = swapped i j (map f l).
  Proof.
    unfold swapped. change (map f l) with (f <$> l). rewrite !list_lookup_fmap.
    destruct (l !! i) as [x|] eqn:E1; cbn; [|done]. destruct (l !! j) as [y|] eqn:E2; cbn; [|done].
    change (map f (<[j:=x]> (<[i:=y]> l))) with (f <$> (<[j:=x]> (<[i:=y]> l))). by rewrite !list_fmap_insert.
  Qed.
  Lemma ask_map {A B} (f : A -> B) less i j l : ask (fun x y => less (f x) (f y)) i j l = ask less i j (map f l).
  Proof. unfold ask. change (map f l) with (f <$> l). rewrite !list_lookup_fmap. by destruct (l !! i), (l !! j). Qed.
  Lemma sort_with_map {A B} (f : A -> B) less s : forall l, map f (sort_with (fun x y => less (f x) (f y)) s l) = sort_with less s (map f l).
  Proof.
    induction s as [|i j k IH|i j k IH]; intros l; cbn [sort_with]; [done| |].
    - by rewrite IH, ask_map.
    - by rewrite IH, swapped_map.
  Qed.
  Lemma swapped_perm {A} i j (l : list A) : swapped i j l ≡ₚ l.
  Proof.
    unfold swapped. destruct (l !! i) as [x|] eqn:E1; [|done]. destruct (l !! j) as [y|] eqn:E2; [|done].
    destruct (decide (i = j)) as [->|N].
    - assert (x = y) by congruence. subst y. rewrite list_insert_insert. by rewrite list_insert_id.
    - pose proof (lookup_lt_Some _ _ _ E1) as L1. pose proof (lookup_lt_Some _ _ _ E2) as L2.
      apply Permutation_inj. split; [by rewrite !insert_length|].
      exists (fun n => if decide (n = i) then j else if decide (n = j) then i else n). split.
      + intros a b. repeat case_decide; congruence.
      + intros n. destruct (decide (n = i)) as [->|N1].
        * rewrite list_lookup_insert_ne by done. rewrite list_lookup_insert by done. done.
        * destruct (decide (n = j)) as [->|N2]; [rewrite list_lookup_insert by (by rewrite insert_length); done|].
          by rewrite !list_lookup_insert_ne.
  Qed.
  Lemma sort_with_perm {A} (less : A -> A -> bool) s : forall l, sort_with less s l ≡ₚ l.
  Proof. induction s as [|i j k IH|i j k IH]; intros l; cbn [sort_with]; [done|apply IH|]. rewrite IH. apply swapped_perm. Qed.

  (** ** The graph *)
  Lemma heap_graph : look w0 CGraph = Some hg.
  Proof. done. Qed.
  Lemma node_obj name p : hn_lookup (hg_nodes hg) !! name = Some p ->
    exists nd m, cells (nobjs h) !! p = Some nd /\ cells (maps h) !! no_attrs nd = Some m /\ deref (g_nodes g) p = Node (no_name nd) m.
  Proof.
    intros E. pose proof (wn_lookup _ _ (i_nodes _ I) _ _ E) as L. apply (wh_nobjs _ (i_heap _ I)) in L as [nd N]. fold h in N.
    assert (L : no_attrs nd < next (maps h)).
    { apply (i_bound _ I (ONode p)). cbn. fold h. by rewrite N. }
    apply (wh_maps _ (i_heap _ I)) in L as [m M]. fold h in M. exists nd, m. split; [done|]. split; [done|].
    unfold g, abs. destruct w0 as [h0 hg0]. cbn [g_nodes]. cbn in N. rewrite (deref_abs h0 (hg_nodes hg0) p nd N).
    unfold abs_node, at_map. cbn in M. by rewrite M.
  Qed.
  Lemma sub_obj name p : hg_subs hg !! name = Some p ->
    exists sb m, cells (sobjs h) !! p = Some sb /\ so_name sb = name /\ cells (maps h) !! so_attrs sb = Some m /\ g_subs g !! name = Some (Sub m name).
  Proof.
    intros E. destruct (i_subs _ I _ _ E) as [l S]. fold h in S.
    assert (L : l < next (maps h)).
    { apply (i_bound _ I (OSub p)). cbn. fold h. by rewrite S. }
    apply (wh_maps _ (i_heap _ I)) in L as [m M]. fold h in M. exists (SObj l name), m. split; [done|]. split; [done|]. split; [done|].
    unfold g, abs. destruct w0 as [h0 hg0]. cbn [g_subs]. unfold abs_subs. cbn in E. rewrite lookup_fmap, E. cbn.
    unfold abs_sub, at_sub, at_map. cbn in S, M. rewrite S. cbn. by rewrite M.
  Qed.
  Lemma g_lookup : nodes_lookup (g_nodes g) = hn_lookup (hg_nodes hg).
  Proof. unfold g, hg, abs. by destruct w0. Qed.
  Lemma g_sub_none name : g_subs g !! name = None <-> hg_subs hg !! name = None.
  Proof. unfold g, hg, abs. destruct w0. cbn. unfold abs_subs. rewrite lookup_fmap. by destruct (_ !! _). Qed.
  Lemma g_relations : g_rels g = hg_rels hg.
  Proof. unfold g, hg, abs. by destruct w0. Qed.
  Lemma g_its_name : g_name g = hg_name hg.
  Proof. unfold g, hg, abs. by destruct w0. Qed.
  Lemma spec_graph ow : spec ow (get CGraph) (Ok hg).
  Proof. by apply spec_get. Qed.
  Lemma spec_is_node ow n : spec ow (h_is_node n) (Ok (is_node g n)).
  Proof.
    unfold h_is_node, is_node. apply (spec_let _ _ _ hg); [apply spec_graph|]. intros ow' K. rewrite g_lookup.
    destruct (hn_lookup _ !! n); [rewrite bool_decide_true by eauto|rewrite bool_decide_false by (intros []; done)]; apply spec_ret.
  Qed.
  Lemma spec_is_sub ow n : spec ow (h_is_subgraph n) (Ok (is_subgraph g n)).
  Proof.
    unfold h_is_subgraph, is_subgraph. apply (spec_let _ _ _ hg); [apply spec_graph|]. intros ow' K.
    destruct (hg_subs hg !! n) as [p|] eqn:E.
    - destruct (sub_obj n p E) as (sb & m & _ & _ & _ & ->). rewrite bool_decide_true by eauto. apply spec_ret.
    - rewrite (proj2 (g_sub_none n) E). rewrite bool_decide_false by (intros []; done). apply spec_ret.
  Qed.
  Lemma spec_is_cluster ow n : spec ow (h_is_cluster n) (Ok (is_cluster g n)).
  Proof. unfold h_is_cluster, is_cluster. eapply spec_let; [apply spec_is_sub|]. intros. apply spec_ret. Qed.
  Lemma wp_pick_sorted {B : Type} (ow : own) (s : names) (f : list gostr -> B) :
    spec ow (let! ks := Pick (elements s) Ret in Ret (f (sorted_keys ks))) (Ok (f (sorted s))).
  Proof. intros ks P. cbn [bind wp]. split; [|apply keeps_refl]. do 2 f_equal. by apply sorted_enum. Qed.
  Lemma sorted_o i s : sorted_keys (o_names o i s) = sorted s.
  Proof. apply sorted_enum. apply FO. Qed.
  Lemma spec_children ow p i : spec ow (h_sorted_children p) (Ok (sorted_children o i (g_rels g) p)).
  Proof.
    unfold h_sorted_children, sorted_children. rewrite sorted_o, g_relations. apply (spec_let _ _ _ hg); [apply spec_graph|]. intros ow' K.
    apply (wp_pick_sorted ow' (children (hg_rels hg) p) (fun x => x)).
  Qed.

  (** ** write.go *)
  Lemma spec_append_loop l m ks : forall ow acc, readable ow l m ->
    spec ow (h_append_loop l ks acc) (Ok (acc ++ map (fun k => Ast.SAttr (Ast.Attr k (default [] (m !! k)))) ks)).
  Proof.
    induction ks as [|k ks IH]; intros ow acc R; cbn [h_append_loop map]; [rewrite app_nil_r; apply spec_ret|].
    apply (spec_let _ _ _ m); [by apply spec_read|]. intros ow' K. pose proof (IH ow' (acc ++ [Ast.SAttr (Ast.Attr k (default [] (m !! k)))]) (readable_keeps _ _ _ _ K R)) as X. by rewrite <- app_assoc in X.
  Qed.
  Lemma spec_append ow l m st : cells (maps h) !! l = Some m -> spec ow (h_append_attrs l) (Ok (append_attrs o m st).1).
  Proof.
    intros M. unfold h_append_attrs, append_attrs. cbn [fst]. rewrite sorted_o.
    eapply spec_let; [apply spec_names; by apply readable_base|]. intros ow' K. apply (spec_append_loop l m _ ow' []). by apply readable_base.
  Qed.
  Lemma spec_put_loop l m ks : forall ow acc, readable ow l m ->
    spec ow (h_put_loop l ks acc) (Ok (acc ++ map (fun k => Ast.Attr k (default [] (m !! k))) ks)).
  Proof.
    induction ks as [|k ks IH]; intros ow acc R; cbn [h_put_loop map]; [rewrite app_nil_r; apply spec_ret|].
    apply (spec_let _ _ _ m); [by apply spec_read|]. intros ow' K. pose proof (IH ow' (acc ++ [Ast.Attr k (default [] (m !! k))]) (readable_keeps _ _ _ _ K R)) as X. by rewrite <- app_assoc in X.
  Qed.
  Lemma spec_attr_list ow l m st : cells (maps h) !! l = Some m -> spec ow (h_attr_list l) (Ok (attr_list o m st).1).
  Proof.
    intros M. unfold h_attr_list, attr_list. cbn [fst]. unfold put_map. rewrite sorted_o. rewrite (copy_enum m) by apply FO.
    unfold spec. apply wp_bind. apply (wp_copy _ _ m); [done|]. intros n N1 N2. cbv beta iota.
    set (ow1 := Own (<[n := m]> (o_maps ow)) (o_arrs ow)). assert (K1 : keeps ow ow1) by (by apply keeps_new).
    assert (R1 : readable ow1 n m) by (apply readable_own; [done|]; unfold ow1; cbn; apply lookup_insert).
    eapply wp_mono; [|eapply spec_let; [by apply (spec_names ow1 n m)|]].
    - intros ow' r [-> K']. split; [done|by eapply keeps_trans].
    - intros ow2 K2. eapply spec_let; [apply (spec_put_loop n m _ ow2 []); by eapply readable_keeps|]. intros ow3 K3. apply spec_ret.
  Qed.
  Definition erase {T} (r : res err (T * wstate)) : res err (T * names) :=
    match r with Ok (t, st) => Ok (t, w_written st) | Err e => Err e | Panic => Panic | OutOfFuel => OutOfFuel end.
  Lemma spec_node_stmt ow name st : spec ow (h_new_node_stmt name (w_written st)) (erase (new_node_stmt o g name st)).
  Proof.
    unfold h_new_node_stmt, new_node_stmt. apply (spec_let _ _ _ hg); [apply spec_graph|]. intros ow1 K1. rewrite g_lookup.
    destruct (hn_lookup (hg_nodes hg) !! name) as [p|] eqn:E; [|split; [done|apply keeps_refl]].
    destruct (node_obj name p E) as (nd & m & N & M & ->). cbn [node_name node_attrs].
    apply (spec_let _ _ _ nd); [by apply spec_get|]. intros ow2 K2.
    pose proof (spec_attr_list ow2 (no_attrs nd) m (mark (no_name nd) st) M) as SA.
    destruct (attr_list o m (mark (no_name nd) st)) as [a st1] eqn:EA. assert (W : w_written st1 = {[no_name nd]} ∪ w_written st).
    { unfold attr_list in EA. injection EA as _ <-. done. }
    cbn [erase fst] in *. rewrite W. eapply spec_let; [exact SA|]. intros. apply spec_ret.
  Qed.
  Definition spec_sub_fun (rec : gostr -> names -> prog (Ast.subgraph * names)) (rec' : gostr -> wstate -> res err (Ast.subgraph * wstate)) : Prop :=
    forall (ow : own) (n : gostr) (st : wstate), spec ow (rec n (w_written st)) (erase (rec' n st)).
  (** A result that is passed on. *)
  Lemma spec_erase {T B : Type} (ow : own) (p : prog (T * names)) (r : res err (T * wstate)) (f : T * names -> prog B) (k : T * wstate -> res err B) :
    spec ow p (erase r) -> (forall ow' t st, r = Ok (t, st) -> keeps ow ow' -> spec ow' (f (t, w_written st)) (k (t, st))) ->
    spec ow (bind p f) (rbind r k).
  Proof.
    intros P F. destruct r as [[t st]|e| |]; cbn [erase rbind] in *.
    - apply (spec_let _ _ _ _ _ P). intros. by apply F.
    - exact (spec_bind ow p f (Err e) (fun _ => Err e) P ltac:(done)).
    - exact (spec_bind ow p f Panic (fun _ => Panic) P ltac:(done)).
    - exact (spec_bind ow p f OutOfFuel (fun _ => OutOfFuel) P ltac:(done)).
  Qed.
  Lemma spec_children_loop rec rec' cs : spec_sub_fun rec rec' -> forall ow acc st,
    spec ow (h_children_loop rec cs acc (w_written st)) (erase (children_loop o g rec' cs acc st)).
  Proof.
    intros R. induction cs as [|c cs IH]; intros ow acc st; cbn [h_children_loop children_loop]; [apply spec_ret|].
    eapply spec_let; [apply spec_is_node|]. intros ow1 K1. destruct (is_node g c).
    - replace (erase _) with (rbind (new_node_stmt o g c st) (fun r => erase (children_loop o g rec' cs (acc ++ [r.1]) r.2))).
      2: { by destruct (new_node_stmt o g c st) as [[s st1]|e| |]. }
      apply spec_erase; [apply spec_node_stmt|]. intros ow2 t st2 _ K2. cbn [fst snd]. apply IH.
    - eapply spec_let; [apply spec_is_sub|]. intros ow2 K2. destruct (is_subgraph g c); [|apply spec_fail].
      replace (erase _) with (rbind (rec' c st) (fun r => erase (children_loop o g rec' cs (acc ++ [Ast.SSub r.1]) r.2))).
      2: { by destruct (rec' c st) as [[s st1]|e| |]. }
      apply spec_erase; [apply R|]. intros ow3 t st3 _ K3. cbn [fst snd]. apply IH.
  Qed.
  Lemma spec_new_sub fuel : spec_sub_fun (h_new_sub fuel) (new_sub o g fuel).
  Proof.
    induction fuel as [|fuel IH]; intros ow n st; cbn [h_new_sub new_sub]; [split; [done|apply keeps_refl]|].
    apply (spec_let _ _ _ hg); [apply spec_graph|]. intros ow1 K1.
    destruct (hg_subs hg !! n) as [p|] eqn:E.
    2: { rewrite (proj2 (g_sub_none n) E). split; [done|apply keeps_refl]. }
    destruct (sub_obj n p E) as (sb & m & S & NM & M & ->). cbn [sub_attrs sub_name].
    apply (spec_let _ _ _ sb); [by apply spec_get|]. intros ow2 K2. rewrite NM.
    pose proof (spec_append ow2 (so_attrs sb) m (mark n st) M) as SA.
    destruct (append_attrs o m (mark n st)) as [sa st1] eqn:EA. assert (W : w_written st1 = {[n]} ∪ w_written st).
    { unfold append_attrs in EA. injection EA as _ <-. done. }
    cbn [fst] in SA. eapply spec_let; [exact SA|]. intros ow3 K3. eapply spec_let; [apply (spec_children _ _ (w_tick st1))|]. intros ow4 K4.
    set (cs := sorted_children o (w_tick st1) (g_rels g) n). rewrite <- W. change (w_written st1) with (w_written (tick 1 st1)).
    replace (erase _) with (rbind (children_loop o g (new_sub o g fuel) cs sa (tick 1 st1)) (fun r => Ok (Ast.SubGraph n r.1, w_written r.2))).
    2: { by destruct (children_loop o g (new_sub o g fuel) cs sa (tick 1 st1)) as [[s st2]|e| |]. }
    apply spec_erase; [by apply spec_children_loop|]. intros. apply spec_ret.
  Qed.
  Lemma spec_node_id ow name port : spec ow (h_new_node_id name port) (new_node_id g name port).
  Proof.
    unfold h_new_node_id, new_node_id. apply (spec_let _ _ _ hg); [apply spec_graph|]. intros ow1 K1. rewrite g_lookup.
    destruct (hn_lookup (hg_nodes hg) !! name) as [p|] eqn:E; [|split; [done|apply keeps_refl]].
    destruct (node_obj name p E) as (nd & m & N & M & ->). cbn [node_name].
    apply (spec_let _ _ _ nd); [by apply spec_get|]. intros. apply spec_ret.
  Qed.
  Lemma spec_location fuel ow name port st : spec ow (h_new_location fuel name port (w_written st)) (erase (new_location o g fuel name port st)).
  Proof.
    unfold h_new_location, new_location. eapply spec_let; [apply spec_is_node|]. intros ow1 K1. destruct (is_node g name).
    - replace (erase _) with (rbind (new_node_id g name port) (fun n => Ok (Ast.LNode n, w_written st))) by (by destruct (new_node_id g name port)).
      eapply spec_bind; [apply spec_node_id|]. intros. apply spec_ret.
    - eapply spec_let; [apply spec_is_cluster|]. intros ow2 K2. destruct (is_cluster g name).
      + destruct port; [apply spec_ret|apply spec_fail].
      + eapply spec_let; [apply spec_is_sub|]. intros ow3 K3. destruct (is_subgraph g name); [|apply spec_fail].
        destruct port; [|apply spec_fail].
        replace (erase _) with (rbind (new_sub o g fuel name st) (fun r => Ok (Ast.LSub r.1, w_written r.2))) by (by destruct (new_sub o g fuel name st) as [[]| | |]).
        apply spec_erase; [apply spec_new_sub|]. intros. apply spec_ret.
  Qed.
  Lemma spec_edge_stmt fuel ow p st : is_Some (cells (eobjs h) !! p) ->
    spec ow (h_new_edge_stmt fuel p (w_written st)) (erase (new_edge_stmt o g fuel (abs_edge h p) st)).
  Proof.
    intros [x X]. destruct (edge_map p x X) as (m & M & ->). unfold h_new_edge_stmt, new_edge_stmt. cbn [e_src e_dst e_src_port e_dst_port e_dir e_attrs].
    apply (spec_let _ _ _ x); [by apply spec_get|]. intros ow1 K1.
    replace (erase _) with (rbind (new_location o g fuel (eo_src x) (eo_src_port x) st) (fun r =>
      rbind (new_location o g fuel (eo_dst x) (eo_dst_port x) r.2) (fun r' =>
        Ok (Ast.SEdge r.1 [Ast.EdgeRH (eo_dir x) r'.1] (attr_list o m r'.2).1, w_written r'.2)))).
    2: { destruct (new_location o g fuel (eo_src x) (eo_src_port x) st) as [[src st1]|e| |]; [|done..]. cbn [rbind fst snd].
         destruct (new_location o g fuel (eo_dst x) (eo_dst_port x) st1) as [[dst st2]|e| |]; done. }
    apply spec_erase; [apply spec_location|]. intros ow2 src st1 _ K2. cbn [fst snd].
    apply spec_erase; [apply spec_location|]. intros ow3 dst st2 _ K3. cbn [fst snd].
    eapply spec_let; [by apply (spec_attr_list _ _ m st2)|]. intros. apply spec_ret.
  Qed.
  Lemma spec_edges_loop fuel a es : cells (earrs h) !! a = None -> Forall (fun p => is_Some (cells (eobjs h) !! p)) es ->
    forall post pre ow acc st, es = pre ++ post -> o_arrs ow !! a = Some es ->
    spec ow (h_edges_loop fuel a (length pre) (length post) acc (w_written st)) (erase (edges_loop o g fuel (map (abs_edge h) post) acc st)).
  Proof.
    intros A1 F. induction post as [|p post IH]; intros pre ow acc st E A2; cbn [h_edges_loop edges_loop map length]; [apply spec_ret|].
    apply (spec_let _ _ _ es); [by apply spec_own_arr|]. intros ow1 [K1 K1'].
    assert (P : es !! length pre = Some p) by (rewrite E; by apply list_lookup_middle). rewrite P.
    replace (erase _) with (rbind (new_edge_stmt o g fuel (abs_edge h p) st) (fun r => erase (edges_loop o g fuel (map (abs_edge h) post) (acc ++ [r.1]) r.2))).
    2: { by destruct (new_edge_stmt o g fuel (abs_edge h p) st) as [[s st1]|e| |]. }
    apply spec_erase; [apply spec_edge_stmt; exact (Forall_lookup_1 _ _ _ _ F P)|]. intros ow2 t st2 _ [K2 K2']. cbn [fst snd].
    replace (S (length pre)) with (length (pre ++ [p])) by (rewrite app_length; cbn; lia).
    apply IH; [by rewrite <- app_assoc|]. auto.
  Qed.
  Lemma spec_subs_loop fuel ns : forall (ow : own) (acc : list Ast.stmt) (st : wstate), (forall n : gostr, n ∈ ns -> is_Some (hg_subs hg !! n)) ->
    spec ow (h_subs_loop fuel (map (fun n => default 0 (hg_subs hg !! n)) ns) acc (w_written st))
      (erase (subs_loop o g fuel (map (fun n => default (Sub ∅ []) (g_subs g !! n)) ns) acc st)).
  Proof.
    induction ns as [|n ns IH]; intros ow acc st H; cbn [map h_subs_loop subs_loop]; [apply spec_ret|].
    destruct (H n) as [p E]; [left|]. destruct (sub_obj n p E) as (sb & m & S & NM & M & G). rewrite E, G. cbn [default from_option id sub_name].
    assert (H' : forall n, n ∈ ns -> is_Some (hg_subs hg !! n)) by (intros; apply H; by right).
    apply (spec_let _ _ _ sb); [by apply spec_get|]. intros ow1 K1. rewrite NM. destruct (decide (n ∈ w_written st)); [by apply IH|].
    apply (spec_let _ _ _ hg); [apply spec_graph|]. intros ow2 K2. rewrite g_relations, g_its_name. destruct (decide (n ∈ children _ _)); [|by apply IH].
    replace (erase _) with (rbind (new_sub o g fuel n st) (fun r => erase (subs_loop o g fuel (map (fun n => default (Sub ∅ []) (g_subs g !! n)) ns) (acc ++ [Ast.SSub r.1]) r.2))).
    2: { by destruct (new_sub o g fuel n st) as [[s st1]|e' | |]. }
    apply spec_erase; [apply spec_new_sub|]. intros ow3 t st3 _ K3. cbn [fst snd]. by apply IH.
  Qed.
  Lemma spec_nodes_loop ns : forall (ow : own) (acc : list Ast.stmt) (st : wstate), (forall n : gostr, n ∈ ns -> is_Some (hn_lookup (hg_nodes hg) !! n)) ->
    spec ow (h_nodes_loop (map (fun n => default 0 (hn_lookup (hg_nodes hg) !! n)) ns) acc (w_written st))
      (erase (nodes_loop o g (map (fun n => deref (g_nodes g) (default 0 (nodes_lookup (g_nodes g) !! n))) ns) acc st)).
  Proof.
    induction ns as [|n ns IH]; intros ow acc st H; cbn [map h_nodes_loop nodes_loop]; [apply spec_ret|].
    destruct (H n) as [p E]; [left|]. destruct (node_obj n p E) as (nd & m & N & M & G). rewrite g_lookup, E. cbn [default from_option id]. rewrite G. cbn [node_name].
    assert (H' : forall n, n ∈ ns -> is_Some (hn_lookup (hg_nodes hg) !! n)) by (intros; apply H; by right).
    rewrite <- g_lookup.
    apply (spec_let _ _ _ nd); [by apply spec_get|]. intros ow1 K1. destruct (decide (no_name nd ∈ w_written st)); [rewrite g_lookup; specialize (IH ow1 acc st H'); by rewrite g_lookup in IH|].
    replace (erase _) with (rbind (new_node_stmt o g (no_name nd) st) (fun r => erase (nodes_loop o g (map (fun n => deref (g_nodes g) (default 0 (nodes_lookup (g_nodes g) !! n))) ns) (acc ++ [r.1]) r.2))).
    2: { by destruct (new_node_stmt o g (no_name nd) st) as [[s st1]|e' | |]. }
    apply spec_erase; [apply spec_node_stmt|]. intros ow3 t st3 _ K3. cbn [fst snd]. rewrite g_lookup. specialize (IH ow3 (acc ++ [t]) st3 H'). by rewrite g_lookup in IH.
  Qed.

  Lemma g_flags : g_directed g = hg_directed hg /\ g_strict g = hg_strict hg.
  Proof. unfold g, hg, abs. by destruct w0. Qed.
  Lemma g_map : hg_attrs hg < next (maps h) -> is_Some (cells (maps h) !! hg_attrs hg) -> cells (maps h) !! hg_attrs hg = Some (g_attrs g).
  Proof. intros _ [m M]. unfold g, h, hg, abs in *. destruct w0. cbn in *. unfold at_map. by rewrite M. Qed.
  Lemma g_sub_at n q : hg_subs hg !! n = Some q -> g_subs g !! n = Some (abs_sub h q).
  Proof. intros N. unfold g, h, hg, abs in *. destruct w0. cbn in *. unfold abs_subs. by rewrite lookup_fmap, N. Qed.
  (** ** The sorted slices and WriteAst *)
  Variable sort : nat -> strat.
  Hypothesis SR : forall n, in_range n (sort n).
  Let ps0 := elems (earrs h) (he_edges (hg_edges hg)).
  Lemma ps0_valid : Forall (fun p => is_Some (cells (eobjs h) !! p)) ps0.
  Proof.
    pose proof (we_elems _ _ (i_edges _ I)) as F. fold h hg in F. eapply Forall_impl; [exact F|]. cbn. intros p L. by apply (wh_eobjs _ (i_heap _ I)).
  Qed.
  Lemma ps0_length : length ps0 = sl_len (he_edges (hg_edges hg)).
  Proof. pose proof (we_slice _ _ (i_edges _ I)) as [_ L]. fold h hg in L. unfold ps0, elems. rewrite take_length. lia. Qed.
  Lemma ps0_edges : map (abs_edge h) ps0 = edges_list (g_edges g).
  Proof. unfold ps0, g, h, hg, abs. by destruct w0. Qed.
  Definition ps1 : list nat := sort_with less_ptr (sort (length ps0)) ps0.
  Lemma ps1_perm : ps1 ≡ₚ ps0.
  Proof. apply sort_with_perm. Qed.
  Lemma ps1_valid : Forall (fun p => is_Some (cells (eobjs h) !! p)) ps1.
  Proof. rewrite ps1_perm. apply ps0_valid. Qed.
  Lemma ps1_edges : map (abs_edge h) ps1 = sort_edges sort o (edges_list (g_edges g)).
  Proof.
    unfold ps1, sort_edges. rewrite <- ps0_edges, map_length. unfold less_ptr. by rewrite (sort_with_map (abs_edge h) (edge_less o)).
  Qed.
  Lemma wp_edges_sorted ow : wp w0 ow (h_edges_sorted sort) (fun ow' r => exists a, r = Ok a /\ cells (earrs h) !! a = None /\
    o_arrs ow' !! a = Some ps1 /\ keeps ow ow').
  Proof.
    unfold h_edges_sorted. apply wp_bind. unfold get. cbn [wp]. unfold oget. cbn [look]. fold hg.
    apply wp_bind. cbn [wp]. intros a A1 A2. apply wp_bind. cbn [wp].
    pose proof (we_slice _ _ (i_edges _ I)) as [L _]. fold h hg in L. apply (wh_earrs _ (i_heap _ I)) in L as [es E]. fold h in E.
    unfold oget. cbn [look]. fold h. rewrite E. cbn [wp oput o_maps o_arrs]. fold h. fold h in A1. rewrite A1, lookup_insert.
    assert (P : take (sl_len (he_edges (hg_edges hg))) es = ps0).
    { unfold ps0, elems, array. by rewrite E. }
    rewrite P. apply wp_bind. rewrite <- ps0_length.
    eapply wp_mono; [|apply (wp_sort a (length ps0) (sort (length ps0)) A1 (SR _) _ ps0); cbn [o_maps o_arrs]; [apply lookup_insert|done|apply ps0_valid]].
    intros ow' r (-> & H1 & H2 & H3). cbn [wp o_maps o_arrs] in *. exists a. split; [done|]. split; [done|]. split; [done|].
    split; [done|]. intros b x B. assert (b <> a) by congruence. apply H3; [done|]. by rewrite !lookup_insert_ne.
  Qed.
  Lemma spec_subs_sorted ow : spec ow h_subs_sorted (Ok (map (fun n => default 0 (hg_subs hg !! n)) (sorted (keys (hg_subs hg))))).
  Proof.
    unfold h_subs_sorted. apply (spec_let _ _ _ hg); [apply spec_graph|]. intros ow' K.
    apply (wp_pick_sorted ow' (keys (hg_subs hg)) (fun ks => map (fun n => default 0 (hg_subs hg !! n)) ks)).
  Qed.
  Lemma spec_nodes_sorted ow : spec ow h_nodes_sorted (Ok (map (fun n => default 0 (hn_lookup (hg_nodes hg) !! n)) (sorted (keys (hn_lookup (hg_nodes hg)))))).
  Proof.
    unfold h_nodes_sorted. apply (spec_let _ _ _ hg); [apply spec_graph|]. intros ow' K.
    apply (wp_pick_sorted ow' (keys (hn_lookup (hg_nodes hg))) (fun ks => map (fun n => default 0 (hn_lookup (hg_nodes hg) !! n)) ks)).
  Qed.
  Lemma g_sub_keys : keys (g_subs g) = keys (hg_subs hg).
  Proof. unfold g, hg, abs. destruct w0. cbn. unfold abs_subs, keys. by rewrite dom_fmap_L. Qed.
  Lemma subs_sorted_g i : subs_sorted o i (g_subs g) = map (fun n => default (Sub ∅ []) (g_subs g !! n)) (sorted (keys (hg_subs hg))).
  Proof. unfold subs_sorted. by rewrite sorted_o, g_sub_keys. Qed.
  Lemma nodes_sorted_g i : nodes_sorted o i (g_nodes g) = map (fun n => deref (g_nodes g) (default 0 (nodes_lookup (g_nodes g) !! n))) (sorted (keys (hn_lookup (hg_nodes hg)))).
  Proof. unfold nodes_sorted. by rewrite sorted_o, g_lookup. Qed.
  Lemma spec_after {A B : Type} (ow ow1 : own) (p : prog A) (r : res err A) : keeps ow ow1 -> spec ow1 p r ->
    wp w0 ow1 p (fun ow' r' => r' = r /\ keeps ow ow').
  Proof. intros K S. eapply wp_mono; [|exact S]. intros ow' r' [-> K']. split; [done|by eapply keeps_trans]. Qed.
  Lemma spec_write_ast fuel ow : spec ow (h_write_ast sort fuel) (write_ast (sort_edges sort o) o g fuel).
  Proof.
    unfold h_write_ast. apply (spec_let _ _ _ hg); [apply spec_graph|]. intros ow1 K1.
    assert (M : cells (maps h) !! hg_attrs hg = Some (g_attrs g)).
    { assert (L : hg_attrs hg < next (maps h)) by (by apply (i_bound _ I OGraph)). apply g_map; [done|]. by apply (wh_maps _ (i_heap _ I)). }
    unfold write_ast. pose proof (spec_append ow1 (hg_attrs hg) (g_attrs g) (WState ∅ 0) M) as SA.
    destruct (append_attrs o (g_attrs g) (WState ∅ 0)) as [sa st1] eqn:EA. assert (W : w_written st1 = ∅).
    { unfold append_attrs in EA. by injection EA as _ <-. }
    eapply spec_let; [exact SA|]. intros ow2 K2. cbn [fst].
    unfold spec. apply wp_bind. eapply wp_mono; [|apply wp_edges_sorted]. intros ow3 r (a & -> & A1 & A2 & K3). cbv beta iota.
    apply (spec_after (B := unit) ow2 ow3); [done|].
    rewrite <- ps0_length, <- (Permutation_length ps1_perm), <- ps1_edges.
    replace (match edges_loop o g fuel (map (abs_edge h) ps1) sa st1 with
      | Ok (l2, st2) => match subs_loop o g fuel (subs_sorted o (w_tick st2) (g_subs g)) l2 (tick 1 st2) with
        | Ok (l3, st3) => match nodes_loop o g (nodes_sorted o (w_tick st3) (g_nodes g)) l3 (tick 1 st3) with
          | Ok (l4, _) => Ok (Ast.Graph (g_directed g) (g_strict g) (g_name g) l4) | Err e => Err e | Panic => Panic | OutOfFuel => OutOfFuel end
        | Err e => Err e | Panic => Panic | OutOfFuel => OutOfFuel end
      | Err e => Err e | Panic => Panic | OutOfFuel => OutOfFuel end)
      with (rbind (edges_loop o g fuel (map (abs_edge h) ps1) sa st1) (fun r2 =>
        rbind (subs_loop o g fuel (subs_sorted o (w_tick r2.2) (g_subs g)) r2.1 (tick 1 r2.2)) (fun r3 =>
          rbind (nodes_loop o g (nodes_sorted o (w_tick r3.2) (g_nodes g)) r3.1 (tick 1 r3.2)) (fun r4 =>
            Ok (Ast.Graph (g_directed g) (g_strict g) (g_name g) r4.1))))).
    2: { destruct (edges_loop o g fuel (map (abs_edge h) ps1) sa st1) as [[l2 st2]|e| |]; cbn [rbind fst snd]; [|done..].
         destruct (subs_loop o g fuel (subs_sorted o (w_tick st2) (g_subs g)) l2 (tick 1 st2)) as [[l3 st3]|e| |]; cbn [rbind fst snd]; [|done..].
         by destruct (nodes_loop o g (nodes_sorted o (w_tick st3) (g_nodes g)) l3 (tick 1 st3)) as [[l4 st4]|e| |]. }
    apply spec_erase. { rewrite <- W. apply (spec_edges_loop fuel a ps1 A1 ps1_valid ps1 []); done. }
    intros ow4 l2 st2 _ K4. cbn [fst snd].
    eapply spec_let; [apply spec_subs_sorted|]. intros ow5 K5. rewrite subs_sorted_g.
    apply spec_erase. { change (w_written st2) with (w_written (tick 1 st2)). apply spec_subs_loop. intros n N. apply elem_of_sorted in N. by apply elem_of_dom in N. }
    intros ow6 l3 st3 _ K6. cbn [fst snd].
    eapply spec_let; [apply spec_nodes_sorted|]. intros ow7 K7. rewrite nodes_sorted_g.
    apply spec_erase. { change (w_written st3) with (w_written (tick 1 st3)). apply spec_nodes_loop. intros n N. apply elem_of_sorted in N. by apply elem_of_dom in N. }
    intros ow8 l4 st4 _ K8. cbn [fst snd].
    destruct g_flags as [-> ->]. rewrite g_its_name. apply spec_ret.
  Qed.

  (** ** The calls *)
  Lemma spec_each {A B : Type} (f : A -> prog B) (f' : A -> B) l : (forall ow x, x ∈ l -> spec ow (f x) (Ok (f' x))) ->
    forall ow, spec ow (each f l) (Ok (map f' l)).
  Proof.
    induction l as [|x l IH]; intros H ow; cbn [each map]; [apply spec_ret|]. eapply spec_let; [apply H; left|]. intros ow1 K1.
    eapply spec_let; [apply IH; intros; apply H; by right|]. intros. apply spec_ret.
  Qed.
  Lemma spec_catch {A : Type} ow (p : prog A) r : spec ow p r ->
    spec ow (catch p) (match r with Ok a => Ok (inl a) | Err e => Ok (inr e) | Panic => Panic | OutOfFuel => OutOfFuel end).
  Proof. intros S. apply wp_catch. eapply wp_mono; [|exact S]. intros ow' r' [-> K]. by destruct r. Qed.
  Lemma spec_read_edge ow p : is_Some (cells (eobjs h) !! p) -> spec ow (read_edge p) (Ok (abs_edge h p)).
  Proof.
    intros [x X]. destruct (edge_map p x X) as (m & M & ->). unfold read_edge.
    apply (spec_let _ _ _ x); [by apply spec_get|]. intros ow1 K1. apply (spec_let _ _ _ m); [by apply spec_get|]. intros. apply spec_ret.
  Qed.
  Lemma spec_look fuel ow c : spec ow (run_look sort fuel c) (alone sort o fuel g c).
  Proof.
    destruct c; cbn [run_look alone].
    - unfold graph_string. pose proof (spec_catch ow _ _ (spec_write_ast fuel ow)) as S. destruct (write_ast (sort_edges sort o) o g fuel) as [a|e| |].
      + eapply spec_let; [exact S|]. intros. apply spec_ret.
      + eapply spec_let; [exact S|]. intros. apply spec_ret.
      + exact (spec_bind ow _ _ Panic (fun _ => Panic) S ltac:(done)).
      + exact (spec_bind ow _ _ OutOfFuel (fun _ => OutOfFuel) S ltac:(done)).
    - pose proof (spec_catch ow _ _ (spec_write_ast fuel ow)) as S. destruct (write_ast (sort_edges sort o) o g fuel) as [a|e| |].
      + eapply spec_let; [exact S|]. intros. apply spec_ret.
      + eapply spec_let; [exact S|]. intros. apply spec_ret.
      + exact (spec_bind ow _ _ Panic (fun _ => Panic) S ltac:(done)).
      + exact (spec_bind ow _ _ OutOfFuel (fun _ => OutOfFuel) S ltac:(done)).
    - unfold spec. apply wp_bind. eapply wp_mono; [|apply wp_edges_sorted]. intros ow3 r (a & -> & A1 & A2 & K3). cbv beta iota.
      apply (spec_after (B := unit) ow ow3); [done|]. apply (spec_let _ _ _ ps1); [by apply spec_own_arr|]. intros ow4 K4.
      eapply spec_let; [apply (spec_each read_edge (abs_edge h))|].
      + intros ow5 p P. apply spec_read_edge. pose proof ps1_valid as F. rewrite Forall_forall in F. by apply F.
      + intros. rewrite ps1_edges. apply spec_ret.
    - eapply spec_let; [apply spec_nodes_sorted|]. intros ow1 K1. rewrite nodes_sorted_g.
      set (f := fun p => deref (g_nodes g) p).
      eapply spec_let; [apply (spec_each read_node f)|].
      + intros ow2 p P. apply elem_of_list_In, in_map_iff in P as (n & <- & N). apply elem_of_list_In, elem_of_sorted, elem_of_dom in N as [q N].
        rewrite N. cbn [default from_option id]. destruct (node_obj n q N) as (nd & m & N1 & N2 & N3). unfold f. rewrite N3. unfold read_node.
        apply (spec_let _ _ _ nd); [by apply spec_get|]. intros ow3 K3. apply (spec_let _ _ _ m); [by apply spec_get|]. intros. apply spec_ret.
      + intros. rewrite map_map. rewrite g_lookup. apply spec_ret.
    - eapply spec_let; [apply spec_subs_sorted|]. intros ow1 K1. rewrite subs_sorted_g.
      eapply spec_let; [apply (spec_each read_sub (abs_sub h))|].
      + intros ow2 p P. apply elem_of_list_In, in_map_iff in P as (n & <- & N). apply elem_of_list_In, elem_of_sorted, elem_of_dom in N as [q N].
        rewrite N. cbn [default from_option id]. destruct (sub_obj n q N) as (sb & m & N1 & N2 & N3 & N4). unfold read_sub, abs_sub, at_sub, at_map. rewrite N1. cbn [default from_option id]. rewrite N3.
        apply (spec_let _ _ _ sb); [by apply spec_get|]. intros ow3 K3. apply (spec_let _ _ _ m); [by apply spec_get|]. intros. apply spec_ret.
      + intros. rewrite map_map.
        replace (map (fun n => default (Sub ∅ []) (g_subs g !! n)) (sorted (keys (hg_subs hg)))) with (map (fun n => abs_sub h (default 0 (hg_subs hg !! n))) (sorted (keys (hg_subs hg)))).
        * apply spec_ret.
        * apply map_ext_in. intros n N. apply elem_of_list_In, elem_of_sorted, elem_of_dom in N as [q N]. rewrite (g_sub_at n q N), N. done.
    - eapply spec_let; [apply (spec_children _ _ 0)|]. intros. apply spec_ret.
    - eapply spec_let; [apply spec_is_node|]. intros. apply spec_ret.
    - eapply spec_let; [apply spec_is_sub|]. intros. apply spec_ret.
  Qed.
  Lemma spec_looker fuel cs : forall ow, spec ow (looker sort fuel cs) (alone_all sort o fuel g cs).
  Proof.
    unfold looker. induction cs as [|c cs IH]; intros ow; cbn [each alone_all]; [apply spec_ret|].
    replace (match alone sort o fuel g c with Ok v => _ | Err e => Err e | Panic => Panic | OutOfFuel => OutOfFuel end)
      with (rbind (alone sort o fuel g c) (fun v => rbind (alone_all sort o fuel g cs) (fun vs => Ok (v :: vs)))) by (by destruct (alone sort o fuel g c)).
    eapply spec_bind; [apply spec_look|]. intros ow1 v _ K1. eapply spec_bind; [apply IH|]. intros. apply spec_ret.
  Qed.
End Spec.
