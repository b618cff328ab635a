(** Proofs for C85: calls on graphs with nil pointers in their containers. *)
From Verif Require Import Base Maps MapFacts Graph SpecGraph AttrMap Zero Holes SpecHoles.

(** ** The slice of nodes *)
Section Slice.
  Context (nm : nat -> gostr).
  Definition un (n : gostr) (l : list (option nat)) : Prop := forall p : nat, Some p ∈ l -> nm p <> n.
  Definition nilf (n : gostr) (l : list (option nat)) : Prop := exists a b, l = a ++ None :: b /\ un n a.
  Definition nodef (n : gostr) (l : list (option nat)) : Prop :=
    exists a p b, l = a ++ Some p :: b /\ None ∉ a /\ un n a /\ nm p = n.
  Lemma un_nil n : un n []. Proof. intros p H. inversion H. Qed.
  Lemma un_cons n p l : un n (Some p :: l) <-> nm p <> n /\ un n l.
  Proof.
    split.
    - intros H. split; [apply H; left|]. intros q Hq. apply H. by right.
    - intros [H1 H2] q Hq. apply elem_of_cons in Hq as [[= ->]|Hq]; auto.
  Qed.
  Lemma nilf_nil n : ~ nilf n []. Proof. intros (a & b & E & _). by destruct a. Qed.
  Lemma nilf_none n l : nilf n (None :: l). Proof. exists [], l. split; [done|apply un_nil]. Qed.
  Lemma nilf_some n p l : nilf n (Some p :: l) <-> nm p <> n /\ nilf n l.
  Proof.
    split.
    - intros (a & b & E & U). destruct a as [|x a]; [discriminate|]. injection E as <- ->. apply un_cons in U as [U1 U2]. split; [done|]. by exists a, b.
    - intros [H (a & b & -> & U)]. exists (Some p :: a), b. split; [done|]. by apply un_cons.
  Qed.
  Lemma nodef_nil n : ~ nodef n []. Proof. intros (a & p & b & E & _). by destruct a. Qed.
  Lemma nodef_none n l : ~ nodef n (None :: l).
  Proof. intros (a & p & b & E & N & _). destruct a as [|x a]; [discriminate|]. injection E as <- _. apply N. left. Qed.
  Lemma nodef_some n p l : nodef n (Some p :: l) <-> nm p = n \/ (nm p <> n /\ nodef n l).
  Proof.
    split.
    - intros (a & q & b & E & N & U & K). destruct a as [|x a]; [injection E as <- _; by left|]. injection E as <- ->. apply un_cons in U as [U1 U2].
      right. split; [done|]. exists a, q, b. split; [done|]. split; [|done]. intros H. apply N. by right.
    - intros [K|[H (a & q & b & -> & N & U & K)]].
      + exists [], p, l. split; [done|]. split; [apply not_elem_of_nil|]. split; [apply un_nil|done].
      + exists (Some p :: a), q, b. split; [done|]. split; [|split; [by apply un_cons|done]]. rewrite elem_of_cons. intros [?|?]; [discriminate|contradiction].
  Qed.
  Lemma nil_or_node n l : nilf n l -> nodef n l -> False.
  Proof.
    induction l as [|[p|] l IH]; [by intros ?%nilf_nil| |by intros _ ?%nodef_none]. rewrite nilf_some, nodef_some. intros [H1 H2] [H|[_ H]]; auto.
  Qed.
  (** without a node of another name *)
  Lemma nilf_less n p a b : nm p <> n -> nilf n (a ++ b) <-> nilf n (a ++ Some p :: b).
  Proof.
    intros H. induction a as [|[q|] a IH]; cbn [app].
    - rewrite nilf_some. tauto.
    - rewrite !nilf_some, IH. reflexivity.
    - split; intros _; apply nilf_none.
  Qed.
  Lemma nodef_less n p a b : nm p <> n -> nodef n (a ++ b) <-> nodef n (a ++ Some p :: b).
  Proof.
    intros H. induction a as [|[q|] a IH]; cbn [app].
    - rewrite nodef_some. tauto.
    - rewrite !nodef_some, IH. reflexivity.
    - split; intros K; exfalso; by apply nodef_none in K.
  Qed.
End Slice.
Definition hname (ns : hnodes) (p : nat) : gostr := node_name (hderef ns p).
Lemma nil_first_eq h n : nil_first h n <-> nilf (hname (h_nodes h)) n (hn_list (h_nodes h)). Proof. reflexivity. Qed.
Lemma node_first_eq h n : node_first h n <-> nodef (hname (h_nodes h)) n (hn_list (h_nodes h)). Proof. reflexivity. Qed.

(** nodes.go: Remove *)
Lemma hremove_cases ns n post : forall pre,
  (nilf (hname ns) n post /\ hremove_loop ns n pre post = (ns, Panicked)) \/
  (exists a p b, post = a ++ Some p :: b /\ None ∉ a /\ un (hname ns) n a /\ hname ns p = n /\
     hremove_loop ns n pre post = (HNodes (delete n (hn_lookup ns)) (pre ++ a ++ b) (hn_heap ns) (hn_next ns), Done None)) \/
  (~ nilf (hname ns) n post /\ ~ nodef (hname ns) n post /\ hremove_loop ns n pre post = (ns, Done (Some (lit "node " ++ n ++ lit " not found")))).
Proof.
  induction post as [|[p|] post IH]; intros pre; cbn [hremove_loop].
  - right. right. split; [apply nilf_nil|]. split; [apply nodef_nil|done].
  - fold (hname ns p). destruct (str_eqb (hname ns p) n) eqn:E; [apply str_eqb_eq in E|apply str_eqb_neq in E].
    + right. left. exists [], p, post. split; [done|]. split; [apply not_elem_of_nil|]. split; [apply un_nil|]. split; [done|]. reflexivity.
    + destruct (IH (pre ++ [Some p])) as [[H1 H2]|[(a & q & b & -> & H2 & H3 & H4 & H5)|(H1 & H2 & H3)]].
      * left. split; [|done]. by apply nilf_some.
      * right. left. exists (Some p :: a), q, b. split; [done|]. split; [rewrite elem_of_cons; intros [?|?]; [discriminate|contradiction]|].
        split; [by apply un_cons|]. split; [done|]. rewrite H5. by rewrite <- app_assoc.
      * right. right. rewrite nilf_some, nodef_some. split; [tauto|]. split; [tauto|done].
  - left. split; [apply nilf_none|done].
Qed.

(** ** Completions of the containers *)
Record ncomp (ns : hnodes) (ms : nodes) : Prop := {
  nc_heap : nodes_heap ms = hn_heap ns; nc_next : nodes_next ms = hn_next ns;
  nc_lookup : completes_map (hn_lookup ns) (nodes_lookup ms); nc_list : Forall2 instead (hn_list ns) (nodes_list ms) }.
Record ecomp (es : hedges) (fs : edges) : Prop := {
  ec_list : Forall2 instead (he_list es) (edges_list fs); ec_s2d : src_to_dsts fs = h_s2d es; ec_d2s : dst_to_srcs fs = h_d2s es }.
Lemma completes_nodes h g : completes h g -> ncomp (h_nodes h) (g_nodes g).
Proof. intros C. split; apply C. Qed.
Lemma completes_edges h g : completes h g -> ecomp (h_edges h) (g_edges g).
Proof. intros C. split; apply C. Qed.
Lemma comp_nodes h g ns ms : completes h g -> ncomp ns ms -> completes (hw_nodes h ns) (with_nodes g ms).
Proof. intros C N. split; try apply C; apply N. Qed.
Lemma comp_edges h g es fs : completes h g -> ecomp es fs -> completes (hw_edges h es) (with_edges g fs).
Proof. intros C N. split; try apply C; apply N. Qed.
Lemma comp_rels h g r : completes h g -> completes (hw_rels h r) (with_rels g r).
Proof. intros C. split; try apply C; reflexivity. Qed.
Lemma comp_subs h g m m' : completes h g -> completes_map m m' -> completes (hw_subs h m) (with_subs g m').
Proof. intros C N. split; try apply C; apply N. Qed.
Lemma comp_attrs h g a : completes h g -> completes (hw_attrs h a) (with_attrs g a).
Proof. intros C. split; try apply C; reflexivity. Qed.
Lemma cm_delete {A : Type} (m : gmap gostr (option A)) m' n : completes_map m m' -> completes_map (delete n m) (delete n m').
Proof.
  intros C k. destruct (decide (k = n)) as [->|N].
  - by rewrite !lookup_delete.
  - rewrite !lookup_delete_ne by done. apply C.
Qed.
Lemma cm_insert {A : Type} (m : gmap gostr (option A)) m' n x y : completes_map m m' -> instead x y -> completes_map (<[n := x]> m) (<[n := y]> m').
Proof.
  intros C I k. destruct (decide (k = n)) as [->|N].
  - by rewrite !lookup_insert.
  - rewrite !lookup_insert_ne by done. apply C.
Qed.
Lemma instead_some {A : Type} (x : A) : instead (Some x) x. Proof. intros a [= ->]. reflexivity. Qed.
Lemma instead_eq {A : Type} (x y : A) : instead (Some x) y -> y = x. Proof. intros H. by apply H. Qed.
Lemma cm_some {A : Type} (m : gmap gostr (option A)) m' n x : completes_map m m' -> m !! n = Some (Some x) -> m' !! n = Some x.
Proof. intros C E. specialize (C n). rewrite E in C. destruct (m' !! n) as [y|]; [|done]. f_equal. by apply instead_eq. Qed.
Lemma cm_none {A : Type} (m : gmap gostr (option A)) m' n : completes_map m m' -> m !! n = None -> m' !! n = None.
Proof. intros C E. specialize (C n). rewrite E in C. by destruct (m' !! n). Qed.
Lemma cm_hole {A : Type} (m : gmap gostr (option A)) m' n x : completes_map m m' -> m !! n = Some x -> is_Some (m' !! n).
Proof. intros C E. specialize (C n). rewrite E in C. destruct (m' !! n) as [y|]; [eauto|done]. Qed.
Lemma deref_comp ns ms p : ncomp ns ms -> deref ms p = hderef ns p.
Proof. intros C. unfold deref, hderef. by rewrite (nc_heap _ _ C). Qed.

Lemma remove_comp ns ms n : ncomp ns ms -> forall post post' pre pre', Forall2 instead post post' -> Forall2 instead pre pre' ->
  match hremove_loop ns n pre post with
  | (ns', Done r) => exists ms', nodes_remove_loop ms n pre' post' = (ms', r) /\ ncomp ns' ms'
  | (ns', Panicked) => ns' = ns
  end.
Proof.
  intros C. induction post as [|x post IH]; intros post' pre pre' F G; inversion F as [|? y ? post'' K F']; subst; cbn [hremove_loop nodes_remove_loop].
  - by exists ms.
  - destruct x as [p|]; [|done]. apply instead_eq in K as ->. rewrite (deref_comp _ _ _ C). destruct (str_eqb _ n).
    + eexists. split; [reflexivity|]. split; cbn; try apply C; [apply cm_delete, C|]. by apply Forall2_app.
    + apply IH; [done|]. apply Forall2_app; [done|]. constructor; [apply instead_some|constructor].
Qed.
Lemma nodes_add_comp ns ms n a l : ncomp ns ms ->
  match hnodes_add ns n a l with
  | (ns', Done r) => r = None /\ ncomp ns' (nodes_add ms n a l)
  | (ns', Panicked) => ns' = ns
  end.
Proof.
  intros C. unfold hnodes_add, nodes_add. destruct (hn_lookup ns !! n) as [[p|]|] eqn:E; [| done |].
  - rewrite (cm_some _ _ _ _ (nc_lookup _ _ C) E). split; [done|]. rewrite (deref_comp _ _ _ C). split; cbn; try apply C. by rewrite (nc_heap _ _ C).
  - rewrite (cm_none _ _ _ (nc_lookup _ _ C) E). split; [done|]. rewrite (nc_next _ _ C). split; cbn; [by rewrite (nc_heap _ _ C)|done| |].
    + apply cm_insert; [apply C|apply instead_some].
    + apply Forall2_app; [apply C|]. constructor; [apply instead_some|constructor].
Qed.
Lemma edges_add_comp es fs e : ecomp es fs -> ecomp (hedges_add es e) (edges_add fs e).
Proof.
  intros C. split; cbn; [|by rewrite (ec_s2d _ _ C)|by rewrite (ec_d2s _ _ C)].
  apply Forall2_app; [apply C|]. constructor; [apply instead_some|constructor].
Qed.
Lemma filter_comp keep l : forall l' acc acc', Forall2 instead l l' -> ecomp acc acc' ->
  match hfilter keep acc l with
  | Some es => ecomp es (fold_left (fun acc e => if keep e then edges_add acc e else acc) l' acc') /\ None ∉ l /\ (None ∉ he_list acc -> None ∉ he_list es)
  | None => None ∈ l
  end.
Proof.
  induction l as [|x l IH]; intros l' acc acc' F C; inversion F as [|? y ? l'' K F']; subst; cbn [hfilter fold_left].
  - split; [done|]. split; [apply not_elem_of_nil|done].
  - destruct x as [e|]; [|left]. apply instead_eq in K as ->.
    assert (C' : ecomp (if keep e then hedges_add acc e else acc) (if keep e then edges_add acc' e else acc')) by (destruct (keep e); [by apply edges_add_comp|done]).
    specialize (IH l'' _ _ F' C'). destruct (hfilter _ _ l) as [es|].
    + destruct IH as (I1 & I2 & I3). split; [done|]. split; [rewrite elem_of_cons; intros [?|?]; [discriminate|contradiction]|].
      intros N. apply I3. destruct (keep e); [|done]. cbn. rewrite elem_of_app, elem_of_list_singleton. intros [?|?]; [contradiction|discriminate].
    + by right.
Qed.
(** Each list is completed by something. *)
Definition some_edge : edge := Edge [] [] [] [] false ∅.
Lemma list_completed {A : Type} (d : A) (l : list (option A)) : Forall2 instead l (map (default d) l).
Proof. induction l as [|[x|] l IH]; cbn; constructor; auto; [apply instead_some|]. intros a [=]. Qed.
Lemma map_completed {A : Type} (d : A) (m : gmap gostr (option A)) : completes_map m (default d <$> m).
Proof. intros n. rewrite lookup_fmap. destruct (m !! n) as [[x|]|]; cbn; [apply instead_some|intros a [=]|done]. Qed.
Definition completion (h : hgraph) : agraph :=
  AGraph (h_attrs h) (h_name h) (h_directed h) (h_strict h)
    (Nodes (default 0 <$> hn_lookup (h_nodes h)) (map (default 0) (hn_list (h_nodes h))) (hn_heap (h_nodes h)) (hn_next (h_nodes h)))
    (Edges (h_s2d (h_edges h)) (h_d2s (h_edges h)) (map (default some_edge) (he_list (h_edges h))))
    (default (Sub ∅ []) <$> h_subs h) (h_rels h).
Lemma completion_ok h : completes h (completion h).
Proof. split; cbn; try reflexivity; first [apply map_completed | apply list_completed]. Qed.

Lemma hfilter_comp keep h g : completes h g ->
  match hfilter keep h_new_edges (he_list (h_edges h)) with
  | Some es => ecomp es (filter_edges keep (g_edges g)) /\ None ∉ he_list (h_edges h) /\ None ∉ he_list es
  | None => None ∈ he_list (h_edges h)
  end.
Proof.
  intros C. assert (E0 : ecomp h_new_edges new_edges) by (split; [constructor|done|done]).
  pose proof (filter_comp keep (he_list (h_edges h)) (edges_list (g_edges g)) _ _ (co_edges _ _ C) E0) as H.
  unfold filter_edges. destruct (hfilter _ _ _) as [es|]; [|done]. destruct H as (H1 & H2 & H3). split; [done|]. split; [done|]. apply H3. apply not_elem_of_nil.
Qed.
Lemma hdrop_cases keep h :
  (nil_edge h /\ hdrop keep h = (h, Panicked)) \/ (~ nil_edge h /\ exists es, None ∉ he_list es /\ hdrop keep h = (hw_edges h es, Done None)).
Proof.
  pose proof (hfilter_comp keep h _ (completion_ok h)) as H. unfold hdrop. destruct (hfilter _ _ _) as [es|]; [|by left].
  destruct H as (_ & H2 & H3). right. split; [done|]. by exists es.
Qed.
Lemma hdrop_comp keep h g : completes h g ->
  match hdrop keep h with
  | (h', Done r) => r = None /\ completes h' (with_edges g (filter_edges keep (g_edges g)))
  | (h', Panicked) => h' = h
  end.
Proof.
  intros C. pose proof (hfilter_comp keep h g C) as H. unfold hdrop. destruct (hfilter _ _ _) as [es|]; [|done].
  split; [done|]. apply comp_edges; [done|]. apply H.
Qed.

(** ** A call that does not panic is the call on any completion *)
Definition follows (x : hgraph * out) (y : agraph * option err) : Prop :=
  match x with (h', Done r) => y.2 = r /\ completes h' y.1 | (_, Panicked) => True end.
Lemma remove_node_follows h g p n : completes h g -> follows (hremove_node h p n) (remove_node g p n).
Proof.
  intros C. unfold hremove_node, remove_node, hnodes_remove, nodes_remove.
  pose proof (remove_comp _ _ n (completes_nodes _ _ C) _ _ [] [] (co_nodes _ _ C) (List.Forall2_nil _)) as H.
  destruct (hremove_loop _ n [] _) as [ns [[e|]|]]; [| |done].
  - destruct H as (ms & -> & _). by split.
  - destruct H as (ms & -> & N).
    set (h2 := hw_rels (hw_nodes h ns) _). set (g2 := with_rels (with_nodes g ms) _).
    assert (C2 : completes h2 g2).
    { unfold h2, g2. cbn [h_rels hw_nodes g_rels with_nodes]. rewrite (co_rels _ _ C). apply comp_rels, comp_nodes; done. }
    pose proof (hdrop_comp (fun e => negb (str_eqb (e_dst e) n || str_eqb (e_src e) n)) h2 g2 C2) as D.
    destruct (hdrop _ h2) as [h3 [r|]]; [|done]. destruct D as [-> D]. by split.
Qed.
Lemma add_attr_follows h g p f v : completes h g -> follows (hadd_attr h p f v) (add_attr g p f v).
Proof.
  intros C. unfold hadd_attr, add_attr. rewrite (co_name _ _ C). destruct (str_eqb _ p).
  - rewrite (co_attrs _ _ C). destruct (attrs_add _ f v) as [a e]. split; [done|]. by apply comp_attrs.
  - destruct (h_subs h !! p) as [[s|]|] eqn:E; [|done|].
    + rewrite (cm_some _ _ _ _ (co_subs _ _ C) E). destruct (attrs_add _ f v) as [a e]. split; [done|]. apply comp_subs; [done|].
      apply cm_insert; [apply C|apply instead_some].
    + rewrite (cm_none _ _ _ (co_subs _ _ C) E). by split.
Qed.
Lemma attrs_loop_follows n l : forall h g, completes h g -> follows (hadd_attrs_loop h n l) (add_attrs_loop g n l).
Proof.
  induction l as [|[k v] l IH]; intros h g C; cbn [hadd_attrs_loop add_attrs_loop]; [by split|].
  pose proof (add_attr_follows h g n k v C) as H. destruct (hadd_attr h n k v) as [h' [[e|]|]]; [| |done].
  - destruct H as [H1 H2]. destruct (add_attr g n k v) as [g' r]. cbn in H1, H2. subst r. by split.
  - destruct H as [H1 H2]. destruct (add_attr g n k v) as [g' r]. cbn in H1, H2. subst r. by apply IH.
Qed.
Lemma nodes_loop_follows p l : forall h g, completes h g -> follows (hremove_nodes_loop h p l) (remove_nodes_loop g p l).
Proof.
  induction l as [|c l IH]; intros h g C; cbn [hremove_nodes_loop remove_nodes_loop]; [by split|].
  pose proof (remove_node_follows h g p c C) as H. destruct (hremove_node h p c) as [h' [[e|]|]]; [| |done].
  - destruct H as [H1 H2]. destruct (remove_node g p c) as [g' r]. cbn in H1, H2. subst r. by split.
  - destruct H as [H1 H2]. destruct (remove_node g p c) as [g' r]. cbn in H1, H2. subst r. by apply IH.
Qed.
Lemma exec_follows o c h g : completes h g -> follows (hexec o c h) (exec o c g).
Proof.
  intros C. destruct c as [b|b|n|s sp d dp dir m|s d dir m|p n m|p f v|p n m|p n|p n]; cbn [hexec exec].
  - split; [done|]. split; apply C || done.
  - split; [done|]. split; apply C || done.
  - split; [done|]. split; apply C || done.
  - unfold hadd_port_edge, add_port_edge. destruct (new_attrs _) as [a|e]; [|by split]. split; [done|]. apply comp_edges; [done|]. apply edges_add_comp, completes_edges, C.
  - unfold add_edge, hadd_port_edge, add_port_edge. destruct (new_attrs _) as [a|e]; [|by split]. split; [done|]. apply comp_edges; [done|]. apply edges_add_comp, completes_edges, C.
  - unfold hadd_node, add_node. destruct (new_attrs _) as [a|e]; [|by split].
    pose proof (nodes_add_comp _ _ n a (o_attrs o 1 a) (completes_nodes _ _ C)) as H. destruct (hnodes_add _ _ _ _) as [ns [r|]]; [|done].
    destruct H as [-> H]. split; [done|]. cbn [fst]. cbn [h_rels hw_nodes g_rels with_nodes]. rewrite (co_rels _ _ C). apply comp_rels, comp_nodes; done.
  - by apply add_attr_follows.
  - unfold hadd_subgraph, add_subgraph. apply attrs_loop_follows. rewrite (co_rels _ _ C). apply comp_subs; [by apply comp_rels|].
    cbn [h_subs hw_rels g_subs with_rels]. unfold hsubs_add, subs_add. destruct (h_subs h !! n) as [x|] eqn:E.
    + destruct (cm_hole _ _ _ _ (co_subs _ _ C) E) as [y ->]. apply C.
    + rewrite (cm_none _ _ _ (co_subs _ _ C) E). apply cm_insert; [apply C|apply instead_some].
  - by apply remove_node_follows.
  - unfold hremove_subgraph, remove_subgraph. rewrite (co_rels _ _ C).
    pose proof (nodes_loop_follows p (o_names o 0 (children (h_rels h) n)) h g C) as H.
    destruct (hremove_nodes_loop _ _ _) as [h1 [[e|]|]]; [| |done].
    + destruct H as [H1 H2]. destruct (remove_nodes_loop _ _ _) as [g1 r]. cbn in H1, H2. subst r. by split.
    + destruct H as [H1 C1]. destruct (remove_nodes_loop _ _ _) as [g1 r]. cbn in H1, C1. subst r.
      set (h3 := hw_subs _ _). set (g3 := with_subs _ _).
      assert (C3 : completes h3 g3).
      { unfold h3, g3. cbn [h_subs hw_rels g_subs with_rels]. apply comp_subs; [rewrite (co_rels _ _ C1); by apply comp_rels|]. apply cm_delete, C1. }
      pose proof (hdrop_comp (fun e => negb (str_eqb (e_dst e) n || str_eqb (e_dst_port e) n || str_eqb (e_src e) n || str_eqb (e_src_port e) n)) h3 g3 C3) as D.
      destruct (hdrop _ h3) as [h4 [r|]]; [|done]. destruct D as [-> D]. by split.
Qed.
