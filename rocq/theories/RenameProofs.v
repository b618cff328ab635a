(** The writer on a graph with one name changed, compared with the writer on the graph itself. *)
From Verif Require Import Maps MapFacts Parser Graph GraphProofs AttrMap Write Direct DirectProofs SpecGraph SpecCount Rename SpecRename.
From Verif Require Ast.

Definition res_rel {A B} (R : A -> B -> Prop) (x : res err A) (y : res err B) : Prop :=
  match x, y with
  | Ok a, Ok b => R a b
  | Err e, Err e' => e = e'
  | Panic, Panic => True
  | OutOfFuel, OutOfFuel => True
  | _, _ => False
  end.

Lemma ren_make f n p : ren_id f (Ast.make_node_id n p) = Ast.make_node_id (f n) p.
Proof. unfold Ast.make_node_id, ren_id. destruct p; [reflexivity|]. destruct (split_on _ _) as [|? [|? ?]]; reflexivity. Qed.

Section Sim.
  Variables (o : oracle) (g g' : agraph) (f h r : gostr -> gostr) (new : gostr -> Prop).
  Hypothesis Fo : fair o.
  Hypothesis r_inj : forall x y, ~ new x -> ~ new y -> r x = r y -> x = y.
  Hypothesis Hl : nodes_lookup (g_nodes g') = nodes_lookup (g_nodes g).
  Hypothesis Hn : forall k p, nodes_lookup (g_nodes g) !! k = Some p ->
    deref (g_nodes g') p = Node (f k) (node_attrs (deref (g_nodes g) p)) /\ node_name (deref (g_nodes g) p) = k /\ f k = r k /\ ~ new k.
  Hypothesis Hs : g_subs g' = (fun s => Sub (sub_attrs s) (h (sub_name s))) <$> g_subs g.
  Hypothesis Hs2 : forall k s, g_subs g !! k = Some s -> sub_name s = k /\ h k = r k /\ ~ new k /\ (is_node g k = false -> f k = k).
  Hypothesis Hr : forall k s, g_subs g !! k = Some s -> children (g_rels g') k = children (g_rels g) k.
  Hypothesis Hg : g_name g' = g_name g.
  Hypothesis Hc : forall k s, g_subs g !! k = Some s ->
    (h k ∈ children (g_rels g') (g_name g) <-> k ∈ children (g_rels g) (g_name g)) /\ (k ∈ children (g_rels g) (g_name g) -> h k = k).

  Definition sim (st st' : wstate) : Prop :=
    w_tick st' = w_tick st /\ forall x, ~ new x -> r x ∈ w_written st' <-> x ∈ w_written st.
  Lemma sim_tick k st st' : sim st st' -> sim (tick k st) (tick k st').
  Proof. intros [T W]. split; [cbn; lia|exact W]. Qed.
  Lemma sim_mark x st st' : ~ new x -> sim st st' -> sim (mark x st) (mark (r x) st').
  Proof.
    intros N [T W]. split; [exact T|]. intros y Ny. cbn. rewrite !elem_of_union, !elem_of_singleton, (W y Ny). split; intros [E|E]; auto.
    subst. auto.
  Qed.
  Definition pair_rel {A B} (F : A -> B) (x : A * wstate) (y : B * wstate) : Prop := y.1 = F x.1 /\ sim x.2 y.2.

  Lemma is_node_same k : is_node g' k = is_node g k.
  Proof. unfold is_node. rewrite Hl. reflexivity. Qed.
  Lemma is_sub_same k : is_subgraph g' k = is_subgraph g k.
  Proof. unfold is_subgraph. rewrite Hs, lookup_fmap. destruct (g_subs g !! k); reflexivity. Qed.
  Lemma is_cluster_same k : is_cluster g' k = is_cluster g k.
  Proof. unfold is_cluster. rewrite is_sub_same. reflexivity. Qed.

  Lemma attr_list_sim m st st' : sim st st' -> exists a, (attr_list o m st).1 = a /\ (attr_list o m st').1 = a /\ sim (attr_list o m st).2 (attr_list o m st').2.
  Proof. intros M. eexists. split; [reflexivity|]. pose proof M as [T W]. split; [unfold attr_list; cbn; rewrite T; reflexivity|]. apply (sim_tick 2), M. Qed.

  Lemma node_sim k st st' : sim st st' ->
    res_rel (pair_rel (ren_stmt f h)) (new_node_stmt o g k st) (new_node_stmt o g' k st').
  Proof.
    intros M. unfold new_node_stmt. rewrite Hl. destruct (nodes_lookup (g_nodes g) !! k) as [p|] eqn:E; [|exact I].
    destruct (Hn k p E) as (D & N & Fk & Nk). rewrite D, N. cbn [node_name node_attrs].
    destruct (attr_list_sim (node_attrs (deref (g_nodes g) p)) (mark k st) (mark (f k) st')) as (a & A1 & A2 & A3); [rewrite Fk; apply sim_mark; assumption|].
    destruct (attr_list o _ (mark k st)) as [a1 s1]. destruct (attr_list o _ (mark (f k) st')) as [a2 s2]. cbn in A1, A2, A3. subst.
    split; cbn [fst snd ren_stmt ren_loc]; [rewrite ren_make; reflexivity|exact A3].
  Qed.

  Lemma children_sim rec rec' : (forall k s st st', g_subs g !! k = Some s -> sim st st' -> res_rel (pair_rel (ren_tree f h)) (rec k st) (rec' k st')) ->
    forall cs acc st st', sim st st' ->
    res_rel (pair_rel (map (ren_stmt f h))) (children_loop o g rec cs acc st) (children_loop o g' rec' cs (map (ren_stmt f h) acc) st').
  Proof.
    intros IH. induction cs as [|c cs IHc]; intros acc st st' M; cbn [children_loop].
    - split; [reflexivity|exact M].
    - rewrite is_node_same, is_sub_same. destruct (is_node g c) eqn:E.
      + pose proof (node_sim c st st' M) as Q. destruct (new_node_stmt o g c st) as [[s1 t1]| | |], (new_node_stmt o g' c st') as [[s2 t2]| | |]; try contradiction; try exact Q.
        destruct Q as [Q1 Q2]. cbn in Q1, Q2. subst. specialize (IHc (acc ++ [s1]) t1 t2 Q2). rewrite map_app in IHc. exact IHc.
      + unfold is_subgraph. destruct (g_subs g !! c) as [sb|] eqn:Es; [|reflexivity].
        pose proof (IH c sb st st' Es M) as Q. destruct (rec c st) as [[s1 t1]| | |], (rec' c st') as [[s2 t2]| | |]; try contradiction; try exact Q.
        destruct Q as [Q1 Q2]. cbn in Q1, Q2. subst. specialize (IHc (acc ++ [Ast.SSub s1]) t1 t2 Q2). rewrite map_app in IHc. exact IHc.
  Qed.
  Lemma attrs_ren m st : map (ren_stmt f h) (append_attrs o m st).1 = (append_attrs o m st).1.
  Proof. unfold append_attrs. cbn [fst]. rewrite map_map. reflexivity. Qed.
  Lemma append_sim m st st' : sim st st' ->
    (append_attrs o m st').1 = map (ren_stmt f h) (append_attrs o m st).1 /\ sim (append_attrs o m st).2 (append_attrs o m st').2.
  Proof.
    intros M. rewrite attrs_ren. pose proof M as [T W]. split; [unfold append_attrs; cbn [fst]; rewrite T; reflexivity|]. apply (sim_tick 1), M.
  Qed.
  Lemma sub_sim fuel : forall k s st st', g_subs g !! k = Some s -> sim st st' ->
    res_rel (pair_rel (ren_tree f h)) (new_sub o g fuel k st) (new_sub o g' fuel k st').
  Proof.
    induction fuel as [|fuel IH]; intros k s st st' E M; cbn [new_sub]; [exact Logic.I|].
    rewrite Hs, lookup_fmap, E. cbn [fmap option_fmap option_map sub_attrs sub_name].
    destruct (Hs2 k s E) as (N & Hk & Nk & _). rewrite N.
    destruct (append_sim (sub_attrs s) (mark k st) (mark (h k) st')) as [A1 A2]; [rewrite Hk; apply sim_mark; assumption|].
    destruct (append_attrs o (sub_attrs s) (mark k st)) as [sa s1]. destruct (append_attrs o (sub_attrs s) (mark (h k) st')) as [sa' s1']. cbn in A1, A2. subst sa'.
    unfold sorted_children. rewrite (Hr k s E). destruct A2 as [T W]. rewrite T.
    pose proof (children_sim _ _ IH (sorted_keys (o_names o (w_tick s1) (children (g_rels g) k))) sa _ _ (sim_tick 1 _ _ (conj T W))) as Q.
    destruct (children_loop o g (new_sub o g fuel) _ sa _) as [[b1 t1]| | |], (children_loop o g' (new_sub o g' fuel) _ _ _) as [[b2 t2]| | |]; try contradiction; try exact Q.
    destruct Q as [Q1 Q2]. cbn in Q1, Q2. subst. split; [reflexivity|exact Q2].
  Qed.
  Lemma loc_sim fuel k port st st' : sim st st' ->
    res_rel (pair_rel (ren_loc f h)) (new_location o g fuel k port st) (new_location o g' fuel k port st').
  Proof.
    intros M. unfold new_location. rewrite is_node_same, is_cluster_same, is_sub_same. destruct (is_node g k) eqn:En.
    - unfold new_node_id. rewrite Hl. destruct (nodes_lookup (g_nodes g) !! k) as [p|] eqn:E; [|exact Logic.I].
      destruct (Hn k p E) as (D & N & _). rewrite D, N. split; cbn [fst snd ren_stmt ren_loc]; [rewrite ren_make; reflexivity|exact M].
    - destruct (is_cluster g k) eqn:Ec.
      + destruct port; [|reflexivity]. split; cbn [fst snd]; [|exact M]. cbn [ren_loc]. rewrite ren_make.
        unfold is_cluster, is_subgraph in Ec. destruct (g_subs g !! k) as [s|] eqn:Es; [|discriminate]. destruct (Hs2 k s Es) as (_ & _ & _ & Fk). rewrite (Fk En). reflexivity.
      + unfold is_subgraph. destruct (g_subs g !! k) as [s|] eqn:Es; [|reflexivity]. destruct port; [|reflexivity].
        pose proof (sub_sim fuel k s st st' Es M) as Q. destruct (new_sub o g fuel k st) as [[b1 t1]| | |], (new_sub o g' fuel k st') as [[b2 t2]| | |]; try contradiction; try exact Q.
        destruct Q as [Q1 Q2]. cbn in Q1, Q2. subst. split; [reflexivity|exact Q2].
  Qed.
  Lemma edge_sim fuel e st st' : sim st st' ->
    res_rel (pair_rel (ren_stmt f h)) (new_edge_stmt o g fuel e st) (new_edge_stmt o g' fuel e st').
  Proof.
    intros M. unfold new_edge_stmt. pose proof (loc_sim fuel (e_src e) (e_src_port e) st st' M) as Q.
    destruct (new_location o g fuel (e_src e) _ st) as [[l1 t1]| | |], (new_location o g' fuel (e_src e) _ st') as [[l2 t2]| | |]; try contradiction; try exact Q.
    destruct Q as [Q1 Q2]. cbn in Q1, Q2. subst l2. pose proof (loc_sim fuel (e_dst e) (e_dst_port e) t1 t2 Q2) as Q.
    destruct (new_location o g fuel (e_dst e) _ t1) as [[l3 t3]| | |], (new_location o g' fuel (e_dst e) _ t2) as [[l4 t4]| | |]; try contradiction; try exact Q.
    destruct Q as [Q1 Q3]. cbn in Q1, Q3. subst l4. destruct (attr_list_sim (e_attrs e) t3 t4 Q3) as (a & A1 & A2 & A3).
    destruct (attr_list o _ t3) as [a1 s1]. destruct (attr_list o _ t4) as [a2 s2]. cbn in A1, A2, A3. subst. split; [reflexivity|exact A3].
  Qed.
  Lemma edges_sim fuel : forall es acc st st', sim st st' ->
    res_rel (pair_rel (map (ren_stmt f h))) (edges_loop o g fuel es acc st) (edges_loop o g' fuel es (map (ren_stmt f h) acc) st').
  Proof.
    induction es as [|e es IH]; intros acc st st' M; cbn [edges_loop]; [split; [reflexivity|exact M]|].
    pose proof (edge_sim fuel e st st' M) as Q. destruct (new_edge_stmt o g fuel e st) as [[s1 t1]| | |], (new_edge_stmt o g' fuel e st') as [[s2 t2]| | |]; try contradiction; try exact Q.
    destruct Q as [Q1 Q2]. cbn in Q1, Q2. subst. specialize (IH (acc ++ [s1]) t1 t2 Q2). rewrite map_app in IH. exact IH.
  Qed.
  Definition sub_of (m : gmap gostr sub) (k : gostr) : sub := default (Sub ∅ []) (m !! k).
  Lemma subs_sim fuel : forall ks, (forall k, k ∈ ks -> is_Some (g_subs g !! k)) -> forall acc st st', sim st st' ->
    res_rel (pair_rel (map (ren_stmt f h))) (subs_loop o g fuel (map (sub_of (g_subs g)) ks) acc st)
      (subs_loop o g' fuel (map (sub_of (g_subs g')) ks) (map (ren_stmt f h) acc) st').
  Proof.
    induction ks as [|k ks IH]; intros K acc st st' M; cbn [map subs_loop]; [split; [reflexivity|exact M]|].
    destruct (K k (elem_of_list_here _ _)) as [s E].
    assert (K' : forall k, k ∈ ks -> is_Some (g_subs g !! k)) by (intros k' Hk'; apply K; right; exact Hk').
    assert (E1 : sub_of (g_subs g) k = s) by (unfold sub_of; rewrite E; reflexivity).
    assert (E2 : sub_of (g_subs g') k = Sub (sub_attrs s) (h (sub_name s))) by (unfold sub_of; rewrite Hs, lookup_fmap, E; reflexivity).
    rewrite E1, E2. cbn [sub_name].
    destruct (Hs2 k s E) as (N & Hk & Nk & _). rewrite N. pose proof M as [T W].
    assert (Wk : h k ∈ w_written st' <-> k ∈ w_written st) by (rewrite Hk; apply W; exact Nk).
    destruct (decide (k ∈ w_written st)) as [D|D], (decide (h k ∈ w_written st')) as [D'|D']; try (exfalso; tauto); [apply IH; assumption|].
    rewrite Hg. destruct (Hc k s E) as [C1 C2].
    destruct (decide (k ∈ children (g_rels g) (g_name g))) as [C|C], (decide (h k ∈ children (g_rels g') (g_name g))) as [C'|C']; try (exfalso; tauto); [|apply IH; assumption].
    rewrite (C2 C). pose proof (sub_sim fuel k s st st' E M) as Q.
    destruct (new_sub o g fuel k st) as [[b1 t1]| | |], (new_sub o g' fuel k st') as [[b2 t2]| | |]; try contradiction; try exact Q.
    destruct Q as [Q1 Q2]. cbn in Q1, Q2. subst. specialize (IH K' (acc ++ [Ast.SSub b1]) t1 t2 Q2). rewrite map_app in IH. exact IH.
  Qed.
End Sim.

Section Nodes.
  Variables (o : oracle) (g g' : agraph) (f h r : gostr -> gostr) (new : gostr -> Prop).
  Hypothesis r_inj : forall x y, ~ new x -> ~ new y -> r x = r y -> x = y.
  Hypothesis Hl : nodes_lookup (g_nodes g') = nodes_lookup (g_nodes g).
  Hypothesis Hn : forall k p, nodes_lookup (g_nodes g) !! k = Some p ->
    deref (g_nodes g') p = Node (f k) (node_attrs (deref (g_nodes g) p)) /\ node_name (deref (g_nodes g) p) = k /\ f k = r k /\ ~ new k.
  Definition node_of (ns : nodes) (k : gostr) : node := deref ns (default 0 (nodes_lookup ns !! k)).
  Lemma node_of_g k : is_Some (nodes_lookup (g_nodes g) !! k) -> node_name (node_of (g_nodes g) k) = k /\ node_name (node_of (g_nodes g') k) = f k.
  Proof. intros [p E]. destruct (Hn k p E) as (D & N & _). unfold node_of. rewrite Hl, E. change (default 0 (Some p)) with p. rewrite D, N. split; reflexivity. Qed.
  Lemma nodes_sim : forall ks, (forall k, k ∈ ks -> is_Some (nodes_lookup (g_nodes g) !! k)) -> forall acc st st', sim r new st st' ->
    (forall k, k ∈ ks -> f k = k \/ k ∈ w_written st) ->
    res_rel (pair_rel r new (map (ren_stmt f h))) (nodes_loop o g (map (node_of (g_nodes g)) ks) acc st)
      (nodes_loop o g' (map (node_of (g_nodes g')) ks) (map (ren_stmt f h) acc) st').
  Proof.
    induction ks as [|k ks IH]; intros K acc st st' M FK; cbn [map nodes_loop]; [split; [reflexivity|exact M]|].
    pose proof (K k (elem_of_list_here _ _)) as Kk. destruct (node_of_g k Kk) as [N1 N2]. rewrite N1, N2. destruct Kk as [p E]. destruct (Hn k p E) as (_ & _ & Fr & Nk).
    pose proof M as [T W]. pose proof (W k Nk) as Wk. rewrite <- Fr in Wk.
    assert (K' : forall k, k ∈ ks -> is_Some (nodes_lookup (g_nodes g) !! k)) by (intros k' Hk'; apply K; right; exact Hk').
    destruct (decide (k ∈ w_written st)) as [D|D], (decide (f k ∈ w_written st')) as [D'|D']; try (exfalso; tauto).
    - apply IH; [exact K'|exact M|]. intros k' Hk'. apply FK. right. exact Hk'.
    - destruct (FK k (elem_of_list_here _ _)) as [Fk|?]; [|contradiction]. rewrite Fk.
      pose proof (node_sim o g g' f h r new r_inj Hl Hn k st st' M) as Q.
      assert (G : forall s1 t1, new_node_stmt o g k st = Ok (s1, t1) -> w_written st ⊆ w_written t1).
      { intros s1 t1. unfold new_node_stmt. rewrite E. destruct (attr_list o _ _) as [x y] eqn:Ea. unfold attr_list in Ea. injection Ea as _ <-. intros [= _ <-]. cbn. apply union_subseteq_r. }
      destruct (new_node_stmt o g k st) as [[s1 t1]| | |], (new_node_stmt o g' k st') as [[s2 t2]| | |]; try contradiction; try exact Q.
      destruct Q as [Q1 Q2]. cbn in Q1, Q2. subst. specialize (IH K' (acc ++ [s1]) t1 t2 Q2). rewrite map_app in IH. apply IH.
      intros k' Hk'. destruct (FK k') as [F'|F']; [right; exact Hk'|left; exact F'|]. right. exact (G s1 t1 eq_refl _ F').
  Qed.
  Lemma nodes_panic a : nodes_lookup (g_nodes g) !! f a = None -> (forall k, f k = k \/ nodes_lookup (g_nodes g) !! f k = None) ->
    forall ks, (forall k, k ∈ ks -> is_Some (nodes_lookup (g_nodes g) !! k)) -> forall acc st, a ∈ ks -> f a ∉ w_written st ->
    nodes_loop o g' (map (node_of (g_nodes g')) ks) acc st = Panic.
  Proof.
    intros Na Fo ks. induction ks as [|k ks IH]; intros K acc st Ha Wa; [inversion Ha|]. cbn [map nodes_loop].
    pose proof (K k (elem_of_list_here _ _)) as Kk. destruct (node_of_g k Kk) as [_ N2]. rewrite N2.
    assert (K' : forall k, k ∈ ks -> is_Some (nodes_lookup (g_nodes g) !! k)) by (intros k' Hk'; apply K; right; exact Hk').
    destruct (decide (f k ∈ w_written st)) as [D|D].
    - apply elem_of_cons in Ha. destruct Ha as [->|Ha]; [contradiction|]. apply IH; assumption.
    - destruct (Fo k) as [Fk|Fk]; [|unfold new_node_stmt; rewrite Hl, Fk; reflexivity].
      destruct (decide (k = a)) as [->|Nk]; [unfold new_node_stmt; rewrite Hl, Na; reflexivity|].
      apply elem_of_cons in Ha. destruct Ha as [->|Ha]; [contradiction|]. rewrite Fk.
      unfold new_node_stmt. rewrite Hl. destruct Kk as [p E]. rewrite E. destruct (Hn k p E) as (De & _). rewrite De. cbn [node_name node_attrs].
      destruct (attr_list o _ _) as [x y] eqn:Ea. apply IH; [exact K'|exact Ha|]. unfold attr_list in Ea. injection Ea as _ <-. cbn. rewrite Fk.
      intros [X|X]%elem_of_union; [|contradiction]. apply elem_of_singleton in X. rewrite <- X in E. rewrite Na in E. discriminate.
  Qed.
End Nodes.

Definition top_names (l : list Ast.stmt) : list gostr := flat_map (fun st => match st with Ast.SNode n _ => [Ast.nid_id n] | _ => [] end) l.
Definition top_trees (l : list Ast.stmt) : list gostr := flat_map (fun st => match st with Ast.SSub (Ast.SubGraph id _) => [id] | _ => [] end) l.
Lemma top_names_app l k : top_names (l ++ k) = top_names l ++ top_names k. Proof. apply flat_map_app. Qed.
Lemma top_trees_app l k : top_trees (l ++ k) = top_trees l ++ top_trees k. Proof. apply flat_map_app. Qed.
Lemma attrs_tops o m st : top_names (append_attrs o m st).1 = [] /\ top_trees (append_attrs o m st).1 = [].
Proof. unfold append_attrs. cbn [fst]. generalize (sorted_keys (o_names o (w_tick st) (keys m))). intros l. induction l; cbn; auto. Qed.
Lemma edges_tops o g fuel : forall es acc st l st1, edges_loop o g fuel es acc st = Ok (l, st1) -> top_names l = top_names acc /\ top_trees l = top_trees acc.
Proof.
  induction es as [|e es IH]; intros acc st l st1; cbn [edges_loop]; [intros [= <- <-]; auto|].
  destruct (new_edge_stmt o g fuel e st) as [[s t]| | |] eqn:E; try discriminate. intros H. apply IH in H. rewrite top_names_app, top_trees_app in H.
  unfold new_edge_stmt in E. destruct (new_location _ _ _ _ _ _) as [[l1 t1]| | |]; try discriminate. destruct (new_location _ _ _ _ _ _) as [[l2 t2]| | |]; try discriminate.
  destruct (attr_list _ _ _). injection E as <- _. cbn in H. rewrite !app_nil_r in H. exact H.
Qed.
Lemma subs_tops o g fuel : forall ss acc st l st1, subs_loop o g fuel ss acc st = Ok (l, st1) -> top_names l = top_names acc.
Proof.
  induction ss as [|s ss IH]; intros acc st l st1; cbn [subs_loop]; [intros [= <- <-]; auto|].
  destruct (decide _); [apply IH|]. destruct (decide _); [|apply IH]. destruct (new_sub _ _ _ _ _) as [[t s1]| | |]; try discriminate.
  intros H. apply IH in H. rewrite top_names_app in H. cbn in H. rewrite app_nil_r in H. exact H.
Qed.
Lemma nodes_trees o g : forall ns acc st l st1, nodes_loop o g ns acc st = Ok (l, st1) -> top_trees l = top_trees acc.
Proof.
  induction ns as [|s ss IH]; intros acc st l st1; cbn [nodes_loop]; [intros [= <- <-]; auto|].
  destruct (decide _); [apply IH|]. destruct (new_node_stmt _ _ _ _) as [[t s1]| | |] eqn:E; try discriminate.
  intros H. apply IH in H. rewrite top_trees_app in H. unfold new_node_stmt in E. destruct (nodes_lookup _ !! _); [|discriminate]. destruct (attr_list _ _ _). injection E as <- _.
  cbn in H. rewrite app_nil_r in H. exact H.
Qed.
(** On a graph in which every node has its key as its name, the loop over the nodes succeeds and writes the nodes that were not written. *)
Lemma nodes_tops o g : (forall k p, nodes_lookup (g_nodes g) !! k = Some p -> node_name (deref (g_nodes g) p) = k) ->
  forall ks, (forall k, k ∈ ks -> is_Some (nodes_lookup (g_nodes g) !! k)) -> forall acc st,
  exists l st1, nodes_loop o g (map (node_of (g_nodes g)) ks) acc st = Ok (l, st1) /\
    forall a, a ∈ top_names l <-> a ∈ top_names acc \/ (a ∈ ks /\ a ∉ w_written st).
Proof.
  intros Hn. induction ks as [|k ks IH]; intros K acc st; cbn [map nodes_loop].
  - eexists _, _. split; [reflexivity|]. intros a. split; [auto|]. intros [H|[H _]]; [exact H|inversion H].
  - assert (K' : forall k, k ∈ ks -> is_Some (nodes_lookup (g_nodes g) !! k)) by (intros k' Hk'; apply K; right; exact Hk').
    destruct (K k (elem_of_list_here _ _)) as [p E]. assert (N : node_name (node_of (g_nodes g) k) = k) by (unfold node_of; rewrite E; apply Hn; exact E).
    rewrite N. destruct (decide (k ∈ w_written st)) as [D|D].
    + destruct (IH K' acc st) as (l & st1 & H & Q). eexists _, _. split; [exact H|]. intros a. rewrite (Q a), elem_of_cons.
      split; [intros [X|[X Y]]; auto|]. intros [X|[[->|X] Y]]; auto. contradiction.
    + unfold new_node_stmt. rewrite E, (Hn k p E). destruct (attr_list o _ (mark k st)) as [x y] eqn:Ea. unfold attr_list in Ea. injection Ea as _ <-.
      destruct (IH K' (acc ++ [Ast.SNode (Ast.make_node_id k []) x]) (tick 2 (mark k st))) as (l & st1 & H & Q). eexists _, _. split; [exact H|].
      intros a. rewrite (Q a), top_names_app, elem_of_app, elem_of_cons. cbn [top_names flat_map app Ast.make_node_id Ast.nid_id w_written tick mark].
      rewrite elem_of_list_singleton, elem_of_union, elem_of_singleton. split.
      * intros [[X|X]|[X Y]]; [auto|subst; auto|]. right. split; [auto|]. intros Z. apply Y. auto.
      * intros [X|[[X|X] Y]]; [auto|subst; auto|]. destruct (decide (a = k)) as [->|Na]; [auto|]. right. split; [exact X|]. intros [Z|Z]; contradiction.
Qed.

(** ** A node renamed *)
Section NodeRenamed.
  Variables (o : oracle) (g : agraph) (a n : gostr).
  Hypothesis Fo : fair o.
  Hypothesis G : graph_okP (fun _ => True) g.
  Hypothesis Na : is_node g a = true.
  Hypothesis Nn : is_node g n = false.
  Hypothesis Sa : is_subgraph g a = false.
  Hypothesis Sn : is_subgraph g n = false.
  Let g' := assign_node_name g a n.
  Lemma g'_shape : exists p x, nodes_lookup (g_nodes g) !! a = Some p /\ nodes_heap (g_nodes g) !! p = Some (Node a x) /\
    g' = with_nodes g (Nodes (nodes_lookup (g_nodes g)) (nodes_list (g_nodes g)) (<[p := Node n x]> (nodes_heap (g_nodes g))) (nodes_next (g_nodes g))).
  Proof.
    unfold is_node in Na. destruct (nodes_lookup (g_nodes g) !! a) as [p|] eqn:E; [|discriminate].
    destruct (no_lookup _ (go_nodes _ G) a p E) as [_ [x Hx]]. exists p, x. split; [reflexivity|]. split; [exact Hx|].
    unfold g', assign_node_name. rewrite E. unfold deref. rewrite Hx. reflexivity.
  Qed.
  Lemma Hl_ : nodes_lookup (g_nodes g') = nodes_lookup (g_nodes g).
  Proof. destruct g'_shape as (p & x & _ & _ & ->). reflexivity. Qed.
  Lemma Hn_ : forall k p, nodes_lookup (g_nodes g) !! k = Some p ->
    deref (g_nodes g') p = Node (instead a n k) (node_attrs (deref (g_nodes g) p)) /\ node_name (deref (g_nodes g) p) = k /\ instead a n k = instead a n k /\ k <> n.
  Proof.
    intros k q E. destruct g'_shape as (p & x & Ep & Hx & ->). destruct (no_lookup _ (go_nodes _ G) k q E) as [_ [y Hy]].
    assert (k <> n) by (intros ->; unfold is_node in Nn; rewrite E in Nn; discriminate).
    unfold deref. cbn [g_nodes with_nodes nodes_heap]. rewrite Hy. cbn [default from_option id node_attrs node_name]. split; [|auto]. unfold instead.
    destruct (decide (k = a)) as [->|K].
    - rewrite E in Ep. injection Ep as ->. rewrite Hx in Hy. injection Hy as ->. rewrite lookup_insert. reflexivity.
    - rewrite lookup_insert_ne; [rewrite Hy; reflexivity|]. intros ->. rewrite Hx in Hy. congruence.
  Qed.
  Lemma inj_ : forall x y, x <> n -> y <> n -> instead a n x = instead a n y -> x = y.
  Proof. intros x y Nx Ny. unfold instead. destruct (decide (x = a)), (decide (y = a)); congruence. Qed.
  Lemma not_sub k s : g_subs g !! k = Some s -> k <> a /\ k <> n.
  Proof. intros E. unfold is_subgraph in *. split; intros ->; rewrite E in *; discriminate. Qed.
  Lemma instead_ne k : k <> a -> instead a n k = k.
  Proof. intros N. unfold instead. rewrite decide_False by exact N. reflexivity. Qed.
  Lemma instead_eq : instead a n a = n.
  Proof. unfold instead. rewrite decide_True by reflexivity. reflexivity. Qed.
  Lemma subs_same : g_subs g' = g_subs g. Proof. destruct g'_shape as (p & x & _ & _ & ->). reflexivity. Qed.
  Lemma rels_same : g_rels g' = g_rels g. Proof. destruct g'_shape as (p & x & _ & _ & ->). reflexivity. Qed.
  Lemma name_same : g_name g' = g_name g. Proof. destruct g'_shape as (p & x & _ & _ & ->). reflexivity. Qed.
  Lemma Hs_ : g_subs g' = (fun s => Sub (sub_attrs s) (sub_name s)) <$> g_subs g.
  Proof. rewrite subs_same. apply map_eq. intros i. rewrite lookup_fmap. destruct (g_subs g !! i) as [[]|]; reflexivity. Qed.
  Lemma Hs2_ : forall k s, g_subs g !! k = Some s -> sub_name s = k /\ k = instead a n k /\ k <> n /\ (is_node g k = false -> instead a n k = k).
  Proof. intros k s E. destruct (not_sub k s E) as [K1 K2]. rewrite (instead_ne k K1). split; [exact (go_subs _ G k s E)|auto]. Qed.
  Lemma Hr_ : forall k s, g_subs g !! k = Some s -> children (g_rels g') k = children (g_rels g) k.
  Proof. intros. rewrite rels_same. reflexivity. Qed.
  Lemma sorted_in (i : nat) (s : names) (k : gostr) : k ∈ sorted_keys (o_names o i s) <-> k ∈ s.
  Proof. unfold sorted_keys. rewrite sort_strings_perm, (proj2 Fo i s), elem_of_elements. reflexivity. Qed.

  Theorem node_text srt fuel : write_ast srt o g' fuel =
    match write_ast srt o g fuel with
    | Ok t => if decide (a ∈ top_nodes t) then Panic else Ok (node_renamed a n t)
    | x => x
    end.
  Proof.
    unfold write_ast. assert (Z : sim (instead a n) (fun x => x = n) (WState ∅ 0) (WState ∅ 0)).
    { split; [reflexivity|]. intros x _. cbn. split; intros H; apply elem_of_empty in H; contradiction. }
    assert (Eg : g_attrs g' = g_attrs g /\ g_directed g' = g_directed g /\ g_strict g' = g_strict g /\ g_edges g' = g_edges g)
      by (destruct g'_shape as (p & x & _ & _ & ->); auto).
    destruct Eg as (Ea & Ed & Est & Ee). rewrite Ea, Ed, Est, Ee, name_same.
    pose proof (append_sim o (instead a n) (fun x => x) (instead a n) (fun x => x = n) (g_attrs g) _ _ Z) as [A1 A2].
    destruct (attrs_tops o (g_attrs g) (WState ∅ 0)) as [T1 _].
    destruct (append_attrs o (g_attrs g) (WState ∅ 0)) as [sa st1]. cbn [fst snd] in *.
    pose proof (edges_sim o g g' _ (fun x => x) _ (fun x => x = n) inj_ Hl_ Hn_ Hs_ Hs2_ Hr_ fuel (srt (edges_list (g_edges g))) sa st1 st1 A2) as Q. rewrite <- A1 in Q.
    destruct (edges_loop o g fuel _ sa st1) as [[l2 st2]| | |] eqn:E2, (edges_loop o g' fuel _ _ st1) as [[l2' st2']| | |]; try contradiction; try (cbn in Q; subst; reflexivity).
    destruct Q as [Q1 Q2]. cbn [fst snd] in Q1, Q2. subst l2'. apply edges_tops in E2. destruct E2 as [T2 _]. rewrite T1 in T2.
    pose proof Q2 as [Tk _]. rewrite Tk. unfold subs_sorted. change (fun k => default (Sub ∅ []) (g_subs g !! k)) with (sub_of (g_subs g)).
    change (fun k => default (Sub ∅ []) (g_subs g' !! k)) with (sub_of (g_subs g')).
    replace (keys (g_subs g')) with (keys (g_subs g)) by (rewrite subs_same; reflexivity).
    assert (KS : forall k, k ∈ sorted_keys (o_names o (w_tick st2) (keys (g_subs g))) -> is_Some (g_subs g !! k)).
    { intros k. rewrite sorted_in. apply elem_of_dom. }
    assert (Hc : forall k s, g_subs g !! k = Some s ->
      (k ∈ children (g_rels g') (g_name g) <-> k ∈ children (g_rels g) (g_name g)) /\ (k ∈ children (g_rels g) (g_name g) -> k = k)).
    { intros k s _. rewrite rels_same. auto. }
    pose proof (subs_sim o g g' _ (fun x => x) _ (fun x => x = n) inj_ Hl_ Hn_ Hs_ Hs2_ Hr_ name_same Hc fuel _ KS l2 _ _ (sim_tick _ _ 1 _ _ Q2)) as Q.
    destruct (subs_loop o g fuel _ l2 _) as [[l3 st3]| | |] eqn:E3, (subs_loop o g' fuel _ _ _) as [[l3' st3']| | |]; try contradiction; try (cbn in Q; subst; reflexivity).
    destruct Q as [Q1 Q3]. cbn [fst snd] in Q1, Q3. subst l3'. apply subs_tops in E3. rewrite T2 in E3.
    pose proof Q3 as [Tk3 W3]. rewrite Tk3. unfold nodes_sorted.
    change (fun k => deref (g_nodes g) (default 0 (nodes_lookup (g_nodes g) !! k))) with (node_of (g_nodes g)).
    change (fun k => deref (g_nodes g') (default 0 (nodes_lookup (g_nodes g') !! k))) with (node_of (g_nodes g')).
    replace (keys (nodes_lookup (g_nodes g'))) with (keys (nodes_lookup (g_nodes g))) by (rewrite Hl_; reflexivity).
    set (ks := sorted_keys (o_names o (w_tick st3) (keys (nodes_lookup (g_nodes g))))).
    assert (KN : forall k, k ∈ ks <-> is_Some (nodes_lookup (g_nodes g) !! k)).
    { intros k. unfold ks. rewrite sorted_in. apply elem_of_dom. }
    assert (HN : forall k p, nodes_lookup (g_nodes g) !! k = Some p -> node_name (deref (g_nodes g) p) = k) by (intros k p E; apply (Hn_ k p E)).
    destruct (nodes_tops o g HN ks (fun k => proj1 (KN k)) l3 (tick 1 st3)) as (l4 & st4 & E4 & T4). rewrite E4.
    assert (Ak : a ∈ ks). { apply KN. unfold is_node in Na. destruct (nodes_lookup _ !! a); [eauto|discriminate]. }
    assert (Top : a ∈ top_names l4 <-> a ∉ w_written st3). { rewrite (T4 a), E3. cbn [w_written tick]. split; [intros [X|[_ X]]; [inversion X|exact X]|auto]. }
    unfold top_nodes. cbn [Ast.g_stmts]. fold (top_names l4). assert (An : a <> n) by (intros <-; rewrite Na in Nn; discriminate).
    assert (Wa : n ∈ w_written st3' <-> a ∈ w_written st3) by (rewrite <- instead_eq at 1; apply W3; exact An).
    destruct (decide (a ∈ top_names l4)) as [D|D].
    - rewrite (nodes_panic o g g' (instead a n) _ (fun x => x = n) Hl_ Hn_ a); [reflexivity| | |apply KN|exact Ak|].
      + rewrite instead_eq. unfold is_node in Nn. destruct (nodes_lookup _ !! n); [discriminate|reflexivity].
      + intros k. destruct (decide (k = a)) as [->|K]; [right|left; apply instead_ne; exact K].
        rewrite instead_eq. unfold is_node in Nn. destruct (nodes_lookup _ !! n); [discriminate|reflexivity].
      + rewrite instead_eq. cbn [w_written tick]. tauto.
    - assert (Wa' : a ∈ w_written st3) by (destruct (decide (a ∈ w_written st3)); tauto).
      pose proof (nodes_sim o g g' (instead a n) (fun x => x) _ (fun x => x = n) inj_ Hl_ Hn_ ks (fun k => proj1 (KN k)) l3 _ _ (sim_tick _ _ 1 _ _ Q3)) as Q.
      rewrite E4 in Q. assert (FK : forall k, k ∈ ks -> instead a n k = k \/ k ∈ w_written (tick 1 st3)).
      { intros k _. destruct (decide (k = a)) as [->|K]; [right; exact Wa'|left; apply instead_ne; exact K]. }
      specialize (Q FK). destruct (nodes_loop o g' _ _ _) as [[l4' st4']| | |]; try contradiction. destruct Q as [Q1 _]. cbn [fst] in Q1. subst l4'. reflexivity.
  Qed.
End NodeRenamed.

(** ** A subgraph renamed *)
(** Without the relation between the main graph and [s] *)
Definition cut (g : agraph) (s : gostr) : agraph := with_rels g (relations_remove (g_rels g) (g_name g) s).
Lemma children_cut g s k : children (g_rels (cut g s)) k = if decide (k = g_name g) then children (g_rels g) k ∖ {[s]} else children (g_rels g) k.
Proof.
  unfold cut, children, relations_remove, rel_delete. cbn [g_rels with_rels parent_to_children].
  destruct (parent_to_children (g_rels g) !! g_name g) as [x|] eqn:E.
  - destruct (decide (k = g_name g)) as [->|N]; [rewrite lookup_insert, E; reflexivity|]. rewrite lookup_insert_ne by congruence. reflexivity.
  - destruct (decide (k = g_name g)) as [->|N]; [|reflexivity]. rewrite E. cbn. set_solver.
Qed.
Section SubRenamed.
  Variables (o : oracle) (g : agraph) (s t : gostr).
  Hypothesis Fo : fair o.
  Hypothesis G : graph_okP (fun _ => True) g.
  Hypothesis Ss : is_subgraph g s = true.
  Hypothesis St : is_subgraph g t = false.
  Hypothesis Ns : is_node g s = false.
  Hypothesis Nt : is_node g t = false.
  Hypothesis Ct : t ∉ children (g_rels g) (g_name g).
  Hypothesis Sg : is_subgraph g (g_name g) = false.
  Let g' := assign_sub_name g s t.
  Let gc := cut g s.
  Lemma sg_shape : exists x, g_subs g !! s = Some (Sub x s) /\ g' = with_subs g (<[s := Sub x t]> (g_subs g)).
  Proof.
    unfold is_subgraph in Ss. unfold g', assign_sub_name. destruct (g_subs g !! s) as [[x y]|] eqn:E; [|discriminate].
    pose proof (go_subs _ G s _ E) as N. cbn in N. subst y. exists x. auto.
  Qed.
  Lemma sHs : g_subs g' = (fun b => Sub (sub_attrs b) (instead s t (sub_name b))) <$> g_subs gc.
  Proof.
    change (g_subs gc) with (g_subs g). destruct sg_shape as (x & E & ->). cbn [g_subs with_subs]. apply map_eq. intros i. rewrite lookup_fmap.
    destruct (decide (i = s)) as [->|N].
    - rewrite lookup_insert, E. cbn. unfold instead. rewrite decide_True by reflexivity. reflexivity.
    - rewrite lookup_insert_ne by congruence. destruct (g_subs g !! i) as [[y z]|] eqn:Ei; [|reflexivity]. pose proof (go_subs _ G i _ Ei) as Q. cbn in Q. subst z.
      cbn. rewrite instead_ne by exact N. reflexivity.
  Qed.
  Lemma s_ne k b : g_subs g !! k = Some b -> k <> t.
  Proof. intros E ->. unfold is_subgraph in St. rewrite E in St. discriminate. Qed.
  Lemma sHs2 : forall k b, g_subs gc !! k = Some b -> sub_name b = k /\ instead s t k = instead s t k /\ k <> t /\ (is_node gc k = false -> k = k).
  Proof. intros k b E. split; [exact (go_subs _ G k b E)|]. split; [reflexivity|]. split; [exact (s_ne k b E)|auto]. Qed.
  Lemma sHn : forall k p, nodes_lookup (g_nodes gc) !! k = Some p ->
    deref (g_nodes g') p = Node k (node_attrs (deref (g_nodes gc) p)) /\ node_name (deref (g_nodes gc) p) = k /\ k = instead s t k /\ k <> t.
  Proof.
    intros k p E. change (g_nodes gc) with (g_nodes g) in *. assert (Eg : g_nodes g' = g_nodes g) by (destruct sg_shape as (x & _ & ->); reflexivity). rewrite Eg.
    assert (K : k <> s /\ k <> t) by (unfold is_node in *; split; intros ->; rewrite E in *; discriminate). destruct K as [K1 K2].
    destruct (no_lookup _ (go_nodes _ G) k p E) as [_ [x Hx]]. unfold deref. rewrite Hx. cbn. rewrite instead_ne by exact K1. auto.
  Qed.
  Lemma sHr : forall k b, g_subs gc !! k = Some b -> children (g_rels g') k = children (g_rels gc) k.
  Proof.
    intros k b E. unfold gc. rewrite children_cut. rewrite decide_False; [destruct sg_shape as (x & _ & ->); reflexivity|].
    intros ->. change (g_subs gc) with (g_subs g) in E. unfold is_subgraph in Sg. rewrite E in Sg. discriminate.
  Qed.
  Lemma sHc : forall k b, g_subs gc !! k = Some b ->
    (instead s t k ∈ children (g_rels g') (g_name gc) <-> k ∈ children (g_rels gc) (g_name gc)) /\ (k ∈ children (g_rels gc) (g_name gc) -> instead s t k = k).
  Proof.
    intros k b E. unfold gc. rewrite children_cut. change (g_name (cut g s)) with (g_name g). rewrite decide_True by reflexivity.
    assert (Er : g_rels g' = g_rels g) by (destruct sg_shape as (x & _ & ->); reflexivity). rewrite Er. unfold instead.
    rewrite elem_of_difference, elem_of_singleton. destruct (decide (k = s)) as [->|N]; [|tauto]. split; [|intros [_ X]; congruence]. split; [contradiction|intros [_ X]; congruence].
  Qed.
  Lemma sinj : forall x y, x <> t -> y <> t -> instead s t x = instead s t y -> x = y.
  Proof. intros x y Nx Ny. unfold instead. destruct (decide (x = s)), (decide (y = s)); congruence. Qed.

  Theorem sub_text srt fuel : write_ast srt o g' fuel = match write_ast srt o gc fuel with Ok a => Ok (sub_renamed s t a) | x => x end.
  Proof.
    unfold write_ast. assert (Z : sim (instead s t) (fun x => x = t) (WState ∅ 0) (WState ∅ 0)).
    { split; [reflexivity|]. intros x _. cbn. split; intros H; apply elem_of_empty in H; contradiction. }
    assert (Eg : g_attrs g' = g_attrs gc /\ g_directed g' = g_directed gc /\ g_strict g' = g_strict gc /\ g_edges g' = g_edges gc /\ g_nodes g' = g_nodes gc /\ g_name g' = g_name gc)
      by (destruct sg_shape as (x & _ & ->); repeat split).
    destruct Eg as (Ea & Ed & Est & Ee & En & Em). rewrite Ea, Ed, Est, Ee, En, Em.
    assert (sHl : nodes_lookup (g_nodes g') = nodes_lookup (g_nodes gc)) by (rewrite En; reflexivity).
    pose proof (append_sim o (fun x => x) (instead s t) (instead s t) (fun x => x = t) (g_attrs gc) _ _ Z) as [A1 A2].
    destruct (append_attrs o (g_attrs gc) (WState ∅ 0)) as [sa st1]. cbn [fst snd] in *.
    pose proof (edges_sim o gc g' (fun x => x) (instead s t) (instead s t) (fun x => x = t) sinj sHl sHn sHs sHs2 sHr fuel (srt (edges_list (g_edges gc))) sa st1 st1 A2) as Q. rewrite <- A1 in Q.
    destruct (edges_loop o gc fuel _ sa st1) as [[l2 st2]| | |], (edges_loop o g' fuel _ _ st1) as [[l2' st2']| | |]; try contradiction; try (cbn in Q; subst; reflexivity).
    destruct Q as [Q1 Q2]. cbn [fst snd] in Q1, Q2. subst l2'.
    pose proof Q2 as [Tk _]. rewrite Tk. unfold subs_sorted. change (fun k => default (Sub ∅ []) (g_subs gc !! k)) with (sub_of (g_subs gc)).
    change (fun k => default (Sub ∅ []) (g_subs g' !! k)) with (sub_of (g_subs g')).
    replace (keys (g_subs g')) with (keys (g_subs gc)) by (rewrite sHs; unfold keys; rewrite dom_fmap_L; reflexivity).
    assert (KS : forall k, k ∈ sorted_keys (o_names o (w_tick st2) (keys (g_subs gc))) -> is_Some (g_subs gc !! k)).
    { intros k. rewrite (sorted_in o Fo). apply elem_of_dom. }
    pose proof (subs_sim o gc g' (fun x => x) (instead s t) (instead s t) (fun x => x = t) sinj sHl sHn sHs sHs2 sHr Em sHc fuel _ KS l2 _ _ (sim_tick _ _ 1 _ _ Q2)) as Q.
    destruct (subs_loop o gc fuel _ l2 _) as [[l3 st3]| | |], (subs_loop o g' fuel _ _ _) as [[l3' st3']| | |]; try contradiction; try (cbn in Q; subst; reflexivity).
    destruct Q as [Q1 Q3]. cbn [fst snd] in Q1, Q3. subst l3'.
    pose proof Q3 as [Tk3 W3]. rewrite Tk3. unfold nodes_sorted.
    change (fun k => deref (g_nodes gc) (default 0 (nodes_lookup (g_nodes gc) !! k))) with (node_of (g_nodes gc)).
    set (ks := sorted_keys (o_names o (w_tick st3) (keys (nodes_lookup (g_nodes gc))))).
    assert (KN : forall k, k ∈ ks -> is_Some (nodes_lookup (g_nodes gc) !! k)).
    { intros k. unfold ks. rewrite (sorted_in o Fo). apply elem_of_dom. }
    pose proof (nodes_sim o gc g' (fun x => x) (instead s t) (instead s t) (fun x => x = t) sinj sHl sHn ks KN l3 _ _ (sim_tick _ _ 1 _ _ Q3) (fun k _ => or_introl eq_refl)) as Q.
    rewrite En in Q. destruct (nodes_loop o gc _ _ _) as [[l4 st4]| | |], (nodes_loop o g' _ _ _) as [[l4' st4']| | |]; try contradiction; try (cbn in Q; subst; reflexivity).
    destruct Q as [Q1 _]. cbn [fst] in Q1. subst l4'. reflexivity.
  Qed.

  Lemma new_sub_cut fuel : forall k st, k <> g_name g -> new_sub o gc fuel k st = new_sub o g fuel k st.
  Proof.
    induction fuel as [|fuel IH]; intros k st N; cbn [new_sub]; [reflexivity|]. change (g_subs gc) with (g_subs g). destruct (g_subs g !! k) as [sb|]; [|reflexivity].
    destruct (append_attrs o (sub_attrs sb) _) as [sa st1]. unfold sorted_children. change (g_rels gc) with (g_rels (cut g s)). rewrite children_cut, decide_False by exact N.
    assert (C : forall cs acc st, children_loop o gc (new_sub o gc fuel) cs acc st = children_loop o g (new_sub o g fuel) cs acc st).
    { clear -IH Sg. induction cs as [|c cs IHc]; intros acc st; cbn [children_loop]; [reflexivity|].
      change (is_node gc c) with (is_node g c). change (is_subgraph gc c) with (is_subgraph g c). change (new_node_stmt o gc c st) with (new_node_stmt o g c st).
      destruct (is_node g c); [destruct (new_node_stmt o g c st) as [[x y]| | |]; auto|]. destruct (is_subgraph g c) eqn:Ec; [|reflexivity].
      rewrite IH by congruence. destruct (new_sub o g fuel c st) as [[x y]| | |]; auto. }
    rewrite C. reflexivity.
  Qed.
  Lemma edges_cut fuel : forall es acc st, edges_loop o gc fuel es acc st = edges_loop o g fuel es acc st.
  Proof.
    assert (L : forall k port st, new_location o gc fuel k port st = new_location o g fuel k port st).
    { intros k port st. unfold new_location. change (is_node gc k) with (is_node g k). change (is_cluster gc k) with (is_cluster g k). change (is_subgraph gc k) with (is_subgraph g k).
      change (new_node_id gc k port) with (new_node_id g k port). destruct (is_node g k); [reflexivity|]. destruct (is_cluster g k); [reflexivity|]. destruct (is_subgraph g k) eqn:E; [|reflexivity].
      rewrite new_sub_cut by congruence. reflexivity. }
    induction es as [|e es IH]; intros acc st; cbn [edges_loop]; [reflexivity|].
    assert (E : new_edge_stmt o gc fuel e st = new_edge_stmt o g fuel e st).
    { unfold new_edge_stmt. rewrite L. destruct (new_location o g fuel _ _ st) as [[l1 t1]| | |]; [|reflexivity..]. rewrite L. reflexivity. }
    rewrite E. destruct (new_edge_stmt o g fuel e st) as [[x y]| | |]; auto.
  Qed.
  Lemma new_sub_id (g0 : agraph) fuel k st tr st1 : new_sub o g0 fuel k st = Ok (tr, st1) -> exists b, g_subs g0 !! k = Some b /\ Ast.subgraph_id tr = sub_name b.
  Proof.
    destruct fuel; cbn [new_sub]; [discriminate|]. destruct (g_subs g0 !! k) as [b|]; [|discriminate]. destruct (append_attrs _ _ _). destruct (children_loop _ _ _ _ _ _) as [[x y]| | |]; try discriminate.
    intros [= <- _]. exists b. auto.
  Qed.
  (** The loop over the subgraphs, when it does not write [s]. *)
  Lemma subs_grow fuel : forall ss acc st l st1, subs_loop o g fuel ss acc st = Ok (l, st1) -> forall x, x ∈ top_trees acc -> x ∈ top_trees l.
  Proof.
    induction ss as [|b ss IH]; intros acc st l st1; cbn [subs_loop]; [intros [= <- <-]; auto|].
    destruct (decide _); [apply IH|]. destruct (decide _); [|apply IH]. destruct (new_sub _ _ _ _ _) as [[tr s1]| | |]; try discriminate.
    intros H x Hx. apply (IH _ _ _ _ H). rewrite top_trees_app, elem_of_app. auto.
  Qed.
  Lemma subs_cut fuel : forall ss, (forall b, b ∈ ss -> g_subs g !! sub_name b = Some b) -> forall acc st l st1,
    subs_loop o g fuel ss acc st = Ok (l, st1) -> s ∉ top_trees l -> subs_loop o gc fuel ss acc st = Ok (l, st1).
  Proof.
    induction ss as [|b ss IH]; intros K acc st l st1; cbn [subs_loop]; [intros [= <- <-]; auto|].
    assert (K' : forall b, b ∈ ss -> g_subs g !! sub_name b = Some b) by (intros b' Hb; apply K; right; exact Hb).
    pose proof (K b (elem_of_list_here _ _)) as Kb.
    destruct (decide (sub_name b ∈ w_written st)); [apply IH; exact K'|].
    change (g_rels gc) with (g_rels (cut g s)). change (g_name gc) with (g_name g). rewrite children_cut.
    destruct (decide (g_name g = g_name g)) as [_|X]; [|congruence].
    assert (Nb : sub_name b <> g_name g) by (intros X; unfold is_subgraph in Sg; rewrite <- X, Kb in Sg; discriminate).
    destruct (decide (sub_name b ∈ children (g_rels g) (g_name g))) as [C|C].
    - destruct (new_sub o g fuel (sub_name b) st) as [[tr t1]| | |] eqn:E; try discriminate. intros H T.
      destruct (new_sub_id g _ _ _ _ _ E) as (b' & Eb & Id). rewrite Kb in Eb. injection Eb as <-.
      destruct (decide (sub_name b = s)) as [Es|N].
      + exfalso. apply T. apply (subs_grow _ _ _ _ _ _ H). rewrite top_trees_app. apply elem_of_app. right. destruct tr as [id body]. cbn in Id |- *. rewrite Id, Es. left.
      + destruct (decide (sub_name b ∈ children (g_rels g) (g_name g) ∖ {[s]})) as [_|X]; [|set_solver].
        rewrite new_sub_cut by exact Nb. rewrite E. apply IH; assumption.
    - intros H T. destruct (decide (sub_name b ∈ children (g_rels g) (g_name g) ∖ {[s]})) as [X|_]; [set_solver|]. apply IH; assumption.
  Qed.
  Theorem cut_text srt fuel a : write_ast srt o g fuel = Ok a -> s ∉ top_subs a -> write_ast srt o gc fuel = Ok a.
  Proof.
    unfold write_ast. change (g_attrs gc) with (g_attrs g). destruct (append_attrs o (g_attrs g) (WState ∅ 0)) as [sa st1].
    change (g_edges gc) with (g_edges g). rewrite edges_cut. destruct (edges_loop o g fuel _ sa st1) as [[l2 st2]| | |]; try discriminate.
    change (g_subs gc) with (g_subs g). destruct (subs_loop o g fuel _ l2 _) as [[l3 st3]| | |] eqn:E3; try discriminate.
    assert (NC : forall ns acc st, nodes_loop o gc ns acc st = nodes_loop o g ns acc st) by reflexivity.
    destruct (nodes_loop o g _ l3 _) as [[l4 st4]| | |] eqn:E4; try discriminate. intros [= <-]. unfold top_subs. cbn [Ast.g_stmts]. fold (top_trees l4).
    rewrite (nodes_trees _ _ _ _ _ _ _ E4). intros T. erewrite subs_cut; [|..|exact E3|exact T].
    - change (g_nodes gc) with (g_nodes g). rewrite NC, E4. reflexivity.
    - intros b Hb. unfold subs_sorted in Hb. apply elem_of_list_fmap in Hb. destruct Hb as (k & -> & Hk). rewrite (sorted_in o Fo) in Hk. apply elem_of_dom in Hk. destruct Hk as [b Eb].
      rewrite Eb. cbn [default from_option id]. rewrite (go_subs _ G k b Eb). exact Eb.
  Qed.
  (** The subgraphs with a statement at the top level, when the relation to [s] is missing. *)
  Lemma subs_lost fuel : forall ss, (forall b, b ∈ ss -> g_subs g !! sub_name b = Some b) -> forall acc st l st1,
    subs_loop o gc fuel ss acc st = Ok (l, st1) -> forall x, x ∈ top_trees l -> x ∈ top_trees acc \/ (x <> s /\ is_subgraph g x = true).
  Proof.
    induction ss as [|b ss IH]; intros K acc st l st1; cbn [subs_loop]; [intros [= <- <-]; auto|].
    assert (K' : forall b, b ∈ ss -> g_subs g !! sub_name b = Some b) by (intros b' Hb; apply K; right; exact Hb).
    pose proof (K b (elem_of_list_here _ _)) as Kb.
    destruct (decide (sub_name b ∈ w_written st)); [apply IH; exact K'|].
    change (g_rels gc) with (g_rels (cut g s)). change (g_name gc) with (g_name g). rewrite children_cut.
    destruct (decide (g_name g = g_name g)) as [_|X]; [|congruence].
    destruct (decide (sub_name b ∈ children (g_rels g) (g_name g) ∖ {[s]})) as [C|C]; [|apply IH; exact K'].
    destruct (new_sub o gc fuel (sub_name b) st) as [[tr t1]| | |] eqn:E; try discriminate. intros H x Hx. destruct (IH K' _ _ _ _ H x Hx) as [X|X]; [|auto].
    destruct (new_sub_id gc _ _ _ _ _ E) as (b' & Eb & Id). change (g_subs gc) with (g_subs g) in Eb. rewrite Kb in Eb. injection Eb as <-.
    rewrite top_trees_app, elem_of_app in X. destruct X as [X|X]; [auto|]. destruct tr as [id body]. cbn in Id, X. subst id. apply elem_of_list_singleton in X. subst x.
    right. split; [set_solver|]. unfold is_subgraph. rewrite Kb. reflexivity.
  Qed.
  Theorem lost_text srt fuel a : write_ast srt o gc fuel = Ok a -> forall x, x ∈ top_subs a -> x <> s /\ is_subgraph g x = true.
  Proof.
    unfold write_ast. destruct (attrs_tops o (g_attrs gc) (WState ∅ 0)) as [_ T1]. destruct (append_attrs o (g_attrs gc) (WState ∅ 0)) as [sa st1].
    destruct (edges_loop o gc fuel _ sa st1) as [[l2 st2]| | |] eqn:E2; try discriminate.
    destruct (subs_loop o gc fuel _ l2 _) as [[l3 st3]| | |] eqn:E3; try discriminate.
    destruct (nodes_loop o gc _ l3 _) as [[l4 st4]| | |] eqn:E4; try discriminate. intros [= <-] x. unfold top_subs. cbn [Ast.g_stmts]. fold (top_trees l4).
    rewrite (nodes_trees _ _ _ _ _ _ _ E4). intros X. destruct (edges_tops _ _ _ _ _ _ _ _ E2) as [_ T2]. cbn [fst] in T1. rewrite T1 in T2.
    assert (K : forall b, b ∈ subs_sorted o (w_tick st2) (g_subs gc) -> g_subs g !! sub_name b = Some b).
    { intros b Hb. unfold subs_sorted in Hb. apply elem_of_list_fmap in Hb. destruct Hb as (k & -> & Hk). rewrite (sorted_in o Fo) in Hk. apply elem_of_dom in Hk. destruct Hk as [b Eb].
      rewrite Eb. cbn [default from_option id]. rewrite (go_subs _ G k b Eb). exact Eb. }
    destruct (subs_lost _ _ K _ _ _ _ E3 x X) as [Y|Y]; [|exact Y]. rewrite T2 in Y. inversion Y.
  Qed.
End SubRenamed.

Lemma top_renamed s t a : top_subs (sub_renamed s t a) = map (instead s t) (top_subs a).
Proof.
  unfold top_subs, sub_renamed, ren_graph. cbn [Ast.g_stmts]. induction (Ast.g_stmts a) as [|st l IH]; [reflexivity|]. cbn [map flat_map]. rewrite map_app, <- IH. f_equal.
  destruct st as [| | | | |[]|]; reflexivity.
Qed.

(** ** Calls after the assignment *)
Lemma remove_loop_none ns name : forall post pre, (forall p, p ∈ post -> node_name (deref ns p) <> name) ->
  nodes_remove_loop ns name pre post = (ns, Some (lit "node " ++ name ++ lit " not found")).
Proof.
  induction post as [|p post IH]; intros pre H; cbn [nodes_remove_loop]; [reflexivity|].
  destruct (str_eqb (node_name (deref ns p)) name) eqn:E; [apply str_eqb_eq in E; exfalso; exact (H p (elem_of_list_here _ _) E)|].
  apply IH. intros q Hq. apply H. right. exact Hq.
Qed.
Lemma remove_loop_some ns name p : forall post pre, p ∈ post -> node_name (deref ns p) = name -> (forall q, q ∈ post -> node_name (deref ns q) = name -> q = p) ->
  exists a b, post = a ++ p :: b /\ p ∉ a /\ nodes_remove_loop ns name pre post = (Nodes (delete name (nodes_lookup ns)) (pre ++ a ++ b) (nodes_heap ns) (nodes_next ns), None).
Proof.
  induction post as [|q post IH]; intros pre Hp E U; [inversion Hp|]. cbn [nodes_remove_loop]. destruct (str_eqb (node_name (deref ns q)) name) eqn:Eq.
  - apply str_eqb_eq in Eq. rewrite (U q (elem_of_list_here _ _) Eq). exists [], post. split; [reflexivity|]. split; [apply not_elem_of_nil|reflexivity].
  - apply elem_of_cons in Hp. destruct Hp as [<-|Hp]; [apply str_eqb_neq in Eq; congruence|].
    destruct (IH (pre ++ [q]) Hp E) as (a & b & Ep & Na & Er); [intros q' Hq'; apply U; right; exact Hq'|]. exists (q :: a), b. rewrite Ep. split; [reflexivity|]. split.
    + apply not_elem_of_cons. split; [|exact Na]. intros ->. apply str_eqb_neq in Eq. congruence.
    + rewrite <- Ep, Er, <- app_assoc. reflexivity.
Qed.
Lemma remove_node_subs g x p n : remove_node (with_subs g x) p n = (with_subs (remove_node g p n).1 x, (remove_node g p n).2).
Proof. unfold remove_node. cbn [g_nodes with_subs]. destruct (nodes_remove (g_nodes g) n) as [ns [e|]]; reflexivity. Qed.
Lemma remove_nodes_subs x p : forall l g, remove_nodes_loop (with_subs g x) p l = (with_subs (remove_nodes_loop g p l).1 x, (remove_nodes_loop g p l).2).
Proof.
  induction l as [|c l IH]; intros g; cbn [remove_nodes_loop]; [reflexivity|]. rewrite remove_node_subs. destruct (remove_node g p c) as [g1 [e|]]; cbn [fst snd]; [reflexivity|]. apply IH.
Qed.
Lemma remove_node_subs_same g p n : g_subs (remove_node g p n).1 = g_subs g.
Proof. unfold remove_node. destruct (nodes_remove (g_nodes g) n) as [ns [e|]]; reflexivity. Qed.
Lemma remove_nodes_subs_same p : forall l g, g_subs (remove_nodes_loop g p l).1 = g_subs g.
Proof.
  induction l as [|c l IH]; intros g; cbn [remove_nodes_loop]; [reflexivity|]. pose proof (remove_node_subs_same g p c) as E.
  destruct (remove_node g p c) as [g1 [e|]]; cbn [fst] in *; [exact E|]. rewrite IH. exact E.
Qed.
