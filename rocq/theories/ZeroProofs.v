(** Proofs for C74: the model with nil against the one without. *)
From Verif Require Import Base Parser Maps MapFacts Graph SpecGraph GraphProofs AttrMap Direct Zero SpecZero.

(** ** Attributes *)
Lemma zextend_spec l : forall a, zextend a l =
  match l, a with [], _ => (a, Done None) | _ :: _, None => (None, Panicked) | _, Some m => (Some (extend m l), Done None) end.
Proof.
  induction l as [|[k v] l IH]; intros a; [reflexivity|]. cbn [zextend]. destruct a as [m|]; [|reflexivity]. cbn [zadd].
  rewrite IH. destruct l; reflexivity.
Qed.
Lemma zammend_spec l : forall a, zammend a l =
  match l, a with [], _ => (a, Done None) | _ :: _, None => (None, Panicked) | _, Some m => (Some (ammend_attrs m l), Done None) end.
Proof.
  induction l as [|[k v] l IH]; intros a; [reflexivity|]. destruct a as [m|]; [|reflexivity].
  cbn [zammend default from_option]. unfold id. assert (X : ammend_attrs m ((k, v) :: l) = ammend_attrs (match m !! k with Some _ => m | None => <[k := v]> m end) l) by reflexivity.
  rewrite X. destruct (m !! k) as [x|]; cbn [zadd]; rewrite IH; destruct l; reflexivity.
Qed.
Lemma order_nil (o : oracle) (i : nat) (m : attrs) : fair o -> (o_attrs o i m = [] <-> m = ∅).
Proof.
  intros [F _]. specialize (F i m). split; intros H.
  - rewrite H in F. apply Permutation_nil in F. apply map_to_list_empty_iff. exact F.
  - subst m. rewrite map_to_list_empty in F. apply Permutation_nil_r in F. exact F.
Qed.
Lemma names_nil (o : oracle) (i : nat) (s : names) : fair o -> (o_names o i s = [] <-> s = ∅).
Proof.
  intros [_ F]. specialize (F i s). split; intros H.
  - rewrite H in F. apply Permutation_nil in F. apply elements_empty_iff in F. set_solver.
  - subst s. rewrite elements_empty in F. apply Permutation_nil_r in F. exact F.
Qed.

(** A component's operation agrees with the one without nil. *)
Definition agrees {A B} (f : A -> B) (x : A * out) (y : B * option err) : Prop :=
  forall a r, x = (a, Done r) -> y = (f a, r).

Lemma zattrs_add_agrees a f v : agrees plain_attrs (zattrs_add a f v) (attrs_add (plain_attrs a) f v).
Proof.
  intros b r. unfold zattrs_add, attrs_add. destruct (new_attr f) as [k|e]; [|by intros [= <- <-]].
  destruct a as [m|]; [|discriminate]. intros [= <- <-]. reflexivity.
Qed.
Lemma zattrs_add_panics a f v b : zattrs_add a f v = (b, Panicked) <-> b = None /\ a = None /\ valid_attr f.
Proof.
  unfold zattrs_add. rewrite new_attr_spec. destruct (decide (valid_attr f)) as [V|V]; [|split; [discriminate|tauto]].
  destruct a as [m|]; cbn [zadd]; (split; [intros [= <-]|]; intuition; try congruence; subst; reflexivity).
Qed.
Lemma zexec_attr_agrees o op a : agrees plain_attrs (zexec_attr o op a) (exec_attr o (plain_op op) (plain_attrs a)).
Proof.
  destruct op as [f v|m|m|f v|f|m]; cbn [zexec_attr exec_attr plain_op].
  - apply zattrs_add_agrees.
  - intros b r. rewrite zextend_spec. unfold plain_attrs. destruct (o_attrs o 0 (default ∅ m)) as [|kv l]; [by intros [= <- <-]|].
    destruct a as [x|]; [|discriminate]. intros [= <- <-]. reflexivity.
  - intros b r. rewrite zammend_spec. unfold plain_attrs. destruct (o_attrs o 0 (default ∅ m)) as [|kv l]; [by intros [= <- <-]|].
    destruct a as [x|]; [|discriminate]. intros [= <- <-]. reflexivity.
  - intros b r. destruct a as [x|]; [|discriminate]. intros [= <- <-]. reflexivity.
  - intros b r [= <- <-]. destruct a as [x|]; [reflexivity|]. unfold plain_attrs. cbn. by rewrite delete_empty.
  - intros b r [= <- <-]. reflexivity.
Qed.
Lemma zexec_attr_panics o op a : fair o -> (zexec_attr o op a).2 = Panicked <-> a = None /\ op_writes op.
Proof.
  intros Fo. destruct op as [f v|m|m|f v|f|m]; cbn [zexec_attr op_writes].
  - destruct (zattrs_add a f v) as [b r] eqn:E. cbn [snd]. destruct r as [r|].
    + split; [discriminate|]. intros [-> V]. assert (X : zattrs_add None f v = (None, Panicked)) by (apply zattrs_add_panics; auto).
      rewrite X in E. discriminate.
    + apply zattrs_add_panics in E. tauto.
  - rewrite zextend_spec. rewrite <- (order_nil o 0 (plain_attrs m) Fo). unfold plain_attrs.
    destruct (o_attrs o 0 (default ∅ m)), a; cbn [snd]; intuition congruence.
  - rewrite zammend_spec. rewrite <- (order_nil o 0 (plain_attrs m) Fo). unfold plain_attrs.
    destruct (o_attrs o 0 (default ∅ m)), a; cbn [snd]; intuition congruence.
  - destruct a; cbn [zadd snd]; intuition congruence.
  - cbn [snd]. intuition congruence.
  - cbn [snd]. intuition congruence.
Qed.
Lemma zexec_attr_panic_same o op a b : zexec_attr o op a = (b, Panicked) -> b = a.
Proof.
  destruct op as [f v|m|m|f v|f|m]; cbn [zexec_attr].
  - intros H. apply zattrs_add_panics in H. destruct H as (-> & -> & _). reflexivity.
  - rewrite zextend_spec. destruct (o_attrs o 0 (default ∅ m)), a; congruence.
  - rewrite zammend_spec. destruct (o_attrs o 0 (default ∅ m)), a; congruence.
  - destruct a; cbn; congruence.
  - congruence.
  - congruence.
Qed.

(** ** Nodes *)
Lemma plain_deref ns p : plain_node (zderef ns p) = deref (plain_nodes (Some ns)) p.
Proof. unfold zderef, deref. cbn [plain_nodes nodes_heap]. rewrite lookup_fmap. destruct (zn_heap ns !! p); reflexivity. Qed.
Lemma plain_deref_name ns p : node_name (deref (plain_nodes (Some ns)) p) = zn_name (zderef ns p).
Proof. by rewrite <- plain_deref. Qed.
Lemma plain_deref_attrs ns p : node_attrs (deref (plain_nodes (Some ns)) p) = plain_attrs (zn_attrs (zderef ns p)).
Proof. by rewrite <- plain_deref. Qed.
Lemma znodes_add_agrees x n a l : forall y r, (forall b, l = [] -> extend b l = b) -> znodes_add x n a l = (y, Done r) ->
  r = None /\ nodes_add (plain_nodes x) n (plain_attrs a) l = plain_nodes y.
Proof.
  intros y r _ H. destruct x as [ns|]; [|discriminate]. unfold znodes_add in H. unfold nodes_add. change (nodes_lookup (plain_nodes (Some ns))) with (default ∅ (zn_lookup ns)).
  destruct (default ∅ (zn_lookup ns) !! n) as [p|] eqn:L.
  - rewrite zextend_spec in H. rewrite plain_deref_name, plain_deref_attrs.
    destruct l as [|kv l].
    + injection H as <- <-. split; [reflexivity|]. cbn [plain_nodes nodes_list nodes_heap nodes_next zn_lookup zn_list zn_heap zn_next]. by rewrite fmap_insert.
    + destruct (zn_attrs (zderef ns p)) as [m|] eqn:A; [|discriminate]. injection H as <- <-. split; [reflexivity|].
      cbn [plain_nodes nodes_list nodes_heap nodes_next zn_lookup zn_list zn_heap zn_next]. rewrite fmap_insert. reflexivity.
  - destruct (zn_lookup ns) as [lk|] eqn:K; [|discriminate]. injection H as <- <-. split; [reflexivity|].
    cbn [plain_nodes nodes_list nodes_heap nodes_next zn_lookup zn_list zn_heap zn_next default]. rewrite fmap_insert. reflexivity.
Qed.
Lemma znodes_add_old_agrees x p l : forall y r, znodes_add_old x p l = (y, Done r) ->
  r = None /\ nodes_add_old (plain_nodes x) p l = plain_nodes y.
Proof.
  intros y r H. destruct x as [ns|]; [|discriminate]. unfold znodes_add_old in H. unfold nodes_add_old. rewrite plain_deref_name.
  change (nodes_lookup (plain_nodes (Some ns))) with (default ∅ (zn_lookup ns)).
  destruct (default ∅ (zn_lookup ns) !! zn_name (zderef ns p)) as [q|] eqn:L.
  - rewrite zextend_spec in H. rewrite plain_deref_name, plain_deref_attrs. destruct l as [|kv l].
    + injection H as <- <-. split; [reflexivity|]. cbn [plain_nodes nodes_list nodes_heap nodes_next zn_lookup zn_list zn_heap zn_next]. by rewrite fmap_insert.
    + destruct (zn_attrs (zderef ns q)) as [m|] eqn:A; [|discriminate]. injection H as <- <-. split; [reflexivity|].
      cbn [plain_nodes nodes_list nodes_heap nodes_next zn_lookup zn_list zn_heap zn_next]. rewrite fmap_insert. reflexivity.
  - destruct (zn_lookup ns) as [lk|] eqn:K; [|discriminate]. injection H as <- <-. split; reflexivity.
Qed.
Lemma znodes_remove_loop_agrees ns n post : forall pre,
  nodes_remove_loop (plain_nodes (Some ns)) n pre post =
  (plain_nodes (Some (znodes_remove_loop ns n pre post).1), (znodes_remove_loop ns n pre post).2).
Proof.
  induction post as [|p post IH]; intros pre; [reflexivity|]. cbn [nodes_remove_loop znodes_remove_loop]. rewrite plain_deref_name.
  destruct (str_eqb (zn_name (zderef ns p)) n); [|apply IH]. cbn [fst snd plain_nodes nodes_lookup nodes_list nodes_heap nodes_next zn_lookup zn_list zn_heap zn_next].
  f_equal. f_equal. destruct (zn_lookup ns); [reflexivity|]. cbn. by rewrite delete_empty.
Qed.
Lemma znodes_remove_agrees x n y r : znodes_remove x n = (y, Done r) -> nodes_remove (plain_nodes x) n = (plain_nodes y, r).
Proof.
  destruct x as [ns|]; [|discriminate]. unfold znodes_remove, nodes_remove. change (nodes_list (plain_nodes (Some ns))) with (zn_list ns).
  rewrite znodes_remove_loop_agrees. destruct (znodes_remove_loop ns n [] (zn_list ns)) as [ns' r']. cbn [fst snd]. intros [= <- <-]. reflexivity.
Qed.
Lemma znodes_remove_loop_found ns n post : forall pre,
  (znodes_remove_loop ns n pre post).2 = None <-> exists p, p ∈ post /\ zn_name (zderef ns p) = n.
Proof.
  induction post as [|p post IH]; intros pre; cbn [znodes_remove_loop].
  - split; [discriminate|]. intros (q & H & _). apply elem_of_nil in H. contradiction.
  - destruct (str_eqb (zn_name (zderef ns p)) n) eqn:E.
    + apply str_eqb_eq in E. split; [|reflexivity]. intros _. exists p. split; [left|exact E].
    + rewrite IH. split.
      * intros (q & H & Q). exists q. split; [by right|exact Q].
      * intros (q & H & Q). apply elem_of_cons in H. destruct H as [->|H]; [|eauto]. rewrite Q, str_eqb_refl in E. discriminate.
Qed.
Lemma znodes_remove_loop_err ns n post : forall pre e, (znodes_remove_loop ns n pre post).2 = Some e ->
  (znodes_remove_loop ns n pre post).1 = ns /\ e = lit "node " ++ n ++ lit " not found".
Proof.
  induction post as [|p post IH]; intros pre e; cbn [znodes_remove_loop]; [intros [= <-]; auto|].
  destruct (str_eqb _ n); [discriminate|apply IH].
Qed.

(** ** Edges *)
Lemma zplain_index_add m a b e : plain_index (Some (zadd2 m a b e)) = add2 (plain_index (Some m)) a b (plain_edge e).
Proof.
  unfold plain_index, zadd2, add2. cbn [default from_option id]. unfold id. rewrite fmap_insert, fmap_insert. rewrite lookup_fmap.
  rewrite map_app. destruct (m !! a) as [inner|]; cbn [fmap option_fmap option_map default from_option id].
  - unfold id. rewrite lookup_fmap. destruct (inner !! b); reflexivity.
  - unfold id. rewrite fmap_empty, !lookup_empty. reflexivity.
Qed.
Lemma plain_new_edges : plain_edges (Some z_new_edges) = new_edges.
Proof. unfold plain_edges, plain_index. cbn [z_new_edges z_s2d z_d2s ze_list default from_option id]. unfold id. by rewrite fmap_empty. Qed.
Lemma zedges_put_agrees es e es' r : zedges_put es e = (es', Done r) ->
  r = None /\ plain_edges (Some es') = edges_add (plain_edges (Some es)) (plain_edge e).
Proof.
  unfold zedges_put. destruct (z_s2d es) as [m|] eqn:A; [|discriminate]. cbn [z_d2s z_s2d ze_list]. destruct (z_d2s es) as [m'|] eqn:B; [|discriminate].
  intros [= <- <-]. split; [reflexivity|]. unfold edges_add. cbn [plain_edges z_s2d z_d2s ze_list src_to_dsts dst_to_srcs edges_list].
  rewrite A, B, !zplain_index_add, map_app. reflexivity.
Qed.
Lemma zedges_put_ok es e m m' : z_s2d es = Some m -> z_d2s es = Some m' ->
  zedges_put es e = (ZEdges (Some (zadd2 m (ze_src e) (ze_dst e) e)) (Some (zadd2 m' (ze_dst e) (ze_src e) e)) (ze_list es ++ [e]), Done None).
Proof. intros A B. unfold zedges_put. rewrite A. cbn [z_d2s z_s2d ze_list]. rewrite B. reflexivity. Qed.
Lemma zedges_put_panics es e : (zedges_put es e).2 = Panicked <-> z_s2d es = None \/ z_d2s es = None.
Proof.
  unfold zedges_put. destruct (z_s2d es) as [m|] eqn:A; [|cbn; tauto]. cbn [z_d2s]. destruct (z_d2s es) as [m'|] eqn:B; cbn [snd]; intuition congruence.
Qed.
Lemma zfilter_ok (keep : zedge -> bool) l : forall acc m m', z_s2d acc = Some m -> z_d2s acc = Some m' ->
  exists es m1 m1', zfilter keep acc l = (es, Done None) /\ z_s2d es = Some m1 /\ z_d2s es = Some m1' /\ ze_list es = ze_list acc ++ List.filter keep l.
Proof.
  induction l as [|e l IH]; intros acc m m' A B; cbn [zfilter List.filter].
  - exists acc, m, m'. rewrite app_nil_r. auto.
  - destruct (keep e); [|exact (IH acc m m' A B)]. rewrite (zedges_put_ok acc e m m' A B).
    destruct (IH (ZEdges (Some (zadd2 m (ze_src e) (ze_dst e) e)) (Some (zadd2 m' (ze_dst e) (ze_src e) e)) (ze_list acc ++ [e])) _ _ eq_refl eq_refl) as (es & m1 & m1' & H & H1 & H2 & H3).
    exists es, m1, m1'. rewrite H. repeat split; auto. rewrite H3. cbn [ze_list]. by rewrite <- app_assoc.
Qed.
Lemma zfilter_agrees (keep : zedge -> bool) (keep' : edge -> bool) : (forall e, keep' (plain_edge e) = keep e) -> forall l acc es r,
  zfilter keep acc l = (es, Done r) ->
  plain_edges (Some es) = fold_left (fun acc e => if keep' e then edges_add acc e else acc) (map plain_edge l) (plain_edges (Some acc)).
Proof.
  intros K. induction l as [|e l IH]; intros acc es r; cbn [zfilter map fold_left].
  - intros [= <- <-]. reflexivity.
  - rewrite K. destruct (keep e); [|apply IH]. destruct (zedges_put acc e) as [acc' [r'|]] eqn:E; [|discriminate].
    intros H. rewrite (IH _ _ _ H). apply zedges_put_agrees in E. by rewrite (proj2 E).
Qed.
Lemma zedges_filter_agrees (keep : zedge -> bool) (keep' : edge -> bool) x y r : (forall e, keep' (plain_edge e) = keep e) ->
  zedges_filter keep x = (y, Done r) -> r = None /\ plain_edges y = filter_edges keep' (plain_edges x).
Proof.
  intros K. destruct x as [es|]; [|discriminate]. unfold zedges_filter.
  destruct (zfilter_ok keep (ze_list es) z_new_edges _ _ eq_refl eq_refl) as (es' & m1 & m1' & H & _). rewrite H. intros [= <- <-].
  split; [reflexivity|]. rewrite (zfilter_agrees keep keep' K _ _ _ _ H), plain_new_edges. reflexivity.
Qed.
Lemma zedges_filter_panics keep x : (zedges_filter keep x).2 = Panicked <-> x = None.
Proof.
  destruct x as [es|]; [|cbn; tauto]. unfold zedges_filter.
  destruct (zfilter_ok keep (ze_list es) z_new_edges _ _ eq_refl eq_refl) as (es' & m1 & m1' & H & _). rewrite H. cbn [snd]. intuition congruence.
Qed.

(** ** SubGraphs, Relations *)
Lemma zsubs_add_agrees x n y r : zsubs_add x n = (y, Done r) -> r = None /\ plain_subs y = subs_add (plain_subs x) n.
Proof.
  destruct x as [ss|]; [|discriminate]. unfold zsubs_add, subs_add. cbn [plain_subs]. rewrite lookup_fmap.
  destruct (default ∅ (zs_map ss) !! n) as [s|] eqn:L; cbn [fmap option_fmap option_map].
  - intros [= <- <-]. auto.
  - destruct (zs_map ss) as [m|] eqn:M; [|discriminate]. intros [= <- <-]. split; [reflexivity|]. cbn [plain_subs zs_map default from_option id].
    unfold id. rewrite fmap_insert. reflexivity.
Qed.
Lemma zsubs_remove_agrees x n y r : zsubs_remove x n = (y, Done r) -> r = None /\ plain_subs y = delete n (plain_subs x).
Proof.
  destruct x as [ss|]; [|discriminate]. intros [= <- <-]. split; [reflexivity|]. cbn [plain_subs zs_map].
  destruct (zs_map ss) as [m|]; cbn [fmap option_fmap option_map default from_option id]; unfold id.
  - by rewrite fmap_delete.
  - by rewrite !fmap_empty, delete_empty.
Qed.
Lemma zrels_add_agrees x p c y r : zrels_add x p c = (y, Done r) -> r = None /\ plain_rels y = relations_add (plain_rels x) p c.
Proof.
  destruct x as [rs|]; [|discriminate]. unfold zrels_add. destruct (z_p2c rs) as [m|] eqn:A; [|discriminate]. cbn [z_c2p z_p2c].
  destruct (z_c2p rs) as [m'|] eqn:B; [|discriminate]. intros [= <- <-]. split; [reflexivity|]. cbn [plain_rels z_p2c z_c2p].
  rewrite A, B. reflexivity.
Qed.
Lemma rel_delete_nil a b : rel_delete ∅ a b = ∅.
Proof. unfold rel_delete. by rewrite lookup_empty. Qed.
Lemma zrels_remove_agrees x p c y r : zrels_remove x p c = (y, Done r) -> r = None /\ plain_rels y = relations_remove (plain_rels x) p c.
Proof.
  destruct x as [rs|]; [|discriminate]. intros [= <- <-]. split; [reflexivity|]. unfold relations_remove. cbn [plain_rels z_p2c z_c2p parent_to_children child_to_parents].
  destruct (z_p2c rs), (z_c2p rs); cbn [fmap option_fmap option_map default from_option id]; unfold id; rewrite ?rel_delete_nil; reflexivity.
Qed.

Lemma fill_nodes z x : fill (zw_nodes z x) = with_nodes (fill z) (plain_nodes x). Proof. reflexivity. Qed.
Lemma fill_edges z x : fill (zw_edges z x) = with_edges (fill z) (plain_edges x). Proof. reflexivity. Qed.
Lemma fill_subs z x : fill (zw_subs z x) = with_subs (fill z) (plain_subs x). Proof. reflexivity. Qed.
Lemma fill_rels z x : fill (zw_rels z x) = with_rels (fill z) (plain_rels x). Proof. reflexivity. Qed.
Lemma fill_attrs z x : fill (zw_attrs z x) = with_attrs (fill z) (plain_attrs x). Proof. reflexivity. Qed.

(** ** The calls agree *)
Lemma zadd_port_edge_agrees o z s sp d dp dir m z' r : zadd_port_edge o z s sp d dp dir m = (z', Done r) ->
  add_port_edge o (fill z) s sp d dp dir m = (fill z', r).
Proof.
  unfold zadd_port_edge, add_port_edge. destruct (new_attrs (o_attrs o 0 m)) as [a|e]; [|by intros [= <- <-]].
  destruct (z_edges z) as [es|] eqn:E; [|discriminate]. cbn [zedges_add].
  destruct (zedges_put es (ZEdge s sp d dp dir (Some a))) as [es' [r'|]] eqn:P; [|discriminate]. intros [= <- <-].
  apply zedges_put_agrees in P. destruct P as [-> P]. rewrite fill_edges, P. cbn [fill g_edges]. rewrite E. reflexivity.
Qed.
Lemma zadd_node_agrees o z p n m z' r : zadd_node o z p n m = (z', Done r) -> add_node o (fill z) p n m = (fill z', r).
Proof.
  unfold zadd_node, add_node. destruct (new_attrs (o_attrs o 0 m)) as [a|e]; [|by intros [= <- <-]].
  destruct (znodes_add (z_nodes z) n (Some a) (o_attrs o 1 a)) as [ns [r1|]] eqn:E; [|discriminate].
  apply znodes_add_agrees in E; [|by intros b ->]. destruct E as [-> E].
  cbn [zw_nodes z_rels]. destruct (zrels_add (z_rels z) p n) as [rs r'] eqn:R. intros [= <- ->]. apply zrels_add_agrees in R. destruct R as [-> R].
  rewrite fill_rels, fill_nodes, R, <- E. reflexivity.
Qed.
Lemma zremove_node_agrees z p n z' r : zremove_node z p n = (z', Done r) -> remove_node (fill z) p n = (fill z', r).
Proof.
  unfold zremove_node, remove_node. destruct (znodes_remove (z_nodes z) n) as [ns [r1|]] eqn:E; [|discriminate].
  apply znodes_remove_agrees in E. change (g_nodes (fill z)) with (plain_nodes (z_nodes z)). rewrite E. destruct r1 as [e|]; [by intros [= <- <-]|].
  cbn [zw_nodes z_rels]. destruct (zrels_remove (z_rels z) p n) as [rs [r2|]] eqn:R; [|discriminate]. apply zrels_remove_agrees in R. destruct R as [-> R].
  cbn [zw_rels z_edges zw_nodes].
  destruct (zedges_filter (fun e => negb (str_eqb (ze_dst e) n || str_eqb (ze_src e) n)) (z_edges z)) as [es r3] eqn:F. intros [= <- ->].
  apply (zedges_filter_agrees _ (fun e => negb (str_eqb (e_dst e) n || str_eqb (e_src e) n))) in F; [|intros e'; reflexivity]. destruct F as [-> F]. rewrite fill_edges, fill_rels, fill_nodes, R.
  f_equal. unfold with_edges. cbn [with_rels with_nodes fill g_attrs g_name g_directed g_strict g_nodes g_subs g_rels g_edges]. f_equal.
  rewrite F. reflexivity.
Qed.
Lemma zadd_attr_agrees z p f v z' r : zadd_attr z p f v = (z', Done r) -> add_attr (fill z) p f v = (fill z', r).
Proof.
  unfold zadd_attr, add_attr. change (g_name (fill z)) with (z_name z). destruct (str_eqb (z_name z) p).
  - destruct (zattrs_add (z_attrs z) f v) as [a r'] eqn:E. intros [= <- ->]. apply zattrs_add_agrees in E.
    change (g_attrs (fill z)) with (plain_attrs (z_attrs z)). rewrite E. reflexivity.
  - change (g_subs (fill z)) with (plain_subs (z_subs z)). destruct (z_subs z) as [ss|] eqn:S0; [|discriminate].
    cbn [plain_subs]. rewrite lookup_fmap. destruct (default ∅ (zs_map ss) !! p) as [s|] eqn:L; cbn [fmap option_fmap option_map].
    + destruct (zattrs_add (zs_attrs s) f v) as [a r'] eqn:E. intros [= <- ->]. apply zattrs_add_agrees in E.
      change (sub_attrs (plain_sub s)) with (plain_attrs (zs_attrs s)). rewrite E. rewrite fill_subs. f_equal. f_equal.
      cbn [plain_subs zs_map]. destruct (zs_map ss) as [m|]; [|discriminate L]. cbn [fmap option_fmap option_map default from_option id]. unfold id.
      rewrite fmap_insert. reflexivity.
    + intros [= <- <-]. reflexivity.
Qed.
Lemma zadd_attrs_loop_agrees l : forall z n z' r, zadd_attrs_loop z n l = (z', Done r) -> add_attrs_loop (fill z) n l = (fill z', r).
Proof.
  induction l as [|[k v] l IH]; intros z n z' r; cbn [zadd_attrs_loop add_attrs_loop]; [by intros [= <- <-]|].
  destruct (zadd_attr z n k v) as [z1 [r1|]] eqn:E; [|discriminate]. apply zadd_attr_agrees in E. rewrite E.
  destruct r1 as [e|]; [by intros [= <- <-]|apply IH].
Qed.
Lemma zadd_subgraph_agrees o z p n m z' r : zadd_subgraph o z p n m = (z', Done r) -> add_subgraph o (fill z) p n m = (fill z', r).
Proof.
  unfold zadd_subgraph, add_subgraph. destruct (zrels_add (z_rels z) p n) as [rs [r1|]] eqn:R; [|discriminate].
  apply zrels_add_agrees in R. destruct R as [-> R]. cbn [zw_rels z_subs]. destruct (zsubs_add (z_subs z) n) as [ss [r2|]] eqn:E; [|discriminate].
  apply zsubs_add_agrees in E. destruct E as [-> E]. intros H. apply zadd_attrs_loop_agrees in H. rewrite <- H.
  rewrite fill_subs, fill_rels, R, E. reflexivity.
Qed.
Lemma zremove_nodes_loop_agrees l : forall z p z' r, zremove_nodes_loop z p l = (z', Done r) -> remove_nodes_loop (fill z) p l = (fill z', r).
Proof.
  induction l as [|c l IH]; intros z p z' r; cbn [zremove_nodes_loop remove_nodes_loop]; [by intros [= <- <-]|].
  destruct (zremove_node z p c) as [z1 [r1|]] eqn:E; [|discriminate]. apply zremove_node_agrees in E. rewrite E.
  destruct r1 as [e|]; [by intros [= <- <-]|apply IH].
Qed.
Lemma zremove_subgraph_agrees o z p n z' r : zremove_subgraph o z p n = (z', Done r) -> remove_subgraph o (fill z) p n = (fill z', r).
Proof.
  unfold zremove_subgraph, remove_subgraph. destruct (z_rels z) as [r0|] eqn:R0; [|discriminate].
  replace (children (g_rels (fill z)) n) with (zchildren r0 n).
  2:{ unfold children, zchildren. cbn [fill g_rels]. rewrite R0. reflexivity. }
  destruct (zremove_nodes_loop z p (o_names o 0 (zchildren r0 n))) as [z1 [r1|]] eqn:E; [|discriminate]. apply zremove_nodes_loop_agrees in E. rewrite E.
  destruct r1 as [e|]; [by intros [= <- <-]|].
  destruct (zrels_remove (z_rels z1) p n) as [rs [r2|]] eqn:R; [|discriminate]. apply zrels_remove_agrees in R. destruct R as [-> R].
  cbn [zw_rels z_subs]. destruct (zsubs_remove (z_subs z1) n) as [ss [r3|]] eqn:F; [|discriminate]. apply zsubs_remove_agrees in F. destruct F as [-> F].
  cbn [zw_subs z_edges zw_rels].
  match goal with |- context [zedges_filter ?k (z_edges z1)] => destruct (zedges_filter k (z_edges z1)) as [es r4] eqn:G end. intros [= <- ->].
  apply (zedges_filter_agrees _ (fun e => negb (str_eqb (e_dst e) n || str_eqb (e_dst_port e) n || str_eqb (e_src e) n || str_eqb (e_src_port e) n))) in G; [|intros e'; reflexivity]. destruct G as [-> G]. rewrite fill_edges, fill_subs, fill_rels, R, F.
  f_equal. unfold with_edges. cbn [with_rels with_subs fill g_attrs g_name g_directed g_strict g_nodes g_subs g_rels g_edges]. f_equal.
  rewrite G. reflexivity.
Qed.
Lemma zexec_agrees o c z z' r : zexec o c z = (z', Done r) -> exec o c (fill z) = (fill z', r).
Proof.
  destruct c; cbn [zexec exec].
  - by intros [= <- <-].
  - by intros [= <- <-].
  - by intros [= <- <-].
  - apply zadd_port_edge_agrees.
  - apply zadd_port_edge_agrees.
  - apply zadd_node_agrees.
  - apply zadd_attr_agrees.
  - apply zadd_subgraph_agrees.
  - apply zremove_node_agrees.
  - apply zremove_subgraph_agrees.
Qed.

Lemma zsame_ends_plain e l : List.filter (same_ends (plain_edge e)) (map plain_edge l) = map plain_edge (List.filter (zsame_ends e) l).
Proof.
  induction l as [|x l IH]; [reflexivity|]. cbn [map List.filter].
  change (same_ends (plain_edge e) (plain_edge x)) with (zsame_ends e x). destruct (zsame_ends e x); cbn [map]; by rewrite IH.
Qed.
Lemma plain_index_set m a b j e : m <> None -> plain_index ((fun m => zset2 m a b j e) <$> m) = set2 (plain_index m) a b j (plain_edge e).
Proof.
  destruct m as [m|]; [|done]. intros _. unfold plain_index, zset2, set2. cbn [fmap option_fmap option_map default from_option id]. unfold id.
  rewrite fmap_insert, fmap_insert, lookup_fmap. change (@map zedge edge) with (@fmap list _ zedge edge). rewrite list_fmap_insert. destruct (m !! a) as [inner|]; cbn [fmap option_fmap option_map default from_option id].
  - unfold id. rewrite lookup_fmap. destruct (inner !! b); reflexivity.
  - unfold id. rewrite fmap_empty, !lookup_empty. reflexivity.
Qed.
