(** Proofs for C74, continued: what a panic leaves behind. *)
From Verif Require Import Base Parser Maps MapFacts Graph SpecGraph GraphProofs AttrMap Direct Zero SpecZero ZeroProofs ZeroProofs2 ZeroProofs3.

Lemma zw_nodes_id z : zw_nodes z (z_nodes z) = z. Proof. by destruct z. Qed.
Lemma zw_edges_id z : zw_edges z (z_edges z) = z. Proof. by destruct z. Qed.
Lemma zw_subs_id z : zw_subs z (z_subs z) = z. Proof. by destruct z. Qed.
Lemma zw_rels_id z : zw_rels z (z_rels z) = z. Proof. by destruct z. Qed.
Lemma zw_attrs_id z : zw_attrs z (z_attrs z) = z. Proof. by destruct z. Qed.

Lemma zedges_add_left z e y : zedges_add (z_edges z) e = (y, Panicked) ->
  (no_sources z /\ zw_edges z y = z) \/
  (~ no_sources z /\ plain_edges y = Edges (src_to_dsts (edges_add (plain_edges (z_edges z)) (plain_edge e))) (dst_to_srcs (plain_edges (z_edges z))) (edges_list (plain_edges (z_edges z)))).
Proof.
  unfold no_sources. destruct (z_edges z) as [es|] eqn:Z; cbn [zedges_add].
  2:{ intros [= <-]. left. split; [discriminate|]. rewrite <- Z. apply zw_edges_id. }
  unfold zedges_put. destruct (z_s2d es) as [m|] eqn:A.
  2:{ intros [= <-]. left. split; [intros x [= <-]; exact A|]. rewrite <- Z. apply zw_edges_id. }
  cbn [z_d2s]. destruct (z_d2s es) eqn:B; [discriminate|]. intros [= <-]. right. split; [intros X; specialize (X _ eq_refl); congruence|].
  cbn [plain_edges z_s2d z_d2s ze_list]. unfold edges_add. cbn [src_to_dsts dst_to_srcs edges_list]. rewrite zplain_index_add, A, B. reflexivity.
Qed.
Lemma zrels_add_left z p c y : zrels_add (z_rels z) p c = (y, Panicked) -> half_related z (zw_rels z y) p c.
Proof.
  unfold half_related, no_parents. cbn [fill g_rels zw_rels z_rels]. destruct (z_rels z) as [r|] eqn:Z; cbn [zrels_add].
  2:{ intros [= <-]. left. split; [discriminate|reflexivity]. }
  destruct (z_p2c r) as [m|] eqn:A.
  2:{ intros [= <-]. left. split; [intros x [= <-]; exact A|]. reflexivity. }
  cbn [z_c2p]. destruct (z_c2p r) eqn:B; [discriminate|]. intros [= <-]. right. split; [intros X; specialize (X _ eq_refl); congruence|].
  cbn [plain_rels z_p2c z_c2p]. unfold relations_add. cbn [parent_to_children child_to_parents]. rewrite A, B. reflexivity.
Qed.
Lemma znodes_add_left x n a l y : (forall ns, x = Some ns -> forall lk p, zn_lookup ns = Some lk -> lk !! n = Some p -> is_Some (zn_heap ns !! p)) ->
  znodes_add x n a l = (y, Panicked) -> y = x.
Proof.
  destruct x as [ns|]; cbn [znodes_add]; [|by intros _ [= <-]]. intros HP. destruct (zn_lookup ns) as [lk|] eqn:K.
  - cbn [default from_option id]. unfold id. destruct (lk !! n) as [p|] eqn:L; [|discriminate]. destruct (HP _ eq_refl _ _ K L) as [nd H].
    assert (D : zderef ns p = nd) by (unfold zderef; by rewrite H). rewrite D, zextend_spec. destruct l as [|kv l]; [discriminate|]. destruct (zn_attrs nd) as [b|] eqn:A; [discriminate|].
    intros [= <-]. f_equal. replace (ZNode (zn_name nd) None) with nd by (destruct nd; cbn in *; congruence). rewrite insert_id by exact H. rewrite <- K. by destruct ns.
  - cbn [default from_option id]. unfold id. rewrite lookup_empty. by intros [= <-].
Qed.
Lemma zattrs_add_left a f v b : zattrs_add a f v = (b, Panicked) -> b = a.
Proof. intros H. apply zattrs_add_panics in H. destruct H as (-> & -> & _). reflexivity. Qed.
Lemma zadd_attr_left z p f v z' : zadd_attr z p f v = (z', Panicked) -> z' = z.
Proof.
  unfold zadd_attr. destruct (str_eqb (z_name z) p).
  - destruct (zattrs_add (z_attrs z) f v) as [a r] eqn:E. intros [= <- ->]. apply zattrs_add_left in E. subst a. apply zw_attrs_id.
  - destruct (z_subs z) as [ss|] eqn:S0; [|by intros [= <-]]. destruct (default ∅ (zs_map ss) !! p) as [s|] eqn:L; [|discriminate].
    destruct (zattrs_add (zs_attrs s) f v) as [a r] eqn:E. intros [= <- ->]. apply zattrs_add_left in E. subst a.
    destruct (zs_map ss) as [m|] eqn:M; [|discriminate L]. cbn in L. unfold id in L. replace (ZSub (zs_attrs s) (zs_name s)) with s by (by destruct s).
    cbn [fmap option_fmap option_map]. rewrite insert_id by exact L. rewrite <- M. replace (ZSubs (zs_map ss)) with ss by (by destruct ss). rewrite <- S0. apply zw_subs_id.
Qed.
Lemma zadd_attrs_loop_left l : forall z n z', zadd_attrs_loop z n l = (z', Panicked) -> z' = z.
Proof.
  induction l as [|[k v] l IH]; intros z n z'; cbn [zadd_attrs_loop]; [discriminate|].
  destruct (zadd_attr z n k v) as [z1 [[e|]|]] eqn:E; [discriminate| |intros [= <-]; eapply zadd_attr_left; eauto].
  intros H. exfalso. destruct (zadd_attr_ok_keeps z n k v z1 E) as [(B & C & D)|(B & C & D)];
    refine (zadd_attrs_loop_no l z1 n _ D _); auto; [by rewrite H|left; congruence|by rewrite H].
Qed.
Lemma zrels_add_done z p c y r : zrels_add (z_rels z) p c = (y, Done r) -> ~ rels_nil z.
Proof. intros H X. apply (zrels_add_panics z p c) in X. rewrite H in X. discriminate. Qed.


Lemma new_attrs_any (o : oracle) (m : attrs) a : fair o -> new_attrs (o_attrs o 0 m) = inl a -> a = m.
Proof. intros Fo H. destruct (new_attrs_enum m (o_attrs o 0 m) (proj1 Fo 0 m)) as [[V Ea]|[V (k & v & _ & _ & Ea)]]; congruence. Qed.
Lemma zadd_port_edge_left o z s sp d dp dir m z' : zadd_port_edge o z s sp d dp dir m = (z', Panicked) ->
  (no_sources z /\ z' = z) \/
  (~ no_sources z /\ fill z' = with_edges (fill z)
     (Edges (src_to_dsts (g_edges (add_port_edge o (fill z) s sp d dp dir m).1)) (dst_to_srcs (g_edges (fill z))) (edges_list (g_edges (fill z))))).
Proof.
  unfold zadd_port_edge, add_port_edge. destruct (new_attrs _) as [a|]; [|discriminate]. destruct (zedges_add _ _) as [es r] eqn:E. intros [= <- ->].
  apply zedges_add_left in E. destruct E as [[A B]|[A B]]; [left; auto|right]. split; [exact A|]. rewrite fill_edges, B. reflexivity.
Qed.
Lemma zremove_node_left o p n z z' : zremove_node z p n = (z', Panicked) -> left_by_remove o p n z z'.
Proof.
  intros H. unfold zremove_node in H. destruct (znodes_remove (z_nodes z) n) as [ns [[e|]|]] eqn:E; [discriminate| |].
  - right. split; [intros X; rewrite X in E; discriminate|]. pose proof (znodes_remove_agrees _ _ _ _ E) as E'. assert (G : g_nodes (exec o (CRemoveNode p n) (fill z)).1 = plain_nodes ns).
    { cbn [exec]. unfold remove_node. change (g_nodes (fill z)) with (plain_nodes (z_nodes z)). rewrite E'. reflexivity. }
    rewrite G. cbn [zw_nodes z_rels] in H. destruct (zrels_remove (z_rels z) p n) as [rs [r|]] eqn:R.
    + cbn [zw_rels zw_nodes z_edges] in H. match type of H with context [zedges_filter ?k (z_edges z)] => destruct (zedges_filter k (z_edges z)) as [es r'] eqn:F; pose proof (zedges_filter_panics k (z_edges z)) as PE end.
      injection H as <- ->. rewrite F in PE. pose proof (proj1 PE eq_refl) as X. rewrite X in F. injection F as <-. apply zrels_remove_agrees in R. destruct R as [_ R].
      unfold fill. cbn [zw_rels zw_nodes zw_edges z_attrs z_name z_directed z_strict z_nodes z_edges z_subs z_rels]. rewrite X, R. reflexivity.
    + injection H as <-. destruct (z_rels z) as [r|] eqn:Z; [discriminate|]. cbn in R. injection R as <-. rewrite fill_rels, fill_nodes. f_equal.
      cbn [fill g_rels]. rewrite Z. cbn [plain_rels]. unfold relations_remove, new_relations. cbn [parent_to_children child_to_parents]. by rewrite !rel_delete_nil.
  - left. injection H as <-. destruct (z_nodes z) as [x|] eqn:Z; [cbn [znodes_remove] in E; destruct (znodes_remove_loop _ _ _ _); discriminate|]. cbn in E. injection E as <-.
    split; [reflexivity|]. rewrite <- Z. apply zw_nodes_id.
Qed.
Lemma zremove_nodes_loop_run o p l : forall z z', zremove_nodes_loop z p l = (z', Done None) ->
  (run (map (fun c => (o, CRemoveNode p c)) l) (fill z)).1 = fill z'.
Proof.
  induction l as [|c l IH]; intros z z'; cbn [zremove_nodes_loop map run]; [by intros [= <-]|].
  destruct (zremove_node z p c) as [z1 [[e|]|]] eqn:E; try discriminate. intros H. apply zremove_node_agrees in E. cbn [exec]. rewrite E.
  specialize (IH _ _ H). destruct (run _ (fill z1)). exact IH.
Qed.
Lemma zremove_nodes_loop_first l z p z' : z_rels z <> None -> zremove_nodes_loop z p l = (z', Panicked) ->
  exists c l', l = c :: l' /\ zremove_node z p c = (z', Panicked).
Proof.
  intros R. destruct l as [|c l]; cbn [zremove_nodes_loop]; [discriminate|]. intros H. exists c, l. split; [reflexivity|].
  destruct (zremove_node z p c) as [z1 [[e|]|]] eqn:E; [discriminate| |congruence].
  exfalso. destruct (zremove_node_result _ _ _ _ _ E) as (_ & _ & _ & D & _). destruct (D eq_refl) as (_ & H1 & H2 & H3).
  apply (zremove_nodes_loop_rest l z1 p H3 H1 H2). by rewrite H.
Qed.

Lemma zexec_left o c z z' : fair o -> pointers_ok z -> zexec o c z = (z', Panicked) -> left_by o c z z'.
Proof.
  intros Fo PO. destruct c as [b|b|n|s sp d dp dir m|s d dir m|p n m|p f v|p n m|p n|p n]; cbn [zexec left_by]; try discriminate.
  - apply zadd_port_edge_left.
  - apply zadd_port_edge_left.
  - intros H. unfold zadd_node in H. destruct (new_attrs_enum m (o_attrs o 0 m) (proj1 Fo 0 m)) as [[V Ea]|[V (k & v & _ & _ & Ea)]]; rewrite Ea in H; [|discriminate].
    pose proof (znodes_add_panics z n (Some m) o 1 m Fo) as PN.
    destruct (znodes_add (z_nodes z) n (Some m) (o_attrs o 1 m)) as [ns [r|]] eqn:E.
    + right. split; [intros X; apply PN in X; discriminate|]. cbn [zw_nodes z_rels] in H. pose proof (zrels_add_panics z p n) as PR.
      destruct (zrels_add (z_rels z) p n) as [rs r'] eqn:R. injection H as <- ->. split; [by apply PR|]. split; [exact (zrels_add_left z p n rs R)|].
      apply znodes_add_agrees in E; [|by intros b ->]. destruct E as [_ E]. cbn [exec]. unfold add_node. rewrite Ea.
      rewrite fill_rels, fill_nodes, <- E. reflexivity.
    + left. split; [by apply PN|]. injection H as <-. apply znodes_add_left in E; [|intros ns0 Z0 lk q K L; eapply PO; eauto]. subst ns. apply zw_nodes_id.
  - apply zadd_attr_left.
  - unfold zadd_subgraph. pose proof (zrels_add_panics z p n) as PR. destruct (zrels_add (z_rels z) p n) as [rs [r1|]] eqn:R.
    2:{ intros [= <-]. left. split; [by apply PR|]. split; [exact (zrels_add_left z p n rs R)|reflexivity]. }
    assert (NR : ~ rels_nil z) by (intros X; apply PR in X; discriminate). pose proof (zrels_add_agrees _ _ _ _ _ R) as [_ RA].
    cbn [zw_rels z_subs]. pose proof (zsubs_add_panics z n) as PS. destruct (zsubs_add (z_subs z) n) as [ss [r2|]] eqn:E.
    + assert (NS : ~ subs_nil z) by (intros X; apply PS in X; discriminate). intros H. apply zadd_attrs_loop_left in H. subst z'. right. right.
      split; [exact NR|]. split; [exact NS|]. apply zsubs_add_agrees in E. destruct E as [_ E]. cbn [exec]. unfold add_subgraph.
      rewrite (proj2 (order_nil o 0 ∅ Fo) eq_refl). cbn [add_attrs_loop fst]. rewrite fill_subs, fill_rels, RA, E. reflexivity.
    + intros [= <-]. right. left. split; [exact NR|]. split; [by apply PS|]. assert (X : ss = z_subs z).
      { destruct (z_subs z) as [x|]; cbn [zsubs_add] in E; [|congruence]. destruct (default ∅ (zs_map x) !! n), (zs_map x); congruence. }
      subst ss. replace (zw_subs (zw_rels z rs) (z_subs z)) with (zw_rels z rs) by reflexivity. rewrite fill_rels, RA. reflexivity.
  - apply zremove_node_left.
  - intros H. unfold zremove_subgraph in H. destruct (z_rels z) as [r0|] eqn:R0; [|congruence]. cbv zeta. set (cs := o_names o 0 (zchildren r0 n)) in *.
    assert (Nd : NoDup cs) by (apply order_nodup; exact Fo).
    destruct (zremove_nodes_loop z p cs) as [z1 [[e|]|]] eqn:E; [discriminate| |].
    + right. assert (NP : forall c, c ∈ cs -> ~ panics o (CRemoveNode p c) z).
      { destruct (zremove_nodes_loop_result _ _ _ _ _ Nd E) as (_ & _ & _ & D & _). destruct (D eq_refl) as (D1 & _ & _).
        intros c Hc. assert (Z : z_rels z <> None) by congruence. cbn [panics]. pose proof (zremove_nodes_loop_panics cs z p Z) as PL. rewrite E in PL. cbn [snd] in PL.
        destruct cs as [|c0 l]; [apply elem_of_nil in Hc; contradiction|]. intros X. assert (Y : Done None = Panicked); [|discriminate]. apply PL.
        destruct X as [X|[_ [X|X]]]; [auto|congruence|right]. split; [apply D1; left|exact X]. }
      split; [exact NP|]. rewrite (zremove_nodes_loop_run o p cs z z1 E).
      destruct (zrels_remove (z_rels z1) p n) as [rs [r|]] eqn:R.
      * apply zrels_remove_agrees in R. destruct R as [_ R]. cbn [zw_rels z_subs] in H. destruct (zsubs_remove (z_subs z1) n) as [ss [r2|]] eqn:F.
        -- apply zsubs_remove_agrees in F. destruct F as [_ F]. cbn [zw_rels zw_subs z_edges] in H.
           match type of H with context [zedges_filter ?k (z_edges z1)] => pose proof (zedges_filter_panics k (z_edges z1)) as PE; destruct (zedges_filter k (z_edges z1)) as [es r'] eqn:G end.
           injection H as <- ->. pose proof (proj1 PE eq_refl) as X. rewrite X in G. injection G as <-.
           rewrite fill_edges, fill_subs, fill_rels, R, F. unfold with_edges, with_subs, with_rels. cbn [g_attrs g_name g_directed g_strict g_nodes g_edges g_subs g_rels].
           f_equal. cbn [fill g_edges]. by rewrite X.
        -- injection H as <-. destruct (z_subs z1) as [x|] eqn:Z; [discriminate|]. cbn in F. injection F as <-.
           rewrite fill_subs, fill_rels, R. f_equal. cbn [fill g_subs]. rewrite Z. cbn [plain_subs]. by rewrite delete_empty.
      * injection H as <-. destruct (zremove_nodes_loop_result _ _ _ _ _ Nd E) as (_ & _ & _ & D & _). destruct (D eq_refl) as (_ & D2 & _).
        destruct (z_rels z1) as [r1|]; [discriminate|]. exfalso. apply D2; congruence.
    + left. injection H as <-. destruct (zremove_nodes_loop_first cs z p z1 ltac:(congruence) E) as (c & l & -> & Hc).
      exists c, l. split; [reflexivity|]. split; [cbn [panics]; apply (zremove_node_panics z p c); by rewrite Hc|]. apply zremove_node_left, Hc.
Qed.

(** The same for the methods of the containers *)
Lemma zderef_put z ns p nd : z_nodes z = Some ns -> zn_heap ns !! p = Some nd ->
  zw_nodes z (Some (ZNodes (zn_lookup ns) (zn_list ns) (<[p := ZNode (zn_name (zderef ns p)) (zn_attrs (zderef ns p))]> (zn_heap ns)) (zn_next ns))) = z.
Proof.
  intros Z H. assert (D : zderef ns p = nd) by (unfold zderef; by rewrite H). rewrite D. replace (ZNode (zn_name nd) (zn_attrs nd)) with nd by (by destruct nd).
  rewrite insert_id by exact H. replace (ZNodes (zn_lookup ns) (zn_list ns) (zn_heap ns) (zn_next ns)) with ns by (by destruct ns). rewrite <- Z. apply zw_nodes_id.
Qed.
Lemma zexec_direct_left o d z z' : fair o -> pointers_ok z -> zpossible z d -> zexec_direct o d z = (z', Panicked) -> left_by_direct o d z z'.
Proof.
  intros Fo PO Ps. destruct d as [n a|p|n|e|n|n|pa ch|pa ch|t op|i sp dp dir]; cbn [zexec_direct left_by_direct].
  - destruct (znodes_add _ _ _ _) as [x r] eqn:E. intros [= <- ->]. apply znodes_add_left in E; [|intros ns0 Z0 lk q K L; eapply PO; eauto]. subst x. apply zw_nodes_id.
  - destruct Ps as (nd & ns & Z & H). rewrite Z. destruct (znodes_add_old _ _ _) as [x r] eqn:E. intros [= <- ->]. unfold znodes_add_old in E.
    destruct (default ∅ (zn_lookup ns) !! zn_name (zderef ns p)) as [q|] eqn:L.
    + destruct (zn_lookup ns) as [lk|] eqn:K; [|cbn in L; unfold id in L; rewrite lookup_empty in L; discriminate]. cbn in L. unfold id in L.
      destruct (PO ns Z _ lk q K L) as [nq Hq]. rewrite zextend_spec in E.
      destruct (o_attrs o 0 _) as [|kv l]; [discriminate|]. destruct (zn_attrs (zderef ns q)) as [b|] eqn:A; [discriminate|]. injection E as <-. rewrite <- A, <- K.
      eapply zderef_put; eauto.
    + destruct (zn_lookup ns) as [lk|] eqn:K; [discriminate|]. injection E as <-. rewrite <- Z. apply zw_nodes_id.
  - destruct (z_nodes z) as [ns|] eqn:Z; cbn [znodes_remove]; [destruct (znodes_remove_loop _ _ _ _); discriminate|]. intros [= <-]. rewrite <- Z. apply zw_nodes_id.
  - destruct (zedges_add _ _) as [es r] eqn:E. intros [= <- ->]. apply zedges_add_left in E. destruct E as [[A B]|[A B]]; [left; auto|right]. split; [exact A|]. rewrite fill_edges, B. reflexivity.
  - destruct (z_subs z) as [ss|] eqn:Z; cbn [zsubs_add].
    + destruct (default ∅ (zs_map ss) !! n), (zs_map ss) eqn:M; try discriminate. intros [= <-]. rewrite <- Z. apply zw_subs_id.
    + intros [= <-]. rewrite <- Z. apply zw_subs_id.
  - destruct (z_subs z) as [ss|] eqn:Z; cbn [zsubs_remove]; [discriminate|]. intros [= <-]. rewrite <- Z. apply zw_subs_id.
  - destruct (zrels_add _ _ _) as [rs r] eqn:R. intros [= <- ->]. split; [exact (zrels_add_left z pa ch rs R)|reflexivity].
  - destruct (z_rels z) as [ss|] eqn:Z; cbn [zrels_remove]; [discriminate|]. intros [= <-]. rewrite <- Z. apply zw_rels_id.
  - destruct t as [|n|n|i|p].
    + destruct (zexec_attr o op (z_attrs z)) as [a r] eqn:E. intros [= <- ->]. apply zexec_attr_panic_same in E. subst a. apply zw_attrs_id.
    + destruct Ps as (a0 & s & (ss & m & Z & M & L) & _). rewrite Z, M. cbn [default from_option id]. unfold id. rewrite L.
      destruct (zexec_attr o op (zs_attrs s)) as [a r] eqn:E. intros [= <- ->]. apply zexec_attr_panic_same in E. subst a. replace (ZSub (zs_attrs s) (zs_name s)) with s by (by destruct s).
      cbn [fmap option_fmap option_map]. rewrite insert_id by exact L. rewrite <- M. replace (ZSubs (zs_map ss)) with ss by (by destruct ss). rewrite <- Z. apply zw_subs_id.
    + destruct Ps as (a0 & nd & (ns & lk & p & Z & K & L & D) & _). rewrite Z, K. cbn [default from_option id]. unfold id. rewrite L.
      destruct (zexec_attr o op (zn_attrs (zderef ns p))) as [a r] eqn:E. intros [= <- ->]. apply zexec_attr_panic_same in E. subst a. rewrite <- K.
      destruct (PO ns Z _ lk p K L) as [nq Hq]. eapply zderef_put; eauto.
    + destruct Ps as (a0 & e & (es & Z & L & _) & _). rewrite Z, L. destruct (zexec_attr o op (ze_attrs e)) as [a [r|]] eqn:E; [discriminate|]. congruence.
    + destruct Ps as (a0 & nd & (ns & Z & H) & _). rewrite Z.
      destruct (zexec_attr o op (zn_attrs (zderef ns p))) as [a r] eqn:E. intros [= <- ->]. apply zexec_attr_panic_same in E. subst a. eapply zderef_put; eauto.
  - destruct Ps as (e & es & Z & L & _). rewrite Z, L. discriminate.
Qed.

(** ** Which maps are nil *)
Definition nils_nodes (x : option znodes) := (nilb x, nilb (x ≫= zn_lookup)).
Definition nils_subs (x : option zsubs) := (nilb x, nilb (x ≫= zs_map)).
Definition nils_rels (x : option zrels) := (nilb x, nilb (x ≫= z_p2c), nilb (x ≫= z_c2p)).
Definition nils_edges (x : option zedges) := (nilb (x ≫= z_s2d), nilb (x ≫= z_d2s)).
Lemma nils_eq z z' : nilb (z_attrs z') = nilb (z_attrs z) -> nils_nodes (z_nodes z') = nils_nodes (z_nodes z) -> nils_subs (z_subs z') = nils_subs (z_subs z) ->
  nils_rels (z_rels z') = nils_rels (z_rels z) -> nilb (z_edges z') = nilb (z_edges z) -> nils z' = nils z.
Proof. unfold nils_nodes, nils_subs, nils_rels, nils. intros -> [= -> ->] [= -> ->] [= -> -> ->] ->. reflexivity. Qed.
Lemma nils_zextend l : forall a, nilb (zextend a l).1 = nilb a.
Proof. intros a. rewrite zextend_spec. destruct l; [reflexivity|]. by destruct a. Qed.
Lemma nils_znodes_add x n a l y r : znodes_add x n a l = (y, r) -> nils_nodes y = nils_nodes x.
Proof.
  destruct x as [ns|]; cbn [znodes_add]; [|by intros [= <- _]]. destruct (default ∅ (zn_lookup ns) !! n) as [p|].
  - destruct (zextend _ _). by intros [= <- _].
  - destruct (zn_lookup ns) eqn:K; intros [= <- _]; unfold nils_nodes; cbn; [by rewrite K|reflexivity].
Qed.
Lemma nils_znodes_remove x n y r : znodes_remove x n = (y, r) -> nils_nodes y = nils_nodes x.
Proof.
  destruct x as [ns|]; cbn [znodes_remove]; [|by intros [= <- _]]. destruct (znodes_remove_loop ns n [] (zn_list ns)) as [ns' [e|]] eqn:E; intros [= <- _].
  - pose proof (znodes_remove_loop_err ns n (zn_list ns) [] e ltac:(by rewrite E)) as X. rewrite E in X. cbn in X. by rewrite (proj1 X).
  - destruct (znodes_remove_loop_shape ns n (zn_list ns) [] ltac:(by rewrite E)) as (a & p & b & _ & _ & X). rewrite E in X. cbn [fst] in X. subst ns'.
    unfold nils_nodes. cbn. by destruct (zn_lookup ns).
Qed.
Lemma nils_zrels_add x p c y r : zrels_add x p c = (y, r) -> nils_rels y = nils_rels x.
Proof.
  destruct x as [rs|]; cbn [zrels_add]; [|by intros [= <- _]]. destruct (z_p2c rs) eqn:A; [|by intros [= <- _]].
  cbn [z_c2p]. destruct (z_c2p rs) eqn:B; intros [= <- _]; unfold nils_rels; cbn; by rewrite A, B.
Qed.
Lemma nils_zrels_remove x p c y r : zrels_remove x p c = (y, r) -> nils_rels y = nils_rels x.
Proof. destruct x as [rs|]; cbn [zrels_remove]; intros [= <- _]; [|reflexivity]. unfold nils_rels. cbn. destruct (z_p2c rs), (z_c2p rs); reflexivity. Qed.
Lemma nils_zsubs_add x n y r : zsubs_add x n = (y, r) -> nils_subs y = nils_subs x.
Proof.
  destruct x as [ss|]; cbn [zsubs_add]; [|by intros [= <- _]]. destruct (default ∅ (zs_map ss) !! n) eqn:L; [by intros [= <- _]|].
  destruct (zs_map ss) eqn:M; intros [= <- _]; unfold nils_subs; cbn; by rewrite M.
Qed.
Lemma nils_zsubs_remove x n y r : zsubs_remove x n = (y, r) -> nils_subs y = nils_subs x.
Proof. destruct x as [ss|]; cbn [zsubs_remove]; intros [= <- _]; [|reflexivity]. unfold nils_subs. cbn. by destruct (zs_map ss). Qed.
Lemma nils_zedges_add x e y r : zedges_add x e = (y, r) -> nilb y = nilb x /\ nils_edges y = nils_edges x.
Proof.
  destruct x as [es|]; cbn [zedges_add]; [|by intros [= <- _]]. unfold zedges_put. destruct (z_s2d es) eqn:A; [|by intros [= <- _]].
  cbn [z_d2s]. destruct (z_d2s es) eqn:B; intros [= <- _]; unfold nils_edges; cbn; by rewrite A, B.
Qed.
Lemma nils_zedges_filter keep x y r : zedges_filter keep x = (y, r) -> nilb y = nilb x.
Proof. destruct x as [es|]; cbn [zedges_filter]; [|by intros [= <- _]]. destruct (zfilter _ _ _) as [a [b|]]; by intros [= <- _]. Qed.
Lemma nils_zattrs_add a f v b r : zattrs_add a f v = (b, r) -> nilb b = nilb a.
Proof. unfold zattrs_add, zadd. destruct (new_attr f); [|by intros [= <- _]]. destruct a; by intros [= <- _]. Qed.
Definition all_nils (z : zgraph) := (nils z, edge_nils z).
Lemma nils_zadd_attr z p f v z' r : zadd_attr z p f v = (z', r) -> all_nils z' = all_nils z.
Proof.
  unfold zadd_attr, all_nils. destruct (str_eqb (z_name z) p).
  - destruct (zattrs_add (z_attrs z) f v) as [a r'] eqn:E. intros [= <- _]. apply nils_zattrs_add in E. f_equal. by apply nils_eq.
  - destruct (z_subs z) as [ss|] eqn:Z; [|by intros [= <- _]]. destruct (default ∅ (zs_map ss) !! p) as [s|]; [|by intros [= <- _]].
    destruct (zattrs_add (zs_attrs s) f v) as [a r']. intros [= <- _]. f_equal. apply nils_eq; try reflexivity. rewrite Z. unfold nils_subs. cbn. by destruct (zs_map ss).
Qed.
Lemma nils_zadd_attrs_loop l : forall z n z' r, zadd_attrs_loop z n l = (z', r) -> all_nils z' = all_nils z.
Proof.
  induction l as [|[k v] l IH]; intros z n z' r; cbn [zadd_attrs_loop]; [by intros [= <- _]|].
  destruct (zadd_attr z n k v) as [z1 [[e|]|]] eqn:E; apply nils_zadd_attr in E; [by intros [= <- _]| |by intros [= <- _]].
  intros H. rewrite (IH _ _ _ _ H). exact E.
Qed.
Lemma nils_zremove_node z p n z' r : zremove_node z p n = (z', r) -> nils z' = nils z.
Proof.
  unfold zremove_node. destruct (znodes_remove (z_nodes z) n) as [ns [[e|]|]] eqn:E; apply nils_znodes_remove in E.
  - by intros [= <- _].
  - cbn [zw_nodes z_rels]. destruct (zrels_remove (z_rels z) p n) as [rs [r1|]] eqn:R; apply nils_zrels_remove in R.
    + cbn [zw_rels zw_nodes z_edges]. destruct (zedges_filter _ (z_edges z)) as [es r'] eqn:F. apply nils_zedges_filter in F. intros [= <- _]. by apply nils_eq.
    + intros [= <- _]. by apply nils_eq.
  - intros [= <- _]. by apply nils_eq.
Qed.
Lemma nils_zremove_nodes_loop l : forall z p z' r, zremove_nodes_loop z p l = (z', r) -> nils z' = nils z.
Proof.
  induction l as [|c l IH]; intros z p z' r; cbn [zremove_nodes_loop]; [by intros [= <- _]|].
  destruct (zremove_node z p c) as [z1 [[e|]|]] eqn:E; apply nils_zremove_node in E; [by intros [= <- _]| |by intros [= <- _]].
  intros H. rewrite (IH _ _ _ _ H). exact E.
Qed.
Lemma zexec_nils o c z z' r : zexec o c z = (z', r) -> nils z' = nils z /\ (~ is_removal c -> edge_nils z' = edge_nils z).
Proof.
  assert (AE : forall s sp d dp dir m, zadd_port_edge o z s sp d dp dir m = (z', r) -> all_nils z' = all_nils z).
  { intros s sp d dp dir m. unfold zadd_port_edge. destruct (new_attrs _); [|by intros [= <- _]]. destruct (zedges_add _ _) as [es r'] eqn:E. intros [= <- _].
    apply nils_zedges_add in E. destruct E as [A B]. unfold all_nils. f_equal; [by apply nils_eq|]. unfold nils_edges in B. injection B as B1 B2. unfold edge_nils. cbn. by rewrite B1, B2. }
  destruct c as [b|b|n|s sp d dp dir m|s d dir m|p n m|p f v|p n m|p n|p n]; cbn [zexec is_removal].
  - intros [= <- _]. auto.
  - intros [= <- _]. auto.
  - intros [= <- _]. auto.
  - intros H. apply AE in H. injection H as H1 H2 H3. unfold nils, edge_nils. split; congruence.
  - intros H. apply AE in H. injection H as H1 H2 H3. unfold nils, edge_nils. split; congruence.
  - unfold zadd_node. destruct (new_attrs _); [|by intros [= <- _]]. destruct (znodes_add _ _ _ _) as [ns [r1|]] eqn:E; apply nils_znodes_add in E.
    + cbn [zw_nodes z_rels]. destruct (zrels_add _ _ _) as [rs r'] eqn:R. apply nils_zrels_add in R. intros [= <- _]. split; [by apply nils_eq|reflexivity].
    + intros [= <- _]. split; [by apply nils_eq|reflexivity].
  - intros H. apply nils_zadd_attr in H. unfold all_nils in H. split; [|intros _]; congruence.
  - unfold zadd_subgraph. destruct (zrels_add _ _ _) as [rs [r1|]] eqn:R; apply nils_zrels_add in R.
    + cbn [zw_rels z_subs]. destruct (zsubs_add _ _) as [ss [r2|]] eqn:S0; apply nils_zsubs_add in S0.
      * intros H. apply nils_zadd_attrs_loop in H. pose proof (f_equal fst H) as H1. pose proof (f_equal snd H) as H2. cbn [fst snd all_nils] in H1, H2. split; [|intros _; exact H2].
        rewrite H1. by apply nils_eq.
      * intros [= <- _]. split; [by apply nils_eq|reflexivity].
    + intros [= <- _]. split; [by apply nils_eq|reflexivity].
  - intros H. split; [eapply nils_zremove_node; eauto|tauto].
  - intros H. split; [|tauto]. unfold zremove_subgraph in H. destruct (z_rels z) as [r0|] eqn:R0; [|congruence].
    destruct (zremove_nodes_loop _ _ _) as [z1 [[e|]|]] eqn:E; apply nils_zremove_nodes_loop in E; [congruence| |congruence].
    rewrite <- E. destruct (zrels_remove (z_rels z1) p n) as [rs [r1|]] eqn:R; apply nils_zrels_remove in R.
    + cbn [zw_rels z_subs] in H. destruct (zsubs_remove (z_subs z1) n) as [ss [r2|]] eqn:F; apply nils_zsubs_remove in F.
      * cbn [zw_rels zw_subs z_edges] in H. destruct (zedges_filter _ (z_edges z1)) as [es r'] eqn:G. apply nils_zedges_filter in G. injection H as <- _. by apply nils_eq.
      * injection H as <- _. by apply nils_eq.
    + injection H as <- _. by apply nils_eq.
Qed.
