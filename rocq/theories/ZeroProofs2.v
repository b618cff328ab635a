(** Proofs for C74, continued: calls on containers, which calls panic, graphs without nil. *)
From Verif Require Import Base Parser Maps MapFacts Graph SpecGraph GraphProofs AttrMap Direct Zero SpecZero ZeroProofs.

Lemma plain_edges_set es i e : is_Some (z_s2d es) -> is_Some (z_d2s es) ->
  plain_edges (Some (zedges_set es i e)) = edges_set (plain_edges (Some es)) i (plain_edge e).
Proof.
  intros A B. unfold zedges_set, edges_set. cbn [plain_edges z_s2d z_d2s ze_list src_to_dsts dst_to_srcs edges_list e_src e_dst plain_edge].
  rewrite !plain_index_set by (apply not_eq_None_Some; assumption). change (@map zedge edge) with (@fmap list _ zedge edge). rewrite list_fmap_insert.
  rewrite <- fmap_take. change (@fmap list _ zedge edge) with (@map zedge edge).
  change (Edge (ze_src e) (ze_src_port e) (ze_dst e) (ze_dst_port e) (ze_dir e) (plain_attrs (ze_attrs e))) with (plain_edge e).
  rewrite zsame_ends_plain, map_length. reflexivity.
Qed.
Lemma plain_nodes_set ns p a : plain_nodes (Some (ZNodes (zn_lookup ns) (zn_list ns) (<[p := ZNode (zn_name (zderef ns p)) a]> (zn_heap ns)) (zn_next ns))) =
  nodes_set_attrs (plain_nodes (Some ns)) p (plain_attrs a).
Proof. unfold nodes_set_attrs. rewrite plain_deref_name. cbn [plain_nodes zn_lookup zn_list zn_heap zn_next nodes_lookup nodes_list nodes_heap nodes_next]. by rewrite fmap_insert. Qed.

Lemma zpossible_possible z d : zpossible z d -> possible (fill z) (plain_direct d).
Proof.
  destruct d as [n a|p|n|e|n|n|pa ch|pa ch|t op|i sp dp dir]; try exact (fun _ => Logic.I); cbn [zpossible plain_direct possible].
  - intros (nd & ns & E & H). cbn [fill g_nodes]. rewrite E. cbn [plain_nodes nodes_heap]. rewrite lookup_fmap, H. eauto.
  - destruct t as [|n|n|i|p]; cbn [target_attrs]; [done|..].
    + intros (a & s & (ss & m & E & M & L) & _). cbn [fill g_subs]. rewrite E. cbn [plain_subs]. rewrite lookup_fmap, M. cbn. unfold id. rewrite L. eauto.
    + intros (a & nd & (ns & lk & p & E & K & L & _) & _). cbn [fill g_nodes]. rewrite E. cbn [plain_nodes nodes_lookup]. rewrite K. cbn. unfold id. rewrite L. eauto.
    + intros (a & e & (es & E & L & _) & _). cbn [fill g_edges]. rewrite E. cbn [plain_edges edges_list].
      change (@map zedge edge) with (@fmap list _ zedge edge). rewrite list_lookup_fmap, L. eauto.
    + intros (a & nd & (ns & E & H) & _). cbn [fill g_nodes]. rewrite E. cbn [plain_nodes nodes_heap]. rewrite lookup_fmap, H. eauto.
  - intros (e & es & E & L & _). cbn [fill g_edges]. rewrite E. cbn [plain_edges edges_list].
    change (@map zedge edge) with (@fmap list _ zedge edge). rewrite list_lookup_fmap, L. eauto.
Qed.

Lemma zexec_direct_agrees o d z z' r : zpossible z d -> zexec_direct o d z = (z', Done r) -> exec_direct o (plain_direct d) (fill z) = (fill z', r).
Proof.
  intros Ps. destruct d as [n a|p|n|e|n|n|pa ch|pa ch|t op|i sp dp dir]; cbn [zexec_direct plain_direct exec_direct].
  - destruct (znodes_add (z_nodes z) n a (o_attrs o 0 (default ∅ a))) as [x r'] eqn:E. intros [= <- ->].
    apply znodes_add_agrees in E; [|by intros b ->]. destruct E as [-> E]. rewrite fill_nodes, <- E. reflexivity.
  - destruct Ps as (nd & ns & Z & H). rewrite Z.
    destruct (znodes_add_old (Some ns) p (o_attrs o 0 (default ∅ (zn_attrs (zderef ns p))))) as [x r'] eqn:E. intros [= <- ->].
    apply znodes_add_old_agrees in E. destruct E as [-> E]. rewrite fill_nodes, <- E. cbn [fill g_nodes]. rewrite Z, plain_deref_attrs. reflexivity.
  - destruct (znodes_remove (z_nodes z) n) as [x r'] eqn:E. intros [= <- ->]. apply znodes_remove_agrees in E.
    change (g_nodes (fill z)) with (plain_nodes (z_nodes z)). rewrite E, fill_nodes. reflexivity.
  - destruct (z_edges z) as [es|] eqn:Z; [|discriminate]. cbn [zedges_add]. destruct (zedges_put es e) as [es' [r'|]] eqn:E; [|discriminate].
    intros [= <- <-]. apply zedges_put_agrees in E. destruct E as [-> E]. rewrite fill_edges, E. cbn [fill g_edges]. rewrite Z. reflexivity.
  - destruct (zsubs_add (z_subs z) n) as [x r'] eqn:E. intros [= <- ->]. apply zsubs_add_agrees in E. destruct E as [-> E]. rewrite fill_subs, E. reflexivity.
  - destruct (zsubs_remove (z_subs z) n) as [x r'] eqn:E. intros [= <- ->]. apply zsubs_remove_agrees in E. destruct E as [-> E]. rewrite fill_subs, E. reflexivity.
  - destruct (zrels_add (z_rels z) pa ch) as [x r'] eqn:E. intros [= <- ->]. apply zrels_add_agrees in E. destruct E as [-> E]. rewrite fill_rels, E. reflexivity.
  - destruct (zrels_remove (z_rels z) pa ch) as [x r'] eqn:E. intros [= <- ->]. apply zrels_remove_agrees in E. destruct E as [-> E]. rewrite fill_rels, E. reflexivity.
  - destruct t as [|n|n|i|p].
    + destruct (zexec_attr o op (z_attrs z)) as [a r'] eqn:E. intros [= <- ->]. apply zexec_attr_agrees in E.
      change (g_attrs (fill z)) with (plain_attrs (z_attrs z)). rewrite E, fill_attrs. reflexivity.
    + destruct Ps as (a0 & s & (ss & m & Z & M & L) & _). rewrite Z, M. cbn [default from_option id]. unfold id. rewrite L.
      destruct (zexec_attr o op (zs_attrs s)) as [a r'] eqn:E. intros [= <- ->]. apply zexec_attr_agrees in E.
      assert (X : g_subs (fill z) = plain_sub <$> m) by (cbn [fill g_subs]; rewrite Z; cbn [plain_subs]; rewrite M; reflexivity).
      rewrite X, lookup_fmap, L. cbn [fmap option_fmap option_map].
      change (sub_attrs (plain_sub s)) with (plain_attrs (zs_attrs s)). rewrite E. rewrite fill_subs. f_equal. f_equal.
      cbn [plain_subs zs_map fmap option_fmap option_map default from_option id]. unfold id. rewrite fmap_insert. reflexivity.
    + destruct Ps as (a0 & nd & (ns & lk & p & Z & K & L & D) & _). rewrite Z, K. cbn [default from_option id]. unfold id. rewrite L.
      destruct (zexec_attr o op (zn_attrs (zderef ns p))) as [a r'] eqn:E. intros [= <- ->]. apply zexec_attr_agrees in E.
      rewrite <- plain_deref_attrs in E. replace (g_nodes (fill z)) with (plain_nodes (Some ns)) by (cbn [fill g_nodes]; by rewrite Z).
      replace (nodes_lookup (plain_nodes (Some ns)) !! n) with (Some p) by (cbn [plain_nodes nodes_lookup]; rewrite K; symmetry; exact L).
      rewrite E, fill_nodes, <- K, plain_nodes_set. reflexivity.
    + destruct Ps as (a0 & e & (es & Z & L & A & B) & _). rewrite Z, L.
      destruct (zexec_attr o op (ze_attrs e)) as [a [r'|]] eqn:E; [|discriminate]. intros [= <- ->]. apply zexec_attr_agrees in E.
      replace (g_edges (fill z)) with (plain_edges (Some es)) by (cbn [fill g_edges]; by rewrite Z).
      replace (edges_list (plain_edges (Some es)) !! i) with (Some (plain_edge e)).
      2:{ cbn [plain_edges edges_list]. change (@map zedge edge) with (@fmap list _ zedge edge). by rewrite list_lookup_fmap, L. }
      change (e_attrs (plain_edge e)) with (plain_attrs (ze_attrs e)). rewrite E, fill_edges, plain_edges_set by assumption. reflexivity.
    + destruct Ps as (a0 & nd & (ns & Z & H) & _). rewrite Z.
      destruct (zexec_attr o op (zn_attrs (zderef ns p))) as [a r'] eqn:E. intros [= <- ->]. apply zexec_attr_agrees in E.
      rewrite <- plain_deref_attrs in E. replace (g_nodes (fill z)) with (plain_nodes (Some ns)) by (cbn [fill g_nodes]; by rewrite Z).
      rewrite E, fill_nodes, plain_nodes_set. reflexivity.
  - destruct Ps as (e & es & Z & L & A & B). rewrite Z, L. intros [= <- <-].
    replace (g_edges (fill z)) with (plain_edges (Some es)) by (cbn [fill g_edges]; by rewrite Z).
    replace (edges_list (plain_edges (Some es)) !! i) with (Some (plain_edge e)).
    2:{ cbn [plain_edges edges_list]. change (@map zedge edge) with (@fmap list _ zedge edge). by rewrite list_lookup_fmap, L. }
    rewrite fill_edges, plain_edges_set by assumption. reflexivity.
Qed.

(** ** Which operations panic *)
Lemma znodes_add_panics (z : zgraph) (n : gostr) (a : option attrs) (o : oracle) (i : nat) (m : attrs) : fair o ->
  (znodes_add (z_nodes z) n a (o_attrs o i m)).2 = Panicked <-> nodes_nil z \/ (nil_node z n /\ m <> ∅).
Proof.
  intros Fo. unfold nodes_nil, nil_node, node_at. destruct (z_nodes z) as [ns|] eqn:Z; cbn [znodes_add].
  2:{ cbn [snd]. split; [left; discriminate|reflexivity]. }
  destruct (zn_lookup ns) as [lk|] eqn:K.
  - cbn [default from_option id]. unfold id. destruct (lk !! n) as [p|] eqn:L.
    + rewrite zextend_spec. pose proof (order_nil o i m Fo) as N. destruct (o_attrs o i m) as [|kv l].
      * cbn [snd]. split; [discriminate|]. intros [H|[_ H]]; [specialize (H _ eq_refl); congruence|]. exfalso. apply H, N. reflexivity.
      * destruct (zn_attrs (zderef ns p)) as [b|] eqn:A; cbn [snd].
        -- split; [discriminate|]. intros [H|[(nd & (ns' & lk' & p' & [= <-] & K' & L' & <-) & A') _]]; [specialize (H _ eq_refl); congruence|].
           rewrite K in K'. injection K' as <-. rewrite L in L'. injection L' as <-. congruence.
        -- split; [|reflexivity]. intros _. right. split; [exists (zderef ns p); split; [exists ns, lk, p; auto|exact A]|].
           intros ->. assert (X : kv :: l = []) by (apply N; reflexivity). discriminate.
    + cbn [snd]. split; [discriminate|]. intros [H|[(nd & (ns' & lk' & p' & [= <-] & K' & L' & _) & _) _]]; [specialize (H _ eq_refl); congruence|].
      rewrite K in K'. injection K' as <-. congruence.
  - cbn [default from_option id]. unfold id. rewrite lookup_empty. cbn [snd]. split; [|reflexivity]. intros _. left. intros ns' [= <-]. exact K.
Qed.
Lemma znodes_add_old_panics (z : zgraph) (ns : znodes) (p : nat) (nd : znode) (o : oracle) (i : nat) : fair o -> z_nodes z = Some ns -> zn_heap ns !! p = Some nd ->
  (znodes_add_old (Some ns) p (o_attrs o i (default ∅ (zn_attrs (zderef ns p))))).2 = Panicked <->
  nodes_nil z \/ (nil_node z (zn_name nd) /\ plain_attrs (zn_attrs nd) <> ∅).
Proof.
  intros Fo Z H. assert (D : zderef ns p = nd) by (unfold zderef; by rewrite H). rewrite D.
  rewrite <- (znodes_add_panics z (zn_name nd) (Some ∅) o i (plain_attrs (zn_attrs nd)) Fo). rewrite Z. unfold znodes_add_old, znodes_add. rewrite D.
  unfold plain_attrs. destruct (default ∅ (zn_lookup ns) !! zn_name nd) as [q|].
  - destruct (zextend _ _) as [b r]. reflexivity.
  - destruct (zn_lookup ns); reflexivity.
Qed.
Lemma znodes_remove_panics x n : (znodes_remove x n).2 = Panicked <-> x = None.
Proof. destruct x as [ns|]; cbn [znodes_remove]; [|cbn; tauto]. destruct (znodes_remove_loop ns n [] (zn_list ns)). cbn [snd]. split; discriminate. Qed.
Lemma zedges_add_panics z e : (zedges_add (z_edges z) e).2 = Panicked <-> edges_nil z.
Proof.
  unfold edges_nil. destruct (z_edges z) as [es|]; cbn [zedges_add].
  - pose proof (zedges_put_panics es e) as H. destruct (zedges_put es e) as [es' r]. cbn [snd] in *. rewrite H. split; [intros X es0 [= <-]; exact X|intros X; exact (X _ eq_refl)].
  - cbn [snd]. split; [discriminate|reflexivity].
Qed.
Lemma zsubs_add_panics z n : (zsubs_add (z_subs z) n).2 = Panicked <-> subs_nil z.
Proof.
  unfold subs_nil. destruct (z_subs z) as [ss|]; cbn [zsubs_add]; [|cbn [snd]; split; [discriminate|reflexivity]].
  destruct (zs_map ss) as [m|] eqn:M; cbn [default from_option id]; unfold id.
  - destruct (m !! n); cbn [snd]; (split; [discriminate|intros H; specialize (H _ eq_refl); congruence]).
  - rewrite lookup_empty. cbn [snd]. split; [intros _ s [= <-]; exact M|reflexivity].
Qed.
Lemma zsubs_remove_panics x n : (zsubs_remove x n).2 = Panicked <-> x = None.
Proof. destruct x; cbn [zsubs_remove snd]; split; try discriminate; reflexivity. Qed.
Lemma zrels_add_panics z p c : (zrels_add (z_rels z) p c).2 = Panicked <-> rels_nil z.
Proof.
  unfold rels_nil. destruct (z_rels z) as [r|]; cbn [zrels_add]; [|cbn [snd]; split; [discriminate|reflexivity]].
  destruct (z_p2c r) as [m|] eqn:A; [|cbn [snd]; split; [intros _ x [= <-]; auto|reflexivity]]. cbn [z_c2p].
  destruct (z_c2p r) as [m'|] eqn:B; cbn [snd]; [|split; [intros _ x [= <-]; auto|reflexivity]].
  split; [discriminate|]. intros H. specialize (H _ eq_refl). rewrite A, B in H. destruct H; discriminate.
Qed.
Lemma zrels_remove_panics x p c : (zrels_remove x p c).2 = Panicked <-> x = None.
Proof. destruct x; cbn [zrels_remove snd]; split; try discriminate; reflexivity. Qed.

Lemma zexec_direct_panics o d z : fair o -> zpossible z d -> (zexec_direct o d z).2 = Panicked <-> panics_direct d z.
Proof.
  intros Fo Ps. destruct d as [n a|p|n|e|n|n|pa ch|pa ch|t op|i sp dp dir]; cbn [zexec_direct panics_direct].
  - pose proof (znodes_add_panics z n a o 0 (plain_attrs a) Fo) as H. unfold plain_attrs in *.
    destruct (znodes_add (z_nodes z) n a (o_attrs o 0 (default ∅ a))) as [x r]. exact H.
  - destruct Ps as (nd & ns & Z & H). rewrite Z. pose proof (znodes_add_old_panics z ns p nd o 0 Fo Z H) as P.
    destruct (znodes_add_old (Some ns) p (o_attrs o 0 (default ∅ (zn_attrs (zderef ns p))))) as [x r]. cbn [snd] in *. rewrite P. split.
    + intros Q. exists nd. split; [exists ns; auto|exact Q].
    + intros (nd' & (ns' & Z' & H') & Q). rewrite Z in Z'. injection Z' as <-. rewrite H in H'. injection H' as <-. exact Q.
  - pose proof (znodes_remove_panics (z_nodes z) n) as H. destruct (znodes_remove (z_nodes z) n). exact H.
  - pose proof (zedges_add_panics z e) as H. destruct (zedges_add (z_edges z) e). exact H.
  - pose proof (zsubs_add_panics z n) as H. destruct (zsubs_add (z_subs z) n). exact H.
  - pose proof (zsubs_remove_panics (z_subs z) n) as H. destruct (zsubs_remove (z_subs z) n). exact H.
  - pose proof (zrels_add_panics z pa ch) as H. destruct (zrels_add (z_rels z) pa ch). exact H.
  - pose proof (zrels_remove_panics (z_rels z) pa ch) as H. destruct (zrels_remove (z_rels z) pa ch). exact H.
  - destruct t as [|n|n|i|p]; cbn [target_attrs].
    + pose proof (zexec_attr_panics o op (z_attrs z) Fo) as H. destruct (zexec_attr o op (z_attrs z)). cbn [snd] in *. rewrite H. intuition congruence.
    + destruct Ps as (a0 & s & (ss & m & Z & M & L) & _). rewrite Z, M. cbn [default from_option id]. unfold id. rewrite L.
      pose proof (zexec_attr_panics o op (zs_attrs s) Fo) as H. destruct (zexec_attr o op (zs_attrs s)). cbn [snd] in *. rewrite H. split.
      * intros [A W]. split; [|exact W]. exists s. split; [exists ss, m; auto|congruence].
      * intros [(s' & (ss' & m' & Z' & M' & L') & A) W]. rewrite Z in Z'. injection Z' as <-. rewrite M in M'. injection M' as <-. rewrite L in L'. injection L' as <-. auto.
    + destruct Ps as (a0 & nd & (ns & lk & p & Z & K & L & D) & _). rewrite Z, K. cbn [default from_option id]. unfold id. rewrite L.
      pose proof (zexec_attr_panics o op (zn_attrs (zderef ns p)) Fo) as H. destruct (zexec_attr o op (zn_attrs (zderef ns p))). cbn [snd] in *. rewrite H. split.
      * intros [A W]. split; [|exact W]. exists (zderef ns p). split; [exists ns, lk, p; auto|congruence].
      * intros [(s' & (ss' & m' & p' & Z' & M' & L' & <-) & A) W]. rewrite Z in Z'. injection Z' as <-. rewrite K in M'. injection M' as <-. rewrite L in L'. injection L' as <-. auto.
    + destruct Ps as (a0 & e & (es & Z & L & AB) & _). rewrite Z, L.
      pose proof (zexec_attr_panics o op (ze_attrs e) Fo) as H. destruct (zexec_attr o op (ze_attrs e)) as [b [y|]]; cbn [snd] in *; rewrite H; split.
      * intros [A W]. split; [|exact W]. exists e. split; [exists es; auto|congruence].
      * intros [(s' & (ss' & Z' & L' & _) & A) W]. rewrite Z in Z'. injection Z' as <-. rewrite L in L'. injection L' as <-. auto.

      * intros [A W]. split; [|exact W]. exists e. split; [exists es; auto|congruence].
      * intros [(s' & (ss' & Z' & L' & _) & A) W]. rewrite Z in Z'. injection Z' as <-. rewrite L in L'. injection L' as <-. auto.
    + destruct Ps as (a0 & nd & (ns & Z & Hp) & _). rewrite Z. assert (D : zderef ns p = nd) by (unfold zderef; by rewrite Hp).
      pose proof (zexec_attr_panics o op (zn_attrs (zderef ns p)) Fo) as H. destruct (zexec_attr o op (zn_attrs (zderef ns p))). cbn [snd] in *. rewrite H, D. split.
      * intros [A W]. split; [|exact W]. exists nd. split; [exists ns; auto|congruence].
      * intros [(s' & (ss' & Z' & L') & A) W]. rewrite Z in Z'. injection Z' as <-. rewrite Hp in L'. injection L' as <-. auto.
  - destruct Ps as (e & es & Z & L & _). rewrite Z, L. cbn [snd]. split; [discriminate|contradiction].
Qed.

Lemma zadd_attr_panics z p f v : (zadd_attr z p f v).2 = Panicked <-> (z_name z <> p /\ z_subs z = None) \/ (nil_owner z p /\ valid_attr f).
Proof.
  unfold zadd_attr, nil_owner, nil_sub, sub_at. destruct (str_eqb (z_name z) p) eqn:E.
  - apply str_eqb_eq in E. destruct (zattrs_add (z_attrs z) f v) as [a [r|]] eqn:A; cbn [snd].
    + split; [discriminate|]. intros [[N _]|[[[_ N]|[N _]] V]]; try contradiction. rewrite N in A.
      assert (X : zattrs_add None f v = (None, Panicked)) by (apply zattrs_add_panics; auto). congruence.
    + apply zattrs_add_panics in A. destruct A as (_ & A & V). split; [|reflexivity]. intros _. right. auto.
  - assert (N : z_name z <> p) by (intros X; rewrite X, str_eqb_refl in E; discriminate).
    destruct (z_subs z) as [ss|] eqn:Z; [|cbn [snd]; split; [auto|reflexivity]].
    destruct (default ∅ (zs_map ss) !! p) as [s|] eqn:L.
    + destruct (zs_map ss) as [m|] eqn:M; [|discriminate L]. cbn [default from_option id] in L. unfold id in L.
      destruct (zattrs_add (zs_attrs s) f v) as [a [r|]] eqn:A; cbn [snd].
      * split; [discriminate|]. intros [[_ X]|[[[X _]|[_ (s' & (ss' & m' & [= <-] & M' & L') & A')]] V]]; [discriminate|contradiction|].
        rewrite M in M'. injection M' as <-. rewrite L in L'. injection L' as <-. rewrite A' in A.
        assert (X : zattrs_add None f v = (None, Panicked)) by (apply zattrs_add_panics; auto). congruence.
      * apply zattrs_add_panics in A. destruct A as (_ & A & V). split; [|reflexivity]. intros _. right. split; [|exact V]. right. split; [exact N|].
        exists s. split; [exists ss, m; auto|exact A].
    + cbn [snd]. split; [discriminate|]. intros [[_ X]|[[[X _]|[_ (s' & (ss' & m' & [= <-] & M' & L') & A')]] V]]; [discriminate|contradiction|].
      rewrite M' in L. cbn in L. unfold id in L. congruence.
Qed.
Lemma zadd_attr_ok_keeps z p f v z' : zadd_attr z p f v = (z', Done None) ->
  z_name z' = z_name z /\ z_subs z' <> None /\ ~ nil_owner z' p \/ z_name z = p /\ z_name z' = z_name z /\ ~ nil_owner z' p.
Proof.
  unfold zadd_attr. destruct (str_eqb (z_name z) p) eqn:E.
  - apply str_eqb_eq in E. destruct (z_attrs z) as [a|] eqn:A.
    + unfold zattrs_add. destruct (new_attr f); [|discriminate]. cbn [zadd]. intros [= <-]. right. split; [exact E|]. split; [reflexivity|].
      intros [[_ X]|[X _]]; [discriminate|contradiction].
    + unfold zattrs_add. destruct (new_attr f); discriminate.
  - assert (N : z_name z <> p) by (intros X; rewrite X, str_eqb_refl in E; discriminate). destruct (z_subs z) as [ss|] eqn:Z; [|discriminate].
    destruct (default ∅ (zs_map ss) !! p) as [s|] eqn:L; [|discriminate].
    unfold zattrs_add. destruct (new_attr f); [|discriminate]. destruct (zs_attrs s) as [b|]; [|discriminate]. cbn [zadd]. intros [= <-].
    left. split; [reflexivity|]. split; [discriminate|]. intros [[X _]|[_ (s' & (ss' & m' & [= <-] & M' & L') & A')]]; [contradiction|].
    cbn [zs_map] in M'. destruct (zs_map ss) as [m|]; [|discriminate]. cbn in M'. injection M' as <-. rewrite lookup_insert in L'. injection L' as <-. discriminate.
Qed.
Lemma zadd_attrs_loop_no l : forall z n, (z_name z = n \/ z_subs z <> None) -> ~ nil_owner z n -> (zadd_attrs_loop z n l).2 <> Panicked.
Proof.
  induction l as [|[k v] l IH]; intros z n S0 H; cbn [zadd_attrs_loop]; [discriminate|].
  destruct (zadd_attr z n k v) as [z1 [[e|]|]] eqn:E.
  - discriminate.
  - destruct (zadd_attr_ok_keeps z n k v z1 E) as [(A & B & C)|(A & B & C)]; apply IH; auto. left. congruence.
  - exfalso. pose proof (proj1 (zadd_attr_panics z n k v)) as P. rewrite E in P. specialize (P eq_refl). destruct P as [[P1 P2]|[P _]]; [|contradiction]. destruct S0; contradiction.
Qed.
Lemma zadd_subgraph_panics o z p n m : fair o ->
  (zadd_subgraph o z p n m).2 = Panicked <-> rels_nil z \/ subs_nil z \/ (nil_owner z n /\ exists f v l, o_attrs o 0 m = (f, v) :: l /\ valid_attr f).
Proof.
  intros Fo. unfold zadd_subgraph. pose proof (zrels_add_panics z p n) as PR. destruct (zrels_add (z_rels z) p n) as [rs [r1|]] eqn:R.
  2:{ cbn [snd] in *. tauto. }
  assert (NR : ~ rels_nil z) by (rewrite <- PR; discriminate). clear PR.
  pose proof (zsubs_add_panics z n) as PS. cbn [zw_rels z_subs]. destruct (zsubs_add (z_subs z) n) as [ss [r2|]] eqn:E.
  2:{ cbn [snd] in *. tauto. }
  assert (NS : ~ subs_nil z) by (rewrite <- PS; discriminate). clear PS.
  set (z2 := zw_subs (zw_rels z rs) ss).
  assert (H2 : z_subs z2 <> None).
  { unfold z2. cbn [zw_subs z_subs]. destruct (z_subs z) as [x|]; [|discriminate]. unfold zsubs_add in E.
    destruct (default ∅ (zs_map x) !! n), (zs_map x); try discriminate; injection E as <- _; discriminate. }
  assert (O2 : nil_owner z2 n <-> nil_owner z n).
  { unfold nil_owner, nil_sub, sub_at, z2. cbn [zw_subs zw_rels z_name z_attrs z_subs]. apply Morphisms_Prop.or_iff_morphism; [reflexivity|].
    apply Morphisms_Prop.and_iff_morphism; [reflexivity|].
    destruct (z_subs z) as [x|]; [|discriminate]. unfold zsubs_add in E. destruct (zs_map x) as [mm|] eqn:M.
    - cbn [default from_option id] in E. unfold id in E. destruct (mm !! n) as [s0|] eqn:L; injection E as <- _.
      + reflexivity.
      + split.
        * intros (s & (ss' & m' & [= <-] & [= <-] & L') & A). rewrite lookup_insert in L'. injection L' as <-. discriminate.
        * intros (s & (ss' & m' & [= <-] & M' & L') & A). rewrite M in M'. injection M' as <-. congruence.
    - cbn [default from_option id] in E. unfold id in E. rewrite lookup_empty in E. discriminate. }
  destruct (o_attrs o 0 m) as [|[f v] l] eqn:OA.
  { cbn [zadd_attrs_loop snd]. split; [discriminate|]. intros [?|[?|[_ (f & v & l & X & _)]]]; [contradiction|contradiction|discriminate]. }
  cbn [zadd_attrs_loop].
  destruct (zadd_attr z2 n f v) as [z3 [[e|]|]] eqn:A.
  - cbn [snd]. split; [discriminate|]. intros [?|[?|[O (f' & v' & l' & [= -> -> ->] & V)]]]; [contradiction|contradiction|]. exfalso.
    assert (X : (zadd_attr z2 n f' v').2 = Panicked) by (apply zadd_attr_panics; right; split; [by apply O2|exact V]). rewrite A in X. discriminate.
  - split.
    + intros X. exfalso. revert X. destruct (zadd_attr_ok_keeps z2 n f v z3 A) as [(B & C & D)|(B & C & D)]; apply zadd_attrs_loop_no; auto. left. congruence.
    + intros [?|[?|[O (f' & v' & l' & [= -> -> ->] & V)]]]; [contradiction|contradiction|]. exfalso.
      assert (X : (zadd_attr z2 n f' v').2 = Panicked) by (apply zadd_attr_panics; right; split; [by apply O2|exact V]). rewrite A in X. discriminate.
  - cbn [snd]. split; [|reflexivity]. intros _. right. right. pose proof (proj1 (zadd_attr_panics z2 n f v)) as P. rewrite A in P. specialize (P eq_refl).
    destruct P as [[_ P]|[P V]]; [contradiction|]. split; [by apply O2|]. exists f, v, l. auto.
Qed.
Lemma zremove_node_panics z p n : (zremove_node z p n).2 = Panicked <-> z_nodes z = None \/ (listed z n /\ (z_rels z = None \/ z_edges z = None)).
Proof.
  unfold zremove_node, listed. destruct (z_nodes z) as [ns|] eqn:Z; [|cbn [znodes_remove snd]; tauto]. cbn [znodes_remove].
  pose proof (znodes_remove_loop_found ns n (zn_list ns) []) as F. destruct (znodes_remove_loop ns n [] (zn_list ns)) as [ns' [e|]]; cbn [snd] in F.
  - cbn [snd]. split; [discriminate|]. intros [?|[(ns0 & q & [= <-] & H1 & H2) _]]; [discriminate|]. exfalso. assert (X : Some e = None) by (apply F; eauto). discriminate.
  - pose proof (proj1 F eq_refl) as (q & H1 & H2). clear F. assert (Li : exists (ns0 : znodes) (p0 : nat), Some ns = Some ns0 /\ p0 ∈ zn_list ns0 /\ zn_name (zderef ns0 p0) = n) by (exists ns, q; auto).
    cbn [zw_nodes z_rels]. pose proof (zrels_remove_panics (z_rels z) p n) as PR. destruct (zrels_remove (z_rels z) p n) as [rs [r|]]; cbn [snd] in PR.
    + cbn [zw_rels z_edges zw_nodes]. match goal with |- context [zedges_filter ?k (z_edges z)] => pose proof (zedges_filter_panics k (z_edges z)) as PE; destruct (zedges_filter k (z_edges z)) as [es r'] end.
      cbn [snd] in *. rewrite PE. split; [auto|]. intros [?|[_ [X|X]]]; [discriminate| |exact X]. apply PR in X. discriminate.
    + cbn [snd]. split; [|reflexivity]. intros _. right. split; [exact Li|]. left. apply PR. reflexivity.
Qed.
