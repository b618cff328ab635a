(** Proofs for C74: writing a graph with nil. *)
From Coq Require Import Sorting.Sorted.
From Verif Require Import Base Parser Maps MapFacts Graph SpecGraph GraphProofs AttrMap Direct Write Zero SpecZero ZeroProofs.
From Verif Require Ast.

(** ** With all containers: nil attributes and nil maps read as empty ones *)
Section Same.
  Variable o : oracle.
  Variable z : zgraph.
  Variable ns : znodes.
  Variable ss : zsubs.
  Variable rs : zrels.
  Hypothesis Hns : z_nodes z = Some ns.
  Hypothesis Hss : z_subs z = Some ss.
  Hypothesis Hrs : z_rels z = Some rs.
  Notation g := (fill z).

  Lemma g_nodes_eq : g_nodes g = plain_nodes (Some ns). Proof. cbn [fill g_nodes]. by rewrite Hns. Qed.
  Lemma g_look n : nodes_lookup (g_nodes g) !! n = default ∅ (zn_lookup ns) !! n. Proof. by rewrite g_nodes_eq. Qed.
  Lemma g_sub n : g_subs g !! n = plain_sub <$> (default ∅ (zs_map ss) !! n).
  Proof. cbn [fill g_subs]. rewrite Hss. cbn [plain_subs]. by rewrite lookup_fmap. Qed.
  Lemma g_children n : children (g_rels g) n = zchildren rs n.
  Proof. unfold children, zchildren. cbn [fill g_rels]. by rewrite Hrs. Qed.
  Lemma zis_node_eq n : zis_node z n = Some (is_node g n).
  Proof. unfold zis_node, is_node. rewrite Hns, g_look. reflexivity. Qed.
  Lemma zis_subgraph_eq n : zis_subgraph z n = Some (is_subgraph g n).
  Proof. unfold zis_subgraph, is_subgraph. rewrite Hss, g_sub. cbn. by destruct (default ∅ (zs_map ss) !! n). Qed.
  Lemma zis_cluster_eq n : zis_cluster z n = Some (is_cluster g n).
  Proof. unfold zis_cluster, is_cluster. rewrite zis_subgraph_eq. reflexivity. Qed.
  Lemma znew_node_stmt_eq n st : znew_node_stmt o z n st = new_node_stmt o g n st.
  Proof.
    unfold znew_node_stmt, new_node_stmt. rewrite Hns, g_look. destruct (default ∅ (zn_lookup ns) !! n) as [p|]; [|reflexivity].
    rewrite g_nodes_eq, plain_deref_name, plain_deref_attrs. reflexivity.
  Qed.
  Lemma zchildren_loop_eq rec rec' cs : (forall c st, rec c st = rec' c st) -> forall acc st, zchildren_loop o z rec cs acc st = children_loop o g rec' cs acc st.
  Proof.
    intros HR. induction cs as [|c cs IH]; intros acc st; [reflexivity|]. cbn [zchildren_loop children_loop]. rewrite zis_node_eq, zis_subgraph_eq, znew_node_stmt_eq, HR.
    destruct (is_node g c).
    - destruct (new_node_stmt o g c st) as [[s st1]|e| |]; auto.
    - destruct (is_subgraph g c); [|reflexivity]. destruct (rec' c st) as [[t st1]|e| |]; auto.
  Qed.
  Lemma znew_sub_eq fuel : forall n st, znew_sub o z fuel n st = new_sub o g fuel n st.
  Proof.
    induction fuel as [|fuel IH]; intros n st; [reflexivity|]. cbn [znew_sub new_sub]. rewrite Hss, Hrs, g_sub.
    destruct (default ∅ (zs_map ss) !! n) as [sb|]; [|reflexivity]. cbn [fmap option_fmap option_map plain_sub sub_attrs sub_name].
    change (default ∅ (zs_attrs sb)) with (plain_attrs (zs_attrs sb)). destruct (append_attrs o (plain_attrs (zs_attrs sb)) (mark (zs_name sb) st)) as [sa st1].
    unfold sorted_children. rewrite g_children. rewrite (zchildren_loop_eq _ _ _ IH). reflexivity.
  Qed.
  Lemma znew_location_eq fuel n port st : znew_location o z fuel n port st = new_location o g fuel n port st.
  Proof.
    unfold znew_location, new_location, new_node_id. rewrite zis_node_eq, zis_cluster_eq, zis_subgraph_eq, Hns, g_look. destruct (is_node g n).
    - destruct (default ∅ (zn_lookup ns) !! n) as [p|]; [|reflexivity]. by rewrite g_nodes_eq, plain_deref_name.
    - destruct (is_cluster g n); [reflexivity|]. destruct (is_subgraph g n); [|reflexivity]. by rewrite znew_sub_eq.
  Qed.
  Lemma znew_edge_stmt_eq fuel e st : znew_edge_stmt o z fuel e st = new_edge_stmt o g fuel (plain_edge e) st.
  Proof.
    unfold znew_edge_stmt, new_edge_stmt. rewrite !znew_location_eq. cbn [plain_edge e_src e_src_port e_dst e_dst_port e_dir e_attrs].
    destruct (new_location o g fuel (ze_src e) (ze_src_port e) st) as [[src st1]|e1| |]; try reflexivity. rewrite znew_location_eq. reflexivity.
  Qed.
  Lemma zedges_loop_eq fuel es : forall acc st, zedges_loop o z fuel es acc st = edges_loop o g fuel (map plain_edge es) acc st.
  Proof.
    induction es as [|e es IH]; intros acc st; [reflexivity|]. cbn [zedges_loop edges_loop map]. rewrite znew_edge_stmt_eq.
    destruct (new_edge_stmt o g fuel (plain_edge e) st) as [[s st1]|e1| |]; auto.
  Qed.
  Lemma zsubs_loop_eq fuel l : forall acc st, zsubs_loop o z fuel l acc st = subs_loop o g fuel (map plain_sub l) acc st.
  Proof.
    induction l as [|s l IH]; intros acc st; [reflexivity|]. cbn [zsubs_loop subs_loop map]. cbn [plain_sub sub_name]. change (Sub (plain_attrs (zs_attrs s)) (zs_name s)) with (plain_sub s).
    rewrite Hrs, g_children, znew_sub_eq. change (g_name g) with (z_name z). destruct (decide (zs_name s ∈ w_written st)); [apply IH|].
    destruct (decide (zs_name s ∈ zchildren rs (z_name z))); [|apply IH]. destruct (new_sub o g fuel (zs_name s) st) as [[t st1]|e1| |]; auto.
  Qed.
  Lemma znodes_loop_eq l : forall acc st, znodes_loop o z l acc st = nodes_loop o g (map plain_node l) acc st.
  Proof.
    induction l as [|s l IH]; intros acc st; [reflexivity|]. cbn [znodes_loop nodes_loop map]. cbn [plain_node node_name].
    destruct (decide (zn_name s ∈ w_written st)); [apply IH|]. rewrite znew_node_stmt_eq.
    destruct (new_node_stmt o g (zn_name s) st) as [[t st1]|e1| |]; auto.
  Qed.
  Lemma zsubs_sorted_eq (i : nat) : map plain_sub (zsubs_sorted o i ss) = subs_sorted o i (g_subs g).
  Proof.
    unfold zsubs_sorted, subs_sorted. rewrite map_map. cbn [fill g_subs]. rewrite Hss. cbn [plain_subs].
    assert (K : keys (plain_sub <$> default ∅ (zs_map ss)) = keys (default ∅ (zs_map ss))) by (unfold keys; apply dom_fmap_L). rewrite K.
    apply map_ext. intros k. rewrite lookup_fmap. destruct (default ∅ (zs_map ss) !! k); reflexivity.
  Qed.
  Lemma znodes_sorted_eq (i : nat) : map plain_node (znodes_sorted o i ns) = nodes_sorted o i (g_nodes g).
  Proof.
    unfold znodes_sorted, nodes_sorted. rewrite map_map, g_nodes_eq. change (nodes_lookup (plain_nodes (Some ns))) with (default ∅ (zn_lookup ns)).
    apply map_ext. intros k. apply plain_deref.
  Qed.
  Lemma zwrite_ast_eq zsrt srt es fuel : z_edges z = Some es -> map plain_edge (zsrt (ze_list es)) = srt (map plain_edge (ze_list es)) ->
    zwrite_ast zsrt o z fuel = write_ast srt o g fuel.
  Proof.
    intros E X. unfold zwrite_ast, write_ast. rewrite E, Hss, Hns. change (default ∅ (z_attrs z)) with (g_attrs g).
    destruct (append_attrs o (g_attrs g) (WState ∅ 0)) as [sa st1]. rewrite zedges_loop_eq, X. replace (edges_list (g_edges g)) with (map plain_edge (ze_list es)) by (cbn [fill g_edges]; by rewrite E).
    destruct (edges_loop o g fuel (srt (map plain_edge (ze_list es))) sa st1) as [[l2 st2]|e1| |]; try reflexivity.
    rewrite zsubs_loop_eq, zsubs_sorted_eq. destruct (subs_loop o g fuel _ l2 (tick 1 st2)) as [[l3 st3]|e1| |]; try reflexivity.
    rewrite znodes_loop_eq, znodes_sorted_eq. reflexivity.
  Qed.
End Same.

(** A sort of edges with nil attributes is one of edges. *)
Lemma zsort_sort o zsrt srt0 l : zsorts (zedge_less o) zsrt -> sorts (edge_less o) srt0 ->
  exists srt, sorts (edge_less o) srt /\ map plain_edge (zsrt l) = srt (map plain_edge l).
Proof.
  intros HZ H0. assert (ED : EqDecision edge) by solve_decision.
  exists (fun x => if decide (x = map plain_edge l) then map plain_edge (zsrt l) else srt0 x). split.
  - intros x. destruct (decide (x = map plain_edge l)) as [->|N]; [|apply H0]. destruct (HZ l) as [P Q]. split; [by rewrite P|].
    clear P. induction Q as [|a m Q IH F]; cbn [map]; constructor; [exact IH|]. apply List.Forall_map. exact F.
  - by rewrite decide_True.
Qed.

(** ** Without Nodes, Edges or SubGraphs: a panic *)
Section NoNodes.
  Variable o : oracle.
  Variable z : zgraph.
  Hypothesis Hns : z_nodes z = None.
  Lemma nn_children rec cs acc st x : zchildren_loop o z rec cs acc st = x -> x = Panic \/ cs = [] /\ x = Ok (acc, st).
  Proof. destruct cs as [|c cs]; cbn [zchildren_loop]; [intros <-; auto|]. unfold zis_node. rewrite Hns. cbn. intros <-. auto. Qed.
  Lemma nn_sub fuel n st : znew_sub o z (S fuel) n st = Panic \/ exists t st1, znew_sub o z (S fuel) n st = Ok (t, st1).
  Proof.
    cbn [znew_sub]. destruct (z_subs z) as [ss|]; [|auto]. destruct (default ∅ (zs_map ss) !! n) as [sb|]; [|auto].
    destruct (append_attrs o (default ∅ (zs_attrs sb)) (mark (zs_name sb) st)) as [sa st1]. destruct (z_rels z) as [r|]; [|auto].
    destruct (nn_children (znew_sub o z fuel) (sorted_keys (o_names o (w_tick st1) (zchildren r n))) sa (tick 1 st1) _ eq_refl) as [->|[_ ->]]; eauto.
  Qed.
  Lemma nn_subs fuel l : forall acc st, zsubs_loop o z (S fuel) l acc st = Panic \/ exists x, zsubs_loop o z (S fuel) l acc st = Ok x.
  Proof.
    induction l as [|s l IH]; intros acc st; cbn [zsubs_loop]; [eauto|]. destruct (decide (zs_name s ∈ w_written st)); [apply IH|].
    destruct (z_rels z) as [r|]; [|auto]. destruct (decide (zs_name s ∈ zchildren r (z_name z))); [|apply IH].
    destruct (nn_sub fuel (zs_name s) st) as [->|(t & st1 & ->)]; [auto|apply IH].
  Qed.
  Lemma nn_write srt fuel : zwrite_ast srt o z (S fuel) = Panic.
  Proof.
    unfold zwrite_ast. destruct (append_attrs o (default ∅ (z_attrs z)) (WState ∅ 0)) as [sa st1]. destruct (z_edges z) as [es|]; [|reflexivity].
    destruct (srt (ze_list es)) as [|e l].
    - cbn [zedges_loop]. destruct (z_subs z) as [ss|]; [|reflexivity]. destruct (nn_subs fuel (zsubs_sorted o (w_tick st1) ss) sa (tick 1 st1)) as [->|[[l3 st3] ->]]; [reflexivity|]. by rewrite Hns.
    - cbn [zedges_loop]. unfold znew_edge_stmt, znew_location, zis_node. rewrite Hns. reflexivity.
  Qed.
End NoNodes.
Section NoSubs.
  Variable o : oracle.
  Variable z : zgraph.
  Hypothesis Hss : z_subs z = None.
  Lemma ns_location fuel n port st : znew_location o z fuel n port st = Panic \/ exists x, znew_location o z fuel n port st = Ok x.
  Proof.
    unfold znew_location, zis_node, zis_cluster, zis_subgraph. rewrite Hss. destruct (z_nodes z) as [ns|]; [|auto]. cbn [mbind option_bind].
    destruct (default ∅ (zn_lookup ns) !! n) as [p|]; [eauto|auto].
  Qed.
  Lemma ns_edges fuel l : forall acc st, zedges_loop o z fuel l acc st = Panic \/ exists x, zedges_loop o z fuel l acc st = Ok x.
  Proof.
    induction l as [|e l IH]; intros acc st; cbn [zedges_loop]; [eauto|]. unfold znew_edge_stmt.
    destruct (ns_location fuel (ze_src e) (ze_src_port e) st) as [->|[[src st1] ->]]; [auto|].
    destruct (ns_location fuel (ze_dst e) (ze_dst_port e) st1) as [->|[[dst st2] ->]]; [auto|].
    destruct (attr_list o (default ∅ (ze_attrs e)) st2) as [a st3]. apply IH.
  Qed.
  Lemma ns_write srt fuel : zwrite_ast srt o z fuel = Panic.
  Proof.
    unfold zwrite_ast. destruct (append_attrs o (default ∅ (z_attrs z)) (WState ∅ 0)) as [sa st1]. destruct (z_edges z) as [es|]; [|reflexivity].
    destruct (ns_edges fuel (srt (ze_list es)) sa st1) as [->|[[l2 st2] ->]]; [reflexivity|]. by rewrite Hss.
  Qed.
End NoSubs.

(** ** Without Relations *)
Section NoRels.
  Variable o : oracle.
  Variable z : zgraph.
  Variable ns : znodes.
  Variable ss : zsubs.
  Hypothesis Hns : z_nodes z = Some ns.
  Hypothesis Hss : z_subs z = Some ss.
  Hypothesis Hrs : z_rels z = None.
  Notation g := (fill z).
  (** [y] is the result without nil *)
  Definition below {A} (x y : res err A) : Prop := x = Panic \/ x = y.
  Lemma nr_sub fuel n st : below (znew_sub o z (S fuel) n st) (new_sub o g (S fuel) n st).
  Proof.
    left. cbn [znew_sub]. rewrite Hss, Hrs. destruct (default ∅ (zs_map ss) !! n) as [sb|]; [|reflexivity].
    by destruct (append_attrs o (default ∅ (zs_attrs sb)) (mark (zs_name sb) st)).
  Qed.
  Lemma nr_location fuel n port st : below (znew_location o z (S fuel) n port st) (new_location o g (S fuel) n port st) /\
    (forall l st1, znew_location o z (S fuel) n port st = Ok (l, st1) -> st1 = st).
  Proof.
    unfold znew_location, new_location, new_node_id. rewrite (zis_node_eq z ns Hns), (zis_cluster_eq z ss Hss), (zis_subgraph_eq z ss Hss), Hns, (g_look z ns Hns).
    destruct (is_node g n).
    - destruct (default ∅ (zn_lookup ns) !! n) as [p|]; [|split; [by left|discriminate]]. split; [right; by rewrite (g_nodes_eq z ns Hns), plain_deref_name|]. intros l st1 [= _ <-]. reflexivity.
    - destruct (is_cluster g n).
      + destruct port; [|split; [by right|discriminate]]. split; [by right|]. intros l st1 [= _ <-]. reflexivity.
      + destruct (is_subgraph g n); [|split; [by right|discriminate]]. destruct port; [|split; [by right|discriminate]].
        assert (X : znew_sub o z (S fuel) n st = Panic).
        { cbn [znew_sub]. rewrite Hss, Hrs. destruct (default ∅ (zs_map ss) !! n) as [sb|]; [|reflexivity]. by destruct (append_attrs o (default ∅ (zs_attrs sb)) (mark (zs_name sb) st)). }
        rewrite X. split; [by left|discriminate].
  Qed.
  Lemma nr_edges fuel l : forall acc st, below (zedges_loop o z (S fuel) l acc st) (edges_loop o g (S fuel) (map plain_edge l) acc st) /\
    (forall a st1, zedges_loop o z (S fuel) l acc st = Ok (a, st1) -> w_written st1 = w_written st).
  Proof.
    induction l as [|e l IH]; intros acc st; cbn [zedges_loop edges_loop map]; [split; [by right|intros a st1 [= _ <-]; reflexivity]|].
    unfold znew_edge_stmt, new_edge_stmt. cbn [plain_edge e_src e_src_port e_dst e_dst_port e_dir e_attrs].
    destruct (nr_location fuel (ze_src e) (ze_src_port e) st) as [B1 W1].
    destruct (znew_location o z (S fuel) (ze_src e) (ze_src_port e) st) as [[src st1]|e1| |] eqn:E1.
    2:{ destruct B1 as [B1|B1]; [discriminate|]. rewrite <- B1. split; [by right|discriminate]. }
    2:{ split; [by left|discriminate]. }
    2:{ destruct B1 as [B1|B1]; [discriminate|]. rewrite <- B1. split; [by right|discriminate]. }
    destruct B1 as [B1|B1]; [discriminate|]. rewrite <- B1. clear B1. assert (st1 = st) by (eapply W1; reflexivity). subst st1. clear W1.
    destruct (nr_location fuel (ze_dst e) (ze_dst_port e) st) as [B1 W1].
    destruct (znew_location o z (S fuel) (ze_dst e) (ze_dst_port e) st) as [[dst st1]|e1| |] eqn:E2.
    2:{ destruct B1 as [B1|B1]; [discriminate|]. rewrite <- B1. split; [by right|discriminate]. }
    2:{ split; [by left|discriminate]. }
    2:{ destruct B1 as [B1|B1]; [discriminate|]. rewrite <- B1. split; [by right|discriminate]. }
    destruct B1 as [B1|B1]; [discriminate|]. rewrite <- B1. clear B1. assert (st1 = st) by (eapply W1; reflexivity). subst st1. clear W1.
    change (default ∅ (ze_attrs e)) with (plain_attrs (ze_attrs e)). destruct (attr_list o (plain_attrs (ze_attrs e)) st) as [a st3] eqn:A.
    assert (W3 : w_written st3 = w_written st) by (unfold attr_list in A; injection A as _ <-; reflexivity).
    destruct (IH (acc ++ [Ast.SEdge src [Ast.EdgeRH (ze_dir e) dst] a]) st3) as [B W]. split; [exact B|]. intros x st4 H. rewrite (W _ _ H). exact W3.
  Qed.
  Lemma nr_write zsrt srt es fuel : z_edges z = Some es -> map plain_edge (zsrt (ze_list es)) = srt (map plain_edge (ze_list es)) -> fair o ->
    (default ∅ (zs_map ss) = ∅ -> zwrite_ast zsrt o z (S fuel) = write_ast srt o g (S fuel)) /\
    (default ∅ (zs_map ss) <> ∅ -> zwrite_ast zsrt o z (S fuel) = Panic \/ exists e, zwrite_ast zsrt o z (S fuel) = Err e /\ write_ast srt o g (S fuel) = Err e).
  Proof.
    intros E X Fo. unfold zwrite_ast, write_ast. rewrite E, Hss, Hns. change (default ∅ (z_attrs z)) with (g_attrs g).
    destruct (append_attrs o (g_attrs g) (WState ∅ 0)) as [sa st1] eqn:A0. assert (W0 : w_written st1 = ∅) by (unfold append_attrs in A0; injection A0 as _ <-; reflexivity).
    replace (edges_list (g_edges g)) with (map plain_edge (ze_list es)) by (cbn [fill g_edges]; by rewrite E). rewrite <- X.
    destruct (nr_edges fuel (zsrt (ze_list es)) sa st1) as [B W]. split; intros Hm.
    - (* no subgraphs: no location is one, so there is no panic *)
      assert (NS : forall n, is_subgraph g n = false).
      { intros n. unfold is_subgraph. rewrite (g_sub z ss Hss), Hm, lookup_empty. reflexivity. }
      assert (EQ : forall l acc st, zedges_loop o z (S fuel) l acc st = edges_loop o g (S fuel) (map plain_edge l) acc st).
      { assert (EL : forall n port st, znew_location o z (S fuel) n port st = new_location o g (S fuel) n port st).
        { intros n port st. destruct (nr_location fuel n port st) as [[Y|Y] _]; [|exact Y]. revert Y. unfold znew_location, new_location, new_node_id.
          rewrite (zis_node_eq z ns Hns), (zis_cluster_eq z ss Hss), (zis_subgraph_eq z ss Hss), Hns, (g_look z ns Hns). unfold is_cluster. rewrite NS. cbn [andb].
          unfold is_node. rewrite (g_look z ns Hns). destruct (default ∅ (zn_lookup ns) !! n); discriminate. }
        induction l as [|e l IH]; intros acc st; [reflexivity|]. cbn [zedges_loop edges_loop map]. unfold znew_edge_stmt, new_edge_stmt.
        cbn [plain_edge e_src e_src_port e_dst e_dst_port e_dir e_attrs]. rewrite EL. destruct (new_location o g (S fuel) (ze_src e) (ze_src_port e) st) as [[src s1]|e1| |]; try reflexivity.
        rewrite EL. destruct (new_location o g (S fuel) (ze_dst e) (ze_dst_port e) s1) as [[dst s2]|e1| |]; try reflexivity.
        change (default ∅ (ze_attrs e)) with (plain_attrs (ze_attrs e)). destruct (attr_list o (plain_attrs (ze_attrs e)) s2) as [a s3]. apply IH. }
      rewrite EQ. destruct (edges_loop o g (S fuel) (map plain_edge (zsrt (ze_list es))) sa st1) as [[l2 st2]|e1| |]; try reflexivity.
      assert (SE : zsubs_sorted o (w_tick st2) ss = []).
      { unfold zsubs_sorted. rewrite Hm. unfold keys. rewrite dom_empty_L. rewrite (proj2 (names_nil o (w_tick st2) ∅ Fo) eq_refl). reflexivity. }
      assert (SE' : subs_sorted o (w_tick st2) (g_subs g) = []).
      { unfold subs_sorted. replace (g_subs g) with (∅ : gmap gostr sub) by (cbn [fill g_subs]; rewrite Hss; cbn [plain_subs]; by rewrite Hm, fmap_empty).
        unfold keys. rewrite dom_empty_L. rewrite (proj2 (names_nil o (w_tick st2) ∅ Fo) eq_refl). reflexivity. }
      rewrite SE, SE'. cbn [zsubs_loop subs_loop].
      assert (NE : forall l acc st, znodes_loop o z l acc st = nodes_loop o g (map plain_node l) acc st) by (intros; eapply znodes_loop_eq; eauto).
      rewrite NE. rewrite (znodes_sorted_eq o z ns Hns). reflexivity.
    - destruct (zedges_loop o z (S fuel) (zsrt (ze_list es)) sa st1) as [[l2 st2]|e1| |] eqn:EZ.
      + left. specialize (W _ _ eq_refl). destruct (zsubs_sorted o (w_tick st2) ss) as [|s l] eqn:SS.
        * exfalso. apply Hm. unfold zsubs_sorted in SS. apply map_eq_nil in SS. unfold sorted_keys in SS.
          assert (P : sort_strings (o_names o (w_tick st2) (keys (default ∅ (zs_map ss)))) ≡ₚ o_names o (w_tick st2) (keys (default ∅ (zs_map ss)))) by apply sort_strings_perm.
          rewrite SS in P. apply Permutation_nil in P. apply (names_nil o _ _ Fo) in P. unfold keys in P. apply dom_empty_iff_L in P. exact P.
        * cbn [zsubs_loop]. rewrite decide_False; [by rewrite Hrs|]. cbn [tick w_written]. rewrite W, W0. apply not_elem_of_empty.
      + right. exists e1. split; [reflexivity|]. destruct B as [B|B]; [discriminate|]. by rewrite <- B.
      + left. reflexivity.
      + exfalso. clear -EZ Hns Hss Hrs. revert EZ. assert (NL : forall n port st, znew_location o z (S fuel) n port st <> OutOfFuel).
        { intros n port st. unfold znew_location. rewrite (zis_node_eq z ns Hns), (zis_cluster_eq z ss Hss), (zis_subgraph_eq z ss Hss), Hns.
          destruct (is_node g n); [destruct (default ∅ (zn_lookup ns) !! n); discriminate|]. destruct (is_cluster g n); [destruct port; discriminate|].
          destruct (is_subgraph g n); [|discriminate]. destruct port; [|discriminate]. cbn [znew_sub]. rewrite Hss, Hrs. destruct (default ∅ (zs_map ss) !! n) as [sb|]; [|discriminate].
          destruct (append_attrs o (default ∅ (zs_attrs sb)) (mark (zs_name sb) st)). discriminate. }
        generalize sa st1. induction (zsrt (ze_list es)) as [|e l IH]; intros acc st; cbn [zedges_loop]; [discriminate|]. unfold znew_edge_stmt.
        pose proof (NL (ze_src e) (ze_src_port e) st) as N1. destruct (znew_location o z (S fuel) (ze_src e) (ze_src_port e) st) as [[src s1]|e1| |]; try discriminate; [|contradiction].
        pose proof (NL (ze_dst e) (ze_dst_port e) s1) as N2. destruct (znew_location o z (S fuel) (ze_dst e) (ze_dst_port e) s1) as [[dst s2]|e1| |]; try discriminate; [|contradiction].
        destruct (attr_list o (default ∅ (ze_attrs e)) s2) as [a s3]. apply IH.
  Qed.
End NoRels.
