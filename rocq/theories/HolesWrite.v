(** Proofs for C85: writing a graph with nil pointers in its containers. *)
From Verif Require Import Base Parser Maps MapFacts Graph SpecGraph AttrMap Write Zero Holes SpecHoles HolesProofs.
From Verif Require Ast.

Section Same.
  Variable o : oracle.
  Variable h : hgraph.
  Variable g : agraph.
  Hypothesis C : completes h g.
  (** [x], with nil, is [y], on a completion; or it has panicked, and there is nil somewhere *)
  Definition sim {A} (x y : res err A) : Prop := x = y \/ (x = Panic /\ ~ whole h).
  Lemma sim_refl {A} (x : res err A) : sim x x. Proof. by left. Qed.
  Lemma sim_bind {A B} (x y : res err A) (f f' : A -> res err B) : sim x y -> (forall a, sim (f a) (f' a)) ->
    sim (match x with Ok a => f a | Err e => Err e | Panic => Panic | OutOfFuel => OutOfFuel end)
        (match y with Ok a => f' a | Err e => Err e | Panic => Panic | OutOfFuel => OutOfFuel end).
  Proof. intros [->|[-> N]] F; [destruct y; [apply F|left; done..]|right; done]. Qed.

  Lemma hl n : nodes_lookup (g_nodes g) !! n = None <-> hn_lookup (h_nodes h) !! n = None.
  Proof. pose proof (co_lookup _ _ C n) as H. destruct (hn_lookup (h_nodes h) !! n), (nodes_lookup (g_nodes g) !! n); try done; split; discriminate. Qed.
  Lemma his_node_eq n : his_node h n = is_node g n.
  Proof. unfold his_node, is_node. pose proof (co_lookup _ _ C n) as H. destruct (hn_lookup (h_nodes h) !! n), (nodes_lookup (g_nodes g) !! n); done. Qed.
  Lemma his_subgraph_eq n : his_subgraph h n = is_subgraph g n.
  Proof. unfold his_subgraph, is_subgraph. pose proof (co_subs _ _ C n) as H. destruct (h_subs h !! n), (g_subs g !! n); done. Qed.
  Lemma his_cluster_eq n : his_cluster h n = is_cluster g n.
  Proof. unfold his_cluster, is_cluster. by rewrite his_subgraph_eq. Qed.
  Lemma nodes_c : ncomp (h_nodes h) (g_nodes g). Proof. by apply completes_nodes. Qed.
  Lemma not_whole_lookup n : hn_lookup (h_nodes h) !! n = Some None -> ~ whole h.
  Proof. intros E (_ & W & _). by apply (W n). Qed.
  Lemma not_whole_sub n : h_subs h !! n = Some None -> ~ whole h.
  Proof. intros E (_ & _ & W). by apply (W n). Qed.
  Lemma hnew_node_stmt_sim n st : sim (hnew_node_stmt o h n st) (new_node_stmt o g n st).
  Proof.
    unfold hnew_node_stmt, new_node_stmt. destruct (hn_lookup (h_nodes h) !! n) as [[p|]|] eqn:E.
    - rewrite (cm_some _ _ _ _ (co_lookup _ _ C) E), (deref_comp _ _ _ nodes_c). apply sim_refl.
    - right. split; [done|]. by apply (not_whole_lookup n).
    - rewrite (cm_none _ _ _ (co_lookup _ _ C) E). apply sim_refl.
  Qed.
  Lemma hchildren_loop_sim rec rec' cs : (forall c st, sim (rec c st) (rec' c st)) -> forall acc st, sim (hchildren_loop o h rec cs acc st) (children_loop o g rec' cs acc st).
  Proof.
    intros HR. induction cs as [|c cs IH]; intros acc st; cbn [hchildren_loop children_loop]; [apply sim_refl|]. rewrite his_node_eq, his_subgraph_eq.
    destruct (is_node g c); [|destruct (is_subgraph g c); [|apply sim_refl]].
    - apply (sim_bind _ _ (fun '(s, st1) => _) (fun '(s, st1) => _)); [apply hnew_node_stmt_sim|]. intros [s st1]. apply IH.
    - apply (sim_bind _ _ (fun '(s, st1) => _) (fun '(s, st1) => _)); [apply HR|]. intros [s st1]. apply IH.
  Qed.
  Lemma hnew_sub_sim fuel : forall n st, sim (hnew_sub o h fuel n st) (new_sub o g fuel n st).
  Proof.
    induction fuel as [|fuel IH]; intros n st; [apply sim_refl|]. cbn [hnew_sub new_sub]. destruct (h_subs h !! n) as [[sb|]|] eqn:E.
    - rewrite (cm_some _ _ _ _ (co_subs _ _ C) E). destruct (append_attrs o (sub_attrs sb) (mark (sub_name sb) st)) as [sa st1]. rewrite (co_rels _ _ C).
      apply (sim_bind _ _ (fun '(s, st1) => _) (fun '(s, st1) => _)); [apply hchildren_loop_sim, IH|]. intros [s st2]. apply sim_refl.
    - right. split; [done|]. by apply (not_whole_sub n).
    - rewrite (cm_none _ _ _ (co_subs _ _ C) E). apply sim_refl.
  Qed.
  Lemma hnew_location_sim fuel n port st : sim (hnew_location o h fuel n port st) (new_location o g fuel n port st).
  Proof.
    unfold hnew_location, new_location. rewrite his_node_eq, his_cluster_eq, his_subgraph_eq. destruct (is_node g n).
    - apply (sim_bind _ _ (fun n => _) (fun n => _)); [|intros x; apply sim_refl]. unfold hnew_node_id, new_node_id. destruct (hn_lookup (h_nodes h) !! n) as [[p|]|] eqn:E.
      + rewrite (cm_some _ _ _ _ (co_lookup _ _ C) E), (deref_comp _ _ _ nodes_c). apply sim_refl.
      + right. split; [done|]. by apply (not_whole_lookup n).
      + rewrite (cm_none _ _ _ (co_lookup _ _ C) E). apply sim_refl.
    - destruct (is_cluster g n); [apply sim_refl|]. destruct (is_subgraph g n); [|apply sim_refl]. destruct port; [|apply sim_refl].
      apply (sim_bind _ _ (fun '(s, st1) => _) (fun '(s, st1) => _)); [apply hnew_sub_sim|]. intros [s st1]. apply sim_refl.
  Qed.
  Lemma hnew_edge_stmt_sim fuel e st : sim (hnew_edge_stmt o h fuel e st) (new_edge_stmt o g fuel e st).
  Proof.
    unfold hnew_edge_stmt, new_edge_stmt. apply (sim_bind _ _ (fun '(s, st1) => _) (fun '(s, st1) => _)); [apply hnew_location_sim|]. intros [src st1].
    apply (sim_bind _ _ (fun '(s, st1) => _) (fun '(s, st1) => _)); [apply hnew_location_sim|]. intros [dst st2]. apply sim_refl.
  Qed.
  Lemma hedges_loop_sim fuel es : forall acc st, sim (hedges_loop o h fuel es acc st) (edges_loop o g fuel es acc st).
  Proof.
    induction es as [|e es IH]; intros acc st; cbn [hedges_loop edges_loop]; [apply sim_refl|].
    apply (sim_bind _ _ (fun '(s, st1) => _) (fun '(s, st1) => _)); [apply hnew_edge_stmt_sim|]. intros [s st1]. apply IH.
  Qed.
  Lemma hsubs_loop_sim fuel l : forall l', Forall2 instead l l' -> (None ∈ l -> ~ whole h) ->
    forall acc st, sim (hsubs_loop o h fuel l acc st) (subs_loop o g fuel l' acc st).
  Proof.
    induction l as [|x l IH]; intros l' F W acc st; inversion F as [|? s ? l'' K F']; subst; cbn [hsubs_loop subs_loop]; [apply sim_refl|].
    assert (W' : None ∈ l -> ~ whole h) by (intros H; apply W; by right).
    destruct x as [s'|]; [|right; split; [done|apply W; left]]. apply instead_eq in K as ->. rewrite (co_rels _ _ C), (co_name _ _ C).
    destruct (decide (sub_name s' ∈ w_written st)); [by apply IH|]. destruct (decide (sub_name s' ∈ children (h_rels h) (h_name h))); [|by apply IH].
    apply (sim_bind _ _ (fun '(s, st1) => _) (fun '(s, st1) => _)); [apply hnew_sub_sim|]. intros [t st1]. by apply IH.
  Qed.
  Lemma hnodes_loop_sim l : forall l', Forall2 instead l l' -> (None ∈ l -> ~ whole h) ->
    forall acc st, sim (hnodes_loop o h l acc st) (nodes_loop o g l' acc st).
  Proof.
    induction l as [|x l IH]; intros l' F W acc st; inversion F as [|? s ? l'' K F']; subst; cbn [hnodes_loop nodes_loop]; [apply sim_refl|].
    assert (W' : None ∈ l -> ~ whole h) by (intros H; apply W; by right).
    destruct x as [s'|]; [|right; split; [done|apply W; left]]. apply instead_eq in K as ->.
    destruct (decide (node_name s' ∈ w_written st)); [by apply IH|].
    apply (sim_bind _ _ (fun '(s, st1) => _) (fun '(s, st1) => _)); [apply hnew_node_stmt_sim|]. intros [t st1]. by apply IH.
  Qed.
  Lemma keys_lookup : keys (nodes_lookup (g_nodes g)) = keys (hn_lookup (h_nodes h)).
  Proof.
    unfold keys. apply set_eq. intros n. rewrite !elem_of_dom. unfold is_Some. pose proof (co_lookup _ _ C n) as H.
    destruct (hn_lookup (h_nodes h) !! n), (nodes_lookup (g_nodes g) !! n); try done; split; intros [? ?]; eauto; discriminate.
  Qed.
  Lemma keys_subs : keys (g_subs g) = keys (h_subs h).
  Proof.
    unfold keys. apply set_eq. intros n. rewrite !elem_of_dom. unfold is_Some. pose proof (co_subs _ _ C n) as H.
    destruct (h_subs h !! n), (g_subs g !! n); try done; split; intros [? ?]; eauto; discriminate.
  Qed.
  Hypothesis Fo : fair o.
  Lemma in_sorted_keys i s k : k ∈ sorted_keys (o_names o i s) <-> k ∈ s.
  Proof.
    unfold sorted_keys. assert (P : sort_strings (o_names o i s) ≡ₚ elements s) by (rewrite sort_strings_perm; apply Fo). rewrite P. apply elem_of_elements.
  Qed.
  Lemma hnodes_sorted_ok i : Forall2 instead (hnodes_sorted o h i) (nodes_sorted o i (g_nodes g)) /\
    (None ∈ hnodes_sorted o h i <-> exists n, nil_lookup h n).
  Proof.
    unfold hnodes_sorted, nodes_sorted. rewrite keys_lookup. split.
    - assert (F : Forall (fun k => k ∈ keys (hn_lookup (h_nodes h))) (sorted_keys (o_names o i (keys (hn_lookup (h_nodes h)))))).
      { apply Forall_forall. intros k. apply in_sorted_keys. }
      induction F as [|k l Hk F IH]; cbn [map]; constructor; [|exact IH].
      unfold keys in Hk. apply elem_of_dom in Hk as [x Hx]. rewrite Hx. cbn [default]. destruct x as [p|]; cbn.
      + rewrite (cm_some _ _ _ _ (co_lookup _ _ C) Hx). cbn. rewrite (deref_comp _ _ _ nodes_c). apply instead_some.
      + intros a [=].
    - rewrite elem_of_list_fmap. split.
      + intros (k & E & Hk). exists k. apply in_sorted_keys in Hk. unfold keys in Hk. apply elem_of_dom in Hk as [x Hx]. unfold nil_lookup. rewrite Hx in E |- *. cbn in E. destruct x; [discriminate|done].
      + intros (n & Hn). unfold nil_lookup in Hn. exists n. rewrite Hn. split; [done|]. apply in_sorted_keys. unfold keys. apply elem_of_dom. eauto.
  Qed.
  Lemma hsubs_sorted_ok i : Forall2 instead (hsubs_sorted o h i) (subs_sorted o i (g_subs g)) /\
    (None ∈ hsubs_sorted o h i <-> exists n, nil_sub_entry h n).
  Proof.
    unfold hsubs_sorted, subs_sorted. rewrite keys_subs. split.
    - assert (F : Forall (fun k => k ∈ keys (h_subs h)) (sorted_keys (o_names o i (keys (h_subs h))))).
      { apply Forall_forall. intros k. apply in_sorted_keys. }
      induction F as [|k l Hk F IH]; cbn [map]; constructor; [|exact IH].
      unfold keys in Hk. apply elem_of_dom in Hk as [x Hx]. rewrite Hx. cbn [default]. destruct x as [p|]; cbn.
      + rewrite (cm_some _ _ _ _ (co_subs _ _ C) Hx). apply instead_some.
      + intros a [=].
    - rewrite elem_of_list_fmap. split.
      + intros (k & E & Hk). exists k. apply in_sorted_keys in Hk. unfold keys in Hk. apply elem_of_dom in Hk as [x Hx]. unfold nil_sub_entry. rewrite Hx in E |- *. cbn in E. by subst x.
      + intros (n & Hn). unfold nil_sub_entry in Hn. exists n. rewrite Hn. split; [done|]. apply in_sorted_keys. unfold keys. apply elem_of_dom. eauto.
  Qed.
  Lemma all_edges_ok l : forall l', Forall2 instead l l' -> match all_edges l with Some es => es = l' /\ None ∉ l | None => None ∈ l end.
  Proof.
    induction l as [|x l IH]; intros l' F; inversion F as [|? s ? l'' K F']; subst; cbn [all_edges]; [split; [done|apply not_elem_of_nil]|].
    destruct x as [e|]; [|left]. apply instead_eq in K as ->. specialize (IH _ F'). destruct (all_edges l) as [es|]; [|by right].
    destruct IH as [-> N]. split; [done|]. rewrite elem_of_cons. intros [?|?]; [discriminate|contradiction].
  Qed.
  Lemma hwrite_sim srt fuel : sim (hwrite_ast srt o h fuel) (write_ast srt o g fuel).
  Proof.
    unfold hwrite_ast, write_ast. rewrite (co_attrs _ _ C). destruct (append_attrs o (h_attrs h) (WState ∅ 0)) as [sa st1].
    pose proof (all_edges_ok _ _ (co_edges _ _ C)) as A. destruct (all_edges (he_list (h_edges h))) as [es|].
    2:{ right. split; [done|]. intros (W & _). contradiction. }
    destruct A as [-> _].
    apply (sim_bind _ _ (fun '(s, st1) => _) (fun '(s, st1) => _)); [apply hedges_loop_sim|]. intros [l2 st2].
    destruct (hsubs_sorted_ok (w_tick st2)) as [S1 S2].
    apply (sim_bind _ _ (fun '(s, st1) => _) (fun '(s, st1) => _)).
    { apply hsubs_loop_sim; [exact S1|]. rewrite S2. intros [n Hn]. by apply (not_whole_sub n). }
    intros [l3 st3]. destruct (hnodes_sorted_ok (w_tick st3)) as [N1 N2].
    apply (sim_bind _ _ (fun '(s, st1) => _) (fun '(s, st1) => _)).
    { apply hnodes_loop_sim; [exact N1|]. rewrite N2. intros [n Hn]. by apply (not_whole_lookup n). }
    intros [l4 st4]. rewrite (co_directed _ _ C), (co_strict _ _ C), (co_name _ _ C). apply sim_refl.
  Qed.
End Same.

(** ** With nil in Lookup, in SubGraphs or in Edges nothing is written *)
Lemma hsubs_loop_nil o h fuel l : None ∈ l -> forall acc st x, hsubs_loop o h fuel l acc st <> Ok x.
Proof.
  induction l as [|[s|] l IH]; intros H acc st x; cbn [hsubs_loop]; [by apply not_elem_of_nil in H| |discriminate].
  apply elem_of_cons in H as [?|H]; [discriminate|]. destruct (decide (sub_name s ∈ w_written st)); [by apply IH|].
  destruct (decide (sub_name s ∈ children (h_rels h) (h_name h))); [|by apply IH]. destruct (hnew_sub o h fuel (sub_name s) st) as [[t st1]|e9| |]; try discriminate. by apply IH.
Qed.
Lemma hnodes_loop_nil o h l : None ∈ l -> forall acc st x, hnodes_loop o h l acc st <> Ok x.
Proof.
  induction l as [|[s|] l IH]; intros H acc st x; cbn [hnodes_loop]; [by apply not_elem_of_nil in H| |discriminate].
  apply elem_of_cons in H as [?|H]; [discriminate|]. destruct (decide (node_name s ∈ w_written st)); [by apply IH|].
  destruct (hnew_node_stmt o h (node_name s) st) as [[t st1]|e9| |]; try discriminate. by apply IH.
Qed.
Lemma hwrite_whole o h srt fuel a : fair o -> hwrite_ast srt o h fuel = Ok a -> whole h.
Proof.
  intros Fo H. pose proof (completion_ok h) as C. unfold hwrite_ast in H. destruct (append_attrs o (h_attrs h) (WState ∅ 0)) as [sa st1].
  pose proof (all_edges_ok _ _ (co_edges _ _ C)) as A. destruct (all_edges (he_list (h_edges h))) as [es|]; [|discriminate]. destruct A as [_ A].
  destruct (hedges_loop o h fuel (srt es) sa st1) as [[l2 st2]|e9| |]; try discriminate.
  destruct (hsubs_loop o h fuel (hsubs_sorted o h (w_tick st2)) l2 (tick 1 st2)) as [[l3 st3]|e9| |] eqn:S0; try discriminate.
  destruct (hnodes_loop o h (hnodes_sorted o h (w_tick st3)) l3 (tick 1 st3)) as [[l4 st4]|e| |] eqn:N0; try discriminate.
  split; [exact A|]. split; intros n Hn.
  - eapply (hnodes_loop_nil o h (hnodes_sorted o h (w_tick st3))); [|exact N0]. apply (hnodes_sorted_ok o h _ C Fo). eauto.
  - eapply (hsubs_loop_nil o h fuel (hsubs_sorted o h (w_tick st2))); [|exact S0]. apply (hsubs_sorted_ok o h _ C Fo). eauto.
Qed.
Lemma hwrite_nil_edge o h srt fuel : nil_edge h -> hwrite_ast srt o h fuel = Panic.
Proof.
  intros H. unfold hwrite_ast. destruct (append_attrs o (h_attrs h) (WState ∅ 0)) as [sa st1].
  pose proof (all_edges_ok _ _ (co_edges _ _ (completion_ok h))) as A. destruct (all_edges (he_list (h_edges h))) as [es|]; [|reflexivity]. destruct A as [_ A]. contradiction.
Qed.
