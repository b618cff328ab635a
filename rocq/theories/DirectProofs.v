(** Calls on the containers of a graph: invariants and refinement of SpecDirect.v. *)
From Verif Require Import Maps Graph SpecGraph MapFacts GraphProofs Direct SpecDirect.

Lemma Forall_singleton_1 {A} (P : A -> Prop) x : Forall P [x] -> P x.
Proof. intros H. inversion H. assumption. Qed.

(** ** Nodes *)
Lemma set_attrs_ok ns n p a : nodes_ok ns -> nodes_lookup ns !! n = Some p -> nodes_ok (nodes_set_attrs ns p a).
Proof.
  intros OK E. destruct (no_lookup ns OK n p E) as [Hp [a0 Ha]]. unfold nodes_set_attrs.
  assert (D : deref ns p = Node n a0) by (unfold deref; rewrite Ha; reflexivity). rewrite D. cbn [node_name].
  split; cbn [nodes_lookup nodes_list nodes_heap nodes_next].
  - intros n' p' H. destruct (no_lookup ns OK n' p' H) as [Hp' [a' Ha']]. split; [exact Hp'|].
    destruct (decide (p = p')) as [<-|Hn].
    + rewrite lookup_insert. rewrite Ha in Ha'. injection Ha' as -> _. eauto.
    + rewrite lookup_insert_ne by exact Hn. eauto.
  - intros p' H. destruct (no_list ns OK p' H) as (nd & H1 & H2). destruct (decide (p = p')) as [<-|Hn].
    + rewrite lookup_insert. eexists. split; [reflexivity|exact E].
    + rewrite lookup_insert_ne by exact Hn. eauto.
  - apply (no_nodup ns OK).
  - intros p' nd. destruct (decide (p = p')) as [<-|Hn].
    + intros _. eapply (no_heap ns OK); exact Ha.
    + rewrite lookup_insert_ne by exact Hn. apply (no_heap ns OK).
Qed.
Lemma set_attrs_nview ns n p a : nodes_ok ns -> nodes_lookup ns !! n = Some p -> nview (nodes_set_attrs ns p a) = <[n := a]> (nview ns).
Proof.
  intros OK E. apply map_eq. intros k. unfold nview, nodes_set_attrs. cbn [nodes_lookup]. rewrite lookup_fmap. destruct (decide (n = k)) as [<-|Hn].
  - rewrite lookup_insert, E. cbn. f_equal. unfold deref at 1. cbn [nodes_heap]. rewrite lookup_insert. reflexivity.
  - rewrite lookup_insert_ne, lookup_fmap by exact Hn. destruct (nodes_lookup ns !! k) as [q|] eqn:Eq; [|reflexivity].
    cbn. f_equal. unfold deref. cbn [nodes_heap]. rewrite lookup_insert_ne; [reflexivity|].
    intros <-. apply Hn. rewrite <- (deref_lookup ns OK n p E). apply (deref_lookup ns OK k p Eq).
Qed.
Lemma set_attrs_oview ns p a : oview (nodes_set_attrs ns p a) = oview ns.
Proof.
  unfold oview, nodes_set_attrs. cbn [nodes_list]. apply map_ext. intros q. unfold deref. cbn [nodes_heap].
  destruct (decide (p = q)) as [<-|Hn]; [rewrite lookup_insert; reflexivity|rewrite lookup_insert_ne by exact Hn; reflexivity].
Qed.

Lemma set_ptr_ok ns p nd a : nodes_ok ns -> nodes_heap ns !! p = Some nd -> nodes_ok (nodes_set_attrs ns p a).
Proof.
  intros OK E. unfold nodes_set_attrs. assert (D : deref ns p = nd) by (unfold deref; rewrite E; reflexivity). rewrite D.
  split; cbn [nodes_lookup nodes_list nodes_heap nodes_next].
  - intros n' p' H. destruct (no_lookup ns OK n' p' H) as [Hp' [a' Ha']]. split; [exact Hp'|].
    destruct (decide (p = p')) as [<-|Hn]; [|rewrite lookup_insert_ne by exact Hn; eauto].
    rewrite lookup_insert. rewrite E in Ha'. injection Ha' as ->. eauto.
  - intros p' H. destruct (no_list ns OK p' H) as (nd' & H1 & H2). destruct (decide (p = p')) as [<-|Hn].
    + rewrite lookup_insert. rewrite E in H1. injection H1 as <-. eexists. split; [reflexivity|exact H2].
    + rewrite lookup_insert_ne by exact Hn. eauto.
  - apply (no_nodup ns OK).
  - intros p' nd' H. apply lookup_insert_Some in H. destruct H as [[<- _]|[_ H]]; [exact (no_heap ns OK _ _ E)|exact (no_heap ns OK _ _ H)].
Qed.

Section Old.
  Context (ns : nodes) (OK : nodes_ok ns) (p : nat) (n : gostr) (a : attrs) (Ha : nodes_heap ns !! p = Some (Node n a)).
  Lemma old_deref : deref ns p = Node n a.
  Proof. unfold deref. rewrite Ha. reflexivity. Qed.
  Lemma add_old_ok l : nodes_ok (nodes_add_old ns p l).
  Proof.
    unfold nodes_add_old. rewrite old_deref. cbn [node_name]. destruct (nodes_lookup ns !! n) as [q|] eqn:E; [eapply set_attrs_ok; eassumption|].
    assert (F : p ∉ nodes_list ns).
    { intros H. destruct (no_list ns OK _ H) as (nd & H1 & H2). rewrite Ha in H1. injection H1 as <-. cbn in H2. congruence. }
    split; cbn [nodes_lookup nodes_list nodes_heap nodes_next].
    - intros n' p' H. destruct (decide (n = n')) as [<-|Hn].
      + rewrite lookup_insert in H. injection H as <-. split; [apply elem_of_app; right; left|eauto].
      + rewrite lookup_insert_ne in H by exact Hn. destruct (no_lookup ns OK n' p' H) as [H1 H2]. split; [apply elem_of_app; left; exact H1|exact H2].
    - intros p' H. apply elem_of_app in H. destruct H as [H|H].
      + destruct (no_list ns OK p' H) as (nd & H1 & H2). exists nd. split; [exact H1|]. rewrite lookup_insert_ne; [exact H2|]. intros Hn. rewrite <- Hn in H2. congruence.
      + apply elem_of_list_singleton in H. subst p'. eexists. split; [exact Ha|]. cbn. apply lookup_insert.
    - apply NoDup_app. split; [apply (no_nodup ns OK)|]. split; [|apply NoDup_singleton].
      intros x H Hx. apply elem_of_list_singleton in Hx. subst x. contradiction.
    - apply (no_heap ns OK).
  Qed.
  Lemma add_old_nview l : l ≡ₚ map_to_list a -> nview (nodes_add_old ns p l) = <[n := a ∪ default ∅ (nview ns !! n)]> (nview ns).
  Proof.
    intros Hl. unfold nodes_add_old. rewrite old_deref. cbn [node_name]. destruct (nodes_lookup ns !! n) as [q|] eqn:E.
    - change (nview (nodes_set_attrs ns q (extend (node_attrs (deref ns q)) l)) = <[n := a ∪ default ∅ (nview ns !! n)]> (nview ns)).
      rewrite (set_attrs_nview ns n q _ OK E). f_equal. unfold nview. rewrite lookup_fmap, E. cbn. apply extend_enum. exact Hl.
    - unfold nview. cbn [nodes_lookup]. rewrite fmap_insert, lookup_fmap, E. cbn. change (deref _ p) with (deref ns p). rewrite old_deref, (right_id_L ∅ (∪)). reflexivity.
  Qed.
  Lemma add_old_oview l : oview (nodes_add_old ns p l) = match nview ns !! n with Some _ => oview ns | None => oview ns ++ [n] end.
  Proof.
    unfold nodes_add_old. rewrite old_deref. cbn [node_name]. unfold nview. rewrite lookup_fmap. destruct (nodes_lookup ns !! n) as [q|] eqn:E; cbn.
    - exact (set_attrs_oview ns q _).
    - unfold oview. cbn [nodes_list]. rewrite map_app. cbn. change (deref _ p) with (deref ns p). rewrite old_deref. reflexivity.
  Qed.
End Old.

(** ** Attributes *)
Lemma exec_attr_spec o op a : fair o -> spec_attr op a (exec_attr o op a).1 (exec_attr o op a).2.
Proof.
  intros [Fo _]. destruct op as [f v|m|m|f v|f|m]; cbn [exec_attr fst snd]; try constructor.
  - rewrite attrs_add_spec. destruct (decide (valid_attr f)); [apply Sa_add|apply Sa_add_bad]; assumption.
  - rewrite (extend_enum a m) by apply Fo. apply Sa_extend.
  - rewrite (ammend_enum a m) by apply Fo. apply Sa_ammend.
Qed.
Definition op_brings (op : attr_op) : list attrs := match op with AAdd _ _ | ADelete _ => [] | AExtend m | AAmmend m | AAssign m => [m] | ASet f v => [{[f := v]}] end.
Lemma spec_attr_in `{!accepts P} op a a' r : spec_attr op a a' r -> all_in P a -> Forall (all_in P) (op_brings op) -> all_in P a'.
Proof.
  intros S A B. destruct S; cbn in B.
  - apply all_in_insert; [apply accepts_valid; assumption|exact A].
  - exact A.
  - apply Forall_singleton_1 in B. apply all_in_union; assumption.
  - apply Forall_singleton_1 in B. apply all_in_union; assumption.
  - apply Forall_singleton_1 in B. apply all_in_insert; [|exact A]. apply (B f v). apply lookup_singleton.
  - intros k v H. apply lookup_delete_Some in H. apply (A k v). apply H.
  - apply Forall_singleton_1 in B. exact B.
Qed.

(** ** Edges *)
Lemma same_ends_true e e' : same_ends e e' = true <-> between (e_src e) (e_dst e) e'.
Proof. unfold same_ends, between. rewrite andb_true_iff, !str_eqb_eq. split; intros [? ?]; split; congruence. Qed.
Lemma filter_set (s d : gostr) (l : list edge) : forall i e e0, l !! i = Some e0 -> e_src e0 = e_src e -> e_dst e0 = e_dst e ->
  filter (between s d) (<[i := e]> l) = if decide (between s d e) then <[length (filter (between s d) (take i l)) := e]> (filter (between s d) l) else filter (between s d) l.
Proof.
  induction l as [|x l IH]; intros [|i] e e0 H Es Ed; try discriminate; cbn in H.
  - injection H as ->. change (<[0 := e]> (e0 :: l)) with (e :: l). rewrite !filter_cons. assert (between s d e0 <-> between s d e) by (unfold between; rewrite Es, Ed; reflexivity).
    destruct (decide (between s d e)); [rewrite decide_True by tauto; reflexivity|rewrite decide_False by tauto; reflexivity].
  - cbn [take]. change (<[Datatypes.S i := e]> (x :: l)) with (x :: <[i := e]> l). rewrite !filter_cons, (IH i e e0 H Es Ed).
    destruct (decide (between s d e)), (decide (between s d x)); reflexivity.
Qed.
Lemma lookup2_set2 m a b j e a' b' : lookup2 (set2 m a b j e) a' b' =
  if decide (a = a' /\ b = b') then Some (<[j := e]> (default [] (lookup2 m a b))) else lookup2 m a' b'.
Proof.
  unfold lookup2, set2. destruct (decide (a = a')) as [<-|Ha].
  - rewrite lookup_insert. destruct (decide (b = b')) as [<-|Hb].
    + rewrite lookup_insert. rewrite decide_True by auto. destruct (m !! a); reflexivity.
    + rewrite lookup_insert_ne by exact Hb. rewrite decide_False by (intros [_ ?]; contradiction).
      destruct (m !! a); [reflexivity|apply lookup_empty].
  - rewrite lookup_insert_ne by exact Ha. rewrite decide_False by (intros [? _]; contradiction). reflexivity.
Qed.
Lemma edges_set_ok es i e e0 : edges_ok es -> edges_list es !! i = Some e0 -> e_src e0 = e_src e -> e_dst e0 = e_dst e -> edges_ok (edges_set es i e).
Proof.
  intros OK H Es Ed. assert (NE : forall (j : nat) l, e0 ∈ l -> Some (<[j := e]> l) = nonempty (<[j := e]> l)).
  { intros [|j] [|x l] X; try reflexivity; inversion X. }
  assert (IN : e0 ∈ filter (between (e_src e) (e_dst e)) (edges_list es)).
  { apply elem_of_list_filter. split; [split; assumption|]. eapply elem_of_list_lookup_2. exact H. }
  assert (J : List.filter (same_ends e) (take i (edges_list es)) = filter (between (e_src e) (e_dst e)) (take i (edges_list es)))
    by (apply list_filter_bool; intros x; apply same_ends_true).
  split; cbn [edges_set src_to_dsts dst_to_srcs edges_list].
  - intros s d. rewrite lookup2_set2, (filter_set s d _ i e e0 H Es Ed), J. destruct (decide (e_src e = s /\ e_dst e = d)) as [[<- <-]|N].
    + rewrite (decide_True (P := between _ _ _)) by (split; reflexivity). rewrite (eo_src _ OK), nonempty_default. apply NE. exact IN.
    + rewrite (decide_False (P := between _ _ _)) by (intros [? ?]; apply N; split; assumption). apply (eo_src _ OK).
  - intros s d. rewrite lookup2_set2, (filter_set s d _ i e e0 H Es Ed), J. destruct (decide (e_dst e = d /\ e_src e = s)) as [[<- <-]|N].
    + rewrite (decide_True (P := between _ _ _)) by (split; reflexivity). rewrite (eo_dst _ OK), nonempty_default. apply NE. exact IN.
    + rewrite (decide_False (P := between _ _ _)) by (intros [? ?]; apply N; split; assumption). apply (eo_dst _ OK).
  - intros s. unfold set2. destruct (decide (e_src e = s)) as [<-|Hn].
    + rewrite lookup_insert. intros [= X]. exact (insert_non_empty _ _ _ X).
    + rewrite lookup_insert_ne by exact Hn. apply (eo_src_ne _ OK).
  - intros s. unfold set2. destruct (decide (e_dst e = s)) as [<-|Hn].
    + rewrite lookup_insert. intros [= X]. exact (insert_non_empty _ _ _ X).
    + rewrite lookup_insert_ne by exact Hn. apply (eo_dst_ne _ OK).
Qed.

(** ** The heap of nodes: what pointers that were removed show *)
Definition heap_in (P : gostr -> Prop) (ns : nodes) : Prop := forall p nd, nodes_heap ns !! p = Some nd -> all_in P (node_attrs nd).
Lemma deref_in (P : gostr -> Prop) ns p : heap_in P ns -> all_in P (node_attrs (deref ns p)).
Proof. intros H. unfold deref. destruct (nodes_heap ns !! p) as [nd|] eqn:E; cbn; [eapply H; exact E|apply all_in_empty]. Qed.
Lemma heap_in_insert (P : gostr -> Prop) (ns : nodes) lk ls nx p n a : heap_in P ns -> all_in P a -> heap_in P (Nodes lk ls (<[p := Node n a]> (nodes_heap ns)) nx).
Proof. intros H A q nd. cbn. intros E. apply lookup_insert_Some in E. destruct E as [[_ <-]|[_ E]]; [exact A|eapply H; exact E]. Qed.
Lemma nodes_add_heap_in (P : gostr -> Prop) ns n a l : heap_in P ns -> l ≡ₚ map_to_list a -> all_in P a -> heap_in P (nodes_add ns n a l).
Proof.
  intros H Hl A. unfold nodes_add. destruct (nodes_lookup ns !! n) as [p|]; apply heap_in_insert; try assumption.
  rewrite (extend_enum _ a l Hl). apply all_in_union; [exact A|]. apply deref_in. exact H.
Qed.
Lemma nodes_remove_heap ns n : nodes_heap (nodes_remove ns n).1 = nodes_heap ns.
Proof.
  unfold nodes_remove. generalize (nodes_list ns) at 1; intros l. generalize (@nil nat). induction l as [|p l IH]; intros pre; cbn [nodes_remove_loop]; [reflexivity|].
  destruct (str_eqb _ _); [reflexivity|apply IH].
Qed.
Lemma remove_node_heap g p n : nodes_heap (g_nodes (remove_node g p n).1) = nodes_heap (g_nodes g).
Proof.
  unfold remove_node. pose proof (nodes_remove_heap (g_nodes g) n) as H. destruct (nodes_remove (g_nodes g) n) as [ns [e|]]; cbn in *; [reflexivity|exact H].
Qed.
Lemma remove_loop_heap p l : forall g, nodes_heap (g_nodes (remove_nodes_loop g p l).1) = nodes_heap (g_nodes g).
Proof.
  induction l as [|c l IH]; intros g; cbn [remove_nodes_loop]; [reflexivity|].
  pose proof (remove_node_heap g p c) as H. destruct (remove_node g p c) as [g' [e|]]; cbn in *; [exact H|]. rewrite IH. exact H.
Qed.
Lemma add_attr_nodes g n f v : g_nodes (add_attr g n f v).1 = g_nodes g.
Proof.
  unfold add_attr. destruct (str_eqb (g_name g) n); [destruct (attrs_add _ _ _) as [a r]; reflexivity|].
  destruct (g_subs g !! n) as [sb|]; [destruct (attrs_add _ _ _) as [a r]; reflexivity|reflexivity].
Qed.
Lemma add_attrs_nodes n l : forall g, g_nodes (add_attrs_loop g n l).1 = g_nodes g.
Proof.
  induction l as [|[k v] l IH]; intros g; cbn [add_attrs_loop]; [reflexivity|].
  pose proof (add_attr_nodes g n k v) as H. destruct (add_attr g n k v) as [g' [e|]]; cbn in *; [exact H|]. rewrite IH. exact H.
Qed.
Lemma exec_heap_in `{!accepts P} o c g : fair o -> heap_in P (g_nodes g) -> heap_in P (g_nodes (exec o c g).1).
Proof.
  intros [Fo _] H. destruct c; cbn [exec]; try exact H.
  - unfold add_port_edge. destruct (new_attrs _); exact H.
  - unfold add_edge, add_port_edge. destruct (new_attrs _); exact H.
  - unfold add_node. destruct (new_attrs_enum m (o_attrs o 0 m) (Fo 0 m)) as [[V ->]|(V & k & v & H1 & H2 & ->)]; [|exact H].
    cbn. apply nodes_add_heap_in; [exact H|apply Fo|]. apply valid_in; assumption.
  - rewrite add_attr_nodes. exact H.
  - unfold add_subgraph. rewrite add_attrs_nodes. exact H.
  - unfold heap_in. rewrite remove_node_heap. exact H.
  - unfold heap_in, remove_subgraph. pose proof (remove_loop_heap parent (o_names o 0 (children (g_rels g) name)) g) as R.
    destruct (remove_nodes_loop _ _ _) as [g1 [e|]]; cbn in *; rewrite R; exact H.
Qed.
Lemma direct_heap_in `{!accepts P} o d g : fair o -> Forall (all_in P) (brings d) -> heap_in P (g_nodes g) -> heap_in P (g_nodes (exec_direct o d g).1).
Proof.
  intros F B H. pose proof (proj1 F) as Fo. destruct d as [n a|p|n|e|n|n|p c|p c|t op|i sp dp dir]; cbn [exec_direct]; try exact H.
  - apply nodes_add_heap_in; [exact H|apply Fo|]. cbn in B. apply Forall_singleton_1 in B. exact B.
  - cbn. unfold nodes_add_old. destruct (nodes_lookup _ !! _) as [q|]; [|exact H]. apply heap_in_insert; [exact H|].
    rewrite (extend_enum _ (node_attrs (deref (g_nodes g) p))) by apply Fo. apply all_in_union; apply deref_in; exact H.
  - pose proof (nodes_remove_heap (g_nodes g) n) as R. destruct (nodes_remove (g_nodes g) n) as [ns r]. unfold heap_in. cbn in *. rewrite R. exact H.
  - destruct t as [|n|n|i|p].
    + destruct (exec_attr _ _ _). exact H.
    + destruct (g_subs g !! n); [|exact H]. destruct (exec_attr _ _ _). exact H.
    + destruct (nodes_lookup (g_nodes g) !! n) as [p|]; [|exact H]. pose proof (exec_attr_spec o op (node_attrs (deref (g_nodes g) p)) F) as S.
      destruct (exec_attr _ _ _) as [a r]. cbn in *. apply heap_in_insert; [exact H|]. eapply spec_attr_in; [exact S|apply deref_in; exact H|].
      destruct op; cbn in *; assumption.
    + destruct (edges_list (g_edges g) !! i) as [e|]; [|exact H]. destruct (exec_attr _ _ _). exact H.
    + pose proof (exec_attr_spec o op (node_attrs (deref (g_nodes g) p)) F) as S.
      destruct (exec_attr _ _ _) as [a r]. cbn in *. apply heap_in_insert; [exact H|]. eapply spec_attr_in; [exact S|apply deref_in; exact H|].
      destruct op; cbn in *; assumption.
  - destruct (edges_list (g_edges g) !! i) as [e|]; exact H.
Qed.

(** ** The graph *)
Lemma direct_eq look cur c s s1 s2 r : spec_direct look cur c s s1 r -> s1 = s2 -> spec_direct look cur c s s2 r.
Proof. intros H <-. exact H. Qed.
Theorem direct_ok `{!accepts P} o d g : fair o -> possible g d -> Forall (all_in P) (brings d) -> heap_in P (g_nodes g) -> graph_okP P g ->
  graph_okP P (exec_direct o d g).1 /\
  spec_direct (fun p => nodes_heap (g_nodes g) !! p) (fun n => nodes_lookup (g_nodes g) !! n) d (view g) (view (exec_direct o d g).1) (exec_direct o d g).2.
Proof.
  intros F Hp B Hh OK. pose proof (proj1 F) as Fo. destruct d as [n a|p|n|e|n|n|p c|p c|t op|i sp dp dir]; cbn [exec_direct fst snd brings] in *.
  - apply Forall_singleton_1 in B. pose proof (nodes_add_nview (g_nodes g) n a (o_attrs o 0 a) (go_nodes g OK) (Fo 0 a)) as Hn. split.
    + destruct OK as [O1 O2 O3 O4 O5 O6 O7 O8]. split; cbn; try assumption; [apply nodes_add_ok; assumption|].
      intros n' a' H. rewrite Hn in H. apply lookup_insert_Some in H. destruct H as [[<- <-]|[_ H]]; [|eauto].
      apply all_in_union; [exact B|]. apply all_in_default. eauto.
    + eapply direct_eq; [apply Sd_add_node|]. apply sgraph_eq; try reflexivity; [symmetry; exact Hn|].
      symmetry. apply (nodes_add_oview (g_nodes g) n a _ (go_nodes g OK)).
  - destruct Hp as [[n a] Hp]. pose proof (old_deref _ p n a Hp) as D. rewrite D. cbn [node_attrs].
    pose proof (add_old_nview (g_nodes g) (go_nodes g OK) p n a Hp (o_attrs o 0 a) (Fo 0 a)) as Hn. split.
    + destruct OK as [O1 O2 O3 O4 O5 O6 O7 O8]. split; cbn; try assumption; [eapply add_old_ok; eassumption|].
      intros n' a' H. rewrite Hn in H. apply lookup_insert_Some in H. destruct H as [[<- <-]|[_ H]]; [|eauto].
      apply all_in_union; [exact (Hh p _ Hp)|]. apply all_in_default. eauto.
    + eapply direct_eq; [apply (Sd_add_old _ _ p n a _ Hp)|]. apply sgraph_eq; try reflexivity; [symmetry; exact Hn|].
      symmetry. apply (add_old_oview (g_nodes g) p n a Hp).
  - destruct (nodes_remove_spec (g_nodes g) n (go_nodes g OK)) as [[H1 ->]|(H1 & ns' & -> & H2 & H3 & H4)]; cbn [fst snd].
    + split; [destruct OK; split; assumption|]. eapply direct_eq; [apply Sd_remove_node_bad; rewrite view_is_node, H1; apply is_Some_None|]. apply sgraph_eq; reflexivity.
    + split.
      * destruct OK as [O1 O2 O3 O4 O5 O6 O7 O8]. split; cbn; try assumption. intros n' a H. rewrite H3 in H. apply lookup_delete_Some in H. destruct H as [_ H]. eauto.
      * eapply direct_eq; [apply Sd_remove_node; apply view_is_node; exact H1|]. apply sgraph_eq; try reflexivity; symmetry; assumption.
  - apply Forall_singleton_1 in B. split.
    + destruct OK as [O1 O2 O3 O4 O5 O6 O7 O8]. split; cbn; try assumption; [apply edges_add_ok; assumption|].
      intros e' He. apply elem_of_app in He. destruct He as [He|He]; [auto|]. apply elem_of_list_singleton in He. subst e'. exact B.
    + eapply direct_eq; [apply Sd_add_edge|]. apply sgraph_eq; reflexivity.
  - split.
    + destruct OK as [O1 O2 O3 O4 O5 O6 O7 O8]. split; cbn; try assumption.
      * intros n' s'. unfold subs_add. destruct (g_subs g !! n); [apply O4|]. intros H. apply lookup_insert_Some in H.
        destruct H as [[<- <-]|[_ H]]; [reflexivity|eauto].
      * intros n' s'. unfold subs_add. destruct (g_subs g !! n); [apply O8|]. intros H. apply lookup_insert_Some in H.
        destruct H as [[<- <-]|[_ H]]; [apply all_in_empty|eauto].
    + eapply direct_eq; [apply Sd_add_sub|]. apply sgraph_eq; try reflexivity. cbn. unfold subs_add. apply map_eq. intros k. rewrite !lookup_fmap.
      destruct (g_subs g !! n) as [sg|] eqn:E; cbn.
      * destruct (decide (n = k)) as [<-|Hn]; [rewrite lookup_insert, E; reflexivity|]. rewrite lookup_insert_ne, lookup_fmap by exact Hn. reflexivity.
      * destruct (decide (n = k)) as [<-|Hn]; [rewrite !lookup_insert; reflexivity|]. rewrite !lookup_insert_ne, lookup_fmap by exact Hn. reflexivity.
  - split.
    + destruct OK as [O1 O2 O3 O4 O5 O6 O7 O8]. split; cbn; try assumption; intros n' s' H; apply lookup_delete_Some in H; destruct H as [_ H]; eauto.
    + eapply direct_eq; [apply Sd_remove_sub|]. apply sgraph_eq; try reflexivity. cbn. symmetry. apply fmap_delete.
  - split.
    + destruct OK as [O1 O2 O3 O4 O5 O6 O7 O8]. split; cbn; try assumption. apply relations_add_ok. assumption.
    + eapply direct_eq; [apply Sd_add_rel|]. apply sgraph_eq; try reflexivity. apply set_eq. intros [p' c']. cbn.
      rewrite elem_of_union, elem_of_singleton, !elem_of_rel_pairs, rel_insert_elem, pair_equal_spec. reflexivity.
  - split.
    + destruct OK as [O1 O2 O3 O4 O5 O6 O7 O8]. split; cbn; try assumption. apply relations_remove_ok. assumption.
    + eapply direct_eq; [apply Sd_remove_rel|]. apply sgraph_eq; try reflexivity. apply set_eq. intros [p' c']. cbn.
      rewrite elem_of_difference, elem_of_singleton, !elem_of_rel_pairs, rel_delete_elem, pair_equal_spec. tauto.
  - assert (B' : Forall (all_in P) (op_brings op)) by (destruct op; exact B). clear B. destruct t as [|n|n|i|p].
    + pose proof (exec_attr_spec o op (g_attrs g) F) as S. destruct (exec_attr o op (g_attrs g)) as [a r]. cbn [fst snd] in *. split.
      * destruct OK as [O1 O2 O3 O4 O5 O6 O7 O8]. split; cbn; try assumption. eapply spec_attr_in; eassumption.
      * eapply direct_eq; [apply Sd_attrs; exact S|]. apply sgraph_eq; reflexivity.
    + destruct Hp as [sb E]. rewrite E. pose proof (exec_attr_spec o op (sub_attrs sb) F) as S. destruct (exec_attr o op (sub_attrs sb)) as [a r]. cbn [fst snd] in *. split.
      * destruct OK as [O1 O2 O3 O4 O5 O6 O7 O8]. split; cbn; try assumption; intros n' s' H; apply lookup_insert_Some in H; destruct H as [[<- <-]|[_ H]]; try (eauto; fail); cbn.
        -- apply (O4 n sb E).
        -- eapply spec_attr_in; [exact S|apply (O8 n sb E)|exact B'].
      * eapply direct_eq; [eapply (Sd_sub_attrs _ _ op n (view g) (sub_attrs sb)); [cbn; rewrite lookup_fmap, E; reflexivity|exact S]|].
        apply sgraph_eq; try reflexivity. cbn. rewrite fmap_insert. reflexivity.
    + destruct Hp as [p E]. rewrite E. pose proof (exec_attr_spec o op (node_attrs (deref (g_nodes g) p)) F) as S.
      destruct (exec_attr o op (node_attrs (deref (g_nodes g) p))) as [a r]. cbn [fst snd] in *.
      pose proof (set_attrs_nview (g_nodes g) n p a (go_nodes g OK) E) as Hn. split.
      * assert (A : all_in P a) by (eapply spec_attr_in; [exact S|apply deref_in; exact Hh|exact B']).
        destruct OK as [O1 O2 O3 O4 O5 O6 O7 O8]. split; cbn; try assumption; [eapply set_attrs_ok; eassumption|].
        intros n' a' H. change (nview (nodes_set_attrs (g_nodes g) p a) !! n' = Some a') in H. rewrite Hn in H. apply lookup_insert_Some in H. destruct H as [[<- <-]|[_ H]]; [exact A|eauto].
      * eapply direct_eq; [eapply (Sd_node_attrs _ _ op n (view g) (node_attrs (deref (g_nodes g) p))); [cbn; rewrite lookup_fmap, E; reflexivity|exact S]|].
        apply sgraph_eq; try reflexivity; [symmetry; exact Hn|]. symmetry. apply set_attrs_oview.
    + destruct Hp as [[src sp dst dp dir a0] E]. rewrite E. pose proof (exec_attr_spec o op a0 F) as S. cbn [e_attrs e_src e_src_port e_dst e_dst_port e_dir]. destruct (exec_attr o op a0) as [a r]. cbn [fst snd] in *.
      assert (A0 : all_in P a0) by exact (go_eattrs g OK _ (elem_of_list_lookup_2 _ _ _ E)). split.
      * destruct OK as [O1 O2 O3 O4 O5 O6 O7 O8]. split; cbn [with_edges g_nodes g_edges g_rels g_subs g_attrs]; try assumption; [eapply edges_set_ok; [exact O2|exact E|reflexivity|reflexivity]|].
        intros e' He. cbn in He. apply elem_of_list_lookup in He. destruct He as [k He]. apply list_lookup_insert_Some in He.
        destruct He as [(_ & <- & _)|[_ He]]; [eapply spec_attr_in; eassumption|]. apply O7. eapply elem_of_list_lookup_2. exact He.
      * eapply direct_eq; [eapply (Sd_edge_attrs _ _ op i (view g)); [exact E|exact S]|]. apply sgraph_eq; reflexivity.
    + destruct Hp as [[n a0] E]. pose proof (exec_attr_spec o op a0 F) as S. rewrite (old_deref _ p n a0 E). cbn [node_attrs]. destruct (exec_attr o op a0) as [a r]. cbn [fst snd] in *.
      assert (A : all_in P a) by (eapply spec_attr_in; [exact S|exact (Hh p _ E)|exact B']).
      destruct (decide (nodes_lookup (g_nodes g) !! n = Some p)) as [L|L].
      * pose proof (set_attrs_nview (g_nodes g) n p a (go_nodes g OK) L) as Hn. split.
        -- destruct OK as [O1 O2 O3 O4 O5 O6 O7 O8]. split; cbn; try assumption; [eapply set_attrs_ok; eassumption|].
           intros n' a' H. change (nview (nodes_set_attrs (g_nodes g) p a) !! n' = Some a') in H. rewrite Hn in H. apply lookup_insert_Some in H. destruct H as [[<- <-]|[_ H]]; [exact A|eauto].
        -- eapply direct_eq; [eapply (Sd_ptr_attrs _ _ op p n (view g) a0); [exact E|exact S]|]. rewrite decide_True by exact L.
           apply sgraph_eq; try reflexivity; [symmetry; exact Hn|]. symmetry. apply set_attrs_oview.
      * assert (DE : forall q, p <> q -> deref (nodes_set_attrs (g_nodes g) p a) q = deref (g_nodes g) q).
        { intros q Hq. unfold deref. cbn. rewrite lookup_insert_ne by exact Hq. reflexivity. }
        assert (NM : forall q, node_name (deref (nodes_set_attrs (g_nodes g) p a) q) = node_name (deref (g_nodes g) q)).
        { intros q. destruct (decide (p = q)) as [<-|Hq]; [|rewrite (DE q Hq); reflexivity]. unfold deref. cbn. rewrite lookup_insert. reflexivity. }
        assert (NV : nview (nodes_set_attrs (g_nodes g) p a) = nview (g_nodes g)).
        { unfold nview. cbn [nodes_set_attrs nodes_lookup]. apply map_eq. intros k. rewrite !lookup_fmap. destruct (nodes_lookup (g_nodes g) !! k) as [q|] eqn:Ek; [|reflexivity].
          cbn. f_equal. rewrite DE; [reflexivity|]. intros <-. apply L. destruct (no_lookup _ (go_nodes g OK) k p Ek) as [_ [a1 E1]]. rewrite E in E1. injection E1 as <- _. exact Ek. }
        split.
        -- destruct OK as [O1 O2 O3 O4 O5 O6 O7 O8]. split; cbn; try assumption; [eapply set_ptr_ok; eassumption|].
           intros n' a' H. change (nview (nodes_set_attrs (g_nodes g) p a) !! n' = Some a') in H. rewrite NV in H. eauto.
        -- eapply direct_eq; [eapply (Sd_ptr_attrs _ _ op p n (view g) a0); [exact E|exact S]|]. rewrite decide_False by exact L.
           apply sgraph_eq; try reflexivity; [symmetry; exact NV|]. symmetry. apply set_attrs_oview.
  - destruct Hp as [[src sp0 dst dp0 dir0 a] E]. rewrite E. cbn [e_attrs e_src e_dst].
    assert (A0 : all_in P a) by exact (go_eattrs g OK _ (elem_of_list_lookup_2 _ _ _ E)). split.
    + destruct OK as [O1 O2 O3 O4 O5 O6 O7 O8]. split; cbn [fst with_edges g_nodes g_edges g_rels g_subs g_attrs]; try assumption; [eapply edges_set_ok; [exact O2|exact E|reflexivity|reflexivity]|].
      intros e' He. cbn in He. apply elem_of_list_lookup in He. destruct He as [k He]. apply list_lookup_insert_Some in He.
      destruct He as [(_ & <- & _)|[_ He]]; [exact A0|]. apply O7. eapply elem_of_list_lookup_2. exact He.
    + cbn [fst snd]. eapply direct_eq; [eapply (Sd_edge_fields _ _ i (view g)); exact E|]. apply sgraph_eq; reflexivity.
Qed.

Lemma heap_in_new (P : gostr -> Prop) : heap_in P (g_nodes new_graph).
Proof. intros p nd. cbn. rewrite lookup_empty. discriminate. Qed.
Lemma built_with_ok `{!accepts P} g : built_with P g -> graph_okP P g /\ heap_in P (g_nodes g).
Proof.
  induction 1 as [|g o c R [IH1 IH2] Fo|g o d R [IH1 IH2] Fo Hp B]; [split; [apply graph_ok_new|apply heap_in_new]| |].
  - split; [apply exec_ok; assumption|apply exec_heap_in; assumption].
  - split; [apply direct_ok; assumption|apply direct_heap_in; assumption].
Qed.
Lemma built_any g : built g -> built_with (fun _ => True) g.
Proof.
  induction 1 as [|g o c R IH Fo|g o d R IH Fo Hp]; [constructor|apply bw_call; assumption|]. apply bw_direct; try assumption.
  apply Forall_forall. intros m _ k v _. exact I.
Qed.
Lemma built_ok g : built g -> graph_okP (fun _ => True) g.
Proof. intros R. apply (@built_with_ok _ accepts_any g), built_any, R. Qed.
Lemma proper_ok g : proper g -> graph_ok g.
Proof. intros R. apply (built_with_ok (P := valid_attr) g R). Qed.
