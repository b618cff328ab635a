(** Properties C13-C23, C28 (API part), C43-C45: the mutating API, its indexes, its refinement of the
    abstract graph of SpecGraph. *)
From stdpp Require Import sorting.
From Verif Require SpecAttrNames.
From Verif Require Import Maps Graph SpecGraph MapFacts GraphProofs AttrMap Direct SpecDirect DirectProofs.
Local Existing Instance accepts_any.
From Verif Require Ast.

(** Iteration orders exist. *)
Definition o_id : oracle := Oracle (fun _ m => map_to_list m) (fun _ s => elements s).
Lemma fair_id : fair o_id.
Proof. split; intros; reflexivity. Qed.

(** A history used in the examples: a graph G with a subgraph S holding the nodes b and c, two
    edges, an attribute, a failing call and a removal. *)
Definition A (l : list (gostr * gostr)) : attrs := list_to_map l.
Definition h1 : list (oracle * call) := map (pair o_id)
  [CSetName (lit "G"); CSetDir true; CAddNode (lit "G") (lit "a") (A [(lit "color", lit "red"); (lit "label", lit "x")]);
   CAddSubGraph (lit "G") (lit "S") (A [(lit "rank", lit "same")]);
   CAddNode (lit "S") (lit "b") ∅; CAddNode (lit "S") (lit "c") ∅;
   CAddEdge (lit "a") (lit "b") true ∅; CAddPortEdge (lit "a") (lit "p") (lit "c") [] true (A [(lit "color", lit "blue")]);
   CAddEdge (lit "b") (lit "a") true ∅; CAddEdge (lit "a") (lit "b") true (A [(lit "label", lit "y")]);
   CAddNode (lit "G") (lit "bad") (A [(lit "nonsense", lit "1")]);
   CAddNode (lit "G") (lit "a") (A [(lit "color", lit "green")]); CRemoveNode (lit "S") (lit "c")].
Definition g1 : agraph := (run h1 new_graph).1.
Lemma reach_g1 : reachable g1.
Proof. apply run_reachable; [|constructor]. repeat constructor; intros; reflexivity. Qed.

Ltac fix_view g' E2 := try match goal with
  | E : _ = view g' |- _ => rename E into E2
  | E : view g' = _ |- _ => symmetry in E; rename E into E2 end.

(** ** C13: the two indexes of the nodes agree *)
Theorem C13_node_index : forall g, built g ->
  (forall n p, nodes_lookup (g_nodes g) !! n = Some p ->
     p ∈ nodes_list (g_nodes g) /\ exists a, nodes_heap (g_nodes g) !! p = Some (Node n a)) /\
  (forall p, p ∈ nodes_list (g_nodes g) ->
     exists nd, nodes_heap (g_nodes g) !! p = Some nd /\ nodes_lookup (g_nodes g) !! node_name nd = Some p) /\
  NoDup (map (fun p => node_name (deref (g_nodes g) p)) (nodes_list (g_nodes g))).
Proof.
  intros g R. pose proof (go_nodes g (built_ok g R)) as OK.
  split; [apply (no_lookup _ OK)|]. split; [apply (no_list _ OK)|]. apply (oview_nodup _ OK).
Qed.
Print Assumptions C13_node_index.
Example C13_example : reachable g1 /\ length (nodes_list (g_nodes g1)) = 2 /\ is_node g1 (lit "b") = true /\ is_node g1 (lit "c") = false.
Proof. split; [apply reach_g1|]. split; [vm_compute; reflexivity|]. split; vm_compute; reflexivity. Qed.

(** ** C14: the two indexes of the edges are exactly the sub-sequences of the list of edges *)
Theorem C14_edge_index : forall g, built g ->
  (forall s d, let l := filter (fun e => e_src e = s /\ e_dst e = d) (edges_list (g_edges g)) in
     (l <> [] -> (exists inner, src_to_dsts (g_edges g) !! s = Some inner /\ inner !! d = Some l) /\
                 (exists inner, dst_to_srcs (g_edges g) !! d = Some inner /\ inner !! s = Some l)) /\
     (l = [] -> (forall inner, src_to_dsts (g_edges g) !! s = Some inner -> inner !! d = None) /\
                (forall inner, dst_to_srcs (g_edges g) !! d = Some inner -> inner !! s = None))) /\
  (forall s, src_to_dsts (g_edges g) !! s <> Some ∅) /\ (forall d, dst_to_srcs (g_edges g) !! d <> Some ∅).
Proof.
  intros g R. pose proof (go_edges g (built_ok g R)) as OK. split; [|split; [apply (eo_src_ne _ OK)|apply (eo_dst_ne _ OK)]].
  intros s d. pose proof (eo_src _ OK s d) as H1. pose proof (eo_dst _ OK s d) as H2. unfold lookup2 in H1, H2.
  assert (E : filter (between s d) (edges_list (g_edges g)) = filter (fun e => e_src e = s /\ e_dst e = d) (edges_list (g_edges g))).
  { apply list_filter_iff. intros e. reflexivity. }
  rewrite E in H1, H2. cbv zeta. clear E. set (l := filter _ _) in *. destruct l as [|e l].
  - split; [congruence|]. intros _. split; intros inner Hi; rewrite Hi in *; assumption.
  - split; [|discriminate]. intros _. cbn in H1, H2. split.
    + destruct (src_to_dsts (g_edges g) !! s) as [inner|]; [|discriminate]. eauto.
    + destruct (dst_to_srcs (g_edges g) !! d) as [inner|]; [|discriminate]. eauto.
Qed.
Print Assumptions C14_edge_index.
Example C14_example : reachable g1 /\ length (filter (fun e => e_src e = lit "a" /\ e_dst e = lit "b") (edges_list (g_edges g1))) = 2 /\
  length (edges_list (g_edges g1)) = 3.
Proof. split; [apply reach_g1|]. split; vm_compute; reflexivity. Qed.

(** ** C15: the two relation maps are converses of each other *)
Theorem C15_relations_mirror : forall g, built g -> forall p c,
  (exists s, parent_to_children (g_rels g) !! p = Some s /\ c ∈ s) <->
  (exists s, child_to_parents (g_rels g) !! c = Some s /\ p ∈ s).
Proof.
  intros g R p c. pose proof (go_rels g (built_ok g R) p c) as H. unfold children, parents in H.
  assert (D : forall (m : gmap gostr names) k x, x ∈ default ∅ (m !! k) <-> exists s, m !! k = Some s /\ x ∈ s).
  { intros m k x. destruct (m !! k) as [s|]; cbn; [split; [eauto|intros (? & [= <-] & ?); assumption]|].
    split; [intros F; apply elem_of_empty in F; contradiction|intros (? & ? & _); discriminate]. }
  rewrite <- !D. exact H.
Qed.
Print Assumptions C15_relations_mirror.
Example C15_example : lit "b" ∈ default ∅ (parent_to_children (g_rels g1) !! lit "S") /\ lit "c" ∉ default ∅ (parent_to_children (g_rels g1) !! lit "S").
Proof. split; apply (bool_decide_unpack _); vm_compute; exact I. Qed.

(** ** C16: only valid attribute names *)
Theorem C16_only_valid_attributes : forall g, reachable g -> forall k v,
  (g_attrs g !! k = Some v -> k ∈ valid_attrs) /\
  (forall n s, g_subs g !! n = Some s -> sub_attrs s !! k = Some v -> k ∈ valid_attrs) /\
  (forall p, p ∈ nodes_list (g_nodes g) -> node_attrs (deref (g_nodes g) p) !! k = Some v -> k ∈ valid_attrs) /\
  (forall e, e ∈ edges_list (g_edges g) -> e_attrs e !! k = Some v -> k ∈ valid_attrs).
Proof.
  intros g R k v. pose proof (reachable_ok g R) as OK. split; [apply (go_attrs g OK)|]. split.
  - intros n s H. apply (go_sattrs g OK n s H).
  - split; [|intros e H; apply (go_eattrs g OK e H)]. intros p Hp H.
    eapply (go_nattrs g OK (node_name (deref (g_nodes g) p))); [|exact H].
    unfold nview. rewrite lookup_fmap, (lookup_deref _ (go_nodes g OK) p Hp). reflexivity.
Qed.
Print Assumptions C16_only_valid_attributes.
Theorem C16_new_attr : forall k, 
  (k ∈ valid_attrs -> new_attr k = inl k) /\ (k ∉ valid_attrs -> exists e, new_attr k = inr e).
Proof.
  intros k. rewrite new_attr_spec. split; intros H.
  - rewrite decide_True by exact H. reflexivity.
  - rewrite decide_False by exact H. eauto.
Qed.
Print Assumptions C16_new_attr.
(** The names: those of the Graphviz reference, and four more. *)
Definition spec_names : list gostr := map lit (SpecAttrNames.documented_names ++ SpecAttrNames.extra_names).
Definition subb (l l' : list gostr) : bool := forallb (fun s => existsb (str_eqb s) l') l.
Lemma subb_in l l' s : subb l l' = true -> In s l -> In s l'.
Proof.
  intros H Hs. unfold subb in H. rewrite forallb_forall in H. apply H, existsb_exists in Hs. destruct Hs as (x & Hx & E). apply str_eqb_eq in E. subst. exact Hx.
Qed.
Lemma names_check : subb spec_names valid_attrs = true /\ subb valid_attrs spec_names = true.
Proof. split; vm_compute; reflexivity. Qed.
Theorem C16_names : forall k, (exists a, new_attr k = inl a) <->
  exists s, k = lit s /\ (s ∈ SpecAttrNames.documented_names \/ s ∈ SpecAttrNames.extra_names).
Proof.
  intros k. destruct names_check as [H1 H2]. split.
  - intros [a Ha]. destruct (decide (k ∈ valid_attrs)) as [D|D]; [|destruct (proj2 (C16_new_attr k) D) as [e He]; rewrite He in Ha; discriminate Ha]. apply elem_of_list_In in D. apply (subb_in _ _ _ H2) in D.
    apply in_map_iff in D. destruct D as (s & Es & Hs). exists s. split; [symmetry; exact Es|]. apply in_app_iff in Hs. rewrite !elem_of_list_In. exact Hs.
  - intros (s & -> & Hs). exists (lit s). apply C16_new_attr. rewrite !elem_of_list_In in *. apply (subb_in _ _ _ H1), in_map, in_app_iff, Hs.
Qed.
Print Assumptions C16_names.
Example C16_example : lit "color" ∈ valid_attrs /\ lit "nonsense" ∉ valid_attrs.
Proof. split; [apply (bool_decide_unpack _); vm_compute; exact I|apply (bool_decide_unpack _); vm_compute; exact I]. Qed.

(** ** C17: AddNode *)
Theorem C17_add_node : forall o g parent n m, fair o -> built g -> all_valid m ->
  exists g', add_node o g parent n m = (g', None) /\
  let s := view g in let s' := view g' in
  (forall x, s_nodes s' !! x = if decide (x = n) then Some (m ∪ default ∅ (s_nodes s !! n)) else s_nodes s !! x) /\
  (forall p c, is_child s' p c <-> is_child s p c \/ (p = parent /\ c = n)) /\
  s_order s' = (if decide (is_Some (s_nodes s !! n)) then s_order s else s_order s ++ [n]) /\
  s_edges s' = s_edges s /\ s_subs s' = s_subs s /\ s_attrs s' = s_attrs s /\
  s_name s' = s_name s /\ s_directed s' = s_directed s /\ s_strict s' = s_strict s.
Proof.
  intros o g parent n m Fo R V. pose proof (ok_node o g parent n m Fo (built_ok g R)) as H.
  destruct (add_node o g parent n m) as [g' r]. destruct H as [_ H].
  remember (view g') as s2 eqn:E2. inversion H; subst; [|match goal with B : bad_attr _ _ |- _ => destruct B as (k & v & B1 & B2 & _); destruct (B2 (V k v B1)) end].
  exists g'. split; [reflexivity|]. cbv zeta. fix_view g' E2. rewrite <- E2.
  split; [|split; [|split; [|repeat split]]].
  - intros x. cbn. destruct (decide (x = n)) as [->|Hn]; [apply lookup_insert|apply lookup_insert_ne; congruence].
  - intros p c. unfold is_child. cbn. rewrite elem_of_union, elem_of_singleton, pair_equal_spec. tauto.
  - cbn. destruct (decide _) as [[a D]|D]; [rewrite D; reflexivity|]. apply eq_None_not_Some in D. rewrite D. reflexivity.
Qed.
Print Assumptions C17_add_node.
(** Attributes of an existing node: the new value wins, the others stay. *)
Theorem C17_merge : forall o g parent n m a k, fair o -> built g -> all_valid m -> s_nodes (view g) !! n = Some a ->
  exists a', s_nodes (view (add_node o g parent n m).1) !! n = Some a' /\
    a' !! k = match m !! k with Some v => Some v | None => a !! k end.
Proof.
  intros o g parent n m a k Fo R V Hn. destruct (C17_add_node o g parent n m Fo R V) as (g' & E & H & _).
  exists (m ∪ a). rewrite E. cbn [fst]. split.
  - rewrite H, decide_True by reflexivity. cbv zeta. rewrite Hn. reflexivity.
  - rewrite lookup_union. destruct (m !! k), (a !! k); reflexivity.
Qed.
Print Assumptions C17_merge.
Example C17_example : s_nodes (view g1) !! lit "a" = Some (A [(lit "color", lit "green"); (lit "label", lit "x")]).
Proof. apply (bool_decide_unpack _). vm_compute. exact I. Qed.

(** ** C18: RemoveNode *)
Theorem C18_remove_node : forall g parent n, built g -> is_node g n = true ->
  exists g', remove_node g parent n = (g', None) /\
  let s := view g in let s' := view g' in
  (forall x, s_nodes s' !! x = if decide (x = n) then None else s_nodes s !! x) /\
  s_order s' = filter (fun x => x <> n) (s_order s) /\
  s_edges s' = filter (fun e => e_src e <> n /\ e_dst e <> n) (s_edges s) /\
  (forall p c, is_child s' p c <-> is_child s p c /\ ~ (p = parent /\ c = n)) /\
  s_subs s' = s_subs s /\ s_attrs s' = s_attrs s /\
  s_name s' = s_name s /\ s_directed s' = s_directed s /\ s_strict s' = s_strict s.
Proof.
  intros g parent n R Hn. unfold is_node in Hn. assert (Hi : is_Some (nodes_lookup (g_nodes g) !! n)) by (destruct (nodes_lookup (g_nodes g) !! n); [eauto|discriminate]).
  apply view_is_node in Hi. destruct (remove_node_spec g parent n (built_ok g R)) as [[H _]|(_ & g' & H1 & _ & H2)]; [contradiction|].
  exists g'. split; [exact H1|]. cbv zeta. rewrite H2. split; [|split; [|split; [|split; [|repeat split]]]].
  - intros x. cbn. destruct (decide (x = n)) as [->|Hx].
    + apply map_filter_lookup_None. right. intros a _. cbn. intros F. apply F, elem_of_singleton. reflexivity.
    + destruct (((λ p : nat, node_attrs (deref (g_nodes g) p)) <$> nodes_lookup (g_nodes g)) !! x) as [a|] eqn:E.
      * apply map_filter_lookup_Some. split; [exact E|]. cbn. apply not_elem_of_singleton. exact Hx.
      * apply map_filter_lookup_None. left. exact E.
  - cbn. apply list_filter_iff. intros x. apply not_elem_of_singleton.
  - cbn. apply list_filter_iff. intros x. unfold avoids. rewrite !not_elem_of_singleton. reflexivity.
  - intros p c. unfold is_child. cbn. rewrite elem_of_filter. cbn. rewrite elem_of_singleton. tauto.
Qed.
Print Assumptions C18_remove_node.
Theorem C18_remove_unknown : forall g parent n, built g -> is_node g n = false ->
  remove_node g parent n = (g, Some (lit "node " ++ n ++ lit " not found")).
Proof.
  intros g parent n R Hn. destruct (remove_node_spec g parent n (built_ok g R)) as [[_ H]|(H & _)]; [exact H|].
  apply view_is_node in H. unfold is_node in Hn. destruct H as [p H]. rewrite H in Hn. discriminate.
Qed.
Print Assumptions C18_remove_unknown.
Example C18_example : is_node g1 (lit "b") = true /\ length (s_edges (view g1)) = 3 /\
  length (s_edges (view (remove_node g1 (lit "S") (lit "b")).1)) = 0.
Proof. split; [vm_compute; reflexivity|]. split; vm_compute; reflexivity. Qed.

(** ** C19: failing calls leave the graph exactly as it was *)
Definition atomic (c : call) : Prop :=
  match c with CAddSubGraph _ _ _ | CRemoveSubGraph _ _ => False | _ => True end.
Theorem C19_failure_is_atomic : forall o c g g' e, fair o -> built g -> atomic c ->
  exec o c g = (g', Some e) -> g' = g.
Proof.
  intros o c g g' e Fo R Hc H. destruct c; cbn in Hc, H; try contradiction; try discriminate.
  - unfold add_port_edge in H. destruct (new_attrs _); congruence.
  - unfold add_edge, add_port_edge in H. destruct (new_attrs _); congruence.
  - unfold add_node in H. destruct (new_attrs _); congruence.
  - destruct (add_attr_spec g parent field value (built_ok g R)) as [[_ E]|[(_ & _ & g2 & E & _ & ->)|(_ & _ & g2 & E & _)]]; congruence.
  - unfold remove_node in H. destruct (nodes_remove (g_nodes g) name) as [ns [e'|]]; congruence.
Qed.
Print Assumptions C19_failure_is_atomic.
(** and these calls fail exactly when ... *)
Theorem C19_when_calls_fail : forall o g, fair o -> built g ->
  (forall p n m, (add_node o g p n m).2 = None <-> all_valid m) /\
  (forall a b dir m, (add_edge o g a b dir m).2 = None <-> all_valid m) /\
  (forall a pa b pb dir m, (add_port_edge o g a pa b pb dir m).2 = None <-> all_valid m) /\
  (forall n f v, (add_attr g n f v).2 = None <-> (g_name g = n \/ is_subgraph g n = true) /\ f ∈ valid_attrs) /\
  (forall p n, (remove_node g p n).2 = None <-> is_node g n = true).
Proof.
  intros o g [Fo Fn] R. pose proof (built_ok g R) as OK. split; [|split; [|split; [|split]]].
  - intros p n m. unfold add_node. destruct (new_attrs_enum m (o_attrs o 0 m) (Fo 0 m)) as [[V ->]|(V & k & v & H1 & H2 & ->)]; cbn; split; auto; try discriminate; contradiction.
  - intros a b dir m. unfold add_edge, add_port_edge. destruct (new_attrs_enum m (o_attrs o 0 m) (Fo 0 m)) as [[V ->]|(V & k & v & H1 & H2 & ->)]; cbn; split; auto; try discriminate; contradiction.
  - intros a pa b pb dir m. unfold add_port_edge. destruct (new_attrs_enum m (o_attrs o 0 m) (Fo 0 m)) as [[V ->]|(V & k & v & H1 & H2 & ->)]; cbn; split; auto; try discriminate; contradiction.
  - intros n f v. assert (I : has_attrs (view g) n <-> g_name g = n \/ is_subgraph g n = true).
    { unfold has_attrs. rewrite view_is_sub. cbn. unfold is_subgraph. destruct (g_subs g !! n); split; (intros [H|H]; [auto|]); eauto; try (destruct H; discriminate); discriminate. }
    rewrite <- I. destruct (add_attr_spec g n f v OK) as [[H ->]|[(H & V & g2 & -> & _ & _)|(H & V & g2 & -> & _)]]; cbn; split; auto; try discriminate; tauto.
  - intros p n. destruct (remove_node_spec g p n OK) as [[H ->]|(H & g2 & -> & _)]; cbn; unfold is_node; rewrite view_is_node in H.
    + split; [discriminate|]. destruct (nodes_lookup (g_nodes g) !! n); [|discriminate]. intros _. exfalso. apply H. eauto.
    + split; [|auto]. intros _. destruct H as [q ->]. reflexivity.
Qed.
Print Assumptions C19_when_calls_fail.
Example C19_example : (exec o_id (CAddNode (lit "G") (lit "bad") (A [(lit "nonsense", lit "1"); (lit "color", lit "red")])) g1).2 <> None /\
  atomic (CAddNode (lit "G") (lit "bad") (A [(lit "nonsense", lit "1"); (lit "color", lit "red")])).
Proof. split; [vm_compute; discriminate|exact I]. Qed.

(** ** C20: AddSubGraph *)
Theorem C20_add_subgraph : forall o g parent n m, fair o -> built g -> all_valid m -> n <> g_name g ->
  exists g', add_subgraph o g parent n m = (g', None) /\
  let s := view g in let s' := view g' in
  (forall x, s_subs s' !! x = if decide (x = n) then Some (m ∪ default ∅ (s_subs s !! n)) else s_subs s !! x) /\
  (forall p c, is_child s' p c <-> is_child s p c \/ (p = parent /\ c = n)) /\
  s_nodes s' = s_nodes s /\ s_order s' = s_order s /\ s_edges s' = s_edges s /\ s_attrs s' = s_attrs s /\
  s_name s' = s_name s /\ s_directed s' = s_directed s /\ s_strict s' = s_strict s.
Proof.
  intros o g parent n m Fo R V Hn. pose proof (ok_sub o g parent n m Fo (built_ok g R)) as H.
  destruct (add_subgraph o g parent n m) as [g' r]. destruct H as [_ H].
  remember (view g') as s2 eqn:E2. inversion H; subst; [|match goal with B : bad_attr _ _ |- _ => destruct B as (k & v & B1 & B2 & _); destruct (B2 (V k v B1)) end].
  exists g'. split; [reflexivity|]. cbv zeta. fix_view g' E2. rewrite <- E2.
  unfold s_put_attrs. cbn [s_name view s_open_sub s_with_subs s_with_rels]. rewrite decide_False by congruence.
  split; [|split; [|repeat split]].
  - intros x. cbn. rewrite lookup_insert, insert_insert. cbn. destruct (decide (x = n)) as [->|Hx]; [apply lookup_insert|apply lookup_insert_ne; congruence].
  - intros p c. unfold is_child. cbn. rewrite elem_of_union, elem_of_singleton, pair_equal_spec. tauto.
Qed.
Print Assumptions C20_add_subgraph.
(** A subgraph with the name of the graph: it is registered, but its attributes go to the graph. *)
Theorem C20_add_subgraph_root : forall o g parent m, fair o -> built g -> all_valid m ->
  exists g', add_subgraph o g parent (g_name g) m = (g', None) /\
  let s := view g in let s' := view g' in
  (forall x, s_subs s' !! x = if decide (x = s_name s) then Some (default ∅ (s_subs s !! s_name s)) else s_subs s !! x) /\
  s_attrs s' = m ∪ s_attrs s /\ (forall p c, is_child s' p c <-> is_child s p c \/ (p = parent /\ c = s_name s)) /\
  s_nodes s' = s_nodes s /\ s_order s' = s_order s /\ s_edges s' = s_edges s /\
  s_name s' = s_name s /\ s_directed s' = s_directed s /\ s_strict s' = s_strict s.
Proof.
  intros o g parent m Fo R V. pose proof (ok_sub o g parent (g_name g) m Fo (built_ok g R)) as H.
  destruct (add_subgraph o g parent (g_name g) m) as [g' r]. destruct H as [_ H].
  remember (view g') as s2 eqn:E2. inversion H; subst; [|match goal with B : bad_attr _ _ |- _ => destruct B as (k & v & B1 & B2 & _); destruct (B2 (V k v B1)) end].
  exists g'. split; [reflexivity|]. cbv zeta. fix_view g' E2. rewrite <- E2.
  unfold s_put_attrs. cbn [s_name view s_open_sub s_with_subs s_with_rels]. rewrite decide_True by reflexivity.
  split; [|split; [reflexivity|split; [|repeat split]]].
  - intros x. cbn. destruct (decide (x = g_name g)) as [->|Hx]; [apply lookup_insert|apply lookup_insert_ne; congruence].
  - intros p c. unfold is_child. cbn. rewrite elem_of_union, elem_of_singleton. split; [intros [[= -> ->]|K]; auto|intros [K|[-> ->]]; auto].
Qed.
Print Assumptions C20_add_subgraph_root.
(** With an invalid name: an error, but the subgraph and its relation stay, with some of the valid attributes (again given to the
    graph if it has that name); nothing else changes. *)
Theorem C20_add_subgraph_failure : forall o g parent n m, fair o -> built g -> ~ all_valid m ->
  exists g' e m', add_subgraph o g parent n m = (g', Some e) /\ bad_attr m e /\
  m' ⊆ m /\ all_valid m' /\ is_subgraph g' n = true /\
  let s := view g in let s' := view g' in
  (n <> s_name s -> s_attrs s' = s_attrs s /\
    forall x, s_subs s' !! x = if decide (x = n) then Some (m' ∪ default ∅ (s_subs s !! n)) else s_subs s !! x) /\
  (n = s_name s -> s_attrs s' = m' ∪ s_attrs s /\
    forall x, s_subs s' !! x = if decide (x = n) then Some (default ∅ (s_subs s !! n)) else s_subs s !! x) /\
  (forall p c, is_child s' p c <-> is_child s p c \/ (p = parent /\ c = n)) /\
  s_nodes s' = s_nodes s /\ s_order s' = s_order s /\ s_edges s' = s_edges s /\
  s_name s' = s_name s /\ s_directed s' = s_directed s /\ s_strict s' = s_strict s.
Proof.
  intros o g parent n m Fo R V. pose proof (ok_sub o g parent n m Fo (built_ok g R)) as H.
  destruct (add_subgraph o g parent n m) as [g' r]. destruct H as [_ H]. remember (view g') as s2 eqn:E2. inversion H; subst; [contradiction|].
  exists g', e, m'. split; [reflexivity|]. split; [assumption|]. split; [assumption|]. split; [assumption|].
  fix_view g' E2. pose proof (eq_sym E2) as E.
  assert (S1 : s_is_sub (view g') n).
  { rewrite E. unfold s_put_attrs. destruct (decide _); unfold s_is_sub; cbn; rewrite ?lookup_insert; eauto. }
  split; [apply view_is_sub in S1; unfold is_subgraph; destruct S1 as [x ->]; reflexivity|].
  cbv zeta. rewrite E. unfold s_put_attrs. cbn [s_name view s_open_sub s_with_subs s_with_rels].
  assert (CH : forall p c, (p, c) ∈ {[(parent, n)]} ∪ s_rels (view g) <-> (p, c) ∈ s_rels (view g) \/ (p = parent /\ c = n)).
  { intros p c. rewrite elem_of_union, elem_of_singleton. split; [intros [[= -> ->]|K]; auto|intros [K|[-> ->]]; auto]. }
  destruct (decide (g_name g = n)) as [D|D].
  - split; [intros N; congruence|]. split; [|split; [exact CH|repeat split]]. intros _. split; [reflexivity|]. intros x. cbn.
    destruct (decide (x = n)) as [->|Hx]; [rewrite lookup_insert; reflexivity|rewrite lookup_insert_ne by congruence; reflexivity].
  - split; [|split; [intros N; congruence|split; [exact CH|repeat split]]]. intros _. split; [reflexivity|]. intros x. cbn.
    destruct (decide (x = n)) as [->|Hx]; [rewrite !lookup_insert; reflexivity|rewrite !lookup_insert_ne by congruence; reflexivity].
Qed.
Print Assumptions C20_add_subgraph_failure.
(** Which ones depends on the iteration order: the same call, two outcomes. *)
Definition o_rev : oracle := Oracle (fun _ m => rev (map_to_list m)) (fun _ s => rev (elements s)).
Lemma fair_rev : fair o_rev.
Proof. split; intros; cbn; symmetry; apply Permutation_rev. Qed.
Theorem C20_order_dependent : exists g m,
  reachable g /\
  s_subs (view (add_subgraph o_id g (lit "G") (lit "S") m).1) <> s_subs (view (add_subgraph o_rev g (lit "G") (lit "S") m).1).
Proof. exists new_graph, (A [(lit "color", lit "red"); (lit "nonsense", lit "1")]). split; [constructor|].
  intros E. apply (f_equal (fun m => match m !! lit "S" with Some a => a !! lit "color" | None => None end)) in E.
  revert E. vm_compute. discriminate. Qed.
Print Assumptions C20_order_dependent.
Example C20_example : all_valid (A [(lit "color", lit "red")]) /\ ~ all_valid (A [(lit "color", lit "red"); (lit "nonsense", lit "1")]).
Proof. split; [apply (bool_decide_unpack _); vm_compute; exact I|apply (bool_decide_unpack _); vm_compute; exact I]. Qed.

(** ** C21, C22: RemoveSubGraph *)
Theorem C21_remove_subgraph : forall o g parent n, fair o -> built g ->
  (forall c, is_child (view g) n c -> is_node g c = true) ->
  exists g', remove_subgraph o g parent n = (g', None) /\
  let s := view g in let s' := view g' in
  (forall x a, s_nodes s' !! x = Some a <-> s_nodes s !! x = Some a /\ ~ is_child s n x) /\
  (exists N : names, (forall c, c ∈ N <-> is_child s n c) /\
    s_order s' = filter (fun x => x ∉ N) (s_order s) /\
    s_edges s' = filter (fun e => (e_src e ∉ N /\ e_dst e ∉ N) /\
      (e_src e <> n /\ e_dst e <> n /\ e_src_port e <> n /\ e_dst_port e <> n)) (s_edges s)) /\
  s_subs s' = delete n (s_subs s) /\
  (forall p c, is_child s' p c <-> is_child s p c /\ ~ (p = parent /\ (c = n \/ is_child s n c))) /\
  s_attrs s' = s_attrs s /\ s_name s' = s_name s /\ s_directed s' = s_directed s /\ s_strict s' = s_strict s.
Proof.
  intros o g parent n Fo R Hall. pose proof (ok_remove_sub o g parent n Fo (built_ok g R)) as H.
  destruct (remove_subgraph o g parent n) as [g' r]. destruct H as [_ H].
  assert (Hn : forall c, is_child (view g) n c -> s_is_node (view g) c).
  { intros c Hc. apply view_is_node. specialize (Hall c Hc). unfold is_node in Hall. destruct (nodes_lookup _ !! c); [eauto|discriminate]. }
  remember (view g') as s2 eqn:E2. inversion H as [| | | | | | | | | | | | | | | |p' n' s' N HN1 HN2 Hp Hs' Hr|p' n' s' N c Hc1 Hc2]; subst; [|destruct (Hc2 (Hn c Hc1))].
  exists g'. split; [reflexivity|]. cbv zeta. clear H. fix_view g' E2. rewrite <- E2. cbv zeta.
  split; [|split; [|split; [|split; [|repeat split]]]].
  - intros x a. cbn [s_nodes s_with_edges s_with_subs s_with_rels s_drop_nodes]. rewrite map_filter_lookup_Some. cbn. rewrite HN1. reflexivity.
  - exists N. split; [exact HN1|]. split; [reflexivity|]. cbn. rewrite list_filter_filter. apply list_filter_iff.
    intros e. unfold avoids, avoids_sub. tauto.
  - reflexivity.
  - intros p c. unfold is_child at 1. cbn [s_rels s_with_edges s_with_subs s_with_rels s_drop_nodes].
    rewrite elem_of_difference, elem_of_filter, elem_of_singleton, pair_equal_spec. cbn. rewrite HN1. unfold is_child. tauto.
Qed.
Print Assumptions C21_remove_subgraph.
Theorem C21_remove_subgraph_failure : forall o g parent n c0, fair o -> built g ->
  is_child (view g) n c0 -> is_node g c0 = false ->
  exists g' c N, remove_subgraph o g parent n = (g', Some (lit "node " ++ c ++ lit " not found")) /\
  is_child (view g) n c /\ is_node g c = false /\
  (forall x, x ∈ N -> is_child (view g) n x /\ is_node g x = true) /\
  view g' = s_drop_nodes (view g) parent N.
Proof.
  intros o g parent n c0 Fo R Hc Hn. pose proof (ok_remove_sub o g parent n Fo (built_ok g R)) as H.
  destruct (remove_subgraph o g parent n) as [g' r]. destruct H as [_ H].
  assert (Hi : forall c, s_is_node (view g) c <-> is_node g c = true).
  { intros c. rewrite view_is_node. unfold is_node. destruct (nodes_lookup _ !! c); split; eauto; try discriminate. intros [? ?]; discriminate. }
  remember (view g') as s2 eqn:E2. inversion H as [| | | | | | | | | | | | | | | |p' n' s' N HN1 HN2 Hp Hs' Hr|p' n' s' N c Hc1 Hc2 HN Hp Hs' Hr]; subst.
  - apply HN1, HN2, Hi in Hc. congruence.
  - exists g', c, N. split; [reflexivity|]. split; [exact Hc1|]. split; [destruct (is_node g c) eqn:E; [apply Hi in E; contradiction|reflexivity]|].
    split; [|auto]. intros x Hx. rewrite <- Hi. auto.
Qed.
Print Assumptions C21_remove_subgraph_failure.
(** A nested subgraph: the removal fails after having removed the node b. *)
Definition g2 : agraph := (run (h1 ++ [(o_id, CAddSubGraph (lit "S") (lit "T") ∅)]) new_graph).1.
Lemma reach_g2 : reachable g2.
Proof. apply run_reachable; [|constructor]. repeat constructor; intros; reflexivity. Qed.
Example C21_partial_removal : exists o, fair o /\ (remove_subgraph o g2 (lit "G") (lit "S")).2 <> None /\
  is_node g2 (lit "b") = true /\ is_node (remove_subgraph o g2 (lit "G") (lit "S")).1 (lit "b") = false /\
  is_subgraph (remove_subgraph o g2 (lit "G") (lit "S")).1 (lit "S") = true.
Proof.
  destruct (is_node (remove_subgraph o_id g2 (lit "G") (lit "S")).1 (lit "b")) eqn:E.
  - exists o_rev. split; [apply fair_rev|]. revert E. vm_compute. first [discriminate | intros _; repeat split; discriminate].
  - exists o_id. split; [apply fair_id|]. revert E. vm_compute. first [discriminate | intros _; repeat split; discriminate].
Qed.
Example C21_example : forall c, is_child (view g1) (lit "S") c -> is_node g1 c = true.
Proof.
  intros c H. pose proof (proj1 (view_child g1 (lit "S") c) H) as H2. clear H. rename H2 into H. apply elem_of_elements in H. revert H. vm_compute. intros H.
  inversion H as [|? ? ? H']; subst; [reflexivity|inversion H'].
Qed.

(** C22: the relations from the removed subgraph to its nodes survive the removal ... *)
Theorem C22_stale_subgraph_relations : forall o g parent n g', fair o -> built g -> parent <> n ->
  remove_subgraph o g parent n = (g', None) -> forall c, is_child (view g') n c <-> is_child (view g) n c.
Proof.
  intros o g parent n g' Fo R Hp E c.
  assert (Hall : forall c, is_child (view g) n c -> is_node g c = true).
  { intros c0 Hc0. destruct (is_node g c0) eqn:En; [reflexivity|]. destruct (C21_remove_subgraph_failure o g parent n c0 Fo R Hc0 En) as (g2 & c2 & N & H & _). congruence. }
  destruct (C21_remove_subgraph o g parent n Fo R Hall) as (g2 & E2 & _ & _ & _ & Hr & _). rewrite E in E2. injection E2 as <-.
  rewrite Hr. split; [tauto|]. intros H. split; [exact H|]. intros [? _]. congruence.
Qed.
Print Assumptions C22_stale_subgraph_relations.
(** ... and so do all other parents of a removed node. *)
Theorem C22_stale_node_relations : forall g parent n g', built g ->
  remove_node g parent n = (g', None) -> forall p, p <> parent -> is_child (view g') p n <-> is_child (view g) p n.
Proof.
  intros g parent n g' R E p Hp. destruct (is_node g n) eqn:En.
  - destruct (C18_remove_node g parent n R En) as (g2 & E2 & _ & _ & _ & Hr & _). rewrite E in E2. injection E2 as <-. rewrite Hr. tauto.
  - pose proof (C18_remove_unknown g parent n R En) as He. congruence.
Qed.
Print Assumptions C22_stale_node_relations.

(** ** C23: histories refine the abstract graph *)
Theorem C23_refinement : forall h, Forall (fun oc => fair oc.1) h ->
  spec_run (map snd h) s_empty (view (run h new_graph).1) (run h new_graph).2.
Proof. intros h F. rewrite <- view_new. apply run_ok; [exact F|apply graph_ok_new]. Qed.
Print Assumptions C23_refinement.
Theorem C23_refinement_step : forall o c g, fair o -> built g ->
  spec_call c (view g) (view (exec o c g).1) (exec o c g).2.
Proof. intros o c g Fo R. apply exec_ok; [exact Fo|apply built_ok; exact R]. Qed.
Print Assumptions C23_refinement_step.
(** The queries. *)
Theorem C23_queries : forall g n, (is_node g n = true <-> s_is_node (view g) n) /\ (is_subgraph g n = true <-> s_is_sub (view g) n) /\
  (is_cluster g n = true <-> s_is_sub (view g) n /\ exists t, n = lit "cluster" ++ t).
Proof.
  intros g n. rewrite view_is_node, view_is_sub. unfold is_cluster, is_subgraph, is_node.
  split; [destruct (nodes_lookup _ !! n); split; eauto; try discriminate; intros [? ?]; discriminate|].
  split; [destruct (g_subs g !! n); split; eauto; try discriminate; intros [? ?]; discriminate|].
  rewrite andb_true_iff. assert (P : forall p s, has_prefix s p = true <-> exists t, s = p ++ t).
  { induction p as [|x p IH]; intros [|y s]; cbn; try (split; [eauto|reflexivity]); try (split; [discriminate|intros [t Ht]; discriminate]).
    rewrite andb_true_iff, Ascii.eqb_eq, IH. split; [intros [-> [t ->]]; eauto|intros [t [= -> ->]]; eauto]. }
  rewrite P. destruct (g_subs g !! n); split; intros [H1 H2]; eauto; try discriminate. destruct H1; discriminate.
Qed.
Print Assumptions C23_queries.
Example C23_example : Forall (fun oc => fair oc.1) h1 /\ length (run h1 new_graph).2 = 13.
Proof. split; [repeat constructor; intros; reflexivity|vm_compute; reflexivity]. Qed.

(** ** C28 (API histories): the iteration orders do not matter, as long as no AddSubGraph or
    RemoveSubGraph fails. *)
Definition robust (c : call) (r : option err) : Prop := atomic c \/ r = None.

Lemma bad_not_valid m e : bad_attr m e -> ~ all_valid m.
Proof. intros (k & v & H1 & H2 & _) V. exact (H2 (V k v H1)). Qed.
Lemma names_eq (N N' : names) (P : gostr -> Prop) : (forall c, c ∈ N <-> P c) -> (forall c, c ∈ N' <-> P c) -> N = N'.
Proof. intros H1 H2. apply set_eq. intros c. rewrite H1, H2. reflexivity. Qed.
Lemma spec_det c s s1 s2 r1 r2 : spec_call c s s1 r1 -> spec_call c s s2 r2 -> robust c r1 -> s1 = s2 /\ (r1 = None <-> r2 = None).
Proof.
  intros H1 H2 Rb. destruct H1; inversion H2; subst; clear H2;
    try (split; [reflexivity|split; (reflexivity || discriminate || auto)]; fail);
    try (match goal with B : bad_attr ?m _, V : all_valid ?m |- _ => destruct (bad_not_valid _ _ B V) end; fail);
    try (unfold s_is_sub, s_is_node in *; tauto);
    try (destruct Rb as [Rb|Rb]; [contradiction|discriminate]).
  - assert (N = N0) as <- by (eapply names_eq; eauto). split; [reflexivity|]. split; reflexivity.
  - exfalso. match goal with X : is_child _ _ ?c, Y : ~ s_is_node _ ?c, Z : forall c, c ∈ ?N <-> is_child _ _ c |- _ => apply Y; apply Z in X; auto end.
Qed.

(** Two runs of the same calls; the i-th result of the first run decides robustness. *)
Theorem C28_order_irrelevant_api : forall cs os1 os2 g, length os1 = length cs -> length os2 = length cs ->
  Forall fair os1 -> Forall fair os2 -> built g ->
  Forall2 robust cs (run (zip os1 cs) g).2 ->
  view (run (zip os1 cs) g).1 = view (run (zip os2 cs) g).1 /\
  Forall2 (fun r1 r2 => r1 = None <-> r2 = None) (run (zip os1 cs) g).2 (run (zip os2 cs) g).2.
Proof.
  intros cs. assert (G : forall os1 os2 g g', length os1 = length cs -> length os2 = length cs ->
    Forall fair os1 -> Forall fair os2 -> graph_okP (fun _ => True) g -> graph_okP (fun _ => True) g' -> view g = view g' ->
    Forall2 robust cs (run (zip os1 cs) g).2 ->
    view (run (zip os1 cs) g).1 = view (run (zip os2 cs) g').1 /\
    Forall2 (fun r1 r2 => r1 = None <-> r2 = None) (run (zip os1 cs) g).2 (run (zip os2 cs) g').2).
  { induction cs as [|c cs IH]; intros [|o1 os1] [|o2 os2] g g' L1 L2 F1 F2 OK OK' E Rb; try discriminate; cbn [zip zip_with run] in *; [split; [exact E|constructor]|].
    apply Forall_cons in F1. destruct F1 as [Fo1 F1']. apply Forall_cons in F2. destruct F2 as [Fo2 F2'].
    destruct (exec_ok o1 c g Fo1 OK) as [O1 S1]. destruct (exec_ok o2 c g' Fo2 OK') as [O2 S2].
    destruct (exec o1 c g) as [ga ra]. destruct (exec o2 c g') as [gb rb]. cbn [fst snd] in *. rewrite <- E in S2.
    specialize (IH os1 os2 ga gb). destruct (run (zip os1 cs) ga) as [ga2 ras]. destruct (run (zip os2 cs) gb) as [gb2 rbs].
    cbn [fst snd] in *. inversion Rb; subst. destruct (spec_det _ _ _ _ _ _ S1 S2 ltac:(assumption)) as [Ev Er].
    destruct IH as [IH1 IH2]; auto. }
  intros os1 os2 g L1 L2 F1 F2 R Rb. apply built_ok in R. apply G; auto.
Qed.
Print Assumptions C28_order_irrelevant_api.
Example C28_example : Forall2 robust (map snd h1) (run h1 new_graph).2 /\ map snd h1 <> [] /\ h1 = zip (map fst h1) (map snd h1).
Proof.
  split; [|split; [discriminate|reflexivity]].
  assert (E : exists e, (run h1 new_graph).2 = replicate 10 None ++ [Some e; None; None]) by (eexists; vm_compute; reflexivity).
  destruct E as [e ->]. cbn [h1 map snd replicate app].
  repeat (constructor; [first [left; exact I|right; reflexivity]|]). constructor.
Qed.

(** ** C43: PutMap and GetMap *)
Lemma get_map_app l : forall a, fold_left (fun acc al => fold_left (fun acc a => <[Ast.at_field a := Ast.at_value a]> acc) al acc) l (a : attrs)
  = fold_left (fun acc a => <[Ast.at_field a := Ast.at_value a]> acc) (concat l) a.
Proof. induction l as [|x l IH]; intros a; cbn [fold_left concat]; [reflexivity|]. rewrite fold_left_app, IH. reflexivity. Qed.
(** GetMap gives each key the value of its last occurrence. *)
Theorem C43_get_map_last : forall l k v,
  get_map l !! k = Some v <->
  exists l1 l2, concat l = l1 ++ Ast.Attr k v :: l2 /\ Forall (fun a => Ast.at_field a <> k) l2.
Proof.
  intros l k v. unfold get_map. rewrite get_map_app. generalize (concat l). clear l. intros l.
  induction l as [|[k' v'] l IH] using rev_ind.
  - cbn. rewrite lookup_empty. split; [discriminate|]. intros (l1 & l2 & H & _). destruct l1; discriminate.
  - rewrite fold_left_app. cbn [fold_left Ast.at_field Ast.at_value]. destruct (decide (k' = k)) as [->|Hn].
    + rewrite lookup_insert. split.
      * intros [= ->]. exists l, []. split; [reflexivity|constructor].
      * intros (l1 & l2 & H & F). destruct l2 as [|b l2 _] using rev_ind.
        -- apply app_inj_tail in H. destruct H as [_ [= ->]]. reflexivity.
        -- change (Ast.Attr k v :: l2 ++ [b]) with ((Ast.Attr k v :: l2) ++ [b]) in H. rewrite app_assoc in H. apply app_inj_tail in H.
           destruct H as [_ <-]. apply Forall_app in F. destruct F as [_ F]. inversion F; subst. cbn in *. contradiction.
    + rewrite lookup_insert_ne by exact Hn. rewrite IH. split.
      * intros (l1 & l2 & -> & F). exists l1, (l2 ++ [Ast.Attr k' v']). split; [rewrite <- app_assoc; reflexivity|].
        apply Forall_app. split; [exact F|]. constructor; [exact Hn|constructor].
      * intros (l1 & l2 & H & F). destruct l2 as [|b l2 _] using rev_ind.
        -- apply app_inj_tail in H. destruct H as [_ [= -> ->]]. contradiction.
        -- change (Ast.Attr k v :: l2 ++ [b]) with ((Ast.Attr k v :: l2) ++ [b]) in H. rewrite app_assoc in H. apply app_inj_tail in H.
           destruct H as [-> _]. apply Forall_app in F. destruct F as [F _]. eauto.
Qed.
Print Assumptions C43_get_map_last.
Theorem C43_put_map : forall o i m, fair o ->
  exists l, put_map o i m = [l] /\
    StronglySorted (fun a b => str_ltb (Ast.at_field a) (Ast.at_field b) = true) l /\
    (forall k v, Ast.Attr k v ∈ l <-> m !! k = Some v).
Proof.
  intros o i m [_ Fn]. eexists. split; [reflexivity|]. unfold sorted_keys. rewrite (sorted_enum (keys m)) by apply Fn. split.
  - pose proof (sorted_strict (keys m)) as H. induction H as [|x l H IH F]; cbn; constructor; [exact IH|].
    apply Forall_fmap. eapply Forall_impl; [exact F|]. intros y Hy. exact Hy.
  - intros k v. rewrite elem_of_list_fmap. split.
    + intros (x & [= -> ->] & Hx). apply elem_of_sorted in Hx. unfold keys in Hx. apply elem_of_dom in Hx. destruct Hx as [y Hy]. rewrite Hy. reflexivity.
    + intros H. exists k. rewrite H. split; [reflexivity|]. apply elem_of_sorted, elem_of_dom. eauto.
Qed.
Print Assumptions C43_put_map.
Theorem C43_get_put : forall o i m, fair o -> get_map (put_map o i m) = m.
Proof.
  intros o i m Fo. destruct (C43_put_map o i m Fo) as (l & E & S & I). apply map_eq. intros k. apply option_eq. intros v.
  rewrite C43_get_map_last, E. cbn [concat]. rewrite app_nil_r. rewrite <- I. split.
  - intros (l1 & l2 & -> & _). apply elem_of_app. right. left.
  - intros H. apply elem_of_list_split in H. destruct H as (l1 & l2 & ->). exists l1, l2. split; [reflexivity|].
    apply Forall_forall. intros [k' v'] Hx. cbn. intros ->.
    clear E I. induction l1 as [|y l1 IH]; cbn in S; inversion S as [|? ? S' F]; subst; [|auto].
    rewrite Forall_forall in F. specialize (F _ Hx). cbn in F. rewrite str_ltb_irrefl in F. discriminate.
Qed.
Print Assumptions C43_get_put.
Example C43_example : map (fun a => (Ast.at_field a, Ast.at_value a)) (concat (put_map o_id 0 (A [(lit "b", lit "1"); (lit "a", lit "2")]))) = [(lit "a", lit "2"); (lit "b", lit "1")].
Proof. vm_compute. reflexivity. Qed.

(** ** C44: Extend, Ammend, Copy, for every iteration order *)
Theorem C44_attrs : forall (a m : attrs) l, l ≡ₚ map_to_list m ->
  (forall k, extend a l !! k = match m !! k with Some v => Some v | None => a !! k end) /\
  (forall k, ammend_attrs a l !! k = match a !! k with Some v => Some v | None => m !! k end) /\
  copy_attrs l = m.
Proof.
  intros a m l P. rewrite (extend_enum a m l P), (ammend_enum a m l P), (copy_enum m l P). split; [|split; [|reflexivity]].
  - intros k. rewrite lookup_union. destruct (m !! k), (a !! k); reflexivity.
  - intros k. rewrite lookup_union. destruct (m !! k), (a !! k); reflexivity.
Qed.
Print Assumptions C44_attrs.
Theorem C44_new_attrs : forall (m : attrs) l, l ≡ₚ map_to_list m ->
  (all_valid m -> new_attrs l = inl m) /\ (~ all_valid m -> exists e, new_attrs l = inr e /\ bad_attr m e).
Proof.
  intros m l P. destruct (new_attrs_enum m l P) as [[V E]|(V & k & v & H1 & H2 & E)]; split; try contradiction; auto.
  intros _. eexists. split; [exact E|]. exists k, v. auto.
Qed.
Print Assumptions C44_new_attrs.

(** ** C45: the sorted views *)
Theorem C45_sorted_views : forall o i g, fair o -> built g ->
  (exists ks, map node_name (nodes_sorted o i (g_nodes g)) = ks /\ StronglySorted (fun a b => str_ltb a b = true) ks /\
     (forall n, n ∈ ks <-> is_node g n = true)) /\
  (forall nd, nd ∈ nodes_sorted o i (g_nodes g) <-> exists p, p ∈ nodes_list (g_nodes g) /\ nd = deref (g_nodes g) p) /\
  (exists ks, map sub_name (subs_sorted o i (g_subs g)) = ks /\ StronglySorted (fun a b => str_ltb a b = true) ks /\
     (forall n, n ∈ ks <-> is_subgraph g n = true)) /\
  (forall s, s ∈ subs_sorted o i (g_subs g) <-> exists n, g_subs g !! n = Some s) /\
  (forall p, StronglySorted (fun a b => str_ltb a b = true) (sorted_children o i (g_rels g) p) /\
     (forall c, c ∈ sorted_children o i (g_rels g) p <-> is_child (view g) p c)).
Proof.
  intros o i g [_ Fn] R. pose proof (built_ok g R) as OK.
  unfold nodes_sorted, subs_sorted, sorted_children, sorted_keys.
  rewrite (sorted_enum (keys (nodes_lookup (g_nodes g)))) by apply Fn.
  rewrite (sorted_enum (keys (g_subs g))) by apply Fn.
  assert (N1 : map node_name (map (fun k => deref (g_nodes g) (default 0 (nodes_lookup (g_nodes g) !! k))) (sorted (keys (nodes_lookup (g_nodes g))))) = sorted (keys (nodes_lookup (g_nodes g)))).
  { rewrite map_map. transitivity (map id (sorted (keys (nodes_lookup (g_nodes g))))); [|apply map_id]. apply map_ext_in. intros k Hk.
    apply elem_of_list_In, elem_of_sorted in Hk. unfold keys in Hk. apply elem_of_dom in Hk. destruct Hk as [p Hp]. rewrite Hp. cbn.
    apply (deref_lookup _ (go_nodes g OK)). exact Hp. }
  assert (N2 : map sub_name (map (fun k => default (Sub ∅ []) (g_subs g !! k)) (sorted (keys (g_subs g)))) = sorted (keys (g_subs g))).
  { rewrite map_map. transitivity (map id (sorted (keys (g_subs g)))); [|apply map_id]. apply map_ext_in. intros k Hk.
    apply elem_of_list_In, elem_of_sorted in Hk. unfold keys in Hk. apply elem_of_dom in Hk. destruct Hk as [p Hp]. rewrite Hp. cbn.
    apply (go_subs g OK). exact Hp. }
  split; [|split; [|split; [|split]]].
  - eexists. split; [reflexivity|]. rewrite N1. split; [apply sorted_strict|]. intros n. rewrite elem_of_sorted. unfold keys. rewrite elem_of_dom.
    unfold is_node. destruct (nodes_lookup _ !! n); split; eauto; try discriminate. intros [? ?]; discriminate.
  - intros nd. rewrite elem_of_list_fmap. split.
    + intros (k & -> & Hk). apply elem_of_sorted in Hk. unfold keys in Hk. apply elem_of_dom in Hk. destruct Hk as [p Hp].
      exists p. rewrite Hp. split; [apply (no_lookup _ (go_nodes g OK) k p Hp)|reflexivity].
    + intros (p & Hp & ->). pose proof (lookup_deref _ (go_nodes g OK) p Hp) as Hl. exists (node_name (deref (g_nodes g) p)). rewrite Hl.
      split; [reflexivity|]. apply elem_of_sorted, elem_of_dom. eauto.
  - eexists. split; [reflexivity|]. rewrite N2. split; [apply sorted_strict|]. intros n. rewrite elem_of_sorted. unfold keys. rewrite elem_of_dom.
    unfold is_subgraph. destruct (g_subs g !! n); split; eauto; try discriminate. intros [? ?]; discriminate.
  - intros s. rewrite elem_of_list_fmap. split.
    + intros (k & -> & Hk). apply elem_of_sorted in Hk. unfold keys in Hk. apply elem_of_dom in Hk. destruct Hk as [p Hp]. exists k. rewrite Hp. reflexivity.
    + intros (n & Hn). exists n. rewrite Hn. split; [reflexivity|]. apply elem_of_sorted, elem_of_dom. eauto.
  - intros p. rewrite (sorted_enum (children (g_rels g) p)) by apply Fn. split; [apply sorted_strict|].
    intros c. rewrite elem_of_sorted, view_child. reflexivity.
Qed.
Print Assumptions C45_sorted_views.
Example C45_example : map node_name (nodes_sorted o_rev 0 (g_nodes g1)) = [lit "a"; lit "b"].
Proof. vm_compute. reflexivity. Qed.
