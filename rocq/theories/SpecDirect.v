(** Specification of the calls on the containers of a graph, in terms of the abstract graph of SpecGraph.v. *)
From Verif Require Import Maps Graph SpecGraph Direct.

(** The node [n] gets the attributes [m]; it is created, without a parent, if it is missing. *)
Definition s_add_node (s : sgraph) (n : gostr) (m : attrs) : sgraph :=
  SGraph (s_name s) (s_directed s) (s_strict s) (s_attrs s)
    (<[n := m ∪ default ∅ (s_nodes s !! n)]> (s_nodes s))
    (match s_nodes s !! n with Some _ => s_order s | None => s_order s ++ [n] end)
    (s_edges s) (s_subs s) (s_rels s).
(** The node [n] disappears; its edges and relations stay. *)
Definition s_forget_node (s : sgraph) (n : gostr) : sgraph :=
  SGraph (s_name s) (s_directed s) (s_strict s) (s_attrs s)
    (delete n (s_nodes s)) (filter (fun x => x <> n) (s_order s)) (s_edges s) (s_subs s) (s_rels s).
Definition s_with_node_attrs (s : sgraph) (n : gostr) (a : attrs) : sgraph :=
  SGraph (s_name s) (s_directed s) (s_strict s) (s_attrs s) (<[n := a]> (s_nodes s)) (s_order s) (s_edges s) (s_subs s) (s_rels s).
(** What the operations do to a map of attributes. *)
Inductive spec_attr : attr_op -> attrs -> attrs -> option err -> Prop :=
| Sa_add f v a : valid_attr f -> spec_attr (AAdd f v) a (<[f := v]> a) None
| Sa_add_bad f v a : ~ valid_attr f -> spec_attr (AAdd f v) a a (Some (f ++ lit " is not a valid attribute"))
| Sa_extend m a : spec_attr (AExtend m) a (m ∪ a) None
| Sa_ammend m a : spec_attr (AAmmend m) a (a ∪ m) None
| Sa_set f v a : spec_attr (ASet f v) a (<[f := v]> a) None
| Sa_delete f a : spec_attr (ADelete f) a (delete f a) None
| Sa_assign m a : spec_attr (AAssign m) a m None.
(** [look p] is what the pointer [p] shows before the call, [cur n] is the pointer Lookup[n]. *)
Inductive spec_direct (look : nat -> option node) (cur : gostr -> option nat) : direct_call -> sgraph -> sgraph -> option err -> Prop :=
| Sd_add_node n a s : spec_direct look cur (DNodesAdd n a) s (s_add_node s n a) None
| Sd_add_old p n a s : look p = Some (Node n a) -> spec_direct look cur (DNodesAddOld p) s (s_add_node s n a) None
| Sd_remove_node n s : s_is_node s n -> spec_direct look cur (DNodesRemove n) s (s_forget_node s n) None
| Sd_remove_node_bad n s : ~ s_is_node s n ->
    spec_direct look cur (DNodesRemove n) s s (Some (lit "node " ++ n ++ lit " not found"))
| Sd_add_edge e s : spec_direct look cur (DEdgesAdd e) s (s_with_edges s (s_edges s ++ [e])) None
| Sd_add_sub n s : spec_direct look cur (DSubGraphsAdd n) s (s_with_subs s (<[n := default ∅ (s_subs s !! n)]> (s_subs s))) None
| Sd_remove_sub n s : spec_direct look cur (DSubGraphsRemove n) s (s_with_subs s (delete n (s_subs s))) None
| Sd_add_rel p c s : spec_direct look cur (DRelationsAdd p c) s (s_with_rels s ({[(p, c)]} ∪ s_rels s)) None
| Sd_remove_rel p c s : spec_direct look cur (DRelationsRemove p c) s (s_with_rels s (s_rels s ∖ {[(p, c)]})) None
| Sd_attrs op s a r : spec_attr op (s_attrs s) a r -> spec_direct look cur (DAttrs TGraph op) s (s_with_attrs s a) r
| Sd_sub_attrs op n s a0 a r : s_subs s !! n = Some a0 -> spec_attr op a0 a r ->
    spec_direct look cur (DAttrs (TSub n) op) s (s_with_subs s (<[n := a]> (s_subs s))) r
| Sd_node_attrs op n s a0 a r : s_nodes s !! n = Some a0 -> spec_attr op a0 a r ->
    spec_direct look cur (DAttrs (TNode n) op) s (s_with_node_attrs s n a) r
| Sd_ptr_attrs op p n s a0 a r : look p = Some (Node n a0) -> spec_attr op a0 a r ->
    spec_direct look cur (DAttrs (TPtr p) op) s (if decide (cur n = Some p) then s_with_node_attrs s n a else s) r
| Sd_edge_attrs op i s src sp dst dp dir a0 a r : s_edges s !! i = Some (Edge src sp dst dp dir a0) -> spec_attr op a0 a r ->
    spec_direct look cur (DAttrs (TEdge i) op) s (s_with_edges s (<[i := Edge src sp dst dp dir a]> (s_edges s))) r
| Sd_edge_fields i s src sp dst dp dir a sp' dp' dir' : s_edges s !! i = Some (Edge src sp dst dp dir a) ->
    spec_direct look cur (DEdgeFields i sp' dp' dir') s (s_with_edges s (<[i := Edge src sp' dst dp' dir' a]> (s_edges s))) None.

(** The attributes that a call brings in. *)
Definition brings (d : direct_call) : list attrs :=
  match d with
  | DNodesAdd _ a => [a] | DEdgesAdd e => [e_attrs e]
  | DAttrs _ (AExtend m) | DAttrs _ (AAmmend m) | DAttrs _ (AAssign m) => [m]
  | DAttrs _ (ASet f v) => [{[f := v]}]
  | _ => []
  end.
(** Histories whose direct calls bring in only attribute names with the property [P]. *)
Inductive built_with (P : gostr -> Prop) : agraph -> Prop :=
| bw_new : built_with P new_graph
| bw_call g o c : built_with P g -> fair o -> built_with P (exec o c g).1
| bw_direct g o d : built_with P g -> fair o -> possible g d ->
    Forall (fun m : attrs => forall k v, m !! k = Some v -> P k) (brings d) -> built_with P (exec_direct o d g).1.
(** Histories in which these names are all valid. *)
Definition proper : agraph -> Prop := built_with valid_attr.
Lemma reachable_proper g : reachable g -> proper g.
Proof. induction 1 as [|g o c R IH Fo]; [apply bw_new|]. apply bw_call; assumption. Qed.
Lemma built_with_built P g : built_with P g -> built g.
Proof. induction 1 as [|g o c R IH Fo|g o d R IH Fo Hp B]; [apply built_new|apply built_call; assumption|apply built_direct; assumption]. Qed.
Lemma proper_built g : proper g -> built g.
Proof. apply built_with_built. Qed.
Coercion reachable_proper : reachable >-> proper.
Coercion proper_built : proper >-> built.
