(** Property C72: what becomes of a graph when Src and Dst of an edge are assigned through a pointer (Ends.v). *)
From Verif Require Import Maps MapFacts Parser Graph GraphProofs Write Direct DirectProofs SpecGraph SpecWrite Ends SpecEnds PropsWrite.
From Verif Require Ast.

Lemma edges_of_list l : edges_list (edges_of l) = l.
Proof.
  unfold edges_of. assert (H : forall acc, edges_list (fold_left edges_add l acc) = edges_list acc ++ l).
  { induction l as [|e l IH]; intros acc; cbn [fold_left]; [rewrite app_nil_r; reflexivity|]. rewrite IH. cbn. rewrite <- app_assoc. reflexivity. }
  apply H.
Qed.
Lemma edges_of_ok l : edges_ok (edges_of l).
Proof.
  unfold edges_of. assert (H : forall acc, edges_ok acc -> edges_ok (fold_left edges_add l acc)).
  { induction l as [|e l IH]; intros acc A; cbn [fold_left]; [exact A|]. apply IH, edges_add_ok, A. }
  apply H, edges_ok_new.
Qed.
Lemma edges_of_snoc l e : edges_add (edges_of l) e = edges_of (l ++ [e]).
Proof. unfold edges_of. rewrite fold_left_app. reflexivity. Qed.
Lemma filter_of keep es : filter_edges keep es = edges_of (List.filter keep (edges_list es)).
Proof.
  unfold filter_edges, edges_of. generalize new_edges. induction (edges_list es) as [|e l IH]; intros acc; cbn [fold_left List.filter]; [reflexivity|].
  destruct (keep e); apply IH.
Qed.
(** Index maps are determined by their entries. *)
Lemma index_eq (m m' : gmap gostr (gmap gostr (list edge))) : (forall a b, lookup2 m a b = lookup2 m' a b) -> (forall a, m !! a <> Some ∅) -> (forall a, m' !! a <> Some ∅) -> m = m'.
Proof.
  intros H N N'. apply map_eq. intros a. specialize (N a). specialize (N' a). assert (Ha : forall b, lookup2 m a b = lookup2 m' a b) by (intros b; apply H).
  unfold lookup2 in Ha. destruct (m !! a) as [x|], (m' !! a) as [y|]; [f_equal; apply map_eq; exact Ha| | |reflexivity]; exfalso.
  - apply N. f_equal. apply map_eq. intros b. rewrite Ha, lookup_empty. reflexivity.
  - apply N'. f_equal. apply map_eq. intros b. rewrite <- Ha, lookup_empty. reflexivity.
Qed.
Lemma edges_eq es es' : edges_ok es -> edges_ok es' -> edges_list es = edges_list es' -> es = es'.
Proof.
  intros Ok0 O' E. destruct es as [a b l], es' as [a' b' l']. cbn in E. subst l'. f_equal.
  - apply index_eq; [|apply (eo_src_ne _ Ok0)|apply (eo_src_ne _ O')]. intros s d. pose proof (eo_src _ Ok0 s d) as H1. pose proof (eo_src _ O' s d) as H2. cbn in H1, H2. congruence.
  - apply index_eq; [|apply (eo_dst_ne _ Ok0)|apply (eo_dst_ne _ O')]. intros d s. pose proof (eo_dst _ Ok0 s d) as H1. pose proof (eo_dst _ O' s d) as H2. cbn in H1, H2. congruence.
Qed.

(** Without such assignments the indices are always right. *)
Theorem C72_built : forall g, built g -> reindexed g = g.
Proof.
  intros g B. unfold reindexed. rewrite (edges_eq (edges_of (edges_list (g_edges g))) (g_edges g)); [destruct g; reflexivity|apply edges_of_ok|exact (go_edges _ (built_ok g B))|apply edges_of_list].
Qed.
Print Assumptions C72_built.
(** The slice has the edge with its new ends; the indices have it where it was: nothing changes in SrcToDsts[x][y] and
    DstToSrcs[y][x], except that for the old ends the same list shows the edge with its new ends. *)
Theorem C72_index : forall g i e s d, built g -> edges_list (g_edges g) !! i = Some e ->
  let g' := assign_ends g i s d in
  changes (MEnds i s d) g g' None /\
  edges_list (g_edges g') = <[i := other_ends e s d]> (edges_list (g_edges g)) /\
  exists u v, filter (fun x => e_src x = e_src e /\ e_dst x = e_dst e) (edges_list (g_edges g)) = u ++ e :: v /\
    u = filter (fun x => e_src x = e_src e /\ e_dst x = e_dst e) (take i (edges_list (g_edges g))) /\
    forall x y,
      entry (src_to_dsts (g_edges g')) x y = (if decide (x = e_src e /\ y = e_dst e) then Some (u ++ other_ends e s d :: v) else entry (src_to_dsts (g_edges g)) x y) /\
      entry (dst_to_srcs (g_edges g')) y x = (if decide (x = e_src e /\ y = e_dst e) then Some (u ++ other_ends e s d :: v) else entry (dst_to_srcs (g_edges g)) y x).
Proof.
  change other_ends with moved. intros g i e s d B H g'. pose proof (go_edges _ (built_ok g B)) as Ok0.
  assert (Eg : g' = assign_ends g i s d) by reflexivity. unfold assign_ends in Eg. rewrite H in Eg. rewrite Eg. clear Eg g'.
  set (j := length (List.filter (Direct.same_ends e) (take i (edges_list (g_edges g))))). cbn [g_edges with_edges edges_list src_to_dsts dst_to_srcs].
  split; [apply Ch_ends; exact H|]. split; [reflexivity|].
  set (P := fun x : edge => e_src x = e_src e /\ e_dst x = e_dst e).
  assert (L : filter P (edges_list (g_edges g)) = filter P (take i (edges_list (g_edges g))) ++ e :: filter P (drop (S i) (edges_list (g_edges g)))).
  { rewrite <- (take_drop_middle _ _ _ H) at 1. rewrite filter_app, filter_cons_True by (split; reflexivity). reflexivity. }
  assert (J : j = length (filter P (take i (edges_list (g_edges g))))).
  { unfold j. f_equal. apply list_filter_bool. intros x. unfold Direct.same_ends, P. rewrite andb_true_iff, !str_eqb_eq. intuition congruence. }
  eexists _, _. split; [exact L|]. split; [reflexivity|].
  assert (E1 : lookup2 (src_to_dsts (g_edges g)) (e_src e) (e_dst e) = Some (filter P (take i (edges_list (g_edges g))) ++ e :: filter P (drop (S i) (edges_list (g_edges g))))).
  { rewrite (eo_src _ Ok0). change (between (e_src e) (e_dst e)) with P. rewrite <- L, L. destruct (filter P (take i _)); reflexivity. }
  assert (E2 : lookup2 (dst_to_srcs (g_edges g)) (e_dst e) (e_src e) = Some (filter P (take i (edges_list (g_edges g))) ++ e :: filter P (drop (S i) (edges_list (g_edges g))))).
  { rewrite (eo_dst _ Ok0). change (between (e_src e) (e_dst e)) with P. rewrite <- L, L. destruct (filter P (take i _)); reflexivity. }
  intros x y. change entry with lookup2. rewrite !lookup2_set2, E1, E2. cbn [default from_option id].
  assert (I : forall u v, length u = j -> <[j := moved e s d]> (u ++ e :: v) = u ++ moved e s d :: v).
  { intros u v Lu. rewrite <- Lu. replace (length u) with (length u + 0) by lia. rewrite insert_app_r. reflexivity. }
  rewrite (I _ _ (eq_sym J)). split.
  - destruct (decide (e_src e = x /\ e_dst e = y)), (decide (x = e_src e /\ y = e_dst e)); [reflexivity|exfalso; naive_solver|exfalso; naive_solver|reflexivity].
  - destruct (decide (e_dst e = y /\ e_src e = x)), (decide (x = e_src e /\ y = e_dst e)); [reflexivity|exfalso; naive_solver|exfalso; naive_solver|reflexivity].
Qed.
Print Assumptions C72_index.

(** Nothing but the indices themselves depends on the indices: the text does not, *)
Theorem C72_text : forall srt o g fuel, write_ast srt o g fuel = write_ast srt o (reindexed g) fuel /\ graph_string srt o g fuel = graph_string srt o (reindexed g) fuel.
Proof.
  intros srt o g fuel. assert (H : write_ast srt o g fuel = write_ast srt o (reindexed g) fuel); [|split; [exact H|unfold graph_string; rewrite H; reflexivity]].
  unfold write_ast. change (g_attrs (reindexed g)) with (g_attrs g). destruct (append_attrs o (g_attrs g) (WState ∅ 0)) as [sa st1].
  replace (edges_list (g_edges (reindexed g))) with (edges_list (g_edges g)) by (symmetry; apply edges_of_list).
  reflexivity.
Qed.
Print Assumptions C72_text.
(** and neither do calls: after any history of calls and assignments the graph is, up to the indices, what it should be, and the
    errors are those that should be. *)
Theorem C72_history : forall cs g g' rs, changes_all cs g g' rs -> should_all cs (reindexed g) = (reindexed g', rs).
Proof.
  assert (X : forall o c g, exec o c (reindexed g) = (reindexed (exec o c g).1, (exec o c g).2)).
  { intros o c g.
    assert (RN : forall p n g, remove_node (reindexed g) p n = (reindexed (remove_node g p n).1, (remove_node g p n).2)).
    { clear. intros p n g. unfold remove_node. cbn [g_nodes reindexed with_edges]. destruct (nodes_remove (g_nodes g) n) as [ns [e|]]; [reflexivity|].
      cbn [fst snd]. f_equal. unfold reindexed. cbn [g_edges with_edges with_rels with_nodes]. rewrite !filter_of, !edges_of_list. reflexivity. }
    assert (RL : forall p l g, remove_nodes_loop (reindexed g) p l = (reindexed (remove_nodes_loop g p l).1, (remove_nodes_loop g p l).2)).
    { clear -RN. intros p l. induction l as [|c l IH]; intros g; cbn [remove_nodes_loop]; [reflexivity|]. rewrite RN. destruct (remove_node g p c) as [g1 [e|]]; cbn [fst snd]; [reflexivity|apply IH]. }
    assert (AE : forall s sp d dp dir m, add_port_edge o (reindexed g) s sp d dp dir m = (reindexed (add_port_edge o g s sp d dp dir m).1, (add_port_edge o g s sp d dp dir m).2)).
    { intros. unfold add_port_edge. destruct (new_attrs (o_attrs o 0 m)) as [a|e]; [|reflexivity]. cbn [fst snd]. f_equal. unfold reindexed. cbn [g_edges with_edges edges_add edges_list].
      rewrite edges_of_snoc. reflexivity. }
    assert (AA : forall g p f v, add_attr (reindexed g) p f v = (reindexed (add_attr g p f v).1, (add_attr g p f v).2)).
    { clear. intros g p f v. unfold add_attr. cbn [g_name g_attrs g_subs reindexed with_edges]. destruct (str_eqb (g_name g) p).
      - destruct (attrs_add (g_attrs g) f v) as [a e]. reflexivity.
      - destruct (g_subs g !! p) as [sb|]; [|reflexivity]. destruct (attrs_add (sub_attrs sb) f v) as [a e]. reflexivity. }
    destruct c; cbn [exec]; try reflexivity.
    - apply AE.
    - apply AE.
    - unfold add_node. destruct (new_attrs (o_attrs o 0 m)); reflexivity.
    - apply AA.
    - unfold add_subgraph. change (with_rels (reindexed g) (relations_add (g_rels (reindexed g)) parent name)) with (reindexed (with_rels g (relations_add (g_rels g) parent name))).
      set (g1 := with_rels g _). change (with_subs (reindexed g1) (subs_add (g_subs (reindexed g1)) name)) with (reindexed (with_subs g1 (subs_add (g_subs g1) name))).
      generalize (with_subs g1 (subs_add (g_subs g1) name)). clear -AA. generalize (o_attrs o 0 m). intros l. induction l as [|[k v] l IH]; intros g; cbn [add_attrs_loop]; [reflexivity|].
      rewrite AA. destruct (add_attr g name k v) as [g1 [e|]]; cbn [fst snd]; [reflexivity|apply IH].
    - apply RN.
    - unfold remove_subgraph. cbn [g_rels reindexed with_edges]. fold (reindexed g). rewrite RL. destruct (remove_nodes_loop g parent _) as [g1 [e|]]; cbn [fst snd]; [reflexivity|].
      f_equal. unfold reindexed. cbn [g_rels g_subs g_edges with_edges with_rels with_subs]. rewrite !filter_of, !edges_of_list. reflexivity. }
  intros cs g g' rs H. induction H as [g|c cs g g1 g2 r rs H _ IH]; [reflexivity|]. cbn [should_all].
  assert (E : should c (reindexed g) = (reindexed g1, r)).
  { destruct H as [o c g|i s d e m1 m2 g He]; cbn [should]; [apply X|]. unfold reindexed at 1. cbn [g_edges with_edges]. rewrite edges_of_list, He.
    f_equal. unfold reindexed. cbn [g_edges with_edges edges_list]. rewrite edges_of_list. reflexivity. }
  rewrite E, IH. reflexivity.
Qed.
Print Assumptions C72_history.
(** A removal that succeeds makes the indices right again. *)
Theorem C72_repaired : forall o c g, match c with CRemoveNode _ _ | CRemoveSubGraph _ _ => True | _ => False end ->
  (exec o c g).2 = None -> reindexed (exec o c g).1 = (exec o c g).1.
Proof.
  intros o c g C. destruct c; try contradiction; cbn [exec].
  - unfold remove_node. destruct (nodes_remove (g_nodes g) name) as [ns [e|]]; [discriminate|]. intros _. cbn [fst]. unfold reindexed. cbn [g_edges with_edges].
    rewrite filter_of, edges_of_list. reflexivity.
  - unfold remove_subgraph. destruct (remove_nodes_loop g parent _) as [g1 [e|]]; [discriminate|]. intros _. cbn [fst]. unfold reindexed. cbn [g_edges with_edges].
    rewrite filter_of, edges_of_list. reflexivity.
Qed.
Print Assumptions C72_repaired.
(** The edge b->a becomes c->d; SrcToDsts["b"]["a"] has it, SrcToDsts["c"] has nothing, until a node is removed. *)
Definition g3' : agraph := assign_ends g3 0 (lit "c") (lit "d").
Example C72_example : built g3 /\ (e_src <$> edges_list (g_edges g3) !! 0 = Some (lit "b")) /\
  option_map (map e_src) (entry (src_to_dsts (g_edges g3')) (lit "b") (lit "a")) = Some [lit "c"] /\
  entry (src_to_dsts (g_edges g3')) (lit "c") (lit "d") = None /\
  graph_string srt0 o_id g3' 9 = Ok (lit "digraph G {
	rankdir=LR;
	a->subgraph T {
	c;
} [ label=x ];
	a:p:n->cluster0;
	c->d;
	subgraph S {
		rank=same;
		subgraph T {
			c;
		};
		b [ color=red ];
	};
	subgraph cluster0 {
		d;
	};
	a;
}
") /\
  (exec o_id (CRemoveNode (lit "S") (lit "b")) g3').2 = None /\
  option_map (map e_src) (entry (src_to_dsts (g_edges (exec o_id (CRemoveNode (lit "S") (lit "b")) g3').1)) (lit "c") (lit "d")) = Some [lit "c"] /\
  entry (src_to_dsts (g_edges (exec o_id (CRemoveNode (lit "S") (lit "b")) g3').1)) (lit "b") (lit "a") = None.
Proof. split; [apply reachable_built, build_reachable|]. repeat split; vm_compute; reflexivity. Qed.
Example C72_history_example : exists g rs, changes_all [MEnds 0 (lit "c") (lit "d"); MCall o_id (CRemoveNode (lit "S") (lit "c")); MEnds 1 (lit "x") (lit "y")] g3 g rs /\
  rs = [None; None; None] /\ length (edges_list (g_edges g)) = 2.
Proof.
  eexists _, _. split.
  - eapply Cha_cons; [eapply (Ch_ends 0 _ _ _ ∅ ∅); vm_compute; reflexivity|]. eapply Cha_cons; [apply Ch_call|]. eapply Cha_cons; [|apply Cha_nil].
    eapply (Ch_ends 1 _ _ _ ∅ ∅). vm_compute. reflexivity.
  - split; vm_compute; reflexivity.
Qed.
