(** Property C71, several assignments: what becomes of a graph when the field Name of many nodes and subgraphs is assigned. *)
From Verif Require Import Maps MapFacts Parser Graph GraphProofs Write Direct DirectProofs SpecGraph SpecWrite SpecCount Rename SpecRename RenameProofs RenameMany PropsWrite PropsRename.
From Verif Require Ast.

(** Any assignments of new names: if a node with another name than its key had its statement at the top level, WriteAst dereferences
    a nil pointer; else it gives the tree of the graph without the relations between the main graph and the renamed subgraphs, with
    all the new names in it.  Errors and endless recursion stay. *)
Theorem C71_names_text : forall srt o g l fuel, fair o -> built g -> new_names g l -> is_subgraph g (g_name g) = false ->
  write_ast srt o (assign_names g l) fuel =
  match write_ast srt o (without_renamed g l) fuel with
  | Ok t => if decide (Exists (fun a => node_now l a <> a) (top_nodes t)) then Panic else Ok (ren_graph (node_now l) (sub_now l) t)
  | x => x
  end.
Proof. intros srt o g l fuel Fo B NN Sg. apply many_text; auto. apply built_ok. exact B. Qed.
Print Assumptions C71_names_text.
(** Nothing is lost if no subgraph with a statement at the top level got another name; *)
Theorem C71_names_nested : forall srt o g l fuel t, fair o -> built g -> new_names g l -> is_subgraph g (g_name g) = false ->
  write_ast srt o g fuel = Ok t -> (forall s, s ∈ top_subs t -> sub_now l s = s) ->
  write_ast srt o (assign_names g l) fuel =
  if decide (Exists (fun a => node_now l a <> a) (top_nodes t)) then Panic else Ok (ren_graph (node_now l) (sub_now l) t).
Proof.
  intros srt o g l fuel t Fo B NN Sg H T. rewrite (C71_names_text srt o g l fuel Fo B NN Sg).
  assert (E : write_ast srt o (without_renamed g l) fuel = Ok t); [|rewrite E; reflexivity].
  refine (less_text o g (g_rels (without_renamed g l)) (fun x => sub_now l x <> x) Fo (built_ok g B) Sg _ _ srt fuel t H _).
  - intros k N. apply (children_without g l k). exact N.
  - intros x. apply without_lost.
  - intros x Hx N. exact (N (T x Hx)).
Qed.
Print Assumptions C71_names_nested.
(** and of those that did, neither the old nor the new name is at the top level any more. *)
Theorem C71_names_lost : forall srt o g l fuel t s, fair o -> built g -> new_names g l -> is_subgraph g (g_name g) = false ->
  write_ast srt o (assign_names g l) fuel = Ok t -> sub_now l s <> s -> s ∉ top_subs t /\ sub_now l s ∉ top_subs t.
Proof.
  intros srt o g l fuel t s Fo B NN Sg H Ns. rewrite (C71_names_text srt o g l fuel Fo B NN Sg) in H.
  destruct (write_ast srt o (without_renamed g l) fuel) as [b| | |] eqn:E; try discriminate. destruct (decide _); [discriminate|]. injection H as <-.
  pose proof (left_text o g (g_rels (without_renamed g l)) (fun x => sub_now l x <> x) Fo (built_ok g B) (fun x => without_lost g l x) srt fuel b E) as L.
  assert (L' : forall x, x ∈ top_subs b -> sub_now l x = x /\ is_subgraph g x = true).
  { intros x Hx. destruct (L x Hx) as [L1 L2]. split; [|exact L2]. destruct (decide (sub_now l x = x)); [assumption|contradiction]. }
  destruct (nn_sub _ _ NN s Ns) as [[_ F] _]. rewrite top_ren.
  split; intros X; apply elem_of_list_fmap in X; destruct X as (y & Ey & Hy); destruct (L' y Hy) as [Y1 Y2]; rewrite Y1 in Ey; subst y; congruence.
Qed.
Print Assumptions C71_names_lost.

(** For instance for _, n := range g.Nodes.Nodes (n.Name = p + n.Name), p not empty, with names that are new: WriteAst panics unless
    every node statement was inside a subgraph, and then all names of nodes have the prefix. *)
Theorem C71_prefix : forall srt o g p fuel l, fair o -> built g -> p <> [] -> is_subgraph g (g_name g) = false ->
  (forall k, is_node g k = true -> is_node g (p ++ k) = false /\ is_subgraph g (p ++ k) = false /\ is_subgraph g k = false) ->
  (forall k, k ∈ l <-> is_node g k = true) ->
  write_ast srt o (assign_names g (map (fun k => NameNode k (p ++ k)) l)) fuel =
  match write_ast srt o g fuel with
  | Ok t => if decide (top_nodes t = []) then Ok (ren_graph (fun x => if is_node g x then p ++ x else x) (fun x => x) t) else Panic
  | x => x
  end.
Proof.
  intros srt o g p fuel l Fo B Np Sg F K. set (m := map (fun k => NameNode k (p ++ k)) l).
  assert (PP : forall k, p ++ k <> k). { intros k X. apply Np. apply (f_equal length) in X. rewrite app_length in X. destruct p; [reflexivity|cbn in X; lia]. }
  assert (M : forall k, node_now m k = if decide (k ∈ l) then p ++ k else k).
  { intros k. unfold m. clear -l. induction l as [|x l IH] using rev_ind; [reflexivity|]. rewrite map_app. cbn [map]. rewrite node_now_snoc, IH.
    destruct (decide (x = k)) as [->|N]; [rewrite decide_True by (apply elem_of_app; right; left); reflexivity|].
    destruct (decide (k ∈ l)) as [D|D], (decide (k ∈ l ++ [x])) as [D'|D']; try reflexivity; exfalso.
    - apply D'. apply elem_of_app. auto.
    - apply elem_of_app in D'. destruct D' as [D'|D']; [contradiction|]. apply elem_of_list_singleton in D'. congruence. }
  assert (MN : forall k, node_now m k = if is_node g k then p ++ k else k).
  { intros k. rewrite (M k). specialize (K k). destruct (is_node g k), (decide (k ∈ l)) as [D|D]; try reflexivity; exfalso; [apply D, K; reflexivity|]. apply K in D. discriminate. }
  assert (MS : forall k, sub_now m k = k).
  { intros k. unfold m. clear -l. induction l as [|x l IH] using rev_ind; [reflexivity|]. rewrite map_app. cbn [map]. rewrite sub_now_snoc. exact IH. }
  assert (ND : forall k, node_now m k <> k -> is_node g k = true /\ node_now m k = p ++ k). { intros k. rewrite (MN k). destruct (is_node g k); [auto|congruence]. }
  assert (NN : new_names g m).
  { constructor.
    - intros c Hc. unfold m in Hc. apply elem_of_list_fmap in Hc. destruct Hc as (k & -> & Hk). apply K. exact Hk.
    - intros x N. destruct (ND x N) as [N1 N2]. rewrite N2. destruct (F x N1) as (F1 & F2 & F3). split; [split; assumption|exact F3].
    - intros x N. rewrite (MS x) in N. congruence.
    - intros x y Nx Ny E. destruct (ND x Nx) as [_ X], (ND y Ny) as [_ Y]. rewrite X, Y in E. exact (app_inv_head p x y E).
    - intros x y N. rewrite (MS x) in N. congruence.
    - intros x y _ N. rewrite (MS y) in N. congruence. }
  rewrite (C71_names_text srt o g m fuel Fo B NN Sg).
  assert (W : without_renamed g m = g).
  { unfold without_renamed. assert (Q : forall z r, fold_left (fun r c => match c with NameSub s _ => if decide (sub_now z s = s) then r else relations_remove r (g_name g) s | _ => r end) m r = r).
    { intros z. unfold m. clear. induction l as [|x l IH]; intros r; [reflexivity|]. cbn [map fold_left]. apply IH. }
    rewrite Q. destruct g; reflexivity. }
  rewrite W. destruct (write_ast srt o g fuel) as [t| | |] eqn:Ew; try reflexivity.
  assert (R : forall t, ren_graph (node_now m) (sub_now m) t = ren_graph (fun x => if is_node g x then p ++ x else x) (fun x => x) t).
  { intros t0. apply ren_graph_ext; [exact MN|exact MS]. }
  rewrite R. destruct (top_nodes t) as [|a rest] eqn:Et.
  - rewrite decide_False by (rewrite Exists_nil; tauto). reflexivity.
  - rewrite (decide_False (P := a :: rest = [])) by discriminate. rewrite decide_True; [reflexivity|]. apply Exists_cons_hd. rewrite (MN a).
    assert (Na : is_node g a = true) by (apply (top_is_node srt o g fuel t Fo (built_ok g B) Ew); rewrite Et; left). rewrite Na. apply PP.
Qed.
Print Assumptions C71_prefix.

(** Examples, with the graph of PropsWrite.v: the nodes b, c and d and the subgraph T are written inside subgraphs, a at the top level. *)
Definition l3 : list naming := [NameNode (lit "b") (lit "q"); NameNode (lit "c") (lit "y"); NameSub (lit "T") (lit "U"); NameNode (lit "b") (lit "z")].
Lemma l3_node (x : gostr) : node_now l3 x <> x -> (x = lit "b" /\ node_now l3 x = lit "z") \/ (x = lit "c" /\ node_now l3 x = lit "y").
Proof.
  intros H. destruct (node_now_in l3 x H) as [n Hn]. unfold l3 in Hn. rewrite !elem_of_cons, elem_of_nil in Hn.
  destruct Hn as [E|[E|[E|[E|[]]]]]; try discriminate; injection E as -> ->; [left|right|left]; split; reflexivity.
Qed.
Lemma l3_sub (x : gostr) : sub_now l3 x <> x -> x = lit "T" /\ sub_now l3 x = lit "U".
Proof.
  intros H. destruct (sub_now_in l3 x H) as [n Hn]. unfold l3 in Hn. rewrite !elem_of_cons, elem_of_nil in Hn.
  destruct Hn as [E|[E|[E|[E|[]]]]]; try discriminate. injection E as -> ->. split; reflexivity.
Qed.
Lemma l3_new : new_names g3 l3.
Proof.
  constructor.
  - intros c Hc. unfold l3 in Hc. rewrite !elem_of_cons, elem_of_nil in Hc. destruct Hc as [->|[->|[->|[->|[]]]]]; vm_compute; reflexivity.
  - intros x H. destruct (l3_node x H) as [[-> ->]|[-> ->]]; repeat split; vm_compute; reflexivity.
  - intros x H. destruct (l3_sub x H) as [-> ->]. split; [split; vm_compute; reflexivity|]. split; [|vm_compute; reflexivity].
    apply (proj1 (bool_decide_eq_false (lit "U" ∈ children (g_rels g3) (g_name g3)))). vm_compute. reflexivity.
  - intros x y Hx Hy. destruct (l3_node x Hx) as [[-> ->]|[-> ->]], (l3_node y Hy) as [[-> ->]|[-> ->]]; intros E; try reflexivity; discriminate.
  - intros x y Hx Hy _. destruct (l3_sub x Hx) as [-> _], (l3_sub y Hy) as [-> _]. reflexivity.
  - intros x y Hx Hy. destruct (l3_sub y Hy) as [_ ->]. destruct (l3_node x Hx) as [[_ ->]|[_ ->]]; discriminate.
Qed.
Example C71_names_example : is_subgraph g3 (g_name g3) = false /\
  (exists t, write_ast srt0 o_id g3 9 = Ok t /\ bool_decide (Forall (fun s => sub_now l3 s = s) (top_subs t)) = true /\
    bool_decide (Exists (fun a => node_now l3 a <> a) (top_nodes t)) = false) /\
  graph_string srt0 o_id (assign_names g3 l3) 9 = Ok (lit "digraph G {
	rankdir=LR;
	a->subgraph U {
	y;
} [ label=x ];
	a:p:n->cluster0;
	z->a;
	subgraph S {
		rank=same;
		subgraph U {
			y;
		};
		z [ color=red ];
	};
	subgraph cluster0 {
		d;
	};
	a;
}
").
Proof. split; [vm_compute; reflexivity|]. split; [eexists; split; [vm_compute; reflexivity|split; vm_compute; reflexivity]|vm_compute; reflexivity]. Qed.
(** All names with the prefix n_: the node a is at the top level, so String panics. *)
Definition k3 : list gostr := [lit "a"; lit "b"; lit "c"; lit "d"].
Example C71_prefix_example : (forall k, k ∈ k3 <-> is_node g3 k = true) /\
  (forall k, is_node g3 k = true -> is_node g3 (lit "n_" ++ k) = false /\ is_subgraph g3 (lit "n_" ++ k) = false /\ is_subgraph g3 k = false) /\
  (exists t, write_ast srt0 o_id g3 9 = Ok t /\ top_nodes t <> []) /\
  graph_string srt0 o_id (assign_names g3 (map (fun k => NameNode k (lit "n_" ++ k)) k3)) 9 = Panic.
Proof.
  assert (A : forall k, k ∈ k3 <-> is_node g3 k = true).
  { intros k. assert (E : keys (nodes_lookup (g_nodes g3)) = list_to_set k3) by (apply (proj1 (bool_decide_eq_true _)); vm_compute; reflexivity).
    rewrite <- (elem_of_list_to_set (C := names)), <- E. unfold keys. rewrite elem_of_dom. unfold is_node. destruct (nodes_lookup (g_nodes g3) !! k); split; eauto; [intros [? ?]; discriminate|discriminate]. }
  split; [exact A|]. split; [|split].
  - intros k Hk. apply A in Hk. unfold k3 in Hk. rewrite !elem_of_cons, elem_of_nil in Hk. destruct Hk as [->|[->|[->|[->|[]]]]]; repeat split; vm_compute; reflexivity.
  - eexists. split; [vm_compute; reflexivity|vm_compute; discriminate].
  - vm_compute. reflexivity.
Qed.
