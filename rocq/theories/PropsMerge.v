(** Property C68: adding to a graph, by calls or by analysing a text into it, lays the addition over it. *)
From Verif Require Import Base Parser Maps Graph Direct MapFacts SpecGraph GraphProofs DirectProofs Analyse SpecAnalyse AnalyseProofs ReadProofs SpecOrder OrderProofs PropsGraph PropsOrder SpecMerge MergeProofs.
From Verif Require Ast PropsAnalyse PropsParse.

(** analyse.go:31-35 (Analyse) on a graph: the text is added to the graph that is passed in. *)
Definition into (os : nat -> oracle) (ord : order) (a : Ast.graph) (g : agraph) : agraph * option err :=
  let '((g', _), r) := analyse _ (graph_step os) ord a (g, 0) in (g', r).
Lemma into_fst os ord a g : (into os ord a g).1 = (analyse _ (graph_step os) ord a (g, 0)).1.1 /\ (into os ord a g).2 = (analyse _ (graph_step os) ord a (g, 0)).2.
Proof. unfold into. destruct (analyse _ _ _ _ _) as [[g' j] r]. split; reflexivity. Qed.

(** ** C68.  Take any graph g, and calls that remove nothing and succeed on a graph g0 that has the name and the flags of g and nothing
    else.  The same calls (with any iteration orders) succeed on g, and give what they give on g0, laid over g: *)
Theorem C68_history : forall g g0 h h', built g -> built g0 -> Forall (fun oc => fair oc.1) h -> Forall (fun oc => fair oc.1) h' ->
  map snd h' = map snd h -> Forall no_removal (map snd h) -> view g0 = blank (view g) -> succeeds h g0 ->
  succeeds h' g /\ view (run h' g).1 = overlay (view g) (view (run h g0).1).
Proof.
  intros g g0 h h' B B0 F F' E A V S. destruct (run_built h g0 B0 F) as [_ R]. destruct (run_built h' g B F') as [_ R'].
  rewrite V in R. rewrite E in R'. rewrite <- (overlay_blank (view g)) in R' at 1.
  destruct (overlay_run (view g) _ _ _ _ A R S _ _ R') as [E1 E2]. split; [exact E2|exact E1].
Qed.
Print Assumptions C68_history.

(** the attributes, nodes and so on that g has are kept; only attributes that the addition gives anew, the name and the flags may change. *)
Theorem C68_keeps : forall s t,
  (forall n a, s_nodes s !! n = Some a -> exists b, s_nodes (overlay s t) !! n = Some b /\
     forall k, b !! k = match default ∅ (s_nodes t !! n) !! k with Some v => Some v | None => a !! k end) /\
  (forall n b, s_nodes (overlay s t) !! n = Some b -> s_is_node s n \/ s_is_node t n) /\
  (forall n a, s_subs s !! n = Some a -> exists b, s_subs (overlay s t) !! n = Some b /\
     forall k, b !! k = match default ∅ (s_subs t !! n) !! k with Some v => Some v | None => a !! k end) /\
  (forall k, s_attrs (overlay s t) !! k = match s_attrs t !! k with Some v => Some v | None => s_attrs s !! k end) /\
  (forall p c, is_child (overlay s t) p c <-> is_child s p c \/ is_child t p c) /\
  s_order s `prefix_of` s_order (overlay s t) /\ s_edges (overlay s t) = s_edges s ++ s_edges t.
Proof.
  assert (X : forall (old new : gmap gostr attrs) n a, old !! n = Some a -> exists b, laid old new !! n = Some b /\
     forall k, b !! k = match default ∅ (new !! n) !! k with Some v => Some v | None => a !! k end).
  { intros old new n a H. rewrite laid_lookup, H. destruct (new !! n) as [b|]; eexists; (split; [reflexivity|]); intros k; cbn.
    - unfold id. rewrite lookup_union. destruct (b !! k), (a !! k); reflexivity.
    - rewrite lookup_empty. reflexivity. }
  intros s t. split; [intros n a H; apply X, H|]. split.
  { intros n b H. unfold s_is_node. cbn [overlay s_nodes] in H. rewrite laid_lookup in H. destruct (s_nodes s !! n); [left; eauto|].
    destruct (s_nodes t !! n); [right; eauto|discriminate]. }
  split; [intros n a H; apply X, H|]. split; [intros k; cbn; rewrite lookup_union; destruct (s_attrs t !! k), (s_attrs s !! k); reflexivity|].
  split; [intros p c; unfold is_child; cbn; rewrite elem_of_union; tauto|]. split; [|reflexivity]. cbn. apply prefix_app_r. reflexivity.
Qed.
Print Assumptions C68_keeps.

(** Analysing a text into a graph succeeds if and only if the text can be read on its own, and then the outcome is the graph that is read
    on its own, laid over the old one. *)
Theorem C68_analyse_into : forall os os' ord ord' a g, (forall i, fair (os i)) -> (forall i, fair (os' i)) -> fair_order ord -> fair_order ord' -> built g ->
  built (into os ord a g).1 /\
  match (into os ord a g).2, new_analysed_graph os' ord' a with
  | None, inl t => view (into os ord a g).1 = overlay (view g) (view t)
  | Some _, inr _ => True
  | _, _ => False
  end.
Proof.
  intros os os' ord ord' a g Fo Fo' Fd Fd' B. destruct (into_fst os ord a g) as [-> ->].
  destruct (analysed_into os ord a g 0 Fo Fd B) as (l & Hl & B' & G). destruct (analysed_graph os' ord' a Fo' Fd') as (l' & Hl' & G').
  split; [exact B'|]. assert (OK : Forall call_ok l <-> Forall call_ok l') by exact (trace_eq_ok _ _ (body_det _ _ _ _ _ _ Hl _ Hl')).
  destruct (analyse _ _ ord a (g, 0)) as [[g' j] [e|]]; cbn [fst snd] in *; destruct (new_analysed_graph os' ord' a) as [t|e']; try exact I.
  - apply G, OK. apply G'.
  - destruct G as [O ->]. destruct G' as (O' & R & ->). rewrite overlay_fold by (eapply body_builds; exact Hl'). rewrite overlay_start.
    eapply body_same_build; [exact Hl|exact Hl'|reflexivity].
  - apply G', OK. apply G.
Qed.
Print Assumptions C68_analyse_into.

(** Analysing a text a second time changes nothing, except that its edges are there once more. *)
Theorem C68_twice : forall os ord os' ord' os'' ord'' a t g, (forall i, fair (os i)) -> (forall i, fair (os' i)) -> (forall i, fair (os'' i)) ->
  fair_order ord -> fair_order ord' -> fair_order ord'' -> built g ->
  new_analysed_graph os'' ord'' a = inl t ->
  view (into os' ord' a (into os ord a g).1).1 = more_edges (view (into os ord a g).1) (edges_list (g_edges t)).
Proof.
  intros os ord os' ord' os'' ord'' a t g F F' F'' D D' D'' B E.
  destruct (C68_analyse_into os os'' ord ord'' a g F F'' D D'' B) as [B1 M1].
  destruct (C68_analyse_into os' os'' ord' ord'' a _ F' F'' D' D'' B1) as [B2 M2].
  destruct (analysed_graph os'' ord'' a F'' D'') as (l & Hl & G). rewrite E in M1, M2, G.
  destruct ((into os ord a g).2); [destruct M1|]. destruct ((into os' ord' a (into os ord a g).1).2); [destruct M2|]. rewrite M2, M1.
  apply overlay_again. destruct G as (_ & _ & ->). clear. generalize (start_listed a). generalize (s_start a).
  induction l as [|c l IH]; intros s H; cbn [fold_left]; [exact H|]. apply IH, build_listed, H.
Qed.
Print Assumptions C68_twice.

(** A text may be analysed in parts.  Let the statements of a be those of a1 and then those of a2, where a1 has no node, edge or graph
    defaults and a2 no node defaults at the top level.  Then analysing a1 and then a2 into g succeeds if and only if analysing a does, and gives the same. *)
Theorem C68_parts : forall os ord os1 ord1 os2 ord2 a a1 a2 g, (forall i, fair (os i)) -> (forall i, fair (os1 i)) -> (forall i, fair (os2 i)) ->
  fair_order ord -> fair_order ord1 -> fair_order ord2 -> built g ->
  Ast.g_id a1 = Ast.g_id a -> Ast.g_id a2 = Ast.g_id a -> Ast.g_type a1 = Ast.g_type a -> Ast.g_type a2 = Ast.g_type a ->
  Ast.g_strict a1 = Ast.g_strict a -> Ast.g_strict a2 = Ast.g_strict a ->
  Ast.g_stmts a = Ast.g_stmts a1 ++ Ast.g_stmts a2 -> Forall no_default (Ast.g_stmts a1) -> Forall no_node_default (Ast.g_stmts a2) ->
  let r := into os ord a g in let r1 := into os1 ord1 a1 g in let r2 := into os2 ord2 a2 r1.1 in
  (r.2 = None <-> r1.2 = None /\ r2.2 = None) /\ (r.2 = None -> view r.1 = view r2.1).
Proof.
  intros os ord os1 ord1 os2 ord2 a a1 a2 g F F1 F2 D D1 D2 B I1 I2 T1 T2 S1 S2 Es ND NN r r1 r2. subst r r1 r2.
  destruct (into_fst os ord a g) as [-> ->]. destruct (into_fst os2 ord2 a2 (into os1 ord1 a1 g).1) as [-> ->]. destruct (into_fst os1 ord1 a1 g) as [-> ->].
  destruct (analysed_into os ord a g 0 F D B) as (l & Hl & B' & G).
  destruct (analysed_into os1 ord1 a1 g 0 F1 D1 B) as (l1 & Hl1 & B1 & G1).
  destruct (analysed_into os2 ord2 a2 _ 0 F2 D2 B1) as (l2 & Hl2 & B2 & G2).
  set (g1 := (analyse _ (graph_step os1) ord1 a1 (g, 0)).1.1) in *.
  rewrite Es in Hl. destruct (body_calls_app _ _ _ _ _ _ _ Hl) as (m1 & m2 & -> & H1 & H2). cbn [app] in H2.
  rewrite <- (app_nil_r (Ast.g_stmts a1)) in H2. destruct (body_shift _ _ _ ND [] m2 (Forall_nil_2 _) NN H2) as (m2' & H2' & OK2 & EQ2).
  rewrite I1 in Hl1. rewrite I2 in Hl2.
  assert (O1 : Forall call_ok l1 <-> Forall call_ok m1) by exact (trace_eq_ok _ _ (body_det _ _ _ _ _ _ Hl1 _ H1)).
  assert (O2 : Forall call_ok l2 <-> Forall call_ok m2) by (rewrite OK2; exact (trace_eq_ok _ _ (body_det _ _ _ _ _ _ Hl2 _ H2'))).
  assert (OA : Forall call_ok (m1 ++ m2) <-> Forall call_ok l1 /\ Forall call_ok l2) by (rewrite Forall_app, <- O1, <- O2; reflexivity).
  destruct (analyse _ _ ord a (g, 0)) as [[g' j] rr]. cbn [fst snd] in *.
  assert (GG : match rr with None => (Forall call_ok l1 /\ Forall call_ok l2) /\ view g' = fold_left s_build (m1 ++ m2) (head (view g) a) | Some _ => ~ (Forall call_ok l1 /\ Forall call_ok l2) end).
  { destruct rr as [e|]; [intros X; apply G, OA, X|]. destruct G as [X Y]. split; [apply OA, X|exact Y]. }
  clear G. rename GG into G.
  destruct ((analyse _ (graph_step os1) ord1 a1 (g, 0)).2) as [e1|].
  { destruct rr as [e|]; [|destruct G as [[X _] _]; contradiction]. split; [|discriminate]. split; [discriminate|intros [X _]; discriminate X]. }
  destruct G1 as [OK1 V1]. destruct ((analyse _ (graph_step os2) ord2 a2 (g1, 0)).2) as [e2|].
  { destruct rr as [e|]; [|destruct G as [[_ X] _]; contradiction]. split; [|discriminate]. split; [discriminate|intros [_ X]; discriminate X]. }
  destruct G2 as [OK2' V2]. destruct rr as [e|]; [exfalso; apply G; split; assumption|]. destruct G as [_ V].
  split; [tauto|]. intros _. rewrite V, V2, V1. rewrite fold_left_app.
  assert (E1 : fold_left s_build l1 (head (view g) a1) = fold_left s_build m1 (head (view g) a)).
  { replace (head (view g) a1) with (head (view g) a) by (unfold head; rewrite I1, T1, S1; reflexivity). eapply body_same_build; [exact Hl1|exact H1|reflexivity]. }
  rewrite E1. set (u := fold_left s_build m1 (head (view g) a)).
  destruct (fold_name m1 (head (view g) a)) as (N1 & N2 & N3). fold u in N1, N2, N3. cbn in N1, N2, N3.
  rewrite (head_same u a2) by congruence.
  rewrite (EQ2 u).
  - eapply body_same_build; [exact H2'|exact Hl2|exact N1].
  - intros n Hn. destruct (body_adds _ _ _ _ _ _ _ H1 Hn) as [X|[m X]]; [inversion X|]. eapply present_added. exact X.
Qed.
Print Assumptions C68_parts.

(** *** Examples *)
Definition old_text : gostr := lit "digraph G { rank=same; a [color=red, shape=box]; a -> b; subgraph S { label=x; c } }".
Definition add_text : gostr := lit "digraph G { b [color=blue]; a [color=green]; a -> b; subgraph S { label=y; d -> c } }".
Definition new_text : gostr := lit "digraph H { d; subgraph T { e } }".
Definition gold : agraph := match new_analysed_graph PropsAnalyse.os_id PropsAnalyse.ord_id (ast_of old_text) with inl g => g | inr _ => new_graph end.
Definition into_id (t : gostr) (g : agraph) := into PropsAnalyse.os_id PropsAnalyse.ord_id (ast_of t) g.
Definition colors (s : sgraph) : list (gostr * option gostr) := map (fun n => (n, default ∅ (s_nodes s !! n) !! lit "color")) (s_order s).
Lemma ex_gold : built gold.
Proof.
  unfold gold. destruct (analysed_graph PropsAnalyse.os_id PropsAnalyse.ord_id (ast_of old_text) PropsAnalyse.fair_os_id PropsAnalyse.fair_ord_id) as (l & _ & G).
  destruct (new_analysed_graph _ _ _); [apply reachable_built, G|apply built_new].
Qed.
Example C68_into_example : built gold /\ (into_id add_text gold).2 = None /\
  colors (view gold) = [(lit "a", Some (lit "red")); (lit "b", None); (lit "c", None)] /\
  colors (view (into_id add_text gold).1) = [(lit "a", Some (lit "green")); (lit "b", Some (lit "blue")); (lit "c", None); (lit "d", None)] /\
  default ∅ (s_nodes (view (into_id add_text gold).1) !! lit "a") !! lit "shape" = Some (lit "box") /\
  default ∅ (s_subs (view (into_id add_text gold).1) !! lit "S") !! lit "label" = Some (lit "y") /\
  length (s_edges (view gold)) = 1 /\ length (s_edges (view (into_id add_text gold).1)) = 3 /\
  length (s_edges (view (into_id add_text (into_id add_text gold).1).1)) = 5.
Proof. split; [exact ex_gold|]. vm_compute. repeat split. Qed.
(** Statements that contradict themselves may follow each other in parts: b becomes blue. *)
Definition stmts_of (t : gostr) := Ast.g_stmts (ast_of t).
Definition part1 : gostr := lit "digraph G { a -> b; b [color=red]; subgraph S { node [shape=box]; c } }".
Definition part2 : gostr := lit "digraph G { edge [style=bold]; b [color=blue]; a -> d; graph [rank=same]; subgraph S { c -> a } }".
Definition whole : gostr := lit "digraph G { a -> b; b [color=red]; subgraph S { node [shape=box]; c } edge [style=bold]; b [color=blue]; a -> d; graph [rank=same]; subgraph S { c -> a } }".
Definition no_node_defaultb (s : Ast.stmt) : bool := match s with Ast.SNodeAttrs _ => false | _ => true end.
Lemma no_node_defaultb_ok l : forallb no_node_defaultb l = true -> Forall no_node_default l.
Proof. intros H. apply Forall_forall. intros x Hx. rewrite forallb_forall in H. specialize (H x (proj1 (elem_of_list_In _ _) Hx)). destruct x; try discriminate; exact I. Qed.
Example C68_parts_example : Ast.g_stmts (ast_of whole) = Ast.g_stmts (ast_of part1) ++ Ast.g_stmts (ast_of part2) /\
  length (stmts_of part1) = 3 /\ length (stmts_of part2) = 5 /\ Forall no_default (stmts_of part1) /\ Forall no_node_default (stmts_of part2) /\
  (into_id whole gold).2 = None /\ colors (view (into_id whole gold).1) = [(lit "a", Some (lit "red")); (lit "b", Some (lit "blue")); (lit "c", None); (lit "d", None)].
Proof.
  split; [vm_compute; reflexivity|]. split; [vm_compute; reflexivity|]. split; [vm_compute; reflexivity|].
  split; [apply no_defaultb_ok; vm_compute; reflexivity|]. split; [apply no_node_defaultb_ok; vm_compute; reflexivity|]. vm_compute. repeat split.
Qed.
(** With defaults in the first part, a text may not be cut. *)
Definition cut1 : gostr := lit "digraph G { node [color=red]; a }".
Definition cut2 : gostr := lit "digraph G { b }".
Definition uncut : gostr := lit "digraph G { node [color=red]; a; b }".
Theorem C68_parts_refuted : stmts_of uncut = stmts_of cut1 ++ stmts_of cut2 /\ (into_id uncut new_graph).2 = None /\
  view (into_id uncut new_graph).1 <> view (into_id cut2 (into_id cut1 new_graph).1).1.
Proof.
  split; [vm_compute; reflexivity|]. split; [vm_compute; reflexivity|]. intros E. apply (f_equal colors) in E. vm_compute in E. discriminate E.
Qed.
Print Assumptions C68_parts_refuted.
(** A text with another name renames the graph.  Its subgraphs are still there, but not in the graph of the new name: they are no longer written. *)
Theorem C68_rename_refuted : built gold /\ (into_id new_text gold).2 = None /\
  s_is_sub (view (into_id new_text gold).1) (lit "S") /\
  ~ is_child (view (into_id new_text gold).1) (s_name (view (into_id new_text gold).1)) (lit "S") /\
  Write.graph_string PropsWrite.srt0 o_id gold 9 = Ok (lit "digraph G {
	rank=same;
	a->b;
	subgraph S {
		label=x;
		c;
	};
	a [ color=red, shape=box ];
	b;
}
") /\
  Write.graph_string PropsWrite.srt0 o_id (into_id new_text gold).1 9 = Ok (lit "digraph H {
	rank=same;
	a->b;
	subgraph T {
		e;
	};
	a [ color=red, shape=box ];
	b;
	c;
	d;
}
").
Proof.
  split; [exact ex_gold|]. split; [vm_compute; reflexivity|].
  split; [unfold s_is_sub; apply (bool_decide_unpack _); vm_compute; exact I|].
  split; [unfold is_child; apply (bool_decide_unpack _); vm_compute; exact I|].
  split; vm_compute; reflexivity.
Qed.
Print Assumptions C68_rename_refuted.
(** Calls. *)
Definition more_calls : list call :=
  [CAddNode (lit "G") (lit "a") {[lit "color" := lit "green"]}; CAddNode (lit "S") (lit "d") ∅; CAddSubGraph (lit "G") (lit "S") {[lit "label" := lit "y"]};
   CAddAttr (lit "S") (lit "rank") (lit "min"); CAddAttr (lit "G") (lit "rank") (lit "max"); CAddEdge (lit "a") (lit "d") true ∅; CSetName (lit "H")].
Definition bare : agraph := (run (map (pair o_id) [CSetName (lit "G"); CSetDir true]) new_graph).1.
Example C68_history_example : built gold /\ built bare /\ view bare = blank (view gold) /\ Forall no_removal more_calls /\
  Forall (fun oc => fair oc.1) (map (pair o_id) more_calls) /\ succeeds (map (pair o_id) more_calls) bare /\
  colors (view (run (map (pair o_id) more_calls) gold).1) = [(lit "a", Some (lit "green")); (lit "b", None); (lit "c", None); (lit "d", None)].
Proof.
  split; [exact ex_gold|]. split; [unfold bare; apply run_built; [apply built_new|repeat constructor; apply fair_id]|].
  split; [apply sgraph_ext; apply (bool_decide_unpack _); vm_compute; exact I|]. split; [repeat constructor|]. split; [repeat constructor; apply fair_id|].
  split; [vm_compute; repeat constructor|]. vm_compute. reflexivity.
Qed.
(** Calls that succeed on g need not succeed on their own: they may give attributes to a subgraph that g has. *)
Theorem C68_alone_refuted : exists h, Forall (fun oc => fair oc.1) h /\ Forall no_removal (map snd h) /\ succeeds h gold /\ ~ succeeds h bare.
Proof.
  exists [(o_id, CAddAttr (lit "S") (lit "rank") (lit "min"))]. split; [repeat constructor; apply fair_id|]. split; [repeat constructor|].
  split; [vm_compute; repeat constructor|]. unfold succeeds. vm_compute. intros H. inversion H. discriminate.
Qed.
Print Assumptions C68_alone_refuted.
