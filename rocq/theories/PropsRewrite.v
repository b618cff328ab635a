(** Property C77: different ways to write the same statements. *)
From Verif Require Import Base Parser Maps Graph Direct SpecGraph Analyse SpecAnalyse SpecOrder OrderProofs MapFacts GraphProofs DirectProofs AnalyseProofs ReadProofs SpecWrite Write WriteProofs PropsGraph PropsWrite PropsOrder SpecMerge MergeProofs PropsMerge SpecRewrite RewriteProofs.
From Verif Require Ast PropsAnalyse PropsParse.

(** ** C77.  Analysing two trees whose statements may stand for each other into any graph: both succeed, with the same graph, or both fail; *)
Theorem C77_into : forall os os' ord ord' a a' g, (forall i, fair (os i)) -> (forall i, fair (os' i)) -> fair_order ord -> fair_order ord' -> built g ->
  same_trees a a' ->
  match into os ord a g, into os' ord' a' g with
  | (h, None), (h', None) => view h = view h'
  | (_, Some _), (_, Some _) => True
  | _, _ => False
  end.
Proof.
  intros os os' ord ord' a a' g Fo Fo' Fd Fd' B (Ei & Et & Es & S).
  destruct (analysed_into os ord a g 0 Fo Fd B) as (l & Hl & _ & G). destruct (analysed_into os' ord' a' g 0 Fo' Fd' B) as (l' & Hl' & _ & G').
  rewrite <- Ei in Hl'. destruct (same_bodies (Ast.g_id a) _ _ l l' (head (view g) a) S Hl Hl') as [O E].
  unfold into. destruct (analyse _ _ ord a (g, 0)) as [[h j] [e|]]; destruct (analyse _ _ ord' a' (g, 0)) as [[h' j'] [e'|]]; cbn [fst snd] in *.
  - exact I.
  - apply G, O, G'.
  - apply G', O, G.
  - destruct G as [_ ->]. destruct G' as [_ ->]. rewrite E. f_equal. unfold head. rewrite Ei, Et, Es. reflexivity.
Qed.
Print Assumptions C77_into.
(** also into a new graph, *)
Corollary C77_analyse : forall os os' ord ord' a a', (forall i, fair (os i)) -> (forall i, fair (os' i)) -> fair_order ord -> fair_order ord' -> same_trees a a' ->
  match new_analysed_graph os ord a, new_analysed_graph os' ord' a' with
  | inl g, inl g' => view g = view g'
  | inr _, inr _ => True
  | _, _ => False
  end.
Proof.
  intros os os' ord ord' a a' Fo Fo' Fd Fd' S. pose proof (C77_into os os' ord ord' a a' new_graph Fo Fo' Fd Fd' built_new S) as H.
  unfold into, new_analysed_graph in *. destruct (analyse _ _ ord a (new_graph, 0)) as [[h j] [e|]]; destruct (analyse _ _ ord' a' (new_graph, 0)) as [[h' j'] [e'|]]; exact H.
Qed.
Print Assumptions C77_analyse.
(** and reading two texts with such trees gives the same graph, and the same text again. *)
Corollary C77_read : forall rnd rnd' os os' ord ord' k k' src src' a a' n n', (forall i, fair (os i)) -> (forall i, fair (os' i)) -> fair_order ord -> fair_order ord' ->
  parse_bytes rnd k src = Ok (a, n) -> parse_bytes rnd' k' src' = Ok (a', n') -> same_trees a a' ->
  match read rnd os ord k src, read rnd' os' ord' k' src' with
  | Ok (g, _), Ok (g', _) => view g = view g' /\
      forall srt srt' o o' fuel, fair o -> fair o' -> sorts (edge_less o) srt -> sorts (edge_less o') srt' ->
        (forall e x, e ∈ edges_list (g_edges g) -> e_attrs e !! x <> Some []) -> graph_string srt o g fuel = graph_string srt' o' g' fuel
  | Err (AnalyseFailed _), Err (AnalyseFailed _) => True
  | _, _ => False
  end.
Proof.
  intros rnd rnd' os os' ord ord' k k' src src' a a' n n' Fo Fo' Fd Fd' P P' S. unfold read. rewrite P, P'.
  pose proof (C77_analyse os os' ord ord' a a' Fo Fo' Fd Fd' S) as H.
  destruct (analysed_graph os ord a Fo Fd) as (l & _ & G). destruct (analysed_graph os' ord' a' Fo' Fd') as (l' & _ & G').
  destruct (new_analysed_graph os ord a) as [g|e], (new_analysed_graph os' ord' a') as [g'|e']; try exact H.
  split; [exact H|]. intros srt srt' o o' fuel F F' Ss Ss' V. apply C30_canonical; try assumption; [apply reachable_built, G|apply reachable_built, G'|].
  rewrite H. unfold same_content. do 5 (split; [reflexivity|]). split; [reflexivity|]. split; reflexivity.
Qed.
Print Assumptions C77_read.

(** *** Examples *)
Definition at1 (k v : String.string) : list (list Ast.attr) := [[Ast.Attr (lit k) (lit v)]].
Definition nd (i : String.string) : Ast.node_id := bare_node (lit i).
Definition nl (i : String.string) : Ast.location := Ast.LNode (nd i).
Definition ar (i : String.string) : Ast.edge_rh := Ast.EdgeRH true (nl i).
Arguments at1 (_ _)%string_scope. Arguments nd _%string_scope. Arguments nl _%string_scope. Arguments ar _%string_scope.
Definition way1 : gostr := lit "digraph G { node [color=red]; node [shape=box]; subgraph T { k } -> a -> b; a -> b -> c [style=bold]; subgraph S { x -> y } subgraph S { label=l; z } }".
Definition way2 : gostr := lit "digraph G { node [shape=box][color=red]; subgraph T { k; k } -> a -> b; a; b; c; a -> b [style=bold]; b -> c [style=bold]; subgraph S { x -> y; label = l; z } }".
Definition tree1 : list Ast.stmt :=
  [Ast.SNodeAttrs (at1 "color" "red"); Ast.SNodeAttrs (at1 "shape" "box"); Ast.SEdge (Ast.LSub (Ast.SubGraph (lit "T") [Ast.SNode (nd "k") []])) [ar "a"; ar "b"] [];
   Ast.SEdge (nl "a") [ar "b"; ar "c"] (at1 "style" "bold");
   Ast.SSub (Ast.SubGraph (lit "S") [Ast.SEdge (nl "x") [ar "y"] []]); Ast.SSub (Ast.SubGraph (lit "S") [Ast.SAttr (Ast.Attr (lit "label") (lit "l")); Ast.SNode (nd "z") []])].
Lemma way1_tree : Ast.g_stmts (ast_of way1) = tree1.
Proof. vm_compute. reflexivity. Qed.
Definition tree2 : list Ast.stmt :=
  [Ast.SNodeAttrs (at1 "shape" "box" ++ at1 "color" "red"); Ast.SEdge (Ast.LSub (Ast.SubGraph (lit "T") [Ast.SNode (nd "k") []; Ast.SNode (nd "k") []])) [ar "a"; ar "b"] [];
   Ast.SNode (nd "a") []; Ast.SNode (nd "b") []; Ast.SNode (nd "c") []; 
   Ast.SEdge (nl "a") [ar "b"] (at1 "style" "bold"); Ast.SEdge (nl "b") [ar "c"] (at1 "style" "bold");
   Ast.SSub (Ast.SubGraph (lit "S") [Ast.SEdge (nl "x") [ar "y"] []; Ast.SAttr (Ast.Attr (lit "label") (lit "l")); Ast.SNode (nd "z") []])].
Lemma way2_tree : Ast.g_stmts (ast_of way2) = tree2.
Proof. vm_compute. reflexivity. Qed.

Lemma ways_same : same_trees (ast_of way1) (ast_of way2).
Proof.
  split; [vm_compute; reflexivity|]. split; [vm_compute; reflexivity|]. split; [vm_compute; reflexivity|]. rewrite way1_tree, way2_tree. unfold tree1, tree2.
  apply (Ss_app [_; _] [_] (_ :: _) (_ :: _)).
  { eapply Ss_trans; [apply Ss_node_defaults|]. apply Ss_node_default. apply (bool_decide_unpack _). vm_compute. exact I. }
  apply (Ss_app [_] [_]).
  { apply Ss_operands; [apply Sl_sub; apply Ss_sym, (Ss_node_twice (nd "k") [] [])|]. repeat constructor. }
  apply (Ss_app [_] [_; _; _; _; _]).
  { eapply Ss_trans; [apply Ss_declare|]. cbn [plain flat_map dst_of app map nl ar nd bare_node Ast.nid_id]. apply (Ss_app [_; _; _] [_; _; _] [_]); [apply Ss_refl|]. apply Ss_chain. exact I. }
  eapply Ss_trans; [apply Ss_merge|apply Ss_refl].
  - repeat constructor.
  - intros x Hx Hx'. unfold mentioned in *. cbn in Hx, Hx'. rewrite !elem_of_cons, elem_of_nil in *. destruct Hx' as [->|[]]. destruct Hx as [X|[X|[]]]; discriminate X.
Qed.
Example C77_example : parse_bytes PropsParse.rnd0 0 way1 = Ok (ast_of way1, 0) /\ parse_bytes PropsParse.rnd0 0 way2 = Ok (ast_of way2, 0) /\ same_trees (ast_of way1) (ast_of way2) /\
  length (Ast.g_stmts (ast_of way1)) = 6 /\ length (Ast.g_stmts (ast_of way2)) = 8 /\
  (into_id way1 gold).2 = None /\ length (s_edges (view (into_id way1 gold).1)) = 6 /\
  colors (view (into_id way2 new_graph).1) = map (fun n => (n, Some (lit "red"))) [lit "a"; lit "b"; lit "k"; lit "c"; lit "x"; lit "y"; lit "z"].
Proof.
  split; [vm_compute; reflexivity|]. split; [vm_compute; reflexivity|]. split; [exact ways_same|]. vm_compute. repeat split.
Qed.
(** Not every chain may be cut: the edges inside a subgraph at its start come after those of the chain. *)
Definition ends_of (s : sgraph) : list (gostr * gostr) := map (fun e => (e_src e, e_dst e)) (s_edges s).
Definition sub_of_x : Ast.location := Ast.LSub (Ast.SubGraph (lit "S") [Ast.SEdge (nl "x") [ar "y"] []]).
Definition graph_of (l : list Ast.stmt) : Ast.graph := Ast.Graph true false (lit "G") l.
Definition view_of (l : list Ast.stmt) : sgraph := view (into PropsAnalyse.os_id PropsAnalyse.ord_id (graph_of l) new_graph).1.
Definition err_of (l : list Ast.stmt) : option err := (into PropsAnalyse.os_id PropsAnalyse.ord_id (graph_of l) new_graph).2.
Theorem C77_chain_refuted :
  let one := [Ast.SEdge sub_of_x [ar "a"; ar "b"] []] in let two := [Ast.SEdge sub_of_x [ar "a"] []; Ast.SEdge (nl "a") [ar "b"] []] in
  err_of one = None /\ err_of two = None /\
  ends_of (view_of one) = [(lit "S", lit "a"); (lit "a", lit "b"); (lit "x", lit "y")] /\
  ends_of (view_of two) = [(lit "S", lit "a"); (lit "x", lit "y"); (lit "a", lit "b")].
Proof. vm_compute. repeat split. Qed.
Print Assumptions C77_chain_refuted.
(** Not every pair of subgraphs of one name may be joined: the second one gets the graph defaults again, over its attributes; *)
Definition label_of (s : sgraph) (n : gostr) : option gostr := default ∅ (s_subs s !! n) !! lit "label".
Theorem C77_merge_refuted :
  let A := [Ast.SAttr (Ast.Attr (lit "label") (lit "a"))] in let B := [Ast.SNode (nd "b") []] in
  let one := [Ast.SGraphAttrs (at1 "label" "g"); Ast.SSub (Ast.SubGraph (lit "S") (A ++ B))] in
  let two := [Ast.SGraphAttrs (at1 "label" "g"); Ast.SSub (Ast.SubGraph (lit "S") A); Ast.SSub (Ast.SubGraph (lit "S") B)] in
  err_of one = None /\ err_of two = None /\ label_of (view_of one) (lit "S") = Some (lit "a") /\ label_of (view_of two) (lit "S") = Some (lit "g").
Proof. vm_compute. repeat split. Qed.
Print Assumptions C77_merge_refuted.
(** and a node it mentions again gets the node defaults again. *)
Theorem C77_merge_nodes_refuted :
  let A := [Ast.SNode (nd "a") (at1 "color" "blue")] in let B := [Ast.SNode (nd "a") []] in
  let one := [Ast.SNodeAttrs (at1 "color" "red"); Ast.SSub (Ast.SubGraph (lit "S") (A ++ B))] in
  let two := [Ast.SNodeAttrs (at1 "color" "red"); Ast.SSub (Ast.SubGraph (lit "S") A); Ast.SSub (Ast.SubGraph (lit "S") B)] in
  err_of one = None /\ err_of two = None /\ colors (view_of one) = [(lit "a", Some (lit "blue"))] /\ colors (view_of two) = [(lit "a", Some (lit "red"))].
Proof. vm_compute. repeat split. Qed.
Print Assumptions C77_merge_nodes_refuted.
(** k=v and graph [k=v] are not the same: the latter is also a default for subgraphs that come later. *)
Theorem C77_attr_refuted :
  let S := Ast.SSub (Ast.SubGraph (lit "S") []) in
  let one := [Ast.SAttr (Ast.Attr (lit "label") (lit "g")); S] in let two := [Ast.SGraphAttrs (at1 "label" "g"); S] in
  err_of one = None /\ err_of two = None /\ s_attrs (view_of one) !! lit "label" = Some (lit "g") /\ s_attrs (view_of two) !! lit "label" = Some (lit "g") /\
  label_of (view_of one) (lit "S") = None /\ label_of (view_of two) (lit "S") = Some (lit "g").
Proof. vm_compute. repeat split. Qed.
Print Assumptions C77_attr_refuted.
