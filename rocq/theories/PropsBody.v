(** C86 Texts put together from parts *)
From Coq Require Import List Ascii NArith Bool Lia.
From Verif Require Import Base Ast LexSpec Parser SpecAst SpecSharp SpecBody Tokens LexFacts LexPrint SpecGrammar TrimFacts AstProofs SharpProofs BodyProofs.
From Verif Require PropsEscape.
Import ListNotations.

(** ** C86.  Whether a text can stand between the braces of a graph, and what it says there, does not depend on the graph:
    not on its kind, its name or [strict]. *)
Theorem C86_heading : forall rnd k t ss k' digraph strict name, (name <> [] -> is_id name) ->
  parse_bytes rnd k (heading digraph strict name ++ t ++ newline ++ lit "}") = Ok (Graph digraph strict name ss, k') <->
  says rnd k t ss k'.
Proof. intros. apply heading_iff. assumption. Qed.

(** It says the same if the closing brace may follow at once. *)
Theorem C86_same_line : forall rnd k t ss k',
  parse_bytes rnd k (lit "graph {" ++ t ++ lit "}") = Ok (Graph false false [] ss, k') -> says rnd k t ss k'.
Proof. intros. apply says_same. assumption. Qed.

(** Two such texts on lines after each other say the statements of the first and then those of the second; *)
Theorem C86_join : forall rnd k t ss k1 t' ss' k2, says rnd k t ss k1 -> says rnd k1 t' ss' k2 ->
  says rnd k (t ++ newline ++ t') (ss ++ ss') k2.
Proof. exact says_join. Qed.

(** any number of them (each draws no random value). *)
Theorem C86_join_all : forall rnd k ts, (forall t ss, In (t, ss) ts -> says rnd k t ss k) ->
  says rnd k (concat (map (fun x => fst x ++ newline) ts)) (concat (map snd ts)) k.
Proof.
  intros rnd k ts. induction ts as [|[t ss] ts IH]; intros H; cbn [map concat fst snd].
  - apply says_iff. exists []. split; [apply lexc_nl|left; auto].
  - rewrite <- app_assoc. eapply says_join; [apply H; left; reflexivity|]. apply IH. intros t' ss' Hin. apply H. right. exact Hin.
Qed.

(** A subgraph may be written around such a text: with a name, *)
Theorem C86_subgraph : forall rnd k t ss k' name, is_id name -> says rnd k t ss k' ->
  says rnd k (lit "subgraph " ++ name ++ lit " {" ++ t ++ newline ++ lit "}") [SSub (SubGraph name ss)] k'.
Proof. intros. apply says_sub; assumption. Qed.
(** and without, when it is called anon and a random number. *)
Theorem C86_anonymous : forall rnd k t ss k', says rnd k t ss k' ->
  says rnd k (lit "subgraph {" ++ t ++ newline ++ lit "}") [SSub (SubGraph (lit "anon" ++ dec_of_N (rnd k')) ss)] (S k') /\
  (ss <> [] -> says rnd k (lit "{" ++ t ++ newline ++ lit "}") [SSub (SubGraph (lit "anon" ++ dec_of_N (rnd k')) ss)] (S k')).
Proof. intros rnd k t ss k' H. split; [exact (says_sub_anon rnd k t ss k' H)|]. intros N. exact (says_sub_bare rnd k t ss k' N H). Qed.

(** StmtList.String() says its statements, *)
Theorem C86_list_string : forall rnd k ss, wf_stmts is_id ss -> forallb bare_stmt ss = true ->
  says rnd k (stmts_str [] ss) (norm_stmts ss) k.
Proof. intros. apply says_stmts; assumption. Qed.
(** the String() of a statement says the statement; with a semicolon too, unless it is empty (defaults without attributes). *)
Theorem C86_string : forall rnd k s, wf_stmt is_id s -> bare_stmt s = true ->
  says rnd k (stmt_str [] s) (norm_stmts [s]) k /\
  (norm_stmts [s] <> [] -> says rnd k (stmt_str [] s ++ lit ";") (norm_stmts [s]) k).
Proof.
  intros rnd k s W B. split; [apply says_stmt; assumption|]. intros N. apply says_stmt_semi; auto.
  destruct (keep s) eqn:K; [reflexivity|]. exfalso. apply N. unfold norm_stmts. cbn. rewrite K. reflexivity.
Qed.

(** Written by hand around the String() of the parts, without String() of the statement, names may even begin and end with spaces
    (Unicode spaces in names without quotes): nodes, *)
Theorem C86_node : forall rnd k n a, wf_node_id is_id n -> wf_attrs is_id a ->
  says rnd k (node_line n a) (norm_stmts [SNode n a]) k.
Proof. intros. apply says_node; assumption. Qed.
(** edges between nodes (and subgraphs that survive printing), *)
Theorem C86_edge : forall rnd k l hops a, wf_stmt is_id (edge_tree l hops a) -> bare_loc l = true ->
  forallb (fun x => bare_loc (snd x)) hops = true ->
  says rnd k (edge_line l hops a) (norm_stmts [edge_tree l hops a]) k.
Proof.
  intros rnd k l hops a W Bl Bh. unfold edge_tree in W. apply wf_edge_iff in W. destruct W as (Wl & Nr & Wr & Wa).
  unfold norm_stmts, edge_tree. cbn [flat_map keep norm_stmt app]. rewrite map_map. apply says_edge; auto.
  - destruct hops; [exact (fun _ => Nr eq_refl)|discriminate].
  - apply Forall_forall. intros x Hx. rewrite forallb_forall in Bh. split; [|apply Bh; exact Hx].
    rewrite Forall_forall in Wr. specialize (Wr (EdgeRH (fst x) (snd x))). cbn in Wr. apply Wr. apply in_map_iff. exists x. auto.
Qed.
(** and defaults, if an attribute is left. *)
Theorem C86_defaults : forall rnd k a, wf_attrs is_id a -> norm_attrs a <> [] ->
  says rnd k (lit "node " ++ attr_list_str a) (norm_stmts [SNodeAttrs a]) k /\
  says rnd k (lit "edge " ++ attr_list_str a) (norm_stmts [SEdgeAttrs a]) k /\
  says rnd k (lit "graph " ++ attr_list_str a) (norm_stmts [SGraphAttrs a]) k.
Proof.
  intros rnd k a W N. unfold norm_stmts. cbn [flat_map keep norm_stmt app].
  pose proof (says_default rnd k (lit "node") T_node a SNodeAttrs ltac:(cbn; tauto) ltac:(intros; constructor; assumption) W N) as H1.
  pose proof (says_default rnd k (lit "edge") T_edge a SEdgeAttrs ltac:(cbn; tauto) ltac:(intros; constructor; assumption) W N) as H2.
  pose proof (says_default rnd k (lit "graph") T_graph a SGraphAttrs ltac:(cbn; tauto) ltac:(intros; constructor; assumption) W N) as H3.
  destruct (norm_attrs a); [congruence|]. auto.
Qed.

(** *** Examples *)
Definition rz (_ : nat) : N := 7%N.
Definition idn (s : gostr) : node_id := NodeID s (Port [] []).

(** Why the closing brace is on a line of its own: it allows a comment at the end. *)
Theorem C86_own_line_needed :
  says rz 0 (lit "a // x") [SNode (idn (lit "a")) []] 0 /\
  (exists e, parse_bytes rz 0 (lit "graph {" ++ lit "a // x" ++ lit "}") = Err e).
Proof.
  split; [vm_compute; reflexivity|]. eexists. vm_compute. reflexivity.
Qed.
(** Why there is a newline between them: without it a comment swallows the second, and names run together. *)
Theorem C86_newline_needed :
  says rz 0 (lit "a // x") [SNode (idn (lit "a")) []] 0 /\ says rz 0 (lit "b") [SNode (idn (lit "b")) []] 0 /\
  says rz 0 (lit "a // x" ++ lit "b") [SNode (idn (lit "a")) []] 0 /\
  says rz 0 (lit "b" ++ lit "b") [SNode (idn (lit "bb")) []] 0.
Proof. repeat split; vm_compute; reflexivity. Qed.
(** No semicolon after StmtList.String(), which ends with one; none after empty defaults. *)
Theorem C86_semicolon_refuted :
  says rz 0 (stmts_str [] [SNode (idn (lit "a")) []]) [SNode (idn (lit "a")) []] 0 /\
  (forall ss k', ~ says rz 0 (stmts_str [] [SNode (idn (lit "a")) []] ++ lit ";") ss k') /\
  says rz 0 (stmt_str [] (SNodeAttrs [])) [] 0 /\
  (forall ss k', ~ says rz 0 (stmt_str [] (SNodeAttrs []) ++ lit ";") ss k').
Proof.
  split; [vm_compute; reflexivity|]. split; [intros ss k' H; vm_compute in H; discriminate|]. split; [vm_compute; reflexivity|].
  intros ss k' H. vm_compute in H. discriminate.
Qed.
(** What follows may belong to the statement before, and then says nothing alone. *)
Theorem C86_not_alone :
  says rz 0 (lit "a") [SNode (idn (lit "a")) []] 0 /\
  says rz 0 (lit "a" ++ newline ++ lit "[x=y]") [SNode (idn (lit "a")) [[Attr (lit "x") (lit "y")]]] 0 /\
  (forall ss k', ~ says rz 0 (lit "[x=y]") ss k').
Proof. split; [vm_compute; reflexivity|]. split; [vm_compute; reflexivity|]. intros ss k' H. vm_compute in H. discriminate. Qed.

(** A text from parts of all kinds. *)
Definition ex_attrs : attr_list := [[Attr (lit "color") (lit "red"); Attr (lit "label") (lit """x y""")]; []].
Definition ex_loc (s : gostr) : location := LNode (idn s).
Example C86_example : forall rnd k,
  parse_bytes rnd k (heading true true (lit "G") ++
    (stmts_str [] [SNode (idn (lit "a")) ex_attrs; SNodeAttrs []] ++ newline ++
     (lit "subgraph " ++ lit "S" ++ lit " {" ++ edge_line (ex_loc (lit "a")) [(true, ex_loc (lit "b")); (false, ex_loc (lit "c"))] ex_attrs ++ newline ++ lit "}") ++ newline ++
     node_line (idn (lit "b")) ex_attrs) ++ newline ++ lit "}") =
  Ok (Graph true true (lit "G")
    [SNode (idn (lit "a")) (norm_attrs ex_attrs);
     SSub (SubGraph (lit "S") [SEdge (ex_loc (lit "a")) [EdgeRH true (ex_loc (lit "b")); EdgeRH false (ex_loc (lit "c"))] (norm_attrs ex_attrs)]);
     SNode (idn (lit "b")) (norm_attrs ex_attrs)], k).
Proof.
  intros rnd k.
  assert (I : forall i, In i [lit "a"; lit "b"; lit "c"; lit "S"; lit "G"; lit "color"; lit "red"; lit "label"; lit """x y"""] -> is_id i).
  { intros i Hi. apply PropsEscape.is_idb_spec. cbn [In] in Hi. repeat (destruct Hi as [<-|Hi]; [vm_compute; reflexivity|]). destruct Hi. }
  assert (Ia : wf_attrs is_id ex_attrs) by (repeat (apply Forall_cons || apply Forall_nil || split); apply I; cbn; tauto).
  apply C86_heading; [intros _; apply I; cbn; tauto|].
  apply (C86_join rnd k _ [SNode (idn (lit "a")) (norm_attrs ex_attrs)] k).
  { apply (C86_list_string rnd k [SNode (idn (lit "a")) ex_attrs; SNodeAttrs []]); [|reflexivity]. apply Forall_cons; [|apply Forall_cons; [repeat (apply Forall_cons || apply Forall_nil)|apply Forall_nil]].
    split; [split; [apply I; cbn; tauto|exact Logic.I]|exact Ia]. }
  apply (C86_join rnd k _ [_] k _ [_] k).
  - apply C86_subgraph; [apply I; cbn; tauto|].
    apply (C86_edge rnd k (ex_loc (lit "a")) [(true, ex_loc (lit "b")); (false, ex_loc (lit "c"))] ex_attrs); [|reflexivity|reflexivity].
    apply wf_edge_iff. repeat split; try (apply I; cbn; tauto); [discriminate| |exact Ia].
    apply Forall_cons; [split; [apply I; cbn; tauto|exact Logic.I]|apply Forall_cons; [split; [apply I; cbn; tauto|exact Logic.I]|apply Forall_nil]].
  - apply (C86_node rnd k (idn (lit "b")) ex_attrs); [split; [apply I; cbn; tauto|exact Logic.I]|exact Ia].
Qed.

Print Assumptions C86_heading.
Print Assumptions C86_same_line.
Print Assumptions C86_join.
Print Assumptions C86_join_all.
Print Assumptions C86_subgraph.
Print Assumptions C86_anonymous.
Print Assumptions C86_list_string.
Print Assumptions C86_string.
Print Assumptions C86_node.
Print Assumptions C86_edge.
Print Assumptions C86_defaults.
Print Assumptions C86_own_line_needed.
Print Assumptions C86_newline_needed.
Print Assumptions C86_semicolon_refuted.
Print Assumptions C86_not_alone.
