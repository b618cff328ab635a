(** Property C87: one line of text for each call. *)
From Verif Require Import Base Parser Maps Graph Direct SpecGraph Analyse SpecAnalyse SpecOrder OrderProofs MapFacts GraphProofs DirectProofs AnalyseProofs ReadProofs SpecWrite Write WriteProofs PropsGraph PropsWrite PropsOrder SpecMerge MergeProofs PropsMerge SpecRewrite RewriteProofs SpecAst LexPrint SpecLines LinesProofs.
From Verif Require Ast SpecBody PropsBody PropsAnalyse PropsParse PropsEscape.

(** ** C87.  Take a history h of AddNode, AddEdge, AddPortEdge, AddAttr and AddSubGraph on any graph with a name, and a text with one line for
    each call.  The text of a graph with these lines can be parsed; analysing it into the graph succeeds if and only if all the calls do;
    and then gives the same graph. *)
Theorem C87_into : forall rnd k os ord g strict directed top h t, (forall i, fair (os i)) -> fair_order ord -> built g -> Forall (fun oc => fair oc.1) h ->
  (top <> [] -> is_id top) -> lines top (labelled strict directed top g) h t ->
  exists a, parse_bytes rnd k (SpecBody.heading directed strict top ++ t ++ newline ++ lit "}") = Ok (a, k) /\
    ((into os ord a g).2 = None <-> succeeds h (labelled strict directed top g)) /\
    ((into os ord a g).2 = None -> view (into os ord a g).1 = view (run h (labelled strict directed top g)).1).
Proof.
  intros rnd k os ord g strict directed top h t Fo Fd B Fh It L. destruct (lines_core rnd k _ _ _ _ L Fh) as (ss & Hs & _ & K).
  set (a := Ast.Graph directed strict top ss). exists a. split; [apply PropsBody.C86_heading; assumption|].
  assert (B1 : built (labelled strict directed top g)).
  { unfold labelled. apply (built_call _ o_id (CSetName top)); [apply (built_call _ o_id (CSetDir directed)); [apply (built_call _ o_id (CSetStrict strict)); [exact B|]|]|]; apply fair_id. }
  destruct (K B1 eq_refl [] (Forall_nil_2 _)) as (l & Hl & O & E). destruct (into_fst os ord a g) as [-> ->].
  destruct (analysed_into os ord a g 0 Fo Fd B) as (l' & Hl' & _ & G).
  assert (Q : Forall call_ok l' <-> Forall call_ok l) by exact (trace_eq_ok _ _ (body_det _ _ _ _ _ _ Hl' _ Hl)).
  destruct ((analyse _ (graph_step os) ord a (g, 0)).2) as [e|].
  - split; [|discriminate]. split; [discriminate|]. intros S. destruct G. apply Q, O, S.
  - destruct G as [O' V]. split; [split; [intros _; apply O, Q, O'|reflexivity]|]. intros _. rewrite V, <- E by (apply O, Q, O').
    eapply body_same_build; [exact Hl'|exact Hl|reflexivity].
Qed.
Print Assumptions C87_into.
(** Read of such a text is like making the calls on a new graph; *)
Corollary C87_read : forall rnd k os ord strict directed top h t, (forall i, fair (os i)) -> fair_order ord -> Forall (fun oc => fair oc.1) h ->
  (top <> [] -> is_id top) -> lines top (labelled strict directed top new_graph) h t ->
  match read rnd os ord k (SpecBody.heading directed strict top ++ t ++ newline ++ lit "}") with
  | Ok (g, k') => k' = k /\ succeeds h (labelled strict directed top new_graph) /\ view g = view (run h (labelled strict directed top new_graph)).1
  | Err (AnalyseFailed _) => ~ succeeds h (labelled strict directed top new_graph)
  | _ => False
  end.
Proof.
  intros rnd k os ord strict directed top h t Fo Fd Fh It L. destruct (C87_into rnd k os ord new_graph strict directed top h t Fo Fd built_new Fh It L) as (a & P & S & V).
  unfold read. rewrite P. unfold into, new_analysed_graph in *. destruct (analyse _ _ ord a (new_graph, 0)) as [[g' j] [e|]]; cbn [fst snd] in *.
  - intros X. apply S in X. discriminate X.
  - split; [reflexivity|]. split; [apply S; reflexivity|apply V; reflexivity].
Qed.
Print Assumptions C87_read.
(** and the text that String() gives is the same. *)
Corollary C87_string : forall rnd k os ord strict directed top h t g k', (forall i, fair (os i)) -> fair_order ord -> Forall (fun oc => fair oc.1) h ->
  (top <> [] -> is_id top) -> lines top (labelled strict directed top new_graph) h t ->
  read rnd os ord k (SpecBody.heading directed strict top ++ t ++ newline ++ lit "}") = Ok (g, k') ->
  forall srt srt' o o' fuel, fair o -> fair o' -> sorts (edge_less o) srt -> sorts (edge_less o') srt' ->
    (forall e x, e ∈ edges_list (g_edges g) -> e_attrs e !! x <> Some []) ->
    graph_string srt o g fuel = graph_string srt' o' (run h (labelled strict directed top new_graph)).1 fuel.
Proof.
  intros rnd k os ord strict directed top h t g k' Fo Fd Fh It L R srt srt' o o' fuel F F' S S' N.
  pose proof (C87_read rnd k os ord strict directed top h t Fo Fd Fh It L) as H. rewrite R in H. destruct H as (_ & _ & V).
  assert (Rg : reachable g).
  { unfold read in R. destruct (parse_bytes rnd k _) as [[a m]| | |]; try discriminate R. destruct (analysed_graph os ord a Fo Fd) as (l & _ & G).
    destruct (new_analysed_graph os ord a) as [g1|]; [|discriminate R]. injection R as <- _. apply G. }
  assert (B1 : built (labelled strict directed top new_graph)).
  { unfold labelled. apply (built_call _ o_id (CSetName top)); [apply (built_call _ o_id (CSetDir directed)); [apply (built_call _ o_id (CSetStrict strict)); [exact built_new|]|]|]; apply fair_id. }
  apply C30_canonical; try assumption; [apply reachable_built, Rg|apply (run_built h _ B1 Fh)|].
  rewrite V. unfold same_content. do 5 (split; [reflexivity|]). split; [reflexivity|]. split; reflexivity.
Qed.
Print Assumptions C87_string.

(** *** Example *)
Definition hs (l : list call) : list (oracle * call) := map (fun c => (o_id, c)) l.
Definition ex_calls : list call :=
  [CAddNode (lit "G") (lit "a") {[lit "color" := lit "red"]};
   CAddSubGraph (lit "G") (lit "S") {[lit "label" := lit "s"]};
   CAddNode (lit "S") (lit "b") ∅;
   CAddNode (lit "G") (lit "b") ∅;
   CAddPortEdge (lit "a") (lit ":p") (lit "b") [] true {[lit "style" := lit "bold"]};
   CAddEdge (lit "b") (lit "a") false ∅;
   CAddSubGraph (lit "S") (lit "T") ∅;
   CAddAttr (lit "T") (lit "rank") (lit "same")].
Definition ex_lines : list gostr :=
  [lit "a [ color=red ] ";
   lit "subgraph S {label=s" ++ newline ++ newline ++ lit "}";
   lit "subgraph S {b " ++ newline ++ lit "}";
   lit "b ";
   lit "a:p->b [ style=bold ] ";
   lit "b--a ";
   lit "subgraph S {subgraph T {" ++ newline ++ lit "}" ++ newline ++ lit "}";
   lit "subgraph S {subgraph T {rank=same" ++ newline ++ lit "}" ++ newline ++ lit "}"].
Definition ex_text : gostr := concat (map (fun t => t ++ newline) ex_lines).
Lemma ex_id i : PropsEscape.is_idb i = true -> is_id i.
Proof. apply PropsEscape.is_idb_spec. Qed.
Lemma ex_some {A} (x : option A) : match x with Some _ => true | None => false end = true -> is_Some x.
Proof. destruct x; [eauto|discriminate]. Qed.
Ltac isid := apply ex_id; vm_compute; reflexivity.
Ltac known := cbn [leads]; repeat match goal with
  | |- is_child _ _ _ /\ _ => split; [unfold is_child; apply (proj1 (bool_decide_eq_true _)); vm_compute; reflexivity|]
  | |- s_is_sub _ _ /\ _ => split; [apply ex_some; vm_compute; reflexivity|]
  | |- True => exact I end.
Ltac top_node := split; [apply ex_some; vm_compute; reflexivity|unfold is_child; apply (proj1 (bool_decide_eq_true _)); vm_compute; reflexivity].
Ltac one := rewrite map_to_list_singleton; reflexivity.
Ltac none := rewrite map_to_list_empty; reflexivity.
Ltac pairs := repeat (apply Forall_cons_2; [split; isid|]); apply Forall_nil_2.
Ltac names := repeat (apply Forall_cons_2; [isid|]); apply Forall_nil_2.
Lemma ex_ok : lines (lit "G") (labelled true true (lit "G") new_graph) (hs ex_calls) ex_text.
Proof.
  unfold ex_calls, hs, ex_text, ex_lines. cbn [map concat]. repeat (rewrite <- (app_assoc _ newline); apply Ls_cons); [..|apply Ls_nil].
  - apply (L_node _ _ [] (lit "a") {[lit "color" := lit "red"]} [(lit "color", lit "red")]); [exact I|constructor|isid|one|pairs].
  - apply (L_sub _ _ [] (lit "S") {[lit "label" := lit "s"]} [(lit "label", lit "s")]); [exact I|constructor|isid|one|pairs].
  - apply (L_node _ _ [lit "S"] (lit "b") ∅ []); [known|names|isid|none|pairs].
  - apply (L_node _ _ [] (lit "b") ∅ []); [exact I|constructor|isid|none|pairs].
  - apply (L_port_edge _ _ (lit "a") (Ast.Port (lit "p") []) (lit "b") (Ast.Port [] []) true {[lit "style" := lit "bold"]} [(lit "style", lit "bold")]); [top_node|top_node|split; [isid|isid]|split; [isid|exact I]|one|pairs].
  - apply (L_edge _ _ (lit "b") (lit "a") false ∅ []); [top_node|top_node|isid|isid|none|pairs].
  - apply (L_sub _ _ [lit "S"] (lit "T") ∅ []); [known|names|isid|none|pairs].
  - apply (L_attr _ _ [lit "S"; lit "T"] (lit "rank") (lit "same")); [known|names|isid|isid].
Qed.
Definition lab (l : list call) : agraph := (run (hs l) (labelled true true (lit "G") new_graph)).1.
Definition text_graph (t : gostr) : option sgraph :=
  match read PropsParse.rnd0 PropsAnalyse.os_id PropsAnalyse.ord_id 0 (SpecBody.heading true true (lit "G") ++ t ++ newline ++ lit "}") with Ok (g, _) => Some (view g) | _ => None end.
Example C87_example : lines (lit "G") (labelled true true (lit "G") new_graph) (hs ex_calls) ex_text /\
  length ex_calls = 8 /\ succeeds (hs ex_calls) (labelled true true (lit "G") new_graph) /\
  s_order (view (lab ex_calls)) = [lit "a"; lit "b"] /\ length (s_edges (view (lab ex_calls))) = 2 /\
  default ∅ (s_subs (view (lab ex_calls)) !! lit "T") !! lit "rank" = Some (lit "same") /\
  map (fun e => e_src_port e) (s_edges (view (lab ex_calls))) = [lit ":p"; []].
Proof. split; [exact ex_ok|]. vm_compute. repeat split; repeat constructor. Qed.
(** A call that fails: so does reading its line. *)
Example C87_example_fails : let c := CAddNode (lit "G") (lit "a") {[lit "colour" := lit "red"]} in
  line (lit "G") (view (labelled true true (lit "G") new_graph)) c (lit "a [ colour=red ] ") /\
  ~ succeeds (hs [c]) (labelled true true (lit "G") new_graph) /\ text_graph (lit "a [ colour=red ] " ++ newline) = None.
Proof.
  split; [|split].
  - apply (L_node _ _ [] (lit "a") {[lit "colour" := lit "red"]} [(lit "colour", lit "red")]); [exact I|constructor|isid|one|pairs].
  - intros S. inversion S as [|? ? X _]. vm_compute in X. discriminate X.
  - vm_compute. reflexivity.
Qed.
(** *** Why each line needs its place *)
(** An edge between names that are no nodes: the line makes them nodes, AddEdge does not. *)
Theorem C87_endpoints_refuted : let c := CAddEdge (lit "a") (lit "b") true ∅ in
  succeeds (hs [c]) (labelled true true (lit "G") new_graph) /\ s_order (view (lab [c])) = [] /\
  option_map s_order (text_graph (lit "a->b " ++ newline)) = Some [lit "a"; lit "b"].
Proof. vm_compute. repeat split; repeat constructor. Qed.
Print Assumptions C87_endpoints_refuted.
(** An edge at a node that only is in a subgraph: the line puts it directly into the graph too. *)
Theorem C87_top_refuted : let cs := [CAddSubGraph (lit "G") (lit "S") ∅; CAddNode (lit "S") (lit "a") ∅; CAddEdge (lit "a") (lit "a") true ∅] in
  succeeds (hs cs) (labelled true true (lit "G") new_graph) /\ bool_decide ((lit "G", lit "a") ∈ s_rels (view (lab cs))) = false /\
  option_map (fun s => bool_decide ((lit "G", lit "a") ∈ s_rels s)) (text_graph (lit "subgraph S {" ++ newline ++ lit "}" ++ newline ++ lit "subgraph S {a " ++ newline ++ lit "}" ++ newline ++ lit "a->a " ++ newline)) = Some true.
Proof. vm_compute. repeat split; repeat constructor. Qed.
Print Assumptions C87_top_refuted.
(** A node in a subgraph that does not exist: AddNode takes any name for the parent, the line makes the subgraph. *)
Theorem C87_parent_refuted : let c := CAddNode (lit "S") (lit "a") ∅ in
  succeeds (hs [c]) (labelled true true (lit "G") new_graph) /\ bool_decide (is_Some (s_subs (view (lab [c])) !! lit "S")) = false /\
  option_map (fun s => bool_decide (is_Some (s_subs s !! lit "S"))) (text_graph (lit "subgraph S {a " ++ newline ++ lit "}" ++ newline)) = Some true.
Proof. vm_compute. repeat split; repeat constructor. Qed.
Print Assumptions C87_parent_refuted.
(** A port must be given to AddPortEdge with its colon to be the one that is read. *)
Theorem C87_port_refuted : let cs := [CAddNode (lit "G") (lit "a") ∅; CAddPortEdge (lit "a") (lit "p") (lit "a") [] true ∅] in
  succeeds (hs cs) (labelled true true (lit "G") new_graph) /\ map e_src_port (s_edges (view (lab cs))) = [lit "p"] /\
  option_map (fun s => map e_src_port (s_edges s)) (text_graph (lit "a " ++ newline ++ lit "a:p->a " ++ newline)) = Some [lit ":p"].
Proof. vm_compute. repeat split; repeat constructor. Qed.
Print Assumptions C87_port_refuted.
(** A line for a subgraph in place of the whole path to it: the line makes it a child of the graph. *)
Theorem C87_path_refuted : let cs := [CAddSubGraph (lit "G") (lit "S") ∅; CAddSubGraph (lit "S") (lit "T") ∅; CAddAttr (lit "T") (lit "rank") (lit "same")] in
  succeeds (hs cs) (labelled true true (lit "G") new_graph) /\ bool_decide ((lit "G", lit "T") ∈ s_rels (view (lab cs))) = false /\
  option_map (fun s => bool_decide ((lit "G", lit "T") ∈ s_rels s)) (text_graph (lit "subgraph S {" ++ newline ++ lit "}" ++ newline ++ lit "subgraph S {subgraph T {" ++ newline ++ lit "}" ++ newline ++ lit "}" ++ newline ++ lit "subgraph T {rank=same" ++ newline ++ lit "}" ++ newline)) = Some true.
Proof. vm_compute. repeat split; repeat constructor. Qed.
Print Assumptions C87_path_refuted.
