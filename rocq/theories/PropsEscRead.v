(** C76: reading into an Escape. *)
From Verif Require Import Base Lexer LexSpec LexDfa LexPrint SpecGrammar Parser ParseFacts Maps Graph AttrMap MapFacts SpecGraph GraphProofs Escape SpecEscape EscapeProofs SpecAst AstFacts
  Analyse SpecAnalyse AnalyseProofs ReadProofs ReadFacts SpecHeapAnalyse SpecLabel EscapeAnalyse SpecEscRead EscReadProofs.
From Verif Require Import PropsEscape2 PropsAnalyse.
From Verif Require Ast PropsEscape EscapeFacts LabelRead PropsGraph.

(** Analyse makes on the Graph of the Escape the calls [cs] of the tree with their strings escaped, and answers as if these were made on a Graph; ... *)
Theorem C76_calls : forall ul ud oes os ord a g r, (forall i, fair (oes i)) -> fair_order ord ->
  analyse_escape ul ud oes os ord a = Some (g, r) ->
  exists cs cs' i rs, graph_calls a cs /\ Forall2 (escaped_call ul ud) cs cs' /\ make_calls (graph_step os) cs' (new_graph, 0) = ((g, i), rs) /\
    (r = None <-> Forall (fun x => x = None) rs) /\ (forall e, r = Some e -> e = lit "errors: [" ++ join (lit ",") (errors rs) ++ lit "]").
Proof.
  intros ul ud oes os ord a g r Fe Fo E. destruct (C24_analyse ord a Fo) as (cs & G & H). specialize (H _ (vesc_call ul ud oes os) ((new_graph, 0), false)).
  pose proof (run_calls ul ud oes os Fe cs new_graph 0) as K. unfold analyse_escape in E.
  destruct (make_calls (vesc_call ul ud oes os) cs (new_graph, 0, false)) as [[[g1 i1] b] rs]. destruct (analyse _ _ ord a _) as [s r1]. cbn [fst snd] in H.
  destruct H as (-> & _ & H1 & H2). destruct b; [discriminate|]. injection E as -> ->. destruct K as (_ & cs' & F & M). exists cs, cs', i1, rs. auto.
Qed.
Print Assumptions C76_calls.
(** ... it panics if and only if one of the strings to be escaped cannot be. *)
Theorem C76_panics : forall ul ud oes os ord a cs, (forall i, fair (oes i)) -> fair_order ord -> graph_calls a cs ->
  analyse_escape ul ud oes os ord a = None <-> exists c s, c ∈ cs /\ escapes c s /\ esc ul ud s = None.
Proof.
  intros ul ud oes os ord a cs Fe Fo G0. destruct (C24_analyse ord a Fo) as (cs1 & G & H). specialize (H _ (vesc_call ul ud oes os) ((new_graph, 0), false)).
  destruct (C24_calls_unique a cs1 cs G G0) as [P _].
  assert (Q : analyse_escape ul ud oes os ord a = None <-> exists c, c ∈ cs1 /\ bad ul ud c).
  { pose proof (run_calls ul ud oes os Fe cs1 new_graph 0) as K. unfold analyse_escape.
    destruct (make_calls (vesc_call ul ud oes os) cs1 (new_graph, 0, false)) as [[[g1 i1] b] rs]. destruct (analyse _ _ ord a _) as [s r1]. cbn [fst snd] in H.
    destruct H as (-> & _). destruct b; split; auto; [discriminate|]. intros (c & Hc & B). destruct (proj1 K c Hc B). }
  rewrite Q. split.
  - intros X. apply (bad_perm ul ud _ _ P) in X. destruct X as (c & Hc & s & Hs). exists c, s. tauto.
  - intros (c & s & Hc & Hs). apply (bad_perm ul ud cs cs1); [symmetry; exact P|]. exists c. split; [exact Hc|]. exists s. exact Hs.
Qed.
Print Assumptions C76_panics.
(** All the names and values of the graph are in escaped form, and it is a graph that calls on a Graph make. *)
Theorem C76_escaped_form : forall ul ud oes os ord a g r, (forall i, fair (oes i)) -> (forall i, fair (os i)) -> fair_order ord ->
  analyse_escape ul ud oes os ord a = Some (g, r) -> reachable g /\ forall n, mentions (view g) n -> esc ul ud n = Some n.
Proof.
  intros ul ud oes os ord a g r Fe Fs Fo E. assert (R : esc_reachable ul ud g).
  { destruct (C24_analyse ord a Fo) as (cs & _ & H). specialize (H _ (vesc_call ul ud oes os) ((new_graph, 0), false)).
    assert (K : forall cs g0 i0 b, esc_reachable ul ud g0 -> esc_reachable ul ud (make_calls (vesc_call ul ud oes os) cs ((g0, i0), b)).1.1.1).
    { clear - Fe Fs. induction cs as [|c cs IH]; intros g0 i0 b R; [exact R|]. cbn [make_calls vesc_call]. destruct b.
      - specialize (IH g0 i0 true R). destruct (make_calls _ cs _) as [[[g1 i1] b1] rs]. exact IH.
      - destruct (esc_exec ul ud (oes i0) (os i0) c g0) as [[g1 r]|] eqn:E.
        + specialize (IH g1 (S i0) false (esc_call _ _ _ _ _ _ _ _ R (Fe i0) (Fs i0) E)). destruct (make_calls _ cs _) as [[[g2 i2] b2] rs]. exact IH.
        + specialize (IH g0 i0 true R). destruct (make_calls _ cs _) as [[[g1 i1] b1] rs]. exact IH. }
    specialize (K cs new_graph 0 false (esc_new ul ud)). unfold analyse_escape in E.
    destruct (make_calls (vesc_call ul ud oes os) cs (new_graph, 0, false)) as [[[g1 i1] b] rs]. destruct (analyse _ _ ord a _) as [s r1]. cbn [fst snd] in H, K.
    destruct H as (-> & _). destruct b; [discriminate|]. injection E as <- _. exact K. }
  split; [apply (C42_reachable ul ud); exact R|]. intros n M. exact (C42_escaped_form ul ud g n R M).
Qed.
Print Assumptions C76_escaped_form.

(** If escaping leaves the strings of the tree alone, the result is that of NewAnalysedGraph: the same graph, or the same error. *)
Theorem C76_tree : forall ul ud oes os ord a, (forall i, fair (oes i)) -> fair_order ord -> plain_tree ul ud a ->
  match analyse_escape ul ud oes os ord a with
  | Some (g, None) => new_analysed_graph os ord a = inl g
  | Some (_, Some e) => new_analysed_graph os ord a = inr e
  | None => False
  end.
Proof.
  intros ul ud oes os ord a Fe Fo (W & T). destruct (analyse_calls ord a Fo) as (cs & G & H).
  assert (U : Forall (left_alone ul ud) cs) by exact (graph_uses _ a cs (un_nil ul ud) W T G).
  pose proof (run_calls ul ud oes os Fe cs new_graph 0) as K. unfold analyse_escape, new_analysed_graph. rewrite !H.
  destruct (make_calls (vesc_call ul ud oes os) cs (new_graph, 0, false)) as [[[g1 i1] b] rs]. destruct b.
  - destruct (none_bad ul ud cs U K).
  - destruct K as (_ & cs' & F & M). rewrite (calls_same ul ud cs cs' U F) in M. rewrite M. cbn [fst snd]. destruct (get_error _); reflexivity.
Qed.
Print Assumptions C76_tree.

(** ** Texts.  If escaping leaves the IDs of the text alone and no node statement has a port, Parse and Analyse into an Escape give what Read gives. *)
Theorem C76_text : forall ul ud oes os ord rnd k src w a k', (forall i, fair (oes i)) -> fair_order ord -> scans_to src w ->
  parse_bytes rnd k src = Ok (a, k') -> (forall l, (ID, l) ∈ w -> esc ul ud l = Some l) -> no_node_ports a ->
  match analyse_escape ul ud oes os ord a with
  | Some (g, None) => read rnd os ord k src = Ok (g, k')
  | Some (_, Some e) => read rnd os ord k src = Err (AnalyseFailed e)
  | None => False
  end.
Proof.
  intros ul ud oes os ord rnd k src w a k' Fe Fo S P U NP.
  assert (W : wf_graph (fun i => is_id i /\ unescaped ul ud i) a).
  { apply (parsed_strings (unescaped ul ud) rnd k src w a k' S P).
    - apply PropsEscape.C40_ascii_id_kept; [exact ascii_true|exact true_is_id].
    - intros r. apply PropsEscape.C40_ascii_id_kept; [apply ascii_anon|apply anon_is_id].
    - unfold ids_ok. apply Forall_forall. intros [ty l] Hx E. cbn in E. subst ty. apply U. exact Hx. }
  assert (PT : plain_tree ul ud a).
  { split.
    - eapply wf_graph_mono; [|exact W|exact W]. intros i [_ Hi] _. exact Hi.
    - intros n l Hn. unfold node_text. rewrite (NP n l Hn), app_nil_r. exact (proj2 (node_in_wf _ a n l W Hn)). }
  pose proof (C76_tree ul ud oes os ord a Fe Fo PT) as K. unfold read. rewrite P.
  destruct (analyse_escape ul ud oes os ord a) as [[g [e|]]|]; [|rewrite K; reflexivity|exact K]. rewrite K. reflexivity.
Qed.
Print Assumptions C76_text.
(** In particular for a text in ASCII. *)
Theorem C76_ascii : forall ul ud oes os ord rnd k src a k', (forall i, fair (oes i)) -> fair_order ord -> ascii_text src ->
  parse_bytes rnd k src = Ok (a, k') -> no_node_ports a ->
  match analyse_escape ul ud oes os ord a with
  | Some (g, None) => read rnd os ord k src = Ok (g, k')
  | Some (_, Some e) => read rnd os ord k src = Err (AnalyseFailed e)
  | None => False
  end.
Proof.
  intros ul ud oes os ord rnd k src a k' Fe Fo A P NP. pose proof P as P'. apply parse_ok_iff in P'. destruct P' as (w & S & _).
  apply (C76_text ul ud oes os ord rnd k src w a k' Fe Fo S P); [|exact NP]. intros l Hl.
  apply PropsEscape.C40_ascii_id_kept.
  - pose proof (ascii_tokens src w S A) as F. unfold ids_ok in F. rewrite Forall_forall in F. exact (F _ Hl eq_refl).
  - pose proof (scans_to_is_id src w S) as F. unfold ids_ok in F. rewrite Forall_forall in F. exact (F _ Hl eq_refl).
Qed.
Print Assumptions C76_ascii.
(** It panics only if one of the IDs of the text consists of white space (of Unicode: no-break spaces and the like); ASCII texts have no such ID. *)
Theorem C76_text_panic : forall ul ud oes os ord rnd k src w a k', (forall i, fair (oes i)) -> fair_order ord -> scans_to src w ->
  parse_bytes rnd k src = Ok (a, k') -> analyse_escape ul ud oes os ord a = None ->
  exists l, (ID, l) ∈ w /\ Forall (fun c => In c white_space) (runes l).
Proof.
  intros ul ud oes os ord rnd k src w a k' Fe Fo S P E.
  destruct (decide (Exists (fun t : nat * gostr => t.1 = ID /\ Forall (fun c => is_space c = true) (runes t.2)) w)) as [X|X].
  { apply Exists_exists in X. destruct X as ([ty l] & Hx & E1 & B). cbn in E1, B. subst ty. exists l. split; [exact Hx|]. apply PropsEscape.C38_blank. exact B. }
  exfalso. assert (AB : forall i, ascii_text i -> is_id i -> ~ all_blank i).
  { intros i Ai Hi B. pose proof (PropsEscape.C40_ascii_id_kept ul ud i Ai Hi) as X1. assert (X2 : esc ul ud i = None) by (apply PropsEscape.C38_panics; left; split; [apply is_id_nonempty; exact Hi|exact B]). congruence. }
  set (Q := fun s : gostr => esc ul ud s <> None).
  assert (W : wf_graph (fun i => is_id i /\ ~ all_blank i) a).
  { apply (parsed_strings (fun i => ~ all_blank i) rnd k src w a k' S P).
    - apply AB; [exact ascii_true|exact true_is_id].
    - intros r. apply AB; [apply ascii_anon|apply anon_is_id].
    - unfold ids_ok. apply Forall_forall. intros [ty l] Hx E1 B. apply X. apply Exists_exists. exists (ty, l). auto. }
  assert (N : forall i, is_id i /\ ~ all_blank i -> Q i).
  { intros i [Hi Hb] En. apply PropsEscape.C38_panics in En. destruct En as [[_ B]| ->]; [exact (Hb B)|]. apply PropsEscape.is_idb_spec in Hi. vm_compute in Hi. discriminate. }
  assert (U : forall cs, graph_calls a cs -> Forall (uses_only Q) cs).
  { intros cs G. apply (graph_uses Q a cs).
    - discriminate.
    - eapply wf_graph_mono; [|exact W|exact W]. intros i Hi _. exact (N i Hi).
    - intros n l Hn En. pose proof (node_in_wf _ a n l W Hn) as [Hi Hb]. apply PropsEscape.C38_panics in En. destruct En as [[_ B]|En].
      + apply node_text_blank in B. exact (Hb B).
      + apply node_text_quote in En. destruct En as [En|En]; rewrite En in Hi; apply PropsEscape.is_idb_spec in Hi; vm_compute in Hi; discriminate.
    - exact G. }
  destruct (C24_analyse ord a Fo) as (cs & G & _). apply (proj1 (C76_panics ul ud oes os ord a cs Fe Fo G)) in E. destruct E as (c & s & Hc & Hs & En).
  specialize (U cs G). rewrite Forall_forall in U. exact (U c Hc s Hs En).
Qed.
Print Assumptions C76_text_panic.

(** ** Examples.  [none]: no letters and digits beyond ASCII. *)
Notation none := PropsEscape.none.
Definition oes_id : nat -> oracle := fun _ => PropsGraph.o_id.
Definition src_text (s : gostr) : Ast.graph := match parse_bytes rnd0 0 s with Ok (a, _) => a | _ => Ast.Graph false false [] [] end.
Definition esc_names (s : gostr) : option (list gostr * list (gostr * gostr * gostr)) :=
  match analyse_escape none none oes_id os_id ord_id (src_text s) with
  | Some (g, None) => Some (map (fun p => node_name (deref (g_nodes g) p)) (nodes_list (g_nodes g)), map (fun e => (e_src e, e_src_port e, e_dst e)) (s_edges (view g)))
  | _ => None
  end.
Definition graph_names (s : gostr) : option (list gostr * list (gostr * gostr * gostr)) :=
  match new_analysed_graph os_id ord_id (src_text s) with
  | inl g => Some (map (fun p => node_name (deref (g_nodes g) p)) (nodes_list (g_nodes g)), map (fun e => (e_src e, e_src_port e, e_dst e)) (s_edges (view g)))
  | inr _ => None
  end.
(** A text that meets the hypotheses of C76_ascii, with keywords, strings, HTML, numbers, ports of edges, an anonymous subgraph. *)
Definition src6 : gostr := lit "strict digraph G { node [color=red]; a:p:n -> " ++ quoted (lit "b c") ++ lit " -> { -1.5; <x <y> z> } [label=l]; rank=same; d [URL] }".
Lemma parse6 : (match parse_bytes rnd0 0 src6 with Ok (_, k) => k | _ => 0 end) = 1.
Proof. vm_compute. reflexivity. Qed.
Fixpoint no_ports (k : nat) (b : list Ast.stmt) {struct k} : bool :=
  match k with
  | O => false
  | S k' => forallb (fun st => match st with
      | Ast.SNode n _ => match port_text (Ast.nid_port n) with [] => true | _ => false end
      | Ast.SSub (Ast.SubGraph _ b') => no_ports k' b'
      | Ast.SEdge l r _ => forallb (fun lo => match lo with Ast.LSub (Ast.SubGraph _ b') => no_ports k' b' | Ast.LNode _ => true end) (l :: map dst_of r)
      | _ => true end) b
  end.
Lemma no_ports_ok k b n l : no_ports k b = true -> in_stmts b (Ast.SNode n l) -> port_text (Ast.nid_port n) = [].
Proof.
  intros H K. remember (Ast.SNode n l) as st eqn:E. revert k H. induction K as [l0 st K|l0 id body st K _ IH|l0 id body rhs a0 st K _ IH|l0 src rhs op id body a0 st K K1 _ IH];
    intros k H; (destruct k as [|k]; [discriminate H|]); cbn [no_ports] in H; rewrite forallb_forall in H; apply elem_of_list_In in K; specialize (H _ K); cbn in H.
  - subst st. cbn in H. destruct (port_text (Ast.nid_port n)); [reflexivity|discriminate].
  - exact (IH E k H).
  - apply andb_true_iff in H. exact (IH E k (proj1 H)).
  - apply andb_true_iff in H. destruct H as [_ H]. rewrite forallb_forall in H. apply elem_of_list_In in K1. apply (in_map dst_of) in K1. exact (IH E k (H _ K1)).
Qed.
Lemma ports6 : no_node_ports (src_text src6).
Proof. intros n l. apply (no_ports_ok 3). vm_compute. reflexivity. Qed.
Example C76_example : ascii_text src6 /\ (match parse_bytes rnd0 0 src6 with Ok (_, k) => k | _ => 0 end) = 1 /\ no_node_ports (src_text src6) /\
  esc_names src6 = graph_names src6 /\
  option_map fst (esc_names src6) = Some [lit "a"; quoted (lit "b c"); lit "-1.5"; lit "<x <y> z>"; lit "d"].
Proof.
  split; [apply (bool_decide_unpack _); vm_compute; exact I|]. split; [exact parse6|]. split; [exact ports6|]. split; vm_compute; reflexivity.
Qed.
(** The conditions are needed: a node statement 1:p stands for a node 1:p, which an Escape calls "1:p" with quotes; ... *)
Theorem C76_ports_refuted : exists src, ascii_text src /\ graph_names src = Some ([lit "1:p"], []) /\ esc_names src = Some ([quoted (lit "1:p")], []).
Proof.
  exists (lit "digraph { 1:p }"). split; [apply (bool_decide_unpack _); vm_compute; exact I|]. split; vm_compute; reflexivity.
Qed.
Print Assumptions C76_ports_refuted.
(** ... Read accepts a text with a node whose name is a no-break space, and Analyse into an Escape panics on it, whatever letters and digits there are. *)
Definition src_nbsp : gostr := lit "digraph { " ++ PropsEscape.nbsp ++ lit " }".
Theorem C76_total_refuted : graph_names src_nbsp = Some ([PropsEscape.nbsp], []) /\
  forall ul ud oes os ord, (forall i, fair (oes i)) -> fair_order ord -> analyse_escape ul ud oes os ord (src_text src_nbsp) = None.
Proof.
  split; [vm_compute; reflexivity|]. intros ul ud oes os ord Fe Fo.
  destruct (C24_analyse ord (src_text src_nbsp) Fo) as (cs & G & _). apply (C76_panics ul ud oes os ord _ cs Fe Fo G).
  assert (E : src_text src_nbsp = Ast.Graph true false [] [Ast.SNode (Ast.NodeID PropsEscape.nbsp (Ast.Port [] [])) []]) by (vm_compute; reflexivity).
  rewrite E in G. destruct G as (l & B & ->). cbn in B. inversion B; subst. match goal with H : stmt_calls _ _ _ _ _ _ |- _ => inversion H; subst end.
  eexists _, PropsEscape.nbsp. split; [right; right; right; left|]. split; [right; left; unfold node_text; cbn; reflexivity|vm_compute; reflexivity].
Qed.
Print Assumptions C76_total_refuted.
