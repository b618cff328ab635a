(** Property C63: the order of calls and statements that add does not matter. *)
From Verif Require Import Base Parser Maps Graph Direct SpecGraph Analyse SpecAnalyse SpecOrder OrderProofs MapFacts GraphProofs DirectProofs AnalyseProofs ReadProofs SpecWrite Write WriteProofs PropsGraph PropsWrite.
From Verif Require Ast PropsAnalyse PropsParse.

Lemma run_built h : forall g, built g -> Forall (fun oc => fair oc.1) h -> built (run h g).1 /\ spec_run (map snd h) (view g) (view (run h g).1) (run h g).2.
Proof.
  induction h as [|[o c] h IH]; intros g B F; cbn [run map snd]; [split; [exact B|constructor]|]. inversion F; subst.
  pose proof (C23_refinement_step o c g ltac:(assumption) B) as S. assert (B' : built (exec o c g).1) by (apply built_call; assumption).
  destruct (exec o c g) as [g1 r]. cbn [fst snd] in *. specialize (IH g1 B' ltac:(assumption)). destruct (run h g1) as [g2 rs]. cbn [fst snd] in *.
  destruct IH. split; [assumption|]. econstructor; eassumption.
Qed.
Definition succeeds (h : list (oracle * call)) (g : agraph) : Prop := Forall (fun r => r = None) (run h g).2.

(** ** C63.  Take any graph and two histories of calls on it that remove nothing and do not rename the graph, that succeed, and that
    say the same things (in any order, any number of times) without contradicting themselves, and add the same edges: they build
    graphs with the same content, *)
Theorem C63_same_message : forall g h h', built g -> Forall (fun oc => fair oc.1) h -> Forall (fun oc => fair oc.1) h' ->
  Forall only_adds (map snd h) -> Forall only_adds (map snd h') -> succeeds h g -> succeeds h' g ->
  consistent (map snd h) -> same_message (map snd h) (map snd h') ->
  same_content (view (run h g).1) (view (run h' g).1).
Proof.
  intros g h h' B F F' A A' S S' C M. destruct (run_built h g B F) as [_ R]. destruct (run_built h' g B F') as [_ R'].
  apply (outcome_same (view g) (map snd h) (map snd h')); [exact M| |].
  - eapply outcome_run; eassumption.
  - eapply outcome_run; [eapply consistent_same; eassumption|eassumption|eassumption|eassumption].
Qed.
Print Assumptions C63_same_message.
Lemma perm_message cs cs' : cs ≡ₚ cs' -> same_message cs cs'.
Proof. intros P. split; [intros f; unfold said; setoid_rewrite P; reflexivity|]. unfold edges_result. rewrite P. reflexivity. Qed.
(** and so the same text; in particular calls may be made in any order in which they succeed (for instance that of ranging over a map). *)
Corollary C63_any_order : forall g h h' srt srt' o o' fuel, built g -> Forall (fun oc => fair oc.1) h -> Forall (fun oc => fair oc.1) h' ->
  map snd h ≡ₚ map snd h' -> Forall only_adds (map snd h) -> consistent (map snd h) -> succeeds h g -> succeeds h' g ->
  fair o -> fair o' -> sorts (edge_less o) srt -> sorts (edge_less o') srt' ->
  same_content (view (run h g).1) (view (run h' g).1) /\
  ((forall e k, e ∈ edges_list (g_edges (run h g).1) -> e_attrs e !! k <> Some []) ->
   graph_string srt o (run h g).1 fuel = graph_string srt' o' (run h' g).1 fuel).
Proof.
  intros g h h' srt srt' o o' fuel B F F' P A C S S' Fo Fo' So So'.
  assert (E : same_content (view (run h g).1) (view (run h' g).1)).
  { apply C63_same_message; try assumption; [rewrite <- P; exact A|apply perm_message; exact P]. }
  split; [exact E|]. intros V. apply C30_canonical; try assumption; [apply (run_built h g B F)|apply (run_built h' g B F')].
Qed.
Print Assumptions C63_any_order.

(** The statements of a graph body that set no defaults may be written in any order, after the ones that do: the
    calls of both must not give one attribute two values, defaults included.  Then the analyses both fail, or both succeed with the
    same content. *)
Theorem C63_statements : forall os os' ord ord' a a' D B B',
  (forall i, fair (os i)) -> (forall i, fair (os' i)) -> fair_order ord -> fair_order ord' ->
  Ast.g_id a = Ast.g_id a' -> Ast.g_strict a = Ast.g_strict a' -> Ast.g_type a = Ast.g_type a' ->
  Ast.g_stmts a = D ++ B -> Ast.g_stmts a' = D ++ B' -> B ≡ₚ B' -> Forall no_default B ->
  consistent_ast a -> consistent_ast a' ->
  match new_analysed_graph os ord a, new_analysed_graph os' ord' a' with
  | inl g, inl g' => same_content (view g) (view g')
  | inr _, inr _ => True
  | _, _ => False
  end.
Proof.
  intros os os' ord ord' a a' D B B' Fo Fo' Fd Fd' Ei Es Et EB EB' P ND C C'.
  destruct (analysed_graph os ord a Fo Fd) as (l & Hl & G). destruct (analysed_graph os' ord' a' Fo' Fd') as (l' & Hl' & G').
  assert (Cl : consistent l).
  { intros f f' X X'. apply (C _ (ex_intro _ l (conj Hl eq_refl))); apply said_app; auto. }
  assert (Cl' : consistent l').
  { intros f f' X X'. apply (C' _ (ex_intro _ l' (conj Hl' eq_refl))); apply said_app; auto. }
  assert (ND' : Forall no_default B') by (rewrite <- P; exact ND).
  assert (M : same_message l l').
  { rewrite EB in Hl. rewrite EB', <- Ei in Hl'. destruct (body_calls_app _ _ _ _ _ _ _ Hl) as (l1 & l2 & -> & H1 & H2).
    destruct (body_calls_app _ _ _ _ _ _ _ Hl') as (l1' & l2' & -> & H1' & H2'). cbn [app] in H2, H2'.
    assert (T := body_det _ _ _ _ _ _ H1 _ H1'). split.
    - intros f. rewrite !said_app, (trace_eq_said _ _ T f).
      assert (X : said l2 f <-> said l2' f); [|rewrite X; reflexivity]. split.
      + apply (body_perm_said _ _ _ D B B' l2 l2' f P ND ND' H2 H2'). intros x y X Y. apply Cl; apply said_app; auto.
      + apply (body_perm_said _ _ _ D B' B l2' l2 f (symmetry P) ND' ND H2' H2). intros x y X Y. apply Cl'; apply said_app; auto.
    - rewrite !edges_result_app. rewrite (body_edges_ok _ _ _ _ _ _ H1), (body_edges_ok _ _ _ _ _ _ H1').
      rewrite (body_perm_edges _ _ _ D B B' l2 l2' P ND ND' H2 H2'). reflexivity. }
  assert (Bl := body_builds _ _ _ _ _ _ Hl). assert (Bl' := body_builds _ _ _ _ _ _ Hl').
  assert (OK : Forall call_ok l <-> Forall call_ok l').
  { rewrite (ok_said l Bl), (ok_said l' Bl'). destruct M as [M ME]. setoid_rewrite M. setoid_rewrite ME. reflexivity. }
  destruct (new_analysed_graph os ord a) as [g|e], (new_analysed_graph os' ord' a') as [g'|e'].
  - destruct G as (O & _ & V). destruct G' as (O' & _ & V'). rewrite V, V'.
    assert (HK : forall b, forall n, n ∈ [Ast.g_id b] -> has_attrs (s_start b) n) by (intros b n Hn; apply elem_of_list_singleton in Hn; subst; left; reflexivity).
    destruct (build_spec_run l (s_start a) [Ast.g_id a] Bl O (body_wp _ _ _ _ _ _ Hl [Ast.g_id a] ltac:(apply elem_of_list_singleton; reflexivity)) (HK a)) as (rs & R & N).
    destruct (build_spec_run l' (s_start a') [Ast.g_id a'] Bl' O' (body_wp _ _ _ _ _ _ Hl' [Ast.g_id a'] ltac:(apply elem_of_list_singleton; reflexivity)) (HK a')) as (rs' & R' & N').
    assert (ES : s_start a' = s_start a) by (unfold s_start; rewrite Ei, Es, Et; reflexivity). rewrite ES in *.
    apply (outcome_same (s_start a) l l'); [exact M| |]; (eapply outcome_run; [assumption|apply builds_only_adds; assumption|eassumption|assumption]).
  - destruct G as (O & _). tauto.
  - destruct G' as (O & _). tauto.
  - exact I.
Qed.
Print Assumptions C63_statements.

(** *** A contradiction makes the order matter, *)
Theorem C63_contradiction_refuted : exists h h', Forall (fun oc => fair oc.1) h /\ Forall (fun oc => fair oc.1) h' /\
  map snd h ≡ₚ map snd h' /\ Forall only_adds (map snd h) /\ succeeds h new_graph /\ succeeds h' new_graph /\
  ~ same_content (view (run h new_graph).1) (view (run h' new_graph).1).
Proof.
  pose (x := CAddNode [] (lit "a") {[lit "color" := lit "red"]}). pose (y := CAddNode [] (lit "a") {[lit "color" := lit "blue"]}).
  exists [(o_id, x); (o_id, y)], [(o_id, y); (o_id, x)].
  split; [repeat constructor; apply fair_id|]. split; [repeat constructor; apply fair_id|]. split; [apply Permutation_swap|]. split; [repeat constructor|].
  split; [vm_compute; repeat constructor|]. split; [vm_compute; repeat constructor|].
  intros (_ & _ & _ & _ & E & _). assert (E' := f_equal (fun m : gmap gostr attrs => default ∅ (m !! lit "a") !! lit "color") E). vm_compute in E'. discriminate.
Qed.
Print Assumptions C63_contradiction_refuted.
(** so do SetName, and statements that set defaults. *)
Theorem C63_rename_refuted : exists h h', Forall (fun oc => fair oc.1) h /\ Forall (fun oc => fair oc.1) h' /\
  map snd h ≡ₚ map snd h' /\ consistent (map snd h) /\ succeeds h new_graph /\ succeeds h' new_graph /\
  ~ same_content (view (run h new_graph).1) (view (run h' new_graph).1).
Proof.
  pose (x := CAddSubGraph [] (lit "a") {[lit "color" := lit "red"]}). pose (y := CSetName (lit "a")).
  exists [(o_id, x); (o_id, y)], [(o_id, y); (o_id, x)].
  split; [repeat constructor; apply fair_id|]. split; [repeat constructor; apply fair_id|]. split; [apply Permutation_swap|]. split.
  { intros f f' (c & H & S) (c' & H' & S'). apply elem_of_cons in H, H'. rewrite !elem_of_list_singleton in H, H'.
    destruct H as [->| ->]; [|destruct S]. destruct H' as [->| ->]; [|destruct S'].
    destruct S as [->|[->|(k & v & E & ->)]]; destruct S' as [->|[->|(k' & v' & E' & ->)]]; cbn; try tauto.
    apply lookup_singleton_Some in E, E'. destruct E as [<- <-], E' as [<- <-]. tauto. }
  split; [vm_compute; repeat constructor|]. split; [vm_compute; repeat constructor|].
  intros (_ & _ & _ & E & _). assert (E' := f_equal (fun m : attrs => m !! lit "color") E). vm_compute in E'. discriminate.
Qed.
Print Assumptions C63_rename_refuted.

(** *** Checking examples *)
Definition facts_of (c : call) : list fact :=
  match c with
  | CSetStrict b => [FStrict b]
  | CSetDir b => [FDirected b]
  | CAddNode p n m => FNode n :: FChild p n :: map (fun kv => FNodeAttr n kv.1 kv.2) (map_to_list m)
  | CAddSubGraph p n m => FSub n :: FChild p n :: map (fun kv => FGraphAttr n kv.1 kv.2) (map_to_list m)
  | CAddAttr n k v => [FGraphAttr n k v]
  | _ => []
  end.
Lemma facts_of_ok c f : states c f <-> f ∈ facts_of c.
Proof.
  assert (L : forall (m : attrs) (F : gostr -> gostr -> fact), f ∈ map (fun kv => F kv.1 kv.2) (map_to_list m) <-> exists k v, m !! k = Some v /\ f = F k v).
  { intros m F. change (f ∈ (fun kv : gostr * gostr => F kv.1 kv.2) <$> map_to_list m <-> exists k v, m !! k = Some v /\ f = F k v). rewrite elem_of_list_fmap. split.
    - intros ([k v] & -> & H). apply elem_of_map_to_list in H. eauto.
    - intros (k & v & H & ->). exists (k, v). split; [reflexivity|]. apply elem_of_map_to_list. exact H. }
  destruct c; cbn; rewrite ?elem_of_cons, ?elem_of_nil, ?L; tauto.
Qed.
Definition clashb (f f' : fact) : bool :=
  match f, f' with
  | FNodeAttr n k v, FNodeAttr n' k' v' | FGraphAttr n k v, FGraphAttr n' k' v' => bool_decide (n = n' /\ k = k' /\ v <> v')
  | FStrict b, FStrict b' | FDirected b, FDirected b' => negb (Bool.eqb b b')
  | _, _ => false
  end.
Lemma clashb_ok f f' : clash f f' -> clashb f f' = true.
Proof. destruct f, f'; cbn; try tauto; try apply bool_decide_eq_true_2; destruct b, b0; cbn; congruence. Qed.
Definition consistentb (cs : list call) : bool :=
  let fs := flat_map facts_of cs in forallb (fun f => forallb (fun f' => negb (clashb f f')) fs) fs.
Lemma said_facts cs f : said cs f -> In f (flat_map facts_of cs).
Proof. intros (c & H & S). apply in_flat_map. exists c. split; [apply elem_of_list_In, H|]. apply elem_of_list_In, facts_of_ok, S. Qed.
Lemma consistentb_ok cs : consistentb cs = true -> consistent cs.
Proof.
  intros H f f' X X' C. unfold consistentb in H. rewrite forallb_forall in H. specialize (H f (said_facts _ _ X)).
  rewrite forallb_forall in H. specialize (H f' (said_facts _ _ X')). rewrite (clashb_ok _ _ C) in H. discriminate.
Qed.
Definition record (s : list call) (c : call) : list call * option err := (s ++ [c], None).
Lemma record_calls cs : forall s, (make_calls record cs s).1 = s ++ cs.
Proof.
  induction cs as [|c cs IH]; intros s; cbn [make_calls]; [rewrite app_nil_r; reflexivity|]. unfold record at 1.
  specialize (IH (s ++ [c])). destruct (make_calls record cs (s ++ [c])) as [s' rs]. cbn [fst] in *. rewrite IH, <- app_assoc. reflexivity.
Qed.
Lemma consistent_ast_chk a : consistentb (analyse (list call) record PropsAnalyse.ord_id a []).1 = true -> consistent_ast a.
Proof.
  intros H cs Hcs. destruct (PropsAnalyse.C24_analyse PropsAnalyse.ord_id a PropsAnalyse.fair_ord_id) as (cs0 & G & R).
  specialize (R (list call) record []). pose proof (record_calls cs0 []) as E. destruct (make_calls record cs0 []) as [s' rs].
  destruct R as (R & _). cbn [fst app] in E. rewrite R, E in H.
  apply consistentb_ok in H. eapply consistent_same; [|exact H]. apply perm_message. apply (PropsAnalyse.C24_calls_unique a); assumption.
Qed.

(** *** Examples *)
Definition calls1 : list call :=
  [CSetDir true; CAddNode (lit "G") (lit "a") ∅; CAddSubGraph (lit "G") (lit "S") {[lit "rank" := lit "same"]};
   CAddNode (lit "S") (lit "b") {[lit "color" := lit "red"]}; CAddNode (lit "G") (lit "b") {[lit "shape" := lit "box"]}; CAddAttr (lit "S") (lit "label") (lit "x");
   CAddEdge (lit "a") (lit "b") true ∅; CAddEdge (lit "b") (lit "S") true {[lit "label" := lit "y"]}].
Definition calls1' : list call :=
  [CAddEdge (lit "b") (lit "S") true {[lit "label" := lit "y"]}; CAddNode (lit "G") (lit "b") {[lit "shape" := lit "box"]};
   CAddEdge (lit "a") (lit "b") true ∅; CAddNode (lit "S") (lit "b") {[lit "color" := lit "red"]};
   CAddSubGraph (lit "G") (lit "S") {[lit "rank" := lit "same"]}; CAddAttr (lit "S") (lit "label") (lit "x");
   CAddNode (lit "G") (lit "a") ∅; CSetDir true].
Definition h1 := map (pair o_id) calls1.
Definition h1' := map (pair o_id) calls1'.
Lemma perm1 : calls1 ≡ₚ calls1'.
Proof.
  unfold calls1, calls1'.
  repeat match goal with |- ?x :: ?l ≡ₚ ?r =>
    let rec go pre r := match r with
      | x :: ?post => transitivity (x :: (pre ++ post)); [cbn [app]; apply perm_skip|exact (Permutation_middle pre post x)]
      | ?y :: ?post => let pre' := eval cbn [app] in (pre ++ [y]) in go pre' post end in go (@nil call) r end.
  reflexivity.
Qed.
Example C63_calls_example : Forall (fun oc => fair oc.1) h1 /\ Forall (fun oc => fair oc.1) h1' /\ map snd h1 ≡ₚ map snd h1' /\ Forall only_adds (map snd h1) /\
  consistent (map snd h1) /\ succeeds h1 new_graph /\ succeeds h1' new_graph /\ s_order (view (run h1 new_graph).1) <> s_order (view (run h1' new_graph).1).
Proof.
  split; [repeat constructor; apply fair_id|]. split; [repeat constructor; apply fair_id|]. split; [exact perm1|]. split; [repeat constructor|].
  split; [apply consistentb_ok; vm_compute; reflexivity|]. split; [vm_compute; repeat constructor|]. split; [vm_compute; repeat constructor|]. vm_compute. discriminate.
Qed.
(** Two texts. *)
Definition text1 : gostr := lit "digraph G { node [color=red]; edge [style=bold]; a -> b; b [shape=box]; subgraph S { node [shape=oval]; c -> a; d }; rank=same; c -> a [label=x]; a [shape=oval] }".
Definition text1' : gostr := lit "digraph G { node [color=red]; edge [style=bold]; a [shape=oval]; c -> a [label=x]; rank=same; subgraph S { node [shape=oval]; c -> a; d }; b [shape=box]; a -> b }".
Definition ast_of (t : gostr) : Ast.graph := match parse_bytes PropsParse.rnd0 0 t with Ok (a, _) => a | _ => Ast.Graph false false [] [] end.
Lemma ex1_D : Ast.g_stmts (ast_of text1') = take 2 (Ast.g_stmts (ast_of text1)) ++ rev (drop 2 (Ast.g_stmts (ast_of text1))).
Proof. vm_compute. reflexivity. Qed.
Lemma ex1_len : length (take 2 (Ast.g_stmts (ast_of text1))) = 2 /\ length (drop 2 (Ast.g_stmts (ast_of text1))) = 6 /\ Ast.g_id (ast_of text1) = Ast.g_id (ast_of text1').
Proof. vm_compute. repeat split. Qed.
Definition no_defaultb (s : Ast.stmt) : bool := match s with Ast.SNodeAttrs _ | Ast.SEdgeAttrs _ | Ast.SGraphAttrs _ => false | _ => true end.
Lemma no_defaultb_ok l : forallb no_defaultb l = true -> Forall no_default l.
Proof. intros H. apply Forall_forall. intros x Hx. rewrite forallb_forall in H. specialize (H x (proj1 (elem_of_list_In _ _) Hx)). destruct x; try discriminate; exact I. Qed.
Lemma ex1_nd : forallb no_defaultb (drop 2 (Ast.g_stmts (ast_of text1))) = true.
Proof. vm_compute. reflexivity. Qed.
Lemma ex1_c : consistentb (analyse (list call) record PropsAnalyse.ord_id (ast_of text1) []).1 = true.
Proof. vm_compute. reflexivity. Qed.
Lemma ex1_c' : consistentb (analyse (list call) record PropsAnalyse.ord_id (ast_of text1') []).1 = true.
Proof. vm_compute. reflexivity. Qed.
Definition differ (a a' : Ast.graph) : bool := match new_analysed_graph PropsAnalyse.os_id PropsAnalyse.ord_id a, new_analysed_graph PropsAnalyse.os_id PropsAnalyse.ord_id a' with
  | inl g, inl g' => negb (bool_decide (s_order (view g) = s_order (view g'))) | _, _ => false end.
Lemma chk_example a a' : differ a a' = true ->
  exists g g', new_analysed_graph PropsAnalyse.os_id PropsAnalyse.ord_id a = inl g /\
    new_analysed_graph PropsAnalyse.os_id PropsAnalyse.ord_id a' = inl g' /\ s_order (view g) <> s_order (view g').
Proof.
  unfold differ. intros C. destruct (new_analysed_graph _ _ a) as [g|], (new_analysed_graph _ _ a') as [g'|]; try discriminate C.
  exists g, g'. split; [reflexivity|]. split; [reflexivity|]. apply negb_true_iff, bool_decide_eq_false in C. exact C.
Qed.
Lemma ex1_differ : differ (ast_of text1) (ast_of text1') = true.
Proof. vm_compute. reflexivity. Qed.
Example C63_statements_example : exists D B,
  Ast.g_stmts (ast_of text1) = D ++ B /\ Ast.g_stmts (ast_of text1') = D ++ rev B /\ length D = 2 /\ length B = 6 /\ B ≡ₚ rev B /\ Forall no_default B /\
  Ast.g_id (ast_of text1) = Ast.g_id (ast_of text1') /\
  consistent_ast (ast_of text1) /\ consistent_ast (ast_of text1') /\
  exists g g', new_analysed_graph PropsAnalyse.os_id PropsAnalyse.ord_id (ast_of text1) = inl g /\
    new_analysed_graph PropsAnalyse.os_id PropsAnalyse.ord_id (ast_of text1') = inl g' /\ s_order (view g) <> s_order (view g').
Proof.
  exists (take 2 (Ast.g_stmts (ast_of text1))), (drop 2 (Ast.g_stmts (ast_of text1))).
  split; [symmetry; apply take_drop|]. split; [exact ex1_D|]. split; [exact (proj1 ex1_len)|]. split; [exact (proj1 (proj2 ex1_len))|].
  split; [apply Permutation_rev|]. split; [exact (no_defaultb_ok _ ex1_nd)|]. split; [exact (proj2 (proj2 ex1_len))|].
  split; [exact (consistent_ast_chk _ ex1_c)|]. split; [exact (consistent_ast_chk _ ex1_c')|]. exact (chk_example _ _ ex1_differ).
Qed.
