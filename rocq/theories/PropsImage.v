(** Property C60: which graphs can be built. *)
From Verif Require Import Maps Graph Direct SpecGraph SpecDirect SpecImage MapFacts GraphProofs DirectProofs ImageProofs Ast Write SpecWrite WriteProofs WriteFacts PropsGraph.

Lemma spec_run_det cs : forall s s1 rs s2 rs', spec_run cs s s1 rs -> Forall (fun r => r = None) rs -> spec_run cs s s2 rs' ->
  s2 = s1 /\ Forall (fun r => r = None) rs'.
Proof.
  induction cs as [|c cs IH]; intros s s1 rs s2 rs' H F H'.
  - inversion H; subst. inversion H'; subst. split; [reflexivity|constructor].
  - inversion H as [|? ? ? sa ? r ? C1 R1]; subst. inversion H' as [|? ? ? sb ? r' ? C2 R2]; subst. inversion F; subst.
    destruct (spec_det c s sa sb None r' C1 C2 (or_intror eq_refl)) as [-> Er].
    destruct (IH _ _ _ _ _ R1 ltac:(assumption) R2) as [-> F']. split; [reflexivity|]. constructor; [apply Er; reflexivity|exact F'].
Qed.
Lemma steps_run (P : call -> Prop) t : Steps P s_empty t -> exists cs, Forall P cs /\
  forall h, map snd h = cs -> Forall (fun oc => fair oc.1) h -> view (run h new_graph).1 = t /\ Forall (fun r => r = None) (run h new_graph).2.
Proof.
  intros (cs & F & R). exists cs. split; [exact F|]. intros h <- Fh. pose proof (C23_refinement h Fh) as R'.
  eapply spec_run_det; [exact R| |exact R']. apply Forall_replicate. reflexivity.
Qed.
Lemma run_grown h : forall g, grown g -> Forall (fun oc => fair oc.1) h -> Forall additive (map snd h) -> grown (run h g).1.
Proof.
  induction h as [|[o c] h IH]; intros g G F A; [exact G|]. cbn [run map snd] in *. inversion F; subst. inversion A; subst.
  assert (G1 : grown (exec o c g).1) by (apply grown_call; assumption).
  destruct (exec o c g) as [g1 r]. cbn [fst] in G1. specialize (IH g1 G1 ltac:(assumption) ltac:(assumption)).
  destruct (run h g1) as [g2 rs]. exact IH.
Qed.
Lemma run_reach h : forall g, reachable g -> Forall (fun oc => fair oc.1) h -> reachable (run h g).1.
Proof.
  induction h as [|[o c] h IH]; intros g G F; [exact G|]. cbn [run] in *. inversion F; subst.
  assert (G1 : reachable (exec o c g).1) by (apply reach_call; assumption).
  destruct (exec o c g) as [g1 r]. cbn [fst] in G1. specialize (IH g1 G1 ltac:(assumption)).
  destruct (run h g1) as [g2 rs]. exact IH.
Qed.
Definition with_id (cs : list call) : list (oracle * call) := map (pair o_id) cs.
Lemma with_id_fair cs : Forall (fun oc => fair oc.1) (with_id cs).
Proof. apply Forall_forall. intros [o c] H. unfold with_id in H. apply elem_of_list_fmap in H. destruct H as (x & [= -> ->] & _). exact fair_id. Qed.
Lemma with_id_calls cs : map snd (with_id cs) = cs.
Proof. unfold with_id. rewrite map_map. apply map_id. Qed.
Lemma grown_reachable g : grown g -> reachable g.
Proof. induction 1; [constructor|]. apply reach_call; assumption. Qed.
Lemma graph_ok_plain g : graph_ok g -> plain (view g).
Proof.
  intros OK. constructor; cbn.
  - apply (oview_nodup _ (go_nodes g OK)).
  - intros n. rewrite view_is_node. apply (oview_in _ (go_nodes g OK)).
  - apply (go_attrs g OK).
  - apply (go_nattrs g OK).
  - intros n a H. rewrite lookup_fmap in H. destruct (g_subs g !! n) as [sb|] eqn:E; cbn in H; [|discriminate]. injection H as <-. exact (go_sattrs g OK n sb E).
  - apply Forall_forall. intros e He. exact (go_eattrs g OK e He).
Qed.

(** ** C60.  The abstract graphs that calls which remove nothing can build are those in which everything has a parent and every
    child exists; *)
Theorem C60_adds : forall s, (exists g, grown g /\ view g = s) <-> plain s /\ placed s.
Proof.
  intros s. split.
  - intros (g & G & <-). split; [apply graph_ok_plain, reachable_ok, grown_reachable, G|].
    induction G as [|g o c G IH Fo A].
    + rewrite view_new. split.
      * intros n [H|H]; destruct (is_Some_None H).
      * intros p c H. unfold is_child in H. cbn in H. set_solver.
    + eapply placed_call; [apply (C23_refinement_step o c g Fo (grown_reachable g G : built g))|exact A|exact IH].
  - intros [P PL]. destruct (steps_run _ _ (build_adds s P PL)) as (cs & F & H).
    destruct (H (with_id cs) (with_id_calls cs) (with_id_fair cs)) as [V _]. eexists. split; [|exact V].
    apply run_grown; [constructor|apply with_id_fair|rewrite with_id_calls; exact F].
Qed.
Print Assumptions C60_adds.
(** with removals also those in which a node or a subgraph has no parent or a child does not exist, as long as what is a node
    and a subgraph at once has a parent; *)
Theorem C60_calls : forall s, (exists g, reachable g /\ view g = s) <-> plain s /\ both_placed s.
Proof.
  intros s. split.
  - intros (g & G & <-). split; [apply graph_ok_plain, reachable_ok, G|].
    induction G as [|g o c G IH Fo].
    + rewrite view_new. intros n H. destruct (is_Some_None H).
    + eapply both_call; [apply (C23_refinement_step o c g Fo (G : built g))|exact IH].
  - intros [P BP]. destruct (steps_run _ _ (build_all s P BP)) as (cs & F & H).
    destruct (H (with_id cs) (with_id_calls cs) (with_id_fair cs)) as [V _]. eexists. split; [|exact V].
    apply run_reach; [constructor|apply with_id_fair].
Qed.
Print Assumptions C60_calls.

Lemma direct_view g d s' : proper g -> possible g d -> Forall (all_in valid_attr) (brings d) ->
  (forall s r, spec_direct (fun p => nodes_heap (g_nodes g) !! p) (fun n => nodes_lookup (g_nodes g) !! n) d (view g) s r -> s = s') -> exists g', proper g' /\ view g' = s'.
Proof.
  intros R Hp B U. destruct (built_with_ok (P := valid_attr) g R) as [OK Hh].
  pose proof (direct_ok (P := valid_attr) o_id d g fair_id Hp B Hh OK) as [_ S]. apply U in S.
  exists (exec_direct o_id d g).1. split; [|exact S]. apply bw_direct; [exact R|exact fair_id|exact Hp|exact B].
Qed.
(** and with calls on the containers all abstract graphs. *)
Theorem C60_direct : forall s, (exists g, proper g /\ view g = s) <-> plain s.
Proof.
  intros s. split; [intros (g & G & <-); apply graph_ok_plain, proper_ok, G|]. intros P.
  assert (G0 : exists g, proper g /\ view g = s_with_rels (s_with_subs s ∅) ∅).
  { destruct (proj2 (C60_calls (s_with_rels (s_with_subs s ∅) ∅))) as (g & R & V).
    - split; [destruct P; constructor; cbn; auto|].
      + intros n a H. rewrite lookup_empty in H. discriminate.
      + intros n _ [a H]. cbn in H. rewrite lookup_empty in H. discriminate.
    - exists g. split; [exact (R : proper g)|exact V]. }
  assert (G1 : forall S : gmap gostr attrs, S ⊆ s_subs s -> exists g, proper g /\ view g = s_with_rels (s_with_subs s S) ∅).
  { induction S as [|n a S E IH] using map_ind; intros Sub; [exact G0|].
    assert (Hn : s_subs s !! n = Some a) by (eapply lookup_weaken; [apply lookup_insert|exact Sub]).
    destruct IH as (g & R & V). { etransitivity; [|exact Sub]. apply insert_subseteq. exact E. }
    assert (exists g', proper g' /\ view g' = s_with_rels (s_with_subs s (<[n := ∅]> S)) ∅) as (g1 & R1 & V1).
    { apply (direct_view g (DSubGraphsAdd n) _ R I); [constructor|]. intros s1 r H. inversion H; subst. rewrite V. cbn. rewrite E. reflexivity. }
    apply (direct_view g1 (DAttrs (TSub n) (AExtend a)) _ R1).
    - cbn. apply view_is_sub. rewrite V1. unfold s_is_sub. cbn. rewrite lookup_insert. eauto.
    - constructor; [|constructor]. exact (pl_subs s P n a Hn).
    - intros s1 r H. inversion H as [| | | | | | | | | |? ? ? a0 a1 ? L A| | | |]; subst. rewrite V1 in *. cbn in L. rewrite lookup_insert in L. injection L as <-.
      inversion A; subst. unfold s_with_subs, s_with_rels. cbn. rewrite insert_insert, map_union_empty. reflexivity. }
  assert (G2 : forall Rl : gset (gostr * gostr), exists g, proper g /\ view g = s_with_rels s Rl).
  { induction Rl as [|(p, c) Rl E IH] using set_ind_L.
    - destruct (G1 (s_subs s)) as (g & R & V); [reflexivity|]. exists g. split; [exact R|]. rewrite V. destruct s. reflexivity.
    - destruct IH as (g & R & V). apply (direct_view g (DRelationsAdd p c) _ R I); [constructor|]. intros s1 r H. inversion H; subst. rewrite V. reflexivity. }
  destruct (G2 (s_rels s)) as (g & R & V). exists g. split; [exact R|]. rewrite V. destruct s. reflexivity.
Qed.
Print Assumptions C60_direct.

(** A list of calls that builds a given graph: under every map iteration order all of them return nil and the graph has exactly the
    given content. *)
Theorem C60_recipe : forall s, plain s -> placed s -> exists cs, Forall additive cs /\
  forall h, map snd h = cs -> Forall (fun oc => fair oc.1) h ->
    view (run h new_graph).1 = s /\ Forall (fun r => r = None) (run h new_graph).2.
Proof. intros s P PL. exact (steps_run _ _ (build_adds s P PL)). Qed.
Print Assumptions C60_recipe.
(** So every graph can be rebuilt elsewhere by calls of AddNode, AddSubGraph, AddPortEdge, ..., if each of its nodes and subgraphs has
    a parent and each child exists; the copy has the same text. *)
Theorem C60_copy : forall g, proper g -> placed (view g) -> exists cs, Forall additive cs /\
  forall h, map snd h = cs -> Forall (fun oc => fair oc.1) h ->
    let g' := (run h new_graph).1 in
    view g' = view g /\ Forall (fun r => r = None) (run h new_graph).2 /\
    forall srt o o' fuel, fair o -> fair o' -> graph_string srt o' g' fuel = graph_string srt o g fuel.
Proof.
  intros g R PL. pose proof (graph_ok_plain g (proper_ok g R)) as P.
  destruct (C60_recipe (view g) P PL) as (cs & A & H). exists cs. split; [exact A|]. intros h Hh F.
  destruct (H h Hh F) as [V N]. split; [exact V|]. split; [exact N|]. intros srt o o' fuel Fo Fo'.
  assert (R' : reachable (run h new_graph).1) by (apply run_reach; [constructor|exact F]).
  unfold graph_string. rewrite (write_canon o g Fo (proper_ok g R)), (write_canon o' _ Fo' (reachable_ok _ R')).
  rewrite V. reflexivity.
Qed.
Print Assumptions C60_copy.

(** A graph with a nested subgraph, two nodes and an edge with attributes. *)
Definition cs_c60 : list call :=
  [CSetName (lit "G"); CSetDir true; CAddAttr (lit "G") (lit "rankdir") (lit "LR"); CAddSubGraph (lit "G") (lit "S") ∅;
   CAddSubGraph (lit "S") (lit "T") {[lit "rank" := lit "same"]}; CAddNode (lit "S") (lit "a") {[lit "color" := lit "red"]}; CAddNode (lit "T") (lit "b") ∅;
   CAddPortEdge (lit "a") (lit "p") (lit "b") [] true {[lit "label" := lit "x"]}].
Example C60_example : let s := view (run (with_id cs_c60) new_graph).1 in
  plain s /\ placed s /\ length (s_order s) = 2 /\ length (s_edges s) = 1 /\ s_subs s = {[lit "S" := ∅; lit "T" := {[lit "rank" := lit "same"]}]}.
Proof.
  cbv zeta. assert (G : grown (run (with_id cs_c60) new_graph).1).
  { apply run_grown; [constructor|apply with_id_fair|]. rewrite with_id_calls. repeat (constructor; [exact I|]). constructor. }
  destruct (proj1 (C60_adds (view (run (with_id cs_c60) new_graph).1)) (ex_intro _ _ (conj G eq_refl))) as [P PL].
  split; [exact P|]. split; [exact PL|]. split; [vm_compute; reflexivity|]. split; [vm_compute; reflexivity|].
  apply (bool_decide_unpack _). vm_compute. exact I.
Qed.
(** Removals do more: after AddNode(G, a) and RemoveSubGraph(G, a) the node a has no parent. *)
Example C60_calls_example : let s := view (run (with_id [CAddNode (lit "G") (lit "a") ∅; CRemoveSubGraph (lit "G") (lit "a")]) new_graph).1 in
  s_is_node s (lit "a") /\ ~ placed s /\ both_placed s.
Proof.
  cbv zeta. set (g := (run _ new_graph).1).
  assert (V : s_is_node (view g) (lit "a") /\ s_rels (view g) = ∅).
  { split; [exists ∅; vm_compute; reflexivity|]. apply (bool_decide_unpack _). vm_compute. exact I. }
  destruct V as [V1 V2]. split; [exact V1|]. split.
  - intros [H _]. destruct (H (lit "a") (or_introl V1)) as [p Hp]. unfold is_child in Hp. rewrite V2 in Hp. set_solver.
  - apply (proj1 (C60_calls (view g))). exists g. split; [|reflexivity]. apply run_reach; [constructor|apply with_id_fair].
Qed.
