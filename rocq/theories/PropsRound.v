(** Properties C35, C36: writing a graph and reading it back. *)
From stdpp Require Import sorting.
From Verif Require Import Base Parser Maps Graph AttrMap SpecGraph MapFacts GraphProofs.
From Verif Require Import Write SpecWrite EdgeOrder WriteProofs WriteFacts WriteFacts2 SpecRound RoundCalls RoundCalls2 RoundProofs RoundWrite RoundFinal TidyCheck.
From Verif Require Import Analyse SpecAnalyse AnalyseProofs ReadProofs NormCalls SpecAst LexPrint AstProofs.
From Verif Require Ast PropsGraph PropsWrite PropsAnalyse.
From Verif Require Import Direct SpecDirect DirectProofs.
Notation o_id := PropsGraph.o_id.
Notation A := PropsGraph.A.
Notation srt0 := PropsWrite.srt0.
Notation build := PropsWrite.build.
Notation rnd0 := PropsAnalyse.rnd0.
Notation os_id := PropsAnalyse.os_id.
Notation ord_id := PropsAnalyse.ord_id.

(** ** C35 The round trip *)
(** [tidy] and [same_graph] are defined in SpecRound.v.  Enough fuel means more nested calls than there are
    subgraphs (C34_terminates). *)
Theorem C35_round_trip : forall srt o g, fair o -> sorts (edge_less o) srt -> proper g -> tidy (view g) ->
  exists txt, (forall fuel, size (g_subs g) < fuel -> graph_string srt o g fuel = Ok txt /\ exists a, write_ast srt o g fuel = Ok a) /\
    forall rnd os ord k, (forall i, fair (os i)) -> fair_order ord ->
      exists g', read rnd os ord k txt = Ok (g', k) /\ reachable g' /\ same_graph (view g) (view g').
Proof.
  intros srt o g Fo S R T. destruct (round_core g (srt (s_edges (view g))) R T (proj1 (S _))) as (a & W & Wf & H).
  exists (Ast.graph_str a). split.
  - intros fuel L. unfold graph_string. rewrite (write_canon o g Fo (proper_ok g R)), (W fuel L). eauto.
  - intros rnd os ord k Fos Ford. destruct (H os ord Fos Ford) as (g' & E & R' & SG & _). exists g'. split; [|auto].
    unfold read. rewrite (ast_roundtrip rnd k a Wf), E. reflexivity.
Qed.
Print Assumptions C35_round_trip.

(** ** C36 String is a normal form *)
Theorem C36_normal_form : forall srt srt' o o' g fuel txt rnd os ord k g' k', fair o -> fair o' -> sorts (edge_less o) srt -> sorts (edge_less o') srt' ->
  (forall i, fair (os i)) -> fair_order ord -> proper g -> tidy (view g) -> no_ports (view g) -> size (g_subs g) < fuel ->
  graph_string srt o g fuel = Ok txt -> read rnd os ord k txt = Ok (g', k') -> graph_string srt' o' g' fuel = Ok txt.
Proof.
  intros srt srt' o o' g fuel txt rnd os ord k g' k' Fo Fo' S S' Fos Ford R T NP L E1 E2.
  destruct (round_core g (srt (s_edges (view g))) R T (proj1 (S _))) as (a & W & Wf & H).
  unfold graph_string in E1. rewrite (write_canon o g Fo (proper_ok g R)), (W fuel L) in E1. injection E1 as <-.
  unfold read in E2. rewrite (ast_roundtrip rnd k a Wf) in E2. destruct (H os ord Fos Ford) as (g2 & E & R' & SG & W').
  rewrite E in E2. injection E2 as <- <-. unfold graph_string. rewrite (write_canon o' g2 Fo' (reachable_ok g2 R')).
  rewrite <- (sorts_unique o o' srt srt' (s_edges (view g)) (s_edges (view g2)) Fo Fo' S S').
  - rewrite (W' fuel L). reflexivity.
  - rewrite (sg_edges _ _ SG), (no_ports_read _ NP). reflexivity.
  - apply Forall_forall. intros e He k0 K. apply (good_nonempty []); [|reflexivity]. eapply (t_values _ T); [apply (Ha_edge _ e He)|exact K].
Qed.
Print Assumptions C36_normal_form.

(** Examples: g12 has nested subgraphs, a node in two subgraphs, subgraphs as endpoints, attributes everywhere; g11 has ports, too. *)
Definition g12 : agraph := build
  [CSetName (lit "G"); CSetDir true; CSetStrict true; CAddAttr (lit "G") (lit "rankdir") (lit "LR");
   CAddSubGraph (lit "G") (lit "S") (A [(lit "rank", lit "same")]); CAddSubGraph (lit "S") (lit "T") ∅; CAddSubGraph (lit "G") (lit "cluster0") (A [(lit "label", lit """x y""")]);
   CAddNode (lit "T") (lit "c") ∅; CAddNode (lit "S") (lit "b") (A [(lit "color", lit "red"); (lit "label", lit "<<b>1</b>>")]); CAddNode (lit "G") (lit "a") ∅;
   CAddNode (lit "cluster0") (lit "d") ∅; CAddNode (lit "cluster0") (lit "b") ∅; CAddEdge (lit "b") (lit "a") true ∅; CAddEdge (lit "a") (lit "T") true (A [(lit "label", lit "x")]);
   CAddNode (lit "G") (lit "-3.5") ∅; CAddEdge (lit "S") (lit "-3.5") true ∅].
Definition g11 : agraph := (run [(o_id, CAddPortEdge (lit "a") (lit "p:n") (lit "d") (lit "q") true ∅)] g12).1.
Lemma tidy12 : tidy (view g12).
Proof. apply tidyb_ok. vm_compute. reflexivity. Qed.
Lemma tidy11 : tidy (view g11).
Proof. apply tidyb_ok. vm_compute. reflexivity. Qed.
Example C35_example : reachable g11 /\ tidy (view g11) /\ size (g_subs g11) = 3 /\ size (s_nodes (view g11)) = 5 /\ length (edges_list (g_edges g11)) = 4.
Proof.
  split; [apply run_reachable; [constructor; [apply PropsGraph.fair_id|constructor]|apply PropsWrite.build_reachable]|]. split; [apply tidy11|]. vm_compute. repeat split.
Qed.
Example C36_example : reachable g12 /\ tidy (view g12) /\ no_ports (view g12) /\ sorts (edge_less o_id) srt0 /\
  match graph_string srt0 o_id g12 4 with Ok txt => match read rnd0 os_id ord_id 7 txt with Ok (g', k') => graph_string srt0 o_id g' 4 = Ok txt /\ k' = 7 | _ => False end | _ => False end.
Proof.
  split; [apply PropsWrite.build_reachable|]. split; [apply tidy12|]. split; [|split; [apply PropsWrite.sorts0|vm_compute; split; reflexivity]].
  assert (H : forall e, e ∈ s_edges (view g12) -> e_src_port e = [] /\ e_dst_port e = []).
  { apply Forall_forall. vm_compute. repeat constructor. }
  intros n port (e & He & [(_ & ->)|(_ & ->)]); apply (H e He).
Qed.

(** ** The side conditions are needed *)
(** A cluster that ends an edge comes back as an edge to a new node. *)
Theorem C35_cluster_refuted : exists g, reachable g /\ is_node g (lit "cluster0") = false /\
  match graph_string srt0 o_id g 9 with
  | Ok txt => match read rnd0 os_id ord_id 0 txt with Ok (g', _) => is_node g' (lit "cluster0") = true | _ => False end
  | _ => False end.
Proof.
  exists (build [CSetName (lit "G"); CAddSubGraph (lit "G") (lit "cluster0") ∅; CAddNode (lit "G") (lit "a") ∅; CAddEdge (lit "a") (lit "cluster0") false ∅]).
  split; [apply PropsWrite.build_reachable|]. vm_compute. split; reflexivity.
Qed.
Print Assumptions C35_cluster_refuted.
(** A subgraph in no other subgraph and at no edge is lost, and with it its attributes. *)
Theorem C35_unwritten_refuted : exists g, reachable g /\ is_subgraph g (lit "S") = true /\
  match graph_string srt0 o_id g 9 with
  | Ok txt => match read rnd0 os_id ord_id 0 txt with Ok (g', _) => is_subgraph g' (lit "S") = false | _ => False end
  | _ => False end.
Proof.
  exists (build [CSetName (lit "G"); CAddSubGraph (lit "nowhere") (lit "S") ∅]).
  split; [apply PropsWrite.build_reachable|]. vm_compute. split; reflexivity.
Qed.
Print Assumptions C35_unwritten_refuted.
(** The text of an edge makes both its endpoints direct members of the main graph, even of nodes that are only in a subgraph. *)
Theorem C35_top_nodes_refuted : exists g, reachable g /\ tidy (view g) /\ ~ is_child (view g) (g_name g) (lit "a") /\
  match graph_string srt0 o_id g 9 with
  | Ok txt => match read rnd0 os_id ord_id 0 txt with Ok (g', _) => bool_decide (lit "a" ∈ children (g_rels g') (g_name g')) = true | _ => False end
  | _ => False end.
Proof.
  exists (build [CSetName (lit "G"); CAddSubGraph (lit "G") (lit "S") ∅; CAddNode (lit "S") (lit "a") ∅; CAddEdge (lit "a") (lit "a") false ∅]).
  split; [apply PropsWrite.build_reachable|]. split; [apply tidyb_ok; vm_compute; reflexivity|]. split.
  - rewrite view_child. apply (bool_decide_unpack _). vm_compute. exact I.
  - vm_compute. reflexivity.
Qed.
Print Assumptions C35_top_nodes_refuted.
(** With ports the text changes: see C37. *)
Theorem C36_ports_refuted : exists g, reachable g /\ tidy (view g) /\
  match graph_string srt0 o_id g 9 with
  | Ok txt => match read rnd0 os_id ord_id 0 txt with Ok (g', _) => graph_string srt0 o_id g' 9 <> Ok txt | _ => False end
  | _ => False end.
Proof.
  exists (build [CSetName (lit "G"); CAddNode (lit "G") (lit "a") ∅; CAddPortEdge (lit "a") (lit "p") (lit "a") [] false ∅]).
  split; [apply PropsWrite.build_reachable|]. split; [apply tidyb_ok; vm_compute; reflexivity|]. vm_compute. discriminate.
Qed.
Print Assumptions C36_ports_refuted.
