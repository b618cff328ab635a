(** Property C81: what the text of a graph says when clusters end edges. *)
From stdpp Require Import sorting.
From Verif Require Import Base Parser Maps Graph AttrMap SpecGraph MapFacts GraphProofs.
From Verif Require Import Write SpecWrite EdgeOrder WriteProofs WriteFacts WriteFacts2 SpecRound RoundCalls RoundCalls2 RoundProofs RoundWrite RoundFinal TidyCheck Prune.
From Verif Require Import Analyse SpecAnalyse AnalyseProofs ReadProofs ReadFacts NormCalls SpecAst LexPrint AstProofs AstFacts.
From Verif Require Import SpecCluster ClusterText PropsText Direct SpecDirect DirectProofs.
From Verif Require Ast PropsGraph PropsWrite PropsAnalyse PropsReread PropsRound.
Notation srt0 := PropsWrite.srt0.
Notation build := PropsWrite.build.
Notation o_id := PropsGraph.o_id.
Notation A := PropsGraph.A.

(** Every legible graph in which no subgraph of the main graph has the name of a node, and none the name of the graph: the text
    can be read and says exactly this of the graph. *)
Theorem C81_shown : forall srt o g fuel a, fair o -> sorts (edge_less o) srt -> proper g -> legible (view g) ->
  no_clash (view g) -> ~ s_is_sub (view g) (s_name (view g)) -> write_ast srt o g fuel = Ok a ->
  exists txt, graph_string srt o g fuel = Ok txt /\
  forall rnd os ord k, (forall i, fair (os i)) -> fair_order ord ->
  exists g', read rnd os ord k txt = Ok (g', k) /\ reachable g' /\ shown_graph (view g) (view g').
Proof.
  intros srt o g fuel a Fo So R L NC Rt H. destruct (string_written _ _ _ _ _ Fo R H) as (Wr & HS). eexists. split; [exact HS|]. intros rnd os ord k Fos Ford.
  destruct (shown_core (view g) fuel (srt (s_edges (view g))) a L (reachable_valid g R) NC Rt (proj1 (So _)) Wr) as [Wf K].
  destruct (K os ord Fos Ford) as (g' & E & R' & SG & _). exists g'.
  split; [unfold read; rewrite <- dp_graph_str, (ast_roundtrip rnd k _ Wf), E; reflexivity|]. split; [exact R'|exact SG].
Qed.
Print Assumptions C81_shown.

(** If the clusters that end edges stand in the main graph only, the text of what is read is the same text. *)
Theorem C81_stable : forall srt srt' o o' g fuel a txt rnd os ord k g' k', fair o -> fair o' -> sorts (edge_less o) srt -> sorts (edge_less o') srt' ->
  (forall i, fair (os i)) -> fair_order ord -> proper g -> legible (view g) ->
  no_clash (view g) -> ~ s_is_sub (view g) (s_name (view g)) -> outer_clusters (view g) -> no_ports (view g) ->
  write_ast srt o g fuel = Ok a -> graph_string srt o g fuel = Ok txt -> read rnd os ord k txt = Ok (g', k') -> graph_string srt' o' g' fuel = Ok txt.
Proof.
  intros srt srt' o o' g fuel a txt rnd os ord k g' k' Fo Fo' S S' Fos Ford R L NC Rt OC NP H E1 E2. destruct (string_written _ _ _ _ _ Fo R H) as (Wr & HS).
  assert (txt = Ast.graph_str a) as -> by congruence. clear E1 HS.
  destruct (shown_core (view g) fuel (srt (s_edges (view g))) a L (reachable_valid g R) NC Rt (proj1 (S _)) Wr) as [Wf K].
  destruct (K os ord Fos Ford) as (g2 & E & R' & SG & W2). unfold read in E2. rewrite <- dp_graph_str, (ast_roundtrip rnd k _ Wf), E in E2. injection E2 as -> <-.
  destruct (sh_edges _ _ SG) as (es & P & F2). apply printed_all_none in F2; [|apply no_ports_edges; exact NP]. subst es.
  rewrite <- dp_graph_str. unfold graph_string. rewrite (write_canon o' g' Fo' (reachable_ok g' R')).
  rewrite <- (sorts_unique o o' srt srt' (s_edges (view g)) (s_edges (view g')) Fo Fo' S S').
  - specialize (W2 OC). rewrite (clip_none (view g) NP (srt (s_edges (view g))) (proj1 (S (s_edges (view g))))) in W2. rewrite W2. reflexivity.
  - symmetry. exact P.
  - apply full_edges. exact L.
Qed.
Print Assumptions C81_stable.

(** Without clusters at edges and names used twice this is C35. *)
Theorem C81_plain : forall s s', plain_graph s -> shown_graph s s' -> text_graph s s'.
Proof.
  intros s s' [Ap Rt Cl] [S1 S2 S3 S4 S5 S6 S7 S8 S9 S10 S11].
  assert (NX : forall n, ~ cluster_end s n) by (intros n (X & _ & port & E); exact (Cl n port E X)). split; try assumption.
  - apply map_eq. intros n. destruct (s_nodes s !! n) as [b|] eqn:E; [apply S5; auto|]. destruct (s_nodes s' !! n) as [b|] eqn:E'; [|reflexivity].
    apply S5 in E'. destruct E' as [E'|[E' _]]; [congruence|destruct (NX n E')].
  - intros n S. apply (S11 n S). intros N. exact (Ap n N S).
Qed.
Print Assumptions C81_plain.

(** ** Examples *)
Notation rnd0 := PropsAnalyse.rnd0.
Notation os_id := PropsAnalyse.os_id.
Notation ord_id := PropsAnalyse.ord_id.
Lemma no_clashb (s : sgraph) : forallb (fun n => negb (nodeb s n)) (subs s) = true -> no_clash s.
Proof. intros K n K1 K2 _. apply in_subs in K1. apply (forallb_elem _ _ _ K) in K1. apply negb_true_iff, bool_decide_eq_false in K1. contradiction. Qed.
Lemma writes_ok (g : agraph) : match write_ast srt0 o_id g 9 with Ok _ => true | _ => false end = true -> exists a, write_ast srt0 o_id g 9 = Ok a.
Proof. destruct (write_ast srt0 o_id g 9); try discriminate; eauto. Qed.
(** g14 (PropsText.v): an edge ends at the cluster cluster0; there are ports, nested and unwritten subgraphs, too. *)
Example C81_shown_example : reachable g14 /\ legible (view g14) /\ no_clash (view g14) /\ ~ s_is_sub (view g14) (s_name (view g14)) /\
  (exists a, write_ast srt0 o_id g14 9 = Ok a) /\ cluster_end (view g14) (lit "cluster0").
Proof.
  split; [apply reach14|]. split; [apply legibleb_ok; vm_compute; reflexivity|]. split; [apply no_clashb; vm_compute; reflexivity|].
  split; [assert (K : subb (view g14) (s_name (view g14)) = false) by (vm_compute; reflexivity); apply bool_decide_eq_false in K; exact K|].
  split; [apply writes_ok; vm_compute; reflexivity|]. split; [|split].
  - split; [assert (K : subb (view g14) (lit "cluster0") = true) by (vm_compute; reflexivity); apply bool_decide_eq_true in K; exact K|exists (lit "0"); reflexivity].
  - assert (K : nodeb (view g14) (lit "cluster0") = false) by (vm_compute; reflexivity). apply bool_decide_eq_false in K. exact K.
  - assert (K : existsb (fun e => bool_decide (e_dst e = lit "cluster0")) (s_edges (view g14)) = true) by (vm_compute; reflexivity).
    apply existsb_exists in K. destruct K as (e & K1 & K2). apply bool_decide_eq_true in K2. exists (e_dst_port e), e. split; [apply elem_of_list_In; exact K1|]. right. auto.
Qed.
Definition outerb (s : sgraph) : bool := forallb (fun n => negb (has_prefix n (lit "cluster")) ||
  (bool_decide (n ∈ kids s (s_name s)) && forallb (fun p => negb (bool_decide (n ∈ kids s p))) (subs s))) (subs s).
Lemma outerb_ok (s : sgraph) : no_clash s -> outerb s = true -> outer_clusters s.
Proof.
  intros NC H n ((S & C) & N & _). apply in_subs in S. apply (forallb_elem _ _ _ H) in S. apply orb_true_iff in S.
  destruct S as [S|S]; [apply negb_true_iff in S; apply prefix_spec in C; congruence|]. apply andb_true_iff in S. destruct S as [S1 S2]. apply bool_decide_eq_true, elem_of_kids in S1.
  split; [exact S1|]. intros p W K. assert (Sp : s_is_sub s p) by (destruct W as (r & St & R); eapply rtc_sub; [|exact R]; destruct St; assumption).
  apply in_subs in Sp. apply (forallb_elem _ _ _ S2) in Sp. apply negb_true_iff, bool_decide_eq_false in Sp. apply Sp, elem_of_kids. exact K.
Qed.
(** cluster0 ends two edges. *)
Definition gc : agraph := build [CSetName (lit "G"); CSetDir true; CAddNode (lit "G") (lit "a") ∅; CAddSubGraph (lit "G") (lit "cluster0") (A [(lit "label", lit "L")]);
  CAddNode (lit "cluster0") (lit "b") ∅; CAddSubGraph (lit "cluster0") (lit "S") ∅; CAddNode (lit "S") (lit "c") ∅;
  CAddEdge (lit "a") (lit "cluster0") true ∅; CAddEdge (lit "cluster0") (lit "c") true (A [(lit "color", lit "red")])].
Example C81_stable_example : reachable gc /\ legible (view gc) /\ no_clash (view gc) /\ ~ s_is_sub (view gc) (s_name (view gc)) /\ outer_clusters (view gc) /\
  no_ports (view gc) /\ (exists a, write_ast srt0 o_id gc 9 = Ok a) /\ endpoint (view gc) (lit "cluster0") [] /\ is_subgraph gc (lit "cluster0") = true.
Proof.
  assert (NC : no_clash (view gc)) by (apply no_clashb; vm_compute; reflexivity).
  split; [apply PropsWrite.build_reachable|]. split; [apply legibleb_ok; vm_compute; reflexivity|]. split; [exact NC|].
  split; [assert (K : subb (view gc) (s_name (view gc)) = false) by (vm_compute; reflexivity); apply bool_decide_eq_false in K; exact K|].
  split; [apply outerb_ok; [exact NC|vm_compute; reflexivity]|]. split; [apply PropsReread.no_portsb_ok; vm_compute; reflexivity|].
  split; [apply writes_ok; vm_compute; reflexivity|]. split; [|vm_compute; reflexivity].
  assert (K : existsb (fun e => bool_decide (e_dst e = lit "cluster0" /\ e_dst_port e = [])) (s_edges (view gc)) = true) by (vm_compute; reflexivity).
  apply existsb_exists in K. destruct K as (e & K1 & K2). apply bool_decide_eq_true in K2. destruct K2 as [K2 K3]. exists e. split; [apply elem_of_list_In; exact K1|]. right. auto.
Qed.

(** A cluster inside another subgraph is lost when the text is read and written again: it comes back as a node, too, and is
    then written as one.  A cluster that is not written at all becomes a node. *)
Definition gn : agraph := build [CSetName (lit "G"); CSetDir true; CAddNode (lit "G") (lit "a") ∅; CAddSubGraph (lit "G") (lit "S") ∅;
  CAddSubGraph (lit "S") (lit "cluster0") ∅; CAddNode (lit "cluster0") (lit "x") ∅; CAddEdge (lit "a") (lit "cluster0") true ∅].
Definition gu : agraph := build [CSetName (lit "G"); CSetDir true; CAddNode (lit "G") (lit "a") ∅; 
  CAddSubGraph (lit "elsewhere") (lit "cluster0") ∅; CAddEdge (lit "a") (lit "cluster0") true ∅].
Definition twice (P : agraph -> gostr -> agraph -> gostr -> agraph -> Prop) (g : agraph) : Prop :=
  exists t1 g1 t2 g2, graph_string srt0 o_id g 9 = Ok t1 /\ read rnd0 os_id ord_id 0 t1 = Ok (g1, 0) /\ graph_string srt0 o_id g1 9 = Ok t2 /\
    read rnd0 os_id ord_id 0 t2 = Ok (g2, 0) /\ P g t1 g1 t2 g2.
Definition twiceb (P : agraph -> gostr -> agraph -> gostr -> agraph -> bool) (g : agraph) : bool :=
  match graph_string srt0 o_id g 9 with
  | Ok t1 => match read rnd0 os_id ord_id 0 t1 with
    | Ok (g1, 0) => match graph_string srt0 o_id g1 9 with
      | Ok t2 => match read rnd0 os_id ord_id 0 t2 with Ok (g2, 0) => P g t1 g1 t2 g2 | _ => false end
      | _ => false end
    | _ => false end
  | _ => false end.
Lemma twiceb_ok P g : twiceb P g = true -> twice (fun g t1 g1 t2 g2 => P g t1 g1 t2 g2 = true) g.
Proof.
  unfold twiceb, twice. destruct (graph_string srt0 o_id g 9) as [t1|e| |] eqn:E1; try discriminate.
  destruct (read rnd0 os_id ord_id 0 t1) as [[g1 k1]|e| |] eqn:E2; try discriminate. destruct k1; try discriminate.
  destruct (graph_string srt0 o_id g1 9) as [t2|e| |] eqn:E3; try discriminate.
  destruct (read rnd0 os_id ord_id 0 t2) as [[g2 k2]|e| |] eqn:E4; try discriminate. destruct k2; try discriminate. intros H. exists t1, g1, t2, g2. auto.
Qed.
Lemma nested_lost : twiceb (fun g t1 g1 t2 g2 => negb (bool_decide (t1 = t2)) && is_subgraph g1 (lit "cluster0") && is_node g1 (lit "cluster0") && negb (is_subgraph g2 (lit "cluster0"))) gn = true.
Proof. vm_compute. reflexivity. Qed.
Lemma unwritten_node : twiceb (fun g t1 g1 t2 g2 => negb (bool_decide (t1 = t2)) && negb (is_subgraph g1 (lit "cluster0")) && is_node g1 (lit "cluster0")) gu = true.
Proof. vm_compute. reflexivity. Qed.
Definition ready (g : agraph) : Prop := reachable g /\ legible (view g) /\ no_clash (view g) /\ ~ s_is_sub (view g) (s_name (view g)) /\ no_ports (view g) /\ is_subgraph g (lit "cluster0") = true.
Definition readyb (g : agraph) : bool := legibleb (view g) && forallb (fun n => negb (nodeb (view g) n)) (subs (view g)) && negb (subb (view g) (s_name (view g))) && PropsReread.no_portsb (view g) && is_subgraph g (lit "cluster0").
Lemma readyb_ok g : reachable g -> readyb g = true -> ready g.
Proof.
  intros R H. unfold readyb in H. rewrite !andb_true_iff in H. destruct H as [[[[H1 H2] H3] H4] H5]. split; [exact R|]. split; [apply legibleb_ok; exact H1|].
  split; [apply no_clashb; exact H2|]. split; [apply negb_true_iff, bool_decide_eq_false in H3; exact H3|]. split; [apply PropsReread.no_portsb_ok; exact H4|exact H5].
Qed.
Theorem C81_inner_refuted :
  (exists g, ready g /\ twice (fun _ t1 g1 t2 g2 => t1 <> t2 /\ is_subgraph g1 (lit "cluster0") = true /\ is_node g1 (lit "cluster0") = true /\ is_subgraph g2 (lit "cluster0") = false) g) /\
  (exists g, ready g /\ twice (fun _ t1 g1 t2 g2 => t1 <> t2 /\ is_subgraph g1 (lit "cluster0") = false /\ is_node g1 (lit "cluster0") = true) g).
Proof.
  split.
  - exists gn. split; [apply readyb_ok; [apply PropsWrite.build_reachable|vm_compute; reflexivity]|]. destruct (twiceb_ok _ _ nested_lost) as (t1 & g1 & t2 & g2 & E1 & E2 & E3 & E4 & H).
    rewrite !andb_true_iff, !negb_true_iff, bool_decide_eq_false in H. exists t1, g1, t2, g2. tauto.
  - exists gu. split; [apply readyb_ok; [apply PropsWrite.build_reachable|vm_compute; reflexivity]|]. destruct (twiceb_ok _ _ unwritten_node) as (t1 & g1 & t2 & g2 & E1 & E2 & E3 & E4 & H).
    rewrite !andb_true_iff, !negb_true_iff, bool_decide_eq_false in H. exists t1, g1, t2, g2. tauto.
Qed.
Print Assumptions C81_inner_refuted.
