(** Properties C33 and C34 for graphs from Read, C37, C46 and C47. *)
From stdpp Require Import sorting.
From Verif Require Import Base Parser Maps Graph AttrMap SpecGraph MapFacts GraphProofs.
From Verif Require Import Write SpecWrite EdgeOrder WriteProofs WriteFacts WriteFacts2 SpecRound RoundCalls RoundCalls2 RoundProofs RoundWrite RoundFinal TidyCheck.
From Verif Require Import Analyse SpecAnalyse AnalyseProofs ReadProofs ReadFacts NormCalls SpecAst LexPrint AstProofs AstFacts.
From Verif Require Ast PropsGraph PropsWrite PropsAnalyse PropsRound.
From Verif Require Import Direct SpecDirect DirectProofs.
Notation o_id := PropsGraph.o_id.
Notation A := PropsGraph.A.
Notation srt0 := PropsWrite.srt0.
Notation build := PropsWrite.build.
Notation rnd0 := PropsAnalyse.rnd0.
Notation os_id := PropsAnalyse.os_id.
Notation ord_id := PropsAnalyse.ord_id.

(** ** C37 Ports *)
Lemma q_node g n : is_node g n = true <-> s_is_node (view g) n.
Proof. apply PropsGraph.C23_queries. Qed.
Lemma q_sub g n : is_subgraph g n = true <-> s_is_sub (view g) n.
Proof. apply PropsGraph.C23_queries. Qed.
Lemma make_split n q : q <> [] -> Ast.make_node_id n q =
  match split_on colon q with a :: b :: _ => Ast.NodeID n (Ast.Port a b) | [a] => Ast.NodeID n (Ast.Port a []) | [] => Ast.NodeID n (Ast.Port [] []) end.
Proof. destruct q; [congruence|reflexivity]. Qed.
(** What is printed for a node with a port, for every port string. *)
Theorem C37_printed : forall n p, exists t, prints_port p t /\ Ast.node_id_str (Ast.make_node_id n p) = n ++ t.
Proof.
  intros n p. destruct p as [|c p]; [exists []; split; [constructor|reflexivity]|].
  assert (SP : forall q : gostr, colon ∈ q -> exists a b, q = a ++ [colon] ++ b /\ colon ∉ a).
  { intros q H. induction q as [|x q IH]; [inversion H|]. destruct (decide (x = colon)) as [->|D]; [exists [], q; split; [reflexivity|apply not_elem_of_nil]|].
    destruct IH as (a & b & -> & N); [apply elem_of_cons in H; destruct H as [H|H]; [congruence|exact H]|]. exists (x :: a), b. split; [reflexivity|]. intros K. apply elem_of_cons in K. destruct K as [K|K]; [congruence|contradiction]. }
  remember (c :: p) as q eqn:Eq. assert (Hq : q <> []) by (subst; discriminate). rewrite (make_split n q Hq).
  clear c p Eq. destruct (decide (colon ∈ q)) as [K|K].
  - destruct (SP q K) as (a & b & -> & Na). rewrite split_colon by exact Na. unfold Ast.node_id_str, Ast.port_str.
    destruct (decide (a = [])) as [->|Ha]; [exists []; split; [apply Pp_lost|]; destruct (split_on colon b); reflexivity|].
    destruct (decide (colon ∈ b)) as [Kb|Kb].
    + destruct (SP b Kb) as (b1 & b2 & -> & Nb). rewrite split_colon by exact Nb. cbn [Ast.nid_id Ast.nid_port Ast.port_id1 Ast.port_id2].
      destruct b1 as [|x b1].
      * exists (colon :: a). split; [apply (Pp_p__ a b2 Ha Na)|]. destruct a; [contradiction|]. rewrite app_nil_r. reflexivity.
      * exists (colon :: a ++ colon :: x :: b1). split; [apply (Pp_pcx a (x :: b1) b2 Ha Na); [discriminate|exact Nb]|]. destruct a; [contradiction|]. reflexivity.
    + rewrite split_no_colon by exact Kb. cbn [Ast.nid_id Ast.nid_port Ast.port_id1 Ast.port_id2]. destruct b as [|x b].
      * exists (colon :: a). split; [apply (Pp_p_ a Ha Na)|]. destruct a; [contradiction|]. rewrite app_nil_r. reflexivity.
      * exists (colon :: a ++ colon :: x :: b). split; [apply (Pp_pc a (x :: b) Ha Na); [discriminate|exact Kb]|]. destruct a; [contradiction|]. reflexivity.
  - rewrite split_no_colon by exact K. exists (colon :: q). split; [apply Pp_p; assumption|]. unfold Ast.node_id_str, Ast.port_str. cbn [Ast.nid_id Ast.nid_port Ast.port_id1 Ast.port_id2].
    destruct q; [contradiction|]. rewrite app_nil_r. reflexivity.
Qed.
Print Assumptions C37_printed.
(** [prints_port] allows only one text. *)
Theorem C37_printed_unique : forall p t t', prints_port p t -> prints_port p t' -> t = t'.
Proof.
  assert (G : forall p t, prints_port p t -> Ast.port_str (Ast.nid_port (Ast.make_node_id [] p)) = t).
  { intros p t H. destruct H as [|p H1 H2|p c H1 H2 H3 H4|p c x H1 H2 H3 H4|p H1 H2|p x H1 H2|x]; [reflexivity|..];
      (rewrite make_split; [|first [exact H1|destruct p; discriminate|discriminate]]).
    - rewrite split_no_colon by exact H2. unfold Ast.port_str. cbn. destruct p; [contradiction|]. rewrite app_nil_r. reflexivity.
    - change (colon :: c) with ([colon] ++ c). rewrite split_colon, split_no_colon by assumption. unfold Ast.port_str. cbn. destruct p; [contradiction|]. destruct c; [contradiction|]. reflexivity.
    - change (colon :: c ++ colon :: x) with ([colon] ++ c ++ [colon] ++ x). rewrite !split_colon by assumption. unfold Ast.port_str. cbn. destruct p; [contradiction|]. destruct c; [contradiction|]. reflexivity.
    - change [colon] with ([colon] ++ ([] : gostr)). rewrite split_colon by assumption. unfold Ast.port_str. cbn. destruct p; [contradiction|]. rewrite app_nil_r. reflexivity.
    - change (colon :: colon :: x) with ([colon] ++ ([] : gostr) ++ [colon] ++ x). rewrite !split_colon by (assumption || apply not_elem_of_nil). unfold Ast.port_str. cbn. destruct p; [contradiction|]. rewrite app_nil_r. reflexivity.
    - change (colon :: x) with (([] : gostr) ++ [colon] ++ x). rewrite split_colon by apply not_elem_of_nil. destruct (split_on colon x); reflexivity. }
  intros p t t' H1 H2. rewrite <- (G p t H1). apply G. exact H2.
Qed.
Print Assumptions C37_printed_unique.
Example C37_printed_example : prints_port (lit "p:n") (lit ":p:n") /\ prints_port (lit ":p") [].
Proof. split; [apply (Pp_pc (lit "p") (lit "n")); try discriminate; apply (bool_decide_unpack _); vm_compute; exact I|apply Pp_lost]. Qed.

(** Every edge of a graph is written, with its endpoints printed that way when they are nodes. *)
Theorem C37_edge_text : forall srt o g fuel a e, fair o -> sorts (edge_less o) srt -> built g -> write_ast srt o g fuel = Ok a ->
  e ∈ edges_list (g_edges g) -> exists src op dst l, Ast.SEdge src [Ast.EdgeRH op dst] l ∈ Ast.g_stmts a /\ op = e_dir e /\
    (is_node g (e_src e) = true -> exists t, prints_port (e_src_port e) t /\ Ast.location_str src = e_src e ++ t) /\
    (is_node g (e_dst e) = true -> exists t, prints_port (e_dst_port e) t /\ Ast.location_str dst = e_dst e ++ t).
Proof.
  intros srt o g fuel a e Fo S R W He. destruct (PropsWrite.C32_shape srt o g fuel a Fo S R W) as (al & es & el & tops & ts & ns & nl & -> & _ & P & _ & F & _).
  change (e ∈ s_edges (view g)) in He. rewrite <- P in He. destruct (elem_of_list_lookup_1 _ _ He) as [i Hi]. destruct (Forall2_lookup_l _ _ _ _ _ F Hi) as (st & Hst & X).
  destruct X as [src dst l X1 X2 _]. exists src, (e_dir e), dst, [l]. split; [cbn; rewrite !elem_of_app; right; left; eapply elem_of_list_lookup_2; exact Hst|].
  split; [reflexivity|]. split; intros N; apply PropsGraph.C23_queries in N.
  - destruct X1 as [_|N'|t N']; [|contradiction|contradiction]. apply C37_printed.
  - destruct X2 as [_|N'|t N']; [|contradiction|contradiction]. apply C37_printed.
Qed.
Print Assumptions C37_edge_text.

(** Ports read from DOT text begin with a colon, and sit on nodes. *)
Theorem C37_read_ports : forall rnd os ord k src g k' n port, (forall i, fair (os i)) -> fair_order ord ->
  read rnd os ord k src = Ok (g, k') -> endpoint (view g) n port -> port = [] \/ ((exists x, port = colon :: x) /\ is_node g n = true).
Proof.
  intros rnd os ord k src g k' n port Fo Ford H (e & He & X).
  destruct (PropsAnalyse.C26_read_content _ _ _ _ _ _ _ Fo Ford H) as (a & cs & E & (l & HB & ->) & _ & _ & _ & HN & _ & HE & _).
  rewrite HE, edges_result_app in He. cbn [edges_result flat_map call_edges app] in He.
  destruct (body_ports _ _ _ _ _ HB e n port He X) as [K|(K & p & m & K')]; [left; exact K|right]. split; [exact K|].
  apply PropsGraph.C23_queries. unfold s_is_node. rewrite HN.
  assert (HI : CAddNode p n m ∈ [CSetStrict (Ast.g_strict a); CSetDir (Ast.g_type a); CSetName (Ast.g_id a)] ++ l) by (apply elem_of_app; right; exact K').
  apply elem_of_list_split in HI. destruct HI as (c1 & c2 & ->). unfold node_result. rewrite fold_left_app. cbn [fold_left]. rewrite decide_True by reflexivity.
  match goal with |- is_Some (fold_left _ _ (Some ?y)) => generalize y end.
  clear. induction c2 as [|c c2 IH]; intros x; cbn [fold_left]; [eauto|]. destruct c; try apply IH. destruct (decide _); apply IH.
Qed.
Print Assumptions C37_read_ports.
(** So String() prints no edge of such a graph with a port. *)
Theorem C37_read_ports_lost : forall rnd os ord k src g k' srt o fuel a s op d l, (forall i, fair (os i)) -> fair_order ord -> fair o -> sorts (edge_less o) srt ->
  read rnd os ord k src = Ok (g, k') -> write_ast srt o g fuel = Ok a -> Ast.SEdge s [Ast.EdgeRH op d] l ∈ Ast.g_stmts a ->
  forall n, Ast.LNode n = s \/ Ast.LNode n = d -> Ast.location_str (Ast.LNode n) = Ast.nid_id n.
Proof.
  intros rnd os ord k src g k' srt o fuel a s op d l Fos Ford Fo S H W I n Hn.
  assert (R : reachable g). { unfold read in H. destruct (parse_bytes rnd k src) as [[a0 k1]|e| |]; try discriminate. destruct (analysed_graph os ord a0 Fos Ford) as (l0 & _ & HA). destruct (new_analysed_graph os ord a0); [|discriminate]. injection H as -> ->. apply HA. }
  destruct (PropsWrite.C32_shape srt o g fuel a Fo S R W) as (al & es & el & tops & ts & ns & nl & -> & _ & P & _ & F & _ & _ & _ & _ & _ & FN).
  assert (IE : Ast.SEdge s [Ast.EdgeRH op d] l ∈ el).
  { cbn in I. rewrite !elem_of_app in I. destruct I as [I|[I|[I|I]]]; [|exact I| |].
    - apply elem_of_list_fmap in I. destruct I as (? & ? & _). discriminate.
    - apply elem_of_list_fmap in I. destruct I as (? & ? & _). discriminate.
    - destruct (elem_of_list_lookup_1 _ _ I) as [i Hi]. destruct (Forall2_lookup_r _ _ _ _ _ FN Hi) as (m & _ & X). inversion X. }
  destruct (elem_of_list_lookup_1 _ _ IE) as [i Hi]. destruct (Forall2_lookup_r _ _ _ _ _ F Hi) as (e & He & X). apply elem_of_list_lookup_2 in He. rewrite P in He.
  assert (G : forall m port, endpoint (view g) m port -> shows_end (view g) m port (Ast.LNode n) -> Ast.location_str (Ast.LNode n) = Ast.nid_id n).
  { intros m port Em Sh. change (Ast.node_id_str n = Ast.nid_id n).
    assert (D : n = Ast.make_node_id m port \/ n = Ast.NodeID m (Ast.Port [] [])) by (inversion Sh; auto).
    destruct D as [->| ->]; [|apply app_nil_r]. destruct (C37_read_ports _ _ _ _ _ _ _ m port Fos Ford H Em) as [->|((x & ->) & _)]; [apply app_nil_r|].
    rewrite make_split by discriminate. change (colon :: x) with (([] : gostr) ++ [colon] ++ x). rewrite split_colon by apply not_elem_of_nil.
    destruct (split_on colon x); apply app_nil_r. }
  inversion X as [s' d' l' X1 X2 _ E1]; subst. destruct Hn as [<-|<-]; [apply (G (e_src e) (e_src_port e)); [exists e; auto|exact X1]|apply (G (e_dst e) (e_dst_port e)); [exists e; auto|exact X2]].
Qed.
Print Assumptions C37_read_ports_lost.
(** The witness, on the text level: the port is gone after one Read and String. *)
Theorem C37_loss : exists src, match read rnd0 os_id ord_id 0 src with
  | Ok (g, _) => graph_string srt0 o_id g 9 = Ok (lit "digraph G {
	a->b;
	a;
	b;
}
") | _ => False end /\ src = lit "digraph G { a:p -> b:q:n }".
Proof. eexists. split; [|reflexivity]. vm_compute. reflexivity. Qed.
Print Assumptions C37_loss.

(** ** C33 for graphs from Read: writing them never fails *)
Lemma read_reachable rnd os ord k src g k' : (forall i, fair (os i)) -> fair_order ord -> read rnd os ord k src = Ok (g, k') -> reachable g.
Proof.
  intros Fo Ford H. unfold read in H. destruct (parse_bytes rnd k src) as [[a0 k1]|e| |]; try discriminate. destruct (analysed_graph os ord a0 Fo Ford) as (l0 & _ & HA).
  destruct (new_analysed_graph os ord a0); [|discriminate]. injection H as -> ->. apply HA.
Qed.
Lemma read_ends rnd os ord k src g k' : (forall i, fair (os i)) -> fair_order ord -> read rnd os ord k src = Ok (g, k') ->
  forall n port, endpoint (view g) n port -> s_is_node (view g) n \/ s_is_sub (view g) n.
Proof.
  intros Fo Ford H n port (e & He & X). destruct (PropsAnalyse.C29_endpoints _ _ _ _ _ _ _ Fo Ford H) as [C _].
  destruct (C e n He) as [K|K]; [tauto|left; apply q_node; exact K|right; apply q_sub; exact K].
Qed.
Lemma read_children rnd os ord k src g k' : (forall i, fair (os i)) -> fair_order ord -> read rnd os ord k src = Ok (g, k') ->
  forall p c, is_child (view g) p c -> s_is_node (view g) c \/ s_is_sub (view g) c.
Proof.
  intros Fo Ford H p c X. destruct (PropsAnalyse.C29_endpoints _ _ _ _ _ _ _ Fo Ford H) as [_ C].
  destruct (C p c X) as [[K|K] _]; [left; apply q_node; exact K|right; apply q_sub; exact K].
Qed.
Theorem C33_read : forall rnd os ord k src g k' srt o fuel e, (forall i, fair (os i)) -> fair_order ord -> fair o -> sorts (edge_less o) srt ->
  read rnd os ord k src = Ok (g, k') -> write_ast srt o g fuel <> Err e.
Proof.
  intros rnd os ord k src g k' srt o fuel e Fos Ford Fo S H W.
  pose proof (read_reachable _ _ _ _ _ _ _ Fos Ford H) as R. destruct (PropsWrite.C33_errors srt o g fuel e Fo S R W) as [_ [n port E B|p c _ C N1 N2]].
  - destruct B as [N1 N2|N1 N2 N3].
    + destruct (read_ends _ _ _ _ _ _ _ Fos Ford H n port E); contradiction.
    + destruct (C37_read_ports _ _ _ _ _ _ _ n port Fos Ford H E) as [K|(_ & K)]; [contradiction|]. apply N1. apply q_node. exact K.
  - destruct (read_children _ _ _ _ _ _ _ Fos Ford H p c C); contradiction.
Qed.
Print Assumptions C33_read.

(** ** C46 Reading again and again *)
(** A graph from Read that is clean (SpecRound.v) is tidy. *)
Lemma read_tidy rnd os ord k src g k' : (forall i, fair (os i)) -> fair_order ord -> read rnd os ord k src = Ok (g, k') -> clean_graph (view g) -> tidy (view g).
Proof.
  intros Fos Ford H C.
  destruct (PropsAnalyse.C26_read_content _ _ _ _ _ _ _ Fos Ford H) as (a & cs & E & GC & Hname & _ & _ & HN & _ & HE & HS & HA & HSA & _ & HR).
  pose proof (parsed_wf _ _ _ _ _ E) as W. pose proof (graph_calls_names _ _ _ W GC) as F.
  assert (SubId : forall n, s_is_sub (view g) n -> is_id n).
  { intros n K. apply q_sub in K. apply HS in K. destruct K as (c & K & p & m & ->). rewrite Forall_forall in F. apply F in K. apply K. }
  assert (NC : forall p c, opened_by cs p c -> nested (view g) p c).
  { intros p c (m & K). assert (S : s_is_sub (view g) c) by (apply q_sub, HS; eexists; split; [exact K|]; eexists _, _; reflexivity).
    split; [apply HR; eexists; split; [exact K|]; exists m; right; reflexivity|]. split; [exact S|]. intros N. exact (c_apart _ C c N S). }
  split.
  - destruct (s_name (view g)) as [|x nm] eqn:En; [left; reflexivity|right]. split; [|rewrite <- En; apply (c_name _ C)].
    destruct W as [W _]. change (g_name g = x :: nm) in En. rewrite Hname in En. rewrite En in W. apply W. discriminate.
  - intros n [K|K]; [split; apply (c_node_names _ C n K)|split; [apply SubId; exact K|apply (c_sub_names _ C n K)]].
  - intros m key v K L. split; [|eapply (c_values _ C); eassumption]. destruct K as [|n m K|n m K|e K].
    + change (s_attrs (view g)) with (g_attrs g) in L. rewrite HA in L. exact (attrs_result_in _ _ _ F key v L).
    + rewrite HN in K. destruct (node_result_in _ _ _ _ F K) as [_ V]. exact (V key v L).
    + assert (D : n <> g_name g). { intros ->. apply (c_root _ C). exists m. exact K. }
      pose proof (HSA n D) as X. rewrite K in X. cbn in X. subst m. exact (attrs_result_in _ _ _ F key v L).
    + rewrite HE in K. exact (edges_result_in _ _ _ F K key v L).
  - exact (c_apart _ C).
  - exact (c_root _ C).
  - intros n port K. pose proof (c_ports _ C n port K) as ->. destruct (read_ends _ _ _ _ _ _ _ Fos Ford H n [] K) as [N|N].
    + left. split; [exact N|left; reflexivity].
    + right. split; [exact N|]. split; [exact (c_clusters _ C n [] K)|reflexivity].
  - intros p c _. apply (read_children _ _ _ _ _ _ _ Fos Ford H).
  - exact (c_acyclic _ C).
  - intros n K. apply q_sub in K. apply HS in K. destruct K as (cl & K & p & m & ->).
    assert (T : tc (opened_by cs) (g_name g) n).
    { destruct GC as (l & HB & ->). rewrite Hname. pose proof (body_chained _ _ _ _ _ _ HB) as Ch.
      apply elem_of_app in K. destruct K as [K|K]; [repeat (apply elem_of_cons in K; destruct K as [K|K]; [discriminate|]); inversion K|].
      eapply tc_mono; [|exact (Ch p n m K)]. intros x y (m' & X). exists m'. apply elem_of_app. right. exact X. }
    clear K.
    assert (T' : exists c, opened_by cs (g_name g) c /\ rtc (opened_by cs) c n).
    { inversion T as [x y T1|x y z T1 T2]; subst; [exists n; split; [exact T1|apply rtc_refl]|exists y; split; [exact T1|apply tc_rtc; exact T2]]. }
    destruct T' as (c & T1 & T2). exists c. split.
    + destruct (NC _ _ T1) as (N1 & N2 & _). apply Starts_top; assumption.
    + clear -NC T2. induction T2 as [|x y z T _ IH]; [apply rtc_refl|]. eapply rtc_l; [apply NC; exact T|exact IH].
Qed.
(** The text is the same however often it is read and written. *)
Theorem C46_stable : forall rnd os ord k src g k' srt o fuel, (forall i, fair (os i)) -> fair_order ord -> fair o -> sorts (edge_less o) srt ->
  read rnd os ord k src = Ok (g, k') -> clean_graph (view g) -> size (g_subs g) < fuel ->
  exists txt, graph_string srt o g fuel = Ok txt /\
    forall rnd1 os1 ord1 k1, (forall i, fair (os1 i)) -> fair_order ord1 -> exists g1, read rnd1 os1 ord1 k1 txt = Ok (g1, k1) /\ same_graph (view g) (view g1) /\
      forall srt1 o1, fair o1 -> sorts (edge_less o1) srt1 -> graph_string srt1 o1 g1 fuel = Ok txt.
Proof.
  intros rnd os ord k src g k' srt o fuel Fos Ford Fo S H C L.
  pose proof (read_reachable _ _ _ _ _ _ _ Fos Ford H) as R. pose proof (read_tidy _ _ _ _ _ _ _ Fos Ford H C) as T.
  destruct (PropsRound.C35_round_trip srt o g Fo S R T) as (txt & E & K). destruct (E fuel L) as (E1 & _). exists txt. split; [exact E1|].
  intros rnd1 os1 ord1 k1 F1 O1. destruct (K rnd1 os1 ord1 k1 F1 O1) as (g1 & E2 & _ & SG). exists g1. split; [exact E2|]. split; [exact SG|].
  intros srt1 o1 Fo1 S1. eapply (PropsRound.C36_normal_form srt srt1 o o1 g fuel txt rnd1 os1 ord1 k1 g1 k1); try try eassumption; try exact (R : proper g). exact (c_ports _ C).
Qed.
Print Assumptions C46_stable.
Lemma tidy_clean s : tidy s -> no_ports s -> clean_graph s.
Proof.
  intros T N. split.
  - destruct (t_name s T) as [->|[_ E]]; [reflexivity|exact E].
  - intros n K. apply (t_names s T). auto.
  - intros n K. apply (t_names s T). auto.
  - intros m k v K L. eapply (t_values s T); eassumption.
  - exact (t_apart s T).
  - exact (t_root s T).
  - exact N.
  - intros n port K [C1 C2]. destruct (t_ends s T n port K) as [[K1 _]|(_ & K1 & _)]; [exact (t_apart s T n K1 C1)|]. apply K1. split; assumption.
  - exact (t_acyclic s T).
Qed.
Definition src2 : gostr := lit "strict digraph { rankdir=LR; node [color=red]; /* c */ a -> b -> { c; d } [label=x]
  subgraph S { rank=same; e [label=""x y""]; subgraph T { f -> a } }; e; cluster1 -- a; subgraph cluster0 { f } }".
Definition no_portsb (s : sgraph) : bool := forallb (fun e => bool_decide (e_src_port e = [] /\ e_dst_port e = [])) (s_edges s).
Lemma no_portsb_ok s : no_portsb s = true -> no_ports s.
Proof.
  intros H n port (e & He & X). unfold no_portsb in H. rewrite forallb_forall in H. apply elem_of_list_In in He. apply H, bool_decide_eq_true in He.
  destruct He as [He1 He2]. destruct X as [(_ & ->)|(_ & ->)]; assumption.
Qed.
Definition chk2 (g : agraph) : bool := tidyb (view g) && no_portsb (view g) && Nat.eqb (size (g_subs g)) 4 && Nat.eqb (length (edges_list (g_edges g))) 4.
Lemma read_chk (chk : agraph -> bool) rnd os ord k src : match read rnd os ord k src with Ok (g, _) => chk g | _ => false end = true ->
  exists g k', read rnd os ord k src = Ok (g, k') /\ chk g = true.
Proof. destruct (read rnd os ord k src) as [[g k']|e| |]; try discriminate. eauto. Qed.
Lemma read2 : match read rnd0 os_id ord_id 0 src2 with Ok (g, _) => chk2 g | _ => false end = true.
Proof. vm_compute. reflexivity. Qed.
Example C46_example : exists g k', read rnd0 os_id ord_id 0 src2 = Ok (g, k') /\ clean_graph (view g) /\ size (g_subs g) = 4 /\
  length (edges_list (g_edges g)) = 4.
Proof.
  pose proof (read_chk chk2 rnd0 os_id ord_id 0 src2 read2) as X. destruct X as (g & k' & H & T). exists g, k'. split; [exact H|].
  unfold chk2 in T. rewrite !andb_true_iff, !Nat.eqb_eq in T. destruct T as [[[T1 T2] S] E].
  split; [apply tidy_clean; [apply tidyb_ok; exact T1|apply no_portsb_ok; exact T2]|]. split; assumption.
Qed.
Example C33_read_example : exists g k', read rnd0 os_id ord_id 0 (lit "graph { a:p -- { b } -- cluster9; subgraph cluster9 { a } }") = Ok (g, k').
Proof. apply PropsAnalyse.read_ok. vm_compute. reflexivity. Qed.
Definition chk37 (g : agraph) : bool := existsb (fun e => bool_decide (e_dst e = lit "b" /\ e_dst_port e = lit ":q:n")) (s_edges (view g)).
Lemma read37 : match read rnd0 os_id ord_id 0 (lit "digraph G { a:p -> b:q:n }") with Ok (g, _) => chk37 g | _ => false end = true.
Proof. vm_compute. reflexivity. Qed.
Example C37_read_example : exists g k', read rnd0 os_id ord_id 0 (lit "digraph G { a:p -> b:q:n }") = Ok (g, k') /\ endpoint (view g) (lit "b") (lit ":q:n").
Proof.
  pose proof (read_chk chk37 rnd0 os_id ord_id 0 (lit "digraph G { a:p -> b:q:n }") read37) as X. destruct X as (g & k' & H & E). exists g, k'. split; [exact H|].
  unfold chk37 in E. apply existsb_exists in E. destruct E as (e & E1 & E2). apply bool_decide_eq_true in E2. destruct E2 as [E2 E3].
  exists e. split; [apply elem_of_list_In; exact E1|right; auto].
Qed.

(** ** C34 for graphs from Read *)
Theorem C34_read : forall rnd os ord k src g k' srt o, (forall i, fair (os i)) -> fair_order ord -> fair o -> sorts (edge_less o) srt ->
  read rnd os ord k src = Ok (g, k') -> no_clash (view g) ->
  ((exists fuel, graph_string srt o g fuel <> OutOfFuel) <-> acyclic (view g)) /\
  (acyclic (view g) -> forall fuel, size (g_subs g) < fuel -> exists a, write_ast srt o g fuel = Ok a /\ graph_string srt o g fuel = Ok (Ast.graph_str a)).
Proof.
  intros rnd os ord k src g k' srt o Fos Ford Fo S H NC. pose proof (read_reachable _ _ _ _ _ _ _ Fos Ford H) as R.
  assert (U : ~ unwritable (view g)).
  { intros [n port E B|p c _ C N1 N2].
    - destruct B as [N1 N2|N1 N2 N3].
      + destruct (read_ends _ _ _ _ _ _ _ Fos Ford H n port E); contradiction.
      + destruct (C37_read_ports _ _ _ _ _ _ _ n port Fos Ford H E) as [K|(_ & K)]; [contradiction|]. apply N1. apply q_node. exact K.
    - destruct (read_children _ _ _ _ _ _ _ Fos Ford H p c C); contradiction. }
  split; [apply PropsWrite.C34_iff; try assumption; exact (R : built g)|]. intros Ac fuel L. destruct (PropsWrite.C34_terminates srt o g Fo S R Ac fuel L) as [N _].
  destruct (PropsWrite.C33_iff srt o g fuel Fo S R NC N) as [_ [_ K]]. destruct (K U) as [a E]. exists a. split; [exact E|]. unfold graph_string. rewrite E. reflexivity.
Qed.
Print Assumptions C34_read.
(** digraph G { subgraph G { a } } is read, whatever the iteration orders, and then String() recurses without bound. *)
Definition src3 : gostr := lit "digraph G { subgraph G { a } }".
Theorem C34_read_diverges : forall rnd os ord k, (forall i, fair (os i)) -> fair_order ord ->
  exists g, read rnd os ord k src3 = Ok (g, k) /\ forall srt o fuel, fair o -> sorts (edge_less o) srt -> graph_string srt o g fuel = OutOfFuel.
Proof.
  intros rnd os ord k Fos Ford.
  assert (P : parse_bytes rnd k src3 = Ok (Ast.Graph true false (lit "G") [Ast.SSub (Ast.SubGraph (lit "G") [Ast.SNode (Ast.NodeID (lit "a") (Ast.Port [] [])) []])], k)) by (vm_compute; reflexivity).
  assert (X : exists g, read rnd os ord k src3 = Ok (g, k)).
  { unfold read. rewrite P. set (a := Ast.Graph _ _ _ _). destruct (analysed_graph os ord a Fos Ford) as (l & B & HA). destruct (new_analysed_graph os ord a) as [g|e]; [eauto|].
    destruct HA. inversion B as [|? ? ? ? ? ? l1 l2 B1 B2]; subst. inversion B2; subst. inversion B1 as [| | | | |? ? ? ? ? ? B3|]; subst. inversion B3 as [? ? ? ? ? ? l3 B4]; subst.
    inversion B4 as [|? ? ? ? ? ? l4 l5 B5 B6]; subst. inversion B6; subst. inversion B5; subst. rewrite !app_nil_r. cbn [app].
    constructor; [|constructor; [|constructor]]; intros key [v U]; exfalso; revert U.
    - cbn. rewrite lookup_empty. discriminate.
    - assert (Z : forall d : attrs, d = ∅ -> (given [] ∪ d) !! key = Some v -> False).
      { intros d -> U. apply lookup_union_Some_raw in U. destruct U as [U|[_ U]]; [vm_compute in U|rewrite lookup_empty in U]; discriminate. }
      apply Z. destruct (decide _); reflexivity. }
  destruct X as [g H]. exists g. split; [exact H|]. intros srt o fuel Fo S.
  destruct (PropsAnalyse.C26_read_content _ _ _ _ _ _ _ Fos Ford H) as (a & cs & E & GC & Hname & _ & _ & HN & _ & _ & HS & _ & _ & _ & HR).
  rewrite P in E. injection E as <-. destruct GC as (l & B & ->).
  inversion B as [|? ? ? ? ? ? l1 l2 B1 B2]; subst. inversion B2; subst. inversion B1 as [| | | | |? ? ? ? ? ? B3|]; subst. inversion B3 as [? ? ? ? ? ? l3 B4]; subst.
  inversion B4 as [|? ? ? ? ? ? l4 l5 B5 B6]; subst. inversion B6; subst. inversion B5; subst. clear B B1 B2 B3 B4 B5 B6. cbn [app] in *.
  set (m := given [] ∪ _) in *. clearbody m. change (node_text (Ast.NodeID (lit "a") (Ast.Port [] []))) with (lit "a") in *. cbn [Ast.g_id Ast.g_type Ast.g_strict] in *.
  assert (N : nested (view g) (lit "G") (lit "G")).
  { split; [apply HR; eexists; split; [right; right; right; left|]; eexists; right; reflexivity|]. split.
    - apply q_sub, HS. eexists. split; [right; right; right; left|]. eexists _, _. reflexivity.
    - unfold s_is_node. rewrite HN. vm_compute. intros [x Hx]. discriminate. }
  assert (NC : no_clash (view g)).
  { intros n K1 K2 _. unfold s_is_node in K2. rewrite HN in K2. apply q_sub, HS in K1. destruct K1 as (c & K1 & p & m' & ->).
    rewrite !elem_of_cons in K1. destruct K1 as [K1|[K1|[K1|[K1|[K1|K1]]]]]; [discriminate|discriminate|discriminate| |discriminate|destruct (not_elem_of_nil _ K1)].
    assert (En : n = lit "G") by congruence. clear K1. subst n. clear -K2.
    revert K2. vm_compute. intros [x Hx]. discriminate. }
  destruct (C34_read rnd os ord k src3 g k srt o Fos Ford Fo S H NC) as [Iff _].
  destruct (graph_string srt o g fuel) eqn:EQ; try reflexivity; exfalso;
    (assert (Ac : acyclic (view g)) by (apply Iff; exists fuel; congruence); apply (Ac (lit "G")); [|apply tc_once; exact N];
     exists (lit "G"); split; [|apply rtc_refl]; destruct N as (N1 & N2 & _); apply Starts_top; [|exact N2]; change (s_name (view g)) with (g_name g); rewrite Hname; exact N1).
Qed.
Print Assumptions C34_read_diverges.

(** ** C47 Printing an AST and reading the text gives the graph of the AST *)
Theorem C47_print_read : forall rnd os ord os' ord' k a, (forall i, fair (os i)) -> fair_order ord -> (forall i, fair (os' i)) -> fair_order ord' ->
  wf_graph good_id a ->
  match new_analysed_graph os ord a with
  | inl g => exists g', read rnd os' ord' k (Ast.graph_str a) = Ok (g', k) /\ view g' = view g
  | inr _ => exists e, read rnd os' ord' k (Ast.graph_str a) = Err (AnalyseFailed e)
  end.
Proof.
  intros rnd os ord os' ord' k a Fo Ford Fo' Ford' W. pose proof (norm_analysed os ord os' ord' a Fo Ford Fo' Ford') as N. unfold read. rewrite (ast_roundtrip rnd k a W).
  destruct (new_analysed_graph os ord a) as [g|e], (new_analysed_graph os' ord' (norm_graph a)) as [g'|e']; try contradiction; eauto.
Qed.
Print Assumptions C47_print_read.
(** An AST with an empty bracket list, a subgraph operand and a port. *)
Example C47_example : let i n := Ast.NodeID n (Ast.Port [] []) in
  let a := Ast.Graph true true [] [Ast.SNodeAttrs [[]]; Ast.SNode (i (lit "a")) [[Ast.Attr (lit "color") (lit "red")]];
    Ast.SEdge (Ast.LNode (Ast.NodeID (lit "b") (Ast.Port (lit "p") []))) [Ast.EdgeRH true (Ast.LSub (Ast.SubGraph (lit "S") [Ast.SNode (i (lit "c")) []]))] []] in
  wf_graph good_id a /\ (match new_analysed_graph os_id ord_id a with inl _ => true | _ => false end) = true.
Proof.
  intros i a. split; [|vm_compute; reflexivity].
  assert (G : forall x, goodb x = true -> good_id x) by exact goodb_ok.
  split; [intros K; destruct K; reflexivity|]. cbn.
  repeat first [exact I|discriminate|apply G; vm_compute; reflexivity|constructor|split].
Qed.
