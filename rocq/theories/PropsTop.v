(** Property C73: the top level of the written graph, the first error and the end of writing, for all graphs, also
    those in which a node and a subgraph share a name (C32-C34 exclude some of these). *)
From stdpp Require Import sorting.
From Verif Require Import Base Parser Maps Graph AttrMap SpecGraph MapFacts GraphProofs Direct SpecDirect DirectProofs Write SpecWrite EdgeOrder WriteProofs WriteFacts WriteFacts2 PropsWrite SpecTop TopProofs TopProofs2.
From Verif Require Ast PropsGraph.

(** The edges of a graph in the order of C31. *)
Definition in_edge_order (s : sgraph) (es : list edge) : Prop := es ≡ₚ s_edges s /\ StronglySorted (fun x y => ~ edge_before y x) es.

Lemma srt_order o srt s : fair o -> sorts (edge_less o) srt -> in_edge_order s (srt (s_edges s)).
Proof.
  intros Fo S. destruct (S (s_edges s)) as [P Sr]. split; [exact P|].
  eapply (StronglySorted_ind (fun l => StronglySorted (fun x y => ~ edge_before y x) l)); [constructor| |exact Sr]. intros x l _ IH F. constructor; [exact IH|].
  eapply Forall_impl; [exact F|]. intros y Hy. cbn in *. rewrite <- (edge_less_spec o) by exact Fo. congruence.
Qed.
Local Instance edge_dec : EqDecision edge.
Proof. solve_decision. Defined.
(** Two lists in this order differ only in indistinguishable edges. *)
Lemma order_same_key s es es' : in_edge_order s es -> in_edge_order s es' -> Forall2 same_key es es'.
Proof.
  intros [P1 S1] [P2 S2]. set (srt1 := fun l => if decide (l = s_edges s) then es else srt0 l). set (srt2 := fun l => if decide (l = s_edges s) then es' else srt0 l).
  assert (K : forall es0, es0 ≡ₚ s_edges s -> StronglySorted (fun x y => ~ edge_before y x) es0 -> sorts (edge_less o_id) (fun l => if decide (l = s_edges s) then es0 else srt0 l)).
  { intros es0 P S0 l. destruct (decide (l = s_edges s)) as [->|D]; [|apply sorts0]. split; [exact P|]. eapply (StronglySorted_ind (fun l => StronglySorted (fun x y => edge_less o_id y x = false) l)); [constructor| |exact S0]. intros x l _ IH F. constructor; [exact IH|].
    eapply Forall_impl; [exact F|]. intros y Hy. cbn in *. rewrite <- (edge_less_spec o_id) in Hy by exact PropsGraph.fair_id. destruct (edge_less o_id y x); [contradiction|reflexivity]. }
  pose proof (proj2 (C31_sorted o_id PropsGraph.fair_id) o_id srt1 srt2 (s_edges s) PropsGraph.fair_id (K es P1 S1) (K es' P2 S2)) as H.
  unfold srt1, srt2 in H. rewrite !decide_True in H by reflexivity. exact H.
Qed.
Lemma shows_same_ends s e e' : same_ends e e' -> (exists st, shows_edge s e st) -> exists st, shows_edge s e' st.
Proof.
  intros (E1 & E2 & E3 & E4 & E5) [st [src dst l H1 H2 _]]. eexists. rewrite E1, E3 in H1. rewrite E2, E4 in H2.
  eapply Shows_edge; [exact H1|exact H2|apply in_order_spec].
Qed.
Lemma fails_same_ends s e e' x : same_ends e e' -> edge_fails s e x -> edge_fails s e' x.
Proof.
  intros (E1 & E2 & E3 & E4 & E5) [y H|l y H1 H2]; rewrite ?E1, ?E2, ?E3, ?E4 in *; [apply Edge_src; exact H|eapply Edge_dst; eassumption].
Qed.
Lemma all_same_key s es es' : Forall2 same_key es es' -> (forall y, y ∈ es -> exists st, shows_edge s y st) -> forall y, y ∈ es' -> exists st, shows_edge s y st.
Proof.
  intros F H y Hy. destruct (elem_of_list_lookup_1 _ _ Hy) as [i Hi]. destruct (Forall2_lookup_r _ _ _ _ _ F Hi) as (x & Hx & [K _]).
  apply elem_of_list_lookup_2 in Hx. exact (shows_same_ends s x y K (H x Hx)).
Qed.
Lemma first_same_key s T es es' x : Forall2 same_key es es' -> first_error s T es x -> first_error s T es' x.
Proof.
  intros F [es1 e es2 y El H1 H2|T1 n T2 y H0 ET H1 H2].
  - subst es. apply Forall2_app_inv_l in F. destruct F as (l1 & l2 & F1 & F2 & ->). destruct l2 as [|e' l2]; inversion F2 as [|? ? ? ? [K _] F2']; subst.
    eapply First_edge; [reflexivity|eapply all_same_key; eassumption|eapply fails_same_ends; eassumption].
  - eapply First_sub; [eapply all_same_key; eassumption|exact ET|exact H1|exact H2].
Qed.

(** ** C73 *)
(** The conditions of SpecTop.v determine the subgraph statements of the top level. *)
Theorem C73_top_level : forall s, exists T, top_subgraphs s T /\ forall T', top_subgraphs s T' -> T' = T.
Proof. intros s. destruct (top_exists s) as [T HT]. exists T. split; [exact HT|]. intros T' HT'. eapply top_unique; eassumption. Qed.
Print Assumptions C73_top_level.
(** What WriteAst returns: the attributes, the edges in order, exactly these subgraphs, and exactly the nodes that
    nothing before shows. *)
Theorem C73_tree : forall srt o g fuel a T, fair o -> sorts (edge_less o) srt -> built g -> top_subgraphs (view g) T ->
  write_ast srt o g fuel = Ok a ->
  let s := view g in
  exists al es el ts ns nl,
    a = Ast.Graph (s_directed s) (s_strict s) (s_name s) (map Ast.SAttr al ++ el ++ map Ast.SSub ts ++ nl) /\
    lists_attrs (s_attrs s) al /\ in_edge_order s es /\ Forall2 (shows_edge s) es el /\
    Forall2 (shows_sub s) T ts /\ top_nodes s T ns /\ Forall2 (shows s) ns nl.
Proof.
  intros srt o g fuel a T Fo S R HT H s. rewrite (write_canon o g Fo (built_ok g R)) in H. fold s in H.
  pose proof (srt_order o srt s Fo S) as Or. destruct (write_ok_shape s T _ HT (proj1 Or) fuel a H) as (el & ts & ns & nl & -> & H1 & H2 & H3 & H4).
  exists (in_order (s_attrs s)), (srt (s_edges s)), el, ts, ns, nl. split; [reflexivity|]. split; [apply in_order_spec|]. auto.
Qed.
Print Assumptions C73_tree.
(** When writing succeeds, fails and does not end.  A graph that is faulty and loops may do either, see
    C73_first_error. *)
Theorem C73_outcome : forall srt o g T, fair o -> sorts (edge_less o) srt -> built g -> top_subgraphs (view g) T ->
  ((exists fuel a, write_ast srt o g fuel = Ok a) <-> ~ faulty (view g) T /\ ~ loops (view g) T) /\
  (forall fuel e, write_ast srt o g fuel = Err e -> faulty (view g) T) /\
  (~ loops (view g) T -> forall fuel, size (g_subs g) < fuel -> (exists a, write_ast srt o g fuel = Ok a) \/ exists e, write_ast srt o g fuel = Err e) /\
  (loops (view g) T -> ~ faulty (view g) T -> forall fuel, write_ast srt o g fuel = OutOfFuel).
Proof.
  intros srt o g T Fo S R HT. assert (E : forall fuel, write_ast srt o g fuel = c_write (view g) fuel (srt (s_edges (view g)))) by (intros fuel; apply (write_canon o g Fo (built_ok g R))).
  pose proof (proj1 (srt_order o srt (view g) Fo S)) as P. assert (Sz : size (s_subs (view g)) = size (g_subs g)) by apply map_size_fmap.
  assert (NP : forall fuel, write_ast srt o g fuel <> Panic) by (intros fuel; apply C33_no_panic; assumption).
  assert (Ends : ~ loops (view g) T -> forall fuel, size (g_subs g) < fuel -> (exists a, write_ast srt o g fuel = Ok a) \/ exists e, write_ast srt o g fuel = Err e).
  { intros L fuel Lf. rewrite <- Sz in Lf. pose proof (write_ends (view g) T _ HT P L fuel Lf) as N. rewrite <- E in N. specialize (NP fuel).
    destruct (write_ast srt o g fuel) as [a|e| |]; [left; eauto|right; eauto|contradiction|contradiction]. }
  assert (Fa : forall fuel e, write_ast srt o g fuel = Err e -> faulty (view g) T) by (intros fuel e H; rewrite E in H; exact (write_err_faulty (view g) T _ HT P fuel e H)).
  split; [|split; [exact Fa|split; [exact Ends|]]].
  - split.
    + intros (fuel & a & H). rewrite E in H. exact (write_ok_sound (view g) T _ HT P fuel a H).
    + intros [F L]. exists (Datatypes.S (size (g_subs g))). destruct (Ends L (Datatypes.S (size (g_subs g))) ltac:(lia)) as [H|[e H]]; [exact H|]. destruct (F (Fa _ _ H)).
  - intros L F fuel. pose proof (NP fuel) as N. destruct (write_ast srt o g fuel) as [a|e| |] eqn:H; [|destruct (F (Fa _ _ H))|contradiction|reflexivity].
    rewrite E in H. destruct (write_ok_sound (view g) T _ HT P fuel a H). contradiction.
Qed.
Print Assumptions C73_outcome.
(** Which error is reported: the first one in the order of writing, if everything before it can be written. *)
Theorem C73_first_error : forall srt o g T es e, fair o -> sorts (edge_less o) srt -> built g ->
  top_subgraphs (view g) T -> in_edge_order (view g) es ->
  (exists fuel, write_ast srt o g fuel = Err e) <-> first_error (view g) T es e.
Proof.
  intros srt o g T es e Fo S R HT Or. pose proof (srt_order o srt (view g) Fo S) as Or'.
  assert (E : (exists fuel, write_ast srt o g fuel = Err e) <-> exists fuel, c_write (view g) fuel (srt (s_edges (view g))) = Err e)
    by (split; intros [f H]; exists f; rewrite <- H; [symmetry|]; apply (write_canon o g Fo (built_ok g R))).
  rewrite E, (write_err_iff (view g) T _ HT (proj1 Or')). split; apply first_same_key; apply (order_same_key (view g)); assumption.
Qed.
Print Assumptions C73_first_error.

(** ** Examples *)
(** A node S in the subgraph A and a subgraph S that contains itself: the text shows the node only; x moves to the top
    level, and the text ends although S contains itself. *)
Definition g_clash : agraph := build [CSetName (lit "G"); CAddSubGraph (lit "G") (lit "A") ∅; CAddNode (lit "A") (lit "S") ∅;
  CAddSubGraph (lit "G") (lit "S") ∅; CAddSubGraph (lit "S") (lit "S") ∅; CAddNode (lit "S") (lit "x") (PropsGraph.A [(lit "color", lit "red")])].
Example C73_clash_example : reachable g_clash /\ is_subgraph g_clash (lit "S") = true /\ graph_string srt0 o_id g_clash 9 = Ok (lit "graph G {
	subgraph A {
		S;
	};
	x [ color=red ];
}
").
Proof. split; [apply build_reachable|]. split; vm_compute; reflexivity. Qed.
Example C73_clash_top : top_subgraphs (view g_clash) [lit "A"] /\ ~ loops (view g_clash) [lit "A"] /\ ~ faulty (view g_clash) [lit "A"].
Proof.
  destruct (C73_top_level (view g_clash)) as (T & HT & _).
  assert (H : exists a, write_ast srt0 o_id g_clash 9 = Ok a) by (eexists; vm_compute; reflexivity). destruct H as [a H].
  assert (ET : T = [lit "A"]).
  { destruct (C73_tree srt0 o_id g_clash 9 a T PropsGraph.fair_id sorts0 (reachable_built _ (build_reachable _)) HT H) as (al & es & el & ts & ns & nl & Ea & Hal & [Pe _] & Fe & Ft & Hns & Fn).
    assert (es = []) as ->. { change (s_edges (view g_clash)) with (@nil edge) in Pe. apply Permutation_nil_r. exact Pe. }
    inversion Fe; subst el. assert (al = []) as ->.
    { destruct al as [|[k v] al]; [reflexivity|]. exfalso. assert (X : (∅ : attrs) !! k = Some v) by (apply (proj2 Hal); left). rewrite lookup_empty in X. discriminate. }
    assert (Ga : Ast.g_stmts a = map Ast.SSub ts ++ nl) by (rewrite Ea; reflexivity).
    assert (Sa : forall b, write_ast srt0 o_id g_clash 9 = Ok b -> exists l1 n2 l2, Ast.g_stmts b = [Ast.SSub (Ast.SubGraph (lit "A") l1); Ast.SNode n2 l2]).
    { intros b Hb. assert (exists l1 n2 l2, match write_ast srt0 o_id g_clash 9 with Ok c => Ast.g_stmts c = [Ast.SSub (Ast.SubGraph (lit "A") l1); Ast.SNode n2 l2] | _ => False end) as (l1 & n2 & l2 & X) by (do 3 eexists; vm_compute; reflexivity).
      rewrite Hb in X. eauto. }
    destruct (Sa a H) as (l1 & n2 & l2 & Sa'). rewrite Ga in Sa'.
    destruct ts as [|t [|t' ts]]; cbn in Sa'.
    - exfalso. destruct nl as [|x nl]; [discriminate|]. injection Sa' as -> _. inversion Fn as [|n ? ns' ? X _]; subst.
      inversion X as [|n0 t0 N _]; subst. destruct N. exact (proj1 (proj1 (proj2 Hns _) (elem_of_list_here _ _))).
    - injection Sa' as -> _. inversion Ft as [|n ? T' ? X Y]; subst. inversion Y; subst. inversion X; subst. reflexivity.
    - injection Sa' as _ Z _. discriminate. }
  subst T. split; [exact HT|]. destruct (proj1 (proj1 (C73_outcome srt0 o_id g_clash [lit "A"] PropsGraph.fair_id sorts0 (reachable_built _ (build_reachable _)) HT))) as [F L]; [exists 9, a; exact H|]. auto.
Qed.
(** Two edges that cannot be written: the error names the one that comes first in order, not the one added first. *)
Definition g_two : agraph := build [CSetName (lit "G"); CAddNode (lit "G") (lit "a") ∅; CAddEdge (lit "a") (lit "y") true ∅; CAddEdge (lit "a") (lit "x") true ∅].
Example C73_error_example : exists T es, top_subgraphs (view g_two) T /\ in_edge_order (view g_two) es /\
  first_error (view g_two) T es (lit "x is not a node or a subgraph") /\ ~ first_error (view g_two) T es (lit "y is not a node or a subgraph").
Proof.
  destruct (C73_top_level (view g_two)) as (T & HT & _). exists T, (srt0 (s_edges (view g_two))). split; [exact HT|].
  pose proof (srt_order o_id srt0 (view g_two) PropsGraph.fair_id sorts0) as Or. split; [exact Or|].
  pose proof (fun e => C73_first_error srt0 o_id g_two T _ e PropsGraph.fair_id sorts0 (reachable_built _ (build_reachable _)) HT Or) as K.
  assert (E9 : write_ast srt0 o_id g_two 9 = Err (lit "x is not a node or a subgraph")) by (vm_compute; reflexivity).
  split; [apply K; exists 9; exact E9|]. intros F. apply K in F. destruct F as [fuel F].
  pose proof (C34_fuel srt0 o_id g_two 9 (Nat.max 9 fuel) PropsGraph.fair_id (reachable_built _ (build_reachable _)) ltac:(lia)) as M1.
  pose proof (C34_fuel srt0 o_id g_two fuel (Nat.max 9 fuel) PropsGraph.fair_id (reachable_built _ (build_reachable _)) ltac:(lia)) as M2.
  unfold graph_string in M1, M2. rewrite E9 in M1. rewrite F in M2. destruct M1 as [M1 _]; [discriminate|]. destruct M2 as [M2 _]; [discriminate|]. rewrite M1 in M2. discriminate.
Qed.
