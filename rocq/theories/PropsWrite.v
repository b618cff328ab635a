(** Properties C30-C34 and the String part of C22: writing a graph. *)
From stdpp Require Import sorting.
From Verif Require Import Base Parser Maps Graph AttrMap SpecGraph MapFacts GraphProofs Direct SpecDirect DirectProofs Write SpecWrite EdgeOrder WriteProofs WriteFacts WriteFacts2.
From Verif Require Ast PropsGraph.
Notation o_id := PropsGraph.o_id.
Notation o_rev := PropsGraph.o_rev.
Notation A := PropsGraph.A.

(** ** Used in the examples *)
Definition srt0 : list edge -> list edge := sort_by (fun x y => negb (edge_less o_id y x)).
Lemma sorts0 : sorts (edge_less o_id) srt0.
Proof.
  intros l. assert (Fo := PropsGraph.fair_id).
  split; [apply sort_by_perm|].
  assert (H : StronglySorted (fun x y => negb (edge_less o_id y x) = true) (srt0 l)).
  { apply sort_by_sorted.
    - intros a b. rewrite !negb_true_iff. destruct (edge_less o_id b a) eqn:E; [right|left; reflexivity].
      destruct (edge_less o_id a b) eqn:E2; [|reflexivity]. apply (edge_less_spec o_id) in E, E2; try exact Fo.
      destruct (edge_before_irrefl a (edge_before_trans _ _ _ E2 E)).
    - intros a b c. rewrite !negb_true_iff, <- !not_true_iff_false, !(edge_less_spec o_id) by exact Fo. intros H1 H2 H3.
      destruct (edge_tricho a b) as [T|[T|T]]; [exact (H2 (edge_before_trans _ _ _ H3 T))| |exact (H1 T)].
      apply H2. eapply same_key_before; [|exact T|exact H3]. repeat split; reflexivity. }
  induction H as [|x m H IH HF]; constructor; [exact IH|]. eapply Forall_impl; [exact HF|]. intros y Hy. apply negb_true_iff. exact Hy.
Qed.
(** Another sorting function: it sees the edges in the opposite order. *)
Definition srt1 (l : list edge) : list edge := srt0 (rev l).
Lemma sorts1 : sorts (edge_less o_id) srt1.
Proof. intros l. destruct (sorts0 (rev l)) as [P S]. split; [|exact S]. unfold srt1. rewrite P. symmetry. apply Permutation_rev. Qed.
Definition build (cs : list call) : agraph := (run (map (pair o_id) cs) new_graph).1.
Lemma build_reachable cs : reachable (build cs).
Proof. apply run_reachable; [|constructor]. apply Forall_fmap. apply Forall_forall. intros c _. apply PropsGraph.fair_id. Qed.
(** A graph with nested subgraphs, used in the examples. *)
Definition g3 : agraph := build
  [CSetName (lit "G"); CSetDir true; CAddAttr (lit "G") (lit "rankdir") (lit "LR");
   CAddSubGraph (lit "G") (lit "S") (A [(lit "rank", lit "same")]); CAddSubGraph (lit "S") (lit "T") ∅; CAddSubGraph (lit "G") (lit "cluster0") ∅;
   CAddNode (lit "T") (lit "c") ∅; CAddNode (lit "S") (lit "b") (A [(lit "color", lit "red")]); CAddNode (lit "G") (lit "a") ∅;
   CAddNode (lit "cluster0") (lit "d") ∅; CAddEdge (lit "b") (lit "a") true ∅; CAddEdge (lit "a") (lit "T") true (A [(lit "label", lit "x")]);
   CAddPortEdge (lit "a") (lit "p:n") (lit "cluster0") [] true ∅].
Definition clash_free (s : sgraph) : bool := bool_decide (dom (s_subs s) ∩ dom (s_nodes s) ∩ kids s (s_name s) = ∅).
Lemma clash_free_ok s : clash_free s = true -> no_clash s.
Proof.
  intros H n H1 H2 H3. apply bool_decide_eq_true in H. apply elem_of_dom in H1, H2. apply elem_of_kids in H3.
  assert (n ∈ (∅ : names)) by (rewrite <- H; set_solver). set_solver.
Qed.
Lemma clash3 : no_clash (view g3).
Proof. apply clash_free_ok. vm_compute. reflexivity. Qed.
(** What String() prints for it. *)
Example string3 : graph_string srt0 o_id g3 9 = Ok (lit "digraph G {
	rankdir=LR;
	a->subgraph T {
	c;
} [ label=x ];
	a:p:n->cluster0;
	b->a;
	subgraph S {
		rank=same;
		subgraph T {
			c;
		};
		b [ color=red ];
	};
	subgraph cluster0 {
		d;
	};
	a;
}
").
Proof. vm_compute. reflexivity. Qed.

(** ** C30 String depends only on the content *)
(** The same content: the same everything, but the nodes and the edges may have been added in another order. *)
Definition same_content (s s' : sgraph) : Prop :=
  s_name s = s_name s' /\ s_directed s = s_directed s' /\ s_strict s = s_strict s' /\ s_attrs s = s_attrs s' /\
  s_nodes s = s_nodes s' /\ s_edges s ≡ₚ s_edges s' /\ s_subs s = s_subs s' /\ s_rels s = s_rels s'.
Lemma c_write_content s s' f es : s_name s = s_name s' -> s_directed s = s_directed s' -> s_strict s = s_strict s' -> s_attrs s = s_attrs s' ->
  s_nodes s = s_nodes s' -> s_subs s = s_subs s' -> s_rels s = s_rels s' -> c_write s f es = c_write s' f es.
Proof. destruct s, s'; cbn. intros -> -> -> -> -> -> ->. reflexivity. Qed.
Theorem C30_canonical : forall srt srt' o o' g g' fuel, fair o -> fair o' -> sorts (edge_less o) srt -> sorts (edge_less o') srt' ->
  built g -> built g' -> same_content (view g) (view g') ->
  (forall e k, e ∈ edges_list (g_edges g) -> e_attrs e !! k <> Some []) ->
  write_ast srt o g fuel = write_ast srt' o' g' fuel /\ graph_string srt o g fuel = graph_string srt' o' g' fuel.
Proof.
  intros srt srt' o o' g g' fuel Fo Fo' S S' R R' (E1 & E2 & E3 & E4 & E5 & E6 & E7 & E8) F.
  assert (W : write_ast srt o g fuel = write_ast srt' o' g' fuel).
  { rewrite (write_canon o g Fo (built_ok g R)), (write_canon o' g' Fo' (built_ok g' R')).
    rewrite (sorts_unique o o' srt srt' (s_edges (view g)) (s_edges (view g')) Fo Fo' S S' E6).
    - apply c_write_content; assumption.
    - apply Forall_forall. intros e He k. apply F. exact He. }
  split; [exact W|]. unfold graph_string. rewrite W. reflexivity.
Qed.
Print Assumptions C30_canonical.
(** The sort and the iteration orders do not matter for one graph. *)
Corollary C30_deterministic : forall srt srt' o o' g fuel, fair o -> fair o' -> sorts (edge_less o) srt -> sorts (edge_less o') srt' ->
  built g -> (forall e k, e ∈ edges_list (g_edges g) -> e_attrs e !! k <> Some []) ->
  graph_string srt o g fuel = graph_string srt' o' g fuel.
Proof.
  intros. apply C30_canonical; auto. unfold same_content. do 5 (split; [reflexivity|]). split; [reflexivity|]. split; reflexivity.
Qed.
Print Assumptions C30_deterministic.
Definition g3' : agraph := build
  [CAddEdge (lit "a") (lit "T") true (A [(lit "label", lit "x")]);  CAddPortEdge (lit "a") (lit "p:n") (lit "cluster0") [] true ∅;
   CAddEdge (lit "b") (lit "a") true ∅; CSetName (lit "G"); CSetDir true; CAddSubGraph (lit "G") (lit "cluster0") ∅;
   CAddSubGraph (lit "S") (lit "T") ∅;  CAddNode (lit "cluster0") (lit "d") ∅; CAddSubGraph (lit "G") (lit "S") (A [(lit "rank", lit "same")]);
   CAddNode (lit "T") (lit "c") ∅; CAddNode (lit "S") (lit "b") ∅; CAddNode (lit "S") (lit "b") (A [(lit "color", lit "red")]); CAddNode (lit "G") (lit "a") ∅;
   CAddAttr (lit "G") (lit "rankdir") (lit "LR")].
Example C30_example : same_content (view g3) (view g3') /\ s_order (view g3) <> s_order (view g3') /\ edges_list (g_edges g3) <> edges_list (g_edges g3') /\
  sorts (edge_less o_id) srt1.
Proof.
  split; [|split; [vm_compute; discriminate|split; [vm_compute; discriminate|apply sorts1]]].
  split; [reflexivity|]. split; [reflexivity|]. split; [reflexivity|].
  split; [apply (bool_decide_unpack _); vm_compute; exact I|]. split; [apply (bool_decide_unpack _); vm_compute; exact I|]. split.
  - change (s_edges (view g3)) with ([Edge (lit "b") [] (lit "a") [] true ∅; Edge (lit "a") [] (lit "T") [] true (A [(lit "label", lit "x")]); Edge (lit "a") (lit "p:n") (lit "cluster0") [] true ∅]).
    change (s_edges (view g3')) with ([Edge (lit "a") [] (lit "T") [] true (A [(lit "label", lit "x")]); Edge (lit "a") (lit "p:n") (lit "cluster0") [] true ∅; Edge (lit "b") [] (lit "a") [] true ∅]).
    apply (Permutation_app_comm [_] [_; _]).
  - split; apply (bool_decide_unpack _); vm_compute; exact I.
Qed.
(** Without the condition on empty values the claim is false: an edge with label="" and one without are
    written in the order the sort happens to leave them. *)
Definition g4 : agraph := build [CAddNode [] (lit "a") ∅; CAddEdge (lit "a") (lit "a") true ∅; CAddEdge (lit "a") (lit "a") true (A [(lit "label", [])])].
Theorem C30_empty_values_refuted : exists g srt srt', reachable g /\ sorts (edge_less o_id) srt /\ sorts (edge_less o_id) srt' /\
  graph_string srt o_id g 1 <> graph_string srt' o_id g 1.
Proof.
  exists g4, srt0, srt1. split; [apply build_reachable|]. split; [apply sorts0|]. split; [apply sorts1|]. vm_compute. discriminate.
Qed.
Print Assumptions C30_empty_values_refuted.

(** ** C31 The order on edges *)
Theorem C31_less : forall o x y, fair o -> edge_less o x y = true <-> edge_before x y.
Proof. intros o x y. apply edge_less_spec. Qed.
Print Assumptions C31_less.
Theorem C31_strict_weak_order : forall o, fair o ->
  (forall x, edge_less o x x = false) /\
  (forall x y, edge_less o x y = true -> edge_less o y x = false) /\
  (forall x y z, edge_less o x y = true -> edge_less o y z = true -> edge_less o x z = true) /\
  (forall x y z, edge_less o x y = false -> edge_less o y x = false -> edge_less o y z = false -> edge_less o z y = false ->
     edge_less o x z = false /\ edge_less o z x = false).
Proof.
  intros o Fo. assert (NB : forall x y, edge_less o x y = false <-> ~ edge_before x y) by (intros x y; rewrite <- not_true_iff_false, edge_less_spec by exact Fo; reflexivity).
  split; [intros x; apply NB; apply edge_before_irrefl|]. split; [|split].
  - intros x y H. apply NB. intros H'. apply edge_less_spec in H; [|exact Fo]. exact (edge_before_irrefl x (edge_before_trans _ _ _ H H')).
  - intros x y z. rewrite !edge_less_spec by exact Fo. apply edge_before_trans.
  - intros x y z. rewrite !NB. intros H1 H2 H3 H4.
    destruct (edge_tricho x y) as [T|[T|T]]; try contradiction. destruct (edge_tricho y z) as [T'|[T'|T']]; try contradiction.
    assert (E : same_key x z). { destruct T as [(?&?&?&?&?) V], T' as [(?&?&?&?&?) V']. repeat split; congruence. }
    split; [apply same_key_not_before; exact E|apply same_key_not_before; apply same_key_sym; exact E].
Qed.
Print Assumptions C31_strict_weak_order.
Theorem C31_incomparable : forall o x y, fair o ->
  (edge_less o x y = false /\ edge_less o y x = false) <-> same_key x y.
Proof.
  intros o x y Fo. rewrite <- !not_true_iff_false, !edge_less_spec by exact Fo. split.
  - intros [H1 H2]. destruct (edge_tricho x y) as [T|[T|T]]; tauto.
  - intros E. split; [apply same_key_not_before; exact E|apply same_key_not_before; apply same_key_sym; exact E].
Qed.
Print Assumptions C31_incomparable.
(** So sorting functions exist, and what they return is determined up to the order of indistinguishable edges;
    the result does not depend on the iteration orders used by Less. *)
Theorem C31_sorted : forall o, fair o -> (exists srt, sorts (edge_less o) srt) /\
  forall o' srt srt' l, fair o' -> sorts (edge_less o) srt -> sorts (edge_less o') srt' -> Forall2 same_key (srt l) (srt' l).
Proof.
  intros o Fo. split; [apply sorts_exists; exact Fo|]. intros o' srt srt' l Fo' S S'. destruct (S l) as [P1 S1]. destruct (S' l) as [P2 S2].
  assert (P : srt l ≡ₚ srt' l) by (rewrite P1, P2; reflexivity). clear P1 P2.
  assert (S2' : StronglySorted (fun x y => ~ edge_before y x) (srt' l)).
  { clear -S2 Fo'. induction S2 as [|x l0 H IH HF]; constructor; [exact IH|]. eapply Forall_impl; [exact HF|]. intros y Hy. cbn in *. rewrite <- (edge_less_spec o') by exact Fo'. congruence. }
  assert (S1' : StronglySorted (fun x y => ~ edge_before y x) (srt l)).
  { clear -S1 Fo. induction S1 as [|x l0 H IH HF]; constructor; [exact IH|]. eapply Forall_impl; [exact HF|]. intros y Hy. cbn in *. rewrite <- (edge_less_spec o) by exact Fo. congruence. }
  clear S1 S2 S S'. revert P S1' S2'. generalize (srt l) (srt' l). clear. intros l1 l2 P S1 S2.
  assert (Kt : forall x y z, same_key x y -> same_key y z -> same_key x z).
  { intros x y z [(A1&A2&A3&A4&A5) V] [(B1&B2&B3&B4&B5) V']. repeat split; try congruence. }
  assert (Kr : forall x, same_key x x) by (intros x; repeat split; reflexivity).
  (* l1 is a permutation up to the key of l2 *)
  assert (G : forall l1 l2 : list edge, (exists l3, l1 ≡ₚ l3 /\ Forall2 same_key l3 l2) -> StronglySorted (fun x y => ~ edge_before y x) l1 ->
     StronglySorted (fun x y => ~ edge_before y x) l2 -> Forall2 same_key l1 l2).
  { clear -Kt Kr. intros l1 l2 H S1. revert l2 H. induction S1 as [|x l1 S1 IH F1]; intros l2 (l3 & P & F) S2.
    - apply Permutation_nil_l in P. subst l3. inversion F. constructor.
    - destruct S2 as [|y l2 S2 F2]; [inversion F; subst; apply Permutation_nil_r in P; discriminate|].
      inversion F as [|z ? l3' ? Hz F' E1]; subst. rewrite Forall_forall in F1, F2.
      assert (Kx : same_key x y).
      { assert (Hzx : z ∈ x :: l1) by (rewrite P; left). assert (Hx : x ∈ z :: l3') by (rewrite <- P; left).
        apply elem_of_cons in Hzx. destruct Hzx as [->|Hzx]; [exact Hz|].
        apply elem_of_cons in Hx. destruct Hx as [->|Hx]; [exact Hz|].
        destruct (elem_of_list_lookup_1 _ _ Hx) as [i Hi]. destruct (Forall2_lookup_l _ _ _ _ _ F' Hi) as (w & Hw & Kw).
        apply elem_of_list_lookup_2 in Hw. specialize (F2 w Hw). specialize (F1 z Hzx). cbn in *.
        destruct (edge_tricho x z) as [T|[T|T]]; [|exact (Kt _ _ _ T Hz)|contradiction].
        destruct F2. eapply same_key_before; [exact Kw|exact Hz|exact T]. }
      constructor; [exact Kx|]. apply IH; [|exact S2].
      (* swap z and x *)
      assert (Hx : x ∈ z :: l3') by (rewrite <- P; left). apply elem_of_cons in Hx. destruct Hx as [->|Hx].
      + exists l3'. split; [apply Permutation_cons_inv in P; exact P|exact F'].
      + apply elem_of_list_split in Hx. destruct Hx as (k1 & k2 & ->).
        exists (k1 ++ z :: k2). split.
        * rewrite <- Permutation_middle. apply (Permutation_cons_inv (a := x)). rewrite P. rewrite <- Permutation_middle. apply Permutation_swap.
        * apply Forall2_app_inv_l in F'. destruct F' as (m1 & m2 & F1' & F2' & ->). inversion F2' as [|? w ? m2' Hw F3]; subst.
          apply Forall2_app; [exact F1'|]. constructor; [|exact F3]. eapply Kt; [exact Hz|]. eapply Kt; [apply same_key_sym; exact Kx|exact Hw]. }
  apply G; [|exact S1|exact S2]. exists l2. split; [exact P|]. clear. induction l2; constructor; [repeat split; reflexivity|assumption].
Qed.
Print Assumptions C31_sorted.
Example C31_example : edge_less o_id (Edge (lit "a") [] (lit "b") [] true (A [(lit "color", lit "x")])) (Edge (lit "a") [] (lit "b") [] true (A [(lit "color", lit "x"); (lit "label", lit "y")])) = true /\
  same_key (Edge (lit "a") [] (lit "b") [] true ∅) (Edge (lit "a") [] (lit "b") [] true (A [(lit "label", [])])).
Proof.
  split; [vm_compute; reflexivity|]. split; [repeat split|]. intros k. unfold attr_value. cbn [e_attrs]. rewrite lookup_empty.
  unfold PropsGraph.A. cbn [list_to_map foldr curry uncurry fst snd]. destruct (decide (lit "label" = k)) as [<-|D]; [rewrite lookup_insert; reflexivity|rewrite lookup_insert_ne by exact D; reflexivity].
Qed.

(** ** C33 When writing fails *)
Theorem C33_no_panic : forall srt o g fuel, fair o -> built g -> write_ast srt o g fuel <> Panic /\ graph_string srt o g fuel <> Panic.
Proof.
  intros srt o g fuel Fo R. unfold graph_string. rewrite (write_canon o g Fo (built_ok g R)). pose proof (c_write_panic (view g) fuel (srt (s_edges (view g)))).
  destruct (c_write _ _ _); split; congruence.
Qed.
Print Assumptions C33_no_panic.
(** An error has a cause, which it names. *)
Theorem C33_errors : forall srt o g fuel e, fair o -> sorts (edge_less o) srt -> built g ->
  write_ast srt o g fuel = Err e -> complaint (view g) e /\ unwritable (view g).
Proof.
  intros srt o g fuel e Fo S R H. rewrite (write_canon o g Fo (built_ok g R)) in H.
  assert (C : complaint (view g) e) by (eapply c_write_err; [|exact H]; apply S). split; [exact C|eapply complaint_unwritable; exact C].
Qed.
Print Assumptions C33_errors.
(** When writing ends, it fails exactly on unwritable graphs. *)
Theorem C33_iff : forall srt o g fuel, fair o -> sorts (edge_less o) srt -> built g -> no_clash (view g) ->
  write_ast srt o g fuel <> OutOfFuel ->
  ((exists e, write_ast srt o g fuel = Err e) <-> unwritable (view g)) /\
  ((exists a, write_ast srt o g fuel = Ok a) <-> ~ unwritable (view g)).
Proof.
  intros srt o g fuel Fo S R NC N. rewrite (write_canon o g Fo (built_ok g R)) in *.
  pose proof (proj1 (S (s_edges (view g)))) as P. pose proof (c_write_panic (view g) fuel (srt (s_edges (view g)))) as NP.
  destruct (c_write _ _ _) as [a|e| |] eqn:E; try congruence.
  - pose proof (c_write_unwritable _ _ _ _ NC P E) as U. split; split; [intros [e H]; discriminate|intros H; contradiction|intros _; exact U|eauto].
  - assert (U : unwritable (view g)) by (eapply complaint_unwritable, c_write_err; [exact P|exact E]).
    split; split; [intros _; exact U|eauto|intros [a H]; discriminate|contradiction].
Qed.
Print Assumptions C33_iff.
(** String() reports the error of WriteAst; no other output starts like that. *)
Theorem C33_string : forall srt o g fuel, 
  (forall e, graph_string srt o g fuel = Ok (lit "error: " ++ e) <-> write_ast srt o g fuel = Err e) /\
  (forall a, write_ast srt o g fuel = Ok a -> graph_string srt o g fuel = Ok (Ast.graph_str a)).
Proof.
  intros srt o g fuel. unfold graph_string. destruct (write_ast srt o g fuel) as [a|x| |]; split; intros y; try (split; congruence); try congruence.
  - split; [|discriminate]. unfold Ast.graph_str. destruct (Ast.g_strict a), (Ast.g_type a); cbn; discriminate.
  - split; [|intros [= ->]; reflexivity]. intros H. assert (E : lit "error: " ++ x = lit "error: " ++ y) by congruence. apply app_inv_head in E. rewrite E. reflexivity.
Qed.
Print Assumptions C33_string.
Definition g5 : agraph := build [CSetName (lit "G"); CAddSubGraph (lit "G") (lit "S") ∅; CAddNode (lit "G") (lit "a") ∅; CAddPortEdge (lit "a") [] (lit "S") (lit "p") true ∅].
Definition g6 : agraph := build [CSetName (lit "G"); CAddNode (lit "G") (lit "a") ∅; CAddEdge (lit "a") (lit "x") true ∅].
Example C33_example : graph_string srt0 o_id g5 9 = Ok (lit "error: subgraph cannot have a port: p") /\ no_clash (view g5) /\
  graph_string srt0 o_id g6 9 = Ok (lit "error: x is not a node or a subgraph") /\ no_clash (view g6).
Proof. split; [vm_compute; reflexivity|]. split; [apply clash_free_ok; vm_compute; reflexivity|]. split; [vm_compute; reflexivity|]. apply clash_free_ok; vm_compute; reflexivity. Qed.

(** ** C32 What is written *)
(** The shape of the tree. *)
Theorem C32_shape : forall srt o g fuel a, fair o -> sorts (edge_less o) srt -> built g -> write_ast srt o g fuel = Ok a ->
  let s := view g in
  exists al es el tops ts ns nl,
    a = Ast.Graph (s_directed s) (s_strict s) (s_name s) (map Ast.SAttr al ++ el ++ map Ast.SSub ts ++ nl) /\
    lists_attrs (s_attrs s) al /\
    (* every edge once, in order *)
    es ≡ₚ s_edges s /\ StronglySorted (fun x y => ~ edge_before y x) es /\ Forall2 (shows_edge s) es el /\
    (* subgraphs of the main graph, in order, without repetition *)
    StronglySorted before tops /\ (forall n, n ∈ tops -> s_is_sub s n /\ is_child s (s_name s) n) /\ Forall2 (shows_sub s) tops ts /\
    (* nodes, in order, without repetition *)
    StronglySorted before ns /\ (forall n, n ∈ ns -> s_is_node s n) /\ Forall2 (shows s) ns nl.
Proof.
  intros srt o g fuel a Fo S R H s. rewrite (write_canon o g Fo (built_ok g R)) in H. fold s in H.
  destruct (S (s_edges s)) as [P Sr]. apply c_write_ok in H. destruct H as (el & tops & ts & ns & -> & Fe & Ft & Sl & T & Q & ->).
  assert (Sub : forall l1 l2 : list gostr, sublist l1 l2 -> StronglySorted before l2 -> StronglySorted before l1).
  { clear. induction 1 as [|x l1 l2 H IH|x l1 l2 H IH]; intros Ss; [constructor| |].
    - inversion Ss as [|? ? S1 F1]; subst. constructor; [auto|]. rewrite Forall_forall in *. intros y Hy. apply F1. eapply elem_of_submseteq; [exact Hy|apply sublist_submseteq; exact H].
    - inversion Ss; subst. auto. }
  eexists _, (srt (s_edges s)), el, tops, ts, (filter (fun n => n ∉ marks (el ++ map Ast.SSub ts)) (sorted (dom (s_nodes s)))), _. split; [reflexivity|]. split; [apply in_order_spec|]. split; [exact P|]. split.
  { eapply (StronglySorted_ind (fun l => StronglySorted (fun x y => ~ edge_before y x) l)); [constructor| |exact Sr]. intros x l _ IH F. constructor; [exact IH|].
    eapply Forall_impl; [exact F|]. intros y Hy. cbn in *. rewrite <- (edge_less_spec o) by exact Fo. congruence. }
  split; [eapply Forall2_impl; [exact Fe|]; intros e st He; eapply c_edge_shows; exact He|].
  split; [eapply Sub; [exact Sl|apply sorted_strict]|]. split; [intros n Hn; destruct (T n Hn) as (T1 & T2 & _); auto|].
  split; [eapply Forall2_impl; [exact Ft|]; intros n t Hn; eapply c_sub_shows; exact Hn|].
  split; [eapply Sub; [|apply (sorted_strict (dom (s_nodes s)))]; generalize (sorted (dom (s_nodes s))); intros l; induction l as [|x l IH]; [constructor|]; rewrite filter_cons; destruct (decide _); constructor; exact IH|].
  assert (Hns : forall n, n ∈ filter (fun n => n ∉ marks (el ++ map Ast.SSub ts)) (sorted (dom (s_nodes s))) -> s_is_node s n).
  { intros n Hn. apply elem_of_list_filter in Hn. apply nodes_listed. tauto. }
  split; [exact Hns|]. revert Hns. generalize (filter (fun n => n ∉ marks (el ++ map Ast.SSub ts)) (sorted (dom (s_nodes s)))). intros l Hl.
  induction l as [|n l IH]; cbn [map]; constructor.
  - destruct (Hl n (elem_of_list_here _ _)) as [x Hx]. rewrite Hx. apply c_node_shows. exact Hx.
  - apply IH. intros m Hm. apply Hl. right. exact Hm.
Qed.
Print Assumptions C32_shape.
(** Nothing is left out: every node has a statement with its attributes, every subgraph that is reachable from the
    main graph or an edge has a subgraph statement; the statements of a node are at the top level only if it occurs in
    no written subgraph. *)
Theorem C32_complete : forall srt o g fuel a, fair o -> sorts (edge_less o) srt -> built g -> no_clash (view g) ->
  write_ast srt o g fuel = Ok a ->
  (forall n, s_is_node (view g) n -> exists st, shows (view g) n st /\ occurs_stmt (Ast.g_stmts a) st) /\
  (forall n, written (view g) n -> exists t, shows_sub (view g) n t /\ occurs (Ast.g_stmts a) t) /\
  (forall n l l' id body, Ast.SNode n l ∈ Ast.g_stmts a -> occurs (Ast.g_stmts a) (Ast.SubGraph id body) -> Ast.SNode n l' ∉ body).
Proof.
  intros srt o g fuel a Fo S R NC H. rewrite (write_canon o g Fo (built_ok g R)) in H.
  destruct (S (s_edges (view g))) as [P _]. pose proof H as H0. apply c_write_ok in H0.
  destruct H0 as (el & tops & ts & ns & Ea & Fe & Ft & Sl & T & Q & Ens).
  assert (L1 : forall st, st ∈ el -> st ∈ Ast.g_stmts a) by (intros st Hst; rewrite Ea; cbn; rewrite !elem_of_app; auto).
  assert (L2 : forall t, t ∈ ts -> Ast.SSub t ∈ Ast.g_stmts a) by (intros t Ht; rewrite Ea; cbn; rewrite !elem_of_app; right; right; left; apply elem_of_list_fmap; eauto).
  assert (T' : forall n, n ∈ tops -> is_child (view g) (s_name (view g)) n /\ s_is_sub (view g) n) by (intros n Hn; destruct (T n Hn) as (T1 & T2 & _); auto).
  split; [|split].
  - intros n Hn. destruct (decide (n ∈ marks (el ++ map Ast.SSub ts))) as [D|D].
    + destruct (write_marks (view g) fuel _ el tops ts (Ast.g_stmts a) NC P Fe Ft T' L1 L2 n D) as [(t' & _ & _ & _ & N)|(st & S1 & _ & O)]; [contradiction|eauto].
    + destruct Hn as [x Hx]. exists (c_node n x). split; [apply c_node_shows; exact Hx|]. left. rewrite Ea. cbn [Ast.g_stmts]. rewrite !elem_of_app. right. right. right.
      apply elem_of_list_fmap. exists n. rewrite Hx. split; [reflexivity|]. rewrite Ens. apply elem_of_list_filter. split; [exact D|]. apply nodes_listed. eexists. exact Hx.
  - intros n W. destruct (written_ok _ _ _ _ NC P H n W) as [(f' & t & X & O) _]. exists t. split; [eapply c_sub_shows; exact X|exact O].
  - intros n body body' id b Hn Ho Hb.
    assert (M : Ast.nid_id n ∈ marks (el ++ map Ast.SSub ts)).
    { assert (In : forall t, inside t (Ast.SubGraph id b) -> Ast.nid_id n ∈ sub_names t).
      { intros t I. clear Ho. remember (Ast.SubGraph id b) as tb eqn:Eb. induction I as [t|id' body'' t t' HI I IH].
        - subst t. rewrite sub_names_eq. apply elem_of_union_r. apply elem_of_marks. eexists. split; [exact Hb|]. cbn. apply elem_of_singleton. reflexivity.
        - rewrite sub_names_eq. apply elem_of_union_r. apply elem_of_marks. eexists. split; [exact HI|]. cbn [st_names]. apply IH. exact Eb. }
      assert (Top : forall st, st ∈ Ast.g_stmts a -> (match st with Ast.SSub _ | Ast.SEdge _ _ _ => True | _ => False end) -> st ∈ el ++ map Ast.SSub ts).
      { intros st Hst C. rewrite Ea in Hst. cbn [Ast.g_stmts] in Hst. rewrite !elem_of_app in Hst. apply elem_of_app. destruct Hst as [Hst|[Hst|[Hst|Hst]]]; auto;
          apply elem_of_list_fmap in Hst; destruct Hst as (z & -> & _); contradiction. }
      destruct Ho as [t Ht I|t rhs x Ht I|src op t x Ht I]; apply elem_of_marks; (eexists; split; [apply Top; [exact Ht|exact Logic.I]|]); cbn; pose proof (In t I); set_solver. }
    rewrite Ea in Hn. cbn [Ast.g_stmts] in Hn. rewrite !elem_of_app in Hn. destruct Hn as [Hn|[Hn|[Hn|Hn]]].
    + apply elem_of_list_fmap in Hn. destruct Hn as (? & ? & _). discriminate.
    + destruct (elem_of_list_lookup_1 _ _ Hn) as [i Hi]. destruct (Forall2_lookup_r _ _ _ _ _ Fe Hi) as (e & _ & E). apply c_edge_shows in E. destruct E as [E _]. inversion E.
    + apply elem_of_list_fmap in Hn. destruct Hn as (? & ? & _). discriminate.
    + apply elem_of_list_fmap in Hn. destruct Hn as (m & Em & Hm). injection Em as -> _. rewrite Ens in Hm. apply elem_of_list_filter in Hm. destruct Hm as [Hm _]. contradiction.
Qed.
Print Assumptions C32_complete.
Example C32_example : (exists a, write_ast srt0 o_id g3 9 = Ok a) /\ no_clash (view g3) /\ written (view g3) (lit "T").
Proof.
  split; [eexists; vm_compute; reflexivity|]. split; [apply clash3|]. exists (lit "S"). split.
  - apply Starts_top; [apply view_child; vm_compute; set_solver|apply view_is_sub; vm_compute; eauto].
  - apply rtc_once. split; [apply view_child; apply elem_of_elements; vm_compute; set_solver|]. split; [apply view_is_sub; vm_compute; eauto|].
    rewrite view_is_node. vm_compute. intros [x Hx]. discriminate.
Qed.
(** With a name clash something is left out: here the node S is written nowhere. *)
Definition g7 : agraph := build [CSetName (lit "G"); CAddSubGraph (lit "G") (lit "S") ∅; CAddNode (lit "G") (lit "S") (A [(lit "color", lit "red")])].
Theorem C32_clash_refuted : exists g, reachable g /\ is_node g (lit "S") = true /\ graph_string srt0 o_id g 9 = Ok (lit "graph G {
	subgraph S {

	};
}
").
Proof. exists g7. split; [apply build_reachable|]. split; vm_compute; reflexivity. Qed.
Print Assumptions C32_clash_refuted.

(** ** C34 When writing ends *)
(** The result does not depend on the fuel, once there is a result. *)
Theorem C34_fuel : forall srt o g f f', fair o -> built g -> f <= f' -> graph_string srt o g f <> OutOfFuel ->
  write_ast srt o g f' = write_ast srt o g f /\ graph_string srt o g f' = graph_string srt o g f.
Proof.
  intros srt o g f f' Fo R L. unfold graph_string. rewrite !(write_canon o g Fo (built_ok g R)). intros N.
  rewrite (c_write_mono _ f f'); [split; reflexivity|exact L|]. intros C. rewrite C in N. apply N. reflexivity.
Qed.
Print Assumptions C34_fuel.
Theorem C34_terminates : forall srt o g, fair o -> sorts (edge_less o) srt -> built g -> acyclic (view g) ->
  forall fuel, size (g_subs g) < fuel -> write_ast srt o g fuel <> OutOfFuel /\ graph_string srt o g fuel <> OutOfFuel.
Proof.
  intros srt o g Fo S R Ac fuel L. unfold graph_string. rewrite (write_canon o g Fo (built_ok g R)).
  pose proof (c_write_terminates (view g) _ (proj1 (S (s_edges (view g)))) Ac) as T.
  assert (E : c_write (view g) fuel (srt (s_edges (view g))) = c_write (view g) (Datatypes.S (size (s_subs (view g)))) (srt (s_edges (view g)))).
  { apply c_write_mono; [|exact T]. cbn [s_subs view]. rewrite map_size_fmap. lia. }
  rewrite E. destruct (c_write _ _ _); split; congruence.
Qed.
Print Assumptions C34_terminates.
Theorem C34_iff : forall srt o g, fair o -> sorts (edge_less o) srt -> built g -> no_clash (view g) -> ~ unwritable (view g) ->
  ((exists fuel, graph_string srt o g fuel <> OutOfFuel) <-> acyclic (view g)).
Proof.
  intros srt o g Fo S R NC U. split.
  - intros [fuel N]. unfold graph_string in N. rewrite (write_canon o g Fo (built_ok g R)) in N.
    pose proof (proj1 (S (s_edges (view g)))) as P. pose proof (c_write_panic (view g) fuel (srt (s_edges (view g)))) as NP.
    destruct (c_write _ _ _) as [a|e| |] eqn:E; try congruence.
    + eapply c_write_cyclic; eassumption.
    + destruct U. eapply complaint_unwritable, c_write_err; eassumption.
  - intros Ac. exists (Datatypes.S (size (g_subs g))). apply C34_terminates; auto.
Qed.
Print Assumptions C34_iff.
(** A subgraph with the name of the graph: String() recurses without bound. *)
Definition g8 : agraph := build [CSetName (lit "G"); CSetDir true; CAddSubGraph (lit "G") (lit "G") ∅; CAddNode (lit "G") (lit "a") ∅].
Theorem C34_self_nested : exists g, reachable g /\ forall srt o fuel, fair o -> sorts (edge_less o) srt -> graph_string srt o g fuel = OutOfFuel.
Proof.
  exists g8. split; [apply build_reachable|]. intros srt o fuel Fo S.
  assert (NC : no_clash (view g8)) by (apply clash_free_ok; vm_compute; reflexivity).
  assert (U : ~ unwritable (view g8)).
  { intros [n port (e & He & _) _|p c W C N1 N2].
    - revert He. vm_compute. intros He. inversion He.
    - destruct (decide (p = lit "G")) as [->|D].
      + apply view_child, elem_of_elements in C. revert C. vm_compute. intros C. repeat (apply elem_of_cons in C; destruct C as [->|C]; [first [apply N1; vm_compute; eauto; fail|apply N2; vm_compute; eauto; fail]|]). inversion C.
      + apply view_child in C. unfold children in C. assert (E : parent_to_children (g_rels g8) !! p = None).
        { change (g_rels g8) with (relations_add (relations_add new_relations (lit "G") (lit "G")) (lit "G") (lit "a")).
          unfold relations_add, rel_insert, new_relations. cbn [parent_to_children]. rewrite !lookup_insert_ne by congruence. apply lookup_empty. }
        rewrite E in C. set_solver. }
  assert (Cy : ~ acyclic (view g8)).
  { intros Ac. assert (N : nested (view g8) (lit "G") (lit "G")).
    { split; [apply view_child, elem_of_elements; vm_compute; set_solver|]. split; [apply view_is_sub; vm_compute; eauto|]. rewrite view_is_node. vm_compute. intros [x Hx]. discriminate. }
    apply (Ac (lit "G")); [|apply tc_once; exact N]. exists (lit "G"). split; [|reflexivity]. destruct N as (N1 & N2 & _). apply Starts_top; assumption. }
  destruct (graph_string srt o g8 fuel) eqn:E; try reflexivity; exfalso; apply Cy; apply (C34_iff srt o g8 Fo S (build_reachable _) NC U); exists fuel; congruence.
Qed.
Print Assumptions C34_self_nested.
Example C34_example : acyclic (view g3).
Proof.
  assert (H : exists a, write_ast srt0 o_id g3 9 = Ok a) by (eexists; vm_compute; reflexivity). destruct H as [a H].
  rewrite (write_canon o_id g3 PropsGraph.fair_id (reachable_ok g3 (build_reachable _))) in H.
  eapply c_write_cyclic; [apply clash3|apply sorts0|exact H].
Qed.

(** ** C22 (String): a stale relation makes String() fail after a subgraph is added again *)
Theorem C22_string_after_readding : forall o srt g parent n g', fair o -> sorts (edge_less o) srt -> reachable g -> parent <> n ->
  remove_subgraph o g parent n = (g', None) -> (exists c, is_child (view g) n c /\ c <> n /\ ~ s_is_sub (view g) c) -> n <> g_name g ->
  let g2 := (add_subgraph o g' (g_name g) n ∅).1 in
  no_clash (view g2) ->
  forall fuel, graph_string srt o g2 fuel <> OutOfFuel -> exists e, graph_string srt o g2 fuel = Ok (lit "error: " ++ e).
Proof.
  intros o srt g parent n g' Fo S R Hp E (c & Hc & D & Hs) Hn g2 NC fuel N.
  assert (R' : reachable g') by (replace g' with (exec o (CRemoveSubGraph parent n) g).1 by (cbn; rewrite E; reflexivity); constructor; assumption).
  assert (R2 : reachable g2) by (apply (reach_call g' o (CAddSubGraph (g_name g) n ∅)); assumption).
  pose proof (PropsGraph.C22_stale_subgraph_relations o g parent n g' Fo R Hp E c) as St.
  assert (Hall : forall c, is_child (view g) n c -> is_node g c = true).
  { intros c0 Hc0. destruct (is_node g c0) eqn:En; [reflexivity|]. destruct (PropsGraph.C21_remove_subgraph_failure o g parent n c0 Fo R Hc0 En) as (x & c2 & N' & H & _). congruence. }
  destruct (PropsGraph.C21_remove_subgraph o g parent n Fo R Hall) as (g1 & E1 & Hnode & _ & Hsub & _ & _ & Hname & _).
  rewrite E in E1. injection E1 as <-.
  assert (SC : spec_call (CAddSubGraph (g_name g) n ∅) (view g') (view g2) (exec o (CAddSubGraph (g_name g) n ∅) g').2)
    by apply (PropsGraph.C23_refinement_step o (CAddSubGraph (g_name g) n ∅) g' Fo R').
  assert (V : view g2 = s_put_attrs (s_open_sub (view g') (g_name g) n) n ∅).
  { remember (view g2) as s2 eqn:E2. remember (exec o (CAddSubGraph (g_name g) n ∅) g').2 as r eqn:Er. inversion SC as [| | | | | | | | | | | |? ? ? ? V X1 X2|? ? ? m' ? e B X1 X2| | | |]; subst; [reflexivity|].
    destruct B as (k & v & B & _). rewrite lookup_empty in B. discriminate. }
  assert (Nm : s_name (view g2) = g_name g). { rewrite V, put_attrs_name. exact Hname. }
  assert (Ncomp : s_name (s_open_sub (view g') (g_name g) n) = g_name g) by exact Hname.
  assert (Un : unwritable (view g2)).
  { apply (Bad_child (view g2) n c).
    - exists n. split; [|reflexivity]. apply Starts_top.
      + rewrite Nm, V. unfold is_child, s_put_attrs. rewrite Ncomp. rewrite decide_False by congruence. cbn. set_solver.
      + rewrite V. unfold s_is_sub, s_put_attrs. rewrite Ncomp. rewrite decide_False by congruence. cbn. rewrite lookup_insert. eauto.
    - rewrite V. unfold is_child, s_put_attrs. rewrite Ncomp. rewrite decide_False by congruence. cbn. apply elem_of_union_r. apply St. exact Hc.
    - rewrite V. unfold s_is_node, s_put_attrs. rewrite Ncomp. rewrite decide_False by congruence. cbn [s_nodes s_open_sub s_with_subs s_with_rels]. intros [x Hx].
      change (s_nodes (view g') !! c = Some x) in Hx. apply Hnode in Hx. tauto.
    - rewrite V. unfold s_is_sub, s_put_attrs. rewrite Ncomp. rewrite decide_False by congruence. cbn [s_subs s_open_sub s_with_subs s_with_rels].
      apply not_eq_sym in D. rewrite !lookup_insert_ne by exact D. change (~ is_Some (s_subs (view g') !! c)). rewrite Hsub. rewrite lookup_delete_ne by exact D. exact Hs. }
  assert (N2 : write_ast srt o g2 fuel <> OutOfFuel) by (intros C; apply N; unfold graph_string; rewrite C; reflexivity).
  destruct (C33_iff srt o g2 fuel Fo S R2 NC N2) as [[_ H] _]. destruct (H Un) as [e He]. exists e. apply C33_string. exact He.
Qed.
Print Assumptions C22_string_after_readding.
Definition g9 : agraph := build [CSetName (lit "G"); CAddSubGraph (lit "G") (lit "S") ∅; CAddNode (lit "S") (lit "a") ∅; CRemoveSubGraph (lit "G") (lit "S");
  CAddSubGraph (lit "G") (lit "S") ∅].
Example C22_string_example : graph_string srt0 o_id g9 9 = Ok (lit "error: a is not a node or a subgraph").
Proof. vm_compute. reflexivity. Qed.
(** A removed node that is still a child of a subgraph that gets written. *)
Theorem C22_string_after_remove_node : forall o srt g parent q n g', fair o -> sorts (edge_less o) srt -> reachable g ->
  remove_node g parent n = (g', None) -> q <> parent -> is_child (view g) q n -> ~ s_is_sub (view g) n -> no_clash (view g') -> written (view g') q ->
  forall fuel, graph_string srt o g' fuel <> OutOfFuel -> exists e, graph_string srt o g' fuel = Ok (lit "error: " ++ e).
Proof.
  intros o srt g parent q n g' Fo S R E Hq Hc Hs NC W fuel N.
  assert (R' : reachable g') by (replace g' with (exec o (CRemoveNode parent n) g).1 by (cbn; rewrite E; reflexivity); constructor; assumption).
  assert (Un : unwritable (view g')).
  { apply (Bad_child (view g') q n); [exact W|apply (PropsGraph.C22_stale_node_relations g parent n g' R E q Hq); exact Hc| |];
    (destruct (remove_node_spec g parent n (reachable_ok g R)) as [[_ H]|(_ & g2 & H1 & _ & H2)]; [congruence|]); rewrite E in H1; injection H1 as <-; rewrite H2.
    - unfold s_is_node. cbn. intros [x Hx]. apply map_filter_lookup_Some in Hx. destruct Hx as [_ Hx]. set_solver.
    - exact Hs. }
  assert (N2 : write_ast srt o g' fuel <> OutOfFuel) by (intros C; apply N; unfold graph_string; rewrite C; reflexivity).
  destruct (C33_iff srt o g' fuel Fo S R' NC N2) as [[_ H] _]. destruct (H Un) as [e He]. exists e. apply C33_string. exact He.
Qed.
Print Assumptions C22_string_after_remove_node.
Definition g10 : agraph := build [CSetName (lit "G"); CAddSubGraph (lit "G") (lit "S") ∅; CAddNode (lit "S") (lit "a") ∅; CAddNode (lit "G") (lit "a") ∅; CRemoveNode (lit "G") (lit "a")].
Example C22_remove_node_example : graph_string srt0 o_id g10 9 = Ok (lit "error: a is not a node or a subgraph") /\ no_clash (view g10) /\ is_child (view g10) (lit "S") (lit "a").
Proof. split; [vm_compute; reflexivity|]. split; [apply clash_free_ok; vm_compute; reflexivity|]. apply view_child, elem_of_elements. vm_compute. set_solver. Qed.
