(** C84: syntax trees made by hand. *)
From Verif Require Import Base Parser Maps Graph AttrMap Analyse Walk RawTree SpecRaw RawAnalyse RawMake SpecMake
  WalkProofs AstProofs RawProofs RawRun RawStop MakeProofs PropsGraph.
From Verif Require Ast.
Import Ast.

(** ** A tree either has a nil somewhere or is an AST *)
Theorem C84_nil_or_ast : forall g, nil_graph g <-> ~ exists p, g = raw_graph p.
Proof.
  intros g. split.
  - intros N [p ->]. apply graph_str_nil in N. rewrite graph_str_plain in N. discriminate N.
  - intros H. destruct (image_graph g) as [N|P]; [exact N|contradiction].
Qed.
Print Assumptions C84_nil_or_ast.

(** ** String panics exactly if there is a nil *)
Theorem C84_string : forall g,
  (forall p, g = raw_graph p -> rgraph_str g = Some (graph_str p)) /\ (nil_graph g <-> rgraph_str g = None).
Proof.
  intros g. split; [intros p ->; apply graph_str_plain|]. split; [apply graph_str_nil|].
  intros E. destruct (image_graph g) as [N|[p ->]]; [exact N|]. rewrite graph_str_plain in E. discriminate E.
Qed.
Print Assumptions C84_string.
(** The same for the String of each statement. *)
Theorem C84_stmt_string : forall x,
  (forall p, x = raw_stmt p -> rstmt_str [] x = Some (stmt_str [] p)) /\ (nil_stmt x <-> rstmt_str [] x = None).
Proof.
  intros x. split; [intros p ->; apply str_plain|]. split; [intros N; exact (proj1 str_nil x N [])|].
  intros E. destruct (proj1 image_all x) as [N|[p ->]]; [exact N|]. rewrite (proj1 str_plain) in E. discriminate E.
Qed.
Print Assumptions C84_stmt_string.

(** ** Walk makes the visits of the specification, with any visitor: it may return nil, and it may panic *)
Theorem C84_walk : forall St V visit g (v : option V) (s s' : St),
  (rw_graph St V visit g v s = Returns s' tt <-> exists l, rtour St V visit v (rt_graph g) s l s' true) /\
  (rw_graph St V visit g v s = Panics s' <-> exists l, rtour St V visit v (rt_graph g) s l s' false).
Proof.
  intros St V visit g v s s'. rewrite graph_go. destruct (go_tour St V visit (rt_graph g) v s) as (l & s1 & b & T & E).
  split; split.
  - intros H. rewrite E in H. destruct b; [|discriminate H]. injection H as <-. eauto.
  - intros [l2 T2]. exact (proj1 (tour_go St V visit) _ _ _ _ _ _ T2).
  - intros H. rewrite E in H. destruct b; [discriminate H|]. injection H as <-. eauto.
  - intros [l2 T2]. exact (proj1 (tour_go St V visit) _ _ _ _ _ _ T2).
Qed.
Print Assumptions C84_walk.
(** On an AST it is the Walk of C48. *)
Theorem C84_walk_ast : forall St V (visit : St -> V -> elem -> St * option V) rvisit,
  (forall s v e, rvisit s v (raw_elem e) = Returns (fst (visit s v e)) (snd (visit s v e))) ->
  forall p v s,
  match w_graph St V visit p v s with
  | Some s' => rw_graph St V rvisit (raw_graph p) v s = Returns s' tt
  | None => exists s', rw_graph St V rvisit (raw_graph p) v s = Panics s'
  end.
Proof. exact sim_graph. Qed.
Print Assumptions C84_walk_ast.
(** A visitor that never returns nil does not get through a tree with a nil. *)
Theorem C84_walk_nil : forall St V (visit : St -> V -> relem -> ending St (option V)),
  (forall s v e s', visit s v e <> Returns s' None) ->
  forall g v s, nil_graph g -> exists s', rw_graph St V visit g (Some v) s = Panics s'.
Proof.
  intros St V visit Hv g v s N. rewrite graph_go.
  apply (go_broken St V visit (fun _ _ => True) (fun _ _ => True)); auto.
  - intros s1 v1 e s2 [r|] _ E; [eauto|]. destruct (Hv _ _ _ _ E).
  - apply nil_broken_graph. exact N.
Qed.
Print Assumptions C84_walk_nil.

(** ** Analyse, into any Interface, panics exactly if there is a nil *)
Theorem C84_analyse : forall S step ord g (s0 : S),
  (forall p, g = raw_graph p -> ranalyse S step ord g s0 = Returns (fst (analyse S step ord p s0)) (snd (analyse S step ord p s0))) /\
  (nil_graph g <-> exists s, ranalyse S step ord g s0 = Panics s).
Proof.
  intros S step ord g s0. split; [intros p ->; apply ranalyse_plain|]. split; [apply ranalyse_nil|].
  intros [s E]. destruct (image_graph g) as [N|[p ->]]; [exact N|]. rewrite ranalyse_plain in E. discriminate E.
Qed.
Print Assumptions C84_analyse.
Theorem C84_new_analysed_graph : forall os ord g,
  (forall p, g = raw_graph p -> rnew_analysed_graph os ord g = Some (new_analysed_graph os ord p)) /\
  (nil_graph g <-> rnew_analysed_graph os ord g = None).
Proof.
  intros os ord g. split; [intros p ->; apply rnew_plain|]. split; [apply rnew_nil|].
  intros E. destruct (image_graph g) as [N|[p ->]]; [exact N|]. rewrite rnew_plain in E. discriminate E.
Qed.
Print Assumptions C84_new_analysed_graph.
(** When it panics, the Interface has got all the calls for the statements before, and perhaps more ([cs]). *)
Theorem C84_calls_before : forall S step ord t st i pre post (s0 s : S),
  ranalyse S step ord (Some (RGraph t st i (map raw_stmt pre ++ post))) s0 = Panics s ->
  exists cs, s = fold_left (fun s c => fst (step s c)) cs (fst (analyse S step ord (Graph t st i pre) s0)).
Proof. exact ranalyse_before. Qed.
Print Assumptions C84_calls_before.
(** What stands behind a statement with a nil does not matter. *)
Theorem C84_rest_unseen : forall S step ord t st i pre x post post2 (s0 : S), nil_stmt x ->
  ranalyse S step ord (Some (RGraph t st i (pre ++ x :: post))) s0 = ranalyse S step ord (Some (RGraph t st i (pre ++ x :: post2))) s0.
Proof. exact ranalyse_rest. Qed.
Print Assumptions C84_rest_unseen.
(** Exactly which calls: if the nil stands at once in a statement, there is none for that statement; if it is an end of an edge
    between nodes, there are those for the arrows before it.  This holds at any depth of subgraph statements. *)
Theorem C84_stops : forall S step ord t st i pre k x before post (s0 : S), stops x before ->
  ranalyse S step ord (Some (RGraph t st i (ropened pre k (x :: post)))) s0 =
  Panics (fst (analyse S step ord (Graph t st i (opened pre k before)) s0)).
Proof. exact ranalyse_stop. Qed.
Print Assumptions C84_stops.

(** ** The constructors, with arguments of any type *)
Theorem C84_constructor_ends : forall rnd o k c,
  (fst (make rnd o k c) = CErr <-> refused c = true) /\
  (fst (make rnd o k c) = CPanic <-> refused c = false /\ exists p x, In (p, x) (params c) /\ takes p x = false).
Proof.
  intros rnd o k c. pose proof (make_ends rnd o k c) as H.
  assert (W : well c = false <-> exists p x, In (p, x) (params c) /\ takes p x = false).
  { unfold well. split.
    - intros E. induction (params c) as [|[p x] l IH]; [discriminate E|]. cbn [forallb fst snd] in E. destruct (takes p x) eqn:T.
      + destruct (IH E) as (q & y & Hy & Ty). exists q, y. split; [right; exact Hy|exact Ty].
      + exists p, x. split; [left; reflexivity|exact T].
    - intros (p & x & Hx & T). apply not_true_iff_false. intros A. rewrite forallb_forall in A. specialize (A _ Hx). cbn [fst snd] in A. congruence. }
  rewrite <- W. destruct (fst (make rnd o k c)); cbn [ends_as] in H.
  - destruct H as [H1 H2]. split; split; try discriminate; [congruence|]. intros [_ E]. congruence.
  - split; split; try discriminate; auto. intros [E _]. congruence.
  - split; split; try discriminate; auto. intros E. destruct H. congruence.
Qed.
Print Assumptions C84_constructor_ends.
(** Only NewSubGraph without a name draws a random number, even if it panics then. *)
Theorem C84_constructor_draws : forall rnd o k c, snd (make rnd o k c) = if draws_random c then S k else k.
Proof. exact make_draws. Qed.
Print Assumptions C84_constructor_draws.

(** ** Which graphs can be made by calling constructors and checking the errors *)
Theorem C84_made_exact : forall g, made (AGraph g) <-> exists p, g = raw_graph p /\ can_graph p.
Proof.
  intros g. split; [exact (made_good (AGraph g))|]. intros (p & -> & C).
  exact (proj2 (dm_graph (fun _ => 0%N) o_id fair_id p C)).
Qed.
Print Assumptions C84_made_exact.
(** Such a program for each of them. *)
Theorem C84_rebuild : forall rnd o p, fair o -> can_graph p -> mk_graph rnd o p = Some (AGraph (raw_graph p)).
Proof. intros rnd o p F C. exact (proj1 (dm_graph rnd o F p C)). Qed.
Print Assumptions C84_rebuild.
(** They have no nil: printing and analysing them does not panic. *)
Theorem C84_made_safe : forall g os ord, made (AGraph g) -> rgraph_str g <> None /\ rnew_analysed_graph os ord g <> None.
Proof.
  intros g os ord M. apply C84_made_exact in M as (p & -> & C). rewrite graph_str_plain, rnew_plain. split; discriminate.
Qed.
Print Assumptions C84_made_safe.

(** ** Examples *)
(** digraph { a; b -> (nil) } : a and b are added, then it panics. *)
Definition node84 (n : gostr) : node_id := NodeID n (Port [] []).
Definition g84 : option rgraph :=
  Some (RGraph true false [] [RNode (Some (node84 (lit "a"))) []; REdge (RLNode (Some (node84 (lit "b")))) [RH true RLNil] []; RNode (Some (node84 (lit "c"))) []]).
Definition log84 (s : list call) (c : call) : list call * option err := (s ++ [c], None).
Example C84_analyse_example : nil_graph g84 /\ rgraph_str g84 = None /\
  ranalyse _ log84 (fun _ m => map_to_list m) g84 [] =
    Panics [CSetStrict false; CSetDir true; CSetName []; CAddNode [] (lit "a") ∅; CAddNode [] (lit "b") ∅].
Proof.
  split; [|split; [reflexivity|vm_compute; reflexivity]].
  exists (REdge (RLNode (Some (node84 (lit "b")))) [RH true RLNil] []). split; [right; left; reflexivity|].
  apply (NS_rhs _ _ _ (RH true RLNil)); [left; reflexivity|constructor; constructor].
Qed.
(** digraph { a; subgraph s { a -> b -> nil } } with the nil a *SubGraph *)
Example C84_stops_example : let e := REdge (RLNode (Some (node84 (lit "a")))) [RH true (RLNode (Some (node84 (lit "b")))); RH true (RLSub RSNil)] [] in
  stops e [SEdge (LNode (node84 (lit "a"))) [EdgeRH true (LNode (node84 (lit "b")))] []] /\
  ranalyse _ log84 (fun _ m => map_to_list m) (Some (RGraph true false [] (ropened [SNode (node84 (lit "a")) []] [(lit "s", [], [RNil])] [e]))) [] =
    Panics [CSetStrict false; CSetDir true; CSetName []; CAddNode [] (lit "a") ∅; CAddSubGraph [] (lit "s") ∅; CAddNode (lit "s") (lit "a") ∅; CAddNode (lit "s") (lit "b") ∅;
      CAddPortEdge (lit "a") [] (lit "b") [] true ∅].
Proof.
  cbv zeta. split; [|vm_compute; reflexivity].
  apply (Stop_arrow (node84 (lit "a")) [EdgeRH true (LNode (node84 (lit "b")))] (RH true (RLSub RSNil)) [] []); [repeat constructor|right; right; reflexivity].
Qed.
(** An error that is not checked: NewAttr returns a nil *Attr, NewAList takes it, and the tree made with it panics. *)
Example C84_unchecked_error : forall rnd o,
  fst (make rnd o 0 (NewAttr (AId (lit "color")) (AType true))) = CErr /\
  fst (make rnd o 0 (NewAList (AStmt (RAttr None)))) = COk (AAList [None]) /\
  fst (make rnd o 0 (NewAttrList (AAList [None]))) = COk (AAttrList [[None]]) /\
  fst (make rnd o 0 (NewNodeStmt (ANodeID (Some (node84 (lit "a")))) (AAttrList [[None]]))) = COk (AStmt (RNode (Some (node84 (lit "a"))) [[None]])) /\
  rstmt_str [] (RNode (Some (node84 (lit "a"))) [[None]]) = None.
Proof. intros rnd o. repeat split. Qed.
(** NewSubGraph looks at the name first: a wrong name is an error, a wrong body panics after a draw. *)
Example C84_subgraph_example : forall rnd o,
  make rnd o 7 (NewSubGraph AOther AOther) = (CErr, 7) /\ make rnd o 7 (NewSubGraph ANil AOther) = (CPanic, 8) /\
  make rnd o 7 (NewSubGraph (AId (lit "g")) ANil) = (COk (AStmt (RSub (RSubGraph (lit "g") []))), 7).
Proof. intros rnd o. repeat split. Qed.
(** strict digraph G { a [color=red]; subgraph s { } -> b } can be made *)
Definition p84 : graph := Graph true true (lit "G")
  [SNode (node84 (lit "a")) [[Attr (lit "color") (lit "red")]];
   SEdge (LSub (SubGraph (lit "s") [])) [EdgeRH true (LNode (node84 (lit "b")))] []].
Example C84_made_example : can_graph p84 /\ made (AGraph (raw_graph p84)) /\
  mk_graph (fun _ => 0%N) o_id p84 = Some (AGraph (raw_graph p84)).
Proof.
  assert (C : can_graph p84).
  { unfold can_graph, p84. cbn [g_stmts]. constructor; [constructor|]. constructor; [|constructor].
    cbn. repeat split; discriminate. }
  split; [exact C|]. split; [apply C84_made_exact; eauto|]. apply C84_rebuild; [exact fair_id|exact C].
Qed.
(** No constructor makes an edge statement without an arrow or a subgraph with an empty name. *)
Example C84_not_made_example : ~ made (AGraph (raw_graph (Graph true false [] [SEdge (LNode (node84 (lit "a"))) [] []]))) /\
  ~ made (AGraph (raw_graph (Graph true false [] [SSub (SubGraph [] [])]))).
Proof.
  split; intros M; apply C84_made_exact in M as (p & E & C); destruct p as [t st i b]; unfold raw_graph in E; cbn [g_type g_strict g_id g_stmts map raw_stmt] in E;
    injection E as _ _ _ E; destruct b as [|x [|y b]]; try discriminate E; injection E as E; unfold can_graph in C; cbn [g_stmts] in C;
    apply Forall_cons in C as [C _]; destruct x; try discriminate E.
  - cbn in E. injection E as _ E _. destruct rhs; [|discriminate E]. destruct C as (_ & N & _). contradiction.
  - cbn in E. injection E as E. destruct g as [id b]. injection E as E _. destruct C as [N _]. congruence.
Qed.
