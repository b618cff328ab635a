(** C75: names are only labels. *)
From Verif Require Import Base Lexer LexSpec Tokens Parser SpecGrammar ParseFacts Maps Graph AttrMap MapFacts SpecGraph GraphProofs Direct DirectProofs
  Analyse SpecAnalyse ReadProofs Write SpecWrite WriteProofs EdgeOrder SpecRename SpecLabel SpecDraw LabelProofs LabelProofs2 LabelAnalyse LabelWrite LabelRead.
From Verif Require Import PropsGraph PropsGraphTight PropsAnalyse.
From Verif Require PropsWrite PropsReread WriteFacts.
From Verif Require Ast.

(** ** Calls: with names replaced one to one, ports and values in any way, a call does the same to the graph. *)
Theorem C75_call : forall nm pt vl o c g g', (forall x y, nm x = nm y -> x = y) -> pt [] = [] -> fair o -> built g -> built g' ->
  view g' = lb_graph nm pt vl (view g) -> ports_apart nm pt c (view g) ->
  exists o', fair o' /\ view (exec o' (lb_call nm pt vl c) g').1 = lb_graph nm pt vl (view (exec o c g).1) /\
    lb_result nm (exec o c g).2 (exec o' (lb_call nm pt vl c) g').2.
Proof.
  intros nm pt vl o c g g' HI P0 Fo B B' V PA. assert (IJ : Inj (=) (=) nm) by (intros x y; apply HI).
  pose proof (C23_refinement_step o c g Fo B) as H. destruct (lb_spec nm pt vl _ _ _ _ P0 PA H) as (r' & H' & L).
  rewrite <- V in H'. apply (C23_spec_exact _ g' _ _ B') in H'. destruct H' as (o' & Fo' & E & <-). exists o'. auto.
Qed.
Print Assumptions C75_call.

(** A whole history. *)
Theorem C75_history : forall nm pt vl h g g', (forall x y, nm x = nm y -> x = y) -> pt [] = [] -> Forall (fun oc => fair oc.1) h -> built g -> built g' ->
  view g' = lb_graph nm pt vl (view g) -> ports_clear nm pt (view g) (map snd h) ->
  exists h', map snd h' = map (lb_call nm pt vl) (map snd h) /\ Forall (fun oc => fair oc.1) h' /\
    view (run h' g').1 = lb_graph nm pt vl (view (run h g).1) /\ Forall2 (lb_result nm) (run h g).2 (run h' g').2.
Proof.
  intros nm pt vl h g g' HI P0 F. revert g g'. induction h as [|[o c] h IH]; intros g g' B B' V C.
  - exists []. split; [reflexivity|]. split; [constructor|]. split; [exact V|constructor].
  - apply Forall_cons in F. destruct F as [Fo F]. cbn in Fo. cbn [map snd] in C.
    destruct (clear_step _ _ _ _ _ _ _ (C23_refinement_step o c g Fo B) C) as [PA C'].
    destruct (C75_call nm pt vl o c g g' HI P0 Fo B B' V PA) as (o' & Fo' & V' & L).
    assert (B1 : built (exec o c g).1) by (constructor; assumption). assert (B1' : built (exec o' (lb_call nm pt vl c) g').1) by (constructor; assumption).
    destruct (IH F _ _ B1 B1' V' C') as (h' & E & F' & V2 & L2). exists ((o', lb_call nm pt vl c) :: h').
    split; [cbn; rewrite E; reflexivity|]. split; [constructor; assumption|].
    cbn [run]. destruct (exec o c g) as [g1 r]. destruct (exec o' (lb_call nm pt vl c) g') as [g1' r']. cbn [fst snd] in *.
    destruct (run h g1) as [g2 rs]. destruct (run h' g1') as [g2' rs']. cbn [fst snd] in *. split; [exact V2|constructor; assumption].
Qed.
Print Assumptions C75_history.

(** Queries. *)
Theorem C75_queries : forall nm pt vl g g', (forall x y, nm x = nm y -> x = y) -> view g' = lb_graph nm pt vl (view g) ->
  (forall n, is_node g' (nm n) = is_node g n /\ is_subgraph g' (nm n) = is_subgraph g n) /\
  (forall n', is_node g' n' = true \/ is_subgraph g' n' = true -> exists n, n' = nm n).
Proof.
  intros nm pt vl g g' HI V. assert (IJ : Inj (=) (=) nm) by (intros x y; apply HI). split.
  - intros n. split; apply eq_true_iff_eq.
    + rewrite (proj1 (C23_queries g' (nm n))), (proj1 (C23_queries g n)), V. apply lg_node. exact IJ.
    + rewrite (proj1 (proj2 (C23_queries g' (nm n)))), (proj1 (proj2 (C23_queries g n))), V. apply lg_sub. exact IJ.
  - intros n' H. rewrite (proj1 (C23_queries g' n')), (proj1 (proj2 (C23_queries g' n'))), V in H.
    destruct H as [[a H]|[a H]]; cbn in H; apply lt_some in H; try exact IJ; destruct H as (n & _ & -> & _); eauto.
Qed.
Print Assumptions C75_queries.

(** ** Analysis of a tree *)
Theorem C75_analyse : forall nm os ord os' ord' a, (forall x y, nm x = nm y -> x = y) -> (forall i, fair (os i)) -> fair_order ord -> (forall i, fair (os' i)) -> fair_order ord' ->
  whole_names nm a ->
  match new_analysed_graph os ord a, new_analysed_graph os' ord' (lb_ast nm a) with
  | inl g, inl g' => view g' = named nm (view g)
  | inr _, inr _ => True
  | _, _ => False
  end.
Proof. intros nm os ord os' ord' a HI F O F' O' W. assert (IJ : Inj (=) (=) nm) by (intros x y; apply HI). apply ren_analysed; assumption. Qed.
Print Assumptions C75_analyse.

(** ** The draws of the random source only name the anonymous subgraphs *)
Theorem C75_parse : forall rnd rnd' k k' n src w a, scans_to src w -> draws_clear rnd k n w -> draws_clear rnd' k' n w ->
  parse_bytes rnd k src = Ok (a, k + n) ->
  exists nm, swaps_draws nm rnd rnd' k k' n /\ parse_bytes rnd' k' src = Ok (lb_ast nm a, k' + n).
Proof.
  intros rnd rnd' k k' n src w a Hs C C' H. destruct (swaps_exist _ _ _ _ _ _ C C') as (nm & SW). exists nm. split; [exact SW|].
  apply (parse_draws rnd rnd' k k' n src w nm a Hs C C' SW H).
Qed.
Print Assumptions C75_parse.
Theorem C75_read : forall rnd rnd' os os' ord ord' k k' n src w g, (forall i, fair (os i)) -> fair_order ord -> (forall i, fair (os' i)) -> fair_order ord' ->
  scans_to src w -> draws_clear rnd k n w -> draws_clear rnd' k' n w ->
  read rnd os ord k src = Ok (g, k + n) ->
  exists nm g', swaps_draws nm rnd rnd' k k' n /\ read rnd' os' ord' k' src = Ok (g', k' + n) /\ view g' = named nm (view g).
Proof.
  intros rnd rnd' os os' ord ord' k k' n src w g F O F' O' Hs C C' H. destruct (swaps_exist _ _ _ _ _ _ C C') as (nm & SW).
  unfold read in *. destruct (parse_bytes rnd k src) as [[a k1]|e| |] eqn:E; try discriminate.
  destruct (new_analysed_graph os ord a) as [g1|x] eqn:A; [|discriminate]. injection H as -> ->.
  destruct (parse_draws rnd rnd' k k' n src w nm a Hs C C' SW E) as [E' W]. rewrite E'.
  pose proof (C75_analyse nm os ord os' ord' a (proj1 SW) F O F' O' W) as M. rewrite A in M.
  destruct (new_analysed_graph os' ord' (lb_ast nm a)) as [g'|]; [|contradiction]. exists nm, g'. auto.
Qed.
Print Assumptions C75_read.

(** ** Writing: the tree of the graph with other names is the tree with other names, if the order of the names stays. *)
Theorem C75_write : forall nm srt srt' o o' g g' fuel, (forall x y, nm x = nm y -> x = y) -> fair o -> fair o' ->
  sorts (edge_less o) srt -> sorts (edge_less o') srt' -> built g -> built g' -> view g' = named nm (view g) ->
  order_kept nm (view g) -> clusters_kept nm (view g) -> (forall e k, e ∈ edges_list (g_edges g) -> e_attrs e !! k <> Some []) ->
  match write_ast srt o g fuel, write_ast srt' o' g' fuel with
  | Ok a, Ok a' => a' = lb_ast nm a
  | Err e, Err e' => lb_error nm e e'
  | OutOfFuel, OutOfFuel => True
  | _, _ => False
  end.
Proof.
  intros nm srt srt' o o' g g' fuel HI Fo Fo' S S' B B' V HO HC F. assert (IJ : Inj (=) (=) nm) by (intros x y; apply HI).
  rewrite (write_canon o g Fo (built_ok g B)), (write_canon o' g' Fo' (built_ok g' B')), V.
  assert (Fu : Forall full (s_edges (view g))) by (apply Forall_forall; intros e He k; apply F; exact He).
  change (s_edges (named nm (view g))) with (map (lb_edge nm id id) (s_edges (view g))).
  rewrite (edges_sorted nm (view g) HO o o' srt srt' Fo Fo' S S' Fu).
  pose proof (c_write_ren nm (view g) HO HC fuel (srt (s_edges (view g)))) as R.
  pose proof (WriteFacts.c_write_panic (view g) fuel (srt (s_edges (view g)))) as NP.
  unfold lb_res in R. destruct (c_write (view g) fuel _), (c_write (named nm (view g)) fuel _); auto.
Qed.
Print Assumptions C75_write.

(** ** The text of a graph that was read depends on the draws only through the names of the anonymous subgraphs,
    as long as these come in the same order and no other name begins with "anon". *)
Theorem C75_text : forall rnd rnd' os os' ord ord' srt srt' o o' k k' n src w g fuel, (forall i, fair (os i)) -> fair_order ord -> (forall i, fair (os' i)) -> fair_order ord' ->
  fair o -> fair o' -> sorts (edge_less o) srt -> sorts (edge_less o') srt' ->
  scans_to src w -> draws_clear rnd k n w -> draws_clear rnd' k' n w -> read rnd os ord k src = Ok (g, k + n) ->
  (forall i j, i < n -> j < n -> before (anon (rnd (k + i))) (anon (rnd (k + j))) -> before (anon (rnd' (k' + i))) (anon (rnd' (k' + j)))) ->
  (forall x t, known (view g) x -> x = lit "anon" ++ t -> exists i, i < n /\ x = anon (rnd (k + i))) ->
  (forall e x, e ∈ edges_list (g_edges g) -> e_attrs e !! x <> Some []) ->
  exists nm g', swaps_draws nm rnd rnd' k k' n /\ read rnd' os' ord' k' src = Ok (g', k' + n) /\
    match write_ast srt o g fuel, write_ast srt' o' g' fuel with
    | Ok a, Ok a' => a' = lb_ast nm a /\ graph_string srt' o' g' fuel = Ok (Ast.graph_str (lb_ast nm a))
    | Err e, Err e' => lb_error nm e e'
    | OutOfFuel, OutOfFuel => True
    | _, _ => False
    end.
Proof.
  intros rnd rnd' os os' ord ord' srt srt' o o' k k' n src w g fuel F O F' O' Fo Fo' S S' Hs C C' H HB HK HE.
  destruct (C75_read rnd rnd' os os' ord ord' k k' n src w g F O F' O' Hs C C' H) as (nm & g' & SW & H' & V). exists nm, g'. split; [exact SW|]. split; [exact H'|].
  destruct (order_kept_draws nm rnd rnd' k k' n (view g) SW HB HK) as [HO HC].
  assert (B : built g) by (apply reachable_built; eapply PropsReread.read_reachable; [exact F|exact O|exact H]). assert (B' : built g') by (apply reachable_built; eapply PropsReread.read_reachable; [exact F'|exact O'|exact H']).
  pose proof (C75_write nm srt srt' o o' g g' fuel (proj1 SW) Fo Fo' S S' B B' V HO HC HE) as W. unfold graph_string.
  destruct (write_ast srt o g fuel), (write_ast srt' o' g' fuel); try exact W. subst. split; reflexivity.
Qed.
Print Assumptions C75_text.

(** From NewGraph. *)
Theorem C75_from_new : forall nm pt vl h, (forall x y, nm x = nm y -> x = y) -> nm [] = [] -> pt [] = [] -> Forall (fun oc => fair oc.1) h -> ports_clear nm pt s_empty (map snd h) ->
  exists h', map snd h' = map (lb_call nm pt vl) (map snd h) /\ Forall (fun oc => fair oc.1) h' /\
    view (run h' new_graph).1 = lb_graph nm pt vl (view (run h new_graph).1) /\ Forall2 (lb_result nm) (run h new_graph).2 (run h' new_graph).2.
Proof.
  intros nm pt vl h HI N0 P0 F C. apply (C75_history nm pt vl h new_graph new_graph HI P0 F built_new built_new); rewrite view_new; [|exact C].
  assert (IJ : Inj (=) (=) nm) by (intros x y; apply HI).
  unfold s_empty, lb_graph. cbn. rewrite N0. f_equal. symmetry. apply la_empty.
Qed.
Print Assumptions C75_from_new.

(** ** Examples *)
(** Names, ports and values with a prefix: a history with an error and a removal. *)
Definition nm1 (x : gostr) : gostr := match x with [] => [] | _ => lit "n_" ++ x end.
Definition pt1 (x : gostr) : gostr := match x with [] => [] | _ => lit "n_" ++ x end.
Definition vl1 (x : gostr) : gostr := lit "v" ++ x.
Definition h1 : list (oracle * call) := map (pair o_id)
  [CSetName (lit "G"); CAddSubGraph (lit "G") (lit "S") ∅; CAddNode (lit "S") (lit "a") (A [(lit "color", lit "red")]); CAddNode (lit "G") (lit "b") ∅;
   CAddPortEdge (lit "b") (lit "S") (lit "b") (lit "p") true ∅; CAddEdge (lit "b") (lit "b") true ∅; CRemoveNode (lit "G") (lit "c"); CRemoveSubGraph (lit "G") (lit "S")].
Lemma nm1_inj x y : nm1 x = nm1 y -> x = y.
Proof. destruct x, y; cbn; try discriminate; [reflexivity|]. intros [= -> ->]. reflexivity. Qed.
Example C75_example : (forall x y, nm1 x = nm1 y -> x = y) /\ nm1 [] = [] /\ pt1 [] = [] /\ Forall (fun oc => fair oc.1) h1 /\ ports_clear nm1 pt1 s_empty (map snd h1) /\
  (run h1 new_graph).2 <> repeat None 8 /\ length (edges_list (g_edges (run h1 new_graph).1)) = 1.
Proof.
  split; [exact nm1_inj|]. split; [reflexivity|]. split; [reflexivity|]. split; [apply Forall_fmap; apply Forall_true; intros; apply PropsGraph.fair_id|].
  split; [intros p n q _ _; split; [apply nm1_inj|intros ->; reflexivity]|]. split; [|vm_compute; reflexivity].
  intros H. apply (f_equal (fun l => match nth 6 l None with Some _ => true | None => false end)) in H. vm_compute in H. discriminate.
Qed.
(** RemoveSubGraph compares the ports with the name: if the names of subgraphs change and the ports do not, edges survive that did not. *)
Example C75_ports_needed : let h2 := map (fun oc => (oc.1, lb_call nm1 id id oc.2)) h1 in
  length (edges_list (g_edges (run h1 new_graph).1)) = 1 /\ length (edges_list (g_edges (run h2 new_graph).1)) = 2.
Proof. split; vm_compute; reflexivity. Qed.

(** Draws. *)
Definition src5 : gostr := lit "graph G {{b} -- {a} c}".
Definition draw (l : list N) (k : nat) : N := nth k l 0%N.
Definition w5 : word := map (fun t => (tk_type t, tk_lit t)) (removelast (tokens src5)).
Lemma scans5 : scans_to src5 w5.
Proof. apply scans_to_tokens. exists (removelast (tokens src5)), (List.last (tokens src5) (Token 0 [] 0 0 0)). split; [|split]; vm_compute; reflexivity. Qed.
Lemma clear5 l : NoDup (take 2 l) -> length (take 2 l) = 2 -> draws_clear (draw l) 0 2 w5.
Proof.
  intros N L. split.
  - intros i j H E. destruct l as [|x [|y l]]; cbn in L; try lia. apply NoDup_cons in N. destruct N as [N _].
    assert (i = 0) as -> by lia. assert (j = 1) as -> by lia. cbn in E. subst. apply N. left.
  - intros i t _ H E. assert (K : length t <= 3).
    { assert (B : forallb (fun x => negb (Nat.eqb x.1 ID) || Nat.leb (length x.2) 3) w5 = true) by (vm_compute; reflexivity).
      rewrite forallb_forall in B. apply elem_of_list_In in H. specialize (B _ H). cbn in B. apply Nat.leb_le in B. exact B. }
    subst. unfold anon in K. rewrite app_length in K. change (length (lit "anon")) with 4 in K. lia.
Qed.
Definition text5 (l : list N) : gostr := match read (draw l) os_id ord_id 0 src5 with Ok (g, _) => match graph_string PropsWrite.srt0 o_id g 9 with Ok t => t | _ => [] end | _ => [] end.
Example C75_draws_example : draws_clear (draw [7; 9]%N) 0 2 w5 /\ draws_clear (draw [10; 8]%N) 0 2 w5 /\ (exists g, read (draw [7; 9]%N) os_id ord_id 0 src5 = Ok (g, 0 + 2)).
Proof.
  split; [apply clear5; [apply (bool_decide_unpack _); vm_compute; exact I|reflexivity]|].
  split; [apply clear5; [apply (bool_decide_unpack _); vm_compute; exact I|reflexivity]|].
  assert (E : match read (draw [7; 9]%N) os_id ord_id 0 src5 with Ok (_, k) => Nat.eqb k 2 | _ => false end = true) by (vm_compute; reflexivity).
  destruct (read (draw [7; 9]%N) os_id ord_id 0 src5) as [[g k]| | |]; try discriminate. apply Nat.eqb_eq in E. subst. eauto.
Qed.
Example C75_text_example : text5 [7; 9]%N = lit "graph G {
	subgraph anon7 {
	b;
}--subgraph anon9 {
	a;
};
	c;
}
" /\ text5 [70; 90]%N = lit "graph G {
	subgraph anon70 {
	b;
}--subgraph anon90 {
	a;
};
	c;
}
".
Proof. split; vm_compute; reflexivity. Qed.
(** The order of the draws shows in the text; and a draw that is a name of the text joins two subgraphs. *)
Definition text_of (l : list N) (src : gostr) : gostr := match read (draw l) os_id ord_id 0 src with Ok (g, _) => match graph_string PropsWrite.srt0 o_id g 9 with Ok t => t | _ => [] end | _ => [] end.
Example C75_order_needed : text_of [7; 9]%N (lit "graph G {{b} {a}}") = lit "graph G {
	subgraph anon7 {
		b;
	};
	subgraph anon9 {
		a;
	};
}
" /\ text_of [9; 7]%N (lit "graph G {{b} {a}}") = lit "graph G {
	subgraph anon7 {
		a;
	};
	subgraph anon9 {
		b;
	};
}
".
Proof. split; vm_compute; reflexivity. Qed.
Example C75_clear_needed : text_of [5]%N (lit "graph G {subgraph anon7 {a} {b}}") = lit "graph G {
	subgraph anon5 {
		b;
	};
	subgraph anon7 {
		a;
	};
}
" /\ text_of [7]%N (lit "graph G {subgraph anon7 {a} {b}}") = lit "graph G {
	subgraph anon7 {
		a;
		b;
	};
}
".
Proof. split; vm_compute; reflexivity. Qed.
(** A node statement with a port is a node with the port in its name, so replacing the name before the port is not replacing the name of the node. *)
Example C75_whole_needed : let t := Ast.Graph false false (lit "G") [Ast.SNode (Ast.NodeID (lit "a") (Ast.Port (lit "p") [])) []] in
  let nm := instead (lit "a") (lit "b") in
  match new_analysed_graph os_id ord_id t, new_analysed_graph os_id ord_id (lb_ast nm t) with
  | inl g, inl g' => is_node g (lit "a:p") = true /\ nm (lit "a:p") = lit "a:p" /\ is_node g' (lit "a:p") = false /\ is_node g' (lit "b:p") = true
  | _, _ => False end.
Proof. vm_compute. repeat split. Qed.
