(** C85: nil pointers in the containers of a graph. *)
From Verif Require Import Base Parser Maps MapFacts Graph SpecGraph AttrMap Write Zero Holes SpecHoles HolesProofs HolesPanics HolesWrite.
From Verif Require Ast PropsGraph PropsWrite.

(** Every graph with nil pointers can be completed; where there is no nil the model is that of Graph.v. *)
Theorem C85_completed : forall h, exists g, completes h g.
Proof. intros h. exists (completion h). apply completion_ok. Qed.
Print Assumptions C85_completed.
Theorem C85_without_nil : forall o c g, fair o ->
  completes (embed g) g /\ hexec o c (embed g) = (embed (exec o c g).1, Done (exec o c g).2).
Proof. intros o c g Fo. split; [apply embed_completes|by apply embed_exec]. Qed.
Print Assumptions C85_without_nil.

(** A call that returns has returned what it returns with anything in place of the nils, and has done the same. *)
Theorem C85_calls : forall o c h h' r g, hexec o c h = (h', Done r) -> completes h g -> exists g', exec o c g = (g', r) /\ completes h' g'.
Proof.
  intros o c h h' r g E C. pose proof (exec_follows o c h g C) as F. rewrite E in F. destruct F as [F1 F2].
  exists (exec o c g).1. split; [|exact F2]. rewrite <- F1. by destruct (exec o c g).
Qed.
Print Assumptions C85_calls.
(** So does a history of calls among which entries are replaced by nil, up to the first panic. *)
Theorem C85_history : forall h cs h' rs g, hhistory h cs h' rs -> completes h g -> exists g', run cs g = (g', rs) /\ completes h' g'.
Proof. intros h cs h' rs g H C. by apply (history_follows h cs h' rs H). Qed.
Print Assumptions C85_history.
(** Exactly the calls that read through a nil panic. *)
Theorem C85_panics : forall o c h, fair o -> (exists h', hexec o c h = (h', Panicked)) <-> touches o c h.
Proof.
  intros o c h Fo. rewrite <- (hexec_panics o c h Fo). destruct (hexec o c h) as [h' r]. cbn. split; [intros [x [= _ ->]]; done|intros ->; eauto].
Qed.
Print Assumptions C85_panics.
(** What has been done before the panic. *)
Theorem C85_left : forall o c h h', hexec o c h = (h', Panicked) -> holes_left o c h h'.
Proof. exact hexec_left. Qed.
Print Assumptions C85_left.
(** No call, whether it panics or not, makes a nil. *)
Theorem C85_no_new_nil : forall o c h, no_new_nil h (hexec o c h).1.
Proof. exact hexec_no_new_nil. Qed.
Print Assumptions C85_no_new_nil.

(** IsNode and IsSubGraph do not see nil. *)
Theorem C85_looks : forall h g n, completes h g -> his_node h n = is_node g n /\ his_subgraph h n = is_subgraph g n.
Proof. intros h g n C. split; [by apply his_node_eq|by apply his_subgraph_eq]. Qed.
Print Assumptions C85_looks.

(** Writing: nil in the slice Nodes does not matter.  With nil in Lookup, SubGraphs or Edges nothing is ever written: there is a panic, unless
    there is, whatever stands for the nils, the same error (or unbounded recursion) before the nil is met; with nil in Edges there is always a panic. *)
Theorem C85_write : forall srt o h g fuel, fair o -> completes h g ->
  (whole h -> hwrite_ast srt o h fuel = write_ast srt o g fuel /\ hgraph_string srt o h fuel = graph_string srt o g fuel) /\
  (~ whole h -> hwrite_ast srt o h fuel = Panic \/
     (hwrite_ast srt o h fuel = write_ast srt o g fuel /\ forall a, write_ast srt o g fuel <> Ok a)) /\
  (nil_edge h -> hwrite_ast srt o h fuel = Panic).
Proof.
  intros srt o h g fuel Fo C. pose proof (hwrite_sim o h g C Fo srt fuel) as S0. split; [|split].
  - intros W. assert (E : hwrite_ast srt o h fuel = write_ast srt o g fuel) by (destruct S0 as [E|[_ N]]; [exact E|contradiction]).
    split; [exact E|]. unfold hgraph_string, graph_string. by rewrite E.
  - intros W. destruct S0 as [E|[E _]]; [|by left]. right. split; [exact E|]. intros a Ha. apply W. eapply hwrite_whole; [exact Fo|]. rewrite E. exact Ha.
  - apply hwrite_nil_edge.
Qed.
Print Assumptions C85_write.

(** ** Examples: the graph of C30_example, with a node, a subgraph, an edge replaced by nil *)
Definition hw (xs : list hole) : hgraph := fold_left (fun h x => make_hole x h) xs (embed PropsWrite.g3).
Definition oi := PropsGraph.o_id.
Definition panicked (c : call) (xs : list hole) : bool := match hexec oi c (hw xs) with (_, Panicked) => true | _ => false end.
Example C85_example :
  completes (hw [HoleLookup (lit "b"); HoleEdge 1; HoleSub (lit "T"); HoleNode 2]) PropsWrite.g3 /\
  (* AddNode on the entry, with or without attributes; on another one; RemoveNode finds b in the slice *)
  panicked (CAddNode (lit "G") (lit "b") ∅) [HoleLookup (lit "b")] = true /\
  panicked (CAddNode (lit "G") (lit "zz") ∅) [HoleLookup (lit "b")] = false /\
  panicked (CRemoveNode (lit "S") (lit "b")) [HoleLookup (lit "b")] = false /\
  (* slice: c, b, a, d *)
  panicked (CRemoveNode (lit "S") (lit "b")) [HoleNode 2] = false /\
  panicked (CRemoveNode (lit "S") (lit "d")) [HoleNode 2] = true /\
  panicked (CRemoveNode (lit "S") (lit "zz")) [HoleNode 2] = true /\
  panicked (CRemoveNode (lit "S") (lit "b")) [HoleEdge 1] = true /\
  panicked (CRemoveNode (lit "S") (lit "zz")) [HoleEdge 1] = false /\
  panicked (CAddAttr (lit "T") (lit "not an attribute") []) [HoleSub (lit "T")] = true /\
  panicked (CAddSubGraph (lit "S") (lit "T") ∅) [HoleSub (lit "T")] = false /\
  panicked (CRemoveSubGraph (lit "G") (lit "cluster0")) [HoleNode 0] = true /\
  panicked (CRemoveSubGraph (lit "S") (lit "none")) [HoleEdge 0] = true /\
  (* writing *)
  hgraph_string PropsWrite.srt0 oi (hw [HoleNode 2]) 9 = graph_string PropsWrite.srt0 oi PropsWrite.g3 9 /\
  hgraph_string PropsWrite.srt0 oi (hw [HoleEdge 2]) 9 = Panic /\
  hgraph_string PropsWrite.srt0 oi (hw [HoleSub (lit "cluster0")]) 9 = Panic /\
  hgraph_string PropsWrite.srt0 oi (hw [HoleLookup (lit "zz")]) 9 = Panic.
Proof.
  split.
  { unfold hw. cbn [fold_left]. repeat (apply hole_completes; [vm_compute; eauto|]). apply embed_completes. }
  repeat split; vm_compute; reflexivity.
Qed.
(** An error comes first. *)
Example C85_example_error :
  let h := make_hole (HoleSub (lit "cluster0")) (embed (exec oi (CAddEdge (lit "a") (lit "ghost") true ∅) PropsWrite.g3).1) in
  ~ whole h /\ hwrite_ast PropsWrite.srt0 oi h 9 = Err (lit "ghost is not a node or a subgraph").
Proof. split; [intros (_ & _ & W); apply (W (lit "cluster0")); vm_compute; reflexivity|vm_compute; reflexivity]. Qed.
