(** Specification for Shared.v: what is seen of each graph, and which containers two graphs share. *)
From Verif Require Import Maps Graph SpecGraph Direct Shared.

(** ** What is seen of graph [i], following its references *)
Definition see (w : many) (i : nat) : agraph :=
  AGraph (the_attrs w i) (r_name (the_graph w i)) (r_directed (the_graph w i)) (r_strict (the_graph w i))
    (the_nodes w i) (the_edges w i) (the_subs w i) (the_rels w i).

(** ** Sharing *)
Definition ref_of (p : part) (r : gref) : nat :=
  match p with PAttrs => r_attrs r | PNodes => r_nodes r | PEdges => r_edges r | PSubGraphs => r_subs r | PRelations => r_rels r end.
Global Instance part_eq_dec : EqDecision part.
Proof. solve_decision. Defined.
(** Graphs [i] and [j] have the same container (or map Attrs). *)
Definition shares (p : part) (w : many) (i j : nat) : Prop := ref_of p (the_graph w i) = ref_of p (the_graph w j).
Global Instance shares_dec p w i j : Decision (shares p w i j).
Proof. unfold shares. apply _. Defined.
(** [i] shares nothing with any other graph. *)
Definition alone (w : many) (i : nat) : Prop := forall j p, j < length (m_graphs w) -> j <> i -> ~ shares p w i j.
(** [i] and [j] share everything. *)
Definition twins (w : many) (i j : nat) : Prop := forall p, shares p w i j.

(** All references point to something. *)
Definition sound (w : many) : Prop := forall i r, m_graphs w !! i = Some r ->
  r_attrs r < length (m_attrs w) /\ r_nodes r < length (m_nodes w) /\ r_edges r < length (m_edges w) /\
  r_subs r < length (m_subs w) /\ r_rels r < length (m_rels w).

Definition removal (c : call) : bool := match c with CRemoveNode _ _ | CRemoveSubGraph _ _ => true | _ => false end.

(** ** What another graph shows after a call on graph [i]: of what it shares, the new content, except that what a removal
    does to the edges is not seen; of what it does not share, the old content.  [old]: the other graph before;
    [mine]: graph [i] after. *)
Definition mixed (w : many) (i j : nat) (rem : bool) (old mine : agraph) : agraph :=
  AGraph (if decide (shares PAttrs w i j) then g_attrs mine else g_attrs old)
    (g_name old) (g_directed old) (g_strict old)
    (if decide (shares PNodes w i j) then g_nodes mine else g_nodes old)
    (if decide (shares PEdges w i j) then if rem then g_edges old else g_edges mine else g_edges old)
    (if decide (shares PSubGraphs w i j) then g_subs mine else g_subs old)
    (if decide (shares PRelations w i j) then g_rels mine else g_rels old).

(** The part [p] of a graph is replaced by that of another. *)
Definition take_part (p : part) (h g : agraph) : agraph :=
  match p with
  | PAttrs => with_attrs h (g_attrs g) | PNodes => with_nodes h (g_nodes g) | PEdges => with_edges h (g_edges g)
  | PSubGraphs => with_subs h (g_subs g) | PRelations => with_rels h (g_rels g)
  end.

(** ** Histories *)
(** The calls on graph [i], in order *)
Definition calls_on (i : nat) (es : list happening) : list (oracle * call) :=
  omap (fun e => match e with HCall j o c => if decide (j = i) then Some (o, c) else None | _ => None end) es.
(** The calls on any graph, in order *)
Definition all_calls (es : list happening) : list (oracle * call) :=
  omap (fun e => match e with HCall _ o c => Some (o, c) | _ => None end) es.
(** The results that the calls on graph [i] returned *)
Fixpoint results_on (i : nat) (es : list happening) (w : many) : list (option err) :=
  match es with
  | [] => []
  | e :: es' => (match e with HCall j _ _ => if decide (j = i) then (happen e w).2 else [] | _ => [] end) ++ results_on i es' (happen e w).1
  end.
(** Nothing is copied or assigned that belongs to graph [i], and nothing is assigned to its fields. *)
Definition leaves_alone (i : nat) (e : happening) : Prop :=
  match e with HCopy j => j <> i | HAssign _ j k => j <> i /\ k <> i | HNew | HCall _ _ _ => True end.
(** Graphs are only made by NewGraph (or Read, which makes one and calls its methods). *)
Definition separate (e : happening) : Prop := match e with HNew | HCall _ _ _ => True | HCopy _ | HAssign _ _ _ => False end.
(** Every call has fair iteration orders. *)
Definition fair_happening (e : happening) : Prop := match e with HCall _ o _ => fair o | _ => True end.
(** A call on [i] or [j] that adds something or sets a flag (no removal, no new name) *)
Definition adding (i j : nat) (e : happening) : Prop :=
  match e with HCall k _ c => (k = i \/ k = j) /\ removal c = false /\ (forall n, c <> CSetName n) | _ => False end.
(** The same graph, apart from the flags Directed and Strict *)
Definition same_content (g h : agraph) : Prop :=
  g_attrs g = g_attrs h /\ g_name g = g_name h /\ g_nodes g = g_nodes h /\ g_edges g = g_edges h /\ g_subs g = g_subs h /\ g_rels g = g_rels h.
