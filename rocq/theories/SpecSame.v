(** Specification for C88: what two graphs with the same text have in common; on the abstract graph of SpecGraph, with the
    notions of SpecWrite, SpecTop and SpecRound. *)
From Verif Require Import Base Maps Graph SpecGraph SpecWrite SpecTop SpecRound.

(** The same name, flags, attributes, nodes, subgraphs and edges (in any order), and the same children of every subgraph.  What
    the main graph itself contains is left open. *)
Record same_inside (s s' : sgraph) : Prop := SameInside {
  si_name : s_name s = s_name s';
  si_directed : s_directed s = s_directed s';
  si_strict : s_strict s = s_strict s';
  si_attrs : s_attrs s = s_attrs s';
  si_nodes : s_nodes s = s_nodes s';
  si_subs : s_subs s = s_subs s';
  si_edges : s_edges s ≡ₚ s_edges s';
  si_children : forall p c, s_is_sub s p -> is_child s p c <-> is_child s' p c }.

(** The same subgraphs stand at the top level of the text (see SpecTop.v). *)
Definition same_tops (s s' : sgraph) : Prop := exists T, top_subgraphs s T /\ top_subgraphs s' T.

(** Two edges differ at most in their ports, and these are printed alike. *)
Definition print_alike (e e' : edge) : Prop := exists t, printed_edge e t /\ printed_edge e' t.

(** Everything a text shows is the same: name, flags, attributes, nodes, the subgraphs that are written with their children, and
    the edges up to their order and the spelling of ports. *)
Record same_shown (s s' : sgraph) : Prop := SameShown {
  ss_name : s_name s = s_name s';
  ss_directed : s_directed s = s_directed s';
  ss_strict : s_strict s = s_strict s';
  ss_attrs : s_attrs s = s_attrs s';
  ss_nodes : s_nodes s = s_nodes s';
  ss_subs : forall n m, (s_subs s !! n = Some m /\ written s n) <-> (s_subs s' !! n = Some m /\ written s' n);
  ss_edges : exists es, es ≡ₚ s_edges s' /\ Forall2 print_alike (s_edges s) es;
  ss_children : forall p c, written s p -> is_child s p c <-> is_child s' p c;
  ss_tops : same_tops s s' }.

(** The ports of edges are spelled in one of the ways p and p:c (or absent). *)
Definition plain_ports (s : sgraph) : Prop := forall n port, endpoint s n port -> good_port port.
