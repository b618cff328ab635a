(** Specification for C60: which abstract graphs (SpecGraph.v) the calls can build. *)
From Verif Require Import Maps Graph SpecGraph.

(** An abstract graph makes sense: its list of node names lists each node once, and its attributes have valid names. *)
Record plain (s : sgraph) : Prop := Plain {
  pl_nodup : NoDup (s_order s);
  pl_order : forall n, n ∈ s_order s <-> s_is_node s n;
  pl_attrs : all_valid (s_attrs s);
  pl_nodes : forall n a, s_nodes s !! n = Some a -> all_valid a;
  pl_subs : forall n a, s_subs s !! n = Some a -> all_valid a;
  pl_edges : Forall (fun e => all_valid (e_attrs e)) (s_edges s) }.

Definition has_parent (s : sgraph) (n : gostr) : Prop := exists p, is_child s p n.
(** Everything is somewhere, and only what is there is somewhere. *)
Definition placed (s : sgraph) : Prop :=
  (forall n, s_is_node s n \/ s_is_sub s n -> has_parent s n) /\
  (forall p c, is_child s p c -> s_is_node s c \/ s_is_sub s c).
(** What is a node and a subgraph at once is somewhere. *)
Definition both_placed (s : sgraph) : Prop := forall n, s_is_node s n -> s_is_sub s n -> has_parent s n.

(** The calls that remove nothing. *)
Definition additive (c : call) : Prop :=
  match c with CRemoveNode _ _ | CRemoveSubGraph _ _ => False | _ => True end.
(** Graphs built with them (errors ignored). *)
Inductive grown : agraph -> Prop :=
| grown_new : grown new_graph
| grown_call g o c : grown g -> fair o -> additive c -> grown (exec o c g).1.
