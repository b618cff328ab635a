(** Specification for C63: what calls say, independent of their order. *)
From Verif Require Import Maps Graph SpecGraph SpecAnalyse.
From Verif Require Ast.

(** The facts that a call other than AddEdge, AddPortEdge, SetName and the removals states. *)
Inductive fact :=
| FNode (n : gostr)                  (* n is a node *)
| FNodeAttr (n k v : gostr)          (* the attribute k of the node n is v *)
| FSub (n : gostr)                   (* n is a subgraph *)
| FGraphAttr (n k v : gostr)         (* the attribute k of the graph or subgraph n is v *)
| FChild (p n : gostr)               (* n is in p *)
| FStrict (b : bool) | FDirected (b : bool).
Definition states (c : call) (f : fact) : Prop :=
  match c with
  | CSetStrict b => f = FStrict b
  | CSetDir b => f = FDirected b
  | CAddNode p n m => f = FNode n \/ f = FChild p n \/ exists k v, m !! k = Some v /\ f = FNodeAttr n k v
  | CAddSubGraph p n m => f = FSub n \/ f = FChild p n \/ exists k v, m !! k = Some v /\ f = FGraphAttr n k v
  | CAddAttr n k v => f = FGraphAttr n k v
  | _ => False
  end.
Definition said (cs : list call) (f : fact) : Prop := exists c, c ∈ cs /\ states c f.

(** Two facts contradict each other: the same thing is given two values. *)
Definition clash (f f' : fact) : Prop :=
  match f, f' with
  | FNodeAttr n k v, FNodeAttr n' k' v' | FGraphAttr n k v, FGraphAttr n' k' v' => n = n' /\ k = k' /\ v <> v'
  | FStrict b, FStrict b' | FDirected b, FDirected b' => b <> b'
  | _, _ => False
  end.
Definition consistent (cs : list call) : Prop := forall f f', said cs f -> said cs f' -> ~ clash f f'.

(** The calls in question: they remove nothing and do not change the name of the graph. *)
Definition only_adds (c : call) : Prop :=
  match c with CRemoveNode _ _ | CRemoveSubGraph _ _ | CSetName _ => False | _ => True end.

(** The same facts and the same edges. *)
Definition same_message (cs cs' : list call) : Prop :=
  (forall f, said cs f <-> said cs' f) /\ edges_result cs ≡ₚ edges_result cs'.

(** Statements that do not set defaults. *)
Definition no_default (s : Ast.stmt) : Prop :=
  match s with Ast.SNodeAttrs _ | Ast.SEdgeAttrs _ | Ast.SGraphAttrs _ => False | _ => True end.
(** The calls of an AST do not contradict each other. *)
Definition consistent_ast (a : Ast.graph) : Prop := forall cs, graph_calls a cs -> consistent cs.
