(** Specification for C90: editing a graph after it has been saved and loaded. *)
From Verif Require Import Parser Maps Graph SpecGraph SpecWrite Analyse SpecAnalyse AnalyseProofs SpecRound SpecMerge SpecRemove Write.

(** The same name, flags, attributes, nodes, subgraphs and edges (in any order), and the same children of everything but the main graph. *)
Record alike (s s' : sgraph) : Prop := Alike {
  al_name : s_name s' = s_name s;
  al_directed : s_directed s' = s_directed s;
  al_strict : s_strict s' = s_strict s;
  al_attrs : s_attrs s' = s_attrs s;
  al_nodes : s_nodes s' = s_nodes s;
  al_subs : s_subs s' = s_subs s;
  al_edges : s_edges s' ≡ₚ s_edges s;
  al_children : forall p c, p <> s_name s -> is_child s' p c <-> is_child s p c }.

(** Nothing is recorded as a child of what is no longer there. *)
Definition no_stale_parents (s : sgraph) : Prop := forall p c, is_child s p c -> p = s_name s \/ s_is_sub s p.
(** Nothing that is no longer there is recorded as a child of the main graph. *)
Definition no_stale_tops (s : sgraph) : Prop := forall c, is_child s (s_name s) c -> s_is_node s c \/ s_is_sub s c.

(** The call does not rename the main graph [main], and does not add or remove a subgraph of that name. *)
Definition keeps_main (main : gostr) (c : call) : Prop :=
  match c with CSetName _ => False | CAddSubGraph _ n _ | CRemoveSubGraph _ n => n <> main | _ => True end.

(** [sessions g0 cs g]: [g] is what becomes of [g0] by the calls [cs], which add and succeed, with the graph saved and loaded any number
    of times in between.  The graphs that are saved survive that; no name is used for a node and a subgraph. *)
Inductive sessions (g0 : agraph) : list call -> agraph -> Prop :=
| Ses_start : sessions g0 [] g0
| Ses_call cs g o c : sessions g0 cs g -> fair o -> no_removal c -> keeps_main (g_name g0) c -> (exec o c g).2 = None ->
    disjoint_names (view (exec o c g).1) -> sessions g0 (cs ++ [c]) (exec o c g).1
| Ses_load cs g srt o fuel txt rnd os ord k g' k' : sessions g0 cs g -> fair o -> sorts (edge_less o) srt -> (forall i, fair (os i)) -> fair_order ord ->
    tidy (view g) -> no_ports (view g) -> no_stale_parents (view g) -> size (g_subs g) < fuel ->
    graph_string srt o g fuel = Ok txt -> read rnd os ord k txt = Ok (g', k') -> sessions g0 cs g'.
