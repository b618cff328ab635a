(** Specification of the analysis of an AST: which calls of Interface a DOT text stands for.  This
    file does not mention the visitors of analyse.go. *)
From Verif Require Import Base Maps Graph.
From Verif Require Ast.

(** ** Reading the AST *)
(** The attributes in square brackets; of several values for a name the last one counts. *)
Definition given (a : list (list Ast.attr)) : attrs := list_to_map (rev (map (fun x => (Ast.at_field x, Ast.at_value x)) (concat a))).
(** The text of a port, with its colons; a node with its port; the name and the port of the end of an edge. *)
Definition port_text (p : Ast.port) : gostr :=
  match p with
  | Ast.Port [] _ => []
  | Ast.Port i [] => lit ":" ++ i
  | Ast.Port i j => lit ":" ++ i ++ lit ":" ++ j
  end.
Definition node_text (n : Ast.node_id) : gostr := Ast.nid_id n ++ port_text (Ast.nid_port n).
Definition end_name (l : Ast.location) : gostr := match l with Ast.LNode n => Ast.nid_id n | Ast.LSub (Ast.SubGraph id _) => id end.
Definition end_port (l : Ast.location) : gostr := match l with Ast.LNode n => port_text (Ast.nid_port n) | Ast.LSub _ => [] end.

(** ** Scoping.  [pre]: the earlier statements of the same graph or subgraph body, in order.
    [d]: the defaults in force where the body was opened.  The latest statement wins. *)
Fixpoint node_defaults (d : attrs) (pre : list Ast.stmt) : attrs :=
  match pre with
  | [] => d
  | Ast.SNodeAttrs a :: pre' => node_defaults (given a ∪ d) pre'      (* node [a] *)
  | _ :: pre' => node_defaults d pre'
  end.
Fixpoint edge_defaults (d : attrs) (pre : list Ast.stmt) : attrs :=
  match pre with
  | [] => d
  | Ast.SEdgeAttrs a :: pre' => edge_defaults (given a ∪ d) pre'      (* edge [a] *)
  | _ :: pre' => edge_defaults d pre'
  end.
Fixpoint graph_defaults (d : attrs) (pre : list Ast.stmt) : attrs :=
  match pre with
  | [] => d
  | Ast.SGraphAttrs a :: pre' => graph_defaults (given a ∪ d) pre'    (* graph [a] *)
  | _ :: pre' => graph_defaults d pre'
  end.

(** The plain nodes among the endpoints of an edge statement. *)
Definition plain (l : Ast.location) : list gostr :=
  match l with Ast.LNode n => [Ast.nid_id n] | Ast.LSub _ => [] end.
Definition dst_of (e : Ast.edge_rh) : Ast.location := match e with Ast.EdgeRH _ d => d end.
(** The nodes a statement itself mentions (not the ones inside the subgraphs it opens). *)
Definition mentions (s : Ast.stmt) : list gostr :=
  match s with
  | Ast.SNode n _ => [node_text n]
  | Ast.SEdge src rhs _ => plain src ++ flat_map (fun e => plain (dst_of e)) rhs
  | _ => []
  end.
Definition mentioned (pre : list Ast.stmt) : list gostr := flat_map mentions pre.

(** ** Calls *)
(** A plain endpoint that was not mentioned before in the body becomes a node with the defaults. *)
Definition endpoint_call (name : gostr) (d : attrs) (seen : list gostr) (l : Ast.location) : list call :=
  match l with
  | Ast.LNode n => if decide (Ast.nid_id n ∈ seen) then [] else [CAddNode name (Ast.nid_id n) d]
  | Ast.LSub _ => []
  end.
(** One edge per arrow, from left to right, each after its right endpoint; all with attributes [m]. *)
Fixpoint arrow_calls (name : gostr) (d m : attrs) (seen : list gostr) (src : Ast.location) (rhs : list Ast.edge_rh) : list call :=
  match rhs with
  | [] => []
  | Ast.EdgeRH op dst :: rhs' =>
      endpoint_call name d seen dst ++
      CAddPortEdge (end_name src) (end_port src) (end_name dst) (end_port dst) op m ::
      arrow_calls name d m (seen ++ plain dst) dst rhs'
  end.

(** [stmt_calls name nd ed pre s l]: the statement [s], after the statements [pre] of the body of the
    (sub)graph [name], where the defaults [nd] and [ed] were in force at its opening, stands for the
    calls [l].  Only the order of the attributes of one graph [...] statement is left open. *)
Inductive stmt_calls : gostr -> attrs -> attrs -> list Ast.stmt -> Ast.stmt -> list call -> Prop :=
| Sc_node name nd ed pre n a :
    stmt_calls name nd ed pre (Ast.SNode n a)
      [CAddNode name (node_text n)
         (given a ∪ if decide (node_text n ∈ mentioned pre) then ∅ else node_defaults nd pre)]
| Sc_edge name nd ed pre src rhs a l :
    locs_calls name nd ed pre (src :: map dst_of rhs) l ->
    stmt_calls name nd ed pre (Ast.SEdge src rhs a)
      ((endpoint_call name (node_defaults nd pre) (mentioned pre) src ++
        arrow_calls name (node_defaults nd pre) (given a ∪ edge_defaults ed pre) (mentioned pre ++ plain src) src rhs)
       ++ l)
| Sc_edge_attrs name nd ed pre a : stmt_calls name nd ed pre (Ast.SEdgeAttrs a) []
| Sc_node_attrs name nd ed pre a : stmt_calls name nd ed pre (Ast.SNodeAttrs a) []
| Sc_graph_attrs name nd ed pre a l :
    l ≡ₚ map_to_list (given a) ->
    stmt_calls name nd ed pre (Ast.SGraphAttrs a) (map (fun kv => CAddAttr name kv.1 kv.2) l)
| Sc_sub name nd ed pre g l : sub_calls name nd ed pre g l -> stmt_calls name nd ed pre (Ast.SSub g) l
| Sc_attr name nd ed pre a : stmt_calls name nd ed pre (Ast.SAttr a) [CAddAttr name (Ast.at_field a) (Ast.at_value a)]
(** the subgraphs among the endpoints of an edge statement, from left to right *)
with locs_calls : gostr -> attrs -> attrs -> list Ast.stmt -> list Ast.location -> list call -> Prop :=
| Lc_nil name nd ed pre : locs_calls name nd ed pre [] []
| Lc_node name nd ed pre n ls l : locs_calls name nd ed pre ls l -> locs_calls name nd ed pre (Ast.LNode n :: ls) l
| Lc_sub name nd ed pre g ls l l' : sub_calls name nd ed pre g l -> locs_calls name nd ed pre ls l' ->
    locs_calls name nd ed pre (Ast.LSub g :: ls) (l ++ l')
(** a subgraph: it gets the graph defaults of the enclosing body, and its body starts with the node
    and edge defaults in force there *)
with sub_calls : gostr -> attrs -> attrs -> list Ast.stmt -> Ast.subgraph -> list call -> Prop :=
| Gc name nd ed pre id body l : body_calls id (node_defaults nd pre) (edge_defaults ed pre) [] body l ->
    sub_calls name nd ed pre (Ast.SubGraph id body) (CAddSubGraph name id (graph_defaults ∅ pre) :: l)
(** the statements [body] after [pre] *)
with body_calls : gostr -> attrs -> attrs -> list Ast.stmt -> list Ast.stmt -> list call -> Prop :=
| Bc_nil name nd ed pre : body_calls name nd ed pre [] []
| Bc_cons name nd ed pre s body l l' : stmt_calls name nd ed pre s l -> body_calls name nd ed (pre ++ [s]) body l' ->
    body_calls name nd ed pre (s :: body) (l ++ l').

(** A whole graph: its flags and its name, then its body. *)
Definition graph_calls (a : Ast.graph) (l : list call) : Prop :=
  exists l', body_calls (Ast.g_id a) ∅ ∅ [] (Ast.g_stmts a) l' /\
    l = [CSetStrict (Ast.g_strict a); CSetDir (Ast.g_type a); CSetName (Ast.g_id a)] ++ l'.

(** ** Making a sequence of calls on an implementation of Interface *)
Fixpoint make_calls {S} (step : S -> call -> S * option err) (cs : list call) (s : S) : S * list (option err) :=
  match cs with
  | [] => (s, [])
  | c :: cs' => let '(s1, r) := step s c in let '(s2, rs) := make_calls step cs' s1 in (s2, r :: rs)
  end.
(** The errors among the results, in order. *)
Definition errors (rs : list (option err)) : list err := omap id rs.

(** ** The graph that a sequence of successful AddNode/AddPortEdge/AddEdge/AddSubGraph/AddAttr calls
    builds, read off from the calls *)
(** The attributes given to the node [n], later ones winning; None if no call adds [n]. *)
Definition node_result (cs : list call) (n : gostr) : option attrs :=
  fold_left (fun acc c => match c with
    | CAddNode _ n' m => if decide (n' = n) then Some (m ∪ default ∅ acc) else acc
    | _ => acc end) cs None.
(** The node names, in the order of their first AddNode. *)
Definition order_result (cs : list call) : list gostr :=
  fold_left (fun acc c => match c with
    | CAddNode _ n _ => if decide (n ∈ acc) then acc else acc ++ [n]
    | _ => acc end) cs [].
(** The edges, in the order of the calls. *)
Definition call_edges (c : call) : list edge :=
  match c with
  | CAddPortEdge a pa b pb dir m => [Edge a pa b pb dir m]
  | CAddEdge a b dir m => [Edge a [] b [] dir m]
  | _ => []
  end.
Definition edges_result (cs : list call) : list edge := flat_map call_edges cs.
(** The subgraphs, and the attributes given to the graph or subgraph [n]. *)
Definition opens (n : gostr) (c : call) : Prop := exists p m, c = CAddSubGraph p n m.
Definition attrs_result (cs : list call) (n : gostr) : attrs :=
  fold_left (fun acc c => match c with
    | CAddSubGraph _ n' m => if decide (n' = n) then m ∪ acc else acc
    | CAddAttr n' f v => if decide (n' = n) then {[f := v]} ∪ acc else acc
    | _ => acc end) cs ∅.
(** The parent/child pairs. *)
Definition relates (p n : gostr) (c : call) : Prop := exists m, c = CAddNode p n m \/ c = CAddSubGraph p n m.

(** The attribute names a call uses. *)
Definition uses (c : call) (k : gostr) : Prop :=
  match c with
  | CAddPortEdge _ _ _ _ _ m | CAddEdge _ _ _ m | CAddNode _ _ m | CAddSubGraph _ _ m => is_Some (m !! k)
  | CAddAttr _ f _ => k = f
  | _ => False
  end.

(** ** Bodies within bodies *)
(** [within name nd ed body name' nd' ed' body']: [body'], the body of the (sub)graph [name'] opened under
    the node and edge defaults [nd'] and [ed'], is [body] itself or lies (at any depth) within [body], the body
    of the (sub)graph [name] opened under [nd] and [ed]. *)
Inductive within : gostr -> attrs -> attrs -> list Ast.stmt -> gostr -> attrs -> attrs -> list Ast.stmt -> Prop :=
| Wi_here name nd ed body : within name nd ed body name nd ed body
| Wi_sub name nd ed pre s post id inner name' nd' ed' body' :
    s = Ast.SSub (Ast.SubGraph id inner) \/
    (exists src rhs a, s = Ast.SEdge src rhs a /\ Ast.LSub (Ast.SubGraph id inner) ∈ src :: map dst_of rhs) ->
    within id (node_defaults nd pre) (edge_defaults ed pre) inner name' nd' ed' body' ->
    within name nd ed (pre ++ s :: post) name' nd' ed' body'.

(** The arrows of an edge statement. *)
Fixpoint arrows (src : Ast.location) (rhs : list Ast.edge_rh) : list (Ast.location * bool * Ast.location) :=
  match rhs with
  | [] => []
  | Ast.EdgeRH op dst :: rhs' => (src, op, dst) :: arrows dst rhs'
  end.
Definition arrow_edge (m : attrs) (x : Ast.location * bool * Ast.location) : edge :=
  let '(s, op, d) := x in
  Edge (end_name s) (end_port s) (end_name d) (end_port d) op m.

(** All the edges of a body, given the edge defaults in force: statement by statement, the arrows of
    an edge statement before the edges inside its subgraph operands. *)
Fixpoint stmt_edges (ed : attrs) (s : Ast.stmt) {struct s} : list edge :=
  match s with
  | Ast.SEdge src rhs a =>
      map (arrow_edge (given a ∪ ed)) (arrows src rhs) ++ loc_edges ed src ++ flat_map (rh_edges ed) rhs
  | Ast.SSub g => sub_edges ed g
  | _ => []
  end
with loc_edges (ed : attrs) (lo : Ast.location) {struct lo} : list edge :=
  match lo with Ast.LNode _ => [] | Ast.LSub g => sub_edges ed g end
with rh_edges (ed : attrs) (e : Ast.edge_rh) {struct e} : list edge :=
  match e with Ast.EdgeRH _ dst => loc_edges ed dst end
with sub_edges (ed : attrs) (g : Ast.subgraph) {struct g} : list edge :=
  match g with
  | Ast.SubGraph _ body =>
      (fix go (ed : attrs) (body : list Ast.stmt) : list edge :=
         match body with
         | [] => []
         | s :: body' => stmt_edges ed s ++ go (edge_defaults ed [s]) body'
         end) ed body
  end.
Fixpoint body_edges (ed : attrs) (body : list Ast.stmt) : list edge :=
  match body with
  | [] => []
  | s :: body' => stmt_edges ed s ++ body_edges (edge_defaults ed [s]) body'
  end.
