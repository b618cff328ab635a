(** Specification for trees made by hand: which tree has a nil in it, which tree an AST without nils is,
    and in which order a walk goes through a tree with nils. *)
From Coq Require Import List.
From Verif Require Import Base Ast Walk RawTree.
Import ListNotations.

(** ** Somewhere in the tree there is a nil *)
Definition nil_attrs (a : rattrs) : Prop := exists l, In l a /\ In None l.
Inductive nil_stmt : rstmt -> Prop :=
| NS_nil : nil_stmt RNil
| NS_node a : nil_stmt (RNode None a)
| NS_node_attrs n a : nil_attrs a -> nil_stmt (RNode n a)
| NS_src src rhs a : nil_loc src -> nil_stmt (REdge src rhs a)
| NS_rhs src rhs a e : In e rhs -> nil_erh e -> nil_stmt (REdge src rhs a)
| NS_edge_attrs src rhs a : nil_attrs a -> nil_stmt (REdge src rhs a)
| NS_eattrs a : nil_attrs a -> nil_stmt (REdgeAttrs a)
| NS_nattrs a : nil_attrs a -> nil_stmt (RNodeAttrs a)
| NS_gattrs a : nil_attrs a -> nil_stmt (RGraphAttrs a)
| NS_sub g : nil_sub g -> nil_stmt (RSub g)
| NS_attr : nil_stmt (RAttr None)
with nil_loc : rloc -> Prop :=
| NL_nil : nil_loc RLNil
| NL_node : nil_loc (RLNode None)
| NL_sub g : nil_sub g -> nil_loc (RLSub g)
with nil_erh : rerh -> Prop :=
| NE_nil : nil_erh RHNil
| NE_dst op dst : nil_loc dst -> nil_erh (RH op dst)
with nil_sub : rsub -> Prop :=
| NG_nil : nil_sub RSNil
| NG_body id body x : In x body -> nil_stmt x -> nil_sub (RSubGraph id body).
Definition nil_graph (g : option rgraph) : Prop :=
  match g with None => True | Some g => exists x, In x (rg_stmts g) /\ nil_stmt x end.

(** ** An AST as a tree made by hand *)
Definition raw_attrs (a : attr_list) : rattrs := map (map Some) a.
Fixpoint raw_stmt (s : stmt) : rstmt :=
  match s with
  | SNode n a => RNode (Some n) (raw_attrs a)
  | SEdge src rhs a => REdge (raw_loc src) (map raw_erh rhs) (raw_attrs a)
  | SEdgeAttrs a => REdgeAttrs (raw_attrs a)
  | SNodeAttrs a => RNodeAttrs (raw_attrs a)
  | SGraphAttrs a => RGraphAttrs (raw_attrs a)
  | SSub g => RSub (raw_sub g)
  | SAttr a => RAttr (Some a)
  end
with raw_loc (l : location) : rloc := match l with LNode n => RLNode (Some n) | LSub g => RLSub (raw_sub g) end
with raw_erh (e : edge_rh) : rerh := match e with EdgeRH op d => RH op (raw_loc d) end
with raw_sub (g : subgraph) : rsub := match g with SubGraph id body => RSubGraph id (map raw_stmt body) end.
Definition raw_graph (g : graph) : option rgraph :=
  Some (RGraph (g_type g) (g_strict g) (g_id g) (map raw_stmt (g_stmts g))).
Definition raw_elem (e : elem) : relem :=
  match e with
  | EGraph g => REGraph (raw_graph g)
  | EType t => REType t
  | EStmts l => REStmts (map raw_stmt l)
  | ESub g => RESub (raw_sub g)
  | EEdgeAttrs a => REEdgeAttrs (raw_attrs a)
  | ENodeAttrs a => RENodeAttrs (raw_attrs a)
  | EGraphAttrs a => REGraphAttrs (raw_attrs a)
  | EAttrList a => REAttrList (raw_attrs a)
  | EAList l => REAList (map Some l)
  | EAttr a => REAttr (Some a)
  | EEdgeStmt src rhs a => REEdgeStmt (raw_loc src) (map raw_erh rhs) (raw_attrs a)
  | EEdgeRHS l => REEdgeRHS (map raw_erh l)
  | EEdgeRH e => REEdgeRH (raw_erh e)
  | ENodeStmt n a => RENodeStmt (Some n) (raw_attrs a)
  | EEdgeOp op => REEdgeOp op
  | ENodeID n => RENodeID (Some n)
  | EPort p => REPort p
  | EID i => REID i
  end.

(** ** Walks: an element has parts; [Hole] is a nil that has no methods, [Null e] a nil pointer that has: it is
    visited, but it has no parts. *)
Inductive rtree := RT (e : relem) (parts : list rtree) | Null (e : relem) | Hole.
Definition rt_id (i : gostr) : rtree := RT (REID i) [].
Definition rt_port (p : port) : rtree := RT (REPort p) [rt_id (port_id1 p); rt_id (port_id2 p)].
Definition rt_node_id (n : option node_id) : rtree :=
  match n with None => Null (RENodeID None) | Some n => RT (RENodeID (Some n)) [rt_id (nid_id n); rt_port (nid_port n)] end.
Definition rt_attr (a : option attr) : rtree :=
  match a with None => Null (REAttr None) | Some a => RT (REAttr (Some a)) [rt_id (at_field a); rt_id (at_value a)] end.
Definition rt_alist (l : list (option attr)) : rtree := RT (REAList l) (map rt_attr l).
Definition rt_attr_list (a : rattrs) : rtree := RT (REAttrList a) (map rt_alist a).
Fixpoint rt_stmt (x : rstmt) : rtree :=
  match x with
  | RNil => Hole
  | RNode n a => RT (RENodeStmt n a) [rt_node_id n; rt_attr_list a]
  | REdge src rhs a => RT (REEdgeStmt src rhs a) [rt_loc src; RT (REEdgeRHS rhs) (map rt_erh rhs); rt_attr_list a]
  | REdgeAttrs a => RT (REEdgeAttrs a) (map rt_alist a)
  | RNodeAttrs a => RT (RENodeAttrs a) (map rt_alist a)
  | RGraphAttrs a => RT (REGraphAttrs a) (map rt_alist a)
  | RSub g => rt_sub g
  | RAttr a => rt_attr a
  end
with rt_loc (l : rloc) : rtree := match l with RLNil => Hole | RLNode n => rt_node_id n | RLSub g => rt_sub g end
with rt_erh (e : rerh) : rtree :=
  match e with RHNil => Null (REEdgeRH RHNil) | RH op dst => RT (REEdgeRH e) [RT (REEdgeOp op) []; rt_loc dst] end
with rt_sub (g : rsub) : rtree :=
  match g with
  | RSNil => Null (RESub RSNil)
  | RSubGraph id body => RT (RESub g) [rt_id id; RT (REStmts body) (map rt_stmt body)]
  end.
Definition rt_graph (g : option rgraph) : rtree :=
  match g with
  | None => Null (REGraph None)
  | Some g => RT (REGraph (Some g)) [RT (REType (rg_type g)) []; rt_id (rg_id g); RT (REStmts (rg_stmts g)) (map rt_stmt (rg_stmts g))]
  end.

(** The tour of a visitor (None: nil): the visits it makes, the state it leaves, and whether it ends (true) or
    panics (false). *)
Section RawTour.
  Variables St V : Type.
  Variable visit : St -> V -> relem -> ending St (option V).
  Inductive rtour : option V -> rtree -> St -> list (V * relem) -> St -> bool -> Prop :=
  | RTour_visit v e ps s s1 v1 l s2 b :
      visit s v e = Returns s1 v1 -> rtours v1 ps s1 l s2 b -> rtour (Some v) (RT e ps) s ((v, e) :: l) s2 b
  | RTour_thrown v e ps s s1 : visit s v e = Panics s1 -> rtour (Some v) (RT e ps) s [(v, e)] s1 false
  | RTour_null v e s s1 v1 : visit s v e = Returns s1 v1 -> rtour (Some v) (Null e) s [(v, e)] s1 false
  | RTour_null_thrown v e s s1 : visit s v e = Panics s1 -> rtour (Some v) (Null e) s [(v, e)] s1 false
  | RTour_hole v s : rtour v Hole s [] s false
  | RTour_skip e ps s : (forall l, e <> REAList l) -> rtour None (RT e ps) s [] s true
  | RTour_alist l ps s : rtour None (RT (REAList l) ps) s [] s false        (* Visit of a nil visitor *)
  | RTour_skip_null e s : rtour None (Null e) s [] s true
  with rtours : option V -> list rtree -> St -> list (V * relem) -> St -> bool -> Prop :=
  | RTours_nil v s : rtours v [] s [] s true
  | RTours_cons v t ts s l1 s1 l2 s2 b : rtour v t s l1 s1 true -> rtours v ts s1 l2 s2 b -> rtours v (t :: ts) s (l1 ++ l2) s2 b
  | RTours_stop v t ts s l s1 : rtour v t s l s1 false -> rtours v (t :: ts) s l s1 false.
End RawTour.

(** ** Where Analyse stops *)
(** The nil is what stands at once in the statement: no part of it before is a subgraph or another arrow. *)
Definition end_nil (l : rloc) : Prop := l = RLNil \/ l = RLNode None \/ l = RLSub RSNil.
Definition arrow_nil (e : rerh) : Prop := match e with RHNil => True | RH _ d => end_nil d end.
Inductive first_nil : rstmt -> Prop :=
| FN_nil : first_nil RNil
| FN_node a : first_nil (RNode None a)
| FN_node_attrs n a : nil_attrs a -> first_nil (RNode n a)
| FN_src src rhs a : end_nil src -> first_nil (REdge src rhs a)
| FN_edge_attrs src rhs a : nil_attrs a -> first_nil (REdge src rhs a)
| FN_eattrs a : nil_attrs a -> first_nil (REdgeAttrs a)
| FN_nattrs a : nil_attrs a -> first_nil (RNodeAttrs a)
| FN_gattrs a : nil_attrs a -> first_nil (RGraphAttrs a)
| FN_sub : first_nil (RSub RSNil)
| FN_attr : first_nil (RAttr None).
Definition node_end (e : edge_rh) : Prop := match e with EdgeRH _ (LNode _) => True | _ => False end.
(** [stops x done]: Analyse makes the calls for [done] when it comes to the statement [x], then it panics.  Of an edge statement
    between nodes, those are the calls for the arrows before the nil. *)
Inductive stops : rstmt -> list stmt -> Prop :=
| Stop_first x : first_nil x -> stops x []
| Stop_arrow n rhs bad more a : Forall node_end rhs -> arrow_nil bad ->
    stops (REdge (RLNode (Some n)) (map raw_erh rhs ++ bad :: more) (raw_attrs a)) [SEdge (LNode n) rhs a].
(** The statements [pre], then subgraph statements that are not closed, each with a name, statements, and (in the tree made by
    hand) the statements after the next one. *)
Fixpoint opened (pre : list stmt) (k : list (gostr * list stmt * list rstmt)) (last : list stmt) : list stmt :=
  match k with
  | [] => pre ++ last
  | (id, pre2, _) :: k' => pre ++ [SSub (SubGraph id (opened pre2 k' last))]
  end.
Fixpoint ropened (pre : list stmt) (k : list (gostr * list stmt * list rstmt)) (last : list rstmt) : list rstmt :=
  match k with
  | [] => map raw_stmt pre ++ last
  | (id, pre2, post) :: k' => map raw_stmt pre ++ RSub (RSubGraph id (ropened pre2 k' last)) :: post
  end.
