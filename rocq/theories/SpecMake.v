(** Specification of the constructors: which arguments they take, which trees they can make. *)
From Verif Require Import Base Maps Walk RawTree SpecRaw RawMake.
From Verif Require Ast.
Import Ast.

(** ** The types of arguments *)
Inductive kind := KId | KToken | KBool | KType | KOp | KStmts | KStmt | KAttrList | KAList | KAttr | KLoc | KRhs | KNodeID | KPort.
Definition of_kind (k : kind) (a : attrib) : bool :=
  match k, a with
  | KId, AId _ | KToken, AToken (Some _) | KBool, ABool _ | KType, AType _ | KOp, AOp _ | KStmts, AStmts _ | KStmt, AStmt _
  | KAttrList, AAttrList _ | KAList, AAList _ | KAttr, AStmt (RAttr _) | KLoc, ANodeID _ | KLoc, AStmt (RSub _)
  | KRhs, ARhs _ | KNodeID, ANodeID _ | KPort, APort _ => true
  | _, _ => false
  end.
(** A parameter takes values of a kind, and [Maybe] also nil. *)
Inductive param := Just (k : kind) | Maybe (k : kind).
Definition takes (p : param) (a : attrib) : bool :=
  match p, a with Maybe _, ANil => true | Just k, _ | Maybe k, _ => of_kind k a end.
Definition params (c : ctor) : list (param * attrib) :=
  match c with
  | NewGraph t strict id l => [(Just KType, t); (Just KBool, strict); (Maybe KId, id); (Maybe KStmts, l)]
  | NewStmtList s => [(Just KStmt, s)]
  | AppendStmtList ss s => [(Just KStmts, ss); (Just KStmt, s)]
  | NewSubGraph id l => [(Maybe KId, id); (Maybe KStmts, l)]
  | NewEdgeAttrs a | NewNodeAttrs a | NewGraphAttrs a => [(Just KAttrList, a)]
  | NewAttrList a => [(Maybe KAList, a)]
  | AppendAttrList as_ a => [(Just KAttrList, as_); (Maybe KAList, a)]
  | PutMap _ => []
  | NewAList a => [(Just KAttr, a)]
  | AppendAList as_ a => [(Just KAList, as_); (Just KAttr, a)]
  | NewAttr f v => [(Just KId, f); (Maybe KId, v)]
  | NewEdgeStmt id e a => [(Just KLoc, id); (Just KRhs, e); (Maybe KAttrList, a)]
  | NewEdgeRHS op id => [(Just KOp, op); (Just KLoc, id)]
  | AppendEdgeRHS e op id => [(Just KRhs, e); (Just KOp, op); (Just KLoc, id)]
  | NewNodeStmt id a => [(Just KNodeID, id); (Maybe KAttrList, a)]
  | NewNodeID id port => [(Just KId, id); (Maybe KPort, port)]
  | MakeNodeID _ _ => []
  | NewPort id1 id2 => [(Maybe KId, id1); (Maybe KId, id2)]
  | NewID id => [(Maybe KToken, id)]
  end.
(** The two calls that return an error; all other mistakes panic. *)
Definition refused (c : ctor) : bool :=
  match c with
  | NewAttr f v => takes (Just KId) f && negb (takes (Maybe KId) v)
  | NewSubGraph id _ => negb (takes (Maybe KId) id)
  | _ => false
  end.
(** The calls that draw a random number. *)
Definition draws_random (c : ctor) : bool := match c with NewSubGraph ANil _ | NewSubGraph (AId []) _ => true | _ => false end.

(** ** Values that a program gets by calling constructors: with nil, constants, IDs and tokens of its own, and
    what successful calls returned *)
Inductive made : attrib -> Prop :=
| M_nil : made ANil
| M_id i : made (AId i)
| M_token l : made (AToken (Some l))
| M_bool b : made (ABool b)
| M_type b : made (AType b)
| M_op b : made (AOp b)
| M_call rnd o k c a k' : fair o -> (forall p x, In (p, x) (params c) -> made x) -> make rnd o k c = (COk a, k') -> made a.

(** ** The ASTs that can be made: an edge statement has an arrow, subgraphs have names, attribute lists are not
    empty except perhaps the first of several *)
Definition can_attrs (a : attr_list) : Prop := match a with [] => True | _ :: a' => Forall (fun l => l <> []) a' end.
Fixpoint can_stmt (x : stmt) : Prop :=
  match x with
  | SNode _ a | SEdgeAttrs a | SNodeAttrs a | SGraphAttrs a => can_attrs a
  | SEdge src rhs a => can_loc src /\ rhs <> [] /\ fold_right (fun e acc => can_erh e /\ acc) True rhs /\ can_attrs a
  | SSub g => can_sub g
  | SAttr _ => True
  end
with can_loc (l : location) : Prop := match l with LNode _ => True | LSub g => can_sub g end
with can_erh (e : edge_rh) : Prop := match e with EdgeRH _ d => can_loc d end
with can_sub (g : subgraph) : Prop := match g with SubGraph id b => id <> [] /\ fold_right (fun x acc => can_stmt x /\ acc) True b end.
Definition can_graph (g : graph) : Prop := Forall can_stmt (g_stmts g).

(** ** A program that makes a given AST from its names *)
Section Rebuild.
  Variables (rnd : nat -> N) (o : oracle).
  Definition call_ (c : ctor) : option attrib := match make rnd o 0 c with (COk a, _) => Some a | _ => None end.
  (** x := first(...); for each of [l] { x = next(x, ...) } *)
  Definition chain {A} (next : attrib -> A -> option attrib) (l : list A) (x : option attrib) : option attrib :=
    fold_left (fun x y => obind x (fun x => next x y)) l x.
  Definition mk_attr (a : attr) : option attrib := call_ (NewAttr (AId (at_field a)) (AId (at_value a))).
  Definition mk_alist (l : alist) : option attrib :=
    match l with
    | [] => None
    | a :: l' => chain (fun x a => obind (mk_attr a) (fun y => call_ (AppendAList x y))) l' (obind (mk_attr a) (fun y => call_ (NewAList y)))
    end.
  Definition mk_attrs (a : attr_list) : option attrib :=
    match a with
    | [] => call_ (NewAttrList ANil)
    | l :: a' =>
        chain (fun x l => obind (mk_alist l) (fun y => call_ (AppendAttrList x y))) a'
          (match l with [] => call_ (PutMap ∅) | _ => obind (mk_alist l) (fun y => call_ (NewAttrList y)) end)
    end.
  Definition mk_node_id (n : node_id) : option attrib :=
    obind (call_ (NewPort (AId (port_id1 (nid_port n))) (AId (port_id2 (nid_port n))))) (fun p => call_ (NewNodeID (AId (nid_id n)) p)).
  Fixpoint mk_stmt (x : stmt) : option attrib :=
    match x with
    | SNode n a => obind (mk_node_id n) (fun i => obind (mk_attrs a) (fun a => call_ (NewNodeStmt i a)))
    | SEdge src rhs a =>
        obind (mk_loc src) (fun s =>
        obind (match rhs with
               | [] => None
               | e :: rhs' => chain (fun x e => mk_erh e (Some x)) rhs' (mk_erh e None)
               end) (fun r =>
        obind (mk_attrs a) (fun a => call_ (NewEdgeStmt s r a))))
    | SEdgeAttrs a => obind (mk_attrs a) (fun a => call_ (NewEdgeAttrs a))
    | SNodeAttrs a => obind (mk_attrs a) (fun a => call_ (NewNodeAttrs a))
    | SGraphAttrs a => obind (mk_attrs a) (fun a => call_ (NewGraphAttrs a))
    | SSub g => mk_sub g
    | SAttr a => mk_attr a
    end
  with mk_loc (l : location) : option attrib := match l with LNode n => mk_node_id n | LSub g => mk_sub g end
  with mk_erh (e : edge_rh) (sofar : option attrib) : option attrib :=
    match e with
    | EdgeRH op d => obind (mk_loc d) (fun d =>
        match sofar with None => call_ (NewEdgeRHS (AOp op) d) | Some x => call_ (AppendEdgeRHS x (AOp op) d) end)
    end
  with mk_sub (g : subgraph) : option attrib :=
    match g with
    | SubGraph id b =>
        obind (match b with
               | [] => Some ANil
               | x :: b' => chain (fun ss x => obind (mk_stmt x) (fun y => call_ (AppendStmtList ss y))) b'
                              (obind (mk_stmt x) (fun y => call_ (NewStmtList y)))
               end) (fun l => call_ (NewSubGraph (AId id) l))
    end.
  Definition mk_graph (g : graph) : option attrib :=
    obind (match g_stmts g with
           | [] => Some ANil
           | x :: b' => chain (fun ss x => obind (mk_stmt x) (fun y => call_ (AppendStmtList ss y))) b'
                          (obind (mk_stmt x) (fun y => call_ (NewStmtList y)))
           end) (fun l => call_ (NewGraph (AType (g_type g)) (ABool (g_strict g)) (AId (g_id g)) l)).
End Rebuild.
