(** Model of the exported constructors of /repo/ast/ast.go, called with any values: the arguments have the
    type interface{} (Attrib, ast.go:46). *)
From Verif Require Import Base Parser Maps AttrMap Walk RawTree.
From Verif Require Ast.
Import Ast.

(** The values that the constructors know; a program may pass any other one.  A *SubGraph is [AStmt (RSub _)], a
    *Attr is [AStmt (RAttr _)], [AStmt RNil] is a nil pointer to another statement.  Simplification: a slice is
    the list of its elements (appending twice to the same slice is the subject of C83). *)
Inductive attrib :=
| ANil                                  (* the nil interface *)
| AId (i : gostr)                       (* ID *)
| AToken (l : option gostr)             (* *token.Token, with its Lit *)
| ABool (b : bool) | AType (b : bool) | AOp (b : bool)     (* Bool, GraphType, EdgeOp *)
| AStmts (l : list rstmt)               (* StmtList *)
| AStmt (x : rstmt)                     (* a type that implements Stmt *)
| AAttrList (a : rattrs) | AAList (l : list (option attr))
| ARhs (l : list rerh)                  (* EdgeRHS *)
| ANodeID (n : option node_id)          (* *NodeID *)
| APort (p : port)
| AGraph (g : option rgraph)            (* *Graph *)
| AOther.                               (* anything else *)

Inductive ctor :=
| NewGraph (t strict id l : attrib)
| NewStmtList (s : attrib) | AppendStmtList (ss s : attrib)
| NewSubGraph (id l : attrib)
| NewEdgeAttrs (a : attrib) | NewNodeAttrs (a : attrib) | NewGraphAttrs (a : attrib)
| NewAttrList (a : attrib) | AppendAttrList (as_ a : attrib) | PutMap (m : attrs)
| NewAList (a : attrib) | AppendAList (as_ a : attrib)
| NewAttr (f v : attrib)
| NewEdgeStmt (id e a : attrib) | NewEdgeRHS (op id : attrib) | AppendEdgeRHS (e op id : attrib)
| NewNodeStmt (id a : attrib)
| NewNodeID (id port : attrib) | MakeNodeID (id port : gostr)
| NewPort (id1 id2 : attrib)
| NewID (id : attrib).

(** Type assertions; [None] is a panic. *)
Definition to_id (a : attrib) : option gostr := match a with AId i => Some i | _ => None end.
Definition to_stmts (a : attrib) : option (list rstmt) := match a with AStmts l => Some l | _ => None end.
Definition to_stmt (a : attrib) : option rstmt := match a with AStmt x => Some x | _ => None end.
Definition to_attr_list (a : attrib) : option rattrs := match a with AAttrList x => Some x | _ => None end.
Definition to_alist (a : attrib) : option (list (option attr)) := match a with AAList x => Some x | _ => None end.
Definition to_attr (a : attrib) : option (option attr) := match a with AStmt (RAttr x) => Some x | _ => None end.
Definition to_loc (a : attrib) : option rloc :=                              (* .(Location), ast.go:471-483 *)
  match a with ANodeID n => Some (RLNode n) | AStmt (RSub g) => Some (RLSub g) | _ => None end.
Definition to_rhs (a : attrib) : option (list rerh) := match a with ARhs x => Some x | _ => None end.
Definition to_op (a : attrib) : option bool := match a with AOp x => Some x | _ => None end.
Definition to_node_id (a : attrib) : option (option node_id) := match a with ANodeID x => Some x | _ => None end.
Definition to_port (a : attrib) : option port := match a with APort x => Some x | _ => None end.
Definition to_type (a : attrib) : option bool := match a with AType x => Some x | _ => None end.
Definition to_bool (a : attrib) : option bool := match a with ABool x => Some x | _ => None end.
(** if a != nil { x = a.(T) } *)
Definition unless_nil {A} (f : attrib -> option A) (d : A) (a : attrib) : option A :=
  match a with ANil => Some d | _ => f a end.

Inductive cres := COk (a : attrib) | CErr | CPanic.
Definition ret (x : option attrib) : cres := match x with Some a => COk a | None => CPanic end.

Section Make.
  Variable rnd : nat -> N.        (* ast.go:29-32, 209-214: the random stream *)
  Variable o : oracle.            (* the order of range loops over maps *)

  (** [k]: the number of values drawn so far *)
  Definition make (k : nat) (c : ctor) : cres * nat :=
    match c with
    | NewGraph t strict id l =>                                              (* ast.go:97-106 *)
        (ret (obind (to_type t) (fun t => obind (to_bool strict) (fun b =>
              obind (unless_nil to_id [] id) (fun i => obind (unless_nil to_stmts [] l) (fun ss => Some (AGraph (Some (RGraph t b i ss)))))))), k)
    | NewStmtList s => (ret (obind (to_stmt s) (fun x => Some (AStmts [x]))), k)                    (* 133-137 *)
    | AppendStmtList ss s =>                                                                        (* 139-143 *)
        (ret (obind (to_stmts ss) (fun l => obind (to_stmt s) (fun x => Some (AStmts (l ++ [x]))))), k)
    | NewSubGraph id l =>                                                                           (* 194-207 *)
        let rest i := ret (obind (unless_nil to_stmts [] l) (fun ss => Some (AStmt (RSub (RSubGraph i ss))))) in
        match id with
        | ANil | AId [] => (rest (anon_name (rnd k)), S k)
        | AId i => (rest i, k)
        | _ => (CErr, k)
        end
    | NewEdgeAttrs a => (ret (obind (to_attr_list a) (fun a => Some (AStmt (REdgeAttrs a)))), k)    (* 253-255 *)
    | NewNodeAttrs a => (ret (obind (to_attr_list a) (fun a => Some (AStmt (RNodeAttrs a)))), k)    (* 281-283 *)
    | NewGraphAttrs a => (ret (obind (to_attr_list a) (fun a => Some (AStmt (RGraphAttrs a)))), k)  (* 309-311 *)
    | NewAttrList a =>                                                                              (* 337-343 *)
        (ret (match a with ANil => Some (AAttrList []) | _ => obind (to_alist a) (fun x => Some (AAttrList [x])) end), k)
    | AppendAttrList as_ a =>                                                                       (* 345-352 *)
        (ret (obind (to_attr_list as_) (fun l =>
              match a with ANil => Some (AAttrList l) | _ => obind (to_alist a) (fun x => Some (AAttrList (l ++ [x]))) end)), k)
    | PutMap m => (COk (AAttrList (map (map Some) (put_map o 0 m))), k)                             (* 378-391 *)
    | NewAList a => (ret (obind (to_attr a) (fun x => Some (AAList [x]))), k)                       (* 405-409 *)
    | AppendAList as_ a =>                                                                          (* 411-416 *)
        (ret (obind (to_alist as_) (fun l => obind (to_attr a) (fun x => Some (AAList (l ++ [x]))))), k)
    | NewAttr f v =>                                                                                (* 441-452 *)
        (match to_id f with
         | None => CPanic
         | Some f =>
             match v with
             | ANil => COk (AStmt (RAttr (Some (Attr f (lit "true")))))
             | AId v => COk (AStmt (RAttr (Some (Attr f v))))
             | _ => CErr
             end
         end, k)
    | NewEdgeStmt id e a =>                                                                         (* 491-503 *)
        (ret (obind (unless_nil to_attr_list [] a) (fun a => obind (to_loc id) (fun src => obind (to_rhs e) (fun rhs =>
              Some (AStmt (REdge src rhs a)))))), k)
    | NewEdgeRHS op id => (ret (obind (to_op op) (fun op => obind (to_loc id) (fun d => Some (ARhs [RH op d])))), k)   (* 525-527 *)
    | AppendEdgeRHS e op id =>                                                                      (* 529-533 *)
        (ret (obind (to_rhs e) (fun l => obind (to_op op) (fun op => obind (to_loc id) (fun d => Some (ARhs (l ++ [RH op d])))))), k)
    | NewNodeStmt id a =>                                                                           (* 576-589 *)
        (ret (obind (to_node_id id) (fun n => obind (unless_nil to_attr_list [] a) (fun a => Some (AStmt (RNode n a))))), k)
    | NewNodeID id p =>                                                                             (* 634-639 *)
        (ret (obind (to_id id) (fun i => obind (unless_nil to_port (Port [] []) p) (fun p => Some (ANodeID (Some (NodeID i p)))))), k)
    | MakeNodeID id p => (COk (ANodeID (Some (make_node_id id p))), k)                              (* 641-651 *)
    | NewPort id1 id2 =>                                                                            (* 680-689 *)
        (ret (obind (unless_nil to_id [] id1) (fun a => obind (unless_nil to_id [] id2) (fun b => Some (APort (Port a b))))), k)
    | NewID id =>                                                                                   (* 713-719 *)
        (ret (match id with ANil => Some (AId []) | AToken (Some l) => Some (AId l) | _ => None end), k)
    end.
End Make.
