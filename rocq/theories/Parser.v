(** Model of /repo/internal/parser/parser.go (the LR driver), main.go (ParseBytes) and the
    reduce functions of productionstable.go (with the constructors of /repo/ast/ast.go). *)
From Coq Require Import List Ascii NArith ZArith Bool.
From Verif Require Import Base LexTables ParseTables Ast Lexer.
Import ListNotations.

(** ** Results: normal return, Go error, panic, and exhausted fuel of the model. *)
Inductive res (E A : Type) : Type :=
| Ok (a : A)
| Err (e : E)
| Panic
| OutOfFuel.
Arguments Ok {E A}. Arguments Err {E A}. Arguments Panic {E A}. Arguments OutOfFuel {E A}.

(** ** Attributes (Attrib is interface{}): one constructor per dynamic type that occurs. *)
Inductive value :=
| VNil                           (* nil *)
| VTok (t : token)               (* *token.Token *)
| VID (i : gostr)                (* ast.ID *)
| VGraph (g : graph)             (* *ast.Graph *)
| VStmtList (l : list stmt)      (* ast.StmtList *)
| VNodeStmt (n : node_id) (a : attr_list)                      (* *ast.NodeStmt *)
| VEdgeStmt (s : location) (e : list edge_rh) (a : attr_list)  (* *ast.EdgeStmt *)
| VEdgeAttrs (a : attr_list) | VNodeAttrs (a : attr_list) | VGraphAttrs (a : attr_list)
| VAttrList (a : attr_list)      (* ast.AttrList *)
| VAList (a : alist)             (* ast.AList *)
| VAttr (a : attr)               (* *ast.Attr *)
| VEdgeRHS (e : list edge_rh)    (* ast.EdgeRHS *)
| VNodeID (n : node_id)          (* *ast.NodeID *)
| VPort (p : port)               (* ast.Port *)
| VSub (g : subgraph)            (* *ast.SubGraph *)
| VOp (directed : bool)          (* ast.EdgeOp *)
| VErr (t : token) (syms : list value) (expected : list nat).
                                 (* *parseError.Error, pushed by error recovery only (RecParser.v) *)

(** Type assertions x.(T) used by the constructors; [None] is a panic. *)
Definition as_id (v : value) : option gostr := match v with VID i => Some i | _ => None end.
Definition as_tok (v : value) : option token := match v with VTok t => Some t | _ => None end.
Definition as_stmts (v : value) : option (list stmt) :=
  match v with VStmtList l => Some l | _ => None end.
Definition as_attr_list (v : value) : option attr_list :=
  match v with VAttrList l => Some l | _ => None end.
Definition as_alist (v : value) : option alist := match v with VAList l => Some l | _ => None end.
Definition as_attr (v : value) : option attr := match v with VAttr a => Some a | _ => None end.
Definition as_op (v : value) : option bool := match v with VOp b => Some b | _ => None end.
Definition as_node_id (v : value) : option node_id :=
  match v with VNodeID n => Some n | _ => None end.
Definition as_port (v : value) : option port := match v with VPort p => Some p | _ => None end.
Definition as_rhs (v : value) : option (list edge_rh) :=
  match v with VEdgeRHS e => Some e | _ => None end.
(** ast.go:174-187: the implementations of Stmt. *)
Definition as_stmt (v : value) : option stmt :=
  match v with
  | VNodeStmt n a => Some (SNode n a)
  | VEdgeStmt s e a => Some (SEdge s e a)
  | VEdgeAttrs a => Some (SEdgeAttrs a)
  | VNodeAttrs a => Some (SNodeAttrs a)
  | VGraphAttrs a => Some (SGraphAttrs a)
  | VSub g => Some (SSub g)
  | VAttr a => Some (SAttr a)
  | _ => None
  end.
(** ast.go:471-483: the implementations of Location. *)
Definition as_loc (v : value) : option location :=
  match v with VNodeID n => Some (LNode n) | VSub g => Some (LSub g) | _ => None end.

Definition opt_bind {A B} (x : option A) (f : A -> option B) : option B :=
  match x with Some a => f a | None => None end.
Local Notation "'let*' x ':=' e 'in' k" := (opt_bind e (fun x => k))
  (at level 200, x binder, e at level 100, k at level 200, right associativity).

(** [X[k]] for an index, [nil] for [None]. *)
Definition arg (X : list value) (k : nat) : option value := nth_error X k.
Definition oarg (X : list value) (k : option nat) : option value :=
  match k with Some i => nth_error X i | None => Some VNil end.

(** ast.go:97-106 (NewGraph) *)
Definition new_graph (t strict : bool) (id l : value) : option value :=
  let* i := (match id with VNil => Some [] | _ => as_id id end) in
  let* b := (match l with VNil => Some [] | _ => as_stmts l end) in
  Some (VGraph (Graph t strict i b)).
(** ast.go:441-452 (NewAttr).  The error return (value not an ID) is a [None] here as well; it
    is proved unreachable together with the panics. *)
Definition new_attr (f v : value) : option value :=
  let* fi := as_id f in
  let* vi := (match v with VNil => Some (lit "true") | _ => as_id v end) in
  Some (VAttr (Attr fi vi)).
(** ast.go:337-343 (NewAttrList) *)
Definition new_attr_list (a : value) : option value :=
  match a with
  | VNil => Some (VAttrList [])
  | _ => let* al := as_alist a in Some (VAttrList [al])
  end.
(** ast.go:345-352 (AppendAttrList) *)
Definition append_attr_list (as_ a : value) : option value :=
  let* l := as_attr_list as_ in
  match a with
  | VNil => Some (VAttrList l)
  | _ => let* al := as_alist a in Some (VAttrList (l ++ [al]))
  end.
(** ast.go:491-503 (NewEdgeStmt), 576-589 (NewNodeStmt): nil attributes give an empty list. *)
Definition opt_attrs (a : value) : option attr_list :=
  match a with VNil => Some [] | _ => as_attr_list a end.

(** ast.go:197: fmt.Sprintf("anon%d", randInt63()). *)
Definition anon_name (r : N) : gostr := lit "anon" ++ dec_of_N r.

(** ast.go:194-207 (NewSubGraph), with the random stream [rnd] read at position [k].
    The error return at line 201 is a [None]. *)
Definition new_subgraph (rnd : nat -> N) (id l : value) (k : nat) : option (value * nat) :=
  let* b := (match l with VNil => Some [] | _ => as_stmts l end) in
  match id with
  | VNil => Some (VSub (SubGraph (anon_name (rnd k)) b), S k)
  | VID [] => Some (VSub (SubGraph (anon_name (rnd k)) b), S k)
  | VID i => Some (VSub (SubGraph i b), k)
  | _ => None
  end.

Definition pure (k : nat) (v : option value) : option (value * nat) :=
  match v with Some x => Some (x, k) | None => None end.

(** productionstable.go: the ReduceFunc of a production, on the popped attributes [X] and the
    number [k] of random values drawn so far. *)
Definition run_sem (rnd : nat -> N) (s : sem) (X : list value) (k : nat) : option (value * nat) :=
  match s with
  | SemProj i => pure k (arg X i)
  | SemOp d => Some (VOp d, k)
  | SemGraph t st id l =>
      pure k (let* i := oarg X id in let* b := oarg X l in new_graph t st i b)
  | SemStmtList i =>                                              (* ast.go:133-137 *)
      pure k (let* v := arg X i in let* s := as_stmt v in Some (VStmtList [s]))
  | SemAppendStmtList i j =>                                      (* ast.go:139-143 *)
      pure k (let* v := arg X i in let* l := as_stmts v in
              let* w := arg X j in let* s := as_stmt w in Some (VStmtList (l ++ [s])))
  | SemAttr f v => pure k (let* a := arg X f in let* b := oarg X v in new_attr a b)
  | SemGraphAttrs i =>                                            (* ast.go:309-311 *)
      pure k (let* v := arg X i in let* a := as_attr_list v in Some (VGraphAttrs a))
  | SemNodeAttrs i =>                                             (* ast.go:281-283 *)
      pure k (let* v := arg X i in let* a := as_attr_list v in Some (VNodeAttrs a))
  | SemEdgeAttrs i =>                                             (* ast.go:253-255 *)
      pure k (let* v := arg X i in let* a := as_attr_list v in Some (VEdgeAttrs a))
  | SemAttrList a => pure k (let* v := oarg X a in new_attr_list v)
  | SemAppendAttrList l a =>
      pure k (let* u := arg X l in let* v := oarg X a in append_attr_list u v)
  | SemAList i =>                                                 (* ast.go:405-409 *)
      pure k (let* v := arg X i in let* a := as_attr v in Some (VAList [a]))
  | SemAppendAList i j =>                                         (* ast.go:411-416 *)
      pure k (let* v := arg X i in let* l := as_alist v in
              let* w := arg X j in let* a := as_attr w in Some (VAList (l ++ [a])))
  | SemEdgeStmt i e a =>                                          (* ast.go:491-503 *)
      pure k (let* v := arg X i in let* l := as_loc v in
              let* w := arg X e in let* r := as_rhs w in
              let* x := oarg X a in let* al := opt_attrs x in Some (VEdgeStmt l r al))
  | SemEdgeRHS o i =>                                             (* ast.go:525-527 *)
      pure k (let* v := arg X o in let* op := as_op v in
              let* w := arg X i in let* l := as_loc w in Some (VEdgeRHS [EdgeRH op l]))
  | SemAppendEdgeRHS e o i =>                                     (* ast.go:529-533 *)
      pure k (let* u := arg X e in let* r := as_rhs u in
              let* v := arg X o in let* op := as_op v in
              let* w := arg X i in let* l := as_loc w in Some (VEdgeRHS (r ++ [EdgeRH op l])))
  | SemNodeStmt i a =>                                            (* ast.go:576-589 *)
      pure k (let* v := arg X i in let* n := as_node_id v in
              let* x := oarg X a in let* al := opt_attrs x in Some (VNodeStmt n al))
  | SemNodeID i p =>                                              (* ast.go:634-639 *)
      pure k (let* v := arg X i in let* n := as_id v in
              let* w := oarg X p in
              let* pt := (match w with VNil => Some (Port [] []) | _ => as_port w end) in
              Some (VNodeID (NodeID n pt)))
  | SemPort a b =>                                                (* ast.go:680-689 *)
      pure k (let* v := oarg X a in
              let* i := (match v with VNil => Some [] | _ => as_id v end) in
              let* w := oarg X b in
              let* j := (match w with VNil => Some [] | _ => as_id w end) in
              Some (VPort (Port i j)))
  | SemSubGraph i l =>
      let* v := oarg X i in let* b := oarg X l in new_subgraph rnd v b k
  | SemID i =>                                                    (* ast.go:713-719 *)
      pure k (let* v := arg X i in
              match v with
              | VNil => Some (VID [])
              | _ => let* t := as_tok v in Some (VID (tk_lit t))
              end)
  end.

(** ** The driver *)

(** actionTab[s].actions[t]: [None] = nil. *)
Fixpoint assoc_nat {A} (k : nat) (l : list (nat * A)) : option A :=
  match l with
  | [] => None
  | (k', a) :: l' => if Nat.eqb k k' then Some a else assoc_nat k l'
  end.
Definition action_at (s t : nat) : option action :=
  match nth_error action_tab s with
  | Some row => assoc_nat t row
  | None => None
  end.
(** gotoTab[s][n] *)
Definition goto_at (s n : nat) : Z := nth n (nth s goto_tab []) (-1)%Z.

(** parser.go:22-81: the stack, top first; states and attributes side by side.
    States are Go ints: a goto of -1 would be pushed and make the next table access panic. *)
Definition stack := list (nat * value).

(** errors.go:15-21 (Error), as built by newError (parser.go:170-183) with a nil Err. *)
Record parse_error := ParseError {
  pe_token : token; pe_expected : list nat; pe_stack_top : nat }.

(** parser.go:176-181: the token types with a non-nil action, in increasing order. *)
Definition expected_tokens (s : nat) : list nat :=
  filter (fun t => match action_at s t with Some _ => true | None => false end) (seq 0 36).

Definition num_states : nat := 128.

(** parser.go:185-217 (Parse): the loop.  [fuel] bounds the number of iterations.
    Error recovery (parser.go:106-168) needs a state with canRecover or an action on the token
    type "error"; token.TokMap has no "error" entry, so TokMap.Type returns INVALID (0), no row
    of the decoded table has an action on 0 and no row has canRecover set; the model therefore
    goes directly to newError.  (RecParser.v models the driver with error recovery; RecProofs.v shows
    that it behaves the same.) *)
Fixpoint parse_loop (fuel : nat) (rnd : nat -> N) (st : stack) (tok : token) (lx : lexer) (k : nat)
  : res parse_error (value * nat) :=
  match fuel with
  | O => OutOfFuel
  | S fuel' =>
      match st with
      | [] => Panic                                          (* s.state[-1] *)
      | (s, _) :: _ =>
          if negb (Nat.ltb s num_states) then Panic          (* actionTab[s] out of range *)
          else
          match action_at s (tk_type tok) with
          | None => Err (ParseError tok (expected_tokens s) s)
          | Some Accept =>
              match st with
              | (_, v) :: _ => Ok (v, k)
              | [] => Panic
              end
          | Some (Shift n) =>
              match scan lx with
              | Some (tok', lx') => parse_loop fuel' rnd ((n, VTok tok) :: st) tok' lx' k
              | None => OutOfFuel
              end
          | Some (Reduce p) =>
              match nth_error prod_tab p with
              | None => Panic
              | Some pr =>
                  let n := p_num pr in
                  if Nat.ltb (length st) n then Panic         (* popN slices out of range *)
                  else
                  match run_sem rnd (p_sem pr) (rev (map snd (firstn n st))) k with
                  | None => Panic
                  | Some (v, k') =>
                      match skipn n st with
                      | [] => Panic
                      | (s', v') :: st' =>
                          let g := goto_at s' (p_nt pr) in
                          if Z.ltb g 0 then Panic             (* actionTab[-1] *)
                          else parse_loop fuel' rnd ((Z.to_nat g, v) :: (s', v') :: st') tok lx k'
                      end
                  end
              end
          end
      end
  end.

(** The fuel given to the loop: linear in the size of the input. *)
Definition parse_fuel (src : gostr) : nat := 32 * (length src + 2).

(** main.go:34-49 (ParseBytes) = gographviz.go:41-48 (Parse, ParseString): the AST and the number
    of random values drawn.  [k0] is the number of values drawn from the shared source before. *)
Definition parse_bytes (rnd : nat -> N) (k0 : nat) (src : gostr) : res parse_error (graph * nat) :=
  match scan (new_lexer src) with
  | None => OutOfFuel
  | Some (tok, lx) =>
      match parse_loop (parse_fuel src) rnd [(0, VNil)] tok lx k0 with
      | Ok (VGraph g, k) => Ok (g, k)
      | Ok _ => Panic                                         (* main.go:45 *)
      | Err e => Err e
      | Panic => Panic
      | OutOfFuel => OutOfFuel
      end
  end.
