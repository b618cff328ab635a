(** Model of the memory in which Parse builds a syntax tree: the structs of /repo/ast/ast.go are allocated, its lists are slices
    of backing arrays to which append writes in place when there is room.  (Parser.v has trees as values and lists as lists.) *)
From Coq Require Import List Ascii NArith ZArith Bool Arith.
From Verif Require Import Base LexTables ParseTables Ast Lexer Parser.
Import ListNotations.

(** ** Memory *)

(** Values without references: nil, *token.Token (the parser only reads it), ID, GraphType or bool, EdgeOp, Port. *)
Inductive leaf := LNil | LTok (t : token) | LStr (s : gostr) | LBool (b : bool) | LOp (d : bool) | LPort (p : port).
(** The types of pointers to structs and of slices. *)
Inductive kind :=
| KGraph | KNodeStmt | KEdgeStmt | KSub | KAttr | KNodeID | KEdgeRH
| KStmtList | KEdgeAttrs | KNodeAttrs | KGraphAttrs | KAttrList | KAList | KEdgeRHS.
Definition is_slice (k : kind) : bool :=
  match k with KGraph | KNodeStmt | KEdgeStmt | KSub | KAttr | KNodeID | KEdgeRH => false | _ => true end.
Definition kind_eqb (a b : kind) : bool :=
  match a, b with
  | KGraph, KGraph | KNodeStmt, KNodeStmt | KEdgeStmt, KEdgeStmt | KSub, KSub | KAttr, KAttr | KNodeID, KNodeID | KEdgeRH, KEdgeRH
  | KStmtList, KStmtList | KEdgeAttrs, KEdgeAttrs | KNodeAttrs, KNodeAttrs | KGraphAttrs, KGraphAttrs | KAttrList, KAttrList
  | KAList, KAList | KEdgeRHS, KEdgeRHS => true
  | _, _ => false
  end.
(** A pointer to a struct, a nil slice, the first [n] cells of the array at [a]. *)
Inductive mval := MLeaf (l : leaf) | MPtr (k : kind) (a : nat) | MNil (k : kind) | MSlice (k : kind) (a n : nat).
(** A struct is the list of its fields, an array the list of its cells (as many as its capacity). *)
Definition mem := list (list mval).
Fixpoint set_at {A} (i : nat) (x : A) (l : list A) {struct l} : list A :=
  match l, i with
  | [], _ => []
  | _ :: l', O => x :: l'
  | y :: l', S i' => y :: set_at i' x l'
  end.

(** &T{...} *)
Definition new_struct (k : kind) (fields : list mval) (h : mem) : mval * mem := (MPtr k (length h), h ++ [fields]).
(** make(T, n) and the literal T{...}, with all cells set *)
Definition new_slice (k : kind) (cells : list mval) (h : mem) : mval * mem := (MSlice k (length h) (length cells), h ++ [cells]).

Section Append.
  (** The room that append leaves when it makes a new array, which may depend on anything. *)
  Variable grow : mem -> nat -> nat.
  (** append(s, x) *)
  Definition append (s x : mval) (h : mem) : option (mval * mem) :=
    match s with
    | MNil k => Some (MSlice k (length h) 1, h ++ [x :: repeat (MLeaf LNil) (grow h 0)])
    | MSlice k a n =>
        match nth_error h a with
        | None => None
        | Some cells =>
            if Nat.ltb n (length cells)
            then Some (MSlice k a (S n), set_at a (set_at n x cells) h)
            else Some (MSlice k (length h) (S n), h ++ [firstn n cells ++ x :: repeat (MLeaf LNil) (grow h n)])
        end
    | _ => None
    end.

  (** ** Type assertions *)
  Definition is_nil (v : mval) : bool := match v with MLeaf LNil => true | _ => false end.
  Definition to_id (v : mval) : option gostr := match v with MLeaf (LStr i) => Some i | _ => None end.
  Definition to_op (v : mval) : option bool := match v with MLeaf (LOp d) => Some d | _ => None end.
  Definition to_port (v : mval) : option port := match v with MLeaf (LPort p) => Some p | _ => None end.
  Definition kind_of (v : mval) : option kind :=
    match v with MLeaf _ => None | MPtr k _ => Some k | MNil k => Some k | MSlice k _ _ => Some k end.
  Definition to_kind (k : kind) (v : mval) : option mval :=
    match kind_of v with Some k' => if kind_eqb k k' then Some v else None | None => None end.
  (** ast.go:181-187: the implementations of Stmt *)
  Definition to_stmt (v : mval) : option mval :=
    match kind_of v with
    | Some (KNodeStmt | KEdgeStmt | KEdgeAttrs | KNodeAttrs | KGraphAttrs | KSub | KAttr) => Some v
    | _ => None
    end.
  (** ast.go:480-483: the implementations of Location *)
  Definition to_loc (v : mval) : option mval :=
    match kind_of v with Some (KNodeID | KSub) => Some v | _ => None end.
  (** EdgeAttrs(a.(AttrList)) and so on: the same slice with another type *)
  Definition convert (k : kind) (v : mval) : mval :=
    match v with MNil _ => MNil k | MSlice _ a n => MSlice k a n | _ => v end.

  Local Notation "'let*' x ':=' e 'in' k" := (opt_bind e (fun x => k))
    (at level 200, x binder, e at level 100, k at level 200, right associativity).
  Definition marg (X : list mval) (k : nat) : option mval := nth_error X k.
  Definition omarg (X : list mval) (k : option nat) : option mval :=
    match k with Some i => nth_error X i | None => Some (MLeaf LNil) end.
  Definition str (s : gostr) : mval := MLeaf (LStr s).

  (** ast.go:337-343 (NewAttrList) *)
  Definition m_new_attr_list (a : mval) (h : mem) : option (mval * mem) :=
    let '(s, h1) := new_slice KAttrList [] h in
    if is_nil a then Some (s, h1) else let* al := to_kind KAList a in append s al h1.
  (** ast.go:491-503, 576-589: nil attributes are replaced by NewAttrList(nil) *)
  Definition m_opt_attrs (a : mval) (h : mem) : option (mval * mem) :=
    if is_nil a then m_new_attr_list (MLeaf LNil) h else let* s := to_kind KAttrList a in Some (s, h).
  (** ast.go:98-105, 202-205: an absent list is a nil slice *)
  Definition m_body (l : mval) : option mval := if is_nil l then Some (MNil KStmtList) else to_kind KStmtList l.

  Definition with_k (k : nat) (r : option (mval * mem)) : option (mval * mem * nat) :=
    match r with Some (v, h) => Some (v, h, k) | None => None end.

  (** productionstable.go with the constructors of ast.go, on the memory [h]. *)
  Definition m_run_sem (rnd : nat -> N) (s : sem) (X : list mval) (h : mem) (k : nat) : option (mval * mem * nat) :=
    match s with
    | SemProj i => with_k k (let* v := marg X i in Some (v, h))
    | SemOp d => Some (MLeaf (LOp d), h, k)
    | SemGraph t st id l =>                                         (* ast.go:97-106 *)
        with_k k (let* i := omarg X id in let* b := omarg X l in
                  let* i' := (if is_nil i then Some [] else to_id i) in
                  let* b' := m_body b in
                  Some (new_struct KGraph [MLeaf (LBool t); MLeaf (LBool st); str i'; b'] h))
    | SemStmtList i =>                                              (* ast.go:133-137 *)
        with_k k (let* v := marg X i in let* s := to_stmt v in Some (new_slice KStmtList [s] h))
    | SemAppendStmtList i j =>                                      (* ast.go:139-143 *)
        with_k k (let* v := marg X i in let* l := to_kind KStmtList v in
                  let* w := marg X j in let* s := to_stmt w in append l s h)
    | SemAttr f v =>                                                (* ast.go:441-452 *)
        with_k k (let* a := marg X f in let* b := omarg X v in
                  let* fi := to_id a in
                  let* vi := (if is_nil b then Some (lit "true") else to_id b) in
                  Some (new_struct KAttr [str fi; str vi] h))
    | SemGraphAttrs i =>                                            (* ast.go:309-311 *)
        with_k k (let* v := marg X i in let* a := to_kind KAttrList v in Some (convert KGraphAttrs a, h))
    | SemNodeAttrs i =>                                             (* ast.go:281-283 *)
        with_k k (let* v := marg X i in let* a := to_kind KAttrList v in Some (convert KNodeAttrs a, h))
    | SemEdgeAttrs i =>                                             (* ast.go:253-255 *)
        with_k k (let* v := marg X i in let* a := to_kind KAttrList v in Some (convert KEdgeAttrs a, h))
    | SemAttrList a => with_k k (let* v := omarg X a in m_new_attr_list v h)
    | SemAppendAttrList l a =>                                      (* ast.go:345-352 *)
        with_k k (let* u := marg X l in let* v := omarg X a in
                  let* this := to_kind KAttrList u in
                  if is_nil v then Some (this, h) else let* al := to_kind KAList v in append this al h)
    | SemAList i =>                                                 (* ast.go:405-409 *)
        with_k k (let* v := marg X i in let* a := to_kind KAttr v in Some (new_slice KAList [a] h))
    | SemAppendAList i j =>                                         (* ast.go:411-416 *)
        with_k k (let* v := marg X i in let* l := to_kind KAList v in
                  let* w := marg X j in let* a := to_kind KAttr w in append l a h)
    | SemEdgeStmt i e a =>                                          (* ast.go:491-503 *)
        with_k k (let* v := marg X i in let* l := to_loc v in
                  let* w := marg X e in let* r := to_kind KEdgeRHS w in
                  let* x := omarg X a in let* p := m_opt_attrs x h in
                  let '(al, h1) := p in Some (new_struct KEdgeStmt [l; r; al] h1))
    | SemEdgeRHS o i =>                                             (* ast.go:525-527 *)
        with_k k (let* v := marg X o in let* op := to_op v in
                  let* w := marg X i in let* l := to_loc w in
                  let '(p, h1) := new_struct KEdgeRH [MLeaf (LOp op); l] h in Some (new_slice KEdgeRHS [p] h1))
    | SemAppendEdgeRHS e o i =>                                     (* ast.go:529-533 *)
        with_k k (let* u := marg X e in let* r := to_kind KEdgeRHS u in
                  let* v := marg X o in let* op := to_op v in
                  let* w := marg X i in let* l := to_loc w in
                  let '(p, h1) := new_struct KEdgeRH [MLeaf (LOp op); l] h in append r p h1)
    | SemNodeStmt i a =>                                            (* ast.go:576-589 *)
        with_k k (let* v := marg X i in let* n := to_kind KNodeID v in
                  let* x := omarg X a in let* p := m_opt_attrs x h in
                  let '(al, h1) := p in Some (new_struct KNodeStmt [n; al] h1))
    | SemNodeID i p =>                                              (* ast.go:634-639 *)
        with_k k (let* v := marg X i in let* n := to_id v in
                  let* w := omarg X p in
                  let* pt := (if is_nil w then Some (Port [] []) else to_port w) in
                  Some (new_struct KNodeID [str n; MLeaf (LPort pt)] h))
    | SemPort a b =>                                                (* ast.go:680-689 *)
        with_k k (let* v := omarg X a in
                  let* i := (if is_nil v then Some [] else to_id v) in
                  let* w := omarg X b in
                  let* j := (if is_nil w then Some [] else to_id w) in
                  Some (MLeaf (LPort (Port i j)), h))
    | SemSubGraph i l =>                                            (* ast.go:194-207 *)
        let* v := omarg X i in let* b := omarg X l in
        let* b' := m_body b in
        match (if is_nil v then Some [] else to_id v) with
        | None => None
        | Some [] => with_k (S k) (Some (new_struct KSub [str (anon_name (rnd k)); b'] h))
        | Some id => with_k k (Some (new_struct KSub [str id; b'] h))
        end
    | SemID i =>                                                    (* ast.go:713-719 *)
        with_k k (let* v := marg X i in
                  match v with
                  | MLeaf LNil => Some (str [], h)
                  | MLeaf (LTok t) => Some (str (tk_lit t), h)
                  | _ => None
                  end)
    end.

  (** ** The driver *)
  Definition m_stack := list (nat * mval).
  (** parser.go:185-217 (Parse): the loop, as in Parser.v. *)
  Fixpoint m_parse_loop (fuel : nat) (rnd : nat -> N) (st : m_stack) (tok : token) (lx : lexer) (h : mem) (k : nat)
    : res parse_error (mval * mem * nat) :=
    match fuel with
    | O => OutOfFuel
    | S fuel' =>
        match st with
        | [] => Panic
        | (s, v0) :: _ =>
            if negb (Nat.ltb s num_states) then Panic
            else
            match action_at s (tk_type tok) with
            | None => Err (ParseError tok (expected_tokens s) s)
            | Some Accept => Ok (v0, h, k)
            | Some (Shift n) =>
                match scan lx with
                | Some (tok', lx') => m_parse_loop fuel' rnd ((n, MLeaf (LTok tok)) :: st) tok' lx' h k
                | None => OutOfFuel
                end
            | Some (Reduce p) =>
                match nth_error prod_tab p with
                | None => Panic
                | Some pr =>
                    let n := p_num pr in
                    if Nat.ltb (length st) n then Panic
                    else
                    match m_run_sem rnd (p_sem pr) (rev (map snd (firstn n st))) h k with
                    | None => Panic
                    | Some (v, h', k') =>
                        match skipn n st with
                        | [] => Panic
                        | (s', v') :: st' =>
                            let g := goto_at s' (p_nt pr) in
                            if Z.ltb g 0 then Panic
                            else m_parse_loop fuel' rnd ((Z.to_nat g, v) :: (s', v') :: st') tok lx h' k'
                        end
                    end
                end
            end
        end
    end.

  (** main.go:34-49 (ParseBytes), in the memory [h]. *)
  Definition m_parse (rnd : nat -> N) (k0 : nat) (h : mem) (src : gostr) : res parse_error (mval * mem * nat) :=
    match scan (new_lexer src) with
    | None => OutOfFuel
    | Some (tok, lx) =>
        match m_parse_loop (parse_fuel src) rnd [(0, MLeaf LNil)] tok lx h k0 with
        | Ok (v, h', k) => match kind_of v with Some KGraph => Ok (v, h', k) | _ => Panic end   (* main.go:43-46 *)
        | Err e => Err e
        | Panic => Panic
        | OutOfFuel => OutOfFuel
        end
    end.
End Append.

(** ** What a program does with trees *)

(** The [i]-th field of a struct or element of a list. *)
Definition child (h : mem) (v : mval) (i : nat) : option mval :=
  match v with
  | MPtr _ a => match nth_error h a with Some fs => nth_error fs i | None => None end
  | MSlice _ a n => match nth_error h a with Some cs => nth_error (firstn n cs) i | None => None end
  | _ => None
  end.
(** The value found by following fields and elements. *)
Fixpoint follow (h : mem) (v : mval) (p : list nat) : option mval :=
  match p with
  | [] => Some v
  | i :: p' => match child h v i with Some v' => follow h v' p' | None => None end
  end.
(** x.f = w or x[i] = w, where x is the struct or list that [v] refers to. *)
Definition assign (h : mem) (v : mval) (i : nat) (w : mval) : option mem :=
  match child h v i, v with
  | Some _, MPtr _ a | Some _, MSlice _ a _ =>
      match nth_error h a with Some cs => Some (set_at a (set_at i w cs) h) | None => None end
  | _, _ => None
  end.
(** The assignment to the place at the end of a path from the variable with value [v]: the new value of the variable, and the memory.
    (Only the empty path changes the variable itself.) *)
Fixpoint store (h : mem) (v : mval) (p : list nat) (w : mval) : option (mval * mem) :=
  match p with
  | [] => Some (w, h)
  | [i] => match assign h v i w with Some h' => Some (v, h') | None => None end
  | i :: p' =>
      match child h v i with
      | Some c => match store h c p' w with Some (_, h') => Some (v, h') | None => None end
      | None => None
      end
  end.

(** Programs with variables [0], [1], ... for trees. *)
Inductive tree_op :=
| OParse (src : gostr)                   (* g, _ := gographviz.Parse(src), a new variable *)
| ONew (k : kind) (fields : list leaf)   (* x := &ast.Attr{...} and so on, or a list literal *)
| ONil (k : kind)                        (* var x ast.AttrList *)
| OSet (r : nat) (p : list nat) (l : leaf)   (* x.f[i].g = "text" *)
| OPut (r : nat) (p : list nat) (q : nat)    (* x.f[i].g = y; y = nil *)
| OAppend (r : nat) (p : list nat) (q : nat). (* x.f[i].g = append(x.f[i].g, y); y = nil *)

Section Run.
  Variable grow : mem -> nat -> nat.
  Variable rnd : nat -> N.
  (** The memory, the values of the variables, the number of random values drawn; [None]: a run-time panic. *)
  Definition m_state := (mem * list mval * nat)%type.
  Definition m_exec (o : tree_op) (s : m_state) : option m_state :=
    let '(h, vs, k) := s in
    match o with
    | OParse src =>
        match m_parse grow rnd k h src with
        | Ok (v, h', k') => Some (h', vs ++ [v], k')
        | Err _ => Some (h, vs ++ [MLeaf LNil], k)
        | _ => None
        end
    | ONew kd ls =>
        let '(v, h') := (if is_slice kd then new_slice else new_struct) kd (map MLeaf ls) h in Some (h', vs ++ [v], k)
    | ONil kd => Some (h, vs ++ [MNil kd], k)
    | OSet r p l =>
        match nth_error vs r with
        | None => None
        | Some v =>
            match follow h v p with
            | None => None
            | Some _ => match store h v p (MLeaf l) with Some (v', h') => Some (h', set_at r v' vs, k) | None => None end
            end
        end
    | OPut r p q =>
        match nth_error vs r, nth_error vs q with
        | Some v, Some w =>
            match follow h v p with
            | None => None
            | Some _ =>
                match store h v p w with Some (v', h') => Some (h', set_at q (MLeaf LNil) (set_at r v' vs), k) | None => None end
            end
        | _, _ => None
        end
    | OAppend r p q =>
        match nth_error vs r, nth_error vs q with
        | Some v, Some w =>
            match follow h v p with
            | None => None
            | Some x =>
                match append grow x w h with
                | None => None
                | Some (y, h1) =>
                    match store h1 v p y with Some (v', h') => Some (h', set_at q (MLeaf LNil) (set_at r v' vs), k) | None => None end
                end
            end
        | _, _ => None
        end
    end.
  Fixpoint m_run (l : list tree_op) (s : m_state) : option m_state :=
    match l with [] => Some s | o :: l' => match m_exec o s with Some s' => m_run l' s' | None => None end end.
End Run.
