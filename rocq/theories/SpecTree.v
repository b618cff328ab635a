(** What C83 speaks about: an AST as a tree of fields and elements, and the tree that a value in memory shows. *)
From Coq Require Import List Ascii NArith.
From Verif Require Import Base Ast Lexer Parser TreeMem.
Import ListNotations.

(** A leaf, or a struct or list with its fields or elements. *)
Inductive tree := TLeaf (l : leaf) | TNode (k : kind) (ch : list tree).

Definition t_node_id (n : node_id) : tree := TNode KNodeID [TLeaf (LStr (nid_id n)); TLeaf (LPort (nid_port n))].
Definition t_attr (a : attr) : tree := TNode KAttr [TLeaf (LStr (at_field a)); TLeaf (LStr (at_value a))].
Definition t_alist (a : alist) : tree := TNode KAList (map t_attr a).
Definition t_attr_list (k : kind) (a : attr_list) : tree := TNode k (map t_alist a).
Fixpoint t_stmt (s : stmt) : tree :=
  match s with
  | SNode n a => TNode KNodeStmt [t_node_id n; t_attr_list KAttrList a]
  | SEdge src rhs a => TNode KEdgeStmt [t_loc src; TNode KEdgeRHS (map t_rh rhs); t_attr_list KAttrList a]
  | SEdgeAttrs a => t_attr_list KEdgeAttrs a
  | SNodeAttrs a => t_attr_list KNodeAttrs a
  | SGraphAttrs a => t_attr_list KGraphAttrs a
  | SSub g => t_sub g
  | SAttr a => t_attr a
  end
with t_loc (l : location) : tree :=
  match l with
  | LNode n => t_node_id n
  | LSub g => t_sub g
  end
with t_rh (e : edge_rh) : tree :=
  match e with EdgeRH op dst => TNode KEdgeRH [TLeaf (LOp op); t_loc dst] end
with t_sub (g : subgraph) : tree :=
  match g with SubGraph id body => TNode KSub [TLeaf (LStr id); TNode KStmtList (map t_stmt body)] end.
(** The AST of a text as a tree *)
Definition t_graph (g : graph) : tree :=
  TNode KGraph [TLeaf (LBool (g_type g)); TLeaf (LBool (g_strict g)); TLeaf (LStr (g_id g)); TNode KStmtList (map t_stmt (g_stmts g))].

(** The value [v] in the memory [h], with all that it refers to, is the tree. *)
Section Shows.
  Variable h : mem.
  Inductive shows : mval -> tree -> Prop :=
  | sh_leaf l : shows (MLeaf l) (TLeaf l)
  | sh_nil k : shows (MNil k) (TNode k [])
  | sh_ptr k a fs ts : nth_error h a = Some fs -> all_show fs ts -> shows (MPtr k a) (TNode k ts)
  | sh_slice k a n cs ts : nth_error h a = Some cs -> n <= length cs -> all_show (firstn n cs) ts -> shows (MSlice k a n) (TNode k ts)
  with all_show : list mval -> list tree -> Prop :=
  | as_nil : all_show [] []
  | as_cons v t vs ts : shows v t -> all_show vs ts -> all_show (v :: vs) (t :: ts).
End Shows.

(** The tree found by a path, and the tree with another one there. *)
Fixpoint subtree (t : tree) (p : list nat) : option tree :=
  match p with
  | [] => Some t
  | i :: p' => match t with
               | TLeaf _ => None
               | TNode _ ch => match nth_error ch i with Some c => subtree c p' | None => None end
               end
  end.
Fixpoint replaced (t : tree) (p : list nat) (u : tree) : option tree :=
  match p with
  | [] => Some u
  | i :: p' =>
      match t with
      | TLeaf _ => None
      | TNode k ch =>
          match nth_error ch i with
          | None => None
          | Some c => match replaced c p' u with Some c' => Some (TNode k (firstn i ch ++ c' :: skipn (S i) ch)) | None => None end
          end
      end
  end.

(** The same programs when a variable simply holds a tree: there is no memory, no array and no pointer.
    A text that is parsed gives the AST that [parse_bytes] (Parser.v) says. *)
Definition t_state := (list tree * nat)%type.
Definition put (n : nat) (t : tree) (ts : list tree) : list tree := firstn n ts ++ t :: skipn (S n) ts.
Definition t_exec (rnd : nat -> N) (o : tree_op) (s : t_state) : option t_state :=
  let '(ts, k) := s in
  match o with
  | OParse src =>
      match parse_bytes rnd k src with
      | Ok (g, k') => Some (ts ++ [t_graph g], k')
      | Err _ => Some (ts ++ [TLeaf LNil], k)
      | _ => None
      end
  | ONew kd ls => Some (ts ++ [TNode kd (map TLeaf ls)], k)
  | ONil kd => Some (ts ++ [TNode kd []], k)
  | OSet r p l =>
      match nth_error ts r with
      | None => None
      | Some t => match replaced t p (TLeaf l) with Some t' => Some (put r t' ts, k) | None => None end
      end
  | OPut r p q =>
      match nth_error ts r, nth_error ts q with
      | Some t, Some u => match replaced t p u with Some t' => Some (put q (TLeaf LNil) (put r t' ts), k) | None => None end
      | _, _ => None
      end
  | OAppend r p q =>
      match nth_error ts r, nth_error ts q with
      | Some t, Some u =>
          match subtree t p with
          | Some (TNode kd ch) =>
              if is_slice kd
              then match replaced t p (TNode kd (ch ++ [u])) with Some t' => Some (put q (TLeaf LNil) (put r t' ts), k) | None => None end
              else None
          | _ => None
          end
      | _, _ => None
      end
  end.
Fixpoint t_run (rnd : nat -> N) (l : list tree_op) (s : t_state) : option t_state :=
  match l with [] => Some s | o :: l' => match t_exec rnd o s with Some s' => t_run rnd l' s' | None => None end end.

(** A tree is not put into itself; nil lists have a list type. *)
Definition op_ok (o : tree_op) : Prop :=
  match o with
  | OPut r _ q | OAppend r _ q => r <> q
  | ONil kd => is_slice kd = true
  | _ => True
  end.
