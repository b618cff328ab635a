(** Specification of the DOT syntax accepted by the package, read off /repo/dot.bnf (lines 166-311)
    and written with options and lists instead of the 58 table productions.
    A word is the list of (token type, literal) pairs; keywords and punctuation may have any
    spelling their token type has.  The natural numbers [k k'] thread the shared random source
    [rnd]: the construct draws the values number [k .. k'-1]. *)
From Coq Require Import List Ascii NArith Bool.
From Verif Require Import Base Ast LexSpec.
Import ListNotations.

Definition word : Type := list (nat * gostr).

(** Token types, internal/token/token.go:137-158. *)
Definition T_graph := 2.    Definition T_lbrace := 3.   Definition T_rbrace := 4.
Definition T_strict := 5.   Definition T_digraph := 6.  Definition T_semi := 7.
Definition T_eq := 8.       Definition T_node := 9.     Definition T_edge := 10.
Definition T_lbrack := 11.  Definition T_rbrack := 12.  Definition T_comma := 13.
Definition T_colon := 14.   Definition T_subgraph := 15.
Definition T_arrow := 16.   Definition T_line := 17.

(** attr : ID [ '=' ID ]; a missing value means true *)
Inductive d_attr : word -> attr -> Prop :=
| da_flag f : d_attr [(ID, f)] (Attr f (lit "true"))
| da_eq f e v : d_attr [(ID, f); (T_eq, e); (ID, v)] (Attr f v).

(** a_list : attr { [','] attr } *)
Inductive d_comma : word -> Prop :=
| dc_none : d_comma []
| dc_one s : d_comma [(T_comma, s)].
Inductive d_alist : word -> list attr -> Prop :=
| dl_one w a : d_attr w a -> d_alist w [a]
| dl_more w a c w' l : d_attr w a -> d_comma c -> d_alist w' l -> d_alist (w ++ c ++ w') (a :: l).

(** attr_list : one or more bracketed a_lists; an empty pair of brackets leaves no trace in the AST *)
Inductive d_brack : word -> list (list attr) -> Prop :=
| db_empty a b : d_brack [(T_lbrack, a); (T_rbrack, b)] []
| db_list a w l b : d_alist w l -> d_brack ((T_lbrack, a) :: w ++ [(T_rbrack, b)]) [l].
Inductive d_attrs : word -> list (list attr) -> Prop :=
| dal_one w l : d_brack w l -> d_attrs w l
| dal_more w l w' l' : d_brack w l -> d_attrs w' l' -> d_attrs (w ++ w') (l ++ l').
Inductive d_opt_attrs : word -> list (list attr) -> Prop :=
| doa_none : d_opt_attrs [] []
| doa_some w l : d_attrs w l -> d_opt_attrs w l.

(** node_id : ID [ ':' ID [ ':' ID ] ] *)
Inductive d_node_id : word -> node_id -> Prop :=
| dn_plain i : d_node_id [(ID, i)] (NodeID i (Port [] []))
| dn_port i c p : d_node_id [(ID, i); (T_colon, c); (ID, p)] (NodeID i (Port p []))
| dn_port2 i c p c' q :
    d_node_id [(ID, i); (T_colon, c); (ID, p); (T_colon, c'); (ID, q)] (NodeID i (Port p q)).

(** edgeop : '->' | '--' *)
Inductive d_op : nat * gostr -> bool -> Prop :=
| do_arrow s : d_op (T_arrow, s) true
| do_line s : d_op (T_line, s) false.

Inductive d_semi : word -> Prop :=
| dse_none : d_semi []
| dse_one s : d_semi [(T_semi, s)].

(** The name of an anonymous subgraph: "anon" and the decimal form of the random value. *)
Definition anon (r : N) : gostr := lit "anon" ++ dec_of_N r.

Section Grammar.
  Variable rnd : nat -> N.

  (** stmt : ID '=' ID | node_stmt | edge_stmt | attr_stmt | subgraph *)
  Inductive d_stmt : word -> stmt -> nat -> nat -> Prop :=
  | ds_attr f e v k : d_stmt [(ID, f); (T_eq, e); (ID, v)] (SAttr (Attr f v)) k k
  | ds_node w n wa a k :
      d_node_id w n -> d_opt_attrs wa a -> d_stmt (w ++ wa) (SNode n a) k k
  | ds_edge w l w1 r wa a k k1 k2 :
      d_loc w l k k1 -> d_rhs w1 r k1 k2 -> d_opt_attrs wa a ->
      d_stmt (w ++ w1 ++ wa) (SEdge l r a) k k2
  | ds_graph_attrs s wa a k : d_attrs wa a -> d_stmt ((T_graph, s) :: wa) (SGraphAttrs a) k k
  | ds_node_attrs s wa a k : d_attrs wa a -> d_stmt ((T_node, s) :: wa) (SNodeAttrs a) k k
  | ds_edge_attrs s wa a k : d_attrs wa a -> d_stmt ((T_edge, s) :: wa) (SEdgeAttrs a) k k
  | ds_sub w g k k1 : d_sub w g k k1 -> d_stmt w (SSub g) k k1
  (** an edge endpoint: node_id | subgraph *)
  with d_loc : word -> location -> nat -> nat -> Prop :=
  | dloc_node w n k : d_node_id w n -> d_loc w (LNode n) k k
  | dloc_sub w g k k1 : d_sub w g k k1 -> d_loc w (LSub g) k k1
  (** edgeRHS : edgeop endpoint { edgeop endpoint } *)
  with d_rhs : word -> list edge_rh -> nat -> nat -> Prop :=
  | dr_one o b w l k k1 : d_op o b -> d_loc w l k k1 -> d_rhs (o :: w) [EdgeRH b l] k k1
  | dr_more o b w l w' r k k1 k2 :
      d_op o b -> d_loc w l k k1 -> d_rhs w' r k1 k2 ->
      d_rhs (o :: w ++ w') (EdgeRH b l :: r) k k2
  (** subgraph : '{' stmt_list '}' with at least one statement, or subgraph [ ID ] body.
      Without an ID the name is made from the next random value, drawn at the closing brace. *)
  with d_sub : word -> subgraph -> nat -> nat -> Prop :=
  | dsub_bare a w l b k k1 :
      d_stmts w l k k1 ->
      d_sub ((T_lbrace, a) :: w ++ [(T_rbrace, b)]) (SubGraph (anon (rnd k1)) l) k (S k1)
  | dsub_anon s w l k k1 :
      d_body w l k k1 -> d_sub ((T_subgraph, s) :: w) (SubGraph (anon (rnd k1)) l) k (S k1)
  | dsub_named s i w l k k1 :
      d_body w l k k1 -> d_sub ((T_subgraph, s) :: (ID, i) :: w) (SubGraph i l) k k1
  (** body : '{' [ stmt_list ] '}' *)
  with d_body : word -> list stmt -> nat -> nat -> Prop :=
  | dbo_empty a b k : d_body [(T_lbrace, a); (T_rbrace, b)] [] k k
  | dbo_stmts a w l b k k1 :
      d_stmts w l k k1 -> d_body ((T_lbrace, a) :: w ++ [(T_rbrace, b)]) l k k1
  (** stmt_list : stmt [';'] { stmt [';'] } *)
  with d_stmts : word -> list stmt -> nat -> nat -> Prop :=
  | dss_one w s c k k1 : d_stmt w s k k1 -> d_semi c -> d_stmts (w ++ c) [s] k k1
  | dss_more w s c w' l k k1 k2 :
      d_stmt w s k k1 -> d_semi c -> d_stmts w' l k1 k2 -> d_stmts (w ++ c ++ w') (s :: l) k k2.

  (** graph : [ strict ] ( graph | digraph ) [ ID ] body *)
  Inductive d_strict : word -> bool -> Prop :=
  | dst_no : d_strict [] false
  | dst_yes s : d_strict [(T_strict, s)] true.
  Inductive d_kind : nat * gostr -> bool -> Prop :=
  | dk_graph s : d_kind (T_graph, s) false
  | dk_digraph s : d_kind (T_digraph, s) true.
  Inductive d_opt_id : word -> gostr -> Prop :=
  | doi_none : d_opt_id [] []
  | doi_some i : d_opt_id [(ID, i)] i.
  Inductive d_graph : word -> graph -> nat -> nat -> Prop :=
  | dg_graph ws st t ty wi i wb l k k1 :
      d_strict ws st -> d_kind t ty -> d_opt_id wi i -> d_body wb l k k1 ->
      d_graph (ws ++ t :: wi ++ wb) (Graph ty st i l) k k1.
End Grammar.

Scheme d_stmt_mut := Minimality for d_stmt Sort Prop
  with d_loc_mut := Minimality for d_loc Sort Prop
  with d_rhs_mut := Minimality for d_rhs Sort Prop
  with d_sub_mut := Minimality for d_sub Sort Prop
  with d_body_mut := Minimality for d_body Sort Prop
  with d_stmts_mut := Minimality for d_stmts Sort Prop.
Combined Scheme d_mut from d_stmt_mut, d_loc_mut, d_rhs_mut, d_sub_mut, d_body_mut, d_stmts_mut.

(** All literals of ID tokens are non-empty (true of every scanned input). *)
Definition ids_nonempty (w : word) : Prop := Forall (fun x => fst x = ID -> snd x <> []) w.
