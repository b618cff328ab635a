(** Which ASTs survive printing (C09, C10): String() calls strings.TrimSpace on the text of a node
    statement, of every right-hand side of an edge, and of a whole edge statement
    (ast.go:510, 540, 559, 596), so it eats a Unicode space that an ID shows at an end of such a
    text, and no other. *)
From Coq Require Import List Ascii NArith Bool.
From Verif Require Import Base Ast.
Import ListNotations.

(** The first (last) character of an ID is a Unicode space. *)
Definition starts_space (i : gostr) : bool := is_space (fst (decode_rune i)).
Definition ends_space (i : gostr) : bool := is_space (fst (decode_last_rune i)).

(** The ID that is written last in [id], [id:port], [id:port:compass]. *)
Definition last_id (n : node_id) : gostr :=
  match port_id1 (nid_port n), port_id2 (nid_port n) with
  | [], _ => nid_id n
  | p, [] => p
  | _, q => q
  end.

(** Some attribute is printed between brackets. *)
Definition has_attr (a : list (list attr)) : bool := existsb (fun al => match al with [] => false | _ => true end) a.

(** No ID of the statement (graph) shows a space at an end of a trimmed text:
    - node statement: the node's ID does not begin with a space; the ID written last does not end
      with one, unless an attribute follows it;
    - edge statement: if the first endpoint is a node, its ID does not begin with a space; if
      another endpoint is a node, the ID written last there does not end with one;
    - and so on inside subgraphs.  All other IDs (attributes, names of graphs) are free. *)
Definition src_bare (l : location) : bool :=
  match l with LNode n => negb (starts_space (nid_id n)) | LSub _ => true end.
Definition dst_bare (l : location) : bool :=
  match l with LNode n => negb (ends_space (last_id n)) | LSub _ => true end.
Fixpoint bare_stmt (s : stmt) : bool :=
  match s with
  | SNode n a => negb (starts_space (nid_id n)) && (has_attr a || negb (ends_space (last_id n)))
  | SEdge l r _ => src_bare l && bare_loc l &&
      forallb (fun e => match e with EdgeRH _ d => dst_bare d && bare_loc d end) r
  | SSub g => bare_sub g
  | SEdgeAttrs _ | SNodeAttrs _ | SGraphAttrs _ | SAttr _ => true
  end
with bare_loc (l : location) : bool :=
  match l with LNode _ => true | LSub g => bare_sub g end
with bare_sub (g : subgraph) : bool :=
  match g with SubGraph _ b => forallb bare_stmt b end.
Definition bare_graph (g : graph) : bool := forallb bare_stmt (g_stmts g).

(** The bytes from 128 up (the bytes of characters beyond ASCII) in a text, and in the IDs of an AST. *)
Definition hi_byte (a : ascii) : bool := N.leb 128 (bv a).
Definition nz (s : gostr) : nat := length (filter hi_byte s).
Definition nz_attr (a : attr) : nat := nz (at_field a) + nz (at_value a).
Definition nz_attrs (l : list (list attr)) : nat := list_sum (map (fun al => list_sum (map nz_attr al)) l).
Definition nz_node (n : node_id) : nat := nz (nid_id n) + nz (port_id1 (nid_port n)) + nz (port_id2 (nid_port n)).
Fixpoint nz_stmt (s : stmt) : nat :=
  match s with
  | SNode n a => nz_node n + nz_attrs a
  | SEdge l r a => nz_loc l + list_sum (map (fun e => match e with EdgeRH _ d => nz_loc d end) r) + nz_attrs a
  | SEdgeAttrs a | SNodeAttrs a | SGraphAttrs a => nz_attrs a
  | SSub g => nz_sub g
  | SAttr a => nz_attr a
  end
with nz_loc (l : location) : nat := match l with LNode n => nz_node n | LSub g => nz_sub g end
with nz_sub (g : subgraph) : nat := match g with SubGraph i b => nz i + list_sum (map nz_stmt b) end.
Definition nz_graph (g : graph) : nat := nz (g_id g) + list_sum (map nz_stmt (g_stmts g)).
