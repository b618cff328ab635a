(** Texts that stand for statements (C86): what may be written between the braces of a graph.
    Independent of how the text was made; parts of a graph's text that the package prints
    (ast.go: the String methods) and texts written by hand are treated alike. *)
From Coq Require Import List Ascii NArith Bool.
From Verif Require Import Base Ast Parser.
Import ListNotations.

Definition newline : gostr := [nl].

(** The beginning of a graph up to the opening brace: [strict] graph|digraph [name] { *)
Definition heading (digraph strict : bool) (name : gostr) : gostr :=
  (if strict then lit "strict " else []) ++ (if digraph then lit "digraph" else lit "graph") ++ lit " " ++ name ++ lit " {".

(** [t] can be written between the braces of a graph, where the closing brace is on a line of its own, and says the
    statements [ss].  [k] and [k'] count the random values drawn for subgraphs without a name. *)
Definition says (rnd : nat -> N) (k : nat) (t : gostr) (ss : list stmt) (k' : nat) : Prop :=
  parse_bytes rnd k (lit "graph {" ++ t ++ newline ++ lit "}") = Ok (Graph false false [] ss, k').

(** Statements put together by hand from the printed parts: a node ID (or keyword) and an attribute list, and an edge
    from one end over arrows and further ends.  AttrList.String, NodeID.String, SubGraph.String, EdgeOp.String. *)
Definition node_line (n : node_id) (a : attr_list) : gostr := node_id_str n ++ lit " " ++ attr_list_str a.
Definition edge_line (l : location) (hops : list (bool * location)) (a : attr_list) : gostr :=
  location_str l ++ concat (map (fun x => edge_op_str (fst x) ++ location_str (snd x)) hops) ++ lit " " ++ attr_list_str a.
Definition edge_tree (l : location) (hops : list (bool * location)) (a : attr_list) : stmt :=
  SEdge l (map (fun x => EdgeRH (fst x) (snd x)) hops) a.
