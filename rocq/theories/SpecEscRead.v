(** Specification for C76: reading into an Escape. *)
From Verif Require Import Base Maps Graph Escape SpecAst SpecAnalyse SpecLabel.
From Verif Require Ast.

Section Spec.
  Variable uletter udigit : N -> bool.   (* unicode.IsLetter, unicode.IsDigit from U+0080 on *)
  (** Escaping leaves this string alone. *)
  Definition unescaped (s : gostr) : Prop := esc uletter udigit s = Some s.
  (** Escaping leaves all the names, attribute names and values of the tree alone; for a node statement with a port this
      is asked of the whole text, such as a:p, since that is the name of the node (C37). *)
  Definition plain_tree (a : Ast.graph) : Prop :=
    wf_graph unescaped a /\ forall n l, in_stmts (Ast.g_stmts a) (Ast.SNode n l) -> unescaped (node_text n).
End Spec.
(** No node statement of the tree has a port (the ends of edges may). *)
Definition no_node_ports (a : Ast.graph) : Prop := forall n l, in_stmts (Ast.g_stmts a) (Ast.SNode n l) -> port_text (Ast.nid_port n) = [].
(** A text in which all bytes are ASCII. *)
Definition ascii_text (s : gostr) : Prop := Forall (fun b => bv b < 128)%N s.
