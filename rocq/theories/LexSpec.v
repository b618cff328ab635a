(** Specification of the lexical syntax, independent of the lexer's tables.
    Transcribed from /repo/dot.bnf ("Tokens" section, lines 18-159). *)
From Coq Require Import List Ascii NArith Bool.
From Verif Require Import Base.
Import ListNotations.

(** ** Regular expressions over runes *)
Inductive re :=
| Emp                       (* nothing *)
| Eps                       (* the empty string *)
| Rng (lo hi : N)           (* one rune in a range *)
| Alt (a b : re)
| Cat (a b : re)
| Star (a : re).

Inductive matches : re -> list N -> Prop :=
| m_eps : matches Eps []
| m_rng lo hi r : in_range lo hi r = true -> matches (Rng lo hi) [r]
| m_alt_l a b w : matches a w -> matches (Alt a b) w
| m_alt_r a b w : matches b w -> matches (Alt a b) w
| m_cat a b w1 w2 : matches a w1 -> matches b w2 -> matches (Cat a b) (w1 ++ w2)
| m_star_nil a : matches (Star a) []
| m_star_cons a w1 w2 : matches a w1 -> matches (Star a) w2 -> matches (Star a) (w1 ++ w2).

Definition chr (c : ascii) : re := Rng (bv c) (bv c).
Definition word (s : String.string) : re :=
  fold_right (fun c r => Cat (chr c) r) Eps (lit s).
Arguments word s%string_scope.
Definition alts (l : list re) : re := fold_right Alt Emp l.
Definition cats (l : list re) : re := fold_right Cat Eps l.
Definition opt (r : re) : re := Alt r Eps.
Definition code (n : N) : re := Rng n n.

(** ** Keywords, dot.bnf:23-64 *)
Definition kw_node := alts [word "node"; word "Node"; word "NODE"].
Definition kw_edge := alts [word "edge"; word "Edge"; word "EDGE"].
Definition kw_graph := alts [word "graph"; word "Graph"; word "GRAPH"].
Definition kw_digraph :=
  alts [word "digraph"; word "Digraph"; word "diGraph"; word "DiGraph"; word "DIGRAPH"].
Definition kw_subgraph :=
  alts [word "subgraph"; word "Subgraph"; word "subGraph"; word "SubGraph"; word "SUBGRAPH"].
Definition kw_strict := alts [word "strict"; word "Strict"; word "STRICT"].

(** ** Identifiers, dot.bnf:66-142 *)
Definition ascii_char := alts [Rng 1 33; Rng 35 91; Rng 93 127].        (* no NUL, quote, backslash *)
Definition ascii_letter := Alt (Rng 97 122) (Rng 65 90).
Definition digit := Rng 48 57.
Definition unicode_byte := Alt (Rng 128 65532) (Rng 65534 1114111).     (* not U+FFFD *)
Definition unicode_char := Alt ascii_char unicode_byte.
Definition letter := alts [ascii_letter; unicode_byte; chr "_"].
Definition decimals := Cat digit (Star digit).
Definition int_lit :=
  Alt (cats [opt (chr "-"); chr "."; decimals])
      (cats [opt (chr "-"); decimals; opt (Cat (chr ".") (Star digit))]).
Definition escaped_char := Cat (code 92) (alts [unicode_char; code 34; code 92]).
Definition string_lit := cats [code 34; Star (Alt unicode_char escaped_char); code 34].
Definition html_char := alts [Rng 1 59; Rng 61 61; Rng 63 255].         (* no NUL, "<", ">" *)
Definition html_tag := cats [chr "<"; Star html_char; chr ">"].
Definition html_lit := cats [chr "<"; Star (Alt (Star html_char) html_tag); chr ">"].
Definition name := Cat letter (Star (Alt letter digit)).

(** [id] exactly as dot.bnf writes it. *)
Definition bnf_id := alts [name; int_lit; string_lit; html_lit].

(** The lexer gocc generated from dot.bnf does not accept an empty tag "<>" inside an HTML string
    (see [C04_html_refuted] in PropsParse.v); this is the language it does accept. *)
Definition html_tag1 := cats [chr "<"; html_char; Star html_char; chr ">"].
Definition html_lit1 := cats [chr "<"; Star (Alt (Star html_char) html_tag1); chr ">"].
Definition lex_id := alts [name; int_lit; string_lit; html_lit1].

(** ** White space and comments, dot.bnf:144-159.  gocc reads "." as "any rune for which there is
    no other alternative at this point": a line comment ends at the first newline, a block comment
    at the first "*/". *)
Definition not_nl := Alt (Rng 0 9) (Rng 11 1114111).
Definition line_comment :=
  Alt (cats [word "//"; Star not_nl; code 10]) (cats [chr "#"; Star not_nl; code 10]).
Definition not_star := Alt (Rng 0 41) (Rng 43 1114111).
Definition not_star_slash := alts [Rng 0 41; Rng 43 46; Rng 48 1114111].
Definition block_comment :=
  cats [word "/*"; Star (Alt not_star (cats [chr "*"; Star (chr "*"); not_star_slash]));
        chr "*"; Star (chr "*"); chr "/"].
Definition whitespace := alts [code 32; code 9; code 13; code 10].
Definition ignored := alts [whitespace; line_comment; block_comment].

(** ** Lexical classes.  Numbers of the token types: internal/token/token.go:137-158. *)
Inductive class := Skip | Tok (ty : nat).

Definition reserved : list (nat * re) :=
  [ (2, kw_graph); (3, chr "{"); (4, chr "}"); (5, kw_strict); (6, kw_digraph); (7, chr ";");
    (8, chr "="); (9, kw_node); (10, kw_edge); (11, chr "["); (12, chr "]"); (13, chr ",");
    (14, chr ":"); (15, kw_subgraph); (16, word "->"); (17, word "--") ].

Definition ID : nat := 18.

(** [is_lexeme w c]: the runes [w] form a lexeme of class [c]. *)
Inductive is_lexeme (w : list N) : class -> Prop :=
| lx_skip : matches ignored w -> is_lexeme w Skip
| lx_reserved ty r : In (ty, r) reserved -> matches r w -> is_lexeme w (Tok ty)
| lx_id : matches lex_id w -> (forall ty r, In (ty, r) reserved -> ~ matches r w) ->
          is_lexeme w (Tok ID).

(** ** Runes of a byte string: each with the bytes it was decoded from *)
Definition piece : Type := N * gostr.
Fixpoint pieces_f (n : nat) (s : gostr) : list piece :=
  match n, s with
  | O, _ => []
  | _, [] => []
  | S n', _ => let '(r, k) := decode_rune s in (r, firstn k s) :: pieces_f n' (skipn k s)
  end.
Definition pieces (s : gostr) : list piece := pieces_f (length s) s.
Definition text (ps : list piece) : gostr := concat (map snd ps).
Definition runes_of (ps : list piece) : list N := map fst ps.

(** ** Positions: byte offset, line, column (lexer.go: a tab counts four columns, CR and LF
    return to column 1, LF starts a new line) *)
Record position := Pos { p_off : nat; p_line : nat; p_col : nat }.
Definition start_pos : position := Pos 0 1 1.
Definition step_pos (p : position) (c : piece) : position :=
  let '(r, bs) := c in
  Pos (p_off p + length bs)
      (if N.eqb r 10 then p_line p + 1 else p_line p)
      (if N.eqb r 10 || N.eqb r 13 then 1 else if N.eqb r 9 then p_col p + 4 else p_col p + 1).
Definition advance (p : position) (ps : list piece) : position := fold_left step_pos ps p.

(** ** The token sequence of a text: maximal munch.
    A token is (type, literal, position). *)
Definition stoken : Type := nat * gostr * position.

(** [u] is the longest non-empty prefix of [ps] that is a lexeme, and it has class [c]. *)
Definition longest (ps u rest : list piece) (c : class) : Prop :=
  ps = u ++ rest /\ u <> [] /\ is_lexeme (runes_of u) c /\
  forall u' rest' c', ps = u' ++ rest' -> u' <> [] -> is_lexeme (runes_of u') c' -> length u' <= length u.

(** [w] is a proper or improper prefix of a lexeme. *)
Definition viable (w : list N) : Prop := exists w' c, is_lexeme (w ++ w') c.

Inductive lexes : position -> list piece -> list stoken -> Prop :=
| lex_eof p : lexes p [] [(1, [], p)]
| lex_skip p ps u rest ts :
    longest ps u rest Skip -> lexes (advance p u) rest ts -> lexes p ps ts
| lex_tok p ps u rest ty ts :
    longest ps u rest (Tok ty) -> lexes (advance p u) rest ts ->
    lexes p ps ((ty, text u, p) :: ts)
| lex_bad p u c rest :          (* the rune [c] is the first that cannot continue any lexeme *)
    (forall u' v' c', u ++ [c] = u' ++ v' -> u' <> [] -> ~ is_lexeme (runes_of u') c') ->
    viable (runes_of u) -> ~ viable (runes_of (u ++ [c])) ->
    lexes p (u ++ c :: rest) [(0, text (u ++ [c]), p)]
| lex_trunc p u :               (* the input ends inside a lexeme *)
    u <> [] -> (forall u' v' c', u = u' ++ v' -> u' <> [] -> ~ is_lexeme (runes_of u') c') ->
    viable (runes_of u) ->
    lexes p u [(0, text u, p)].
