(** Model of /repo/internal/errors/errors.go: the text of a syntax error. *)
From Coq Require Import List Ascii NArith ZArith Bool.
From Verif Require Import Base ParseTables TokNames Lexer Parser RecParser.
Import ListNotations.

(** ** strconv.Quote, which is also what fmt's %q does for a []byte *)
Definition hex_digit (n : N) : ascii := ascii_of_N (if N.ltb n 10 then 48 + n else 87 + n).
(** The last [k] hexadecimal digits of [n]. *)
Fixpoint hex (k : nat) (n : N) : gostr :=
  match k with
  | O => []
  | S k' => hex k' (n / 16) ++ [hex_digit (n mod 16)]
  end.
Section Print.
  (** strconv.IsPrint for runes above U+007F. *)
  Variable is_print_hi : N -> bool.
  Definition is_print (r : N) : bool := if N.ltb r 128 then in_range 32 126 r else is_print_hi r.

  (** strconv/quote.go (appendEscapedRune): [bs] is the encoding of the rune [r], that is, what AppendRune appends. *)
  Definition escaped_rune (r : N) (bs : gostr) : gostr :=
    if N.eqb r 34 || N.eqb r 92 then backslash :: bs
    else if is_print r then bs
    else if N.eqb r 7 then lit "\a"
    else if N.eqb r 8 then lit "\b"
    else if N.eqb r 12 then lit "\f"
    else if N.eqb r 10 then lit "\n"
    else if N.eqb r 13 then lit "\r"
    else if N.eqb r 9 then lit "\t"
    else if N.eqb r 11 then lit "\v"
    else if N.ltb r 32 || N.eqb r 127 then lit "\x" ++ hex 2 r
    else if N.ltb r 65536 then lit "\u" ++ hex 4 r
    else lit "\U" ++ hex 8 r.
  (** strconv/quote.go (appendQuotedWith): the loop; a byte that is not part of a valid encoding is written \xHH. *)
  Fixpoint quote_body (fuel : nat) (s : gostr) : gostr :=
    match fuel with
    | O => []
    | S fuel' =>
        match s with
        | [] => []
        | c :: _ =>
            let '(r, n) := decode_rune s in
            (if Nat.eqb n 1 && N.eqb r rune_error then lit "\x" ++ hex 2 (bv c)
             else escaped_rune r (firstn n s)) ++ quote_body fuel' (skipn n s)
        end
    end.
  Definition quote (s : gostr) : gostr := dquote :: quote_body (length s) s ++ [dquote].

  (** unicode.IsLetter(rune(b)) for a byte: the letters of Latin-1. *)
  Definition is_letter_byte (b : N) : bool :=
    in_range 65 90 b || in_range 97 122 b || N.eqb b 170 || N.eqb b 181 || N.eqb b 186
    || in_range 192 214 b || in_range 216 246 b || in_range 248 255 b.

  (** errors.go:46-68 (DescribeExpected) *)
  Definition describe_expected (tokens : list gostr) : gostr :=
    match tokens with
    | [] => lit "unexpected additional tokens"
    | [a] => lit "expected " ++ a
    | [a; b] => lit "expected either " ++ a ++ lit " or " ++ b
    | [a; b; c] => lit "expected one of " ++ a ++ lit ", " ++ b ++ lit " or " ++ c
    | _ => lit "expected one of " ++
           join (lit ", ") (firstn (length tokens - 1) tokens ++ [lit "or " ++ last tokens []])
    end.
  (** errors.go:70-79 (DescribeToken) *)
  Definition describe_token (t : token) : gostr :=
    if Nat.eqb (tk_type t) INVALID then lit "unknown/invalid token " ++ quote (tk_lit t)
    else if Nat.eqb (tk_type t) EOF then lit "end-of-file"
    else quote (tk_lit t).

  (** errors.go:96-102: the name of an expected token; [None]: token[0] panics. *)
  Definition expected_name (ty : nat) : option gostr :=
    match tok_id ty with
    | [] => None
    | b :: s => Some (if is_letter_byte (bv b) then b :: s else quote (b :: s))
    end.
  Fixpoint all_some {A} (l : list (option A)) : option (list A) :=
    match l with
    | [] => Some []
    | None :: _ => None
    | Some a :: l' => match all_some l' with Some r => Some (a :: r) | None => None end
    end.
  (** errors.go:81-110 (Error.Error).  (The context of the position is nil: no Sourcer.) *)
  Definition error_text (e : go_error) : option gostr :=
    let t := pe_token (ge_error e) in
    let text := dec_of_N (N.of_nat (tk_line t)) ++ lit ":" ++ dec_of_N (N.of_nat (tk_col t)) ++ lit ": error: " in
    match ge_err e with
    | Some m => Some (text ++ m)
    | None =>
        match all_some (map expected_name (pe_expected (ge_error e))) with
        | None => None
        | Some names => Some (text ++ describe_expected names ++ lit "; got: " ++ describe_token t)
        end
    end.
End Print.

(** errors.go:26-44 (Error.String): the longer text, which fmt does not use (it prefers Error()) but which a caller gets
    from err.(fmt.Stringer).  Fprintln puts a space between its operands and a line feed after them; Fprint of two strings
    puts nothing between them; %s writes the literal as it is.  (ErrorSymbols is nil: newError, parser.go:167-180, does
    not set it, so that the last loop writes nothing.) *)
Definition error_string (e : go_error) : gostr :=
  let t := pe_token (ge_error e) in
  let num n := dec_of_N (N.of_nat n) in
  (match ge_err e with Some m => lit "Error " ++ lit " " ++ m ++ [nl] | None => lit "Error" ++ [nl] end) ++
  lit "Token: type=" ++ num (tk_type t) ++ lit ", lit=" ++ tk_lit t ++ [nl] ++
  lit "Pos: offset=" ++ num (tk_off t) ++ lit ", line=" ++ num (tk_line t) ++ lit ", column=" ++ num (tk_col t) ++ [nl] ++
  lit "Expected one of: " ++ concat (map (fun ty => tok_id ty ++ lit " ") (pe_expected (ge_error e))) ++
  lit "ErrorSymbol:" ++ [nl].
