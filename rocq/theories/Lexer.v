(** Model of /repo/internal/lexer/lexer.go and the token type of /repo/internal/token/token.go. *)
From Coq Require Import List Ascii NArith ZArith Bool.
From Verif Require Import Base LexTables.
Import ListNotations.

(** token.go:12-29 (Token, Type, Pos).  The Context field of Pos is not modelled: Parse builds
    its lexer with NewLexer, which leaves it nil. *)
Record token := Token {
  tk_type : nat; tk_lit : gostr; tk_off : nat; tk_line : nat; tk_col : nat }.

(** token.go:18-23 *)
Definition INVALID : nat := 0.
Definition EOF : nat := 1.

(** transitiontable.go: the switch statement of one row, on rune [r]. *)
Fixpoint find_range (l : list (N * N * nat)) (r : N) : option nat :=
  match l with
  | [] => None
  | (lo, hi, t) :: l' => if in_range lo hi r then Some t else find_range l' r
  end.

(** [TransTab[s](r)]; [None] is NoState (-1). *)
Definition trans (s : nat) (r : N) : option nat :=
  match nth_error trans_tab s with
  | Some (ranges, dflt) =>
      match find_range ranges r with
      | Some t => Some t
      | None => dflt
      end
  | None => None
  end.

(** acttab.go: [ActTab[s]] as (Accept, Ignore <> ""). *)
Definition act (s : nat) : Z * bool := nth s act_tab ((-1)%Z, false).

(** lexer.go:18-24 (Lexer).  [lx_rest] is [src[pos:]]; the part of src before pos is never read
    again by Scan. *)
Record lexer := Lexer { lx_rest : gostr; lx_pos : nat; lx_line : nat; lx_col : nat }.

(** lexer.go:26-35 (NewLexer) *)
Definition new_lexer (src : gostr) : lexer := Lexer src 0 1 1.

(** lexer.go:82-92: line and column after consuming rune [r] in a live state. *)
Definition next_line (r : N) (line : nat) : nat := if N.eqb r 10 then S line else line.
Definition next_col (r : N) (col : nat) : nat :=
  if N.eqb r 10 then 1 else if N.eqb r 13 then 1 else if N.eqb r 9 then col + 4 else S col.

(** lexer.go:112-121: the end of Scan.  [srest] is [src[start:]]; [pos], [rest], [line], [col]
    are the lexer's fields when the loop ends. *)
Definition scan_finish (rest : gostr) (pos line col : nat)
    (srest : gostr) (start sline scol : nat) (endp ty : nat) : token * lexer :=
  if Nat.ltb start endp
  then (Token ty (firstn (endp - start) srest) start sline scol,
        Lexer (skipn (endp - start) srest) endp line col)
  else (Token ty [] start sline scol, Lexer rest pos line col).

(** lexer.go:67-111: the loop of Scan.  Each iteration consumes at least one byte or ends the
    loop, so [S (length rest)] units of fuel are always enough ([scan_loop_fuel] in
    LexerProofs.v); running out is reported as [None]. *)
Fixpoint scan_loop (fuel : nat) (state : nat) (rest : gostr) (pos line col : nat)
    (srest : gostr) (start sline scol : nat) (endp ty : nat) : option (token * lexer) :=
  match fuel with
  | O => None
  | S fuel' =>
      match rest with
      | [] =>                                                     (* rune1 = -1 *)
          let endp' := if Nat.eqb ty INVALID then pos else endp in
          Some (scan_finish rest pos line col srest start sline scol endp' ty)
      | _ :: _ =>
          let '(r, n) := decode_rune rest in
          let rest' := skipn n rest in
          let pos' := pos + n in
          match trans state r with
          | None =>
              let endp' := if Nat.eqb ty INVALID then pos' else endp in
              Some (scan_finish rest' pos' line col srest start sline scol endp' ty)
          | Some st' =>
              let line' := next_line r line in
              let col' := next_col r col in
              let '(acc, ign) := act st' in
              if negb (Z.eqb acc (-1)) then
                scan_loop fuel' st' rest' pos' line' col' srest start sline scol
                          pos' (Z.to_nat acc)
              else if ign then
                scan_loop fuel' 0 rest' pos' line' col' rest' pos' line' col' endp
                          (match rest' with [] => EOF | _ => ty end)
              else
                scan_loop fuel' st' rest' pos' line' col' srest start sline scol endp ty
          end
      end
  end.

(** lexer.go:57-123 (Scan) *)
Definition scan (l : lexer) : option (token * lexer) :=
  match lx_rest l with
  | [] => Some (Token EOF [] (lx_pos l) (lx_line l) (lx_col l), l)
  | _ =>
      scan_loop (S (length (lx_rest l))) 0 (lx_rest l) (lx_pos l) (lx_line l) (lx_col l)
                (lx_rest l) (lx_pos l) (lx_line l) (lx_col l) 0 INVALID
  end.
