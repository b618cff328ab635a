(** Scan and Parse again, counting their work: one for each call of Scan, one for each round of the loop of Scan (at most one call
    of utf8.DecodeRune and one of a row of the transition table), one for each round of the loop of Parse (one lookup of an action; at
    most one push, one pop of at most 8 entries and one reduce function).  [CostProofs.v] shows that what they return is what
    [Lexer.v] and [Parser.v] return. *)
From Coq Require Import List Ascii NArith ZArith Bool.
From Verif Require Import Base LexTables ParseTables Ast Lexer Parser.
Import ListNotations.

(** lexer.go:67-111, as [Lexer.scan_loop]; [c] rounds so far *)
Fixpoint c_scan_loop (fuel c : nat) (state : nat) (rest : gostr) (pos line col : nat)
    (srest : gostr) (start sline scol : nat) (endp ty : nat) : option (token * lexer) * nat :=
  match fuel with
  | O => (None, c)
  | S fuel' =>
      match rest with
      | [] =>
          let endp' := if Nat.eqb ty INVALID then pos else endp in
          (Some (scan_finish rest pos line col srest start sline scol endp' ty), S c)
      | _ :: _ =>
          let '(r, n) := decode_rune rest in
          let rest' := skipn n rest in
          let pos' := pos + n in
          match trans state r with
          | None =>
              let endp' := if Nat.eqb ty INVALID then pos' else endp in
              (Some (scan_finish rest' pos' line col srest start sline scol endp' ty), S c)
          | Some st' =>
              let line' := next_line r line in
              let col' := next_col r col in
              let '(acc, ign) := act st' in
              if negb (Z.eqb acc (-1)) then
                c_scan_loop fuel' (S c) st' rest' pos' line' col' srest start sline scol pos' (Z.to_nat acc)
              else if ign then
                c_scan_loop fuel' (S c) 0 rest' pos' line' col' rest' pos' line' col' endp
                          (match rest' with [] => EOF | _ => ty end)
              else
                c_scan_loop fuel' (S c) st' rest' pos' line' col' srest start sline scol endp ty
          end
      end
  end.
(** lexer.go:57-123 (Scan), as [Lexer.scan]; [c] units of work so far *)
Definition c_scan (c : nat) (l : lexer) : option (token * lexer) * nat :=
  match lx_rest l with
  | [] => (Some (Token EOF [] (lx_pos l) (lx_line l) (lx_col l), l), S c)
  | _ =>
      c_scan_loop (S (length (lx_rest l))) (S c) 0 (lx_rest l) (lx_pos l) (lx_line l) (lx_col l)
                (lx_rest l) (lx_pos l) (lx_line l) (lx_col l) 0 INVALID
  end.
(** parser.go:185-217, as [Parser.parse_loop] *)
Fixpoint c_parse_loop (fuel c : nat) (rnd : nat -> N) (st : stack) (tok : token) (lx : lexer) (k : nat)
  : res parse_error (value * nat) * nat :=
  match fuel with
  | O => (OutOfFuel, c)
  | S fuel' =>
      match st with
      | [] => (Panic, S c)
      | (s, _) :: _ =>
          if negb (Nat.ltb s num_states) then (Panic, S c)
          else
          match action_at s (tk_type tok) with
          | None => (Err (ParseError tok (expected_tokens s) s), S c)
          | Some Accept =>
              match st with
              | (_, v) :: _ => (Ok (v, k), S c)
              | [] => (Panic, S c)
              end
          | Some (Shift n) =>
              match c_scan (S c) lx with
              | (Some (tok', lx'), c') => c_parse_loop fuel' c' rnd ((n, VTok tok) :: st) tok' lx' k
              | (None, c') => (OutOfFuel, c')
              end
          | Some (Reduce p) =>
              match nth_error prod_tab p with
              | None => (Panic, S c)
              | Some pr =>
                  let n := p_num pr in
                  if Nat.ltb (length st) n then (Panic, S c)
                  else
                  match run_sem rnd (p_sem pr) (rev (map snd (firstn n st))) k with
                  | None => (Panic, S c)
                  | Some (v, k') =>
                      match skipn n st with
                      | [] => (Panic, S c)
                      | (s', v') :: st' =>
                          let g := goto_at s' (p_nt pr) in
                          if Z.ltb g 0 then (Panic, S c)
                          else c_parse_loop fuel' (S c) rnd ((Z.to_nat g, v) :: (s', v') :: st') tok lx k'
                      end
                  end
              end
          end
      end
  end.
(** main.go:34-49 (ParseBytes), as [Parser.parse_bytes]: what is returned, and the work done *)
Definition c_parse_bytes (rnd : nat -> N) (k0 : nat) (src : gostr) : res parse_error (graph * nat) * nat :=
  match c_scan 0 (new_lexer src) with
  | (None, c) => (OutOfFuel, c)
  | (Some (tok, lx), c) =>
      match c_parse_loop (parse_fuel src) c rnd [(0, VNil)] tok lx k0 with
      | (Ok (VGraph g, k), c') => (Ok (g, k), c')
      | (Ok _, c') => (Panic, c')
      | (Err e, c') => (Err e, c')
      | (Panic, c') => (Panic, c')
      | (OutOfFuel, c') => (OutOfFuel, c')
      end
  end.
