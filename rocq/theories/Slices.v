(** Model of Parse, ParseString and Read of /repo/gographviz.go on byte slices in memory: a token does not hold the bytes of
    its literal but a slice of the buffer that is parsed (lexer.go:114: tok.Lit = l.src[start:end]), which is read when somebody
    looks at it.  [Lexer.v] and [Parser.v] copy the literal into the token; SlicesProofs.v shows when that makes no difference. *)
From Coq Require Import List Ascii NArith ZArith Bool.
From Verif Require Import Base LexTables ParseTables Ast Lexer Parser RecParser ErrText Maps Graph Analyse.
Import ListNotations.

(** token.go:12-29 (Token); [sl_lo], [sl_hi]: the slice Lit = src[lo:hi].  (The own empty slice of lexer.go:116 has lo = hi.) *)
Record stoken := SToken { sl_type : nat; sl_lo : nat; sl_hi : nat; sl_off : nat; sl_line : nat; sl_col : nat }.
(** src[lo:hi] *)
Definition sub (src : gostr) (lo hi : nat) : gostr := firstn (hi - lo) (skipn lo src).
(** Looking at a token when the buffer contains [src]. *)
Definition look (src : gostr) (t : stoken) : token :=
  Token (sl_type t) (sub src (sl_lo t) (sl_hi t)) (sl_off t) (sl_line t) (sl_col t).

(** lexer.go:18-24 (Lexer) without src *)
Record slexer := SLexer { sx_pos : nat; sx_line : nat; sx_col : nat }.

Section Buffer.
  (** The contents of the buffer during the call.  (The caller must not write to it meanwhile: that would be a data race.) *)
  Variable src : gostr.

  (** lexer.go:112-121 *)
  Definition s_finish (pos line col start sline scol endp ty : nat) : stoken * slexer :=
    if Nat.ltb start endp then (SToken ty start endp start sline scol, SLexer endp line col)
    else (SToken ty start start start sline scol, SLexer pos line col).
  (** lexer.go:67-111 *)
  Fixpoint s_scan_loop (fuel state pos line col start sline scol endp ty : nat) : option (stoken * slexer) :=
    match fuel with
    | O => None
    | S fuel' =>
        if Nat.leb (length src) pos then                            (* 68: rune1 = -1 *)
          Some (s_finish pos line col start sline scol (if Nat.eqb ty INVALID then pos else endp) ty)
        else
          let '(r, n) := decode_rune (skipn pos src) in
          let pos' := pos + n in
          match trans state r with
          | None => Some (s_finish pos' line col start sline scol (if Nat.eqb ty INVALID then pos' else endp) ty)
          | Some st' =>
              let line' := next_line r line in
              let col' := next_col r col in
              let '(acc, ign) := act st' in
              if negb (Z.eqb acc (-1)) then s_scan_loop fuel' st' pos' line' col' start sline scol pos' (Z.to_nat acc)
              else if ign then
                s_scan_loop fuel' 0 pos' line' col' pos' line' col' endp (if Nat.leb (length src) pos' then EOF else ty)
              else s_scan_loop fuel' st' pos' line' col' start sline scol endp ty
          end
    end.
  (** lexer.go:57-123 (Scan) *)
  Definition s_scan (l : slexer) : option (stoken * slexer) :=
    if Nat.leb (length src) (sx_pos l) then
      Some (SToken EOF (sx_pos l) (sx_pos l) (sx_pos l) (sx_line l) (sx_col l), l)
    else s_scan_loop (S (length src - sx_pos l)) 0 (sx_pos l) (sx_line l) (sx_col l) (sx_pos l) (sx_line l) (sx_col l) 0 INVALID.

  (** An attribute on the stack: a pointer to a token, or something that a reduce function has made. *)
  Inductive sval := STok (t : stoken) | SVal (v : value).
  Definition look_val (x : sval) : value := match x with STok t => VTok (look src t) | SVal v => v end.
  (** productionstable.go: the ReduceFunc of a production.  One that returns X[i] returns the pointer; the only other one that
      gets at a token is NewID, and string(Lit) copies the bytes (ast.go:713-719). *)
  Definition s_sem (rnd : nat -> N) (s : sem) (X : list sval) (k : nat) : option (sval * nat) :=
    match s with
    | SemProj i => match nth_error X i with Some x => Some (x, k) | None => None end
    | _ => match run_sem rnd s (map look_val X) k with Some (v, k') => Some (SVal v, k') | None => None end
    end.

  (** errors.go:15-21 (Error), as built by newError (parser.go:170-183): it holds a pointer to the token. *)
  Record serror := SError { se_token : stoken; se_expected : list nat; se_stack_top : nat }.

  (** parser.go:185-217 (Parse), as [Parser.parse_loop]; an error comes with the number of random values drawn, too *)
  Fixpoint s_parse_loop (fuel : nat) (rnd : nat -> N) (st : list (nat * sval)) (tok : stoken) (lx : slexer) (k : nat)
    : res (serror * nat) (sval * nat) :=
    match fuel with
    | O => OutOfFuel
    | S fuel' =>
        match st with
        | [] => Panic
        | (s, v) :: _ =>
            if negb (Nat.ltb s num_states) then Panic
            else
            match action_at s (sl_type tok) with
            | None => Err (SError tok (expected_tokens s) s, k)
            | Some Accept => Ok (v, k)
            | Some (Shift n) =>
                match s_scan lx with
                | Some (tok', lx') => s_parse_loop fuel' rnd ((n, STok tok) :: st) tok' lx' k
                | None => OutOfFuel
                end
            | Some (Reduce p) =>
                match nth_error prod_tab p with
                | None => Panic
                | Some pr =>
                    let n := p_num pr in
                    if Nat.ltb (length st) n then Panic
                    else
                    match s_sem rnd (p_sem pr) (rev (map snd (firstn n st))) k with
                    | None => Panic
                    | Some (v', k') =>
                        match skipn n st with
                        | [] => Panic
                        | (s', _) :: _ =>
                            let g := goto_at s' (p_nt pr) in
                            if Z.ltb g 0 then Panic
                            else s_parse_loop fuel' rnd ((Z.to_nat g, v') :: skipn n st) tok lx k'
                        end
                    end
                end
            end
        end
    end.

  (** main.go:34-49 (ParseBytes) *)
  Definition s_parse_bytes (rnd : nat -> N) (k0 : nat) : res (serror * nat) (graph * nat) :=
    match s_scan (SLexer 0 1 1) with
    | None => OutOfFuel
    | Some (tok, lx) =>
        match s_parse_loop (parse_fuel src) rnd [(0, SVal VNil)] tok lx k0 with
        | Ok (SVal (VGraph g), k) => Ok (g, k)
        | Ok _ => Panic
        | Err e => Err e
        | Panic => Panic
        | OutOfFuel => OutOfFuel
        end
    end.

  (** The error value when the buffer contains [src]. *)
  Definition look_error (e : serror) : parse_error := ParseError (look src (se_token e)) (se_expected e) (se_stack_top e).
End Buffer.

(** ** Programs that parse buffers and keep what they got *)
(** The buffers in memory by address, each with the mark whether the program holds a pointer to it: it does not to the copy
    that ParseString makes (gographviz.go:46-48: []byte(buf)). *)
Record buffer := Buffer { b_ours : bool; b_bytes : gostr }.
(** What a call has returned: a tree or an error with the address of the buffer that its token refers to. *)
Inductive result := RTree (g : graph) | RGraph (g : agraph) | RSyntax (p : nat) (e : serror) | RAnalyse (e : err).
(** [w_drawn]: the random numbers drawn so far; [w_got]: what the calls have returned, in order. *)
Record world := World { w_mem : list buffer; w_drawn : nat; w_got : list result }.
Definition start : world := World [] 0 [].

Inductive event :=
| ENew (s : gostr)                                  (* buf := []byte(s), or make and fill *)
| EStore (p i : nat) (c : ascii)                    (* buf[i] = c; also each byte of copy(buf[i:], ...) and of a Read into buf *)
| EParse (p : nat)                                  (* Parse(buf), gographviz.go:41-43 *)
| EParseString (s : gostr)                          (* ParseString(s), 46-48 *)
| ERead (p : nat).                                  (* Read(buf), 51-58 *)

Definition set_byte (s : gostr) (i : nat) (c : ascii) : gostr := firstn i s ++ c :: skipn (S i) s.
Definition set_nth {A} (l : list A) (i : nat) (a : A) : list A := firstn i l ++ a :: skipn (S i) l.

Section Run.
  Variable rnd : nat -> N.
  Variable os : nat -> oracle.
  Variable ord : order.
  (** [None]: a panic (index out of range), or the program has no such buffer. *)
  Definition step (w : world) (ev : event) : option world :=
    match ev with
    | ENew s => Some (World (w_mem w ++ [Buffer true s]) (w_drawn w) (w_got w))
    | EStore p i c =>
        match nth_error (w_mem w) p with
        | Some (Buffer true s) =>
            if Nat.ltb i (length s) then Some (World (set_nth (w_mem w) p (Buffer true (set_byte s i c))) (w_drawn w) (w_got w))
            else None
        | _ => None
        end
    | EParse p =>
        match nth_error (w_mem w) p with
        | Some (Buffer true s) =>
            match s_parse_bytes s rnd (w_drawn w) with
            | Ok (g, k) => Some (World (w_mem w) k (w_got w ++ [RTree g]))
            | Err (e, k) => Some (World (w_mem w) k (w_got w ++ [RSyntax p e]))
            | _ => None
            end
        | _ => None
        end
    | EParseString s =>
        let m := w_mem w ++ [Buffer false s] in
        match s_parse_bytes s rnd (w_drawn w) with
        | Ok (g, k) => Some (World m k (w_got w ++ [RTree g]))
        | Err (e, k) => Some (World m k (w_got w ++ [RSyntax (length (w_mem w)) e]))
        | _ => None
        end
    | ERead p =>
        match nth_error (w_mem w) p with
        | Some (Buffer true s) =>
            match s_parse_bytes s rnd (w_drawn w) with
            | Ok (a, k) =>
                Some (World (w_mem w) k (w_got w ++ [match new_analysed_graph os ord a with inl g => RGraph g | inr e => RAnalyse e end]))
            | Err (e, k) => Some (World (w_mem w) k (w_got w ++ [RSyntax p e]))
            | _ => None
            end
        | _ => None
        end
    end.
  Fixpoint run (w : world) (evs : list event) : option world :=
    match evs with
    | [] => Some w
    | ev :: evs' => match step w ev with Some w' => run w' evs' | None => None end
    end.
End Run.

(** err.Error() of a syntax error, called when the memory is [m] (errors.go:81-110; [P]: strconv.IsPrint above U+007F). *)
Definition text_now (P : N -> bool) (m : list buffer) (p : nat) (e : serror) : option gostr :=
  match nth_error m p with
  | Some b => error_text P (GoError None (look_error (b_bytes b) e))
  | None => None
  end.
