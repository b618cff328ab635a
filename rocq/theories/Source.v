(** Model of the ways into the parser that read files and streams or use one lexer and one parser several times:
    /repo/internal/parser/main.go (Parse, ParseFile), /repo/internal/lexer/lexer.go (NewLexerFile, Reset),
    /repo/internal/parser/parser.go (a Parser that is used again), and the file name in the text of an error
    (/repo/internal/errors/errors.go:85-89, /repo/internal/token/context.go). *)
From Coq Require Import List Ascii NArith ZArith Bool.
From Verif Require Import Base Ast Lexer Parser RecParser ErrText Conc.
Import ListNotations.

(** ** io.Reader and ioutil.ReadAll *)

(** What a call of Read reports besides the bytes: nil, io.EOF or another error. *)
Inductive io_status := IoMore | IoEOF | IoFail (m : gostr).

(** The error that main.go returns: one of the system's, or a syntax error. *)
Inductive source_error := SysError (m : gostr) | SyntaxError (e : parse_error).

Section Reader.
  Variable St : Type.
  (** Read(p) with len(p) = n: the bytes stored, the status, the state afterwards. *)
  Variable read : St -> nat -> gostr * io_status * St.
  (** The room (less one) that ReadAll offers in its i-th call of Read; its growth is not modelled. *)
  Variable room : nat -> nat.

  (** ioutil.ReadAll, by its contract: calls Read until it reports something else than nil and keeps all bytes, those that
      came with the report too; io.EOF is not an error.  The last component counts the calls.  [fuel] bounds the calls. *)
  Fixpoint read_all (fuel i : nat) (st : St) (acc : gostr) : option (gostr * option gostr * nat) :=
    match fuel with
    | O => None
    | S f =>
        match read st (S (room i)) with
        | (bs, IoMore, st') => read_all f (S i) st' (acc ++ bs)
        | (bs, IoEOF, _) => Some (acc ++ bs, None, S i)
        | (bs, IoFail m, _) => Some (acc ++ bs, Some m, S i)
        end
    end.

  Definition as_source (r : res parse_error (graph * nat)) : res source_error (graph * nat) :=
    match r with
    | Ok x => Ok x
    | Err e => Err (SyntaxError e)
    | Panic => Panic
    | OutOfFuel => OutOfFuel
    end.

  (** main.go:52-58 (Parse) *)
  Definition parse_reader (fuel : nat) (rnd : nat -> N) (k0 : nat) (st : St) : res source_error (graph * nat) :=
    match read_all fuel 0 st [] with
    | None => OutOfFuel
    | Some (_, Some m, _) => Err (SysError m)
    | Some (bs, None, _) => as_source (parse_bytes rnd k0 bs)
    end.

  (** ** Files *)
  (** os.Open and File.Close: an error, or the state of the open file and what closing it will report. *)
  Inductive opened := OpenFails (m : gostr) | Opened (st : St) (close : option gostr).

  (** The calls made to the system. *)
  Inductive sys_call := COpen (path : gostr) | CRead | CClose.

  (** main.go:62-72 (ParseFile).  A panic or an endless read leaves the file open. *)
  Definition parse_file (fuel : nat) (rnd : nat -> N) (k0 : nat) (open : gostr -> opened) (path : gostr)
    : res source_error (graph * nat) * list sys_call :=
    match open path with
    | OpenFails m => (Err (SysError m), [COpen path])
    | Opened st close =>
        let reads := match read_all fuel 0 st [] with Some (_, _, n) => n | None => fuel end in
        let calls := COpen path :: repeat CRead reads in
        match parse_reader fuel rnd k0 st with
        | Panic => (Panic, calls)
        | OutOfFuel => (OutOfFuel, calls)
        | Ok x => (match close with Some m => Err (SysError m) | None => Ok x end, calls ++ [CClose])
        | Err e => (match close with Some m => Err (SysError m) | None => Err e end, calls ++ [CClose])
        end
    end.
End Reader.
Arguments OpenFails {St} m. Arguments Opened {St} st close.

(** ** Lexers with all their fields *)

(** lexer.go:18-24 (Lexer).  The context is nil or names the source (lexer.go:39-45, SourceContext). *)
Record src_lexer := SrcLexer { sl_src : gostr; sl_pos : nat; sl_line : nat; sl_col : nat; sl_ctx : option gostr }.
(** lexer.go:26-35 (NewLexer) *)
Definition new_src_lexer (src : gostr) : src_lexer := SrcLexer src 0 1 1 None.
(** lexer.go:47-55 (NewLexerFile); [inr m]: ioutil.ReadFile reports [m]. *)
Definition new_lexer_file (file : gostr + gostr) (path : gostr) : gostr + src_lexer :=
  match file with
  | inr m => inl m
  | inl bs => inr (SrcLexer bs 0 1 1 (Some path))
  end.
(** lexer.go:57-123 (Scan) reads src from pos on: [Lexer.v]. *)
Definition lx_of (l : src_lexer) : lexer := Lexer (skipn (sl_pos l) (sl_src l)) (sl_pos l) (sl_line l) (sl_col l).
Definition with_lx (l : src_lexer) (x : lexer) : src_lexer :=
  SrcLexer (sl_src l) (lx_pos x) (lx_line x) (lx_col x) (sl_ctx l).
Definition src_scan (l : src_lexer) : option (token * src_lexer) :=
  match scan (lx_of l) with
  | Some (t, x) => Some (t, with_lx l x)
  | None => None
  end.
(** lexer.go:125-127 (Reset) *)
Definition reset_lexer (l : src_lexer) : src_lexer :=
  SrcLexer (sl_src l) 0 (sl_line l) (sl_col l) (sl_ctx l).

(** ** One parser and one lexer *)

(** parser.go:35-38, 107-110 (reset, Reset): the old stack is dropped. *)
Definition reset_stack (old : stack) : stack := (0, VNil) :: skipn (length old) old.

(** parser.go:182-220 (Parse): the rounds of the loop ([Conc.round]), with the state in which parser and lexer are left. *)
Fixpoint rounds (fuel : nat) (rnd : nat -> N) (c : pconf) (k : nat) : res parse_error (value * nat) * pconf :=
  match fuel with
  | O => (OutOfFuel, c)
  | S f => match round rnd c k with
           | inl (c', k') => rounds f rnd c' k'
           | inr r => (r, c)
           end
  end.

(** parser.go:182-220 and main.go:38-47: parse with parser [p] and lexer [l], which may both have been used before.  An error
    carries the context of its token (lexer.go:60, 120). *)
Definition parse_with (rnd : nat -> N) (k0 : nat) (p : stack) (l : src_lexer)
  : res (parse_error * option gostr) (graph * nat) * stack * src_lexer :=
  match src_scan l with
  | None => (OutOfFuel, p, l)
  | Some (tok, l1) =>
      let '(r, (st, _, x)) := rounds (parse_fuel (skipn (sl_pos l) (sl_src l))) rnd (reset_stack p, tok, lx_of l1) k0 in
      (match r with
       | Ok (VGraph g, k) => Ok (g, k)
       | Ok _ => Panic
       | Err e => Err (e, sl_ctx l)
       | Panic => Panic
       | OutOfFuel => OutOfFuel
       end, st, with_lx l1 x)
  end.

(** A program that uses one parser and one lexer; [k]: the random values drawn before. *)
Inductive use := UScan | UReset | UParse (k : nat).
Definition do_use (rnd : nat -> N) (s : stack * src_lexer) (u : use) : stack * src_lexer :=
  let '(p, l) := s in
  match u with
  | UScan => match src_scan l with Some (_, l') => (p, l') | None => (p, l) end
  | UReset => (p, reset_lexer l)
  | UParse k0 => let '(_, p', l') := parse_with rnd k0 p l in (p', l')
  end.
Definition do_uses (rnd : nat -> N) (s : stack * src_lexer) (us : list use) : stack * src_lexer :=
  fold_left (do_use rnd) us s.

(** errors.go:81-110 (Error.Error) with the context of the token's position. *)
Definition full_error_text (P : N -> bool) (e : parse_error) (ctx : option gostr) : option gostr :=
  match error_text P (GoError None e) with
  | None => None
  | Some m => Some (match ctx with Some path => path ++ lit ":" ++ m | None => m end)
  end.
