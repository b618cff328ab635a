(** Specification for C70: what a program that reuses its buffers sees. *)
From Coq Require Import List Ascii NArith Bool.
From Verif Require Import Base Lexer Parser Slices.
Import ListNotations.

(** The contents of the program's buffer [p]. *)
Definition contents (w : world) (p : nat) : option gostr :=
  match nth_error (w_mem w) p with Some (Buffer true s) => Some s | _ => None end.
(** The bytes that are in [now] where a token stands. *)
Definition in_place (now : gostr) (t : token) : gostr := firstn (length (tk_lit t)) (skipn (tk_off t) now).
(** A syntax error with the bytes that are now in the place of its token. *)
Definition refreshed (now : gostr) (e : parse_error) : parse_error :=
  let t := pe_token e in
  ParseError (Token (tk_type t) (in_place now t) (tk_off t) (tk_line t) (tk_col t)) (pe_expected e) (pe_stack_top e).
(** The event writes to the bytes of the buffer [p] in which the token stands. *)
Definition touches (p : nat) (t : token) (ev : event) : Prop :=
  match ev with EStore q i _ => q = p /\ tk_off t <= i < tk_off t + length (tk_lit t) | _ => False end.
