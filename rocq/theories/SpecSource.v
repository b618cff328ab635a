(** What C82 speaks about: readers that hand out a text piece by piece. *)
From Coq Require Import List Ascii NArith Arith.
From Verif Require Import Base Parser Source.
Import ListNotations.

Section Serves.
  Variable St : Type.
  Variable read : St -> nat -> gostr * io_status * St.
  (** From the state [st] on, whatever room each call offers, the reader hands out the text [s], any number of bytes at a time
      (none, too) but never more than there is room for, and after finitely many calls reports the end ([None]) or an error;
      the report may come together with the last bytes. *)
  Inductive serves : St -> gostr -> option gostr -> Prop :=
  | serves_intro st s e :
      (forall n bs st', 0 < n -> read st n = (bs, IoMore, st') -> length bs <= n /\ exists t, s = bs ++ t /\ serves st' t e) ->
      (forall n bs st', 0 < n -> read st n = (bs, IoEOF, st') -> length bs <= n /\ s = bs /\ e = None) ->
      (forall n bs m st', 0 < n -> read st n = (bs, IoFail m, st') -> length bs <= n /\ s = bs /\ e = Some m) ->
      serves st s e.
End Serves.

(** The answer [r'] of Parse or ParseFile is the answer [r] of ParseBytes: the same graph or the same syntax error. *)
Definition same_answer {A} (r : res parse_error A) (r' : res source_error A) : Prop :=
  match r, r' with
  | Ok x, Ok y => x = y
  | Err e, Err (SyntaxError e') => e = e'
  | _, _ => False
  end.

(** strings.Reader, bytes.Reader and the like: as many bytes as there is room for; the end is reported by a call of its own. *)
Definition text_read (s : gostr) (n : nat) : gostr * io_status * gostr :=
  match s with
  | [] => ([], IoEOF, [])
  | _ => (firstn n s, IoMore, skipn n s)
  end.

(** A connection that delivers the pieces it was given, however small, and breaks down in the end if [m] says so. *)
Definition pieces_read (st : list gostr * option gostr) (n : nat) : gostr * io_status * (list gostr * option gostr) :=
  match st with
  | ([], None) => ([], IoEOF, st)
  | ([], Some m) => ([], IoFail m, st)
  | (p :: ps, e) => if Nat.leb (length p) n then (p, IoMore, (ps, e)) else (firstn n p, IoMore, (skipn n p :: ps, e))
  end.

(** Is there a line feed or a carriage return among the runes? *)
Definition has_break (w : list N) : Prop := In 10%N w \/ In 13%N w.
