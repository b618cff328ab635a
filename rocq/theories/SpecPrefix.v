(** Specification for C66: texts that begin or end with an ASCII byte. *)
From Coq Require Import List Ascii NArith.
From Verif Require Import Base.
Import ListNotations.
Definition ascii_end (s : gostr) : Prop := exists s' a, s = s' ++ [a] /\ (bv a < 128)%N.
Definition ascii_start (s : gostr) : Prop := exists a s', s = a :: s' /\ (bv a < 128)%N.
