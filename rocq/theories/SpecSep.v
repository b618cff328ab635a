(** Specification for C59: what may be left out of a DOT text, or spelt differently, without a change of meaning. *)
From Coq Require Import List Ascii NArith Bool.
From Verif Require Import Base LexSpec SpecGrammar.
Import ListNotations.

(** [thinner w w']: [w'] comes from [w] by leaving out any of the semicolons and commas, and by spelling any of the keywords
    differently (the literal of a token that is not an ID is free). *)
Inductive thinner : word -> word -> Prop :=
| th_nil : thinner [] []
| th_drop_semi s w w' : thinner w w' -> thinner ((T_semi, s) :: w) w'
| th_drop_comma s w w' : thinner w w' -> thinner ((T_comma, s) :: w) w'
| th_id i w w' : thinner w w' -> thinner ((ID, i) :: w) ((ID, i) :: w')
| th_other t s s' w w' : t <> ID -> thinner w w' -> thinner ((t, s) :: w) ((t, s') :: w').

(** What is left when all of them are left out. *)
Definition essence (w : word) : word :=
  flat_map (fun x : nat * gostr =>
    if Nat.eqb (fst x) T_semi || Nat.eqb (fst x) T_comma then []
    else if Nat.eqb (fst x) ID then [x] else [(fst x, [])]) w.
