(** Specification of decimal numbers in texts. *)
From Coq Require Import List Ascii NArith.
From Verif Require Import Base.
Import ListNotations.
Local Open Scope N_scope.

(** The number that a text of decimal digits stands for *)
Definition digit_value (b : ascii) : N := bv b - 48.
Definition value (s : gostr) : N := fold_left (fun n b => 10 * n + digit_value b) s 0.
(** [s] is the number [n] in decimal digits, at least one, without a needless zero in front. *)
Definition numeral (n : N) (s : gostr) : Prop :=
  s <> [] /\ Forall (fun b => 48 <= bv b <= 57) s /\ value s = n /\ (forall b t, s = b :: t -> bv b = 48 -> t = []).
