(** Specification of escaping (C38-C42). *)
From Coq Require Import Ascii NArith.
From Verif Require Import Base Maps Graph.

(** The characters that Go (unicode.IsSpace) and Unicode (White_Space) count as space. *)
Definition white_space : list N :=
  [9; 10; 11; 12; 13; 32; 133; 160; 5760; 8192; 8193; 8194; 8195; 8196; 8197; 8198; 8199; 8200; 8201; 8202; 8232; 8233; 8239; 8287; 12288]%N.

(** ** Which names escaping leaves alone; stated on the runes of the name. *)
Section SpecEscape.
  Variable uletter udigit : N -> bool.   (* unicode.IsLetter, unicode.IsDigit from U+0080 on *)

  Definition all_blank (s : gostr) : Prop := Forall (fun c => is_space c = true) (runes s).
  (** The first rune that is not a space is '<'. *)
  Definition starts_angle (s : gostr) : Prop :=
    exists b w, runes s = b ++ 60%N :: w /\ Forall (fun c => is_space c = true) b.
  Definition count (c : N) (w : list N) : nat := length (filter (fun x => x = c) w).
  (** ... and there are as many '<' as '>'. *)
  Definition html_like (s : gostr) : Prop := starts_angle s /\ count 60 (runes s) = count 62 (runes s).

  Definition go_letter (c : N) : Prop :=
    (97 <= c <= 122)%N \/ (65 <= c <= 90)%N \/ c = 95%N \/ (128 <= c)%N /\ uletter c = true /\ c <> 949%N.
  Definition go_digit (c : N) : Prop := (48 <= c <= 57)%N \/ (128 <= c)%N /\ udigit c = true.
  (** Starts with a letter, and has no space, '-', '.' or '/'. *)
  Definition name_like (s : gostr) : Prop :=
    exists c w, runes s = c :: w /\ go_letter c /\ Forall (fun x => is_space x = false /\ x <> 45%N /\ x <> 46%N /\ x <> 47%N) (c :: w).
  (** Digits and dots; or '-', anything without digits or dots, then digits and dots. *)
  Definition number_rune (c : N) : Prop := go_digit c \/ c = 46%N.
  Definition number_like (s : gostr) : Prop := exists w, w <> [] /\ Forall number_rune w /\
    (runes s = w \/ exists junk, runes s = 45%N :: junk ++ w /\ Forall (fun c => ~ number_rune c) junk).
  (** Between double quotes, each inner double quote having a backslash before it. *)
  Definition string_like (s : gostr) : Prop := exists b, s = [dquote] ++ b ++ [dquote] /\
    forall u v, runes b = u ++ 34%N :: v -> exists u', u = u' ++ [92%N].
  Definition kept (s : gostr) : Prop := s = [] \/ html_like s \/ name_like s \/ number_like s \/ string_like s.
End SpecEscape.

(** ** Which quoted texts are DOT strings *)
(** No NUL and no U+FFFD (which is also what invalid UTF-8 is read as). *)
Definition lexable (w : list N) : Prop := Forall (fun c => c <> 0%N /\ c <> rune_error) w.
(** Each backslash takes the next rune with it: it is not the last rune, and this next rune is not [q]. *)
Inductive paired (bad : N -> Prop) : list N -> Prop :=
| Paired_nil : paired bad []
| Paired_char c w : c <> 92%N -> paired bad w -> paired bad (c :: w)
| Paired_esc c w : ~ bad c -> paired bad w -> paired bad (92%N :: c :: w).

(** NUL bytes replaced by U+FFFD *)
Definition NUL : ascii := ascii_of_N 0.
Definition nul_replaced (s : gostr) : gostr :=
  flat_map (fun c => if Ascii.eqb c NUL then [ascii_of_N 239; ascii_of_N 191; ascii_of_N 189] else [c]) s.
