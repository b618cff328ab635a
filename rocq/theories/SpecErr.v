(** Specification of the text of a syntax error: how the expected tokens are named and listed, and how to read the
    quoted literal back. *)
From Coq Require Import List Ascii NArith Bool.
From Verif Require Import Base.
Import ListNotations.

(** The names of the token types 0-18 in messages. *)
Definition shown : list gostr :=
  [lit "INVALID"; lit "␚"; lit "graphx"; lit """{"""; lit """}"""; lit "strict"; lit "digraph"; lit """;"""; lit """=""";
   lit "node"; lit "edge"; lit """["""; lit """]"""; lit ""","""; lit """:"""; lit "subgraph"; lit """->"""; lit """--"""; lit "id"].

(** The same names as the longer text, String(), has them: without quotes. *)
Definition bare : list gostr :=
  [lit "INVALID"; lit "␚"; lit "graphx"; lit "{"; lit "}"; lit "strict"; lit "digraph"; lit ";"; lit "=";
   lit "node"; lit "edge"; lit "["; lit "]"; lit ","; lit ":"; lit "subgraph"; lit "->"; lit "--"; lit "id"].

(** The alternatives in English. *)
Inductive alternatives : list gostr -> gostr -> Prop :=
| Alt1 a : alternatives [a] (lit "expected " ++ a)
| Alt2 a b : alternatives [a; b] (lit "expected either " ++ a ++ lit " or " ++ b)
| Alt3 a b c : alternatives [a; b; c] (lit "expected one of " ++ a ++ lit ", " ++ b ++ lit " or " ++ c)
| Alt4 l z : 3 <= length l ->
    alternatives (l ++ [z]) (lit "expected one of " ++ concat (map (fun a => a ++ lit ", ") l) ++ lit "or " ++ z).

(** ** Reading a quoted string *)
(** The UTF-8 encoding of a code point. *)
Definition utf8 (r : N) : gostr :=
  map ascii_of_N
    (if N.ltb r 128 then [r]
     else if N.ltb r 2048 then [192 + r / 64; 128 + r mod 64]
     else if N.ltb r 65536 then [224 + r / 4096; 128 + r / 64 mod 64; 128 + r mod 64]
     else [240 + r / 262144; 128 + r / 4096 mod 64; 128 + r / 64 mod 64; 128 + r mod 64])%N.
Definition unhex1 (c : ascii) : option N :=
  if in_range 48 57 (bv c) then Some (bv c - 48)%N
  else if in_range 97 102 (bv c) then Some (bv c - 87)%N else None.
Definition unhex (l : gostr) : option N :=
  fold_left (fun a c => match a, unhex1 c with Some n, Some d => Some (16 * n + d)%N | _, _ => None end) l (Some 0%N).
Definition add (x : option gostr) (y : option gostr) : option gostr :=
  match x, y with Some a, Some b => Some (a ++ b) | _, _ => None end.
(** the one-letter escapes, and the escaped quote and backslash *)
Definition simple (c : ascii) : option gostr :=
  if Ascii.eqb c "a" then Some [ascii_of_N 7]
  else if Ascii.eqb c "b" then Some [ascii_of_N 8]
  else if Ascii.eqb c "f" then Some [ascii_of_N 12]
  else if Ascii.eqb c "n" then Some [ascii_of_N 10]
  else if Ascii.eqb c "r" then Some [ascii_of_N 13]
  else if Ascii.eqb c "t" then Some [ascii_of_N 9]
  else if Ascii.eqb c "v" then Some [ascii_of_N 11]
  else if Ascii.eqb c dquote then Some [dquote]
  else if Ascii.eqb c backslash then Some [backslash] else None.
Fixpoint unquote_body (s : gostr) : option gostr :=
  match s with
  | [] => None
  | c :: s1 =>
      if Ascii.eqb c dquote then match s1 with [] => Some [] | _ => None end
      else if Ascii.eqb c backslash then
        match s1 with
        | [] => None
        | d :: s2 =>
            if Ascii.eqb d "x" then
              match s2 with
              | a :: b :: t => add (option_map (fun n => [ascii_of_N n]) (unhex [a; b])) (unquote_body t)
              | _ => None
              end
            else if Ascii.eqb d "u" then
              match s2 with
              | a :: b :: c :: d :: t => add (option_map utf8 (unhex [a; b; c; d])) (unquote_body t)
              | _ => None
              end
            else if Ascii.eqb d "U" then
              match s2 with
              | a :: b :: c :: d :: e :: f :: g :: h :: t => add (option_map utf8 (unhex [a; b; c; d; e; f; g; h])) (unquote_body t)
              | _ => None
              end
            else add (simple d) (unquote_body s2)
        end
      else add (Some [c]) (unquote_body s1)
  end.
Definition unquote (s : gostr) : option gostr :=
  match s with c :: s' => if Ascii.eqb c dquote then unquote_body s' else None | [] => None end.
