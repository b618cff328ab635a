(** Auxiliary notions for the parser proofs: the driver on an explicit token list, derivations of
    the productions table, token streams of the lexer. *)
From Coq Require Import List Ascii NArith ZArith Bool Lia.
From Verif Require Import Base LexTables ParseTables Ast Lexer Parser.
Import ListNotations.

(** One iteration of the loop of parser.go:185-217 on a list of tokens. *)
Definition cfg : Type := stack * list token * nat.
Inductive outcome := Next (c : cfg) | Stop (r : res parse_error (value * nat)).

Definition pstep (rnd : nat -> N) (c : cfg) : outcome :=
  let '(st, toks, k) := c in
  match st, toks with
  | (s, v0) :: st0, tok :: toks' =>
      if negb (Nat.ltb s num_states) then Stop Panic
      else
      match action_at s (tk_type tok) with
      | None => Stop (Err (ParseError tok (expected_tokens s) s))
      | Some Accept => Stop (Ok (v0, k))
      | Some (Shift n) => Next ((n, VTok tok) :: st, toks', k)
      | Some (Reduce p) =>
          match nth_error prod_tab p with
          | None => Stop Panic
          | Some pr =>
              if Nat.ltb (length st) (p_num pr) then Stop Panic
              else
              match run_sem rnd (p_sem pr) (rev (map snd (firstn (p_num pr) st))) k with
              | None => Stop Panic
              | Some (v, k') =>
                  match skipn (p_num pr) st with
                  | [] => Stop Panic
                  | (s', v') :: st' =>
                      let g := goto_at s' (p_nt pr) in
                      if Z.ltb g 0 then Stop Panic
                      else Next ((Z.to_nat g, v) :: (s', v') :: st', toks, k')
                  end
              end
          end
      end
  | _, _ => Stop Panic
  end.

Fixpoint iter (fuel : nat) (rnd : nat -> N) (c : cfg) : res parse_error (value * nat) :=
  match fuel with
  | O => OutOfFuel
  | S f => match pstep rnd c with
           | Next c' => iter f rnd c'
           | Stop r => r
           end
  end.

(** The tokens Scan returns, up to and including the first EOF or INVALID. *)
Definition is_final (t : token) : bool :=
  Nat.eqb (tk_type t) EOF || Nat.eqb (tk_type t) INVALID.

Inductive stream : token -> lexer -> list token -> Prop :=
| stream_final t lx : is_final t = true -> stream t lx [t]
| stream_next t lx t' lx' ts :
    is_final t = false -> scan lx = Some (t', lx') -> stream t' lx' ts ->
    stream t lx (t :: ts).

(** Derivations of the productions table, with the value and the random draws of the reduce
    functions run bottom-up and left to right. *)
Section Der.
  Variable rnd : nat -> N.
  Inductive der : sym -> list token -> value -> nat -> nat -> Prop :=
  | der_tm tok k : der (Tm (tk_type tok)) [tok] (VTok tok) k k
  | der_nt p pr w vs k k1 v k2 :
      nth_error prod_tab p = Some pr -> ders (p_rhs pr) w vs k k1 ->
      run_sem rnd (p_sem pr) vs k1 = Some (v, k2) ->
      der (Nt (p_nt pr)) w v k k2
  with ders : list sym -> list token -> list value -> nat -> nat -> Prop :=
  | ders_nil k : ders [] [] [] k k
  | ders_cons X Xs w v k k1 w' vs k2 :
      der X w v k k1 -> ders Xs w' vs k1 k2 -> ders (X :: Xs) (w ++ w') (v :: vs) k k2.
End Der.

Scheme der_ind2 := Induction for der Sort Prop
  with ders_ind2 := Induction for ders Sort Prop.
Combined Scheme der_ders_ind from der_ind2, ders_ind2.

Scheme Equality for sym.
