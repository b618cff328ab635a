(** Go strings and the parts of the Go standard library the package relies on.
    A Go string (or []byte) is a finite sequence of bytes: [gostr := list ascii]. *)
From Coq Require String.
From Coq Require Import List Ascii NArith ZArith Bool DecimalString.
Export String.StringSyntax.
Import ListNotations.

Notation gostr := (list ascii).

(** String literals of the Go source. *)
Definition lit (s : String.string) : gostr := String.list_ascii_of_string s.
Arguments lit s%string_scope : simpl never.

(** Numeric value of a byte. *)
Definition bv (a : ascii) : N := N_of_ascii a.

(** Equality of strings (Go [==]). *)
Fixpoint str_eqb (a b : gostr) : bool :=
  match a, b with
  | [], [] => true
  | x :: a', y :: b' => Ascii.eqb x y && str_eqb a' b'
  | _, _ => false
  end.

(** Go's [<] on strings: lexicographic order of the bytes. *)
Fixpoint str_ltb (a b : gostr) : bool :=
  match a, b with
  | _, [] => false
  | [], _ :: _ => true
  | x :: a', y :: b' =>
      if N.ltb (bv x) (bv y) then true
      else if N.ltb (bv y) (bv x) then false
      else str_ltb a' b'
  end.

Definition str_leb (a b : gostr) : bool := negb (str_ltb b a).

(** Insertion sort, parametric in the "less or equal" test. *)
Section Sort.
  Context {A : Type} (leb : A -> A -> bool).
  Fixpoint insert_by (x : A) (l : list A) : list A :=
    match l with
    | [] => [x]
    | y :: l' => if leb x y then x :: l else y :: insert_by x l'
    end.
  Fixpoint sort_by (l : list A) : list A :=
    match l with
    | [] => []
    | x :: l' => insert_by x (sort_by l')
    end.
End Sort.

(** sort.Strings: any correct sorting algorithm gives this result (on strings the order is
    total, so the sorted permutation is unique: [sort_strings_unique] in MapFacts.v). *)
Definition sort_strings (l : list gostr) : list gostr := sort_by str_leb l.

(** strings.HasPrefix *)
Fixpoint has_prefix (s p : gostr) : bool :=
  match p, s with
  | [], _ => true
  | a :: p', b :: s' => Ascii.eqb a b && has_prefix s' p'
  | _ :: _, [] => false
  end.

(** strings.HasSuffix *)
Definition has_suffix (s p : gostr) : bool := has_prefix (rev s) (rev p).

(** strings.TrimSuffix *)
Definition trim_suffix (s p : gostr) : gostr :=
  if has_suffix s p then firstn (length s - length p) s else s.

(** strings.Split(s, sep) for a one-byte separator. *)
Fixpoint split_on (c : ascii) (s : gostr) : list gostr :=
  match s with
  | [] => [[]]
  | x :: s' =>
      match split_on c s' with
      | [] => [[x]]            (* impossible: the result is never empty *)
      | p :: ps => if Ascii.eqb x c then [] :: p :: ps else (x :: p) :: ps
      end
  end.

(** strings.Join *)
Fixpoint join (sep : gostr) (l : list gostr) : gostr :=
  match l with
  | [] => []
  | [x] => x
  | x :: l' => x ++ sep ++ join sep l'
  end.

(** strings.Replace(s, old, new, -1) for a one-byte [old]. *)
Definition replace_byte (old : ascii) (new : gostr) (s : gostr) : gostr :=
  flat_map (fun c => if Ascii.eqb c old then new else [c]) s.

(** ** UTF-8 (unicode/utf8) *)

Definition rune_error : N := 65533. (* U+FFFD *)

Definition in_range (lo hi x : N) : bool := N.leb lo x && N.leb x hi.

(** A continuation byte 10xxxxxx. *)
Definition is_cont (a : ascii) : bool := in_range 128 191 (bv a).

(** utf8.RuneStart *)
Definition rune_start (a : ascii) : bool := negb (is_cont a).

(** Range allowed for the second byte after a given first byte (utf8.acceptRanges). *)
Definition second_ok (b0 : N) (b1 : ascii) : bool :=
  if N.eqb b0 224 then in_range 160 191 (bv b1)         (* E0: A0..BF *)
  else if N.eqb b0 237 then in_range 128 159 (bv b1)    (* ED: 80..9F *)
  else if N.eqb b0 240 then in_range 144 191 (bv b1)    (* F0: 90..BF *)
  else if N.eqb b0 244 then in_range 128 143 (bv b1)    (* F4: 80..8F *)
  else is_cont b1.

(** utf8.DecodeRune: the first rune of a byte string and its width; (U+FFFD, 0) for the empty
    string, (U+FFFD, 1) for an invalid encoding. *)
Definition decode_rune (s : gostr) : N * nat :=
  match s with
  | [] => (rune_error, 0)
  | a0 :: s1 =>
      let b0 := bv a0 in
      if N.ltb b0 128 then (b0, 1)
      else if in_range 194 223 b0 then
        match s1 with
        | a1 :: _ =>
            if is_cont a1 then ((b0 - 192) * 64 + (bv a1 - 128), 2%nat)%N else (rune_error, 1)
        | [] => (rune_error, 1)
        end
      else if in_range 224 239 b0 then
        match s1 with
        | a1 :: a2 :: _ =>
            if second_ok b0 a1 && is_cont a2
            then ((b0 - 224) * 4096 + (bv a1 - 128) * 64 + (bv a2 - 128), 3%nat)%N
            else (rune_error, 1)
        | _ => (rune_error, 1)
        end
      else if in_range 240 244 b0 then
        match s1 with
        | a1 :: a2 :: a3 :: _ =>
            if second_ok b0 a1 && is_cont a2 && is_cont a3
            then ((b0 - 240) * 262144 + (bv a1 - 128) * 4096 + (bv a2 - 128) * 64 + (bv a3 - 128), 4%nat)%N
            else (rune_error, 1)
        | _ => (rune_error, 1)
        end
      else (rune_error, 1)
  end.

(** The runes produced by [for _, c := range s]. *)
Fixpoint runes_skip (skip : nat) (s : gostr) : list N :=
  match s with
  | [] => []
  | a :: s' =>
      match skip with
      | S k => runes_skip k s'
      | O => let '(r, n) := decode_rune s in r :: runes_skip (n - 1) s'
      end
  end.
Definition runes (s : gostr) : list N := runes_skip 0 s.

(** utf8.DecodeLastRune: looks back for the nearest rune start among the last four bytes. *)
Definition try_last (k : nat) (s : gostr) : option (N * nat) :=
  if Nat.ltb (length s) k then Some (rune_error, 1)
  else
    let t := skipn (length s - k) s in
    match t with
    | a :: _ =>
        if rune_start a then
          let '(r, n) := decode_rune t in
          Some (if Nat.eqb n k then (r, k) else (rune_error, 1))
        else None
    | [] => None
    end.

Definition decode_last_rune (s : gostr) : N * nat :=
  match rev s with
  | [] => (rune_error, 0)
  | b :: _ =>
      if N.ltb (bv b) 128 then (bv b, 1)
      else match try_last 2 s with
           | Some x => x
           | None => match try_last 3 s with
                     | Some x => x
                     | None => match try_last 4 s with
                               | Some x => x
                               | None => (rune_error, 1)
                               end
                     end
           end
  end.

(** unicode.IsSpace *)
Definition is_space (r : N) : bool :=
  in_range 9 13 r || N.eqb r 32 || N.eqb r 133 || N.eqb r 160 || N.eqb r 5760
  || in_range 8192 8202 r || N.eqb r 8232 || N.eqb r 8233 || N.eqb r 8239
  || N.eqb r 8287 || N.eqb r 12288.

(** strings.TrimSpace = TrimFunc(s, unicode.IsSpace) *)
Fixpoint trim_left_f (n : nat) (s : gostr) : gostr :=
  match n with
  | O => s
  | S n' =>
      match s with
      | [] => []
      | _ => let '(r, k) := decode_rune s in
             if is_space r then trim_left_f n' (skipn k s) else s
      end
  end.
Definition trim_left (s : gostr) : gostr := trim_left_f (length s) s.

Fixpoint trim_right_f (n : nat) (s : gostr) : gostr :=
  match n with
  | O => s
  | S n' =>
      match s with
      | [] => []
      | _ => let '(r, k) := decode_last_rune s in
             if is_space r then trim_right_f n' (firstn (length s - k) s) else s
      end
  end.
Definition trim_right (s : gostr) : gostr := trim_right_f (length s) s.

Definition trim_space (s : gostr) : gostr := trim_right (trim_left s).

(** fmt.Sprintf("%d", n) for a non-negative n. *)
Definition dec_of_N (n : N) : gostr := lit (NilEmpty.string_of_uint (N.to_uint n)).

Definition nl : ascii := ascii_of_N 10.
Definition tab : ascii := ascii_of_N 9.
Definition dquote : ascii := ascii_of_N 34.
Definition backslash : ascii := ascii_of_N 92.
