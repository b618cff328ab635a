(** Model of /repo/escape.go. *)
From Coq Require Import Ascii NArith ZArith.
From Verif Require Import Base Maps Graph.

(** text/template.HTMLEscapeString, not part of /repo: byte by byte; NUL becomes U+FFFD. *)
Definition html_escape_byte (c : ascii) : gostr :=
  if N.eqb (bv c) 0 then [ascii_of_N 239; ascii_of_N 191; ascii_of_N 189]
  else if Ascii.eqb c dquote then lit "&#34;"
  else if Ascii.eqb c "'" then lit "&#39;"
  else if Ascii.eqb c "&" then lit "&amp;"
  else if Ascii.eqb c "<" then lit "&lt;"
  else if Ascii.eqb c ">" then lit "&gt;"
  else [c].
Definition html_escape (s : gostr) : gostr := flat_map html_escape_byte s.

(** fmt.Sprintf with a format that puts the string between double quotes *)
Definition quoted (s : gostr) : gostr := [dquote] ++ s ++ [dquote].

Section Escape.
  (** unicode.IsLetter and unicode.IsDigit, from 0x80 on: not modelled, any predicates. *)
  Variable uletter udigit : N -> bool.

  (** escape.go:34-55 (isHTML).  ss[0] of an empty ss panics: [None]. *)
  Definition angle_step (count : Z) (c : N) : Z :=
    let count := if N.eqb c 60 then (count + 1)%Z else count in
    if N.eqb c 62 then (count - 1)%Z else count.
  Definition is_html (s : gostr) : option bool :=
    match s with
    | [] => Some false
    | _ =>
        match trim_space s with
        | [] => None
        | (c :: _) as ss =>
            if negb (Ascii.eqb c "<") then Some false
            else Some (Z.eqb (fold_left angle_step (runes ss) 0%Z) 0)
        end
    end.
  (** escape.go:57-60 (isLetter); U+03B5 is excluded *)
  Definition is_letter (ch : N) : bool :=
    in_range 97 122 ch || in_range 65 90 ch || N.eqb ch 95 || (N.leb 128 ch && uletter ch && negb (N.eqb ch 949)).
  (** escape.go:62-87 (isID): the loop, [i] is the index of the rune *)
  Fixpoint is_name_loop (i : nat) (pos : bool) (l : list N) : bool :=
    match l with
    | [] => pos
    | c :: l' =>
        if Nat.eqb i 0 && negb (is_letter c) then false
        else
          let pos := if Nat.eqb i 0 then true else pos in
          if is_space c then false
          else if N.eqb c 45 then false
          else if N.eqb c 47 then false
          else if N.eqb c 46 then false
          else is_name_loop (S i) pos l'
    end.
  Definition is_name (s : gostr) : bool := is_name_loop 0 false (runes s).
  (** escape.go:89-91 (isDigit) *)
  Definition is_digit (ch : N) : bool := in_range 48 57 ch || (N.leb 128 ch && udigit ch).
  (** escape.go:93-113 (isNumber) *)
  Fixpoint is_number_loop (state : nat) (l : list N) : bool :=
    match l with
    | [] => Nat.eqb state 2
    | c :: l' =>
        match state with
        | 0 => if is_digit c || N.eqb c 46 then is_number_loop 2 l' else if N.eqb c 45 then is_number_loop 1 l' else false
        | 1 => if is_digit c || N.eqb c 46 then is_number_loop 2 l' else is_number_loop 1 l'
        | _ => if negb (N.eqb c 46) && negb (is_digit c) then false else is_number_loop state l'
        end
    end.
  Definition is_number (s : gostr) : bool := is_number_loop 0 (runes s).
  (** escape.go:115-127 (isStringLit).  s[1:len(s)-1] panics when len(s) is 1: [None]. *)
  Fixpoint is_string_loop (prev : N) (l : list N) : bool :=
    match l with
    | [] => true
    | r :: l' => if N.eqb r 34 && negb (N.eqb prev 92) then false else is_string_loop r l'
    end.
  Definition is_string_lit (s : gostr) : option bool :=
    if negb (has_prefix s [dquote]) || negb (has_suffix s [dquote]) then Some false
    else if Nat.ltb (length s - 1) 1 then None
    else Some (is_string_loop 0 (runes (firstn (length s - 1 - 1) (skipn 1 s)))).
  (** escape.go:129-150 (esc); [None]: a panic *)
  Definition esc (s : gostr) : option gostr :=
    match s with
    | [] => Some s
    | _ =>
        match is_html s with
        | None => None
        | Some true => Some s
        | Some false =>
            match trim_space s with
            | [] => None
            | c :: _ =>
                if Ascii.eqb c "<" then Some (quoted (replace_byte dquote [backslash; dquote] s))
                else if is_name s then Some s
                else if is_number s then Some s
                else match is_string_lit s with
                     | None => None
                     | Some true => Some s
                     | Some false => Some (quoted (html_escape s))
                     end
            end
        end
    end.
  (** escape.go:152-158 (escAttrs): the range loop over the entries [l] *)
  Fixpoint esc_attrs_loop (a : attrs) (l : list (gostr * gostr)) : option attrs :=
    match l with
    | [] => Some a
    | (k, v) :: l' =>
        match esc k, esc v with
        | Some k', Some v' => esc_attrs_loop (<[k' := v']> a) l'
        | _, _ => None
        end
    end.
  Definition esc_attrs (oe : oracle) (m : attrs) : option attrs := esc_attrs_loop ∅ (o_attrs oe 0 m).

  Definition bindo {A B} (x : option A) (f : A -> option B) : option B := match x with Some a => f a | None => None end.
  (** escape.go:160-198: the methods of Escape.  SetStrict, SetDir, RemoveNode and RemoveSubGraph are those of the
      embedded Graph (escape.go:25-27).  [oe]: iteration orders of escAttrs.  [None]: the call panicked, before
      doing anything. *)
  Definition esc_exec (oe o : oracle) (c : call) (g : agraph) : option (agraph * option err) :=
    match c with
    | CSetName n => bindo (esc n) (fun n' => Some (exec o (CSetName n') g))                          (* 161-163 *)
    | CAddPortEdge s sp d dp dir m =>                                                                (* 166-168 *)
        bindo (esc s) (fun s' => bindo (esc d) (fun d' => bindo (esc_attrs oe m) (fun m' =>
          Some (exec o (CAddPortEdge s' sp d' dp dir m') g))))
    | CAddEdge s d dir m =>                                                                          (* 171-173 *)
        bindo (esc s) (fun s' => bindo (esc d) (fun d' => bindo (esc_attrs oe m) (fun m' =>
          Some (exec o (CAddPortEdge s' [] d' [] dir m') g))))
    | CAddNode p n m =>                                                                              (* 176-178 *)
        bindo (esc p) (fun p' => bindo (esc n) (fun n' => bindo (esc_attrs oe m) (fun m' =>
          Some (exec o (CAddNode p' n' m') g))))
    | CAddAttr p f v =>                                                                              (* 181-183 *)
        bindo (esc p) (fun p' => bindo (esc f) (fun f' => bindo (esc v) (fun v' => Some (exec o (CAddAttr p' f' v') g))))
    | CAddSubGraph p n m =>                                                                          (* 186-188 *)
        bindo (esc p) (fun p' => bindo (esc n) (fun n' => bindo (esc_attrs oe m) (fun m' =>
          Some (exec o (CAddSubGraph p' n' m') g))))
    | _ => Some (exec o c g)
    end.
  Definition esc_is_node (g : agraph) (n : gostr) : option bool := bindo (esc n) (fun n' => Some (is_node g n')).          (* 191-193 *)
  Definition esc_is_subgraph (g : agraph) (n : gostr) : option bool := bindo (esc n) (fun n' => Some (is_subgraph g n')).  (* 196-198 *)

  (** Graphs that histories of Escape calls produce, from NewEscape() (29-31). *)
  Inductive esc_reachable : agraph -> Prop :=
  | esc_new : esc_reachable new_graph
  | esc_call g oe o c g' r : esc_reachable g -> fair oe -> fair o -> esc_exec oe o c g = Some (g', r) -> esc_reachable g'.
End Escape.
