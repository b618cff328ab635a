(** Model of /repo/internal/parser/parser.go with its error recovery and with the errors of the reduce functions,
    which Parser.v leaves out; RecProofs.v shows that the two agree. *)
From Coq Require Import List Ascii NArith ZArith Bool.
From Verif Require Import Base LexTables ParseTables TokNames Ast Lexer Parser.
Import ListNotations.

(** token.go:43-48 (TokenMap.Id) *)
Definition tok_id (ty : nat) : gostr := nth ty type_map (lit "unknown").
(** token.go:50-55 (TokenMap.Type) *)
Fixpoint assoc_name (s : gostr) (l : list (gostr * nat)) : option nat :=
  match l with
  | [] => None
  | (n, t) :: l' => if str_eqb s n then Some t else assoc_name s l'
  end.
Definition tok_type_of (name : gostr) : nat :=
  match assoc_name name id_map with Some t => t | None => INVALID end.

(** actionTab[s].canRecover *)
Definition can_recover (s : nat) : bool := nth s can_recover_tab false.

(** parser.go:160-168 (firstRecoveryState), on the states with the top first; the result is an index counted from
    the bottom. *)
Fixpoint first_recovery (states : list nat) : nat * bool :=
  match states with
  | [] => (0, false)
  | [s] => (0, can_recover s)
  | s :: rest => if can_recover s then (length rest, true) else first_recovery rest
  end.
(** parser.go:146-157 (popNonRecoveryStates) *)
Definition pop_non_recovery (st : stack) : list value * stack :=
  let '(rs, ok) := first_recovery (map fst st) in
  if ok then let n := length st - 1 - rs in (rev (map snd (firstn n st)), skipn n st)
  else ([], st).

Inductive recovery :=
| Recovered (st : stack) (tok : token) (lx : lexer)
| NotRecovered (st : stack) (error_token : token)
| RecPanic
| RecFuel.

(** parser.go:135-141: skipping tokens until one that state [n] can act on. *)
Fixpoint skip_tokens (fuel : nat) (n : nat) (st : stack) (tok0 tok : token) (lx : lexer) : recovery :=
  match fuel with
  | O => RecFuel
  | S fuel' =>
      match action_at n (tk_type tok) with
      | Some _ => Recovered st tok lx
      | None =>
          if Nat.eqb (tk_type tok) EOF then NotRecovered st tok0
          else match scan lx with
               | Some (tok', lx') => skip_tokens fuel' n st tok0 tok' lx'
               | None => RecFuel
               end
      end
  end.
(** parser.go:111-144 (Error).  ([errorAttrib.ErrorToken] is the token at which the error was found.) *)
Definition recover (fuel : nat) (st : stack) (tok : token) (lx : lexer) : recovery :=
  let '(syms, st1) := pop_non_recovery st in
  match st1 with
  | [] => RecPanic
  | (s, _) :: _ =>
      match action_at s (tok_type_of (lit "error")) with
      | None => NotRecovered st1 tok
      | Some (Shift n) => skip_tokens fuel n ((n, VErr tok syms (expected_tokens s)) :: st1) tok tok lx
      | Some _ => RecPanic                                    (* action.(shift) *)
      end
  end.

(** ** Errors returned by the reduce functions *)
Section Show.
  Variable show : value -> gostr.        (* fmt's %v *)
  (** The two places in ast.go that return an error: NewAttr (441-452) and NewSubGraph (194-207), when the failing
      call of [run_sem] fails there and not in a type assertion. *)
  Definition sem_error (s : sem) (X : list value) : option gostr :=
    match s with
    | SemAttr f v =>
        match arg X f, oarg X v with
        | Some (VID _), Some w =>
            match w with VNil | VID _ => None | _ => Some (lit "value = " ++ show w) end
        | _, _ => None
        end
    | SemSubGraph i l =>
        match oarg X i with
        | Some VNil | Some (VID _) | None => None
        | Some v => Some (lit "expected maybeId.(ID) got=" ++ show v)
        end
    | _ => None
    end.

  (** errors.go:15-21 (Error) as built by newError (parser.go:170-183). *)
  Record go_error := GoError { ge_err : option gostr; ge_error : parse_error }.

  (** parser.go:185-220 (Parse): the loop. *)
  Fixpoint rec_loop (fuel : nat) (rnd : nat -> N) (st : stack) (tok : token) (lx : lexer) (k : nat)
    : res go_error (value * nat) :=
    match fuel with
    | O => OutOfFuel
    | S fuel' =>
        match st with
        | [] => Panic                                            (* s.state[-1] *)
        | (s, _) :: _ =>
            if negb (Nat.ltb s num_states) then Panic            (* actionTab[s] out of range *)
            else
            (* 189-200: the state in which to act, after recovery if need be *)
            let ready := match action_at s (tk_type tok) with
                         | Some _ => Recovered st tok lx
                         | None => recover fuel' st tok lx
                         end in
            match ready with
            | RecPanic => Panic
            | RecFuel => OutOfFuel
            | NotRecovered st1 tok1 =>                           (* 191-194: newError(nil) *)
                match st1 with
                | [] => Panic
                | (s1, _) :: _ => Err (GoError None (ParseError tok1 (expected_tokens s1) s1))
                end
            | Recovered st1 tok1 lx1 =>
                match st1 with
                | [] => Panic
                | (s1, v1) :: _ =>
                    match action_at s1 (tk_type tok1) with
                    | None => Panic                              (* "Error recovery led to invalid action" *)
                    | Some Accept => Ok (v1, k)
                    | Some (Shift n) =>
                        match scan lx1 with
                        | Some (tok', lx') => rec_loop fuel' rnd ((n, VTok tok1) :: st1) tok' lx' k
                        | None => OutOfFuel
                        end
                    | Some (Reduce p) =>
                        match nth_error prod_tab p with
                        | None => Panic
                        | Some pr =>
                            let n := p_num pr in
                            if Nat.ltb (length st1) n then Panic (* popN slices out of range *)
                            else
                            let X := rev (map snd (firstn n st1)) in
                            match run_sem rnd (p_sem pr) X k with
                            | None =>
                                match sem_error (p_sem pr) X with
                                | None => Panic
                                | Some m =>                      (* 210-211: newError(err) *)
                                    match skipn n st1 with
                                    | [] => Panic
                                    | (s', _) :: _ => Err (GoError (Some m) (ParseError tok1 (expected_tokens s') s'))
                                    end
                                end
                            | Some (v, k') =>
                                match skipn n st1 with
                                | [] => Panic
                                | (s', v') :: st' =>
                                    let g := goto_at s' (p_nt pr) in
                                    if Z.ltb g 0 then Panic      (* actionTab[-1] *)
                                    else rec_loop fuel' rnd ((Z.to_nat g, v) :: (s', v') :: st') tok1 lx1 k'
                                end
                            end
                        end
                    end
                end
            end
        end
    end.

  (** main.go:36-48 (ParseBytes) *)
  Definition rec_parse_bytes (rnd : nat -> N) (k0 : nat) (src : gostr) : res go_error (graph * nat) :=
    match scan (new_lexer src) with
    | None => OutOfFuel
    | Some (tok, lx) =>
        match rec_loop (parse_fuel src) rnd [(0, VNil)] tok lx k0 with
        | Ok (VGraph g, k) => Ok (g, k)
        | Ok _ => Panic
        | Err e => Err e
        | Panic => Panic
        | OutOfFuel => OutOfFuel
        end
    end.
End Show.
