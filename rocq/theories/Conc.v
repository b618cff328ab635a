(** Model of any number of goroutines that parse at the same time: each runs the parser of /repo/internal/parser/parser.go
    step by step, and shares with the others the random source of /repo/ast/ast.go:29-32 and its lock (as in Rand.v).
    Every other variable of a parse (lexer, stack, AST) is created by the call of Parse (main.go:36-48); the tables are
    only read. *)
From Coq Require Import List Ascii NArith ZArith Bool Arith.
From Verif Require Import Base LexTables ParseTables Ast Lexer Parser.
Import ListNotations.

(** What the loop of the parser works on: the stack, the next token, the lexer. *)
Definition pconf : Type := stack * token * lexer.
(** parser.go:185-217: one round of the loop.  [rnd] at [k] is the value that randInt63 gives, should it be called. *)
Definition round (rnd : nat -> N) (c : pconf) (k : nat) : (pconf * nat) + res parse_error (value * nat) :=
  let '(st, tok, lx) := c in
  match st with
  | [] => inr Panic
  | (s, v0) :: _ =>
      if negb (Nat.ltb s num_states) then inr Panic
      else
      match action_at s (tk_type tok) with
      | None => inr (Err (ParseError tok (expected_tokens s) s))
      | Some Accept => inr (Ok (v0, k))
      | Some (Shift n) =>
          match scan lx with
          | Some (tok', lx') => inl ((n, VTok tok) :: st, tok', lx', k)
          | None => inr OutOfFuel
          end
      | Some (Reduce p) =>
          match nth_error prod_tab p with
          | None => inr Panic
          | Some pr =>
              let n := p_num pr in
              if Nat.ltb (length st) n then inr Panic
              else
              match run_sem rnd (p_sem pr) (rev (map snd (firstn n st))) k with
              | None => inr Panic
              | Some (v, k') =>
                  match skipn n st with
                  | [] => inr Panic
                  | (s', v') :: st' =>
                      let g := goto_at s' (p_nt pr) in
                      if Z.ltb g 0 then inr Panic
                      else inl ((Z.to_nat g, v) :: (s', v') :: st', tok, lx, k')
                  end
              end
          end
      end
  end.
(** ast.go:194-197: NewSubGraph calls randInt63 when there is no name or an empty one. *)
Definition sem_draws (s : sem) (X : list value) : bool :=
  match s with
  | SemSubGraph i _ => match oarg X i with Some VNil | Some (VID []) => true | _ => false end
  | _ => false
  end.
(** Does the round call randInt63? *)
Definition draws (c : pconf) : bool :=
  let '(st, tok, _) := c in
  match st with
  | [] => false
  | (s, _) :: _ =>
      match action_at s (tk_type tok) with
      | Some (Reduce p) =>
          match nth_error prod_tab p with
          | Some pr => sem_draws (p_sem pr) (rev (map snd (firstn (p_num pr) st)))
          | None => false
          end
      | _ => false
      end
  end.
(** main.go:36-48 (ParseBytes): what is made of the result of the loop. *)
Definition finish (r : res parse_error (value * nat)) : res parse_error graph :=
  match r with
  | Ok (VGraph g, _) => Ok g
  | Ok _ => Panic
  | Err e => Err e
  | Panic => Panic
  | OutOfFuel => OutOfFuel
  end.

Section Conc.
  (** The generator as in Rand.v *)
  Variables (St : Type) (out : St -> N) (next : St -> St).

  (** Where a goroutine is. *)
  Inductive phase :=
  | Start (src : gostr)                      (* about to call Parse *)
  | Loop (c : pconf)                         (* before a round of the loop *)
  | Waiting (c : pconf)                      (* in randInt63, before randLock.Lock() returned *)
  | Locked (c : pconf)                       (* has the lock *)
  | Reading (c : pconf) (s : St)             (* r.Int63() has read the state *)
  | Written (c : pconf) (v : N)              (* r.Int63() has written the next state *)
  | Got (c : pconf) (v : N)                  (* randInt63 has released the lock and returned v *)
  | Done (r : res parse_error graph).        (* Parse has returned *)
  Record world := World { w_lock : option nat; w_src : St; w_phase : nat -> phase }.
  Definition set_phase (f : nat -> phase) (t : nat) (p : phase) : nat -> phase := fun t' => if Nat.eqb t' t then p else f t'.

  (** After a round *)
  Definition after (r : (pconf * nat) + res parse_error (value * nat)) : phase :=
    match r with inl (c, _) => Loop c | inr r => Done (finish r) end.
  (** main.go:36-40: the lexer, and the first token *)
  Definition start (src : gostr) : phase :=
    match scan (new_lexer src) with
    | Some (tok, lx) => Loop ([(0, VNil)], tok, lx)
    | None => Done OutOfFuel
    end.

  (** What a step does, apart from moving its goroutine on. *)
  Inductive label := LLocal | LCall | LLock | LRead | LWrite | LReturn (v : N).
  (** The steps; the scheduler may choose any goroutine each time. *)
  Inductive wstep : world -> nat * label -> world -> Prop :=
  | ws_start t l s f src : f t = Start src -> wstep (World l s f) (t, LLocal) (World l s (set_phase f t (start src)))
  | ws_round t l s f c : f t = Loop c -> draws c = false ->
      wstep (World l s f) (t, LLocal) (World l s (set_phase f t (after (round (fun _ => 0%N) c 0))))
  | ws_call t l s f c : f t = Loop c -> draws c = true -> wstep (World l s f) (t, LCall) (World l s (set_phase f t (Waiting c)))
  | ws_lock t s f c : f t = Waiting c -> wstep (World None s f) (t, LLock) (World (Some t) s (set_phase f t (Locked c)))
  | ws_read t l s f c : f t = Locked c -> wstep (World l s f) (t, LRead) (World l s (set_phase f t (Reading c s)))
  | ws_write t l s f c s' : f t = Reading c s' -> wstep (World l s f) (t, LWrite) (World l (next s') (set_phase f t (Written c (out s'))))
  | ws_return t l s f c v : f t = Written c v -> wstep (World l s f) (t, LReturn v) (World None s (set_phase f t (Got c v)))
  | ws_go_on t l s f c v : f t = Got c v ->
      wstep (World l s f) (t, LLocal) (World l s (set_phase f t (after (round (fun _ => v) c 0)))).
  Inductive wrun : world -> list (nat * label) -> world -> Prop :=
  | wrun_nil w : wrun w [] w
  | wrun_snoc w tr w' e w'' : wrun w tr w' -> wstep w' e w'' -> wrun w (tr ++ [e]) w''.
  (** [n] goroutines (numbered from 0) that parse the texts [srcs]. *)
  Definition launch (s0 : St) (srcs : list gostr) : world :=
    World None s0 (fun t => match nth_error srcs t with Some src => Start src | None => Done Panic end).
  (** The values that goroutine [t] got from randInt63, in order *)
  Definition got (t : nat) (tr : list (nat * label)) : list N :=
    flat_map (fun e => match e with (t', LReturn v) => if Nat.eqb t' t then [v] else [] | _ => [] end) tr.
  (** Who got a value from randInt63, in order *)
  Definition served (tr : list (nat * label)) : list nat :=
    flat_map (fun e => match e with (t, LReturn _) => [t] | _ => [] end) tr.
End Conc.
