(** Model of the shared random source, /repo/ast/ast.go:29-32 (the variables r and randLock) and
    ast.go:209-214 (randInt63), used by any number of goroutines.

      func randInt63() int64 {
        randLock.Lock()
        result := r.Int63()      // rand.Rand is not safe for concurrent use: it reads the state of
                                 // the generator and then writes it
        randLock.Unlock()
        return result
      }

    Each of the lines is one or two atomic steps; any interleaving of the steps of the goroutines
    is allowed (sequentially consistent memory, which the mutex guarantees for race-free code). *)
From Coq Require Import List NArith Arith Bool Lia.
Import ListNotations.

Section Rand.
  (** A pseudo-random generator: its states, the value it gives and its successor state. *)
  Variables (St : Type) (out : St -> N) (next : St -> St).

  (** Program counter of a goroutine with respect to randInt63. *)
  Inductive pc :=
  | Outside                   (* not in randInt63 *)
  | Waiting                   (* called randInt63, before randLock.Lock() returned *)
  | Locked                    (* the lock is held, r.Int63() not started *)
  | Reading (s : St)          (* r.Int63() has read the state s *)
  | Written (v : N)           (* r.Int63() has written the next state and returned v *)
  .

  (** A configuration: who holds the lock, the state of the generator, where each goroutine is. *)
  Record conf := Conf { c_lock : option nat; c_src : St; c_pc : nat -> pc }.

  Definition upd (f : nat -> pc) (t : nat) (p : pc) : nat -> pc :=
    fun t' => if Nat.eqb t' t then p else f t'.

  Inductive event := ECall (t : nat) | ELock (t : nat) | ERead (t : nat) | EWrite (t : nat) | EReturn (t : nat) (v : N).

  (** ast.go:209-214; the Lock step is possible only when nobody holds the lock. *)
  Inductive step : conf -> event -> conf -> Prop :=
  | st_call t l s f : f t = Outside -> step (Conf l s f) (ECall t) (Conf l s (upd f t Waiting))
  | st_lock t s f : f t = Waiting -> step (Conf None s f) (ELock t) (Conf (Some t) s (upd f t Locked))
  | st_read t l s f : f t = Locked -> step (Conf l s f) (ERead t) (Conf l s (upd f t (Reading s)))
  | st_write t l s f s' : f t = Reading s' -> step (Conf l s f) (EWrite t) (Conf l (next s') (upd f t (Written (out s'))))
  | st_return t l s f v : f t = Written v -> step (Conf l s f) (EReturn t v) (Conf None s (upd f t Outside)).

  Inductive run : conf -> list event -> conf -> Prop :=
  | run_nil c : run c [] c
  | run_snoc c tr c' e c'' : run c tr c' -> step c' e c'' -> run c (tr ++ [e]) c''.

  Definition init (s0 : St) : conf := Conf None s0 (fun _ => Outside).

  (** ** Observations on a history *)
  (** the successive values of the generator *)
  Fixpoint iterate (n : nat) (s : St) : St := match n with O => s | S n' => iterate n' (next s) end.
  Definition value (s0 : St) (n : nat) : N := out (iterate n s0).
  (** who took the lock, in order *)
  Definition acquired (tr : list event) : list nat :=
    flat_map (fun e => match e with ELock t => [t] | _ => [] end) tr.
  (** what was handed out, in order *)
  Definition handed (tr : list event) : list (nat * N) :=
    flat_map (fun e => match e with EReturn t v => [(t, v)] | _ => [] end) tr.
  (** the values one goroutine got *)
  Definition draws_of (t : nat) (tr : list event) : list N :=
    map snd (filter (fun x => Nat.eqb (fst x) t) (handed tr)).
  (** the turns (positions in the order of acquisition) of one goroutine *)
  Definition turns_of (t : nat) (l : list nat) : list nat :=
    map fst (filter (fun x => Nat.eqb (snd x) t) (combine (seq 0 (length l)) l)).

  (** ** The invariant *)
  Definition holder_ok (s0 : St) (n : nat) (c : conf) : Prop :=
    match c_lock c with
    | None => c_src c = iterate n s0 /\ forall t, c_pc c t = Outside \/ c_pc c t = Waiting
    | Some t =>
        (forall t', t' <> t -> c_pc c t' = Outside \/ c_pc c t' = Waiting) /\
        match c_pc c t with
        | Locked => c_src c = iterate n s0
        | Reading s => s = iterate n s0 /\ c_src c = iterate n s0
        | Written v => v = value s0 n /\ c_src c = iterate (S n) s0
        | _ => False
        end
    end.

  Lemma iterate_S n : forall s, iterate (S n) s = next (iterate n s).
  Proof. induction n as [|n IH]; intros s; [reflexivity|]. cbn [iterate] in *. apply IH. Qed.

  Definition holder (c : conf) : list nat := match c_lock c with Some t => [t] | None => [] end.

  Lemma acquired_snoc tr e : acquired (tr ++ [e]) = acquired tr ++ match e with ELock t => [t] | _ => [] end.
  Proof. unfold acquired. rewrite flat_map_app. cbn. rewrite app_nil_r. reflexivity. Qed.
  Lemma handed_snoc tr e : handed (tr ++ [e]) = handed tr ++ match e with EReturn t v => [(t, v)] | _ => [] end.
  Proof. unfold handed. rewrite flat_map_app. cbn. rewrite app_nil_r. reflexivity. Qed.

  Lemma upd_same f t p : upd f t p t = p.
  Proof. unfold upd. rewrite Nat.eqb_refl. reflexivity. Qed.
  Lemma upd_other f t p t' : t' <> t -> upd f t p t' = f t'.
  Proof. intros H. unfold upd. apply Nat.eqb_neq in H. rewrite H. reflexivity. Qed.

  Lemma run_invariant s0 tr c : run (init s0) tr c ->
    holder_ok s0 (length (handed tr)) c /\ acquired tr = map fst (handed tr) ++ holder c /\
    map snd (handed tr) = map (value s0) (seq 0 (length (handed tr))).
  Proof.
    intros H. remember (init s0) as c0 eqn:E0. induction H as [c|c tr c' e c'' H IH Hs]; subst.
    { split; [|split; reflexivity]. unfold holder_ok. cbn. auto. }
    destruct (IH eq_refl) as (I1 & I2 & I3). clear IH. rewrite acquired_snoc, handed_snoc.
    set (n := length (handed tr)) in *.
    destruct Hs as [t l s f Hf|t s f Hf|t l s f Hf|t l s f s' Hf|t l s f v Hf];
      unfold holder_ok, holder in *; cbn [c_lock c_src c_pc] in *; rewrite ?app_nil_r.
    - (* call *) split; [|split; [rewrite I2; reflexivity|exact I3]]. destruct l as [h|].
      + destruct I1 as [I1 I1']. destruct (Nat.eq_dec t h) as [->|N].
        { rewrite Hf in I1'. contradiction. }
        split; [|rewrite upd_other by congruence; exact I1'].
        intros t' Ht'. destruct (Nat.eq_dec t' t) as [->|N']; [rewrite upd_same; auto|rewrite upd_other by exact N'; apply I1; exact Ht'].
      + destruct I1 as [I1 I1']. split; [exact I1|]. intros t'.
        destruct (Nat.eq_dec t' t) as [->|N']; [rewrite upd_same; auto|rewrite upd_other by exact N'; apply I1'].
    - (* lock *) destruct I1 as [I1 I1']. split; [|split; [rewrite I2, app_nil_r; reflexivity|exact I3]].
      split; [|rewrite upd_same; exact I1]. intros t' Ht'. rewrite upd_other by exact Ht'. apply I1'.
    - (* read *) split; [|split; [rewrite I2; reflexivity|exact I3]]. destruct l as [h|].
      + destruct I1 as [I1 I1']. destruct (Nat.eq_dec t h) as [->|N].
        * rewrite Hf in I1'. split; [|rewrite upd_same; auto]. intros t' Ht'. rewrite upd_other by exact Ht'. apply I1; exact Ht'.
        * destruct (I1 t N) as [E|E]; rewrite Hf in E; discriminate.
      + destruct I1 as [_ I1]. destruct (I1 t) as [E|E]; rewrite Hf in E; discriminate.
    - (* write *) split; [|split; [rewrite I2; reflexivity|exact I3]]. destruct l as [h|].
      + destruct I1 as [I1 I1']. destruct (Nat.eq_dec t h) as [->|N].
        * rewrite Hf in I1'. destruct I1' as [-> _]. split; [|rewrite upd_same, iterate_S; auto].
          intros t' Ht'. rewrite upd_other by exact Ht'. apply I1; exact Ht'.
        * destruct (I1 t N) as [E|E]; rewrite Hf in E; discriminate.
      + destruct I1 as [_ I1]. destruct (I1 t) as [E|E]; rewrite Hf in E; discriminate.
    - (* return *) destruct l as [h|].
      + destruct I1 as [I1 I1']. destruct (Nat.eq_dec t h) as [->|N].
        * rewrite Hf in I1'. destruct I1' as [-> I1']. rewrite app_length. cbn [length]. fold n. rewrite Nat.add_1_r.
          split; [|split].
          -- split; [exact I1'|]. intros t'. destruct (Nat.eq_dec t' h) as [->|N']; [rewrite upd_same; auto|rewrite upd_other by exact N'; apply I1; exact N'].
          -- rewrite map_app. cbn. exact I2.
          -- rewrite map_app, I3, seq_S, map_app. reflexivity.
        * destruct (I1 t N) as [E|E]; rewrite Hf in E; discriminate.
      + destruct I1 as [_ I1]. destruct (I1 t) as [E|E]; rewrite Hf in E; discriminate.
  Qed.
End Rand.
