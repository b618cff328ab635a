(** Proofs about concurrent parses (Conc.v). *)
From Coq Require Import List Ascii NArith ZArith Bool Arith Lia.
From Verif Require Import Base LexTables ParseTables Ast Lexer Parser Conc.
From Verif Require Rand PropsParse.
Import ListNotations.
Local Opaque action_tab goto_tab prod_tab.

(** ** Rounds and the loop *)
Definition count_res (k : nat) (r : res parse_error (value * nat)) : res parse_error (value * nat) :=
  match r with Ok (v, _) => Ok (v, k) | Err e => Err e | Panic => Panic | OutOfFuel => OutOfFuel end.
Definition counted (k : nat) (x : (pconf * nat) + res parse_error (value * nat)) : (pconf * nat) + res parse_error (value * nat) :=
  match x with inl (c, _) => inl (c, k) | inr r => inr (count_res k r) end.
Definition loop (fuel : nat) (rnd : nat -> N) (c : pconf) (k : nat) : res parse_error (value * nat) :=
  let '(st, tok, lx) := c in parse_loop fuel rnd st tok lx k.

Lemma loop_round f rnd c k : loop (S f) rnd c k = match round rnd c k with inl (c', k') => loop f rnd c' k' | inr r => r end.
Proof.
  destruct c as [[st tok] lx]. unfold loop, round. cbn [parse_loop]. destruct st as [|[s v0] st]; [reflexivity|].
  destruct (negb (Nat.ltb s num_states)); [reflexivity|]. destruct (action_at s (tk_type tok)) as [[|n|p]|]; try reflexivity.
  - destruct (scan lx) as [[tok' lx']|]; reflexivity.
  - destruct (nth_error prod_tab p) as [pr|]; [|reflexivity]. destruct (Nat.ltb _ _); [reflexivity|].
    destruct (run_sem _ _ _ _) as [[v k']|]; [|reflexivity]. destruct (skipn _ _) as [|[s' v'] st']; [reflexivity|]. destruct (Z.ltb _ _); reflexivity.
Qed.
Definition re_count (k : nat) (x : option (value * nat)) : option (value * nat) := match x with Some (v, _) => Some (v, k) | None => None end.
Lemma pure_count k k' x : pure k x = re_count k (pure k' x).
Proof. destruct x; reflexivity. Qed.
Lemma sem_no_draw rnd rnd' s X k : sem_draws s X = false -> run_sem rnd s X k = re_count k (run_sem rnd' s X 0).
Proof.
  intros H. destruct s; cbn [run_sem]; try apply pure_count; try reflexivity.
  cbn [sem_draws] in H. match type of H with context [oarg X ?a] => destruct (oarg X a) as [v|] end; [|reflexivity]. cbn [opt_bind]. match goal with |- context [oarg X ?a] => destruct (oarg X a) as [b|] end; [|reflexivity]. cbn [opt_bind]. unfold new_subgraph.
  destruct (match b with VNil => Some [] | _ => as_stmts b end) as [b'|]; [|reflexivity]. cbn [opt_bind].
  destruct v; try discriminate; try reflexivity. match type of H with context [match ?x with [] => _ | _ => _ end] => destruct x end; [discriminate|reflexivity].
Qed.
Lemma sem_draw rnd s X k : sem_draws s X = true -> run_sem rnd s X k = re_count (S k) (run_sem (fun _ => rnd k) s X 0).
Proof.
  intros H. destruct s; try discriminate. cbn [sem_draws run_sem] in *. match type of H with context [oarg X ?a] => destruct (oarg X a) as [v|] end; [|discriminate]. cbn [opt_bind].
  match goal with |- context [oarg X ?a] => destruct (oarg X a) as [b|] end; [|reflexivity]. cbn [opt_bind]. unfold new_subgraph.
  destruct (match b with VNil => Some [] | _ => as_stmts b end) as [b'|]; [|reflexivity]. cbn [opt_bind].
  destruct v; try discriminate; try reflexivity. match type of H with context [match ?x with [] => _ | _ => _ end] => destruct x end; [reflexivity|discriminate].
Qed.
Lemma round_no_draw rnd rnd' c k : draws c = false -> round rnd c k = counted k (round rnd' c 0).
Proof.
  destruct c as [[st tok] lx]. unfold draws, round. destruct st as [|[s v0] st]; [reflexivity|].
  destruct (negb (Nat.ltb s num_states)); [reflexivity|]. destruct (action_at s (tk_type tok)) as [[|n|p]|]; try reflexivity.
  - intros _. destruct (scan lx) as [[tok' lx']|]; reflexivity.
  - destruct (nth_error prod_tab p) as [pr|]; [|reflexivity]. intros H. destruct (Nat.ltb _ _); [reflexivity|].
    rewrite (sem_no_draw rnd rnd' _ _ _ H). destruct (run_sem rnd' _ _ 0) as [[v k']|]; [|reflexivity]. cbn [re_count].
    destruct (skipn _ _) as [|[s' v'] st']; [reflexivity|]. destruct (Z.ltb _ _); reflexivity.
Qed.
Lemma round_draw rnd c k : draws c = true -> round rnd c k = counted (S k) (round (fun _ => rnd k) c 0).
Proof.
  destruct c as [[st tok] lx]. unfold draws, round. destruct st as [|[s v0] st]; [discriminate|].
  destruct (negb (Nat.ltb s num_states)); [reflexivity|]. destruct (action_at s (tk_type tok)) as [[|n|p]|]; try discriminate.
  destruct (nth_error prod_tab p) as [pr|]; [|discriminate]. intros H. destruct (Nat.ltb _ _); [reflexivity|].
  rewrite (sem_draw rnd _ _ _ H). destruct (run_sem (fun _ => rnd k) _ _ 0) as [[v k']|]; [|reflexivity]. cbn [re_count].
  destruct (skipn _ _) as [|[s' v'] st']; [reflexivity|]. destruct (Z.ltb _ _); reflexivity.
Qed.

(** ** What is known about one goroutine *)
Definition agrees (rnd : nat -> N) (D : list N) : Prop := forall i v, nth_error D i = Some v -> rnd i = v.
Definition with_count (r : res parse_error graph) (k : nat) : res parse_error (graph * nat) :=
  match r with Ok g => Ok (g, k) | Err e => Err e | Panic => Panic | OutOfFuel => OutOfFuel end.
Definition bound (src : gostr) : nat := 32 * (length src + 2).
(** After [m] rounds and the draws [D] the loop is at [c]. *)
Definition at_loop (src : gostr) (m : nat) (D : list N) (c : pconf) : Prop := exists tok lx, scan (new_lexer src) = Some (tok, lx) /\ m <= bound src /\
  forall rnd, agrees rnd D -> loop (bound src) rnd ([(0, VNil)], tok, lx) 0 = loop (bound src - m) rnd c (length D).
Definition fill (D : list N) : nat -> N := fun i => nth i D 0%N.
Lemma agrees_fill D : agrees (fill D) D.
Proof. intros i v H. unfold fill. apply nth_error_nth with (d := 0%N) in H. exact H. Qed.
Lemma at_loop_more src m D c : at_loop src m D c -> m < bound src.
Proof.
  intros (tok & lx & E & L & H). destruct (Nat.eq_dec m (bound src)) as [->|N]; [exfalso|lia].
  specialize (H (fill D) (agrees_fill D)). rewrite Nat.sub_diag in H.
  destruct (PropsParse.C01_parse_linear (fill D) 0 src tok lx (bound src) E (Nat.le_refl _)) as (_ & Hf & _). apply Hf.
  change (loop (bound src) (fill D) ([(0, VNil)], tok, lx) 0 = OutOfFuel). rewrite H. destruct c as [[st tk] lx']. reflexivity.
Qed.
Definition final (src : gostr) (D : list N) (r : res parse_error graph) : Prop :=
  forall rnd, agrees rnd D -> parse_bytes rnd 0 src = with_count r (length D).
Lemma finish_spec src tok lx (D : list N) m c rnd r : scan (new_lexer src) = Some (tok, lx) -> m < bound src ->
  loop (bound src) rnd ([(0, VNil)], tok, lx) 0 = loop (bound src - m) rnd c (length D) -> forall k,
  round rnd c (length D) = inr (count_res k r) -> parse_bytes rnd 0 src = with_count (finish r) k.
Proof.
  intros E L H k Hr. replace (bound src - m) with (S (bound src - S m)) in H by lia. rewrite loop_round, Hr in H.
  unfold parse_bytes. rewrite E. change (parse_fuel src) with (bound src). unfold loop in H. rewrite H. destruct r as [[v k']|e| |]; [destruct v; reflexivity|reflexivity|reflexivity|reflexivity].
Qed.

Section Inv.
  Variables (St : Type) (out : St -> N) (next : St -> St).
  Notation phase := (phase St). Notation world := (world St).
  Notation wstep := (wstep St out next). Notation wrun := (wrun St out next).

  (** [n] steps done, draws [D]. *)
  Definition known (src : gostr) (n : nat) (D : list N) (p : phase) : Prop :=
    match p with
    | Start _ src' => src' = src /\ D = [] /\ n = 0
    | Loop _ c => exists m, at_loop src m D c /\ n <= 1 + 6 * m
    | Waiting _ c => exists m, at_loop src m D c /\ n <= 2 + 6 * m /\ draws c = true
    | Locked _ c => exists m, at_loop src m D c /\ n <= 3 + 6 * m /\ draws c = true
    | Reading _ c _ => exists m, at_loop src m D c /\ n <= 4 + 6 * m /\ draws c = true
    | Written _ c _ => exists m, at_loop src m D c /\ n <= 5 + 6 * m /\ draws c = true
    | Got _ c v => exists m D', D = D' ++ [v] /\ at_loop src m D' c /\ n <= 6 + 6 * m /\ draws c = true
    | Done _ r => final src D r /\ n <= 1 + 6 * bound src
    end.

  Lemma known_start src : known src 1 [] (start St src).
  Proof.
    unfold start. destruct (scan (new_lexer src)) as [[tok lx]|] eqn:E.
    - exists 0. split; [|lia]. exists tok, lx. split; [exact E|]. split; [lia|]. intros rnd _. rewrite Nat.sub_0_r. reflexivity.
    - split; [|lia]. intros rnd _. unfold parse_bytes. rewrite E. reflexivity.
  Qed.
  Lemma known_round src n m D c : at_loop src m D c -> draws c = false -> n <= 1 + 6 * m -> known src (S n) D (after St (round (fun _ => 0%N) c 0)).
  Proof.
    intros H Hd Hn. pose proof (at_loop_more _ _ _ _ H) as L. destruct H as (tok & lx & E & _ & H).
    destruct (round (fun _ => 0%N) c 0) as [[c' k']|r] eqn:Er; cbn [after known].
    - exists (S m). split; [|lia]. exists tok, lx. split; [exact E|]. split; [lia|]. intros rnd Ha. rewrite (H rnd Ha).
      replace (bound src - m) with (S (bound src - S m)) by lia. rewrite loop_round, (round_no_draw rnd (fun _ => 0%N) c _ Hd), Er. reflexivity.
    - split; [|lia]. intros rnd Ha. eapply finish_spec; [exact E|exact L|exact (H rnd Ha)|].
      rewrite (round_no_draw rnd (fun _ => 0%N) c _ Hd), Er. reflexivity.
  Qed.
  Lemma agrees_snoc rnd D v : agrees rnd (D ++ [v]) -> agrees rnd D /\ rnd (length D) = v.
  Proof.
    intros H. split.
    - intros i x Hi. apply H. rewrite nth_error_app1; [exact Hi|]. apply nth_error_Some. congruence.
    - apply H. rewrite nth_error_app2 by lia. rewrite Nat.sub_diag. reflexivity.
  Qed.
  Lemma round_value (a b : nat -> N) c k : draws c = true -> a k = b k -> round a c k = round b c k.
  Proof. intros H E. rewrite (round_draw a c k H), (round_draw b c k H), E. reflexivity. Qed.
  Lemma known_go_on src n m D v c : at_loop src m D c -> draws c = true -> n <= 6 + 6 * m -> known src (S n) (D ++ [v]) (after St (round (fun _ => v) c 0)).
  Proof.
    intros H Hd Hn. pose proof (at_loop_more _ _ _ _ H) as L. destruct H as (tok & lx & E & _ & H).
    assert (Hr : forall rnd, agrees rnd (D ++ [v]) -> round rnd c (length D) = counted (length (D ++ [v])) (round (fun _ => v) c 0)).
    { intros rnd Ha. apply agrees_snoc in Ha. destruct Ha as [_ Ha]. rewrite (round_draw rnd c _ Hd), app_length, Nat.add_comm. cbn [length Nat.add].
      f_equal. apply round_value; [exact Hd|exact Ha]. }
    destruct (round (fun _ => v) c 0) as [[c' k']|r] eqn:Er; cbn [after known].
    - exists (S m). split; [|lia]. exists tok, lx. split; [exact E|]. split; [lia|]. intros rnd Ha. rewrite (H rnd (proj1 (agrees_snoc _ _ _ Ha))).
      replace (bound src - m) with (S (bound src - S m)) by lia. rewrite loop_round, (Hr rnd Ha). reflexivity.
    - split; [|lia]. intros rnd Ha. eapply finish_spec; [exact E|exact L|exact (H rnd (proj1 (agrees_snoc _ _ _ Ha)))|].
      rewrite (Hr rnd Ha). reflexivity.
  Qed.

  Definition mine (t : nat) (tr : list (nat * label)) : nat := length (filter (fun e => Nat.eqb (fst e) t) tr).
  Lemma mine_snoc t tr t' l : mine t (tr ++ [(t', l)]) = if Nat.eqb t' t then S (mine t tr) else mine t tr.
  Proof. unfold mine. rewrite filter_app. cbn [filter fst]. destruct (Nat.eqb t' t); rewrite app_length; cbn; lia. Qed.
  Lemma got_snoc t tr t' l : got t (tr ++ [(t', l)]) = got t tr ++ match l with LReturn v => if Nat.eqb t' t then [v] else [] | _ => [] end.
  Proof. unfold got. rewrite flat_map_app. cbn [flat_map]. rewrite app_nil_r. reflexivity. Qed.
  Lemma set_same (f : nat -> phase) t p : set_phase St f t p t = p.
  Proof. unfold set_phase. rewrite Nat.eqb_refl. reflexivity. Qed.
  Lemma set_other (f : nat -> phase) t p t' : t' <> t -> set_phase St f t p t' = f t'.
  Proof. unfold set_phase. intros H. apply Nat.eqb_neq in H. rewrite H. reflexivity. Qed.

  Lemma step_known src n D w t l w' : wstep w (t, l) w' -> known src n D (w_phase St w t) ->
    known src (S n) (D ++ match l with LReturn v => [v] | _ => [] end) (w_phase St w' t).
  Proof.
    intros S H. inversion S; subst; cbn [w_phase] in *; rewrite set_same;
      match goal with Hf : ?f t = _ |- _ => rewrite Hf in H end; cbn [known] in H; rewrite ?app_nil_r.
    - destruct H as (-> & -> & ->). apply known_start.
    - destruct H as (m & H & Hn). eapply known_round; eassumption.
    - destruct H as (m & H & Hn). exists m. split; [exact H|]. split; [lia|assumption].
    - destruct H as (m & H & Hn & Hd). exists m. split; [exact H|]. split; [lia|assumption].
    - destruct H as (m & H & Hn & Hd). exists m. split; [exact H|]. split; [lia|assumption].
    - destruct H as (m & H & Hn & Hd). exists m. split; [exact H|]. split; [lia|assumption].
    - destruct H as (m & H & Hn & Hd). exists m, D. split; [reflexivity|]. split; [exact H|]. split; [lia|assumption].
    - destruct H as (m & D' & -> & H & Hn & Hd). eapply known_go_on; eassumption.
  Qed.
  Lemma step_other w t l w' t' : wstep w (t, l) w' -> t' <> t -> w_phase St w' t' = w_phase St w t'.
  Proof. intros S N. inversion S; subst; cbn [w_phase]; apply set_other; exact N. Qed.

  Lemma run_known s0 srcs tr w : wrun (launch St s0 srcs) tr w -> forall t,
    match nth_error srcs t with
    | Some src => known src (mine t tr) (got t tr) (w_phase St w t)
    | None => w_phase St w t = Done St Panic /\ mine t tr = 0
    end.
  Proof.
    intros R. remember (launch St s0 srcs) as w0 eqn:E0. induction R as [w|w tr w1 [t1 l] w2 R IH S]; subst; intros t.
    - cbn [launch w_phase]. destruct (nth_error srcs t); cbn; auto.
    - specialize (IH eq_refl t). rewrite mine_snoc, got_snoc. destruct (Nat.eqb_spec t1 t) as [->|N].
      + destruct (nth_error srcs t) as [src|]; [apply (step_known _ _ _ _ _ _ _ S IH)|].
        destruct IH as [E _]. inversion S; subst; cbn [w_phase] in E; congruence.
      + rewrite (step_other _ _ _ _ t S) by congruence.
        replace (got t tr ++ match l with LReturn v => [] | _ => [] end) with (got t tr) by (destruct l; rewrite app_nil_r; reflexivity). exact IH.
  Qed.

  (** ** The lock and the generator: the runs of Rand.v *)
  Definition pc_of (p : phase) : Rand.pc St :=
    match p with
    | Waiting _ _ => Rand.Waiting St | Locked _ _ => Rand.Locked St | Reading _ _ s => Rand.Reading St s | Written _ _ v => Rand.Written St v
    | _ => Rand.Outside St
    end.
  Definition events (tr : list (nat * label)) : list Rand.event :=
    flat_map (fun e => match e with
                       | (t, LLocal) => [] | (t, LCall) => [Rand.ECall t] | (t, LLock) => [Rand.ELock t] | (t, LRead) => [Rand.ERead t]
                       | (t, LWrite) => [Rand.EWrite t] | (t, LReturn v) => [Rand.EReturn t v] end) tr.
  Lemma run_rand s0 srcs tr w : wrun (launch St s0 srcs) tr w -> exists f,
    Rand.run St out next (Rand.init St s0) (events tr) (Rand.Conf St (w_lock St w) (w_src St w) f) /\ forall t, f t = pc_of (w_phase St w t).
  Proof.
    intros R. remember (launch St s0 srcs) as w0 eqn:E0. induction R as [w|w tr w1 [t1 l] w2 R IH S]; subst.
    - exists (fun _ => Rand.Outside St). split; [constructor|]. intros t. cbn. destruct (nth_error srcs t); reflexivity.
    - destruct (IH eq_refl) as (f & R' & Hf). unfold events. rewrite flat_map_app. fold (events tr). cbn [flat_map].
      assert (U : forall p ph f0, (forall t, f t = pc_of (f0 t)) -> p = pc_of ph -> forall t, Rand.upd St f t1 p t = pc_of (set_phase St f0 t1 ph t)).
      { intros p ph f0 H0 -> t. unfold Rand.upd, set_phase. destruct (Nat.eqb t t1); [reflexivity|apply H0]. }
      assert (V : forall ph f0, (forall t, f t = pc_of (f0 t)) -> pc_of (f0 t1) = pc_of ph -> forall t, f t = pc_of (set_phase St f0 t1 ph t)).
      { intros ph f0 H0 E t. unfold set_phase. destruct (Nat.eqb_spec t t1) as [->|]; [rewrite H0; exact E|apply H0]. }
      assert (A : forall r, pc_of (after St r) = Rand.Outside St) by (intros [[c k]|r]; reflexivity).
      assert (B : forall src, pc_of (start St src) = Rand.Outside St) by (intros src; unfold start; destruct (scan _) as [[? ?]|]; reflexivity).
      inversion S; subst; cbn [w_phase w_lock w_src] in *; rewrite ?app_nil_r;
        match goal with Hp : _ t1 = _ |- _ => pose proof (Hf t1) as Ht; rewrite Hp in Ht; cbn [pc_of] in Ht end.
      + exists f. split; [exact R'|]. apply V; [exact Hf|]. rewrite <- Hf, Ht, B. reflexivity.
      + exists f. split; [exact R'|]. apply V; [exact Hf|]. rewrite <- Hf, Ht, A. reflexivity.
      + exists (Rand.upd St f t1 (Rand.Waiting St)). split; [|apply U; [exact Hf|reflexivity]]. eapply Rand.run_snoc; [exact R'|]. apply Rand.st_call. exact Ht.
      + exists (Rand.upd St f t1 (Rand.Locked St)). split; [|apply U; [exact Hf|reflexivity]]. eapply Rand.run_snoc; [exact R'|]. apply Rand.st_lock. exact Ht.
      + exists (Rand.upd St f t1 (Rand.Reading St s)). split; [|apply U; [exact Hf|reflexivity]]. eapply Rand.run_snoc; [exact R'|]. apply Rand.st_read. exact Ht.
      + exists (Rand.upd St f t1 (Rand.Written St (out s'))). split; [|apply U; [exact Hf|reflexivity]]. eapply Rand.run_snoc; [exact R'|]. apply Rand.st_write. exact Ht.
      + exists (Rand.upd St f t1 (Rand.Outside St)). split; [|apply U; [exact Hf|reflexivity]]. eapply Rand.run_snoc; [exact R'|]. eapply Rand.st_return. exact Ht.
      + exists f. split; [exact R'|]. apply V; [exact Hf|]. rewrite <- Hf, Ht, A. reflexivity.
  Qed.
  Lemma handed_events tr : map fst (Rand.handed (events tr)) = served tr.
  Proof.
    unfold Rand.handed, events, served. induction tr as [|[t l] tr IH]; [reflexivity|]. cbn [flat_map]. rewrite !flat_map_app, map_app, IH. destruct l; reflexivity.
  Qed.
  Lemma draws_events t tr : Rand.draws_of t (events tr) = got t tr.
  Proof.
    unfold Rand.draws_of, Rand.handed, events, got. induction tr as [|[t' l] tr IH]; [reflexivity|]. cbn [flat_map]. rewrite !flat_map_app, filter_app, map_app, IH.
    f_equal. destruct l; cbn; try reflexivity. destruct (Nat.eqb t' t); reflexivity.
  Qed.
End Inv.
