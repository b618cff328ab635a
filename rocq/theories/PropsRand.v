(** Property C12: the shared random source under concurrency. *)
From Coq Require Import List Ascii NArith Arith Bool Lia Sorted.
From Verif Require Import Base Ast Parser SpecGrammar ParseFacts Rand PropsParse.
Import ListNotations.

Section C12.
  Context {St : Type} (out : St -> N) (next : St -> St).
  Notation run := (run St out next).
  Notation init := (init St).
  Notation value := (value St out next).
  Notation iterate := (iterate St next).

  (** At every point of every interleaving the values handed out so far are, in the order in which
      the lock was taken, the first values of the generator: none twice, none skipped. *)
  Theorem C12_draws_in_lock_order : forall s0 tr c, run (init s0) tr c ->
    map snd (handed tr) = map (value s0) (seq 0 (length (handed tr))) /\
    acquired tr = map fst (handed tr) ++ match c_lock St c with Some t => [t] | None => [] end.
  Proof. intros s0 tr c H. destruct (run_invariant St out next s0 tr c H) as (_ & H1 & H2). split; assumption. Qed.

  (** No update of the generator is lost: when nobody is inside, its state is the initial one
      advanced once per value handed out. *)
  Theorem C12_none_lost : forall s0 tr c, run (init s0) tr c -> c_lock St c = None ->
    c_src St c = iterate (length (handed tr)) s0.
  Proof.
    intros s0 tr c H Hl. destruct (run_invariant St out next s0 tr c H) as (H1 & _). unfold holder_ok in H1.
    rewrite Hl in H1. apply H1.
  Qed.

  (** Mutual exclusion. *)
  Definition inside (p : pc St) : Prop := match p with Outside _ | Waiting _ => False | _ => True end.
  Theorem C12_mutual_exclusion : forall s0 tr c t1 t2, run (init s0) tr c ->
    inside (c_pc St c t1) -> inside (c_pc St c t2) -> t1 = t2.
  Proof.
    intros s0 tr c t1 t2 H H1 H2. destruct (run_invariant St out next s0 tr c H) as (I & _). unfold holder_ok in I.
    destruct (c_lock St c) as [h|].
    - destruct I as [I _]. destruct (Nat.eq_dec t1 h) as [->|N1].
      + destruct (Nat.eq_dec t2 h) as [->|N2]; [reflexivity|]. destruct (I t2 N2) as [E|E]; rewrite E in H2; contradiction.
      + destruct (I t1 N1) as [E|E]; rewrite E in H1; contradiction.
    - destruct I as [_ I]. destruct (I t1) as [E|E]; rewrite E in H1; contradiction.
  Qed.

  (** No deadlock: while some goroutine is in randInt63, some goroutine can take a step in it. *)
  Theorem C12_progress : forall s0 tr c t, run (init s0) tr c -> c_pc St c t <> Outside St ->
    exists e c', step St out next c e c' /\ match e with ECall _ => False | _ => True end.
  Proof.
    intros s0 tr c t H Ht. destruct (run_invariant St out next s0 tr c H) as (I & _). unfold holder_ok in I.
    destruct c as [l s f]. cbn in *. destruct l as [h|].
    - destruct I as [_ I]. destruct (f h) as [| | |s'|v] eqn:E; try contradiction.
      + exists (ERead h). eexists. split; [apply st_read; exact E|exact Logic.I].
      + exists (EWrite h). eexists. split; [eapply st_write; exact E|exact Logic.I].
      + exists (EReturn h v). eexists. split; [apply st_return; exact E|exact Logic.I].
    - destruct I as [_ I]. destruct (I t) as [E|E]; [congruence|].
      exists (ELock t). eexists. split; [apply st_lock; exact E|exact Logic.I].
  Qed.

  (** What one goroutine sees is a subsequence of the values of the generator: those of its own
      turns; different goroutines have different turns. *)
  Lemma draws_turns s0 (h : list (nat * N)) t : forall k,
    map snd h = map (value s0) (seq k (length h)) ->
    map snd (filter (fun x => Nat.eqb (fst x) t) h) =
    map (value s0) (map fst (filter (fun x : nat * nat => Nat.eqb (snd x) t) (combine (seq k (length h)) (map fst h)))).
  Proof.
    induction h as [|[t' v] h IH]; intros k E; [reflexivity|]. cbn [map length seq] in E. injection E as Ev E.
    cbn [length seq map combine filter fst snd]. destruct (Nat.eqb t' t); cbn [map fst snd]; rewrite (IH (S k) E), ?Ev; reflexivity.
  Qed.
  Theorem C12_goroutine_view : forall s0 tr c t, run (init s0) tr c ->
    draws_of t tr = map (value s0) (turns_of t (map fst (handed tr))).
  Proof.
    intros s0 tr c t H. destruct (C12_draws_in_lock_order s0 tr c H) as [E _].
    unfold draws_of, turns_of. rewrite map_length. apply draws_turns. exact E.
  Qed.
End C12.

Lemma turns_spec t l i : In i (turns_of t l) <-> nth_error l i = Some t.
Proof.
  unfold turns_of. rewrite in_map_iff.
  assert (G : forall l k i, (exists x : nat * nat, fst x = i /\ In x (filter (fun x => Nat.eqb (snd x) t) (combine (seq k (length l)) l))) <->
    k <= i /\ nth_error l (i - k) = Some t).
  { clear. induction l as [|a l IH]; intros k i; cbn [length seq combine filter].
    - split; [intros (x & _ & [])|]. intros [_ H]. destruct (i - k); discriminate.
    - cbn [snd]. split.
      + intros (x & E & H).
        assert (Hx : x = (k, a) /\ a = t \/ In x (filter (fun x => Nat.eqb (snd x) t) (combine (seq (S k) (length l)) l))).
        { destruct (Nat.eqb a t) eqn:Ea; [|auto]. destruct H as [<-|H]; [|auto]. apply Nat.eqb_eq in Ea. auto. }
        destruct Hx as [[-> ->]|Hx].
        * cbn in E. subst i. rewrite Nat.sub_diag. auto.
        * destruct (proj1 (IH (S k) i)) as [H1 H2]; [eauto|]. split; [lia|].
          replace (i - k) with (S (i - S k)) by lia. exact H2.
      + intros [Hk Hn]. destruct (Nat.eq_dec i k) as [->|N].
        * rewrite Nat.sub_diag in Hn. cbn in Hn. injection Hn as ->. exists (k, t). rewrite Nat.eqb_refl. split; [reflexivity|left; reflexivity].
        * destruct (proj2 (IH (S k) i)) as (x & E & Hx).
          { split; [lia|]. replace (i - k) with (S (i - S k)) in Hn by lia. exact Hn. }
          exists x. split; [exact E|]. destruct (Nat.eqb a t); [right|]; exact Hx. }
  rewrite (G l 0 i). rewrite Nat.sub_0_r. split; [intros [_ H]; exact H|intros H; split; [lia|exact H]].
Qed.
Theorem C12_turns_disjoint : forall t1 t2 l i, In i (turns_of t1 l) -> In i (turns_of t2 l) -> t1 = t2.
Proof. intros t1 t2 l i H1 H2. apply turns_spec in H1. apply turns_spec in H2. congruence. Qed.
Theorem C12_turns_increasing : forall t l, StronglySorted lt (turns_of t l).
Proof.
  intros t l. unfold turns_of. generalize 0 as k. induction l as [|a l IH]; intros k; cbn [length seq combine filter]; [constructor|].
  cbn [snd]. destruct (Nat.eqb a t); [|apply IH]. cbn [map fst]. constructor; [apply IH|].
  apply Forall_forall. intros x Hx. apply in_map_iff in Hx. destruct Hx as ([i b] & <- & Hx). apply filter_In in Hx.
  destruct Hx as [Hx _]. apply in_combine_l in Hx. apply in_seq in Hx. cbn. lia.
Qed.
Theorem C12_turns_all : forall l i, i < length l -> exists t, In i (turns_of t l).
Proof.
  intros l i H. destruct (nth_error l i) as [t|] eqn:E; [exists t; apply turns_spec; exact E|]. apply nth_error_None in E. lia.
Qed.
Print Assumptions C12_draws_in_lock_order.
Print Assumptions C12_none_lost.
Print Assumptions C12_mutual_exclusion.
Print Assumptions C12_turns_disjoint.
Print Assumptions C12_turns_increasing.
Print Assumptions C12_turns_all.
Print Assumptions C12_progress.
Print Assumptions C12_goroutine_view.

(** ** What this means for concurrent parses: Parse uses the source only through the values it
    draws, so a parse running among others is the sequential parse on the values of its turns. *)
Section Shift.
  Variables (rnd rnd' : nat -> N).
  Lemma agree_split k k1 k2 d : k <= k1 -> k1 <= k2 -> (forall i, i < k2 - k -> rnd (k + i) = rnd' (d + i)) ->
    (forall i, i < k1 - k -> rnd (k + i) = rnd' (d + i)) /\ (forall i, i < k2 - k1 -> rnd (k1 + i) = rnd' ((d + (k1 - k)) + i)).
  Proof.
    intros H1 H2 H. split; intros i Hi; [apply H; lia|]. replace (k1 + i) with (k + ((k1 - k) + i)) by lia.
    rewrite H by lia. f_equal. lia.
  Qed.
  Lemma shift_all :
    (forall w s k k', d_stmt rnd w s k k' -> k <= k' /\ forall d, (forall i, i < k' - k -> rnd (k + i) = rnd' (d + i)) -> d_stmt rnd' w s d (d + (k' - k))) /\
    (forall w l k k', d_loc rnd w l k k' -> k <= k' /\ forall d, (forall i, i < k' - k -> rnd (k + i) = rnd' (d + i)) -> d_loc rnd' w l d (d + (k' - k))) /\
    (forall w r k k', d_rhs rnd w r k k' -> k <= k' /\ forall d, (forall i, i < k' - k -> rnd (k + i) = rnd' (d + i)) -> d_rhs rnd' w r d (d + (k' - k))) /\
    (forall w g k k', d_sub rnd w g k k' -> k <= k' /\ forall d, (forall i, i < k' - k -> rnd (k + i) = rnd' (d + i)) -> d_sub rnd' w g d (d + (k' - k))) /\
    (forall w l k k', d_body rnd w l k k' -> k <= k' /\ forall d, (forall i, i < k' - k -> rnd (k + i) = rnd' (d + i)) -> d_body rnd' w l d (d + (k' - k))) /\
    (forall w l k k', d_stmts rnd w l k k' -> k <= k' /\ forall d, (forall i, i < k' - k -> rnd (k + i) = rnd' (d + i)) -> d_stmts rnd' w l d (d + (k' - k))).
  Proof.
    apply d_mut.
    - intros. split; [lia|]. intros d _. rewrite Nat.sub_diag, Nat.add_0_r. constructor.
    - intros. split; [lia|]. intros d _. rewrite Nat.sub_diag, Nat.add_0_r. constructor; assumption.
    - intros w l w1 r wa a k k1 k2 _ [L1 IH1] _ [L2 IH2] Ha. split; [lia|]. intros d Hd.
      destruct (agree_split k k1 k2 d L1 L2 Hd) as [A1 A2]. eapply ds_edge; [apply IH1; exact A1| |exact Ha].
      replace (d + (k2 - k)) with (d + (k1 - k) + (k2 - k1)) by lia. apply IH2. exact A2.
    - intros. split; [lia|]. intros d _. rewrite Nat.sub_diag, Nat.add_0_r. constructor; assumption.
    - intros. split; [lia|]. intros d _. rewrite Nat.sub_diag, Nat.add_0_r. constructor; assumption.
    - intros. split; [lia|]. intros d _. rewrite Nat.sub_diag, Nat.add_0_r. constructor; assumption.
    - intros w g k k1 _ [L IH]. split; [exact L|]. intros d Hd. constructor. apply IH. exact Hd.
    - intros. split; [lia|]. intros d _. rewrite Nat.sub_diag, Nat.add_0_r. constructor; assumption.
    - intros w g k k1 _ [L IH]. split; [exact L|]. intros d Hd. constructor. apply IH. exact Hd.
    - intros o b w l k k1 Ho _ [L IH]. split; [exact L|]. intros d Hd. constructor; [exact Ho|]. apply IH. exact Hd.
    - intros o b w l w' r k k1 k2 Ho _ [L1 IH1] _ [L2 IH2]. split; [lia|]. intros d Hd.
      destruct (agree_split k k1 k2 d L1 L2 Hd) as [A1 A2]. eapply dr_more; [exact Ho|apply IH1; exact A1|].
      replace (d + (k2 - k)) with (d + (k1 - k) + (k2 - k1)) by lia. apply IH2. exact A2.
    - intros a w l b k k1 _ [L IH]. split; [lia|]. intros d Hd.
      replace (d + (S k1 - k)) with (S (d + (k1 - k))) by lia.
      replace (rnd k1) with (rnd' (d + (k1 - k))) by (rewrite <- Hd by lia; f_equal; lia).
      constructor. apply IH. intros i Hi. apply Hd. lia.
    - intros s w l k k1 _ [L IH]. split; [lia|]. intros d Hd.
      replace (d + (S k1 - k)) with (S (d + (k1 - k))) by lia.
      replace (rnd k1) with (rnd' (d + (k1 - k))) by (rewrite <- Hd by lia; f_equal; lia).
      constructor. apply IH. intros i Hi. apply Hd. lia.
    - intros s i w l k k1 _ [L IH]. split; [exact L|]. intros d Hd. constructor. apply IH. exact Hd.
    - intros. split; [lia|]. intros d _. rewrite Nat.sub_diag, Nat.add_0_r. constructor.
    - intros a w l b k k1 _ [L IH]. split; [exact L|]. intros d Hd. constructor. apply IH. exact Hd.
    - intros w s c k k1 _ [L IH] Hc. split; [exact L|]. intros d Hd. constructor; [|exact Hc]. apply IH. exact Hd.
    - intros w s c w' l k k1 k2 _ [L1 IH1] Hc _ [L2 IH2]. split; [lia|]. intros d Hd.
      destruct (agree_split k k1 k2 d L1 L2 Hd) as [A1 A2]. eapply dss_more; [apply IH1; exact A1|exact Hc|].
      replace (d + (k2 - k)) with (d + (k1 - k) + (k2 - k1)) by lia. apply IH2. exact A2.
  Qed.
  Lemma shift_graph w g k k' : d_graph rnd w g k k' ->
    k <= k' /\ forall d, (forall i, i < k' - k -> rnd (k + i) = rnd' (d + i)) -> d_graph rnd' w g d (d + (k' - k)).
  Proof.
    destruct 1 as [ws st t ty wi i wb l k k1 H1 H2 H3 H4].
    destruct (proj1 (proj2 (proj2 (proj2 (proj2 shift_all)))) _ _ _ _ H4) as [L IH]. split; [exact L|].
    intros d Hd. constructor; auto.
  Qed.
End Shift.

Theorem C12_parse_uses_only_its_draws : forall rnd rnd' k d src g k',
  parse_bytes rnd k src = Ok (g, k') ->
  (forall i, i < k' - k -> rnd (k + i) = rnd' (d + i)) ->
  parse_bytes rnd' d src = Ok (g, d + (k' - k)).
Proof.
  intros rnd rnd' k d src g k' H Ha. apply parse_ok_iff in H. destruct H as (w & Hs & Hd).
  apply parse_ok_iff. exists w. split; [exact Hs|]. apply (shift_graph rnd rnd' w g k k' Hd). exact Ha.
Qed.
Print Assumptions C12_parse_uses_only_its_draws.

(** Two goroutines, one after the other inside the lock while the second one waits. *)
Example C12_example : exists tr c,
  run N (fun s => s) N.succ (init N 5%N) tr c /\ handed tr = [(1, 5%N); (0, 6%N)] /\ turns_of 0 (map fst (handed tr)) = [1].
Proof.
  pose (o := fun s : N => s). pose proof (run_nil N o N.succ (Conf N None 5%N (fun _ => Outside N))) as R0.
  pose proof (run_snoc N o N.succ _ _ _ _ _ R0 (st_call N o N.succ 1 _ _ _ eq_refl)) as R1.
  pose proof (run_snoc N o N.succ _ _ _ _ _ R1 (st_lock N o N.succ 1 _ _ eq_refl)) as R2.
  pose proof (run_snoc N o N.succ _ _ _ _ _ R2 (st_read N o N.succ 1 _ _ _ eq_refl)) as R3.
  pose proof (run_snoc N o N.succ _ _ _ _ _ R3 (st_call N o N.succ 0 _ _ _ eq_refl)) as R4.
  pose proof (run_snoc N o N.succ _ _ _ _ _ R4 (st_write N o N.succ 1 _ _ _ _ eq_refl)) as R5.
  pose proof (run_snoc N o N.succ _ _ _ _ _ R5 (st_return N o N.succ 1 _ _ _ _ eq_refl)) as R6.
  pose proof (run_snoc N o N.succ _ _ _ _ _ R6 (st_lock N o N.succ 0 _ _ eq_refl)) as R7.
  pose proof (run_snoc N o N.succ _ _ _ _ _ R7 (st_read N o N.succ 0 _ _ _ eq_refl)) as R8.
  pose proof (run_snoc N o N.succ _ _ _ _ _ R8 (st_write N o N.succ 0 _ _ _ _ eq_refl)) as R9.
  pose proof (run_snoc N o N.succ _ _ _ _ _ R9 (st_return N o N.succ 0 _ _ _ _ eq_refl)) as R10.
  eexists. eexists. split; [exact R10|]. split; reflexivity.
Qed.
