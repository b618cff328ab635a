(** Property C57: concurrent calls of Parse. *)
From Coq Require Import List Ascii NArith ZArith Bool Arith Lia Sorted.
From Verif Require Import Base Ast Lexer Parser Conc ConcProofs.
From Verif Require Rand PropsRand PropsParse.
Import ListNotations.

Section C57.
  Context {St : Type} (out : St -> N) (next : St -> St).
  Notation wrun := (wrun St out next). Notation wstep := (wstep St out next).
  Notation launch := (launch St). Notation w_phase := (w_phase St). Notation Done := (Done St).

  (** The result of a Parse among others is the one that Parse gives alone when the source yields the values it drew;
      it has used all of them. *)
  Theorem C57_result : forall s0 srcs tr w t src r, wrun (launch s0 srcs) tr w ->
    nth_error srcs t = Some src -> w_phase w t = Done r ->
    parse_bytes (fun i => nth i (got t tr) 0%N) 0 src =
    match r with Ok g => Ok (g, length (got t tr)) | Err e => Err e | Panic => Panic | OutOfFuel => OutOfFuel end.
  Proof.
    intros s0 srcs tr w t src r R E P. pose proof (run_known St out next s0 srcs tr w R t) as H. rewrite E, P in H. cbn in H. destruct H as [H _].
    exact (H _ (agrees_fill (got t tr))).
  Qed.
  (** It is a graph or a syntax error. *)
  Theorem C57_no_panic : forall s0 srcs tr w t src r, wrun (launch s0 srcs) tr w ->
    nth_error srcs t = Some src -> w_phase w t = Done r -> (exists g, r = Ok g) \/ exists e, r = Err e.
  Proof.
    intros s0 srcs tr w t src r R E P. pose proof (C57_result _ _ _ _ _ _ _ R E P) as H.
    pose proof (PropsParse.C01_parse_total (fun i => nth i (got t tr) 0%N) 0 src) as T. rewrite H in T.
    destruct r as [g|e| |]; eauto; destruct T as [(? & ? & T)|(? & T)]; discriminate.
  Qed.
  (** The values drawn are those of the source, each once and in the order of the draws: goroutine [t] got the values
      whose numbers are its places in the order of service. *)
  Theorem C57_draws : forall s0 srcs tr w t, wrun (launch s0 srcs) tr w ->
    got t tr = map (Rand.value St out next s0) (Rand.turns_of t (served tr)).
  Proof.
    intros s0 srcs tr w t R. destruct (run_rand St out next s0 srcs tr w R) as (f & R' & _).
    pose proof (PropsRand.C12_goroutine_view out next s0 _ _ t R') as H. rewrite draws_events, handed_events in H. exact H.
  Qed.
  (** As long as a Parse has not returned, somebody can go on. *)
  Theorem C57_no_deadlock : forall s0 srcs tr w t, wrun (launch s0 srcs) tr w ->
    (forall r, w_phase w t <> Done r) -> exists e w', wstep w e w'.
  Proof.
    intros s0 srcs tr w t R N. destruct (run_rand St out next s0 srcs tr w R) as (f & R' & Hf).
    destruct (Rand.run_invariant St out next s0 _ _ R') as (I & _). unfold Rand.holder_ok in I. cbn [Rand.c_lock Rand.c_src Rand.c_pc] in I.
    destruct w as [l s ph]. cbn [Conc.w_lock Conc.w_src Conc.w_phase] in *.
    assert (L : forall t c, ph t = Loop St c -> exists e w', wstep (World St l s ph) e w').
    { intros t0 c E. destruct (draws c) eqn:D; eexists _, _; [eapply ws_call; eassumption|eapply ws_round; eassumption]. }
    assert (H : forall h, l = Some h -> exists e w', wstep (World St l s ph) e w').
    { intros h ->. destruct I as [_ I]. rewrite Hf in I. destruct (ph h) eqn:E; cbn in I; try contradiction; eexists _, _.
      - eapply ws_read; eassumption.
      - eapply ws_write; eassumption.
      - eapply ws_return; eassumption. }
    destruct (ph t) eqn:E.
    - eexists _, _. eapply ws_start; eassumption.
    - eapply L; eassumption.
    - destruct l as [h|]; [eapply H; reflexivity|]. eexists _, _. eapply ws_lock; eassumption.
    - eexists _, _. eapply ws_read; eassumption.
    - eexists _, _. eapply ws_write; eassumption.
    - eexists _, _. eapply ws_return; eassumption.
    - eexists _, _. eapply ws_go_on; eassumption.
    - destruct (N r eq_refl).
  Qed.
  (** Every schedule comes to an end: the number of steps is linear in the size of the texts. *)
  Definition work (srcs : list gostr) : nat := list_sum (map (fun src => 1 + 6 * (32 * (length src + 2))) srcs).
  Lemma count_split (tr : list (nat * label)) n : (forall e, In e tr -> fst e < n) -> length tr = list_sum (map (fun t => mine t tr) (seq 0 n)).
  Proof.
    induction tr as [|[t l] tr IH]; intros H.
    - assert (Z : forall m k, list_sum (map (fun t => mine t []) (seq k m)) = 0) by (induction m as [|m IHm]; intros k; [reflexivity|exact (IHm (S k))]).
      rewrite Z. reflexivity.
    - cbn [length]. rewrite IH by (intros e He; apply H; right; exact He).
      assert (Ht : t < n) by (apply (H (t, l)); left; reflexivity).
      transitivity (list_sum (map (fun x => (if Nat.eqb t x then 1 else 0) + mine x tr) (seq 0 n))).
      + assert (G : forall k m, list_sum (map (fun x => (if Nat.eqb t x then 1 else 0) + mine x tr) (seq k m)) =
          (if (k <=? t) && (t <? k + m) then 1 else 0) + list_sum (map (fun x => mine x tr) (seq k m))).
        { intros k m. revert k. induction m as [|m IHm]; intros k.
          - cbn [seq map list_sum fold_right]. destruct (Nat.leb_spec k t); destruct (Nat.ltb_spec t (k + 0)); cbn [andb]; lia.
          - cbn [seq map list_sum fold_right]. change (fold_right Init.Nat.add 0) with list_sum. rewrite IHm.
            destruct (Nat.eqb_spec t k); destruct (Nat.leb_spec (S k) t); destruct (Nat.ltb_spec t (S k + m)); destruct (Nat.leb_spec k t); destruct (Nat.ltb_spec t (k + S m)); cbn [andb]; lia. }
        rewrite G. destruct (Nat.leb_spec 0 t); destruct (Nat.ltb_spec t (0 + n)); cbn [andb]; lia.
      + f_equal. apply map_ext. intros x. unfold mine. cbn [filter fst]. destruct (Nat.eqb t x); reflexivity.
  Qed.
  Theorem C57_terminates : forall s0 srcs tr w, wrun (launch s0 srcs) tr w -> length tr <= work srcs.
  Proof.
    intros s0 srcs tr w R. pose proof (run_known St out next s0 srcs tr w R) as K.
    assert (F : forall e, In e tr -> fst e < length srcs).
    { intros [t l] He. cbn. destruct (lt_dec t (length srcs)) as [L|L]; [exact L|exfalso]. specialize (K t).
      rewrite (proj2 (nth_error_None srcs t)) in K by lia. destruct K as [_ K]. unfold mine in K. apply length_zero_iff_nil in K.
      assert (X : In (t, l) (filter (fun e => Nat.eqb (fst e) t) tr)) by (apply filter_In; split; [exact He|apply Nat.eqb_refl]). rewrite K in X. destruct X. }
    rewrite (count_split tr (length srcs) F). unfold work. clear F.
    assert (G : forall l k, (forall i, nth_error l i = nth_error srcs (k + i)) ->
      list_sum (map (fun t => mine t tr) (seq k (length l))) <= list_sum (map (fun src => 1 + 6 * (32 * (length src + 2))) l)).
    { induction l as [|src l IH]; intros k Hl; [cbn; lia|]. cbn [length seq map list_sum fold_right]. change (fold_right Init.Nat.add 0) with list_sum.
      pose proof (Hl 0) as H0. rewrite Nat.add_0_r in H0. cbn in H0. specialize (K k) as Kk. rewrite <- H0 in Kk.
      assert (mine k tr <= 1 + 6 * (32 * (length src + 2))).
      { destruct (w_phase w k) as [x|c|c|c|c x|c x|c x|r] eqn:P; cbn [known] in Kk.
        - lia.
        - destruct Kk as (m & A & B). apply at_loop_more in A. unfold bound in A. lia.
        - destruct Kk as (m & A & B & _). apply at_loop_more in A. unfold bound in A. lia.
        - destruct Kk as (m & A & B & _). apply at_loop_more in A. unfold bound in A. lia.
        - destruct Kk as (m & A & B & _). apply at_loop_more in A. unfold bound in A. lia.
        - destruct Kk as (m & A & B & _). apply at_loop_more in A. unfold bound in A. lia.
        - destruct Kk as (m & D & _ & A & B & _). apply at_loop_more in A. unfold bound in A. lia.
        - destruct Kk as [_ B]. unfold bound in B. lia. }
      specialize (IH (S k)). assert (Hs : forall i, nth_error l i = nth_error srcs (S k + i)).
      { intros i. specialize (Hl (S i)). cbn [nth_error] in Hl. rewrite Hl. f_equal. lia. }
      specialize (IH Hs). lia. }
    apply (G srcs 0). reflexivity.
  Qed.
  (** So every schedule can be completed, and then every Parse has returned. *)
  Theorem C57_completes : forall s0 srcs tr w, wrun (launch s0 srcs) tr w ->
    exists tr' w', wrun (launch s0 srcs) (tr ++ tr') w' /\ forall t, exists r, w_phase w' t = Done r.
  Proof.
    intros s0 srcs tr w R. remember (work srcs - length tr) as n eqn:En. revert tr w R En.
    assert (Dn : forall w t, (exists r, w_phase w t = Done r) \/ forall r, w_phase w t <> Done r).
    { intros w t. destruct (w_phase w t); try (right; discriminate). left. eauto. }
    induction n as [|n IH]; intros tr w R En.
    - exists [], w. rewrite app_nil_r. split; [exact R|]. intros t. destruct (Dn w t) as [H|H]; [exact H|exfalso].
      destruct (C57_no_deadlock s0 srcs tr w t R H) as (e & w' & S). pose proof (C57_terminates s0 srcs _ _ (wrun_snoc _ _ _ _ _ _ _ _ R S)) as L.
      rewrite app_length in L. cbn in L. lia.
    - (* some step, if one is possible *)
      destruct (le_lt_dec (length srcs) 0) as [Z|_].
      + exists [], w. rewrite app_nil_r. split; [exact R|]. intros t. pose proof (run_known St out next s0 srcs tr w R t) as K.
        rewrite (proj2 (nth_error_None srcs t)) in K by lia. destruct K as [K _]. eauto.
      + assert (A : (forall t, t < length srcs -> exists r, w_phase w t = Done r) \/ exists t, forall r, w_phase w t <> Done r).
        { clear - Dn. induction (length srcs) as [|m IHm]; [left; lia|]. destruct (Dn w m) as [H|H]; [|eauto]. destruct IHm as [IHm|IHm]; [|eauto].
          left. intros t Ht. destruct (Nat.eq_dec t m) as [->|]; [exact H|apply IHm; lia]. }
        destruct A as [A|[t A]].
        * exists [], w. rewrite app_nil_r. split; [exact R|]. intros t. destruct (lt_dec t (length srcs)) as [L|L]; [apply A, L|].
          pose proof (run_known St out next s0 srcs tr w R t) as K. rewrite (proj2 (nth_error_None srcs t)) in K by lia. destruct K as [K _]. eauto.
        * destruct (C57_no_deadlock s0 srcs tr w t R A) as (e & w1 & S). pose proof (wrun_snoc _ _ _ _ _ _ _ _ R S) as R1.
          destruct (IH (tr ++ [e]) w1 R1) as (tr' & w' & R2 & H); [rewrite app_length; cbn; lia|].
          exists (e :: tr'), w'. rewrite <- app_assoc in R2. split; [exact R2|exact H].
  Qed.
End C57.
Print Assumptions C57_result.
Print Assumptions C57_no_panic.
Print Assumptions C57_draws.
Print Assumptions C57_no_deadlock.
Print Assumptions C57_terminates.
Print Assumptions C57_completes.

(** ** Example: two goroutines parse a text with an unnamed subgraph; their steps alternate. *)
Definition exec1 {St} (out : St -> N) (next : St -> St) (w : world St) (t : nat) : option (label * world St) :=
  let '(World _ l s f) := w in
  match f t with
  | Start _ src => Some (LLocal, World St l s (set_phase St f t (start St src)))
  | Loop _ c => if draws c then Some (LCall, World St l s (set_phase St f t (Waiting St c)))
                else Some (LLocal, World St l s (set_phase St f t (after St (round (fun _ => 0%N) c 0))))
  | Waiting _ c => match l with None => Some (LLock, World St (Some t) s (set_phase St f t (Locked St c))) | Some _ => None end
  | Locked _ c => Some (LRead, World St l s (set_phase St f t (Reading St c s)))
  | Reading _ c s' => Some (LWrite, World St l (next s') (set_phase St f t (Written St c (out s'))))
  | Written _ c v => Some (LReturn v, World St None s (set_phase St f t (Got St c v)))
  | Got _ c v => Some (LLocal, World St l s (set_phase St f t (after St (round (fun _ => v) c 0))))
  | Done _ _ => None
  end.
Lemma exec1_step {St} (out : St -> N) next w t l w' : exec1 out next w t = Some (l, w') -> wstep St out next w (t, l) w'.
Proof.
  destruct w as [lk s f]. unfold exec1. destruct (f t) eqn:E; intros H.
  - injection H as <- <-. apply ws_start. exact E.
  - destruct (draws c) eqn:D; injection H as <- <-; [eapply ws_call|eapply ws_round]; eassumption.
  - destruct lk; [discriminate|]. injection H as <- <-. apply ws_lock. exact E.
  - injection H as <- <-. apply ws_read. exact E.
  - injection H as <- <-. apply ws_write. exact E.
  - injection H as <- <-. eapply ws_return. exact E.
  - injection H as <- <-. apply ws_go_on. exact E.
  - discriminate.
Qed.
(** Goroutines that cannot take a step are passed over. *)
Fixpoint exec {St} (out : St -> N) (next : St -> St) (sched : list nat) (w : world St) : list (nat * label) * world St :=
  match sched with
  | [] => ([], w)
  | t :: sched' => match exec1 out next w t with
                   | Some (l, w1) => let '(tr, w2) := exec out next sched' w1 in ((t, l) :: tr, w2)
                   | None => exec out next sched' w
                   end
  end.
Lemma exec_run {St} (out : St -> N) next sched : forall w0 tr0 w, wrun St out next w0 tr0 w ->
  wrun St out next w0 (tr0 ++ fst (exec out next sched w)) (snd (exec out next sched w)).
Proof.
  induction sched as [|t sched IH]; intros w0 tr0 w R; cbn [exec].
  - cbn. rewrite app_nil_r. exact R.
  - destruct (exec1 out next w t) as [[l w1]|] eqn:E; [|apply IH, R]. apply exec1_step in E.
    pose proof (IH w0 (tr0 ++ [(t, l)]) w1 (wrun_snoc _ _ _ _ _ _ _ _ R E)) as H. destruct (exec out next sched w1) as [tr w2]. cbn [fst snd] in *.
    rewrite <- app_assoc in H. exact H.
Qed.
Definition two : list gostr := [lit "graph{{a}b}"; lit "graph{{c}}"].
Definition sched : list nat := flat_map (fun _ => [1; 0]) (seq 0 40).
Definition ended : list (nat * label) * world N := exec (fun s => s) N.succ sched (launch N 5%N two).
Definition sub_names (p : phase N) : list gostr :=
  match p with Done _ (Ok g) => flat_map (fun s => match s with SSub (SubGraph i _) => [i] | _ => [] end) (g_stmts g) | _ => [] end.
Example C57_example : wrun N (fun s => s) N.succ (launch N 5%N two) (fst ended) (snd ended) /\
  served (fst ended) = [1; 0] /\ got 0 (fst ended) = [6%N] /\ got 1 (fst ended) = [5%N] /\
  sub_names (w_phase N (snd ended) 0) = [lit "anon6"] /\ sub_names (w_phase N (snd ended) 1) = [lit "anon5"].
Proof.
  split; [exact (exec_run (fun s => s) N.succ sched _ [] _ (wrun_nil _ _ _ _))|]. vm_compute. repeat split.
Qed.
