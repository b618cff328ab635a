(** LR driver: syntax errors are reported at the first impossible token, with exactly the
    possible tokens as expected tokens. *)
From Coq Require Import List Ascii NArith ZArith Bool Lia Arith.
From Verif Require Import Base LexTables ParseTables Ast Lexer Parser ParserDefs LRCert ParserSound ParserComplete ParserViable.
Import ListNotations.
Local Opaque prod_tab action_tab goto_tab items_cert first_cert all_edges.

Definition top_state (st : stack) : nat := match st with (s, _) :: _ => s | [] => 0 end.

Section Err.
  Variable rnd : nat -> N.
  Variable k0 : nat.

  (** The driver consumes exactly [w] to reach stack [st1], whatever follows. *)
  Definition PR (w : list token) (st1 : stack) (k1 : nat) : Prop :=
    forall rest, runs rnd ([(0, VNil)], w ++ rest, k0) (st1, rest, k1).

  Definition Reach (all : list token) (c : cfg) : Prop :=
    let '(st, toks, k) := c in
    exists w st1 k1 Xs1, all = w ++ toks /\ PR w st1 k1 /\ stk rnd k0 st1 Xs1 w k1 /\
      ((st = st1 /\ k = k1) \/
       exists t ts, toks = t :: ts /\ action_at (top_state st1) (tk_type t) <> None /\
         forall t' ts', tk_type t' = tk_type t -> runs rnd (st1, t' :: ts', k1) (st, t' :: ts', k)).

  Lemma runs_snoc a b c : runs rnd a b -> pstep rnd b = Next c -> runs rnd a c.
  Proof. intros H1 H2. eapply runs_trans; [exact H1|]. eapply runs_step; [exact H2|constructor]. Qed.

  Lemma reach_step all c c' m m' : Inv rnd k0 all c m -> Reach all c -> pstep rnd c = Next c' ->
    Inv rnd k0 all c' m' -> Reach all c'.
  Proof.
    destruct c as [[st toks] k]. intros HI (w & st1 & k1 & Xs1 & Hall & HPR & Hstk & Hcase) Hstep HI'.
    destruct HI as (XsI & wI & s & v & st' & -> & Hs & _ & _ & _ & _).
    unfold pstep in Hstep. destruct toks as [|t toks]; [discriminate|].
    destruct (negb (Nat.ltb s num_states)) eqn:Eb; [discriminate|].
    destruct (action_at s (tk_type t)) as [[|n|p]|] eqn:Ea; try discriminate.
    - (* shift *)
      injection Hstep as <-. destruct HI' as (Xs' & w' & s' & v' & st'' & Est & _ & Hk' & Hall' & _ & _).
      exists (w ++ [t]), ((n, VTok t) :: (s, v) :: st'), k, Xs'.
      assert (Ew : w' = w ++ [t]).
      { rewrite Hall in Hall'. change (t :: toks) with ([t] ++ toks) in Hall'.
        rewrite app_assoc in Hall'. apply app_inv_tail in Hall'. symmetry. exact Hall'. }
      subst w'.
      split; [rewrite <- app_assoc; exact Hall|]. split; [|split; [exact Hk'|left; auto]].
      intros rest. rewrite <- app_assoc. cbn [app].
      eapply runs_trans; [apply HPR|].
      assert (Hst : runs rnd (st1, t :: rest, k1) ((s, v) :: st', t :: rest, k)).
      { destruct Hcase as [[E1 E2]|(t0 & ts0 & Et & _ & Hr)].
        - subst. constructor.
        - injection Et as <- <-. apply Hr. reflexivity. }
      eapply runs_snoc; [exact Hst|]. unfold pstep. rewrite Eb, Ea. reflexivity.
    - (* reduce *)
      assert (Hgen : forall t' ts', tk_type t' = tk_type t -> exists st2 k2,
          c' = (st2, t :: toks, k2) /\
          pstep rnd ((s, v) :: st', t' :: ts', k) = Next (st2, t' :: ts', k2)).
      { intros t' ts' Et. unfold pstep. rewrite Eb, Et, Ea. revert Hstep.
        destruct (nth_error prod_tab p) as [pr|]; [|discriminate].
        match goal with |- context [if ?b then Stop Panic else _] => destruct b end; [discriminate|].
        destruct (run_sem _ _ _ _) as [[v2 k2]|]; [|discriminate].
        destruct (skipn _ _) as [|[s2 v3] st2]; [discriminate|].
        cbv zeta. destruct (Z.ltb _ _); [discriminate|].
        intros Hstep. injection Hstep as <-. do 2 eexists. split; reflexivity. }
      destruct (Hgen t toks eq_refl) as (st2 & k2 & -> & _).
      exists w, st1, k1, Xs1. split; [exact Hall|]. split; [exact HPR|]. split; [exact Hstk|].
      right. exists t, toks. split; [reflexivity|].
      split.
      + destruct Hcase as [[E1 E2]|(t0 & ts0 & Et & Hact & _)].
        * subst st1. cbn [top_state]. congruence.
        * injection Et as <- <-. exact Hact.
      + intros t' ts' Et'. destruct (Hgen t' ts' Et') as (st3 & k3 & E3 & Hp).
        injection E3 as <- <-.
        eapply runs_snoc; [|exact Hp].
        destruct Hcase as [[E1 E2]|(t0 & ts0 & Et & _ & Hr)].
        * subst. constructor.
        * injection Et as <- <-. apply Hr. exact Et'.
  Qed.

  (** Tokens with given types. *)
  Definition mk (t : nat) : token := Token t [] 0 0 0.
  Lemma map_mk z : map tk_type (map mk z) = z.
  Proof. induction z; cbn; congruence. Qed.

  Lemma fullsent_iter toks : fullsent (map tk_type toks) ->
    exists f v k, iter f rnd ([(0, VNil)], toks, k0) = Ok (v, k).
  Proof.
    intros (y & E & Hd). apply map_eq_app in E. destruct E as (w & e & -> & E1 & E2).
    destruct e as [|t [|? ?]]; try discriminate. cbn in E2. injection E2 as Et.
    destruct (proj1 (tder_der rnd) _ _ Hd w k0 E1) as (v & k & Hder).
    destruct (complete_iter _ _ _ _ _ _ Hder Et) as (f & Ef). eauto.
  Qed.

  Lemma runs_stop c c' r f x : runs rnd c c' -> pstep rnd c' = Stop (Err r) -> iter f rnd c = Ok x -> False.
  Proof.
    intros Hr Hp Hok. destruct (runs_iter _ _ _ Hr 1) as (f' & Ef). cbn [iter] in Ef. rewrite Hp in Ef.
    destruct (Nat.le_ge_cases f f') as [L|L].
    - rewrite (iter_mono rnd f f' c L) in Ef; [congruence|rewrite Hok; discriminate].
    - rewrite (iter_mono rnd f' f c L) in Hok; [congruence|rewrite Ef; discriminate].
  Qed.

  Lemma pstep_err s v st t ts k : s < 128 -> action_at s (tk_type t) = None ->
    exists e, pstep rnd ((s, v) :: st, t :: ts, k) = Stop (Err e).
  Proof. intros Hs Ha. unfold pstep. rewrite (ltb_128 _ Hs), Ha. eauto. Qed.

  Definition err_spec (all : list token) (e : parse_error) : Prop :=
    exists w ts, all = w ++ pe_token e :: ts /\
      (exists z, fullsent (map tk_type w ++ z)) /\
      (~ exists z, fullsent (map tk_type w ++ tk_type (pe_token e) :: z)) /\
      (forall t, In t (pe_expected e) <-> exists z, fullsent (map tk_type w ++ t :: z)).

  Lemma err_step all c m e : Inv rnd k0 all c m -> Reach all c -> pstep rnd c = Stop (Err e) -> err_spec all e.
  Proof.
    destruct c as [[st toks] k]. intros HI (w & st1 & k1 & Xs1 & Hall & HPR & Hstk & Hcase) Hstep.
    destruct HI as (XsI & wI & s & v & st' & -> & Hs & HstkI & HallI & Hfin & _).
    destruct toks as [|t toks]. { destruct Hfin as (ts0 & t0 & E & _). destruct ts0; discriminate. }
    assert (Ha : action_at s (tk_type t) = None /\ e = ParseError t (expected_tokens s) s).
    { unfold pstep in Hstep. rewrite (ltb_128 _ Hs) in Hstep.
      destruct (action_at s (tk_type t)) as [[|n|p]|] eqn:Ea; try discriminate.
      - destruct (nth_error prod_tab p) as [pr|]; [|discriminate].
        destruct (Nat.ltb _ _); [discriminate|].
        destruct (run_sem _ _ _ _) as [[v2 k2]|]; [|discriminate].
        destruct (skipn _ _) as [|[s2 v3] st2]; [discriminate|].
        cbv zeta in *. destruct (Z.ltb _ _); discriminate.
      - split; [reflexivity|]. congruence. }
    destruct Ha as [Ha ->].
    assert (Ew : wI = w). { rewrite Hall in HallI. apply app_inv_tail in HallI. symmetry. exact HallI. }
    subst wI.
    destruct Hcase as [[E1 E2]|(t0 & ts0 & Et & Hact & Hr)].
    - (* the error occurs right after a shift *)
      subst st1 k1. exists w, toks. cbn [pe_token pe_expected]. split; [exact Hall|].
      pose proof (stk_tstk _ _ _ _ _ _ Hstk) as Ht. cbn [map fst] in Ht.
      split; [eapply stack_viable; [exact Ht|reflexivity]|].
      assert (Hkey : forall t', (exists z, fullsent (map tk_type w ++ t' :: z)) -> action_at s t' <> None).
      { intros t' (z & Hz) Hn.
        destruct (fullsent_iter (w ++ mk t' :: map mk z)) as (f & v1 & k1 & Hok).
        { rewrite map_app. cbn [map mk tk_type]. rewrite map_mk. exact Hz. }
        destruct (pstep_err s v st' (mk t') (map mk z) k Hs) as (e & He); [exact Hn|].
        eapply runs_stop; [apply HPR|exact He|exact Hok]. }
      split; [intros Hz; apply (Hkey _ Hz); exact Ha|].
      intros t'. unfold expected_tokens. rewrite filter_In. split.
      + intros [_ Hx]. eapply action_viable; [exact Ht|reflexivity|].
        destruct (action_at s t'); [discriminate|discriminate].
      + intros Hz. apply Hkey in Hz. destruct (action_at s t') as [a|] eqn:Ea'; [|contradiction Hz; reflexivity].
        destruct (action_at_bounds _ _ _ Ea') as [_ L]. split; [apply in_seq; lia|reflexivity].
    - (* an error after reductions on the erroneous token is impossible *)
      exfalso. injection Et as <- <-.
      destruct st1 as [|[s1 v1] st1]; [inversion Hstk|]. cbn [top_state] in Hact.
      pose proof (stk_tstk _ _ _ _ _ _ Hstk) as Ht. cbn [map fst] in Ht.
      destruct (action_viable _ _ _ _ _ (tk_type t) Ht eq_refl Hact) as (z & Hz).
      destruct (fullsent_iter (w ++ t :: map mk z)) as (f & v2 & k2 & Hok).
      { rewrite map_app. cbn [map]. rewrite map_mk. exact Hz. }
      destruct (pstep_err s v st' t (map mk z) k Hs Ha) as (e & He).
      eapply runs_stop; [|exact He|exact Hok].
      eapply runs_trans; [apply HPR|]. apply Hr. reflexivity.
  Qed.

  Lemma iter_err all e : forall fuel c m, Inv rnd k0 all c m -> Reach all c -> iter fuel rnd c = Err e -> err_spec all e.
  Proof.
    induction fuel as [|f IH]; intros c m HI HR Hit; [discriminate|].
    cbn [iter] in Hit. pose proof (pstep_inv _ _ _ _ _ HI) as Hp.
    destruct (pstep rnd c) as [c'|r] eqn:Es.
    - destruct Hp as (m' & HI' & _). eapply IH; [exact HI'| |exact Hit]. exact (reach_step _ _ _ _ _ HI HR Es HI').
    - subst r. eapply err_step; eauto.
  Qed.

  Theorem iter_err_init toks e fuel : final_list toks ->
    iter fuel rnd ([(0, VNil)], toks, k0) = Err e -> err_spec toks e.
  Proof.
    intros Hf Hit. eapply iter_err; [apply Inv_init; exact Hf| |exact Hit].
    exists [], [(0, VNil)], k0, []. split; [reflexivity|]. split; [intros rest; constructor|].
    split; [constructor|left; auto].
  Qed.
End Err.
