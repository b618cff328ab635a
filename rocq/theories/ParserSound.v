(** LR driver: stack invariant, absence of panics, termination, soundness. *)
From Coq Require Import List Ascii NArith ZArith Bool Lia Arith.
From Verif Require Import Base LexTables ParseTables Ast Lexer Parser ParserDefs.
Import ListNotations.

(** ** Dynamic types of the attributes of each grammar symbol *)
Definition vtype (X : sym) (v : value) : Prop :=
  match X with
  | Tm t => exists tok, v = VTok tok
  | Nt 0 | Nt 1 => exists g, v = VGraph g
  | Nt 2 => exists l, v = VStmtList l
  | Nt 3 | Nt 4 => exists s, as_stmt v = Some s
  | Nt 5 => exists a, v = VGraphAttrs a \/ v = VNodeAttrs a \/ v = VEdgeAttrs a
  | Nt 6 => exists a, v = VAttrList a
  | Nt 7 => exists a, v = VAList a
  | Nt 8 => exists a, v = VAttr a
  | Nt 9 => exists s e a, v = VEdgeStmt s e a
  | Nt 10 => exists e, v = VEdgeRHS e
  | Nt 11 => exists n a, v = VNodeStmt n a
  | Nt 12 => exists n, v = VNodeID n
  | Nt 13 => exists p, v = VPort p
  | Nt 14 => exists g, v = VSub g
  | Nt 15 => exists b, v = VOp b
  | Nt 16 => exists i, v = VID i
  | Nt _ => False
  end.

Ltac each_prod H := apply nth_error_In in H; repeat (destruct H as [<-|H]); [..|destruct H].
Ltac inv_f2 :=
  repeat match goal with
         | H : Forall2 _ (_ :: _) _ |- _ => inversion H; subst; clear H
         | H : Forall2 _ [] _ |- _ => inversion H; subst; clear H
         end.
Ltac destr_ex :=
  repeat match goal with
         | H : exists _, _ |- _ => destruct H
         | H : _ \/ _ |- _ => destruct H
         | H : _ /\ _ |- _ => destruct H
         end.

Lemma run_sem_typed rnd p pr vs k :
  nth_error prod_tab p = Some pr -> Forall2 vtype (p_rhs pr) vs ->
  exists v k', run_sem rnd (p_sem pr) vs k = Some (v, k') /\ vtype (Nt (p_nt pr)) v.
Proof.
  intros Hp Hv. each_prod Hp; cbn [p_rhs p_sem p_nt] in *; inv_f2; cbn [vtype] in *; destr_ex; subst;
  repeat match goal with H : as_stmt ?v = Some _ |- _ => is_var v; destruct v; try discriminate H end;
  cbn;
  repeat match goal with |- context [match ?i with [] => _ | _ :: _ => _ end] => is_var i; destruct i end;
  cbn; do 2 eexists; (split; [reflexivity|]); cbn; eauto 6.
Qed.

Lemma der_typed rnd :
  (forall X w v k k', der rnd X w v k k' -> vtype X v) /\
  (forall Xs w vs k k', ders rnd Xs w vs k k' -> Forall2 vtype Xs vs).
Proof.
  apply der_ders_ind.
  - intros tok k. cbn. eauto.
  - intros p pr w vs k k1 v k2 Hp _ IH Hr.
    destruct (run_sem_typed rnd p pr vs k1 Hp IH) as (v' & k' & E & T).
    rewrite Hr in E; injection E as <- <-; exact T.
  - constructor.
  - intros; constructor; assumption.
Qed.

Lemma ders_app rnd Xs w vs k k1 Ys w' vs' k2 :
  ders rnd Xs w vs k k1 -> ders rnd Ys w' vs' k1 k2 ->
  ders rnd (Xs ++ Ys) (w ++ w') (vs ++ vs') k k2.
Proof.
  intros H; revert w' vs' k2.
  induction H as [k|X Xs w v k k1 w1 vs k3 Hd Hs IH]; intros w' vs' k2 H'; [exact H'|].
  cbn. rewrite <- app_assoc. econstructor; eauto.
Qed.

(** ** The automaton *)
Definition edge (s : nat) (X : sym) (s' : nat) : Prop :=
  match X with
  | Tm t => action_at s t = Some (Shift s')
  | Nt n => goto_at s n = Z.of_nat s'
  end.

Definition row_edges (s : nat) : list (sym * nat) :=
  flat_map (fun t => match action_at s t with Some (Shift n) => [(Tm t, n)] | _ => [] end) (seq 0 36)
  ++ flat_map (fun n => if Z.ltb (goto_at s n) 0 then [] else [(Nt n, Z.to_nat (goto_at s n))]) (seq 0 17).
Definition all_edges : list (nat * sym * nat) :=
  Eval vm_compute in
  flat_map (fun s => map (fun e => (s, fst e, snd e)) (row_edges s)) (seq 0 128).

Lemma all_edges_eq : all_edges =
  flat_map (fun s => map (fun e : sym * nat => (s, fst e, snd e)) (row_edges s)) (seq 0 128).
Proof. vm_compute. reflexivity. Qed.

Lemma assoc_nat_in {A} k (l : list (nat * A)) a : assoc_nat k l = Some a -> In (k, a) l.
Proof.
  induction l as [|[k' a'] l IH]; cbn; [discriminate|].
  destruct (Nat.eqb_spec k k') as [->|]; [intros [= ->]; auto|auto].
Qed.

Lemma action_at_bounds s t a : action_at s t = Some a -> s < 128 /\ t < 36.
Proof.
  unfold action_at. destruct (nth_error action_tab s) as [row|] eqn:E; [|discriminate].
  intros H. apply assoc_nat_in in H.
  assert (L : s < length action_tab) by (apply nth_error_Some; congruence).
  assert (B : forallb (forallb (fun p : nat * action => Nat.ltb (fst p) 36)) action_tab = true)
    by (vm_compute; reflexivity).
  rewrite forallb_forall in B. specialize (B row (nth_error_In _ _ E)).
  rewrite forallb_forall in B. specialize (B _ H). apply Nat.ltb_lt in B.
  split; [exact L|exact B].
Qed.

Lemma goto_at_bounds s n : (0 <= goto_at s n)%Z -> s < 128 /\ n < 17.
Proof.
  unfold goto_at. intros H.
  assert (Ls : s < length goto_tab).
  { destruct (Nat.lt_ge_cases s (length goto_tab)) as [L|L]; [exact L|].
    rewrite (nth_overflow goto_tab [] L) in H. destruct n; cbn in H; lia. }
  split; [exact Ls|].
  assert (B : forallb (fun r : list Z => Nat.eqb (length r) 17) goto_tab = true) by (vm_compute; reflexivity).
  rewrite forallb_forall in B. specialize (B _ (nth_In goto_tab [] Ls)). apply Nat.eqb_eq in B.
  destruct (Nat.lt_ge_cases n 17) as [L|L]; [exact L|].
  rewrite nth_overflow in H by (rewrite B; exact L). lia.
Qed.

Lemma edge_all s X s' : edge s X s' -> In (s, X, s') all_edges.
Proof.
  intros H. rewrite all_edges_eq.
  apply in_flat_map. destruct X as [t|n]; unfold edge in H.
  - destruct (action_at_bounds _ _ _ H) as [Ls Lt].
    exists s. split; [apply in_seq; lia|].
    apply in_map_iff. exists (Tm t, s'). split; [reflexivity|].
    apply in_or_app; left. apply in_flat_map. exists t. split; [apply in_seq; lia|].
    rewrite H. left; reflexivity.
  - assert (P : (0 <= goto_at s n)%Z) by lia.
    destruct (goto_at_bounds _ _ P) as [Ls Lt].
    exists s. split; [apply in_seq; lia|].
    apply in_map_iff. exists (Nt n, s'). split; [reflexivity|].
    apply in_or_app; right. apply in_flat_map. exists n. split; [apply in_seq; lia|].
    destruct (Z.ltb_spec (goto_at s n) 0) as [?|_]; [lia|].
    left. rewrite H, Nat2Z.id. reflexivity.
Qed.

(** Predecessors of a set of states, which must all be entered by symbol [X] only. *)
Definition memb (x : nat) (l : list nat) : bool := existsb (Nat.eqb x) l.
Lemma memb_in x l : memb x l = true <-> In x l.
Proof.
  unfold memb. rewrite existsb_exists. split.
  - intros (y & Hy & E). apply Nat.eqb_eq in E. subst. exact Hy.
  - intros H. exists x. split; [exact H|apply Nat.eqb_refl].
Qed.

Lemma Some_inj' {A} (a b : A) : Some a = Some b -> a = b.
Proof. congruence. Qed.
Local Opaque all_edges.

Definition back1 (S : list nat) (X : sym) : option (list nat) :=
  if memb 0 S then None
  else
    let es := filter (fun e : nat * sym * nat => memb (snd e) S) all_edges in
    if forallb (fun e : nat * sym * nat => sym_beq (snd (fst e)) X) es
    then Some (nodup Nat.eq_dec (map (fun e : nat * sym * nat => fst (fst e)) es))
    else None.

Fixpoint backn (S : list nat) (Xs : list sym) : option (list nat) :=
  match Xs with
  | [] => Some S
  | X :: Xs' => match back1 S X with Some S' => backn S' Xs' | None => None end
  end.

(** ** Stack invariant *)
Section Stk.
  Variable rnd : nat -> N.
  Variable k0 : nat.
  (** [stk st Xs w k]: the stack was built by consuming the tokens [w]; its symbols from the top
      are [Xs]. *)
  Inductive stk : stack -> list sym -> list token -> nat -> Prop :=
  | stk_nil : stk [(0, VNil)] [] [] k0
  | stk_push s v0 st Xs w k X s' u v k' :
      stk ((s, v0) :: st) Xs w k -> edge s X s' -> der rnd X u v k k' ->
      stk ((s', v) :: (s, v0) :: st) (X :: Xs) (w ++ u) k'.

  Lemma stk_back1 S X S' s v st Xs w k :
    stk ((s, v) :: st) Xs w k -> In s S -> back1 S X = Some S' ->
    exists s0 v0 st0 Xs0 w0 k1 u,
      st = (s0, v0) :: st0 /\ Xs = X :: Xs0 /\ w = w0 ++ u /\
      stk ((s0, v0) :: st0) Xs0 w0 k1 /\ der rnd X u v k1 k /\ In s0 S'.
  Proof.
    intros H Hs Hb. unfold back1 in Hb.
    destruct (memb 0 S) eqn:H0; [discriminate|].
    destruct (forallb _ _) eqn:Hf in Hb; [|discriminate]. apply Some_inj' in Hb. subst S'.
    inversion H as [|s0 v0 st0 Xs0 w0 k1 X' s' u v' k' H1 H2 H3]; subst.
    - apply memb_in in Hs. congruence.
    - assert (Hin : In (s0, X', s) (filter (fun e : nat * sym * nat => memb (snd e) S) all_edges)).
      { apply filter_In. split; [apply edge_all; exact H2|apply memb_in; exact Hs]. }
      rewrite forallb_forall in Hf. specialize (Hf _ Hin). cbn in Hf.
      apply internal_sym_dec_bl in Hf. subst X'.
      exists s0, v0, st0, Xs0, w0, k1, u. repeat split; auto.
      apply nodup_In. apply in_map_iff. exists (s0, X, s). split; [reflexivity|exact Hin].
  Qed.

  Lemma stk_backn Ys : forall S S' s v st Xs w k,
    stk ((s, v) :: st) Xs w k -> In s S -> backn S Ys = Some S' ->
    exists s0 v0 st0 Xs0 w0 k1 u vs pre,
      (s, v) :: st = pre ++ (s0, v0) :: st0 /\ length pre = length Ys /\
      map snd pre = rev vs /\
      Xs = Ys ++ Xs0 /\ w = w0 ++ u /\
      stk ((s0, v0) :: st0) Xs0 w0 k1 /\ ders rnd (rev Ys) u vs k1 k /\ In s0 S'.
  Proof.
    induction Ys as [|Y Ys IH]; intros S S' s v st Xs w k H Hs Hb; cbn in Hb.
    - injection Hb as <-. exists s, v, st, Xs, w, k, [], [], [].
      repeat split; auto. + symmetry; apply app_nil_r. + constructor.
    - destruct (back1 S Y) as [S1|] eqn:E; [|discriminate].
      destruct (stk_back1 _ _ _ _ _ _ _ _ _ H Hs E)
        as (s1 & v1 & st1 & Xs1 & w1 & k1 & u1 & -> & -> & -> & Hk & Hd & Hin).
      destruct (IH _ _ _ _ _ _ _ _ Hk Hin Hb)
        as (s0 & v0 & st0 & Xs0 & w0 & k2 & u & vs & pre & E1 & E2 & E3 & -> & -> & Hk0 & Hds & Hin0).
      exists s0, v0, st0, Xs0, w0, k2, (u ++ u1), (vs ++ [v]), ((s, v) :: pre).
      repeat split; auto.
      + cbn. rewrite E1. reflexivity.
      + cbn. rewrite E2. reflexivity.
      + cbn. rewrite E3, rev_app_distr. reflexivity.
      + apply app_assoc_reverse.
      + cbn. eapply ders_app; [exact Hds|].
        rewrite <- (app_nil_r u1). econstructor; [exact Hd|constructor].
  Qed.
End Stk.

(** ** Checks on the tables *)
Definition check_reduce (s p : nat) : bool :=
  match nth_error prod_tab p with
  | None => false
  | Some pr =>
      Nat.eqb (p_num pr) (length (p_rhs pr)) &&
      match backn [s] (rev (p_rhs pr)) with
      | None => false
      | Some SS => forallb (fun s0 => Z.leb 0 (goto_at s0 (p_nt pr)) && Z.ltb (goto_at s0 (p_nt pr)) 128) SS
      end
  end.

Definition check_action (s t : nat) : bool :=
  match action_at s t with
  | None => true
  | Some Accept =>
      Nat.eqb t EOF &&
      match backn [s] [Nt 1] with Some [0] => true | _ => false end
  | Some (Shift n) => Nat.ltb n num_states && negb (Nat.eqb t EOF) && negb (Nat.eqb t INVALID)
  | Some (Reduce p) => check_reduce s p
  end.

Definition check_tables : bool :=
  forallb (fun s => forallb (check_action s) (seq 0 36)) (seq 0 128).

Lemma check_tables_ok : check_tables = true.
Proof. vm_compute. reflexivity. Qed.

Lemma action_checked s t a : action_at s t = Some a -> check_action s t = true.
Proof.
  intros H. destruct (action_at_bounds _ _ _ H) as [Ls Lt].
  pose proof check_tables_ok as C. unfold check_tables in C.
  rewrite forallb_forall in C. specialize (C s). rewrite forallb_forall in C.
  apply C; apply in_seq; lia.
Qed.

(** No state has an action on INVALID (0): this is also the type TokMap.Type("error") yields, so
    error recovery never succeeds (parser.go:121). *)
Lemma no_recovery s : action_at s INVALID = None.
Proof.
  destruct (action_at s INVALID) as [a|] eqn:E; [|reflexivity].
  destruct (action_at_bounds _ _ _ E) as [Ls _].
  assert (C : forallb (fun s => match action_at s INVALID with None => true | _ => false end) (seq 0 128) = true)
    by (vm_compute; reflexivity).
  rewrite forallb_forall in C. specialize (C s). rewrite E in C.
  discriminate C. apply in_seq; lia.
Qed.

(** ** Termination measure *)
Definition wt (X : sym) : nat :=
  match X with
  | Tm _ => 10
  | Nt n => nth n [0; 1; 4; 5; 6; 7; 7; 7; 8; 7; 8; 7; 8; 7; 7; 9; 9] 0
  end.
Definition wts (Xs : list sym) : nat := list_sum (map wt Xs).

Lemma wts_app a b : wts (a ++ b) = wts a + wts b.
Proof. unfold wts. rewrite map_app. apply list_sum_app. Qed.
Lemma wts_rev a : wts (rev a) = wts a.
Proof. induction a as [|x a IH]; [reflexivity|]. cbn [rev]. rewrite wts_app, IH.
  change (wts (x :: a)) with (wt x + wts a). change (wts [x]) with (wt x + 0). lia. Qed.

Lemma prod_decreases p pr : nth_error prod_tab p = Some pr -> wt (Nt (p_nt pr)) < wts (p_rhs pr).
Proof.
  intros H. apply nth_error_In in H.
  assert (C : forallb (fun pr => Nat.ltb (wt (Nt (p_nt pr))) (wts (p_rhs pr))) prod_tab = true)
    by (vm_compute; reflexivity).
  rewrite forallb_forall in C. apply Nat.ltb_lt. apply C. exact H.
Qed.

(** ** One step preserves the invariant, never panics, and decreases the measure *)
Definition final_list (ts : list token) : Prop :=
  exists ts0 t, ts = ts0 ++ [t] /\ is_final t = true /\ forallb (fun t => negb (is_final t)) ts0 = true.

Definition Inv (rnd : nat -> N) (k0 : nat) (all : list token) (c : cfg) (m : nat) : Prop :=
  let '(st, toks, k) := c in
  exists Xs w s v st',
    st = (s, v) :: st' /\ s < 128 /\ stk rnd k0 st Xs w k /\ all = w ++ toks /\ final_list toks /\
    m = wts Xs + 11 * length toks.

Lemma final_list_cons t ts : final_list (t :: ts) -> is_final t = false -> final_list ts.
Proof.
  intros (ts0 & t1 & E & F & G) H. destruct ts0 as [|t0 ts0]; cbn in E; injection E as -> ->.
  - congruence.
  - cbn in G. apply andb_true_iff in G. exists ts0, t1; tauto.
Qed.

Lemma final_list_eof t ts : final_list (t :: ts) -> is_final t = true -> ts = [].
Proof.
  intros (ts0 & t1 & E & F & G) H. destruct ts0 as [|t0 ts0]; cbn in E; injection E as -> ->.
  - reflexivity.
  - cbn in G. rewrite H in G. discriminate.
Qed.

Lemma goto_bound128 s n : (goto_at s n < 128)%Z.
Proof.
  unfold goto_at.
  destruct (Nat.lt_ge_cases s (length goto_tab)) as [Ls|Ls].
  - assert (B : forallb (fun r : list Z => forallb (fun z => Z.ltb z 128) r) goto_tab = true)
      by (vm_compute; reflexivity).
    rewrite forallb_forall in B. specialize (B _ (nth_In goto_tab [] Ls)).
    rewrite forallb_forall in B.
    destruct (Nat.lt_ge_cases n (length (nth s goto_tab []))) as [L|L].
    + apply Z.ltb_lt. apply B. apply nth_In. exact L.
    + rewrite nth_overflow by exact L. lia.
  - rewrite (nth_overflow goto_tab [] Ls). destruct n; cbn; lia.
Qed.


Lemma edge_bound s X s' : edge s X s' -> s' < 128.
Proof.
  intros H. apply edge_all in H.
  assert (C : forallb (fun e : nat * sym * nat => Nat.ltb (snd e) 128) all_edges = true)
    by (vm_compute; reflexivity).
  rewrite forallb_forall in C. specialize (C _ H). apply Nat.ltb_lt in C. exact C.
Qed.

Lemma edge_not0 s X : ~ edge s X 0.
Proof.
  intros H. apply edge_all in H.
  assert (C : forallb (fun e : nat * sym * nat => negb (Nat.eqb (snd e) 0)) all_edges = true)
    by (vm_compute; reflexivity).
  rewrite forallb_forall in C. specialize (C _ H). discriminate C.
Qed.

Lemma stk_ders rnd k0 st Xs w k : stk rnd k0 st Xs w k -> exists vs, ders rnd (rev Xs) w vs k0 k.
Proof.
  induction 1 as [|s v0 st Xs w k X s' u v k' H [vs IH] He Hd].
  - exists []. constructor.
  - exists (vs ++ [v]). cbn. eapply ders_app; [exact IH|].
    rewrite <- (app_nil_r u). econstructor; [exact Hd|constructor].
Qed.

Lemma pstep_inv rnd k0 all c m :
  Inv rnd k0 all c m ->
  match pstep rnd c with
  | Next c' => exists m', Inv rnd k0 all c' m' /\ m' < m
  | Stop (Ok (v, k)) =>
      exists w t, all = w ++ [t] /\ tk_type t = EOF /\ der rnd (Nt 1) w v k0 k
  | Stop (Err e) =>
      exists Xs w s v st' k t ts, all = w ++ t :: ts /\ stk rnd k0 ((s, v) :: st') Xs w k /\
         action_at s (tk_type t) = None /\ e = ParseError t (expected_tokens s) s
  | Stop Panic => False
  | Stop OutOfFuel => False
  end.
Proof.
  destruct c as [[st toks] k].
  intros (Xs & w & s & v & st' & -> & Hs & Hk & Hall & Hfin & ->).
  destruct toks as [|tok toks].
  { destruct Hfin as (ts0 & tlast & Etoks & _). destruct ts0; discriminate. }
  unfold pstep. unfold num_states.
  replace (Nat.ltb s 128) with true by (symmetry; apply Nat.ltb_lt; exact Hs). cbn [negb].
  destruct (action_at s (tk_type tok)) as [a|] eqn:Ea.
  2: { exists Xs, w, s, v, st', k, tok, toks. auto. }
  pose proof (action_checked _ _ _ Ea) as Hc. unfold check_action in Hc. rewrite Ea in Hc.
  destruct a as [|n|p].
  - (* accept *)
    apply andb_true_iff in Hc. destruct Hc as [Ht Hb]. apply Nat.eqb_eq in Ht.
    destruct (backn [s] [Nt 1]) as [[|s00 [|? ?]]|] eqn:Eb; try discriminate.
    2: { destruct s00; discriminate. }
    destruct s00; [|discriminate].
    destruct (stk_backn rnd k0 [Nt 1] [s] [0] s v st' Xs w k Hk (or_introl eq_refl) Eb)
      as (s0 & v0 & st0 & Xs0 & w0 & k1 & u & vs & pre & E1 & E2 & E3 & E4 & E5 & Hk0 & Hds & Hin).
    assert (Hs0 : s0 = 0) by (destruct Hin as [<-|[]]; reflexivity). subst s0.
    assert (Hbase : w0 = [] /\ k1 = k0).
    { inversion Hk0 as [|s1 v1 st1 Xs1 w1 k2 X1 s1' u1 v1' k1' Hx He Hdx]; subst; [auto|].
      exfalso. exact (edge_not0 _ _ He). }
    destruct Hbase as [-> ->].
    destruct pre as [|[ps pv] [|? ?]]; cbn in E2; try discriminate.
    cbn in E1. injection E1 as <- <- ->. cbn in E3.
    assert (Evs : vs = [v]). { rewrite <- (rev_involutive vs), <- E3. reflexivity. }
    subst vs. cbn in Hds.
    inversion Hds as [|X Ys wx vx kx k1x wx' vsx k2x Hd1 Hd2]; subst.
    inversion Hd2; subst.
    assert (Hfe : is_final tok = true) by (unfold is_final; rewrite Ht; reflexivity).
    rewrite (final_list_eof _ _ Hfin Hfe).
    exists wx, tok. rewrite app_nil_r. auto.
  - (* shift *)
    apply andb_true_iff in Hc. destruct Hc as [Hc Hni]. apply andb_true_iff in Hc. destruct Hc as [Hn Hne].
    apply Nat.ltb_lt in Hn. unfold num_states in Hn.
    assert (Hnf : is_final tok = false).
    { unfold is_final. apply negb_true_iff in Hne, Hni. rewrite Hne, Hni. reflexivity. }
    eexists. split.
    + exists (Tm (tk_type tok) :: Xs), (w ++ [tok]), n, (VTok tok), ((s, v) :: st').
      repeat split; [exact Hn| | |eapply final_list_cons; eauto].
      * eapply stk_push; [exact Hk|exact Ea|constructor].
      * rewrite Hall, <- app_assoc. reflexivity.
    + change (wts (Tm (tk_type tok) :: Xs)) with (10 + wts Xs). cbn [length]. lia.
  - (* reduce *)
    unfold check_reduce in Hc.
    destruct (nth_error prod_tab p) as [pr|] eqn:Ep; [|discriminate].
    apply andb_true_iff in Hc. destruct Hc as [Hnum Hb]. apply Nat.eqb_eq in Hnum.
    destruct (backn [s] (rev (p_rhs pr))) as [S'|] eqn:Eb; [|discriminate].
    destruct (stk_backn rnd k0 (rev (p_rhs pr)) [s] S' s v st' Xs w k Hk (or_introl eq_refl) Eb)
      as (s0 & v0 & st0 & Xs0 & w0 & k1 & u & vs & pre & E1 & E2 & E3 & E4 & E5 & Hk0 & Hds & Hin).
    rewrite rev_involutive in Hds. rewrite rev_length in E2.
    rewrite forallb_forall in Hb. specialize (Hb _ Hin).
    apply andb_true_iff in Hb. destruct Hb as [Hg0 Hg1]. apply Z.leb_le in Hg0. apply Z.ltb_lt in Hg1.
    rewrite E1, Hnum, <- E2.
    assert (EL : Nat.ltb (length (pre ++ (s0, v0) :: st0)) (length pre) = false).
    { apply Nat.ltb_ge. rewrite app_length. lia. }
    rewrite EL.
    assert (Ef : firstn (length pre) (pre ++ (s0, v0) :: st0) = pre).
    { rewrite firstn_app, firstn_all, Nat.sub_diag. cbn. apply app_nil_r. }
    assert (Es : skipn (length pre) (pre ++ (s0, v0) :: st0) = (s0, v0) :: st0).
    { rewrite skipn_app, skipn_all, Nat.sub_diag. reflexivity. }
    rewrite Ef, E3, rev_involutive.
    destruct (run_sem_typed rnd p pr vs k Ep) as (v' & k' & Er & _).
    { eapply (proj2 (der_typed rnd)). exact Hds. }
    rewrite Er, Es. cbv zeta.
    replace (Z.ltb (goto_at s0 (p_nt pr)) 0) with false by (symmetry; apply Z.ltb_ge; exact Hg0).
    eexists. split.
    + exists (Nt (p_nt pr) :: Xs0), (w0 ++ u), (Z.to_nat (goto_at s0 (p_nt pr))), v', ((s0, v0) :: st0).
      split; [reflexivity|]. split; [lia|]. split; [|split; [rewrite Hall, E5; reflexivity|split; [exact Hfin|reflexivity]]].
      eapply stk_push; [exact Hk0| |].
      * unfold edge. lia.
      * eapply der_nt; eauto.
    + pose proof (prod_decreases _ _ Ep) as Hd. rewrite E4, wts_app, wts_rev.
      change (wts (Nt (p_nt pr) :: Xs0)) with (wt (Nt (p_nt pr)) + wts Xs0). lia.
Qed.

Lemma iter_inv rnd k0 all : forall m fuel c,
  Inv rnd k0 all c m -> m < fuel ->
  match iter fuel rnd c with
  | Ok (v, k) => exists w t, all = w ++ [t] /\ tk_type t = EOF /\ der rnd (Nt 1) w v k0 k
  | Err e =>
      exists Xs w s v st' k t ts, all = w ++ t :: ts /\ stk rnd k0 ((s, v) :: st') Xs w k /\
         action_at s (tk_type t) = None /\ e = ParseError t (expected_tokens s) s
  | Panic => False
  | OutOfFuel => False
  end.
Proof.
  intros m. induction m as [m IH] using lt_wf_ind. intros fuel c Hi Hm.
  destruct fuel as [|fuel]; [lia|]. cbn [iter].
  pose proof (pstep_inv _ _ _ _ _ Hi) as Hp.
  destruct (pstep rnd c) as [c'|r].
  - destruct Hp as (m' & Hi' & Hlt). apply (IH m' Hlt). exact Hi'. lia.
  - destruct r as [[v k]|e| |]; auto.
Qed.

Lemma iter_mono rnd : forall fuel fuel' c, fuel <= fuel' -> iter fuel rnd c <> OutOfFuel ->
  iter fuel' rnd c = iter fuel rnd c.
Proof.
  induction fuel as [|f IH]; intros f' c Hle Hne; [contradiction Hne; reflexivity|].
  destruct f' as [|f']; [lia|]. cbn [iter] in *.
  destruct (pstep rnd c); [|reflexivity]. apply IH; [lia|exact Hne].
Qed.

(** The initial configuration. *)
Lemma Inv_init rnd k0 toks : final_list toks ->
  Inv rnd k0 toks ([(0, VNil)], toks, k0) (11 * length toks).
Proof.
  intros H. exists [], [], 0, VNil, []. repeat split; [lia|constructor|exact H].
Qed.

(** ** From the token list to the lexer *)
Lemma stream_final_list t lx ts : stream t lx ts -> final_list ts.
Proof.
  induction 1 as [t lx H|t lx t' lx' ts H Hs _ IH].
  - exists [], t. auto.
  - destruct IH as (ts0 & tl & -> & Hl & Hf). exists (t :: ts0), tl.
    cbn. rewrite H, Hf. auto.
Qed.

Lemma stream_head t lx ts : stream t lx ts -> exists ts', ts = t :: ts'.
Proof. inversion 1; subst; eauto. Qed.

Lemma parse_loop_iter rnd : forall fuel st t lx k ts,
  stream t lx ts -> iter fuel rnd (st, ts, k) <> OutOfFuel ->
  parse_loop fuel rnd st t lx k = iter fuel rnd (st, ts, k).
Proof.
  induction fuel as [|f IH]; intros st t lx k ts Hst Hne; [contradiction Hne; reflexivity|].
  destruct (stream_head _ _ _ Hst) as [ts' ->].
  cbn [parse_loop iter] in *. unfold pstep in *.
  destruct st as [|[s v] st]; [reflexivity|].
  destruct (negb (Nat.ltb s num_states)); [reflexivity|].
  destruct (action_at s (tk_type t)) as [a|] eqn:Ea; [|reflexivity].
  destruct a as [|n|p]; [reflexivity| |].
  - inversion Hst as [? ? Hf|? ? t' lx' ? Hf Hsc Hst']; subst.
    + exfalso. pose proof (action_checked _ _ _ Ea) as Hc. unfold check_action in Hc. rewrite Ea in Hc.
      apply andb_true_iff in Hc. destruct Hc as [Hc Hni]. apply andb_true_iff in Hc. destruct Hc as [_ Hne'].
      apply negb_true_iff in Hne', Hni. unfold is_final in Hf. rewrite Hne', Hni in Hf. discriminate.
    + rewrite Hsc. apply IH; assumption.
  - destruct (nth_error prod_tab p) as [pr|]; [|reflexivity].
    destruct (Nat.ltb _ _); [reflexivity|].
    destruct (run_sem _ _ _ _) as [[v' k']|]; [|reflexivity].
    destruct (skipn _ _) as [|[s' v''] st']; [reflexivity|].
    cbv zeta in *. destruct (Z.ltb _ _); [reflexivity|].
    apply IH; assumption.
Qed.
