(** Proofs about Source.v *)
From Coq Require Import List Ascii NArith ZArith Bool Lia Arith.
From Verif Require Import Base Ast LexTables ParseTables Lexer LexSpec LexDfa Parser ParserDefs ParserSound LexerProofs Tokens LexFacts ParseFacts
  PrefixProofs RecParser ErrText Conc ConcProofs Source.
Import ListNotations.
Local Opaque bisim_set spec_vec trans_tab act_tab bounds reps.

Lemma f2_mono {A B} (P Q : A -> B -> Prop) (l : list A) (l' : list B) : (forall a b, P a b -> Q a b) -> Forall2 P l l' -> Forall2 Q l l'.
Proof. intros H. induction 1; constructor; auto. Qed.

(** ** Tokens of a lexer that starts elsewhere *)
Definition moved (p p' : position) (ps : list piece) (t t' : stoken) : Prop :=
  fst t = fst t' /\ exists v w, ps = v ++ w /\ snd t = advance p v /\ snd t' = advance p' v.

Lemma moved_app p p' u ps t t' : moved (advance p u) (advance p' u) ps t t' -> moved p p' (u ++ ps) t t'.
Proof.
  intros (E & v & w & -> & E1 & E2). split; [exact E|]. exists (u ++ v), w. rewrite <- app_assoc, !advance_app. auto.
Qed.
Lemma moved_here p p' ps a : moved p p' ps (a, p) (a, p').
Proof. split; [reflexivity|]. exists [], ps. auto. Qed.

Lemma lexes_moved p ps ts : lexes p ps ts -> forall p', exists ts', lexes p' ps ts' /\ Forall2 (moved p p' ps) ts ts'.
Proof.
  induction 1 as [p|p ps u rest ts Hl H IH|p ps u rest ty ts Hl H IH|p u c rest H1 H2 H3|p u H1 H2 H3]; intros p'.
  - eexists. split; [constructor|]. repeat constructor. exists [], []. auto.
  - destruct (IH (advance p' u)) as (ts' & L & F). exists ts'. split; [eapply lex_skip; eauto|].
    rewrite (proj1 Hl). revert F. apply f2_mono. intros a b. apply moved_app.
  - destruct (IH (advance p' u)) as (ts' & L & F). eexists. split; [eapply lex_tok; eauto|].
    constructor; [apply moved_here|]. rewrite (proj1 Hl). revert F. apply f2_mono. intros a b. apply moved_app.
  - eexists. split; [apply lex_bad; eauto|]. constructor; [apply moved_here|constructor].
  - eexists. split; [apply lex_trunc; eauto|]. constructor; [apply moved_here|constructor].
Qed.

Definition tokens_from (src : gostr) (p : position) : list token := scan_all (S (length src)) (mk_lex src p).

(** The same token, found by a lexer that started at [p'] instead of the beginning. *)
Definition tsim (src : gostr) (p' : position) (t t' : token) : Prop :=
  tk_type t = tk_type t' /\ tk_lit t = tk_lit t' /\
  exists v w, pieces src = v ++ w /\ Pos (tk_off t) (tk_line t) (tk_col t) = advance start_pos v /\
              Pos (tk_off t') (tk_line t') (tk_col t') = advance p' v.

Lemma tokens_moved src p' : Forall2 (tsim src p') (tokens src) (tokens_from src p').
Proof.
  pose proof (tokens_lexes src) as H.
  destruct (lexes_moved _ _ _ H p') as (ts' & L & F).
  destruct (scan_all_spec (S (length src)) src p' ltac:(lia)) as (L' & _).
  pose proof (lexes_unique _ _ _ L (pieces_small src) _ L') as E. subst ts'. fold (tokens_from src p') in F.
  revert F. generalize (tokens_from src p'). generalize (tokens src). clear.
  induction l as [|t l IH]; intros l' F; destruct l' as [|t' l']; inversion F as [|? ? ? ? M F']; subst; constructor.
  - destruct M as (E & v & w & E1 & E2 & E3). cbn in *. injection E as Ea Eb. split; [exact Ea|]. split; [exact Eb|].
    exists v, w. auto.
  - apply IH. exact F'.
Qed.

(** ** The driver on similar tokens *)
Section Sim.
  Variable R : token -> token -> Prop.
  Hypothesis R_type : forall t t', R t t' -> tk_type t = tk_type t'.
  Hypothesis R_lit : forall t t', R t t' -> tk_lit t = tk_lit t'.

  Inductive vsim : value -> value -> Prop :=
  | vs_tok t t' : R t t' -> vsim (VTok t) (VTok t')
  | vs_same v : (forall t, v <> VTok t) -> vsim v v.


  Inductive osim : option value -> option value -> Prop :=
  | os_none : osim None None
  | os_tok t t' : R t t' -> osim (Some (VTok t)) (Some (VTok t'))
  | os_same v : (forall t, v <> VTok t) -> osim (Some v) (Some v).

  Lemma arg_sim X X' i : Forall2 vsim X X' -> osim (arg X i) (arg X' i).
  Proof.
    intros F. unfold arg. revert i. induction F as [|a b X X' H F IH]; intros i; destruct i as [|i]; cbn; try apply IH; try apply os_none.
    destruct H; [apply os_tok|apply os_same]; assumption.
  Qed.
  Lemma oarg_sim X X' i : Forall2 vsim X X' -> osim (oarg X i) (oarg X' i).
  Proof.
    intros F. destruct i as [i|]; [exact (arg_sim _ _ i F)|]. apply os_same. discriminate.
  Qed.

  Inductive rsim : option (value * nat) -> option (value * nat) -> Prop :=
  | rs_none : rsim None None
  | rs_some v v' k : vsim v v' -> rsim (Some (v, k)) (Some (v', k)).

  Lemma rsim_same r : (forall t k, r <> Some (VTok t, k)) -> rsim r r.
  Proof.
    intros H. destruct r as [[v k]|]; [|apply rs_none]. apply rs_some, vs_same. intros t ->. exact (H t k eq_refl).
  Qed.

  Lemma run_sem_sim rnd s X X' k : Forall2 vsim X X' -> rsim (run_sem rnd s X k) (run_sem rnd s X' k).
  Proof.
    intros F.
    assert (A : forall i, osim (arg X i) (arg X' i)) by (intros i; apply arg_sim; exact F).
    assert (B : forall i, osim (oarg X i) (oarg X' i)) by (intros i; apply oarg_sim; exact F).
    clear F.
    assert (Hsame : forall r r' : option (value * nat), r = r' -> (forall t k, r <> Some (VTok t, k)) -> rsim r r') by (intros r r' -> H; apply rsim_same; exact H).
    destruct s; cbn [run_sem];
      repeat match goal with
      | |- context [arg X ?i] => destruct (A i) as [|? ? ?|? ?]
      | |- context [oarg X ?i] => destruct (B i) as [|? ? ?|? ?]
      end; cbn [opt_bind pure]; try apply rs_none.
    all: try (apply rs_some; first [apply vs_tok; assumption|apply vs_same; assumption]).
    all: unfold new_graph, new_attr, new_attr_list, append_attr_list, new_subgraph, opt_attrs, as_id, as_tok, as_stmts, as_attr_list,
           as_alist, as_attr, as_stmt, as_loc, as_rhs, as_op, as_node_id, as_port; cbn [opt_bind pure tk_lit].
    all: repeat (match goal with
         | |- rsim None None => apply rs_none
         | |- rsim (Some (?v, _)) (Some (?v, _)) => apply rs_some, vs_same; intros ?; discriminate
         | |- context [match ?v with _ => _ end] => is_var v; destruct v
         | H : R ?t ?t' |- context [tk_lit ?t] => rewrite (R_lit _ _ H)
         end; cbn [opt_bind pure]).
  Qed.

  Definition cell (a b : nat * value) : Prop := fst a = fst b /\ vsim (snd a) (snd b).

  Inductive outsim : res parse_error (value * nat) -> res parse_error (value * nat) -> Prop :=
  | out_ok v v' k : vsim v v' -> outsim (Ok (v, k)) (Ok (v', k))
  | out_err t t' l s : R t t' -> outsim (Err (ParseError t l s)) (Err (ParseError t' l s))
  | out_panic : outsim Panic Panic
  | out_fuel : outsim OutOfFuel OutOfFuel.

  Lemma f2_length {A B} (P : A -> B -> Prop) (l : list A) (l' : list B) : Forall2 P l l' -> length l = length l'.
  Proof. induction 1; cbn; congruence. Qed.
  Lemma f2_firstn {A B} (P : A -> B -> Prop) n : forall (l : list A) (l' : list B), Forall2 P l l' -> Forall2 P (firstn n l) (firstn n l').
  Proof. induction n as [|n IH]; intros l l' F; [constructor|]. destruct F; cbn; constructor; auto. Qed.
  Lemma f2_skipn {A B} (P : A -> B -> Prop) n : forall (l : list A) (l' : list B), Forall2 P l l' -> Forall2 P (skipn n l) (skipn n l').
  Proof. induction n as [|n IH]; intros l l' F; [exact F|]. destruct F; cbn; auto. Qed.
  Lemma f2_rev {A B} (P : A -> B -> Prop) (l : list A) (l' : list B) : Forall2 P l l' -> Forall2 P (rev l) (rev l').
  Proof. induction 1; cbn; [constructor|]. apply Forall2_app; auto. Qed.
  Lemma cells_args l l' : Forall2 cell l l' -> Forall2 vsim (map snd l) (map snd l').
  Proof. induction 1 as [|a b l l' H F IH]; cbn; constructor; auto. apply H. Qed.

  Lemma iter_sim rnd : forall f st st' ts ts' k, Forall2 cell st st' -> Forall2 R ts ts' ->
    outsim (iter f rnd (st, ts, k)) (iter f rnd (st', ts', k)).
  Proof.
    induction f as [|f IH]; intros st st' ts ts' k Fs Ft; [apply out_fuel|]. cbn [iter]. unfold pstep.
    destruct Fs as [|[s v] [s' v'] st st' [E Hv] Fs]; [apply out_panic|]. cbn [fst snd] in E, Hv. subst s'.
    destruct Ft as [|t t' ts ts' Ht Ft]; [apply out_panic|].
    destruct (negb (Nat.ltb s num_states)); [apply out_panic|].
    rewrite <- (R_type _ _ Ht).
    destruct (action_at s (tk_type t)) as [a|]; [|apply out_err; exact Ht].
    assert (Fst : Forall2 cell ((s, v) :: st) ((s, v') :: st')) by (constructor; [split; [reflexivity|exact Hv]|exact Fs]).
    destruct a as [|n|p]; [apply out_ok; exact Hv| |].
    - apply IH; [|exact Ft]. constructor; [|exact Fst]. split; [reflexivity|apply vs_tok; exact Ht].
    - destruct (nth_error prod_tab p) as [pr|]; [|apply out_panic].
      rewrite (f2_length _ _ _ Fst). destruct (Nat.ltb _ _); [apply out_panic|].
      pose proof (run_sem_sim rnd (p_sem pr) _ _ k (f2_rev _ _ _ (cells_args _ _ (f2_firstn _ (p_num pr) _ _ Fst)))) as Hr.
      destruct Hr as [|w w' k' Hw]; [apply out_panic|].
      pose proof (f2_skipn _ (p_num pr) _ _ Fst) as Fk.
      destruct Fk as [|[s1 v1] [s1' v1'] r r' [E1 Hv1] Fr]; [apply out_panic|]. cbn [fst snd] in E1, Hv1. subst s1'. cbv zeta.
      destruct (Z.ltb _ _); [apply out_panic|].
      apply IH; [|constructor; assumption]. constructor; [split; [reflexivity|exact Hw]|]. constructor; [split; [reflexivity|exact Hv1]|exact Fr].
  Qed.
End Sim.

(** ** A lexer that starts elsewhere *)
Lemma rounds_loop rnd : forall f c k, fst (rounds f rnd c k) = loop f rnd c k.
Proof.
  induction f as [|f IH]; intros c k; [destruct c as [[st t] lx]; reflexivity|].
  rewrite loop_round. cbn [rounds]. destruct (round rnd c k) as [[c' k']|r]; [apply IH|reflexivity].
Qed.

Lemma skipn_twice {A} (l : list A) : forall m n, skipn n (skipn m l) = skipn (m + n) l.
Proof. induction l as [|a l IH]; intros m n; [rewrite !skipn_nil; reflexivity|]. destruct m; [reflexivity|]. cbn. apply IH. Qed.

Lemma scan_view l t x : scan (lx_of l) = Some (t, x) -> lx_rest x = skipn (lx_pos x) (sl_src l).
Proof.
  intros H. destruct (scan_after _ _ _ H) as (y & E1 & E2 & _). cbn [lx_of lx_rest lx_pos] in E1, E2.
  rewrite E2, <- skipn_twice, E1, skipn_app, skipn_all, Nat.sub_diag. reflexivity.
Qed.

Lemma with_view l t x : scan (lx_of l) = Some (t, x) -> lx_of (with_lx l x) = x.
Proof.
  intros H. pose proof (scan_view l t x H) as E. destruct x as [rest pos line col]. unfold lx_of, with_lx.
  cbn [sl_src sl_pos sl_line sl_col lx_rest lx_pos lx_line lx_col] in *. rewrite <- E. reflexivity.
Qed.



Lemma rounds_parse rnd f st t lx k : fst (rounds f rnd (st, t, lx) k) = parse_loop f rnd st t lx k.
Proof. rewrite rounds_loop. reflexivity. Qed.

Lemma reset_stack_eq old : reset_stack old = [(0, VNil)].
Proof. unfold reset_stack. rewrite skipn_all. reflexivity. Qed.

(** The result of a parse from the beginning of the text with a lexer that stands at another line and column. *)
Definition as_graph {E} (wrap : parse_error -> E) (r : res parse_error (value * nat)) : res E (graph * nat) :=
  match r with
  | Ok (VGraph g, k) => Ok (g, k)
  | Ok _ => Panic
  | Err e => Err (wrap e)
  | Panic => Panic
  | OutOfFuel => OutOfFuel
  end.

Lemma parse_with_iter rnd k0 p l : sl_pos l = 0 ->
  fst (fst (parse_with rnd k0 p l)) =
  as_graph (fun e => (e, sl_ctx l)) (iter (parse_fuel (sl_src l)) rnd ([(0, VNil)], tokens_from (sl_src l) (Pos 0 (sl_line l) (sl_col l)), k0)).
Proof.
  intros E0. set (ts := tokens_from _ _). unfold parse_with, src_scan.
  assert (El : lx_of l = mk_lex (sl_src l) (Pos 0 (sl_line l) (sl_col l))).
  { unfold lx_of, mk_lex. rewrite E0. reflexivity. }
  destruct (scan_all_spec (S (length (sl_src l))) (sl_src l) (Pos 0 (sl_line l) (sl_col l)) ltac:(lia)) as (Hl & Hlen & t & lx & Es & Hst).
  fold (tokens_from (sl_src l) (Pos 0 (sl_line l) (sl_col l))) in Hl, Hlen, Hst. fold ts in Hl, Hlen, Hst.
  assert (Es' : scan (lx_of l) = Some (t, lx)) by (rewrite El; exact Es).
  rewrite Es', (with_view _ _ _ Es'), reset_stack_eq, E0. change (skipn 0 (sl_src l)) with (sl_src l).
  assert (Hf : 11 * length ts < parse_fuel (sl_src l)) by (unfold parse_fuel; lia).
  assert (Hne : iter (parse_fuel (sl_src l)) rnd ([(0, VNil)], ts, k0) <> OutOfFuel).
  { pose proof (iter_inv rnd k0 ts _ _ _ (Inv_init rnd k0 _ (stream_final_list _ _ _ Hst)) Hf) as H. intros E. rewrite E in H. exact H. }
  pose proof (rounds_parse rnd (parse_fuel (sl_src l)) [(0, VNil)] t lx k0) as Hr.
  rewrite (parse_loop_iter rnd _ _ _ _ _ _ Hst Hne) in Hr.
  destruct (rounds _ _ _ _) as [r [[st' t'] x']]. cbn [fst] in Hr |- *. rewrite Hr. reflexivity.
Qed.

Lemma parse_bytes_as rnd k0 src : parse_bytes rnd k0 src = as_graph (fun e => e) (iter (parse_fuel src) rnd ([(0, VNil)], tokens src, k0)).
Proof.
  unfold parse_bytes. destruct (tokens_stream src) as (t & lx & Es & Hst). rewrite Es.
  assert (Hf : 11 * length (tokens src) < parse_fuel src).
  { pose proof (tokens_length src). unfold parse_fuel. lia. }
  assert (Hne : iter (parse_fuel src) rnd ([(0, VNil)], tokens src, k0) <> OutOfFuel).
  { pose proof (iter_inv rnd k0 (tokens src) _ _ _ (Inv_init rnd k0 _ (tokens_final src)) Hf) as H.
    intros E. rewrite E in H. exact H. }
  rewrite (parse_loop_iter rnd _ _ _ _ _ _ Hst Hne). reflexivity.
Qed.

Lemma parse_with_sim rnd k0 p l : sl_pos l = 0 ->
  match parse_bytes rnd k0 (sl_src l) with
  | Ok x => fst (fst (parse_with rnd k0 p l)) = Ok x
  | Err e => exists e', fst (fst (parse_with rnd k0 p l)) = Err (e', sl_ctx l) /\
      tsim (sl_src l) (Pos 0 (sl_line l) (sl_col l)) (pe_token e) (pe_token e') /\ pe_expected e' = pe_expected e /\ pe_stack_top e' = pe_stack_top e
  | _ => False
  end.
Proof.
  intros E0. pose proof (parse_total rnd k0 (sl_src l)) as T. rewrite (parse_with_iter rnd k0 p l E0), parse_bytes_as in *.
  set (q := Pos 0 (sl_line l) (sl_col l)).
  pose proof (iter_sim (tsim (sl_src l) q) (fun t t' H => proj1 H) (fun t t' H => proj1 (proj2 H)) rnd (parse_fuel (sl_src l)) [(0, VNil)] [(0, VNil)]
    (tokens (sl_src l)) (tokens_from (sl_src l) q) k0) as H.
  assert (F : Forall2 (cell (tsim (sl_src l) q)) [(0, VNil)] [(0, VNil)]).
  { constructor; [|constructor]. split; [reflexivity|]. apply vs_same. discriminate. }
  specialize (H F (tokens_moved (sl_src l) q)).
  destruct H as [v v' k Hv|t t' ex s Ht| |]; cbn [as_graph] in *.
  - destruct Hv as [t t' Ht|v Hv]; [|destruct v; try reflexivity]; destruct T as [(g1 & k1 & T)|(e1 & T)]; discriminate.
  - exists (ParseError t' ex s). repeat split; cbn [pe_token]; try apply Ht.
  - destruct T as [(g1 & k1 & T)|(e1 & T)]; discriminate.
  - destruct T as [(g1 & k1 & T)|(e1 & T)]; discriminate.
Qed.

(** Positions *)
Definition is_break (r : N) : bool := N.eqb r 10 || N.eqb r 13.

Lemma advance_shift ps : forall p p', p_off p = p_off p' ->
  p_off (advance p ps) = p_off (advance p' ps) /\
  p_line (advance p' ps) + p_line p = p_line (advance p ps) + p_line p' /\
  (if existsb is_break (runes_of ps) then p_col (advance p' ps) = p_col (advance p ps)
   else p_col (advance p' ps) + p_col p = p_col (advance p ps) + p_col p').
Proof.
  induction ps as [|[r bs] ps IH]; intros p p' E.
  - cbn. lia.
  - cbn [advance fold_left]. fold (advance (step_pos p (r, bs)) ps). fold (advance (step_pos p' (r, bs)) ps).
    destruct (IH (step_pos p (r, bs)) (step_pos p' (r, bs)) ltac:(cbn [step_pos p_off]; lia)) as (H1 & H2 & H3).
    split; [exact H1|]. cbn [runes_of map fst existsb]. fold (runes_of ps).
    set (q := step_pos p (r, bs)) in *. set (q' := step_pos p' (r, bs)) in *.
    assert (L1 : p_line q = if N.eqb r 10 then p_line p + 1 else p_line p) by reflexivity.
    assert (L2 : p_line q' = if N.eqb r 10 then p_line p' + 1 else p_line p') by reflexivity.
    assert (C1 : p_col q = if N.eqb r 10 || N.eqb r 13 then 1 else if N.eqb r 9 then p_col p + 4 else p_col p + 1) by reflexivity.
    assert (C2 : p_col q' = if N.eqb r 10 || N.eqb r 13 then 1 else if N.eqb r 9 then p_col p' + 4 else p_col p' + 1) by reflexivity.
    split; [destruct (N.eqb r 10); lia|]. unfold is_break at 1. destruct (N.eqb r 10 || N.eqb r 13) eqn:Eb; cbn [orb].
    + destruct (existsb is_break (runes_of ps)); lia.
    + destruct (existsb is_break (runes_of ps)); [lia|]. destruct (N.eqb r 9); lia.
Qed.

Lemma tsim_pos src l c t t' : tsim src (Pos 0 l c) t t' ->
  tk_type t' = tk_type t /\ tk_lit t' = tk_lit t /\ tk_off t' = tk_off t /\ tk_line t' + 1 = tk_line t + l /\
  (if existsb is_break (runes_of (pieces (firstn (tk_off t) src))) then tk_col t' = tk_col t else tk_col t' + 1 = tk_col t + c).
Proof.
  intros (E1 & E2 & v & w & Ep & E3 & E4).
  destruct (advance_shift v start_pos (Pos 0 l c) eq_refl) as (H1 & H2 & H3).
  rewrite <- E3, <- E4 in *. cbn [p_off p_line p_col start_pos] in *.
  split; [congruence|]. split; [congruence|]. split; [congruence|]. split; [lia|].
  assert (Hv : tk_off t = length (text v)).
  { pose proof (p_off_advance v start_pos) as H. rewrite <- E3 in H. exact H. }
  destruct (pieces_app_eq _ _ _ Ep) as (P2 & P1 & _).
  replace (firstn (tk_off t) src) with (text v); [rewrite P1; destruct (existsb _ _); lia|].
  rewrite P2, Hv, firstn_text. reflexivity.
Qed.

(** ** After a parse that succeeded *)
Lemma scanned_eof p ps t lx : scanned p ps t lx -> tk_type t = EOF -> lx_rest lx = [].
Proof.
  induction 1 as [p|p ps u rest t lx Hl Hs IH|p ps u rest ty Hl H1 H2|p u c rest lx H1 H2 H3|p u lx H1 H2 H3]; intros Ht; try discriminate.
  - reflexivity.
  - apply IH, Ht.
  - cbn in Ht. contradiction.
Qed.
Lemma scan_eof_rest lx t lx' : scan lx = Some (t, lx') -> tk_type t = EOF -> lx_rest lx' = [].
Proof.
  intros H Ht. destruct lx as [rest pos line col]. destruct (scan_ok rest (Pos pos line col)) as (t1 & lx1 & E & Hs).
  change (mk_lex rest (Pos pos line col)) with (Lexer rest pos line col) in E. rewrite H in E. injection E as <- <-.
  exact (scanned_eof _ _ _ _ Hs Ht).
Qed.

Lemma rounds_ok rnd : forall f st t lx k v k' st' t' lx', (exists lx0, scan lx0 = Some (t, lx)) ->
  rounds f rnd (st, t, lx) k = (Ok (v, k'), (st', t', lx')) -> lx_rest lx' = [].
Proof.
  induction f as [|f IH]; intros st t lx k v k' st' t' lx' (lx0 & E0) H; [discriminate|].
  cbn [rounds] in H. destruct (round rnd (st, t, lx) k) as [[[[st1 t1] lx1] k1]|r] eqn:Er.
  - refine (IH _ _ _ _ _ _ _ _ _ _ H). unfold round in Er. destruct st as [|[s v0] st]; [discriminate|].
    destruct (negb (Nat.ltb s num_states)); [discriminate|]. destruct (action_at s (tk_type t)) as [[|n|p]|]; try discriminate.
    + destruct (scan lx) as [[tok lx2]|] eqn:E; [|discriminate]. injection Er as <- <- <- <-. exists lx. exact E.
    + destruct (nth_error prod_tab p) as [pr|]; [|discriminate]. cbv zeta in Er. destruct (Nat.ltb _ _); [discriminate|].
      destruct (run_sem _ _ _ _) as [[w k2]|]; [|discriminate]. destruct (skipn _ _) as [|[s' v'] st'']; [discriminate|].
      destruct (Z.ltb _ _); [discriminate|]. injection Er as <- <- <- <-. eauto.
  - injection H as -> <- <- <-. unfold round in Er. destruct st as [|[s v0] st]; [discriminate|].
    destruct (negb (Nat.ltb s num_states)); [discriminate|]. destruct (action_at s (tk_type t)) as [[|n|p]|] eqn:Ea; try discriminate.
    + pose proof (action_checked _ _ _ Ea) as Hc. unfold check_action in Hc. rewrite Ea in Hc. apply andb_true_iff in Hc. destruct Hc as [Hc _].
      apply Nat.eqb_eq in Hc. exact (scan_eof_rest _ _ _ E0 Hc).
    + destruct (scan lx) as [[tok lx2]|]; discriminate.
    + destruct (nth_error prod_tab p) as [pr|]; [|discriminate]. cbv zeta in Er. destruct (Nat.ltb _ _); [discriminate|].
      destruct (run_sem _ _ _ _) as [[w k2]|]; [|discriminate]. destruct (skipn _ _) as [|[s' v'] st'']; [discriminate|].
      destruct (Z.ltb _ _); discriminate.
Qed.

Definition in_view (src : gostr) (lx : lexer) : Prop := lx_rest lx = skipn (lx_pos lx) src.
Lemma scan_in_view src lx t lx' : in_view src lx -> scan lx = Some (t, lx') -> in_view src lx'.
Proof.
  unfold in_view. intros V H. destruct (scan_after _ _ _ H) as (y & E1 & E2 & _).
  rewrite E2, <- skipn_twice, <- V, E1, skipn_app, skipn_all, Nat.sub_diag. reflexivity.
Qed.
Lemma rounds_in_view src rnd : forall f st t lx k r st' t' lx', in_view src lx -> rounds f rnd (st, t, lx) k = (r, (st', t', lx')) -> in_view src lx'.
Proof.
  induction f as [|f IH]; intros st t lx k r st' t' lx' V H; [injection H as _ _ _ <-; exact V|].
  cbn [rounds] in H. destruct (round rnd (st, t, lx) k) as [[[[st1 t1] lx1] k1]|r1] eqn:Er; [|injection H as _ _ _ <-; exact V].
  refine (IH _ _ _ _ _ _ _ _ _ H). unfold round in Er. destruct st as [|[s v0] st]; [discriminate|].
  destruct (negb (Nat.ltb s num_states)); [discriminate|]. destruct (action_at s (tk_type t)) as [[|n|p]|]; try discriminate.
  - destruct (scan lx) as [[tok lx2]|] eqn:E; [|discriminate]. injection Er as <- <- <- <-. exact (scan_in_view _ _ _ _ V E).
  - destruct (nth_error prod_tab p) as [pr|]; [|discriminate]. cbv zeta in Er. destruct (Nat.ltb _ _); [discriminate|].
    destruct (run_sem _ _ _ _) as [[w k2]|]; [|discriminate]. destruct (skipn _ _) as [|[s' v'] st'']; [discriminate|].
    destruct (Z.ltb _ _); [discriminate|]. injection Er as <- <- <- <-. exact V.
Qed.

Lemma parse_with_end rnd k0 p l x p' l' : parse_with rnd k0 p l = (Ok x, p', l') ->
  skipn (sl_pos l') (sl_src l') = [] /\ sl_ctx l' = sl_ctx l.
Proof.
  unfold parse_with, src_scan. destruct (scan (lx_of l)) as [[t lx]|] eqn:E; [|discriminate].
  rewrite (with_view _ _ _ E). destruct (rounds _ _ _ _) as [r [[st t'] x']] eqn:Er. intros H.
  assert (Hr : exists v k, r = Ok (v, k)) by (destruct r as [[v k]| | |]; try discriminate; eauto).
  destruct Hr as (v & k & ->). injection H as _ _ <-.
  pose proof (rounds_ok _ _ _ _ _ _ _ _ _ _ _ (ex_intro _ _ E) Er) as R.
  assert (V : in_view (sl_src l) lx) by (apply (scan_in_view (sl_src l) (lx_of l) t); [reflexivity|exact E]).
  pose proof (rounds_in_view _ _ _ _ _ _ _ _ _ _ _ V Er) as V'. unfold in_view in V'. rewrite R in V'.
  cbn [with_lx sl_src sl_pos sl_ctx]. auto.
Qed.

Lemma parse_with_nothing rnd k0 p l : skipn (sl_pos l) (sl_src l) = [] ->
  fst (fst (parse_with rnd k0 p l)) = Err (ParseError (Token EOF [] (sl_pos l) (sl_line l) (sl_col l)) (expected_tokens 0) 0, sl_ctx l).
Proof.
  intros E. unfold parse_with, src_scan, lx_of. rewrite E. cbn [scan lx_rest lx_pos lx_line lx_col].
  rewrite reset_stack_eq. change (parse_fuel []) with 64. change 64 with (S 63). cbn [rounds]. unfold round at 1.
  change (negb (Nat.ltb 0 num_states)) with false. cbv iota. cbn [tk_type].
  assert (Ea : action_at 0 EOF = None) by (vm_compute; reflexivity). rewrite Ea. reflexivity.
Qed.
