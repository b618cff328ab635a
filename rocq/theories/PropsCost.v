(** Property C61: Parse does linear work. *)
From Coq Require Import List Ascii NArith ZArith Bool Lia Arith.
From Verif Require Import Base LexTables ParseTables Ast Lexer LexSpec LexDfa Parser ParserDefs ParserSound LexerProofs Tokens PropsParse Cost.
Import ListNotations.
Local Opaque trans_tab act_tab action_tab goto_tab prod_tab decode_rune trans act.

(** The counting versions return the same. *)
Lemma c_scan_loop_fst : forall fuel c state rest pos line col srest start sline scol endp ty,
  fst (c_scan_loop fuel c state rest pos line col srest start sline scol endp ty) =
  scan_loop fuel state rest pos line col srest start sline scol endp ty.
Proof.
  induction fuel as [|f IH]; intros; [reflexivity|]. destruct rest as [|b rest]; [reflexivity|].
  cbn [c_scan_loop scan_loop]. destruct (decode_rune (b :: rest)) as [r n]. cbv zeta.
  destruct (trans state r) as [st'|]; [|reflexivity]. destruct (act st') as [acc ign].
  destruct (negb (Z.eqb acc (-1))); [apply IH|]. destruct ign; apply IH.
Qed.
Lemma c_scan_fst c lx : fst (c_scan c lx) = scan lx.
Proof. unfold c_scan, scan. destruct (lx_rest lx); [reflexivity|apply c_scan_loop_fst]. Qed.
Lemma c_parse_loop_fst rnd : forall fuel c st tok lx k,
  fst (c_parse_loop fuel c rnd st tok lx k) = parse_loop fuel rnd st tok lx k.
Proof.
  induction fuel as [|f IH]; intros; [reflexivity|]. cbn [c_parse_loop parse_loop].
  destruct st as [|[s v] st]; [reflexivity|]. destruct (negb (Nat.ltb s num_states)); [reflexivity|].
  destruct (action_at s (tk_type tok)) as [[|n|p]|]; [reflexivity| | |reflexivity].
  - pose proof (c_scan_fst (S c) lx) as E. destruct (c_scan (S c) lx) as [[[tok' lx']|] c']; cbn [fst] in E; rewrite <- E; [apply IH|reflexivity].
  - destruct (nth_error prod_tab p) as [pr|]; [|reflexivity]. cbv zeta. destruct (Nat.ltb _ (p_num pr)); [reflexivity|].
    destruct (run_sem _ _ _ _) as [[v1 k1]|]; [|reflexivity]. destruct (skipn _ _) as [|[s' v'] st']; [reflexivity|].
    destruct (Z.ltb _ 0); [reflexivity|apply IH].
Qed.

(** What a call of Scan reads it consumes, except for one rune and the end of the text. *)
Lemma c_scan_loop_cost : forall fuel c state rest pos line col srest start sline scol endp ty t lx' c',
  (pos = start /\ endp <= start) \/ (start < pos /\ endp = pos) -> length srest = length rest + (pos - start) ->
  c_scan_loop fuel c state rest pos line col srest start sline scol endp ty = (Some (t, lx'), c') ->
  c' + length (lx_rest lx') <= c + length rest + 1.
Proof.
  induction fuel as [|f IH]; intros c state rest pos line col srest start sline scol endp ty t lx' c' I L H; [discriminate|].
  destruct rest as [|b rest].
  - cbn [c_scan_loop] in H. cbv zeta in H. injection H as H <-. unfold scan_finish in H.
    destruct (Nat.ltb_spec start (if Nat.eqb ty INVALID then pos else endp)) as [Hl|Hl].
    + injection H as _ <-. cbn [lx_rest length] in *. rewrite skipn_length. destruct (Nat.eqb ty INVALID); lia.
    + injection H as _ <-. cbn [lx_rest length]. lia.
  - cbn [c_scan_loop] in H. pose proof (decode_spec (b :: rest) ltac:(discriminate)) as D.
    destruct (decode_rune (b :: rest)) as [r n]. destruct D as [D _]. cbv zeta in H.
    assert (L' : length (skipn n (b :: rest)) = length (b :: rest) - n) by apply skipn_length.
    set (rs := skipn n (b :: rest)) in *. set (rl := length (b :: rest)) in *. clearbody rl rs.
    destruct (trans state r) as [st'|] eqn:Et.
    + destruct (act_case st' (proj2 (trans_bound _ _ _ Et))) as [[Ea _]|(m & ign & Ea & _)]; rewrite Ea in H.
      * change (negb (Z.eqb (-1) (-1))) with false in H. cbv iota in H. apply IH in H; [lia| |]; lia.
      * replace (negb (Z.eqb (Z.of_nat m) (-1))) with true in H by (symmetry; apply negb_true_iff, Z.eqb_neq; lia).
        apply IH in H; [lia| |]; lia.
    + injection H as H <-. unfold scan_finish in H.
      destruct (Nat.ltb_spec start (if Nat.eqb ty INVALID then pos + n else endp)) as [Hl|Hl].
      * injection H as _ <-. cbn [lx_rest]. rewrite skipn_length. destruct (Nat.eqb ty INVALID); lia.
      * injection H as _ <-. cbn [lx_rest]. lia.
Qed.
Lemma c_scan_cost c lx t lx' c' : c_scan c lx = (Some (t, lx'), c') -> c' + length (lx_rest lx') <= c + length (lx_rest lx) + 2.
Proof.
  unfold c_scan. intros H. destruct (lx_rest lx) as [|b r] eqn:E.
  - injection H as _ <- <-. rewrite E. cbn. lia.
  - apply c_scan_loop_cost in H; [lia| |lia]. left. lia.
Qed.
Lemma c_scan_some c lx : exists t lx' c', c_scan c lx = (Some (t, lx'), c').
Proof.
  pose proof (c_scan_fst c lx) as E. destruct (scan_ok (lx_rest lx) (Pos (lx_pos lx) (lx_line lx) (lx_col lx))) as (t & lx' & H & _).
  replace (mk_lex (lx_rest lx) (Pos (lx_pos lx) (lx_line lx) (lx_col lx))) with lx in H by (destruct lx; reflexivity).
  rewrite H in E. destruct (c_scan c lx) as [o c']. cbn in E. subst o. eauto.
Qed.
Lemma c_parse_loop_cost rnd : forall fuel c st tok lx k,
  snd (c_parse_loop fuel c rnd st tok lx k) <= c + length (lx_rest lx) + 3 * fuel.
Proof.
  induction fuel as [|f IH]; intros; [cbn; lia|]. cbn [c_parse_loop].
  destruct st as [|[s v] st]; [cbn; lia|]. destruct (negb (Nat.ltb s num_states)); [cbn; lia|].
  destruct (action_at s (tk_type tok)) as [[|n|p]|]; [cbn; lia| | |cbn; lia].
  - destruct (c_scan_some (S c) lx) as (t & lx' & c' & E). rewrite E. apply c_scan_cost in E.
    eapply Nat.le_trans; [apply IH|]. lia.
  - destruct (nth_error prod_tab p) as [pr|]; [|cbn; lia]. cbv zeta. destruct (Nat.ltb _ (p_num pr)); [cbn; lia|].
    destruct (run_sem _ _ _ _) as [[v1 k1]|]; [|cbn; lia]. destruct (skipn _ _) as [|[s' v'] st']; [cbn; lia|].
    destruct (Z.ltb _ 0); [cbn; lia|]. eapply Nat.le_trans; [apply IH|]. lia.
Qed.
Lemma c_parse_loop_mono rnd : forall fuel c st tok lx k, fst (c_parse_loop fuel c rnd st tok lx k) <> OutOfFuel ->
  forall fuel', fuel <= fuel' -> c_parse_loop fuel' c rnd st tok lx k = c_parse_loop fuel c rnd st tok lx k.
Proof.
  induction fuel as [|f IH]; intros c st tok lx k N [|f'] L; [reflexivity|destruct N; reflexivity|lia|].
  cbn [c_parse_loop] in *.
  destruct st as [|[s v] st]; [reflexivity|]. destruct (negb (Nat.ltb s num_states)); [reflexivity|].
  destruct (action_at s (tk_type tok)) as [[|n|p]|]; [reflexivity| | |reflexivity].
  - destruct (c_scan (S c) lx) as [[[tok' lx']|] c']; [|reflexivity]. apply IH; [exact N|lia].
  - destruct (nth_error prod_tab p) as [pr|]; [|reflexivity]. cbv zeta in *. destruct (Nat.ltb _ (p_num pr)); [reflexivity|].
    destruct (run_sem _ _ _ _) as [[v1 k1]|]; [|reflexivity]. destruct (skipn _ _) as [|[s' v'] st']; [reflexivity|].
    destruct (Z.ltb _ 0); [reflexivity|]. apply IH; [exact N|lia].
Qed.

(** ** C61: the work of Parse is at most 34 (length of the text + 2), whatever the text. *)
Theorem C61_linear : forall rnd k0 src, snd (c_parse_bytes rnd k0 src) <= 34 * (length src + 2).
Proof.
  intros rnd k0 src. unfold c_parse_bytes.
  destruct (tokens_stream src) as (t & lx & E & Hst).
  pose proof (c_scan_fst 0 (new_lexer src)) as E1. rewrite E in E1.
  destruct (c_scan 0 (new_lexer src)) as [o c] eqn:Ec. cbn [fst] in E1. subst o.
  pose proof (c_scan_cost _ _ _ _ _ Ec) as C1. cbn [new_lexer lx_rest] in C1.
  pose proof (tokens_length src) as TL. set (f := 11 * length (tokens src) + 1).
  assert (Hn : 11 * length (tokens src) < f) by (subst f; lia).
  pose proof (ParserSound.iter_inv rnd k0 (tokens src) _ _ _ (ParserSound.Inv_init rnd k0 _ (tokens_final src)) Hn) as H1.
  assert (Hne : iter f rnd ([(0, VNil)], tokens src, k0) <> OutOfFuel) by (intros E2; rewrite E2 in H1; exact H1).
  pose proof (ParserSound.parse_loop_iter rnd f _ _ _ _ _ Hst Hne) as P1.
  assert (N : fst (c_parse_loop f c rnd [(0, VNil)] t lx k0) <> OutOfFuel).
  { rewrite c_parse_loop_fst. intros E2. exact (Hne (eq_trans (eq_sym P1) E2)). }
  assert (Hle : f <= parse_fuel src) by (unfold parse_fuel; subst f; lia).
  rewrite (c_parse_loop_mono rnd f c _ _ _ _ N (parse_fuel src) Hle).
  pose proof (c_parse_loop_cost rnd f c [(0, VNil)] t lx k0) as C2.
  destruct (c_parse_loop f c rnd [(0, VNil)] t lx k0) as [r c']. cbn [snd] in C2.
  assert (c' <= 34 * (length src + 2)) by (subst f; lia).
  destruct r as [[[]]| | |]; assumption.
Qed.
Print Assumptions C61_linear.
(** The counting does not change what is returned. *)
Theorem C61_same : forall rnd k0 src, fst (c_parse_bytes rnd k0 src) = parse_bytes rnd k0 src.
Proof.
  intros rnd k0 src. unfold c_parse_bytes, parse_bytes.
  pose proof (c_scan_fst 0 (new_lexer src)) as E. destruct (c_scan 0 (new_lexer src)) as [[[tok lx]|] c]; cbn [fst] in E; rewrite <- E; [|reflexivity].
  pose proof (c_parse_loop_fst rnd (parse_fuel src) c [(0, VNil)] tok lx k0) as E2.
  destruct (c_parse_loop _ _ _ _ _ _ _) as [r c']; cbn [fst] in E2; rewrite <- E2. destruct r as [[[] k]| | |]; reflexivity.
Qed.
Print Assumptions C61_same.
(** Scan alone: it reads at most one rune (or the end of the text) beyond the token it returns, so it never looks far ahead and
    goes back. *)
Theorem C61_scan : forall lx t lx' c, c_scan 0 lx = (Some (t, lx'), c) ->
  scan lx = Some (t, lx') /\ c + length (lx_rest lx') <= length (lx_rest lx) + 2.
Proof.
  intros lx t lx' c H. split; [|apply c_scan_cost in H; lia]. rewrite <- (c_scan_fst 0 lx), H. reflexivity.
Qed.
Print Assumptions C61_scan.
Example C61_example : c_parse_bytes rnd0 0 ex_src = (parse_bytes rnd0 0 ex_src, 204).
Proof. vm_compute. reflexivity. Qed.
