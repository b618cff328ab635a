(** The driver with error recovery (C01, C07) and the text of syntax errors (C49). *)
From Coq Require Import List Ascii NArith ZArith Bool Lia Sorted.
From Verif Require Import Base LexTables ParseTables TokNames Ast Lexer Parser ParserDefs LexSpec LexerProofs Tokens LexFacts SpecGrammar ParseFacts PropsParse RecParser RecProofs ErrText SpecErr ErrProofs SpecNumber NumberProofs.
Import ListNotations.

(** ** C01, C07 for the driver with its error recovery: it behaves as the one without, so that everything proved of
    [parse_bytes] holds of it; a syntax error never carries an error of a reduce function. *)
Theorem C01_recovery : forall show rnd k0 src,
  (forall g k, rec_parse_bytes show rnd k0 src = Ok (g, k) <-> parse_bytes rnd k0 src = Ok (g, k)) /\
  (forall e, rec_parse_bytes show rnd k0 src = Err e <-> exists pe, parse_bytes rnd k0 src = Err pe /\ e = GoError None pe) /\
  rec_parse_bytes show rnd k0 src <> Panic /\ rec_parse_bytes show rnd k0 src <> OutOfFuel.
Proof.
  intros show rnd k0 src. rewrite rec_parse_bytes_eq.
  destruct (parse_total rnd k0 src) as [(g & k & E)|(e & E)]; rewrite E; cbn [with_nil].
  - split; [intros g' k'; split; intros [= -> ->]; reflexivity|]. split; [|split; discriminate].
    intros e. split; [discriminate|]. intros (pe & H & _). discriminate.
  - split; [intros g' k'; split; discriminate|]. split; [|split; discriminate].
    intros e'. split; [intros [= <-]; eauto|]. intros (pe & [= <-] & ->). reflexivity.
Qed.
Print Assumptions C01_recovery.

(** ** C49 The text of a syntax error *)
(** [m] is what a message says about the token found. *)
Inductive found : token -> gostr -> Prop :=
| Found_invalid t q : tk_type t = 0 -> unquote q = Some (tk_lit t) -> found t (lit "unknown/invalid token " ++ q)
| Found_end t : tk_type t = 1 -> found t (lit "end-of-file")
| Found_token t q : 2 <= tk_type t -> unquote q = Some (tk_lit t) -> found t q.

Lemma shown_name P ty : ty < 19 -> expected_name P ty = Some (nth ty shown []).
Proof. intros H. do 19 (destruct ty as [|ty]; [reflexivity|]). lia. Qed.
Lemma all_shown P l : Forall (fun ty => ty < 19) l -> all_some (map (expected_name P) l) = Some (map (fun ty => nth ty shown []) l).
Proof. induction 1 as [|ty l H _ IH]; [reflexivity|]. cbn [map all_some]. rewrite shown_name by exact H. rewrite IH. reflexivity. Qed.

Lemma join_sep sep l z : l <> [] -> join sep (l ++ [z]) = concat (map (fun a => a ++ sep) l) ++ z.
Proof.
  induction l as [|x l IH]; intros H; [congruence|]. destruct l as [|y l].
  - cbn [app join concat map]. rewrite app_nil_r, <- app_assoc. reflexivity.
  - cbn [app] in *. change (join sep (x :: y :: l ++ [z])) with (x ++ sep ++ join sep (y :: l ++ [z])). rewrite IH by discriminate.
    cbn [map concat]. rewrite <- !app_assoc. reflexivity.
Qed.
Lemma describe_alternatives l : l <> [] -> alternatives l (describe_expected l).
Proof.
  intros H. destruct l as [|a [|b [|c [|d l]]]]; [congruence|apply Alt1|apply Alt2|apply Alt3|].
  assert (E : exists l' z, a :: b :: c :: d :: l = l' ++ [z] /\ 3 <= length l').
  { destruct (exists_last (l := a :: b :: c :: d :: l)) as (l' & z & E); [discriminate|]. exists l', z. split; [exact E|].
    apply (f_equal (@length _)) in E. rewrite app_length in E. cbn [length] in E. lia. }
  unfold describe_expected. destruct E as (l' & z & E & L). rewrite E. rewrite last_last.
  rewrite app_length. cbn [length]. replace (length l' + 1 - 1) with (length l') by lia. rewrite firstn_app, Nat.sub_diag, firstn_all. cbn [firstn].
  rewrite app_nil_r. rewrite join_sep by (destruct l'; [cbn in L; lia|discriminate]). apply Alt4. exact L.
Qed.
Lemma expected_sorted s : StronglySorted lt (expected_tokens s).
Proof.
  unfold expected_tokens. generalize 0, 36. intros a n. revert a. induction n as [|n IH]; intros a; [constructor|].
  cbn [seq filter]. destruct (action_at s a); [|apply IH]. constructor; [apply IH|].
  apply Forall_forall. intros x Hx. apply filter_In in Hx as [Hx _]. apply in_seq in Hx. lia.
Qed.
Local Opaque prod_tab goto_tab.
Definition small_row (row : list (nat * action)) : bool := forallb (fun x => Nat.ltb (fst x) 19) row.
Lemma small_rows_ok : forallb small_row action_tab = true. Proof. vm_compute. reflexivity. Qed.
Local Opaque action_tab.
Lemma row_small t row : small_row row = true -> (match assoc_nat t row with Some _ => true | None => false end) = true -> t < 19.
Proof.
  unfold small_row. intros E Ht. rewrite forallb_forall in E.
  induction row as [|[k a] row IH]; [discriminate|]. cbn [assoc_nat] in Ht. destruct (Nat.eqb_spec t k) as [->|].
  - specialize (E (k, a) (or_introl eq_refl)). apply Nat.ltb_lt in E. exact E.
  - apply IH; [|exact Ht]. intros x Hx. apply E. right. exact Hx.
Qed.
Lemma action_small s t : (match action_at s t with Some _ => true | None => false end) = true -> t < 19.
Proof.
  unfold action_at. destruct (nth_error action_tab s) as [row|] eqn:E; [|discriminate]. apply nth_error_In in E.
  pose proof small_rows_ok as A. rewrite forallb_forall in A. exact (row_small t row (A row E)).
Qed.
Lemma expected_small s : Forall (fun ty => ty < 19) (expected_tokens s).
Proof.
  unfold expected_tokens. apply Forall_forall. intros t. rewrite filter_In. intros [_ Ht]. exact (action_small s t Ht).
Qed.
Lemma parse_loop_expected fuel : forall rnd st tok lx k e, parse_loop fuel rnd st tok lx k = Err e -> exists s, pe_expected e = expected_tokens s.
Proof.
  induction fuel as [|fuel IH]; intros rnd st tok lx k e; [discriminate|]. cbn [parse_loop].
  destruct st as [|[s v] st]; [discriminate|]. destruct (negb _); [discriminate|].
  destruct (action_at s (tk_type tok)) as [[|n|p]|]; [discriminate| | |].
  - destruct (scan lx) as [[? ?]|]; [|discriminate]. apply IH.
  - destruct (nth_error prod_tab p) as [pr|]; [|discriminate]. destruct (Nat.ltb _ _); [discriminate|].
    destruct (run_sem _ _ _ _) as [[v' k']|]; [|discriminate]. destruct (skipn _ _) as [|[s' v2] st']; [discriminate|].
    destruct (Z.ltb _ _); [discriminate|]. apply IH.
  - intros [= <-]. exists s. reflexivity.
Qed.
Lemma parse_expected rnd k0 src e : parse_bytes rnd k0 src = Err e -> exists s, pe_expected e = expected_tokens s.
Proof.
  unfold parse_bytes. destruct (scan (new_lexer src)) as [[tok lx]|]; [|discriminate].
  destruct (parse_loop _ _ _ _ _ _) as [[[] k]|e'| |] eqn:E; try discriminate. intros [= <-]. eapply parse_loop_expected. exact E.
Qed.
Lemma describe_found P t : found t (describe_token P t).
Proof.
  unfold describe_token. destruct (Nat.eqb_spec (tk_type t) INVALID) as [E|E]; [apply Found_invalid; [exact E|apply unquote_quote]|].
  destruct (Nat.eqb_spec (tk_type t) EOF) as [E1|E1]; [apply Found_end; exact E1|].
  apply Found_token; [unfold INVALID, EOF in *; lia|apply unquote_quote].
Qed.

(** For every rejected input the message is  line:column: error: expected ...; got: ...  with the position of the first
    token that no DOT text can have there, the list, in the order of the token types and never empty, of all tokens that
    some DOT text has there, and the token found, whose literal can be read off. *)
Theorem C49_message : forall P show rnd k0 src e, rec_parse_bytes show rnd k0 src = Err e ->
  exists ts t ts' tys expected got line col,
    tokens src = ts ++ t :: ts' /\ can_continue rnd (map tk_type ts) /\ ~ can_continue rnd (map tk_type ts ++ [tk_type t]) /\
    StronglySorted lt tys /\ (forall ty, In ty tys <-> can_continue rnd (map tk_type ts ++ [ty])) /\
    alternatives (map (fun ty => nth ty shown []) tys) expected /\ found t got /\
    numeral (N.of_nat (1 + newlines (firstn (tk_off t) src))) line /\ numeral (N.of_nat (column (runes_of (pieces (firstn (tk_off t) src))))) col /\
    error_text P e = Some (line ++ lit ":" ++ col ++ lit ": error: " ++ expected ++ lit "; got: " ++ got).
Proof.
  intros P show rnd k0 src e E. apply C01_recovery in E as (pe & E & ->).
  destruct (C07_first_error rnd k0 src pe E) as (ts & ts' & H1 & H2 & H3 & H4). destruct (parse_expected rnd k0 src pe E) as (s & Hs).
  exists ts, (pe_token pe), ts', (pe_expected pe), (describe_expected (map (fun ty => nth ty shown []) (pe_expected pe))), (describe_token P (pe_token pe)).
  eexists _, _. split; [exact H1|]. split; [exact H2|]. split; [exact H3|]. split; [rewrite Hs; apply expected_sorted|]. split; [exact H4|].
  split.
  { apply describe_alternatives. intros Z. apply map_eq_nil in Z.
    destruct H2 as (w & g & k & k' & z & A1 & A2 & A3).
    assert (C : exists ty, can_continue rnd (map tk_type ts ++ [ty])).
    { destruct z as [|ty z].
      - exfalso. rewrite app_nil_r in A3. destruct (exists_last (l := ts)) as (l & x & X).
        { intros ->. apply (f_equal (@length _)) in A3. rewrite app_length in A3. cbn in A3. lia. }
        rewrite X, map_app in A3. apply app_inj_tail in A3 as [_ A3].
        destruct (C05_ends src) as (ts1 & t1 & K1 & _ & K2). rewrite H1, X in K1.
        assert (Hx : In x ts1).
        { assert (Y : exists y, pe_token pe :: ts' = y ++ [t1]).
          { destruct (exists_last (l := pe_token pe :: ts')) as (y & w1 & Y); [discriminate|]. rewrite Y, app_assoc in K1.
            apply app_inj_tail in K1 as [_ ->]. eauto. }
          destruct Y as (y & Y). rewrite Y, app_assoc in K1. apply app_inj_tail in K1 as [<- _].
          apply in_or_app. left. apply in_or_app. right. left. reflexivity. }
        rewrite Forall_forall in K2. apply K2 in Hx. lia.
      - exists ty. exists w, g, k, k', z. split; [exact A1|]. split; [exact A2|]. rewrite <- app_assoc. exact A3. }
    destruct C as (ty & C). apply H4 in C. rewrite Z in C. exact C. }
  split; [apply describe_found|]. split; [apply dec_numeral|]. split; [apply dec_numeral|].
  unfold error_text. cbn [ge_err ge_error]. rewrite all_shown by (rewrite Hs; apply expected_small).
  assert (Hin : In (pe_token pe) (tokens src)) by (rewrite H1; apply in_or_app; right; left; reflexivity).
  destruct (C06_positions src (pe_token pe) Hin) as [Hl Hc]. rewrite <- Hl, <- Hc. rewrite <- !app_assoc. reflexivity.
Qed.
Print Assumptions C49_message.

(** The message is one line without control characters, whatever the input contains. *)
Lemma lit_plain s : forallb (fun c => N.leb 32 (bv c) && negb (N.eqb (bv c) 127)) (lit s) = true -> Forall plain (lit s).
Proof.
  intros H. rewrite forallb_forall in H. apply Forall_forall. intros c Hc. apply H in Hc.
  rewrite andb_true_iff, N.leb_le, negb_true_iff, N.eqb_neq in Hc. exact Hc.
Qed.
Lemma uint_plain d : Forall plain (lit (DecimalString.NilEmpty.string_of_uint d)).
Proof. induction d; [constructor|..]; (constructor; [split; [discriminate|intros H; vm_compute in H; discriminate]|exact IHd]). Qed.
Lemma shown_plain : Forall (Forall plain) shown.
Proof. unfold shown. repeat (constructor; [apply lit_plain; reflexivity|]). constructor. Qed.
Lemma alternatives_plain l m : alternatives l m -> Forall (Forall plain) l -> Forall plain m.
Proof.
  intros H F. destruct H as [a|a b|a b c|l z _].
  - inversion F; subst. apply Forall_app. split; [apply lit_plain; reflexivity|assumption].
  - inversion F as [|? ? F1 F2]; subst. inversion F2; subst.
    repeat (apply Forall_app; split); try assumption; apply lit_plain; reflexivity.
  - inversion F as [|? ? F1 F2]; subst. inversion F2 as [|? ? F3 F4]; subst. inversion F4; subst.
    repeat (apply Forall_app; split); try assumption; apply lit_plain; reflexivity.
  - apply Forall_app in F as [F1 F2]. inversion F2; subst. apply Forall_app. split; [apply lit_plain; reflexivity|].
    apply Forall_app. split; [|apply Forall_app; split; [apply lit_plain; reflexivity|assumption]].
    apply Forall_concat. apply Forall_map. eapply Forall_impl; [|exact F1]. intros a Ha. apply Forall_app. split; [exact Ha|apply lit_plain; reflexivity].
Qed.
Theorem C49_one_line : forall P show rnd k0 src e m, rec_parse_bytes show rnd k0 src = Err e -> error_text P e = Some m ->
  Forall (fun c => (32 <= bv c)%N /\ bv c <> 127%N) m.
Proof.
  intros P show rnd k0 src e m E H. apply C01_recovery in E as (pe & E & ->). destruct (parse_expected rnd k0 src pe E) as (s & Hs).
  unfold error_text in H. cbn [ge_err ge_error] in H. rewrite all_shown in H by (rewrite Hs; apply expected_small). injection H as <-.
  change (Forall plain ((dec_of_N (N.of_nat (tk_line (pe_token pe))) ++ lit ":" ++ dec_of_N (N.of_nat (tk_col (pe_token pe))) ++ lit ": error: ") ++
    describe_expected (map (fun ty => nth ty shown []) (pe_expected pe)) ++ lit "; got: " ++ describe_token P (pe_token pe))).
  apply Forall_app. split.
  { apply Forall_app. split; [apply uint_plain|]. apply Forall_app. split; [apply lit_plain; reflexivity|].
    apply Forall_app. split; [apply uint_plain|apply lit_plain; reflexivity]. }
  apply Forall_app. split; [|apply Forall_app; split; [apply lit_plain; reflexivity|]].
  - assert (K : pe_expected pe = [] \/ pe_expected pe <> []) by (destruct (pe_expected pe); [left; reflexivity|right; discriminate]).
    destruct K as [->|K]; [apply lit_plain; reflexivity|].
    eapply alternatives_plain; [apply describe_alternatives; intros Z; apply map_eq_nil in Z; contradiction|].
    apply Forall_map, Forall_forall. intros ty _. destruct (nth_in_or_default ty shown []) as [I| ->]; [|constructor].
    pose proof shown_plain as SP. rewrite Forall_forall in SP. apply SP. exact I.
  - unfold describe_token. destruct (Nat.eqb _ _); [apply Forall_app; split; [apply lit_plain; reflexivity|apply quote_plain]|].
    destruct (Nat.eqb _ _); [apply lit_plain; reflexivity|apply quote_plain].
Qed.
Print Assumptions C49_one_line.
(** The longer text, String(): five lines unless the literal has line feeds (it is written as it is), with the type, the literal, the
    offset, line and column of the first token that no DOT text can have there, and all the tokens that some DOT text has
    there. *)
Lemma bare_name ty : ty < 19 -> tok_id ty = nth ty bare [].
Proof. intros H. do 19 (destruct ty as [|ty]; [reflexivity|]). lia. Qed.
Theorem C49_string : forall show rnd k0 src e, rec_parse_bytes show rnd k0 src = Err e ->
  exists ts t ts' tys type off line col,
    tokens src = ts ++ t :: ts' /\ can_continue rnd (map tk_type ts) /\ ~ can_continue rnd (map tk_type ts ++ [tk_type t]) /\
    StronglySorted lt tys /\ (forall ty, In ty tys <-> can_continue rnd (map tk_type ts ++ [ty])) /\
    numeral (N.of_nat (tk_type t)) type /\ numeral (N.of_nat (tk_off t)) off /\
    numeral (N.of_nat (1 + newlines (firstn (tk_off t) src))) line /\ numeral (N.of_nat (column (runes_of (pieces (firstn (tk_off t) src))))) col /\
    error_string e =
      lit "Error" ++ [nl] ++
      lit "Token: type=" ++ type ++ lit ", lit=" ++ tk_lit t ++ [nl] ++
      lit "Pos: offset=" ++ off ++ lit ", line=" ++ line ++ lit ", column=" ++ col ++ [nl] ++
      lit "Expected one of: " ++ concat (map (fun ty => nth ty bare [] ++ lit " ") tys) ++ lit "ErrorSymbol:" ++ [nl].
Proof.
  intros show rnd k0 src e E. apply C01_recovery in E as (pe & E & ->).
  destruct (C07_first_error rnd k0 src pe E) as (ts & ts' & H1 & H2 & H3 & H4). destruct (parse_expected rnd k0 src pe E) as (s & Hs).
  exists ts, (pe_token pe), ts', (pe_expected pe). eexists _, _, _, _.
  split; [exact H1|]. split; [exact H2|]. split; [exact H3|]. split; [rewrite Hs; apply expected_sorted|]. split; [exact H4|].
  split; [apply dec_numeral|]. split; [apply dec_numeral|]. split; [apply dec_numeral|]. split; [apply dec_numeral|].
  assert (Hin : In (pe_token pe) (tokens src)) by (rewrite H1; apply in_or_app; right; left; reflexivity).
  destruct (C06_positions src (pe_token pe) Hin) as [Hl Hc]. rewrite <- Hl, <- Hc.
  unfold error_string. cbn [ge_err ge_error]. rewrite <- (app_assoc (lit "Error") [nl]).
  replace (map (fun ty => nth ty bare [] ++ lit " ") (pe_expected pe)) with (map (fun ty => tok_id ty ++ lit " ") (pe_expected pe)); [reflexivity|].
  apply map_ext_in. intros ty Hty. rewrite bare_name; [reflexivity|].
  pose proof (expected_small s) as F. rewrite Hs in Hty. rewrite Forall_forall in F. exact (F ty Hty).
Qed.
Print Assumptions C49_string.
(** Unlike the message it may have control characters in it. *)
Example C49_string_raw :
  match rec_parse_bytes (fun _ => []) rnd0 0 (lit "strict ""a" ++ [nl] ++ lit "b""") with
  | Err e => error_string e =
      lit "Error" ++ [nl] ++ lit "Token: type=18, lit=""a" ++ [nl] ++ lit "b""" ++ [nl] ++ lit "Pos: offset=7, line=1, column=8" ++ [nl] ++
      lit "Expected one of: graphx digraph ErrorSymbol:" ++ [nl]
  | _ => False
  end.
Proof. vm_compute. reflexivity. Qed.

(** Quoting loses nothing. *)
Theorem C49_quote : forall P s, unquote (quote P s) = Some s.
Proof. exact unquote_quote. Qed.
Print Assumptions C49_quote.

Definition msg (src : gostr) : option gostr :=
  match rec_parse_bytes (fun _ => []) rnd0 0 src with Err e => error_text (fun _ => true) e | _ => None end.
Example C49_example :
  msg (lit "digraph {" ++ [nl] ++ lit "  a -> ]") = Some (lit "2:8: error: expected one of ""{"", subgraph or id; got: ""]""") /\
  msg (lit "graph { a") = Some (lit "1:10: error: expected one of graphx, ""{"", ""}"", "";"", ""="", node, edge, ""["", "":"", subgraph, ""->"", ""--"", or id; got: end-of-file") /\
  msg (lit "graph {} é") = Some (lit "1:10: error: expected ␚; got: ""é""") /\
  msg (lit "strict " ++ [nl]) = Some (lit "2:1: error: expected either graphx or digraph; got: end-of-file") /\
  msg (lit "graph { ?" ++ [nl] ++ lit "}") = Some (lit "1:9: error: expected one of graphx, ""{"", ""}"", node, edge, subgraph, or id; got: unknown/invalid token ""?""").
Proof. repeat split; vm_compute; reflexivity. Qed.

(** ** C11 The names of anonymous subgraphs are "anon" and the drawn number. *)
Theorem C11_name_text : forall r, exists ds, anon r = lit "anon" ++ ds /\ numeral r ds.
Proof. intros r. exists (dec_of_N r). split; [reflexivity|apply dec_numeral]. Qed.
Print Assumptions C11_name_text.
