(** Properties C01-C08 and C11: the scanner and the parser. *)
From Coq Require Import List Ascii NArith ZArith Bool Lia.
From Verif Require Import Base Ast Lexer LexSpec Parser ParserDefs LexerProofs Tokens LexFacts SpecGrammar GrammarProofs
  ParseFacts AnonProofs.
Import ListNotations.

(** A DOT text used in the examples below. *)
Definition ex_src : gostr :=
  lit "strict digraph G { a:p -> {b; c} [color=""red"", x] /* c */; subgraph S { d } }".
Definition rnd0 : nat -> N := fun i => N.of_nat (41 + i).

(** ** C01 Parse is total: on every byte string, for every random stream, it returns an AST or an
    error ([Panic] and [OutOfFuel] are excluded) *)
Theorem C01_parse_total : forall rnd k0 src,
  (exists g k, parse_bytes rnd k0 src = Ok (g, k)) \/ (exists e, parse_bytes rnd k0 src = Err e).
Proof. exact parse_total. Qed.
Print Assumptions C01_parse_total.

(** The number of shift/reduce steps is at most 32 (length src + 2): that much fuel is enough
    ([C01_parse_total]), and giving more never changes the answer. *)
Theorem C01_parse_linear : forall rnd k0 src tok lx fuel,
  scan (new_lexer src) = Some (tok, lx) -> 32 * (length src + 2) <= fuel ->
  parse_loop fuel rnd [(0, VNil)] tok lx k0 = parse_loop (32 * (length src + 2)) rnd [(0, VNil)] tok lx k0 /\
  parse_loop fuel rnd [(0, VNil)] tok lx k0 <> OutOfFuel /\ parse_loop fuel rnd [(0, VNil)] tok lx k0 <> Panic.
Proof.
  intros rnd k0 src tok lx fuel Hs Hf. destruct (tokens_stream src) as (t & lx' & E & Hst).
  rewrite Hs in E. injection E as <- <-.
  assert (Hn : 11 * length (tokens src) < 32 * (length src + 2)) by (pose proof (tokens_length src); lia).
  pose proof (ParserSound.iter_inv rnd k0 (tokens src) _ _ _ (ParserSound.Inv_init rnd k0 _ (tokens_final src)) Hn) as H1.
  assert (Hne : iter (32 * (length src + 2)) rnd ([(0, VNil)], tokens src, k0) <> OutOfFuel) by (intros E; rewrite E in H1; exact H1).
  pose proof (ParserSound.iter_mono rnd _ fuel _ Hf Hne) as Hm.
  assert (Hne' : iter fuel rnd ([(0, VNil)], tokens src, k0) <> OutOfFuel) by (rewrite Hm; exact Hne).
  pose proof (ParserSound.parse_loop_iter rnd (32 * (length src + 2)) _ _ _ _ _ Hst Hne) as P1.
  pose proof (ParserSound.parse_loop_iter rnd fuel _ _ _ _ _ Hst Hne') as P2.
  split; [exact (eq_trans P2 (eq_trans Hm (eq_sym P1)))|]. split.
  - intros E. exact (Hne' (eq_trans (eq_sym P2) E)).
  - intros E. pose proof (eq_trans (eq_sym Hm) (eq_trans (eq_sym P2) E)) as E'. rewrite E' in H1. exact H1.
Qed.
Print Assumptions C01_parse_linear.

(** ** C02 Soundness, C03 completeness: Parse returns [g] (having drawn the random values
    [k0 .. k-1]) exactly when the input scans, without lexical error, to a sentence of the DOT
    grammar whose AST is [g]. *)
Theorem C02_parse_sound : forall rnd k0 src g k,
  parse_bytes rnd k0 src = Ok (g, k) -> exists w, scans_to src w /\ d_graph rnd w g k0 k.
Proof. intros rnd k0 src g k H. apply parse_ok_iff. exact H. Qed.
Print Assumptions C02_parse_sound.

Theorem C03_parse_complete : forall rnd k0 src w g k,
  scans_to src w -> d_graph rnd w g k0 k -> parse_bytes rnd k0 src = Ok (g, k).
Proof. intros rnd k0 src w g k H1 H2. apply parse_ok_iff. eauto. Qed.
Print Assumptions C03_parse_complete.

(** The grammar is unambiguous: a sentence has one AST. *)
Theorem C03_unambiguous : forall rnd k0 src w g1 k1 g2 k2,
  scans_to src w -> d_graph rnd w g1 k0 k1 -> d_graph rnd w g2 k0 k2 -> g1 = g2 /\ k1 = k2.
Proof.
  intros rnd k0 src w g1 k1 g2 k2 Hs H1 H2.
  pose proof (C03_parse_complete _ _ _ _ _ _ Hs H1) as E1.
  pose proof (C03_parse_complete _ _ _ _ _ _ Hs H2) as E2. rewrite E1 in E2. injection E2 as -> ->. auto.
Qed.
Print Assumptions C03_unambiguous.

Example C02_example : exists g, parse_bytes rnd0 0 ex_src = Ok (g, 1) /\ length (g_stmts g) = 2.
Proof. eexists. split; vm_compute; reflexivity. Qed.
(** Hence the hypotheses of C03 are met by this text. *)
Example C03_example : exists w g, scans_to ex_src w /\ d_graph rnd0 w g 0 1.
Proof. destruct C02_example as (g & H & _). apply C02_parse_sound in H. destruct H as (w & H). eauto. Qed.

(** ** C04 Token classes.  An input is a single token of type [ty] exactly when its runes form a
    lexeme of class [ty] in the sense of LexSpec.v (dot.bnf). *)
Theorem C04_token_class : forall src ty,
  is_lexeme (runes_of (pieces src)) (Tok ty) <->
  exists eof, tokens src = [Token ty src 0 1 1; eof] /\ tk_type eof = EOF.
Proof.
  intros src ty. rewrite lexeme_alone. split.
  - intros (p & H). apply tokens_spec in H. destruct (tokens src) as [|t1 [|t2 [|? ?]]]; try discriminate.
    destruct t1, t2. cbn in H. injection H; intros; subst. eexists. split; reflexivity.
  - intros (eof & E & Ht). pose proof (tokens_lexes src) as H. rewrite E in H. cbn [map] in H.
    destruct eof as [ety el eo eln ec]. cbn in Ht. subst ety.
    assert (el = []) as ->.
    { assert (S : scans_to src [(ty, src)]).
      { apply scans_to_tokens. exists [Token ty src 0 1 1], (Token EOF el eo eln ec). auto. }
      destruct S as (ts & p & S & _). apply tokens_spec in S. rewrite E in S. cbn in S.
      destruct ts as [|? [|? ?]]; cbn in S; try discriminate.
      - injection S; intros; subst. reflexivity.
      - apply (f_equal (@length _)) in S. cbn in S. rewrite app_length in S. cbn in S. lia. }
    eauto.
Qed.
Print Assumptions C04_token_class.

(** Every scanned token before the end has the class of its own literal, and a keyword spelling
    is never scanned as an ID. *)
Theorem C04_keyword_not_id : forall src t ty r,
  In t (tokens src) -> In (ty, r) reserved -> matches r (runes_of (pieces (tk_lit t))) ->
  tk_type t <> ID.
Proof.
  intros src t ty r Hin Hres Hm Hty.
  assert (G : forall p ps ts, lexes p ps ts -> (exists u, pieces src = u ++ ps) -> forall s, In s ts -> fst (fst s) = ID ->
     is_lexeme (runes_of (pieces (snd (fst s)))) (Tok ID)).
  { induction 1 as [p|p ps u rest ts Hl H IH|p ps u rest ty' ts Hl H IH|p u c rest H1 H2 H3|p u H1 H2 H3]; intros (pre & Hp) s Hs Hid.
    - destruct Hs as [<-|[]]. discriminate.
    - apply IH; auto. exists (pre ++ u). rewrite <- app_assoc, <- (proj1 Hl). exact Hp.
    - destruct Hs as [<-|Hs].
      + cbn in Hid. subst ty'. cbn [fst snd]. rewrite (proj1 Hl) in Hp.
        apply pieces_app_eq in Hp. destruct Hp as (_ & _ & Hp). rewrite (pieces_prefix _ _ _ Hp). apply Hl.
      + apply IH; auto. exists (pre ++ u). rewrite <- app_assoc, <- (proj1 Hl). exact Hp.
    - destruct Hs as [<-|[]]. discriminate.
    - destruct Hs as [<-|[]]. discriminate. }
  specialize (G _ _ _ (tokens_lexes src) (ex_intro _ [] eq_refl) (stok t) (in_map stok _ _ Hin) Hty). cbn [fst snd stok] in G.
  assert (Hne : forall ty r, In (ty, r) reserved -> ty <> ID).
  { clear. intros ty r H. unfold reserved in H. cbn [In] in H.
    repeat (destruct H as [H|H]; [injection H as <- _; discriminate|]). contradiction. }
  inversion G as [|t' r' Hin' Hm'|Hm' Hno]; subst.
  - exact (Hne _ _ Hin' eq_refl).
  - exact (Hno _ _ Hres Hm).
Qed.
Print Assumptions C04_keyword_not_id.

Example C04_example :
  tokens (lit "DiGraph") = [Token 6 (lit "DiGraph") 0 1 1; Token EOF [] 7 1 8] /\
  tokens (lit "dIGRAPH") = [Token ID (lit "dIGRAPH") 0 1 1; Token EOF [] 7 1 8] /\
  tokens (lit "-.5") = [Token ID (lit "-.5") 0 1 1; Token EOF [] 3 1 4].
Proof. repeat split; vm_compute; reflexivity. Qed.

(** The generated lexer is not quite dot.bnf: "<<>>" is an [id] of dot.bnf but is rejected. *)
Theorem C04_html_refuted :
  matches bnf_id (runes_of (pieces (lit "<<>>"))) /\ ~ is_lexeme (runes_of (pieces (lit "<<>>"))) (Tok ID).
Proof.
  split.
  - assert (E : runes_of (pieces (lit "<<>>")) = [60; 60; 62; 62]%N) by (vm_compute; reflexivity).
    rewrite E. unfold bnf_id, alts. cbn [fold_right].
    do 3 apply m_alt_r. apply m_alt_l. unfold html_lit, cats. cbn [fold_right].
    change [60; 60; 62; 62]%N with ([60] ++ ([60; 62] ++ []) ++ [62] ++ [])%N.
    apply m_cat; [apply m_rng; reflexivity|]. apply m_cat; [|apply m_cat; [apply m_rng; reflexivity|constructor]].
    apply m_star_cons; [|constructor]. apply m_alt_r. unfold html_tag, cats. cbn [fold_right].
    change [60; 62]%N with ([60] ++ [] ++ [62] ++ [])%N.
    apply m_cat; [apply m_rng; reflexivity|]. apply m_cat; [constructor|]. apply m_cat; [apply m_rng; reflexivity|constructor].
  - intros H. apply C04_token_class in H. destruct H as (eof & H & _). vm_compute in H. discriminate.
Qed.
Print Assumptions C04_html_refuted.
(** That is the only deviation: an [id] of dot.bnf that is not a [lex_id] contains an empty tag after its first rune. *)
Theorem C04_html_deviation : forall w,
  (matches lex_id w -> matches bnf_id w) /\
  (matches bnf_id w -> matches lex_id w \/ exists a u v, w = a :: u ++ [60; 62] ++ v)%N.
Proof.
  assert (T1 : forall w, matches html_tag1 w -> matches html_tag w).
  { intros w H. unfold html_tag1, html_tag, cats in *. cbn [fold_right] in *.
    inversion H as [| | | |? ? w1 w2 H1 H2| |]; subst. inversion H2 as [| | | |? ? w3 w4 H3 H4| |]; subst.
    inversion H4 as [| | | |? ? w5 w6 H5 H6| |]; subst. apply m_cat; [exact H1|]. rewrite app_assoc. apply m_cat; [|exact H6].
    apply m_star_cons; assumption. }
  assert (T2 : forall w, matches html_tag w -> matches html_tag1 w \/ w = [60; 62]%N).
  { intros w H. unfold html_tag1, html_tag, cats in *. cbn [fold_right] in *.
    inversion H as [| | | |? ? w1 w2 H1 H2| |]; subst. inversion H2 as [| | | |? ? w3 w4 H3 H4| |]; subst.
    inversion H3 as [| | | | |?|? u1 u2 U1 U2]; subst.
    - right. cbn [app]. inversion H1 as [|? ? r R| | | | |]; subst. inversion H4 as [| | | |? ? w5 w6 H5 H6| |]; subst.
      inversion H6; subst. inversion H5 as [|? ? r2 R2| | | | |]; subst. apply in_range_spec in R, R2.
      assert (r = 60%N) as -> by lia. assert (r2 = 62%N) as -> by lia. reflexivity.
    - left. apply m_cat; [exact H1|]. rewrite <- app_assoc. apply m_cat; [exact U1|]. apply m_cat; assumption. }
  assert (S1 : forall r w, matches r w -> r = Star (Alt (Star html_char) html_tag1) -> matches (Star (Alt (Star html_char) html_tag)) w).
  { intros r w H. induction H as [| | | | |?|? u1 u2 U1 _ U2 IH]; intros E; try discriminate; [constructor|]. injection E as ->.
    apply m_star_cons; [|exact (IH eq_refl)]. inversion U1; subst; [apply m_alt_l; assumption|apply m_alt_r; apply T1; assumption]. }
  assert (S2 : forall r w, matches r w -> r = Star (Alt (Star html_char) html_tag) ->
    matches (Star (Alt (Star html_char) html_tag1)) w \/ exists u v, w = (u ++ [60; 62] ++ v)%N).
  { intros r w H. induction H as [| | | | |?|? u1 u2 U1 _ U2 IH]; intros E; try discriminate; [left; constructor|]. injection E as ->.
    destruct (IH eq_refl) as [K|(u & v & ->)]; [|right; exists (u1 ++ u), v; rewrite <- app_assoc; reflexivity].
    inversion U1 as [| |? ? ? V|? ? ? V| | |]; subst; [left; apply m_star_cons; [apply m_alt_l; assumption|exact K]|].
    destruct (T2 _ V) as [V2| ->]; [left; apply m_star_cons; [apply m_alt_r; assumption|exact K]|].
    right. exists [], u2. reflexivity. }
  intros w. unfold lex_id, bnf_id, alts. cbn [fold_right]. split; intros H.
  - inversion H as [| |? ? ? V|? ? ? V| | |]; subst; [apply m_alt_l; exact V|]. apply m_alt_r. clear H. rename V into H.
    inversion H as [| |? ? ? V|? ? ? V| | |]; subst; [apply m_alt_l; exact V|]. apply m_alt_r. clear H. rename V into H.
    inversion H as [| |? ? ? V|? ? ? V| | |]; subst; [apply m_alt_l; exact V|]. apply m_alt_r. clear H. rename V into H.
    inversion H as [| |? ? ? V|? ? ? V| | |]; subst; [|inversion V]. apply m_alt_l.
    unfold html_lit1, html_lit, cats in *. cbn [fold_right] in *. inversion V as [| | | |? ? w1 w2 H1 H2| |]; subst.
    inversion H2 as [| | | |? ? w3 w4 H3 H4| |]; subst. apply m_cat; [exact H1|]. apply m_cat; [|exact H4]. exact (S1 _ _ H3 eq_refl).
  - inversion H as [| |? ? ? V|? ? ? V| | |]; subst; [left; apply m_alt_l; exact V|]. clear H. rename V into H.
    inversion H as [| |? ? ? V|? ? ? V| | |]; subst; [left; apply m_alt_r, m_alt_l; exact V|]. clear H. rename V into H.
    inversion H as [| |? ? ? V|? ? ? V| | |]; subst; [left; apply m_alt_r, m_alt_r, m_alt_l; exact V|]. clear H. rename V into H.
    inversion H as [| |? ? ? V|? ? ? V| | |]; subst; [|inversion V].
    unfold html_lit1, html_lit, cats in *. cbn [fold_right] in *. inversion V as [| | | |? ? w1 w2 H1 H2| |]; subst.
    inversion H2 as [| | | |? ? w3 w4 H3 H4| |]; subst. destruct (S2 _ _ H3 eq_refl) as [K|(u & v & ->)].
    + left. apply m_alt_r, m_alt_r, m_alt_r, m_alt_l. apply m_cat; [exact H1|]. apply m_cat; assumption.
    + right. inversion H1; subst. eexists _, u, (v ++ w4). cbn [app]. rewrite <- !app_assoc. reflexivity.
Qed.
Print Assumptions C04_html_deviation.

(** ** C05 Scanning is lossless: [tiled src 0 ts] says that the tokens occur in order, each literal
    being the slice of the input at its offset, the gaps before them containing only white space
    and comments, and the end-of-input token standing at the end. *)
Theorem C05_lossless : forall src, tiled src 0 (map stok (tokens src)).
Proof. exact tokens_tiled. Qed.
Print Assumptions C05_lossless.

(** The scan always ends with an end-of-input token or an invalid token, and no token before it is
    of either kind. *)
Theorem C05_ends : forall src, exists ts t, tokens src = ts ++ [t] /\
  (tk_type t = EOF \/ tk_type t = INVALID) /\ Forall (fun t => 2 <= tk_type t <= 18) ts.
Proof.
  intros src. destruct (lexes_shape _ _ _ (tokens_lexes src)) as (ts0 & t0 & E & Hf & Ht).
  apply map_eq_app in E. destruct E as (l1 & l2 & E & <- & E2). apply map_eq_cons in E2.
  destruct E2 as (t & tl & -> & <- & E2). apply map_eq_nil in E2. subst tl. exists l1, t.
  split; [exact E|]. split; [unfold EOF, INVALID; cbn in Ht; tauto|]. rewrite Forall_map in Hf. exact Hf.
Qed.
Print Assumptions C05_ends.

Example C05_example : map tk_lit (tokens (lit "graph{a /*x*/ b}")) = [lit "graph"; lit "{"; lit "a"; lit "b"; lit "}"; lit ""].
Proof. vm_compute. reflexivity. Qed.

(** ** C06 Positions: the line is one plus the number of newline bytes before the token, the column
    one plus the widths (four for a tab) of the runes since the last CR or LF. *)
Theorem C06_positions : forall src t, In t (tokens src) ->
  tk_line t = 1 + newlines (firstn (tk_off t) src) /\
  tk_col t = column (runes_of (pieces (firstn (tk_off t) src))).
Proof. exact token_position. Qed.
Print Assumptions C06_positions.

Example C06_example : map (fun t => (tk_line t, tk_col t)) (tokens (lit "a" ++ [nl; tab] ++ lit "b"))
  = [(1, 1); (2, 5); (2, 6)].
Proof. vm_compute. reflexivity. Qed.

(** ** C07 Errors: the offending token is the first one that no DOT text can have at that place, and
    the expected tokens are exactly those that some DOT text has there. *)
Theorem C07_first_error : forall rnd k0 src e, parse_bytes rnd k0 src = Err e ->
  exists ts ts', tokens src = ts ++ pe_token e :: ts' /\
    can_continue rnd (map tk_type ts) /\
    ~ can_continue rnd (map tk_type ts ++ [tk_type (pe_token e)]) /\
    forall t, In t (pe_expected e) <-> can_continue rnd (map tk_type ts ++ [t]).
Proof. exact parse_error_spec. Qed.
Print Assumptions C07_first_error.

Example C07_example : exists e, parse_bytes rnd0 0 (lit "graph { a -- }") = Err e /\
  tk_off (pe_token e) = 13 /\ pe_expected e = [3; 15; 18].
Proof. eexists. split; [vm_compute; reflexivity|]. split; reflexivity. Qed.

(** ** C08 Layout: inputs with the same tokens (types and literals) parse alike. *)
Theorem C08_layout : forall rnd k0 src1 src2,
  map (fun t => (tk_type t, tk_lit t)) (tokens src1) = map (fun t => (tk_type t, tk_lit t)) (tokens src2) ->
  (forall g k, parse_bytes rnd k0 src1 = Ok (g, k) <-> parse_bytes rnd k0 src2 = Ok (g, k)) /\
  ((exists e, parse_bytes rnd k0 src1 = Err e) <-> (exists e, parse_bytes rnd k0 src2 = Err e)).
Proof.
  assert (H : forall src1 src2, map (fun t => (tk_type t, tk_lit t)) (tokens src1) = map (fun t => (tk_type t, tk_lit t)) (tokens src2) ->
     forall w, scans_to src1 w -> scans_to src2 w).
  { intros src1 src2 E w Hs. apply scans_to_tokens in Hs. destruct Hs as (ts & t & E1 & Et & Hw).
    apply scans_to_tokens. rewrite E1, map_app in E. symmetry in E. apply map_eq_app in E.
    destruct E as (l1 & l2 & E2 & E3 & E4). apply map_eq_cons in E4. destruct E4 as (t' & tl & -> & E4 & E5).
    apply map_eq_nil in E5. subst tl. exists l1, t'. split; [exact E2|]. split; [injection E4 as E4 _; congruence|].
    rewrite <- Hw. exact E3. }
  intros rnd k0 src1 src2 E.
  assert (A : forall g k, parse_bytes rnd k0 src1 = Ok (g, k) <-> parse_bytes rnd k0 src2 = Ok (g, k)).
  { intros g k. rewrite !parse_ok_iff. split; intros (w & Hs & Hg); exists w; (split; [|exact Hg]).
    - exact (H _ _ E _ Hs).
    - exact (H _ _ (eq_sym E) _ Hs). }
  split; [exact A|].
  destruct (parse_total rnd k0 src1) as [(g1 & k1 & E1)|(e1 & E1)], (parse_total rnd k0 src2) as [(g2 & k2 & E2)|(e2 & E2)].
  - split; intros (e & He); congruence.
  - apply A in E1. congruence.
  - apply A in E2. congruence.
  - split; eauto.
Qed.
Print Assumptions C08_layout.

(** Leading white space and comments in particular: nothing changes. *)
Example C08_example :
  map (fun t => (tk_type t, tk_lit t)) (tokens (lit "graph{a--b}")) =
  map (fun t => (tk_type t, tk_lit t)) (tokens (lit " graph /* g */ { a-- b }")).
Proof. vm_compute. reflexivity. Qed.

(** A line comment that the end of the input cuts short is an error, unlike in Graphviz. *)
Example C08_comment_at_eof_refuted :
  (exists g k, parse_bytes rnd0 0 (lit "graph {} // c" ++ [nl]) = Ok (g, k)) /\
  (exists e, parse_bytes rnd0 0 (lit "graph {} // c") = Err e).
Proof. split; [do 2 eexists|eexists]; vm_compute; reflexivity. Qed.

(** ** C11 Anonymous subgraphs: the names of the subgraphs of the AST, in closing order, are the
    names written in the text, each missing one replaced by the next random value. *)
Theorem C11_anonymous_names : forall rnd k0 src g k, parse_bytes rnd k0 src = Ok (g, k) ->
  exists w, scans_to src w /\
    flat_map stmt_subs (g_stmts g) = fill rnd k0 (subgraph_headings w) /\
    k = k0 + anonymous (subgraph_headings w).
Proof.
  intros rnd k0 src g k H. apply parse_ok_iff in H. destruct H as (w & Hs & Hg). exists w. split; [exact Hs|].
  exact (anon_graph rnd w g k0 k Hg).
Qed.
Print Assumptions C11_anonymous_names.

Example C11_example : match parse_bytes rnd0 0 (lit "graph {{a {b}} subgraph S {c}}") with
  | Ok (g, k) => (flat_map stmt_subs (g_stmts g), k) | _ => ([], 0) end
  = ([lit "anon41"; lit "anon42"; lit "S"], 2).
Proof. vm_compute. reflexivity. Qed.
