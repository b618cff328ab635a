(** Properties C09 and C10: printing an AST and parsing the text again. *)
From Coq Require Import List Ascii NArith ZArith Bool Lia Arith.
From Verif Require Import Base Ast LexSpec LexerProofs Parser SpecGrammar LexPrint TrimFacts SpecAst AstProofs AstFacts PropsParse.
Import ListNotations.

(** A DOT identifier: one ID token on its own (C04), and TrimSpace leaves it alone. *)
Lemma good_id_spec i : good_id i <-> is_lexeme (runes_of (pieces i)) (Tok ID) /\ trim_space i = i.
Proof. reflexivity. Qed.

(** ** C09: print, then parse.  For every AST all of whose identifiers are DOT identifiers that do
    not begin or end with a Unicode space, parsing the printed text succeeds, draws no random
    value, and gives the AST back without its empty attribute lists. *)
Theorem C09_print_parse : forall rnd k g,
  wf_graph good_id g -> parse_bytes rnd k (graph_str g) = Ok (norm_graph g, k).
Proof. exact ast_roundtrip. Qed.
Print Assumptions C09_print_parse.

(** In particular for every AST that Parse returned: the identifiers are DOT identifiers
    already, only the blanks at their ends matter. *)
Theorem C09_parse_print_parse : forall rnd k src g k' rnd2 k2,
  parse_bytes rnd k src = Ok (g, k') -> wf_graph (fun i => trim_space i = i) g ->
  parse_bytes rnd2 k2 (graph_str g) = Ok (norm_graph g, k2).
Proof. exact parse_print_parse. Qed.
Print Assumptions C09_parse_print_parse.
Theorem C09_parsed_ids : forall rnd k src g k', parse_bytes rnd k src = Ok (g, k') -> wf_graph is_id g.
Proof. exact parsed_wf. Qed.

(** What is dropped is invisible: the normalised AST prints the same, so printing reaches a fixed
    point after one round. *)
Theorem C09_norm_invisible : forall g, graph_str (norm_graph g) = graph_str g /\ norm_graph (norm_graph g) = norm_graph g.
Proof. intros g. split; [apply graph_str_norm|apply norm_graph_idem]. Qed.
Theorem C09_fixed_point : forall rnd k src g k' rnd2 k2,
  parse_bytes rnd k src = Ok (g, k') -> wf_graph (fun i => trim_space i = i) g ->
  exists g2, parse_bytes rnd2 k2 (graph_str g) = Ok (g2, k2) /\ graph_str g2 = graph_str g.
Proof.
  intros rnd k src g k' rnd2 k2 H1 H2. exists (norm_graph g). split; [eapply parse_print_parse; eauto|apply graph_str_norm].
Qed.
Print Assumptions C09_fixed_point.
Print Assumptions C09_parsed_ids.
Print Assumptions C09_norm_invisible.
(** Hence two printable ASTs with the same text are equal up to empty attribute lists. *)
Theorem C09_print_injective : forall g1 g2, wf_graph good_id g1 -> wf_graph good_id g2 ->
  graph_str g1 = graph_str g2 -> norm_graph g1 = norm_graph g2.
Proof.
  intros g1 g2 H1 H2 E. pose proof (ast_roundtrip rnd0 0 g1 H1) as E1. pose proof (ast_roundtrip rnd0 0 g2 H2) as E2.
  rewrite E, E2 in E1. congruence.
Qed.
Print Assumptions C09_print_injective.

(** The text of PropsParse.ex_src meets the hypotheses. *)
Example C09_example : exists g k', parse_bytes rnd0 0 ex_src = Ok (g, k') /\ wf_graph (fun i => trim_space i = i) g /\
  length (g_stmts g) = 2.
Proof.
  eexists. eexists. split; [vm_compute; reflexivity|].
  split; [|vm_compute; reflexivity].
  split; [intros _; vm_compute; reflexivity|]. cbn. repeat constructor; try (vm_compute; reflexivity); discriminate.
Qed.
(** Normalisation does drop something: "node []". *)
Example C09_norm_example : exists g, parse_bytes rnd0 0 (lit "graph { node []; a [] [x=1] }") = Ok (g, 0) /\ norm_graph g <> g.
Proof. eexists. split; [vm_compute; reflexivity|]. vm_compute. discriminate. Qed.

(** ** C10: the condition on blanks is needed.  U+00A0 (no-break space) is a legal ID; the printed
    form of a graph with that node does not parse. *)
Definition nbsp : gostr := [ascii_of_N 194; ascii_of_N 160].
Theorem C10_print_destroys : exists src g k' e,
  parse_bytes rnd0 0 src = Ok (g, k') /\ parse_bytes rnd0 0 (graph_str g) = Err e.
Proof.
  exists (lit "graph { " ++ nbsp ++ lit " }"). eexists. eexists. eexists. split; [vm_compute; reflexivity|vm_compute; reflexivity].
Qed.
Print Assumptions C10_print_destroys.

(** More generally: an ID with a Unicode space at an end is silently renamed. *)
Lemma trim_left_clean : forall s t, clean s -> trim_left s <> [] -> trim_left (s ++ t) = trim_left s ++ t.
Proof.
  assert (H : forall n m s t, length s <= n -> length (s ++ t) <= m -> clean s -> trim_left_f n s <> [] ->
    trim_left_f m (s ++ t) = trim_left_f n s ++ t).
  { induction n as [|n IH]; intros m s t Hn Hm Hc Hne.
    - destruct s; [cbn in Hne; congruence|cbn in Hn; lia].
    - destruct s as [|a s]; [cbn in Hne; congruence|]. destruct m as [|m]; [cbn in Hm; lia|].
      cbn [trim_left_f] in *. cbn [app]. destruct (decode_rune (a :: s)) as [r k] eqn:E.
      assert (Hr : r <> rune_error).
      { unfold clean in Hc. rewrite (pieces_cons (a :: s) r k) in Hc by (auto; discriminate). inversion Hc; subst. assumption. }
      pose proof (decode_valid_app (a :: s) t r k ltac:(discriminate) E Hr) as E'. cbn [app] in E'. rewrite E'.
      destruct (is_space r); [|reflexivity].
      pose proof (decode_spec (a :: s) ltac:(discriminate)) as D. rewrite E in D. destruct D as [D _].
      change (a :: s ++ t) with ((a :: s) ++ t). rewrite skipn_app. replace (k - length (a :: s)) with 0 by lia.
      cbn [skipn]. apply IH; try assumption.
      + rewrite skipn_length. cbn [length] in *. lia.
      + rewrite app_length, skipn_length. cbn [app length] in Hm. rewrite app_length in Hm. cbn [length] in *. lia.
      + unfold clean in *. rewrite (pieces_cons (a :: s) r k) in Hc by (auto; discriminate). inversion Hc; subst. assumption. }
  intros s t Hc Hne. apply H; auto.
Qed.

Lemma trim_left_all_clean : forall s, clean s -> exists u, s = u ++ trim_left s /\ clean (trim_left s).
Proof.
  assert (H : forall n s, clean s -> exists u, s = u ++ trim_left_f n s /\ clean (trim_left_f n s)).
  { induction n as [|n IH]; intros s Hc; [exists []; auto|]. cbn [trim_left_f]. destruct s as [|a s]; [exists []; auto|].
    destruct (decode_rune (a :: s)) as [r k] eqn:E. destruct (is_space r); [|exists []; auto].
    destruct (IH (skipn k (a :: s))) as (u & E1 & E2).
    - unfold clean in *. rewrite (pieces_cons (a :: s) r k) in Hc by (auto; discriminate). inversion Hc; subst. assumption.
    - exists (firstn k (a :: s) ++ u). split; [|exact E2]. rewrite <- app_assoc, <- E1. symmetry. apply firstn_skipn. }
  intros s. apply H.
Qed.

Lemma trim_space_blank : forall i, clean i -> trim_space i <> [] -> trim_space (i ++ lit " ") = trim_space i.
Proof.
  intros i Hc Hne. unfold trim_space in *.
  assert (Hl : trim_left i <> []) by (intros E; rewrite E in Hne; apply Hne; reflexivity).
  rewrite trim_left_clean by assumption. set (s := trim_left i) in *.
  unfold trim_right at 1. rewrite app_length. change (length (lit " ")) with 1. rewrite Nat.add_1_r.
  assert (E : decode_last_rune (s ++ lit " ") = (32%N, 1)) by (apply (decode_last_ascii s " "%char); vm_compute; reflexivity).
  cbn [trim_right_f]. rewrite E. destruct (s ++ lit " ") as [|a l] eqn:El; [destruct s; discriminate|]. rewrite <- El.
  change (is_space 32) with true. cbv iota.
  replace (firstn (length (s ++ lit " ") - 1) (s ++ lit " ")) with s; [reflexivity|].
  rewrite app_length. change (length (lit " ")) with 1. rewrite Nat.add_sub, firstn_app, firstn_all, Nat.sub_diag. cbn. symmetry. apply app_nil_r.
Qed.

Definition one_node (i : gostr) : graph := Graph false false [] [SNode (NodeID i (Port [] [])) []].
Theorem C10_print_renames : forall rnd k i, is_id i -> is_id (trim_space i) -> trim_space (trim_space i) = trim_space i ->
  parse_bytes rnd k (graph_str (one_node i)) = Ok (one_node (trim_space i), k).
Proof.
  intros rnd k i H1 H2 H3.
  assert (E : graph_str (one_node i) = graph_str (one_node (trim_space i))).
  { unfold graph_str, one_node, stmts_str. cbn [g_type g_strict g_id g_stmts map stmt_str attr_list_str fold_left].
    unfold node_id_str, port_str. cbn [nid_id nid_port port_id1]. rewrite !app_nil_r.
    rewrite trim_space_blank by (auto using is_id_clean, is_id_nonempty).
    rewrite trim_space_blank by (rewrite ?H3; auto using is_id_clean, is_id_nonempty).
    rewrite H3. reflexivity. }
  rewrite E, ast_roundtrip; [reflexivity|]. split; [intros F; cbn in F; congruence|].
  constructor; [|constructor]. split; [|constructor]. split; [split; assumption|exact I].
Qed.
Print Assumptions C10_print_renames.
Lemma single_token_id i t : Tokens.tokens i = [Lexer.Token ID i 0 1 1; t] -> Lexer.tk_type t = Lexer.EOF -> is_id i.
Proof. intros H1 H2. apply C04_token_class. eauto. Qed.
Example C10_renames_example : let i := nbsp ++ lit "a" in
  is_id i /\ is_id (trim_space i) /\ trim_space (trim_space i) = trim_space i /\ trim_space i <> i.
Proof.
  cbv zeta. split; [eapply single_token_id; [vm_compute; reflexivity|reflexivity]|].
  split; [eapply single_token_id; [vm_compute; reflexivity|reflexivity]|]. split; vm_compute; [reflexivity|discriminate].
Qed.
