(** Properties C09 and C10, exactly: which ASTs survive printing. *)
From Coq Require Import List Ascii NArith ZArith Bool Lia Arith.
From Verif Require Import Base Ast LexSpec LexerProofs Parser SpecGrammar LexPrint TrimFacts SpecAst AstProofs AstFacts SpecSharp SharpProofs
  SharpNeed PropsParse PropsAst.
Import ListNotations.

(** ** C09: an AST of DOT IDs is given back by printing and parsing, up to empty attribute lists,
    exactly when no ID shows a Unicode space at an end of a text that String trims. *)
Theorem C09_print_parse_exact : forall rnd k g, wf_graph is_id g ->
  (parse_bytes rnd k (graph_str g) = Ok (norm_graph g, k) <-> bare_graph g = true).
Proof.
  intros rnd k g W. split; [|apply ast_roundtrip_bare; exact W]. intros H. destruct (bare_graph g) eqn:B; [reflexivity|exfalso].
  apply (exposed_lost rnd k g _ _ W B) in H. rewrite nz_norm_graph in H. lia.
Qed.
Print Assumptions C09_print_parse_exact.
(** Every AST that Parse returned has DOT IDs only. *)
Theorem C09_parsed_exact : forall rnd k src g k' rnd2 k2, parse_bytes rnd k src = Ok (g, k') ->
  (parse_bytes rnd2 k2 (graph_str g) = Ok (norm_graph g, k2) <-> bare_graph g = true).
Proof. intros rnd k src g k' rnd2 k2 H. apply C09_print_parse_exact. eapply parsed_wf. exact H. Qed.
Print Assumptions C09_parsed_exact.

(** The earlier condition, that no ID begins or ends with a space, is a special case ... *)
Lemma good_starts i : good_id i -> starts_space i = false.
Proof. intros [H1 H2]. apply trim_space_left; [apply is_id_nonempty; exact H1|exact H2]. Qed.
Lemma good_ends i : good_id i -> ends_space i = false.
Proof. intros [H1 H2]. apply trim_space_right; [apply is_id_nonempty; exact H1|exact H2]. Qed.
Lemma good_last n : wf_node_id good_id n -> good_id (last_id n).
Proof.
  destruct n as [i [p q]]. unfold wf_node_id, wf_port, last_id. cbn [nid_id nid_port port_id1 port_id2].
  intros [Hi Hp]. destruct p; [exact Hi|]. destruct q; [exact Hp|apply Hp].
Qed.
Lemma good_bare : (forall s, wf_stmt good_id s -> bare_stmt s = true) /\
  (forall l, wf_loc good_id l -> src_bare l && dst_bare l && bare_loc l = true) /\ (forall g, wf_sub good_id g -> bare_sub g = true).
Proof.
  apply stmt_all_ind; try (intros; reflexivity).
  - intros n a [Wn Wa]. cbn [bare_stmt]. rewrite (good_starts _ (proj1 Wn)), (good_ends _ (good_last n Wn)). cbn. apply orb_true_r.
  - intros l r a Hl Hr Hw. apply wf_edge_iff in Hw. destruct Hw as (Wl & _ & Wr & _). cbn [bare_stmt].
    specialize (Hl Wl). rewrite !andb_true_iff in Hl |- *. destruct Hl as [[L1 _] L2]. split; [auto|].
    induction Hr as [|[o d] r Hd Hr IH]; [reflexivity|]. inversion Wr as [|? ? Wd Wr']; subst. cbn in Wd. specialize (Hd Wd).
    cbn [forallb]. rewrite !andb_true_iff in Hd |- *. destruct Hd as [[_ D1] D2]. split; [auto|exact (IH Wr')].
  - intros g Hg W. apply Hg. exact W.
  - intros n Wn. cbn [src_bare dst_bare bare_loc]. rewrite (good_starts _ (proj1 Wn)), (good_ends _ (good_last n Wn)). reflexivity.
  - intros g Hg W. cbn [src_bare dst_bare bare_loc andb]. apply Hg. exact W.
  - intros i b Hb Hw. apply wf_sub_iff in Hw. destruct Hw as [_ Wb]. cbn [bare_sub]. apply forallb_forall.
    rewrite Forall_forall in Hb, Wb. intros s Hs. apply Hb; [exact Hs|apply Wb; exact Hs].
Qed.
Theorem C09_special_case : forall g, wf_graph good_id g -> wf_graph is_id g /\ bare_graph g = true.
Proof.
  intros g H. split.
  - refine (wf_graph_mono good_id good_id is_id (fun i H1 _ => proj1 H1) g H H).
  - destruct H as [_ H]. unfold bare_graph. apply forallb_forall. unfold wf_stmts in H. rewrite Forall_forall in H.
    intros s Hs. apply good_bare. apply H. exact Hs.
Qed.
Print Assumptions C09_special_case.
(** ... and a proper one: here four IDs begin or end with U+00A0 or U+3000, none of them exposed. *)
Definition wide : gostr := [ascii_of_N 227; ascii_of_N 128; ascii_of_N 128].
Definition ex_hidden : gostr :=
  lit "digraph " ++ nbsp ++ lit "g { a" ++ wide ++ lit " [ " ++ nbsp ++ lit " = " ++ wide ++ lit " ]; b" ++ nbsp ++ lit " -> " ++ nbsp ++ lit "c }".
Example C09_exact_example : exists g, parse_bytes rnd0 0 ex_hidden = Ok (g, 0) /\ bare_graph g = true /\
  ~ wf_graph (fun i => trim_space i = i) g /\ parse_bytes rnd0 0 (graph_str g) = Ok (g, 0).
Proof.
  eexists. split; [vm_compute; reflexivity|]. split; [vm_compute; reflexivity|]. split; [|vm_compute; reflexivity].
  intros [H _]. specialize (H ltac:(discriminate)). vm_compute in H. discriminate.
Qed.

(** Two ASTs that survive printing and have the same text are equal up to empty attribute lists. *)
Theorem C09_bare_injective : forall g1 g2, wf_graph is_id g1 -> bare_graph g1 = true -> wf_graph is_id g2 -> bare_graph g2 = true ->
  graph_str g1 = graph_str g2 -> norm_graph g1 = norm_graph g2.
Proof.
  intros g1 g2 W1 B1 W2 B2 E. pose proof (ast_roundtrip_bare rnd0 0 g1 W1 B1) as E1. pose proof (ast_roundtrip_bare rnd0 0 g2 W2 B2) as E2.
  rewrite E, E2 in E1. congruence.
Qed.
Print Assumptions C09_bare_injective.

(** ** C10: when an ID shows a space, printing loses it.  Either the text no longer parses or it is
    the text of another AST, one with fewer bytes beyond ASCII in its IDs. *)
Theorem C10_exposed_lost : forall rnd k g, wf_graph is_id g -> bare_graph g = false ->
  match parse_bytes rnd k (graph_str g) with
  | Ok (g', _) => norm_graph g' <> norm_graph g /\ nz_graph g' < nz_graph g
  | Err _ => True
  | _ => False
  end.
Proof.
  intros rnd k g W B. destruct (C01_parse_total rnd k (graph_str g)) as [(g' & k' & E)|(e & E)]; rewrite E; [|exact I].
  pose proof (exposed_lost rnd k g g' k' W B E) as L. split; [|exact L].
  intros F. rewrite <- (nz_norm_graph g'), F, nz_norm_graph in L. lia.
Qed.
Print Assumptions C10_exposed_lost.
(** Both happen.  U+00A0 alone is gone (C10_print_destroys); with letters the node is renamed
    (C10_print_renames) -- or is no longer a node: <U+00A0>node [x=1] becomes the default
    attributes of all nodes. *)
Theorem C10_print_retypes : exists src g g', parse_bytes rnd0 0 src = Ok (g, 0) /\ parse_bytes rnd0 0 (graph_str g) = Ok (g', 0) /\
  g_stmts g = [SNode (NodeID (nbsp ++ lit "node") (Port [] [])) [[Attr (lit "x") (lit "1")]]] /\
  g_stmts g' = [SNodeAttrs [[Attr (lit "x") (lit "1")]]].
Proof.
  exists (lit "graph { " ++ nbsp ++ lit "node [x=1] }"). eexists. eexists. split; [vm_compute; reflexivity|].
  split; [vm_compute; reflexivity|]. split; reflexivity.
Qed.
Print Assumptions C10_print_retypes.

(** ** Printing and parsing over and over settles: after as many rounds as there are bytes beyond
    ASCII in the IDs, and one more, there was an error or nothing changes any more. *)
Fixpoint reprint (rnd : nat -> N) (n k : nat) (g : graph) : res parse_error (graph * nat) :=
  match n with
  | 0 => Ok (g, k)
  | S n' => match parse_bytes rnd k (graph_str g) with Ok (g', k') => reprint rnd n' k' g' | Err e => Err e | Panic => Panic | OutOfFuel => OutOfFuel end
  end.
Lemma reprint_stays rnd n : forall k g, (forall rnd2 k2, parse_bytes rnd2 k2 (graph_str g) = Ok (g, k2)) -> reprint rnd n k g = Ok (g, k).
Proof. induction n as [|n IH]; intros k g H; [reflexivity|]. cbn [reprint]. rewrite H. apply IH. exact H. Qed.
Theorem C10_settles : forall rnd k g, wf_graph is_id g ->
  match reprint rnd (S (nz_graph g)) k g with
  | Ok (g', _) => forall rnd2 k2, parse_bytes rnd2 k2 (graph_str g') = Ok (g', k2)
  | Err _ => True
  | _ => False
  end.
Proof.
  intros rnd k g W. remember (nz_graph g) as m eqn:Em. assert (L : nz_graph g <= m) by lia. clear Em. revert k g W L.
  induction m as [|m IH]; intros k g W L; (destruct (bare_graph g) eqn:B; [clear IH || idtac|]).
  1,3: cbn [reprint]; rewrite (ast_roundtrip_bare rnd k g W B);
    assert (F : forall rnd2 k2, parse_bytes rnd2 k2 (graph_str (norm_graph g)) = Ok (norm_graph g, k2))
      by (intros rnd2 k2; rewrite graph_str_norm; apply ast_roundtrip_bare; assumption).
  - exact F.
  - change (match reprint rnd (S m) k (norm_graph g) with Ok (g', _) => forall rnd2 k2, parse_bytes rnd2 k2 (graph_str g') = Ok (g', k2) | Err _ => True | _ => False end).
    rewrite (reprint_stays rnd (S m) k _ F). exact F.
  - pose proof (C10_exposed_lost rnd k g W B) as X. cbn [reprint]. destruct (parse_bytes rnd k (graph_str g)) as [[g' k']|e| |]; [lia|exact I|exact X|exact X].
  - pose proof (C10_exposed_lost rnd k g W B) as X. change (reprint rnd (S (S m)) k g) with
      (match parse_bytes rnd k (graph_str g) with Ok (g', k') => reprint rnd (S m) k' g' | Err e => Err e | Panic => Panic | OutOfFuel => OutOfFuel end).
    destruct (parse_bytes rnd k (graph_str g)) as [[g' k']|e| |] eqn:E; [|exact I|exact X|exact X]. apply IH; [eapply parsed_wf; exact E|lia].
Qed.
Print Assumptions C10_settles.
Example C10_settles_example : exists g g', parse_bytes rnd0 0 (lit "graph { " ++ nbsp ++ lit "node [x=1]; " ++ wide ++ lit "a" ++ nbsp ++ lit " -- b" ++ wide ++ lit " }") = Ok (g, 0) /\
  bare_graph g = false /\ nz_graph g = 10 /\ reprint rnd0 1 0 g = Ok (g', 0) /\ g' <> g /\ reprint rnd0 11 0 g = Ok (g', 0).
Proof.
  eexists. eexists. split; [vm_compute; reflexivity|]. split; [vm_compute; reflexivity|]. split; [vm_compute; reflexivity|].
  split; [vm_compute; reflexivity|]. split; [discriminate|vm_compute; reflexivity].
Qed.
