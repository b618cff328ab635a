(** C66: texts and their beginnings. *)
From Coq Require Import List Ascii NArith ZArith Bool Lia Arith.
From Verif Require Import Base LexTables ParseTables Ast Lexer LexSpec LexDfa Parser ParserDefs ParserSound LRCert ParserComplete ParserViable ParserErrors
  LexerProofs Tokens LexFacts SpecGrammar GrammarProofs ParseFacts LexPrint SpecPrefix PrefixProofs PropsParse.
Import ListNotations.
Local Opaque bisim_set spec_vec trans_tab act_tab bounds reps prod_tab action_tab goto_tab items_cert first_cert all_edges.

(** ** Sentences are balanced, so no sentence continues another one. *)
(** [rise n l m]: reading the token types [l] at depth [n] never closes more braces than are open and ends at depth [m]. *)
Inductive rise : nat -> list nat -> nat -> Prop :=
| rise_nil n : rise n [] n
| rise_open n l m : rise (S n) l m -> rise n (3 :: l) m
| rise_close n l m : rise n l m -> rise (S n) (4 :: l) m
| rise_other n x l m : x <> 3 -> x <> 4 -> rise n l m -> rise n (x :: l) m.
Lemma rise_app n a m b k : rise n a m -> rise m b k -> rise n (a ++ b) k.
Proof. induction 1; intros H'; cbn; [exact H'|constructor; auto..]. Qed.
Lemma rise_up n a m k : rise n a m -> rise (n + k) a (m + k).
Proof. induction 1; cbn [Nat.add] in *; constructor; auto. Qed.
Definition flat (w : word) : Prop := rise 0 (map fst w) 0.
Lemma flat_app w w' : flat w -> flat w' -> flat (w ++ w').
Proof. unfold flat. rewrite map_app. apply rise_app. Qed.
Lemma flat_plain w : Forall (fun x : nat * gostr => fst x <> 3 /\ fst x <> 4) w -> flat w.
Proof. unfold flat. induction 1 as [|x l [A B] _ IH]; cbn; constructor; auto. Qed.
Lemma flat_cons x w : fst x <> 3 -> fst x <> 4 -> flat w -> flat (x :: w).
Proof. unfold flat. cbn. intros. constructor; auto. Qed.
Lemma flat_brace a w b : flat w -> flat ((T_lbrace, a) :: w ++ [(T_rbrace, b)]).
Proof.
  unfold flat. intros H. cbn. rewrite map_app. constructor. eapply rise_app; [apply (rise_up 0 _ 0 1); exact H|]. cbn. constructor. constructor.
Qed.
Ltac plain := apply flat_plain; repeat constructor; cbn; unfold ID, T_eq, T_colon, T_comma, T_semi, T_lbrack, T_rbrack in *; discriminate.
Lemma flat_attr w a : d_attr w a -> flat w.
Proof. destruct 1; plain. Qed.
Lemma flat_alist w a : d_alist w a -> flat w.
Proof. induction 1 as [w a H|w a c w' l H C D IH]; [eapply flat_attr; eauto|]. apply flat_app; [eapply flat_attr; eauto|]. apply flat_app; [|exact IH]. destruct C; plain. Qed.
Lemma flat_brack w a : d_brack w a -> flat w.
Proof.
  destruct 1 as [|a w l b H]; [plain|]. apply flat_cons; [discriminate|discriminate|]. apply flat_app; [eapply flat_alist; eauto|plain].
Qed.
Lemma flat_attrs w a : d_attrs w a -> flat w.
Proof. induction 1; [eapply flat_brack; eauto|]. apply flat_app; [eapply flat_brack; eauto|assumption]. Qed.
Lemma flat_opt_attrs w a : d_opt_attrs w a -> flat w.
Proof. destruct 1; [plain|eapply flat_attrs; eauto]. Qed.
Lemma flat_node_id w n : d_node_id w n -> flat w.
Proof. destruct 1; plain. Qed.
Lemma flat_op o b : d_op o b -> fst o <> 3 /\ fst o <> 4.
Proof. destruct 1; split; discriminate. Qed.
Lemma flat_semi w : d_semi w -> flat w.
Proof. destruct 1; plain. Qed.
Lemma flat_all rnd :
  (forall w s k k', d_stmt rnd w s k k' -> flat w) /\ (forall w l k k', d_loc rnd w l k k' -> flat w) /\
  (forall w r k k', d_rhs rnd w r k k' -> flat w) /\ (forall w g k k', d_sub rnd w g k k' -> flat w) /\
  (forall w l k k', d_body rnd w l k k' -> flat w) /\ (forall w l k k', d_stmts rnd w l k k' -> flat w).
Proof.
  apply d_mut; intros; eauto using flat_app, flat_node_id, flat_opt_attrs, flat_semi, flat_brace.
  - plain.
  - apply flat_cons; [discriminate|discriminate|eapply flat_attrs; eauto].
  - apply flat_cons; [discriminate|discriminate|eapply flat_attrs; eauto].
  - apply flat_cons; [discriminate|discriminate|eapply flat_attrs; eauto].
  - destruct (flat_op _ _ H). apply flat_cons; assumption.
  - destruct (flat_op _ _ H). apply flat_cons; [assumption..|]. apply flat_app; assumption.
  - apply flat_cons; [discriminate|discriminate|assumption].
  - apply flat_cons; [discriminate|discriminate|]. apply flat_cons; [discriminate|discriminate|assumption].
  - apply (flat_brace a [] b). constructor.
Qed.
(** The token types of a sentence: no braces, one that opens, balanced ones, and the one that closes. *)
Lemma graph_shape rnd w g k k' : d_graph rnd w g k k' -> exists h b, map fst w = h ++ 3 :: b ++ [4] /\ rise 0 b 0 /\ ~ In 3 h /\ ~ In 4 h.
Proof.
  destruct 1 as [ws st t ty wi i wb l k k1 A B C D].
  assert (E : exists b, map fst wb = 3 :: b ++ [4] /\ rise 0 b 0).
  { destruct D as [a b k|a w l b k k1 D]; [exists []; split; [reflexivity|constructor]|]. exists (map fst w). cbn. rewrite map_app. split; [reflexivity|].
    destruct (flat_all rnd) as (_ & _ & _ & _ & _ & F). eapply F. exact D. }
  destruct E as (b & E & F). exists (map fst ws ++ fst t :: map fst wi), b. split; [|split; [exact F|]].
  - rewrite map_app. cbn. rewrite map_app, E. rewrite <- app_assoc. reflexivity.
  - split; rewrite in_app_iff; intros [H|[H|H]]; destruct A, B, C; cbn in H; firstorder discriminate.
Qed.
Lemma no_rise n : forall b m z m', rise n b m -> rise n (b ++ z) m' -> rise m z m'.
Proof.
  intros b m z m' H. induction H as [n|n l m H IH|n l m H IH|n x l m A B H IH]; cbn; intros H'; [exact H'|inversion H'; subst; try congruence; auto..].
Qed.
Lemma first_split (h b h' b' : list nat) : ~ In 3 h -> ~ In 3 h' -> h ++ 3 :: b = h' ++ 3 :: b' -> h = h' /\ b = b'.
Proof.
  revert h'. induction h as [|x h IH]; intros [|y h'] A B E; cbn in E.
  - injection E as ->. auto.
  - injection E as <- _. exfalso. apply B. left. reflexivity.
  - injection E as -> _. exfalso. apply A. left. reflexivity.
  - injection E as -> E. destruct (IH h') as [-> ->]; [intros C; apply A; right; exact C|intros C; apply B; right; exact C|exact E|auto].
Qed.
Lemma prefix_free rnd rnd' w g k k' w' g' k1 k1' z : d_graph rnd w g k k' -> d_graph rnd' w' g' k1 k1' -> map fst w' = map fst w ++ z -> z = [].
Proof.
  intros D D' E. destruct (graph_shape _ _ _ _ _ D) as (h & b & E1 & R & N & _). destruct (graph_shape _ _ _ _ _ D') as (h' & b' & E1' & R' & N' & _).
  rewrite E1, E1', <- app_assoc in E. cbn [app] in E. symmetry in E. apply first_split in E; [|assumption..]. destruct E as [_ E].
  destruct z as [|x z]; [reflexivity|]. exfalso. rewrite <- app_assoc in E. cbn [app] in E.
  destruct (@exists_last _ (x :: z) ltac:(discriminate)) as (z' & y & Ez). rewrite Ez in E.
  replace (b ++ 4 :: z' ++ [y]) with ((b ++ 4 :: z') ++ [y]) in E by (rewrite <- app_assoc; reflexivity).
  apply app_inj_tail in E. destruct E as [E _]. rewrite <- E in R'. apply (no_rise 0 b 0) in R'; [|exact R]. inversion R'; subst; congruence.
Qed.

(** ** The last token of a sentence is a closing brace. *)
Lemma ok_tokens rnd k0 t g k : parse_bytes rnd k0 t = Ok (g, k) -> exists ts x, tokens t = ts ++ [x] /\ tk_type x = EOF /\
  d_graph rnd (word_of ts) g k0 k /\ (forall a y, ts = a ++ [y] -> tk_type y = 4) /\ ts <> [].
Proof.
  intros H. apply parse_ok_iff in H. destruct H as (w & S & D). apply scans_to_tokens in S. destruct S as (ts & x & E & Ty & W). subst w.
  exists ts, x. split; [exact E|]. split; [exact Ty|]. split; [exact D|].
  destruct (graph_shape _ _ _ _ _ D) as (h & b & Es & _). split.
  - intros a y ->. unfold word_of in Es. rewrite map_map, map_app in Es. cbn [map] in Es.
    replace (h ++ 3 :: b ++ [4]) with ((h ++ 3 :: b) ++ [4]) in Es by (rewrite <- app_assoc; reflexivity). apply app_inj_tail in Es. apply Es.
  - intros ->. destruct h; discriminate.
Qed.
Lemma ok_ascii_end rnd k0 t g k : parse_bytes rnd k0 t = Ok (g, k) -> ascii_end t.
Proof.
  intros H. destruct (ok_tokens _ _ _ _ _ H) as (ts & x & E & Ty & D & L & N).
  pose proof (tokens_lexes t) as Lx. rewrite E, map_app in Lx. cbn [map] in Lx.
  assert (S : scans_to t (word_of ts)) by (apply scans_to_tokens; eauto).
  destruct S as (ts0 & q & Lx0 & _). pose proof (lexes_unique _ _ _ Lx (pieces_small t) _ Lx0) as Eq. apply app_inj_tail in Eq. destruct Eq as [Eq _].
  destruct (lexes_end _ _ _ Lx0 (pieces_small t) ts0 q eq_refl) as (ps' & r & bs & Ep & Hr).
  - intros ts1 y ->. apply map_eq_app in Eq. destruct Eq as (l1 & l2 & -> & _ & E2). destruct l2 as [|y0 [|? ?]]; try discriminate. injection E2 as <-.
    apply (L l1 y0). reflexivity.
  - intros Ep. rewrite Ep in Lx. inversion Lx; subst.
    + destruct ts; [congruence|]. destruct ts; discriminate.
    + match goal with L : longest [] ?u _ _ |- _ => destruct L as (Ex & Nx & _); destruct u; [congruence|discriminate] end.
    + match goal with L : longest [] ?u _ _ |- _ => destruct L as (Ex & Nx & _); destruct u; [congruence|discriminate] end.
    + match goal with E : _ ++ _ :: _ = [] |- _ => apply app_eq_nil in E; destruct E; discriminate end.
    + congruence.
  - eapply pieces_last_small; eauto.
Qed.

Lemma cc_word rnd tys : can_continue rnd tys -> ~ In 1 tys -> exists w g k k' z, ids_nonempty w /\ d_graph rnd w g k k' /\ map fst w = tys ++ z.
Proof.
  intros (w & g & k & k' & z & I & D & E) N. exists w, g, k, k'. destruct (@exists_last _ z) as (z' & x & ->).
  - intros ->. rewrite app_nil_r in E. apply N. rewrite <- E. apply in_or_app. right. left. reflexivity.
  - rewrite app_assoc in E. apply app_inj_tail in E. exists z'. split; [exact I|]. split; [exact D|apply E].
Qed.
Lemma cc_prefix rnd a b : can_continue rnd (a ++ b) -> can_continue rnd a.
Proof. intros (w & g & k & k' & z & I & D & E). exists w, g, k, k', (b ++ z). rewrite app_assoc. auto. Qed.
Lemma nonfinal_types ts : forallb (fun t => negb (is_final t)) ts = true -> ~ In 1 (map tk_type ts).
Proof.
  intros H C. apply in_map_iff in C. destruct C as (y & Ey & C). rewrite forallb_forall in H. specialize (H _ C). unfold is_final in H. rewrite Ey in H. discriminate.
Qed.

(** ** C66 If a text is accepted, what may follow it is layout only: a longer text is accepted if and only if the rest has
    no tokens, and then gives the same graph.  Otherwise the error is at the first token of the rest, and only the end of the
    text is expected there. *)
Theorem C66_nothing_follows : forall rnd k0 t u g k, parse_bytes rnd k0 t = Ok (g, k) ->
  exists y ys, tokens u = y :: ys /\
  (tk_type y = EOF -> parse_bytes rnd k0 (t ++ u) = Ok (g, k)) /\
  (tk_type y <> EOF -> exists e, parse_bytes rnd k0 (t ++ u) = Err e /\
     tk_type (pe_token e) = tk_type y /\ tk_lit (pe_token e) = tk_lit y /\ tk_off (pe_token e) = length t + tk_off y /\
     forall ty, In ty (pe_expected e) <-> ty = EOF).
Proof.
  intros rnd k0 t u g k H. destruct (tokens_final u) as (us & uf & Eu & Fu & Nu).
  destruct (tokens u) as [|y ys] eqn:Ey; [destruct us; discriminate|]. exists y, ys. split; [reflexivity|].
  destruct u as [|u0 u1] eqn:Eu0.
  { rewrite app_nil_r. split; [intros _; exact H|]. intros N. exfalso. apply N. vm_compute in Ey. injection Ey as <- _. reflexivity. }
  rewrite <- Eu0 in *. assert (U : u <> []) by (rewrite Eu0; discriminate). clear Eu0 u0 u1.
  destruct (ok_tokens _ _ _ _ _ H) as (ts & x & E & Ty & D & L & N).
  assert (B : forall a' z, ts = a' ++ [z] -> blocked (tk_type z) u) by (intros a' z Ez; rewrite (L a' z Ez); apply rbrace_blocked).
  destruct (tokens_app_end t u ts x E Ty U (or_introl (ok_ascii_end _ _ _ _ _ H)) B) as (p & Pp & Et).
  pose proof (toks_from_tokens p u) as F2. rewrite Ey in F2. inversion F2 as [|y0 z ys0 zs (A1 & A2 & A3) F3 Q1 Q2]; subst y0 ys0.
  assert (Tn := tokens_nonfinal _ _ _ E). assert (T1 := nonfinal_types _ Tn).
  split.
  - intros Yt. assert (zs = []) as ->.
    { destruct ys as [|y1 ys]; [inversion F3; reflexivity|]. exfalso. destruct us as [|u1 us]; cbn in Eu; [discriminate|]. injection Eu as <- _.
      cbn in Nu. unfold is_final in Nu. rewrite Yt in Nu. discriminate. }
    apply parse_ok_iff. exists (word_of ts). split; [|exact D]. apply scans_to_tokens. exists ts, z. rewrite Et, <- Q2. split; [reflexivity|]. split; [congruence|reflexivity].
  - intros Yt. rewrite <- Q2 in Et.
    destruct (parse_total rnd k0 (t ++ u)) as [(g' & k' & P)|(e & P)].
    { exfalso. destruct (ok_tokens _ _ _ _ _ P) as (ts' & x' & E' & Ty' & D' & _ & _). rewrite Et in E'.
      destruct (@exists_last _ (z :: zs) ltac:(discriminate)) as (zs' & x0 & Ez). rewrite Ez, app_assoc in E'. apply app_inj_tail in E'. destruct E' as [<- ->].
      assert (Z : map tk_type zs' = []).
      { eapply (prefix_free rnd rnd (word_of ts) _ _ _ (word_of (ts ++ zs'))); [exact D|exact D'|]. unfold word_of. rewrite !map_map, map_app. reflexivity. }
      destruct zs'; [|discriminate]. cbn in Ez. injection Ez as -> _. congruence. }
    exists e. split; [exact P|]. destruct (parse_error_spec _ _ _ _ P) as (w1 & w2 & Ew & C1 & C2 & C3). rewrite Et in Ew.
    assert (NC : forall ty z', can_continue rnd (map tk_type ts ++ ty :: z') -> ty = 1).
    { intros ty z' (w & g1 & k1 & k1' & z0 & _ & Dw & Ez). destruct (@exists_last _ (ty :: z' ++ z0) ltac:(discriminate)) as (l & a & El).
      rewrite <- app_assoc in Ez. cbn [app] in Ez. rewrite El, app_assoc in Ez. apply app_inj_tail in Ez. destruct Ez as [Ez <-].
      assert (Z : l = []). { eapply (prefix_free rnd rnd (word_of ts) _ _ _ w); [exact D|exact Dw|]. rewrite Ez. unfold word_of. rewrite map_map. reflexivity. }
      subst l. cbn in El. injection El as El _. exact El. }
    assert (CT : can_continue rnd (map tk_type ts ++ [1])).
    { exists (word_of ts), g, k0, k, []. split; [eapply tokens_ids; exact E|]. split; [exact D|]. rewrite app_nil_r. unfold word_of. rewrite map_map. reflexivity. }
    assert (W : w1 = ts /\ pe_token e = z).
    { assert (LEN : length w1 = length ts).
      { destruct (Nat.lt_trichotomy (length w1) (length ts)) as [Lt|[Eq|Gt]]; [|exact Eq|]; exfalso.
        - symmetry in Ew. destruct (app_split_len _ _ _ _ Ew ltac:(lia)) as (e0 & Ea & Eb). destruct e0 as [|e1 e0]; [rewrite app_nil_r in Ea; subst; lia|].
          cbn in Eb. injection Eb as Eb _. rewrite Eb in C2. apply C2. apply (cc_prefix rnd _ (map tk_type e0 ++ [1])). rewrite Ea, map_app in CT. cbn [map] in CT.
          rewrite <- app_assoc in CT |- *. cbn [app] in *. exact CT.
        - destruct (app_split_len _ _ _ _ Ew ltac:(lia)) as (e0 & Ea & Eb). destruct e0 as [|e1 e0]; [rewrite app_nil_r in Ea; subst; lia|].
          cbn in Eb. injection Eb as Eb _. subst e1. rewrite Ea, map_app in C1. cbn [map] in C1. apply NC in C1. apply Yt. rewrite A1. exact C1. }
      destruct (app_split_len _ _ _ _ Ew ltac:(lia)) as (e0 & Ea & Eb). destruct e0 as [|e1 e0]; [|rewrite Ea, app_length in LEN; cbn in LEN; lia].
      rewrite app_nil_r in Ea. cbn in Eb. injection Eb as Eb _. auto. }
    destruct W as [-> ->]. split; [symmetry; exact A1|]. split; [symmetry; exact A2|]. split; [lia|].
    intros ty. rewrite C3. split; [apply NC|intros ->; exact CT].
Qed.
Print Assumptions C66_nothing_follows.

(** Of two texts that are accepted, where one begins the other, the rest is layout: a text that is cut off inside the
    graph is never accepted. *)
Corollary C66_prefix_free : forall rnd k0 t u g k g' k', parse_bytes rnd k0 t = Ok (g, k) -> parse_bytes rnd k0 (t ++ u) = Ok (g', k') ->
  g' = g /\ k' = k /\ exists x, tokens u = [x] /\ tk_type x = EOF.
Proof.
  intros rnd k0 t u g k g' k' H H'. destruct (C66_nothing_follows rnd k0 t u g k H) as (y & ys & E & A & B).
  destruct (Nat.eq_dec (tk_type y) EOF) as [Y|Y].
  - rewrite (A Y) in H'. injection H' as <- <-. split; [reflexivity|]. split; [reflexivity|]. exists y. split; [|exact Y].
    destruct (tokens_final u) as (us & uf & Eu & Fu & Nu). rewrite E in Eu. destruct us as [|u1 us]; cbn in Eu; [injection Eu as -> ->; exact E|].
    injection Eu as <- _. cbn in Nu. unfold is_final in Nu. rewrite Y in Nu. discriminate.
  - destruct (B Y) as (e & P & _). congruence.
Qed.
Print Assumptions C66_prefix_free.

(** ** An error that is not at the end of the text is there whatever follows.  (If the text may end in the middle of a
    rune, four bytes after the token decide.) *)
Lemma iter_err_prefix rnd : forall f st toks k e, iter f rnd (st, toks, k) = Err e ->
  exists a v, toks = a ++ pe_token e :: v /\ forall v', iter f rnd (st, a ++ pe_token e :: v', k) = Err e.
Proof.
  induction f as [|f IH]; intros st toks k e H; [discriminate|]. cbn [iter] in H.
  destruct st as [|[s v0] st0]; [discriminate|]. destruct toks as [|tok toks]; [discriminate|].
  match type of H with (match ?x with _ => _ end) = _ => destruct x as [[[st1 toks1] k1]|r] eqn:P end.
  - destruct (IH _ _ _ _ H) as (a & v & E & K). unfold pstep in P. destruct (negb (Nat.ltb s num_states)) eqn:Es; [discriminate|].
    destruct (action_at s (tk_type tok)) as [[|n|p]|] eqn:A; try discriminate.
    + injection P as <- <- <-. exists (tok :: a), v. subst toks. split; [reflexivity|]. intros v'. cbn [iter app]. unfold pstep. rewrite Es, A. apply K.
    + destruct (nth_error prod_tab p) as [pr|] eqn:Ep; [|discriminate]. destruct (Nat.ltb (length ((s, v0) :: st0)) (p_num pr)) eqn:El; [discriminate|].
      destruct (run_sem _ _ _ _) as [[v1 k2]|] eqn:Er; [|discriminate]. destruct (skipn _ _) as [|[s' v'] st'] eqn:Ek; [discriminate|].
      cbv zeta in P. destruct (Z.ltb _ 0) eqn:Ez; [discriminate|]. injection P as <- <- <-.
      exists a, v. split; [exact E|]. intros v''. specialize (K v''). destruct a as [|x a]; cbn [app] in K, E |- *; injection E as E0 _; [rewrite <- E0 in K |- *|subst x]; cbn [iter]; unfold pstep; rewrite Es, A, Ep, El, Er, Ek; cbv zeta; rewrite Ez; exact K.
  - subst r. unfold pstep in P. destruct (negb (Nat.ltb s num_states)) eqn:Es; [discriminate|].
    destruct (action_at s (tk_type tok)) as [[|n|p]|] eqn:A; try discriminate.
    + destruct (nth_error prod_tab p) as [pr|]; [|discriminate]. destruct (Nat.ltb (length ((s, v0) :: st0)) (p_num pr)); [discriminate|].
      destruct (run_sem _ _ _ _) as [[v1 k2]|]; [|discriminate]. destruct (skipn _ _) as [|[s' v'] st']; [discriminate|].
      cbv zeta in P. destruct (Z.ltb _ 0); discriminate.
    + injection P as <-. cbn [pe_token]. exists [], toks. split; [reflexivity|]. intros v'. cbn [iter app]. unfold pstep. rewrite Es, A. reflexivity.
Qed.
Theorem C66_error_stable : forall rnd k0 t u e, parse_bytes rnd k0 t = Err e ->
  let stop := tk_off (pe_token e) + length (tk_lit (pe_token e)) in
  stop < length t -> (stop + 4 <= length t \/ ascii_end t \/ ascii_start u) ->
  parse_bytes rnd k0 (t ++ u) = Err e.
Proof.
  intros rnd k0 t u e H stop L C. destruct (parse_bytes_iter rnd k0 t) as (f & Hf & Hne & Ep). rewrite H in Ep.
  destruct (iter f rnd ([(0, VNil)], tokens t, k0)) as [[v k1]|e'| |] eqn:Ei; try discriminate; [destruct v; discriminate|]. injection Ep as <-.
  destruct (iter_err_prefix _ _ _ _ _ _ Ei) as (a & v & E & K).
  destruct (tokens_app_early t u a (pe_token e) v E L C) as (v' & E').
  destruct (parse_bytes_iter rnd k0 (t ++ u)) as (f' & Hf' & Hne' & Ep'). rewrite Ep', E'. rewrite E' in Hne'.
  assert (X : iter f' rnd ([(0, VNil)], a ++ pe_token e :: v', k0) = Err e).
  { specialize (K v'). destruct (Nat.le_ge_cases f f') as [Lf|Lf].
    - etransitivity; [apply (iter_mono rnd f f' _ Lf)|exact K]. intros O. pose proof (eq_trans (eq_sym K) O). discriminate.
    - etransitivity; [|exact K]. symmetry. apply iter_mono; assumption. }
  rewrite X. reflexivity.
Qed.
Print Assumptions C66_error_stable.

(** ** A text whose parsing fails at its end can be completed: nothing in it is wrong. *)
Definition spell (ty : nat) : gostr :=
  match find (fun x : gostr * nat => Nat.eqb (snd x) ty) (closed_words ++ kw_words) with Some (s, _) => s | None => lit "x" end.
Definition spell_all (l : list nat) : gostr := concat (map (fun ty => spell ty ++ [sp]) l).
Lemma spell_lexeme ty : 2 <= ty <= 18 -> is_lexeme (runes_of (pieces (spell ty))) (Tok ty) /\ clean (spell ty).
Proof.
  intros H. destruct (Nat.eq_dec ty 18) as [->|N].
  - assert (E : spell 18 = lit "x") by (vm_compute; reflexivity). rewrite E. assert (I : is_lexeme (runes_of (pieces (lit "x"))) (Tok 18)).
    { apply dfa_correct; [apply pieces_small|]. vm_compute. eexists. split; reflexivity. }
    split; [exact I|]. apply is_id_clean. exact I.
  - assert (K : In (spell ty, ty) (closed_words ++ kw_words)).
    { do 18 (destruct ty as [|ty]; [try lia; vm_compute; tauto|]). lia. }
    destruct (word_facts _ _ K) as (Hx & Hc & Hr & st & L & Hd & Hl). split; [|exact Hc]. apply dfa_correct; [apply pieces_small|]. exists st. rewrite Hr. auto.
Qed.
Lemma spell_lexb l : Forall (fun ty => 2 <= ty <= 18) l -> lexb (spell_all l) (map (fun ty => (ty, spell ty)) l).
Proof.
  induction 1 as [|ty l H _ IH]; [apply lexb_nil|]. unfold spell_all. cbn [map concat]. rewrite <- app_assoc.
  destruct (spell_lexeme ty H) as [A B]. apply lexb_token; [exact A|exact B|reflexivity|]. cbn [app]. apply lexb_blank; [reflexivity|exact IH].
Qed.
Definition ranged (w : word) : Prop := Forall (fun x : nat * gostr => 2 <= fst x <= 18) w.
Lemma ranged_app w w' : ranged w -> ranged w' -> ranged (w ++ w').
Proof. intros A B. apply Forall_app. auto. Qed.
Lemma ranged_cons x w : 2 <= fst x <= 18 -> ranged w -> ranged (x :: w).
Proof. constructor; assumption. Qed.
Lemma ranged_nil : ranged [].
Proof. constructor. Qed.
Ltac rg := repeat first [apply ranged_nil | apply ranged_cons; [cbn; unfold ID, T_graph, T_lbrace, T_rbrace, T_strict, T_digraph, T_semi, T_eq, T_node, T_edge, T_lbrack, T_rbrack, T_comma, T_colon, T_subgraph, T_arrow, T_line; lia|] | apply ranged_app | assumption].
Lemma ranged_attr w a : d_attr w a -> ranged w.
Proof. destruct 1; rg. Qed.
Lemma ranged_alist w a : d_alist w a -> ranged w.
Proof. induction 1 as [w a H|w a c w' l H C D IH]; [eapply ranged_attr; eauto|]. apply ranged_app; [eapply ranged_attr; eauto|]. apply ranged_app; [|exact IH]. destruct C; rg. Qed.
Lemma ranged_brack w a : d_brack w a -> ranged w.
Proof. destruct 1 as [|a w l b H]; [rg|]. apply ranged_alist in H. rg. Qed.
Lemma ranged_attrs w a : d_attrs w a -> ranged w.
Proof. induction 1; [eapply ranged_brack; eauto|]. apply ranged_app; [eapply ranged_brack; eauto|assumption]. Qed.
Lemma ranged_opt_attrs w a : d_opt_attrs w a -> ranged w.
Proof. destruct 1; [rg|eapply ranged_attrs; eauto]. Qed.
Lemma ranged_node_id w n : d_node_id w n -> ranged w.
Proof. destruct 1; rg. Qed.
Lemma ranged_op o b : d_op o b -> 2 <= fst o <= 18.
Proof. destruct 1; cbn; unfold T_arrow, T_line; lia. Qed.
Lemma ranged_semi w : d_semi w -> ranged w.
Proof. destruct 1; rg. Qed.
Lemma ranged_all rnd :
  (forall w s k k', d_stmt rnd w s k k' -> ranged w) /\ (forall w l k k', d_loc rnd w l k k' -> ranged w) /\
  (forall w r k k', d_rhs rnd w r k k' -> ranged w) /\ (forall w g k k', d_sub rnd w g k k' -> ranged w) /\
  (forall w l k k', d_body rnd w l k k' -> ranged w) /\ (forall w l k k', d_stmts rnd w l k k' -> ranged w).
Proof.
  apply d_mut; intros; repeat match goal with
   | H : d_attrs _ _ |- _ => apply ranged_attrs in H | H : d_opt_attrs _ _ |- _ => apply ranged_opt_attrs in H | H : d_node_id _ _ |- _ => apply ranged_node_id in H
   | H : d_op _ _ |- _ => apply ranged_op in H | H : d_semi _ |- _ => apply ranged_semi in H end; rg; try (apply ranged_cons; [assumption|]; rg).
Qed.
Lemma ranged_graph rnd w g k k' : d_graph rnd w g k k' -> ranged w.
Proof.
  destruct 1 as [ws st t ty wi i wb l k k1 A B C D]. destruct (ranged_all rnd) as (_ & _ & _ & _ & F & _). apply F in D.
  apply ranged_app; [destruct A; rg|]. apply ranged_cons; [destruct B; cbn; unfold T_graph, T_digraph; lia|]. apply ranged_app; [destruct C; rg|exact D].
Qed.

Theorem C66_incomplete : forall rnd k0 t e, parse_bytes rnd k0 t = Err e -> tk_type (pe_token e) = EOF ->
  exists u g k, parse_bytes rnd k0 (t ++ u) = Ok (g, k).
Proof.
  intros rnd k0 t e H Ty. destruct (parse_error_spec _ _ _ _ H) as (ts & ts' & E & C & _).
  assert (ts' = []) as ->.
  { destruct (tokens_final t) as (us & uf & Eu & Fu & Nu). rewrite E in Eu. destruct ts' as [|x ts']; [reflexivity|]. exfalso.
    destruct (@exists_last _ (x :: ts') ltac:(discriminate)) as (l & b & El). rewrite El in Eu. rewrite app_comm_cons, app_assoc in Eu. apply app_inj_tail in Eu. destruct Eu as [<- _].
    rewrite forallb_app in Nu. cbn in Nu. unfold is_final in Nu. rewrite Ty in Nu. cbn in Nu. rewrite andb_false_r in Nu. discriminate. }
  assert (Tn := tokens_nonfinal _ _ _ E). assert (T1 := nonfinal_types _ Tn).
  destruct (cc_word _ _ C T1) as (w & g0 & k1 & k1' & z & Iw & D & Ez).
  assert (Rz : Forall (fun ty => 2 <= ty <= 18) z).
  { pose proof (ranged_graph _ _ _ _ _ D) as R. unfold ranged in R. rewrite <- (Forall_map fst (fun ty => 2 <= ty <= 18)) in R. rewrite Ez in R. apply Forall_app in R. apply R. }
  set (u := sp :: spell_all z).
  assert (Lu : scans_to u (map (fun ty => (ty, spell ty)) z)) by (apply lexb_scans, lexb_blank; [reflexivity|apply spell_lexb; exact Rz]).
  apply scans_to_tokens in Lu. destruct Lu as (us & ux & Eu & Tu & Wu).
  destruct (tokens_app_end t u ts (pe_token e) E Ty) as (p & _ & Et); [discriminate|right; exists sp, (spell_all z); split; [reflexivity|vm_compute; reflexivity]| |].
  { intros a y ->. apply space_blocked. rewrite forallb_app in Tn. apply andb_true_iff in Tn. destruct Tn as [_ Tn]. cbn in Tn. rewrite andb_true_r in Tn.
    apply negb_true_iff in Tn. unfold is_final in Tn. apply orb_false_iff in Tn. destruct Tn as [N1 N2]. apply Nat.eqb_neq in N1, N2. unfold EOF, INVALID in *. lia. }
  pose proof (toks_from_tokens p u) as F2. rewrite Eu in F2. apply Forall2_app_inv_l in F2. destruct F2 as (vs & vx & F2 & F3 & Ev). rewrite Ev in Et.
  inversion F3 as [|? x1 ? ? (X1 & _) F4]; subst. inversion F4; subst. rewrite app_assoc in Et.
  assert (Tv : map tk_type vs = z).
  { assert (Q : map tk_type us = z).
    { transitivity (map fst (word_of us)); [unfold word_of; rewrite map_map; reflexivity|]. rewrite Wu, map_map. apply map_id. }
    rewrite <- Q. clear -F2. induction F2 as [|? ? ? ? (A & _) _ IH]; cbn; congruence. }
  assert (TD : tder (Nt 1) (map tk_type (ts ++ vs))).
  { rewrite map_app, Tv, <- Ez. pose (xs := map (fun x : nat * gostr => Token (fst x) (snd x) 0 0 0) w).
    assert (Ew : word_of xs = w). { unfold word_of, xs. rewrite map_map. erewrite map_ext; [apply map_id|]. intros [a b]. reflexivity. }
    pose proof (proj1 (der_tder rnd) _ _ _ _ _ (sentence_der rnd _ _ _ _ xs D Iw Ew)) as Q. unfold xs in Q. rewrite map_map in Q. exact Q. }
  destruct (proj1 (tder_der rnd) _ _ TD (ts ++ vs) k0 eq_refl) as (v & k2 & Hd).
  destruct (der_sentence rnd _ _ _ _ Hd (tokens_ids _ _ _ Et)) as (g & _ & Hg).
  exists u, g, k2. apply parse_ok_iff. exists (word_of (ts ++ vs)). split; [|exact Hg]. apply scans_to_tokens. exists (ts ++ vs), x1. split; [exact Et|]. split; [congruence|reflexivity].
Qed.
Print Assumptions C66_incomplete.
(** Conversely a text that can be completed is accepted, or its error is at (or within three bytes of) its end. *)
Corollary C66_completable : forall rnd k0 t e u g k, parse_bytes rnd k0 t = Err e -> parse_bytes rnd k0 (t ++ u) = Ok (g, k) ->
  let stop := tk_off (pe_token e) + length (tk_lit (pe_token e)) in
  stop = length t \/ (length t < stop + 4 /\ ~ ascii_end t /\ ~ ascii_start u).
Proof.
  intros rnd k0 t e u g k H H' stop.
  assert (stop <= length t).
  { destruct (parse_error_spec _ _ _ _ H) as (ts & ts' & E & _). destruct (scan_all_reaches _ _ _ _ _ E) as (lx1 & lx2 & f & R & S1 & _).
    destruct (reaches_pos _ _ _ R) as (y & E1 & E2). cbn [new_lexer lx_rest lx_pos] in E1, E2. destruct (scan_end _ _ _ S1) as [_ L].
    unfold stop. unfold tend in L. rewrite E1, app_length. lia. }
  destruct (Nat.eq_dec stop (length t)) as [|N]; [left; assumption|right].
  assert (X : ~ (stop + 4 <= length t \/ ascii_end t \/ ascii_start u)).
  { intros C. pose proof (C66_error_stable rnd k0 t u e H ltac:(fold stop; lia) C). congruence. }
  split; [|split; intros Q; apply X; auto]. destruct (Nat.le_gt_cases (stop + 4) (length t)) as [L|L]; [exfalso; auto|exact L].
Qed.
Print Assumptions C66_completable.

(** *** Examples: a text and one with a second graph; an error in the middle; texts that are cut off after each byte. *)
Definition ex_t : gostr := lit "graph { a -- b }".
Definition ex_bad : gostr := lit "graph { a -> ] b".
Example C66_example :
  (exists g k, parse_bytes rnd0 0 ex_t = Ok (g, k)) /\
  (exists e, parse_bytes rnd0 0 (ex_t ++ lit "graph {}") = Err e /\ tk_off (pe_token e) = 16) /\
  (exists e, parse_bytes rnd0 0 ex_bad = Err e /\ tk_off (pe_token e) = 13 /\ length ex_bad = 16 /\ ascii_end ex_bad) /\
  forallb (fun n => match parse_bytes rnd0 0 (firstn n ex_t) with Ok _ => false | Err e => true | _ => false end) (seq 0 16) = true /\
  exists e, parse_bytes rnd0 0 (lit "graph { a -- ") = Err e /\ tk_type (pe_token e) = EOF.
Proof.
  split; [do 2 eexists; vm_compute; reflexivity|]. split; [eexists; split; vm_compute; reflexivity|].
  split; [eexists; split; [vm_compute; reflexivity|split; [reflexivity|split; [reflexivity|]]]|].
  - exists (lit "graph { a -> ] "), (ascii_of_nat 98). split; vm_compute; reflexivity.
  - split; [vm_compute; reflexivity|]. eexists. split; vm_compute; reflexivity.
Qed.
