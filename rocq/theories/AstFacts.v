(** More about printed ASTs: normalisation is invisible in the text; ASTs made by the parser are
    well-formed. *)
From Coq Require Import List Ascii NArith ZArith Bool Lia Arith DecimalString.
From Verif Require Import Base LexTables Ast LexSpec Lexer LexDfa LexerProofs Tokens LexFacts SpecGrammar GrammarProofs ParseFacts
  Parser LexPrint TrimFacts SpecAst AstProofs.
Import ListNotations.
Local Opaque bisim_set spec_vec trans_tab act_tab bounds reps.

(** ** Normalisation does not change the text *)
Lemma norm_attrs_idem l : norm_attrs (norm_attrs l) = norm_attrs l.
Proof.
  unfold norm_attrs. induction l as [|al l IH]; cbn [filter]; [reflexivity|].
  destruct al; cbn [filter]; [exact IH|]. rewrite IH. reflexivity.
Qed.
Lemma attr_list_str_norm l : attr_list_str (norm_attrs l) = attr_list_str l.
Proof. rewrite !attr_list_str_eq, norm_attrs_idem. reflexivity. Qed.

Lemma keep_str s ind : keep s = false -> stmt_str ind s = [].
Proof.
  destruct s; cbn [keep]; try discriminate; intros H; cbn [stmt_str]; unfold attrs_stmt_str;
    rewrite attr_list_str_eq; destruct (norm_attrs a); try discriminate; reflexivity.
Qed.
Lemma stmt_list_join_filter ss : stmt_list_join ss = stmt_list_join (filter nonempty ss).
Proof.
  unfold stmt_list_join. rewrite !join_fold. f_equal. f_equal. f_equal. f_equal.
  induction ss as [|x ss IH]; cbn [filter]; [reflexivity|]. destruct x; cbn [nonempty filter]; [exact IH|]. rewrite <- IH. reflexivity.
Qed.
Lemma norm_body_str b ind : Forall (fun s => forall ind, stmt_str ind (norm_stmt s) = stmt_str ind s) b ->
  stmt_list_join (map (stmt_str ind) (norm_stmts b)) = stmt_list_join (map (stmt_str ind) b).
Proof.
  intros H. rewrite (stmt_list_join_filter (map _ (norm_stmts b))), (stmt_list_join_filter (map _ b)). f_equal.
  induction H as [|s b Hs Hb IH]; [reflexivity|]. cbn [norm_stmts flat_map]. fold (norm_stmts b).
  destruct (keep s) eqn:E.
  - cbn [app map filter]. rewrite Hs, IH. reflexivity.
  - cbn [app map filter]. rewrite (keep_str s ind E), IH. reflexivity.
Qed.
Lemma norm_str : (forall s, forall ind, stmt_str ind (norm_stmt s) = stmt_str ind s) /\
  (forall l, location_str (norm_loc l) = location_str l) /\ (forall g, forall ind, subgraph_str ind (norm_sub g) = subgraph_str ind g).
Proof.
  apply stmt_all_ind.
  - intros n a ind. cbn [norm_stmt stmt_str]. rewrite attr_list_str_norm. reflexivity.
  - intros l r a Hl Hr ind. cbn [norm_stmt stmt_str]. rewrite attr_list_str_norm, Hl. do 3 f_equal. f_equal.
    f_equal. f_equal. induction Hr as [|[o d] r Hd Hr IH]; [reflexivity|]. cbn [map edge_rh_str]. rewrite Hd, IH. reflexivity.
  - intros a ind. cbn [norm_stmt stmt_str]. unfold attrs_stmt_str. rewrite attr_list_str_norm. reflexivity.
  - intros a ind. cbn [norm_stmt stmt_str]. unfold attrs_stmt_str. rewrite attr_list_str_norm. reflexivity.
  - intros a ind. cbn [norm_stmt stmt_str]. unfold attrs_stmt_str. rewrite attr_list_str_norm. reflexivity.
  - intros g Hg ind. cbn [norm_stmt stmt_str]. apply Hg.
  - reflexivity.
  - reflexivity.
  - intros g Hg. cbn [norm_loc location_str]. apply Hg.
  - intros i b Hb ind. cbn [norm_sub subgraph_str]. fold (norm_stmts b). rewrite (norm_body_str b (ind ++ [tab]) Hb). reflexivity.
Qed.
Theorem graph_str_norm g : graph_str (norm_graph g) = graph_str g.
Proof.
  unfold graph_str, norm_graph, stmts_str. cbn [g_type g_strict g_id g_stmts]. rewrite norm_body_str; [reflexivity|].
  apply Forall_forall. intros s _. apply norm_str.
Qed.

Lemma keep_norm s : keep (norm_stmt s) = keep s.
Proof. destruct s; cbn [norm_stmt keep]; try reflexivity; rewrite norm_attrs_idem; reflexivity. Qed.
Lemma norm_body_idem b : Forall (fun s => norm_stmt (norm_stmt s) = norm_stmt s) b -> norm_stmts (norm_stmts b) = norm_stmts b.
Proof.
  induction 1 as [|s b Hs Hb IH]; [reflexivity|]. cbn [norm_stmts flat_map]. fold (norm_stmts b).
  destruct (keep s) eqn:E; cbn [app]; [|exact IH]. cbn [norm_stmts flat_map]. fold (norm_stmts (norm_stmts b)).
  rewrite keep_norm, E, Hs, IH. reflexivity.
Qed.
Lemma norm_idem : (forall s, norm_stmt (norm_stmt s) = norm_stmt s) /\ (forall l, norm_loc (norm_loc l) = norm_loc l) /\
  (forall g, norm_sub (norm_sub g) = norm_sub g).
Proof.
  apply stmt_all_ind.
  - intros n a. cbn. rewrite norm_attrs_idem. reflexivity.
  - intros l r a Hl Hr. cbn. rewrite norm_attrs_idem, Hl. f_equal. induction Hr as [|[o d] r Hd Hr IH]; [reflexivity|].
    cbn. rewrite Hd, IH. reflexivity.
  - intros a. cbn. rewrite norm_attrs_idem. reflexivity.
  - intros a. cbn. rewrite norm_attrs_idem. reflexivity.
  - intros a. cbn. rewrite norm_attrs_idem. reflexivity.
  - intros g Hg. cbn. rewrite Hg. reflexivity.
  - reflexivity.
  - reflexivity.
  - intros g Hg. cbn. rewrite Hg. reflexivity.
  - intros i b Hb. cbn [norm_sub]. fold (norm_stmts b). fold (norm_stmts (norm_stmts b)). rewrite norm_body_idem by exact Hb. reflexivity.
Qed.
Theorem norm_graph_idem g : norm_graph (norm_graph g) = norm_graph g.
Proof.
  unfold norm_graph. cbn. f_equal. apply norm_body_idem. apply Forall_forall. intros s _. apply norm_idem.
Qed.

(** ** Well-formedness is monotone and closed under conjunction *)
Section WfMono.
  Variables P Q R : gostr -> Prop.
  Hypothesis PQR : forall i, P i -> Q i -> R i.
  Lemma wf_attrs_mono a : wf_attrs P a -> wf_attrs Q a -> wf_attrs R a.
  Proof.
    unfold wf_attrs. rewrite !Forall_forall. intros H1 H2 al Hin. specialize (H1 al Hin). specialize (H2 al Hin).
    rewrite !Forall_forall in *. intros x Hx. specialize (H1 x Hx). specialize (H2 x Hx). destruct H1, H2. split; auto.
  Qed.
  Lemma wf_node_mono n : wf_node_id P n -> wf_node_id Q n -> wf_node_id R n.
  Proof.
    destruct n as [i [p q]]. unfold wf_node_id, wf_port. cbn. intros [H1 H2] [H3 H4]. split; [auto|].
    destruct p, q; cbn in *; intuition auto.
  Qed.
  Lemma Forall_mono {A} (F G H : A -> Prop) l : Forall (fun x => F x -> G x -> H x) l -> Forall F l -> Forall G l -> Forall H l.
  Proof. induction 1; intros X1 X2; inversion X1; inversion X2; subst; constructor; auto. Qed.
  Lemma wf_mono : (forall s, wf_stmt P s -> wf_stmt Q s -> wf_stmt R s) /\ (forall l, wf_loc P l -> wf_loc Q l -> wf_loc R l) /\
    (forall g, wf_sub P g -> wf_sub Q g -> wf_sub R g).
  Proof.
    apply stmt_all_ind.
    - intros n a [H1 H2] [H3 H4]. split; [apply wf_node_mono|apply wf_attrs_mono]; assumption.
    - intros l r a Hl Hr H1 H2. rewrite wf_edge_iff in *. destruct H1 as (? & ? & F1 & ?), H2 as (? & ? & F2 & ?).
      split; [auto|]. split; [auto|]. split; [|apply wf_attrs_mono; assumption].
      refine (Forall_mono _ _ _ r _ F1 F2). revert Hr. apply Forall_impl. intros [o d]. cbn. auto.
    - intros a. apply wf_attrs_mono.
    - intros a. apply wf_attrs_mono.
    - intros a. apply wf_attrs_mono.
    - intros g Hg. exact Hg.
    - intros a [H1 H2] [H3 H4]. split; auto.
    - intros n. apply wf_node_mono.
    - intros g Hg. exact Hg.
    - intros i b Hb H1 H2. rewrite wf_sub_iff in *. destruct H1 as [? F1], H2 as [? F2]. split; [auto|].
      exact (Forall_mono _ _ _ b Hb F1 F2).
  Qed.
  Lemma wf_graph_mono g : wf_graph P g -> wf_graph Q g -> wf_graph R g.
  Proof.
    intros [H1 H2] [H3 H4]. split; [intros Hn; apply PQR; auto|].
    refine (Forall_mono _ _ _ _ _ H2 H4). apply Forall_forall. intros s _. apply wf_mono.
  Qed.
End WfMono.

(** ** ASTs made by the parser *)
Definition ids_ok (P : gostr -> Prop) (w : SpecGrammar.word) : Prop := Forall (fun x => fst x = ID -> P (snd x)) w.

Section WfDer.
  Variables (P : gostr -> Prop) (rnd : nat -> N).
  Hypotheses (Ptrue : P (lit "true")) (Panon : forall r, P (anon r)) (Pne : forall i, P i -> i <> []).

  Lemma ids_app w w' : ids_ok P (w ++ w') <-> ids_ok P w /\ ids_ok P w'.
  Proof. apply Forall_app. Qed.
  Lemma ids_cons ty l w : ids_ok P ((ty, l) :: w) <-> (ty = ID -> P l) /\ ids_ok P w.
  Proof. unfold ids_ok. rewrite Forall_cons_iff. reflexivity. Qed.

  Lemma wf_d_attr w a : d_attr w a -> ids_ok P w -> wf_attr P a.
  Proof. destruct 1; intros H; rewrite ?ids_cons in H; split; cbn; try apply Ptrue; apply H; reflexivity. Qed.
  Lemma wf_d_alist w l : d_alist w l -> ids_ok P w -> Forall (wf_attr P) l.
  Proof.
    induction 1 as [w a Ha|w a c w' l Ha Hc Hl IH]; intros H.
    - constructor; [eapply wf_d_attr; eauto|constructor].
    - rewrite !ids_app in H. constructor; [eapply wf_d_attr; [exact Ha|apply H]|apply IH; apply H].
  Qed.
  Lemma wf_d_brack w l : d_brack w l -> ids_ok P w -> wf_attrs P l.
  Proof.
    destruct 1 as [a b|a w l b Hl]; intros H; [constructor|]. rewrite ids_cons, ids_app in H.
    constructor; [eapply wf_d_alist; [exact Hl|apply H]|constructor].
  Qed.
  Lemma wf_d_attrs w l : d_attrs w l -> ids_ok P w -> wf_attrs P l.
  Proof.
    induction 1 as [w l Hb|w l w' l' Hb Hl IH]; intros H; [eapply wf_d_brack; eauto|].
    rewrite ids_app in H. apply Forall_app. split; [eapply wf_d_brack; [exact Hb|apply H]|apply IH; apply H].
  Qed.
  Lemma wf_d_opt_attrs w l : d_opt_attrs w l -> ids_ok P w -> wf_attrs P l.
  Proof. destruct 1 as [|w l H]; intros Hi; [constructor|eapply wf_d_attrs; eauto]. Qed.
  Lemma wf_d_node_id w n : d_node_id w n -> ids_ok P w -> wf_node_id P n.
  Proof.
    destruct 1 as [i|i c p|i c p c' q]; intros H; rewrite ?ids_cons in H; unfold wf_node_id, wf_port; cbn.
    - split; [apply H; reflexivity|exact I].
    - assert (P p) as Hp by (apply H; reflexivity). pose proof (Pne p Hp). destruct p; [congruence|].
      split; [apply H; reflexivity|exact Hp].
    - assert (P p) as Hp by (apply H; reflexivity). pose proof (Pne p Hp).
      assert (P q) as Hq by (apply H; reflexivity). pose proof (Pne q Hq). destruct p, q; try congruence.
      split; [apply H; reflexivity|]. split; [exact Hp|exact Hq].
  Qed.

  Lemma wf_d_all :
    (forall w s k k', d_stmt rnd w s k k' -> ids_ok P w -> wf_stmt P s) /\
    (forall w l k k', d_loc rnd w l k k' -> ids_ok P w -> wf_loc P l) /\
    (forall w r k k', d_rhs rnd w r k k' -> ids_ok P w -> r <> [] /\ Forall (wf_rh P) r) /\
    (forall w g k k', d_sub rnd w g k k' -> ids_ok P w -> wf_sub P g) /\
    (forall w l k k', d_body rnd w l k k' -> ids_ok P w -> Forall (wf_stmt P) l) /\
    (forall w l k k', d_stmts rnd w l k k' -> ids_ok P w -> Forall (wf_stmt P) l).
  Proof.
    apply d_mut.
    - intros f e v k H. rewrite !ids_cons in H. split; apply H; reflexivity.
    - intros w n wa a k Hn Ha H. rewrite ids_app in H. split; [eapply wf_d_node_id; [exact Hn|apply H]|eapply wf_d_opt_attrs; [exact Ha|apply H]].
    - intros w l w1 r wa a k k1 k2 _ IHl _ IHr Ha H. rewrite !ids_app in H. apply wf_edge_iff.
      split; [apply IHl; apply H|]. destruct IHr as [? ?]; [apply H|]. split; [assumption|]. split; [assumption|].
      eapply wf_d_opt_attrs; [exact Ha|apply H].
    - intros s wa a k Ha H. rewrite ids_cons in H. eapply wf_d_attrs; [exact Ha|apply H].
    - intros s wa a k Ha H. rewrite ids_cons in H. eapply wf_d_attrs; [exact Ha|apply H].
    - intros s wa a k Ha H. rewrite ids_cons in H. eapply wf_d_attrs; [exact Ha|apply H].
    - intros w g k k1 _ IH H. apply IH. exact H.
    - intros w n k Hn H. eapply wf_d_node_id; eauto.
    - intros w g k k1 _ IH H. apply IH. exact H.
    - intros [ty o] b w l k k1 _ _ IH H. rewrite ids_cons in H. split; [discriminate|]. constructor; [|constructor]. apply IH. apply H.
    - intros [ty o] b w l w' r k k1 k2 _ _ IH _ IHr H. rewrite ids_cons, ids_app in H. split; [discriminate|].
      constructor; [apply IH; apply H|apply IHr; apply H].
    - intros a w l b k k1 _ IH H. rewrite ids_cons, ids_app in H. apply wf_sub_iff. split; [apply Panon|apply IH; apply H].
    - intros s w l k k1 _ IH H. rewrite ids_cons in H. apply wf_sub_iff. split; [apply Panon|apply IH; apply H].
    - intros s i w l k k1 _ IH H. rewrite !ids_cons in H. apply wf_sub_iff. split; [apply H; reflexivity|apply IH; apply H].
    - intros a b k H. constructor.
    - intros a w l b k k1 _ IH H. rewrite ids_cons, ids_app in H. apply IH. apply H.
    - intros w s c k k1 _ IH _ H. rewrite ids_app in H. constructor; [apply IH; apply H|constructor].
    - intros w s c w' l k k1 k2 _ IH _ _ IHl H. rewrite !ids_app in H. constructor; [apply IH; apply H|apply IHl; apply H].
  Qed.

  Lemma wf_d_graph w g k k' : d_graph rnd w g k k' -> ids_ok P w -> wf_graph P g.
  Proof.
    destruct 1 as [ws st t ty wi i wb l k k1 _ _ Hi Hb]. destruct t as [tt tl]. intros H.
    rewrite ids_app, ids_cons, ids_app in H. split; cbn.
    - intros Hne. destruct Hi as [|i]; [congruence|]. destruct H as (_ & _ & H & _). rewrite ids_cons in H. apply H. reflexivity.
    - apply (proj1 (proj2 (proj2 (proj2 (proj2 wf_d_all)))) _ _ _ _ Hb). apply H.
  Qed.
End WfDer.

(** anonymous names are identifiers *)
Definition digit_byte (a : ascii) : bool := in_range 48 57 (bv a).
Lemma string_of_uint_digits u : forallb digit_byte (lit (NilEmpty.string_of_uint u)) = true.
Proof. induction u; cbn; try reflexivity; assumption. Qed.
Lemma dec_digits n : forallb digit_byte (dec_of_N n) = true.
Proof. apply string_of_uint_digits. Qed.

Definition anon_states : list nat := Eval vm_compute in
  match dfa_run 0 (map bv (lit "anon")) with
  | Some s => match dfa_run s [48%N] with Some s' => [s; s'] | None => [] end
  | None => []
  end.
Lemma anon_start : exists s, dfa_run 0 (map bv (lit "anon")) = Some s /\ In s anon_states.
Proof. eexists. split; [vm_compute; reflexivity|vm_compute; auto]. Qed.
Lemma anon_loop : forallb (fun s => forallb (fun c => match dfa_run s [c] with
    Some s' => existsb (Nat.eqb s') anon_states | None => false end) (map N.of_nat (seq 48 10))) anon_states = true.
Proof. vm_compute. reflexivity. Qed.
Lemma anon_label : forallb (fun s => match label s with [Tok ty] => Nat.eqb ty ID | _ => false end) anon_states = true.
Proof. vm_compute. reflexivity. Qed.

Lemma anon_run ds : forallb digit_byte ds = true -> forall s, In s anon_states ->
  exists s', dfa_run s (map bv ds) = Some s' /\ In s' anon_states.
Proof.
  induction ds as [|d ds IH]; cbn [forallb]; intros H s Hs; [exists s; split; [reflexivity|exact Hs]|].
  rewrite andb_true_iff in H. destruct H as [Hd H].
  pose proof anon_loop as L. rewrite forallb_forall in L. specialize (L s Hs). rewrite forallb_forall in L.
  assert (Hin : In (bv d) (map N.of_nat (seq 48 10))).
  { unfold digit_byte, in_range in Hd. rewrite andb_true_iff, !N.leb_le in Hd. apply in_map_iff. exists (N.to_nat (bv d)).
    split; [lia|]. apply in_seq. lia. }
  specialize (L _ Hin). cbn [map]. change (bv d :: map bv ds) with ([bv d] ++ map bv ds). rewrite dfa_run_app.
  destruct (dfa_run s [bv d]) as [s1|]; [|discriminate].
  apply existsb_exists in L. destruct L as (x & Hx & E). apply Nat.eqb_eq in E. subst x. apply IH; assumption.
Qed.

Lemma anon_ascii r : forallb (fun c => N.ltb (bv c) 128) (anon r) = true.
Proof.
  unfold anon. rewrite forallb_app. apply andb_true_iff. split; [reflexivity|].
  apply forallb_forall. intros c Hc. pose proof (dec_digits r) as D. rewrite forallb_forall in D. specialize (D c Hc).
  unfold digit_byte, in_range in D. rewrite andb_true_iff, !N.leb_le in D. apply N.ltb_lt. lia.
Qed.
Lemma anon_is_id r : is_id (anon r).
Proof.
  unfold is_id. rewrite pieces_ascii_all by apply anon_ascii. unfold runes_of. rewrite map_map. cbn [fst].
  change (map (fun x => bv x) (anon r)) with (map bv (anon r)).
  apply dfa_correct.
  - apply Forall_map. apply Forall_forall. intros c Hc. pose proof (anon_ascii r) as A. rewrite forallb_forall in A.
    specialize (A c Hc). apply N.ltb_lt in A. unfold max_rune. lia.
  - unfold anon. rewrite map_app. destruct anon_start as (s & Hs & Hin).
    destruct (anon_run (dec_of_N r) (dec_digits r) s Hin) as (s' & Hs' & Hin').
    exists s'. rewrite dfa_run_app, Hs. split; [exact Hs'|].
    pose proof anon_label as L. rewrite forallb_forall in L. specialize (L s' Hin').
    destruct (label s') as [|[|ty] [|? ?]]; try discriminate. apply Nat.eqb_eq in L. subst ty. reflexivity.
Qed.
Lemma true_is_id : is_id (lit "true").
Proof.
  unfold is_id. apply dfa_correct; [apply pieces_small|]. eexists. split; vm_compute; reflexivity.
Qed.

Lemma digit_visible a : digit_byte a = true -> visible_ascii a = true.
Proof.
  unfold digit_byte, visible_ascii, is_space, in_range. rewrite andb_true_iff, !N.leb_le. intros [H1 H2].
  rewrite andb_true_iff, negb_true_iff. split; [apply N.ltb_lt; lia|]. rewrite !orb_false_iff, !andb_false_iff, !N.leb_gt, !N.eqb_neq. lia.
Qed.
Lemma anon_trim r : trim_space (anon r) = anon r.
Proof.
  apply trim_space_id; [apply vis_left_ascii; reflexivity|]. unfold anon. pose proof (dec_digits r) as D.
  destruct (snoc_case (dec_of_N r)) as [->|(l & x & E)]; [apply (vis_right_ascii (lit "ano")); reflexivity|].
  rewrite E in *. rewrite app_assoc. apply vis_right_ascii. rewrite forallb_app in D. apply andb_true_iff in D. destruct D as [_ D].
  cbn in D. rewrite andb_true_r in D. apply digit_visible. exact D.
Qed.

(** every ID token of a text is an ID *)
Lemma lexes_is_id p ps ts : lexes p ps ts -> (exists s u, pieces s = u ++ ps) ->
  Forall (fun x : stoken => fst (fst x) = ID -> is_id (snd (fst x))) ts.
Proof.
  induction 1 as [p|p ps u rest ts Hl H IH|p ps u rest ty ts Hl H IH|p u c rest H1 H2 H3|p u H1 H2 H3]; intros (s & v & E).
  - constructor; [|constructor]. cbn. discriminate.
  - apply IH. exists s, (v ++ u). rewrite <- app_assoc, <- (proj1 Hl). exact E.
  - constructor.
    + cbn. intros ->. destruct Hl as (E1 & _ & Hx & _). rewrite E1 in E.
      unfold is_id. assert (P : pieces (text u) = u); [|rewrite P; exact Hx].
      pose proof (pieces_app_eq s v (u ++ rest) E) as (_ & _ & E2). eapply pieces_prefix. exact E2.
    + apply IH. exists s, (v ++ u). rewrite <- app_assoc, <- (proj1 Hl). exact E.
  - constructor; [|constructor]. cbn. discriminate.
  - constructor; [|constructor]. cbn. discriminate.
Qed.
Lemma scans_to_is_id src w : scans_to src w -> ids_ok is_id w.
Proof.
  intros (ts & p & H & <-). apply lexes_is_id in H; [|exists src, []; reflexivity].
  apply Forall_app in H. destruct H as [H _]. unfold ids_ok. apply Forall_map. exact H.
Qed.

Theorem parsed_wf rnd k src g k' : parse_bytes rnd k src = Ok (g, k') -> wf_graph is_id g.
Proof.
  intros H. apply parse_ok_iff in H. destruct H as (w & Hs & Hd).
  eapply wf_d_graph; [exact true_is_id|exact anon_is_id|exact is_id_nonempty|exact Hd|]. eapply scans_to_is_id; eauto.
Qed.

Theorem parse_print_parse rnd k src g k' rnd2 k2 :
  parse_bytes rnd k src = Ok (g, k') -> wf_graph (fun i => trim_space i = i) g ->
  parse_bytes rnd2 k2 (graph_str g) = Ok (norm_graph g, k2).
Proof.
  intros H1 H2. apply ast_roundtrip. eapply wf_graph_mono; [|eapply parsed_wf; exact H1|exact H2]. intros i. split; assumption.
Qed.
