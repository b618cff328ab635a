(** The productions table derives exactly the sentences of SpecGrammar.v, with their ASTs. *)
From Coq Require Import List Ascii NArith ZArith Bool Lia.
From Verif Require Import Base LexTables ParseTables Ast Lexer LexSpec Parser ParserDefs SpecGrammar.
Import ListNotations.

Definition tl_of (t : token) : nat * gostr := (tk_type t, tk_lit t).
Definition word_of (w : list token) : word := map tl_of w.

Section GP.
  Variable rnd : nat -> N.

  (** What a derivation of each nonterminal means. *)
  Definition holds (n : nat) (w : word) (v : value) (k k' : nat) : Prop :=
    match n with
    | 0 | 1 => exists g, v = VGraph g /\ d_graph rnd w g k k'
    | 2 => exists l, v = VStmtList l /\ d_stmts rnd w l k k'
    | 3 => exists s w' c, as_stmt v = Some s /\ w = w' ++ c /\ d_semi c /\ d_stmt rnd w' s k k'
    | 4 => exists s, as_stmt v = Some s /\ d_stmt rnd w s k k'
    | 5 => exists s, as_stmt v = Some s /\ d_stmt rnd w s k k'
    | 6 => exists a, v = VAttrList a /\ d_attrs w a /\ k' = k
    | 7 => exists a, v = VAList a /\ d_alist w a /\ k' = k
    | 8 => exists a, v = VAttr a /\ d_attr w a /\ k' = k
    | 9 => exists s, as_stmt v = Some s /\ d_stmt rnd w s k k'
    | 10 => exists r, v = VEdgeRHS r /\ d_rhs rnd w r k k'
    | 11 => exists s, as_stmt v = Some s /\ d_stmt rnd w s k k'
    | 12 => exists n, v = VNodeID n /\ d_node_id w n /\ k' = k
    | 13 => exists p, v = VPort p /\ k' = k /\ forall i, d_node_id ((ID, i) :: w) (NodeID i p)
    | 14 => exists g, v = VSub g /\ d_sub rnd w g k k'
    | 15 => exists o b, w = [o] /\ v = VOp b /\ d_op o b /\ k' = k
    | 16 => exists i, w = [(ID, i)] /\ i <> [] /\ v = VID i /\ k' = k
    | _ => False
    end.

  Definition sholds (X : sym) (w : list token) (v : value) (k k' : nat) : Prop :=
    match X with
    | Tm t => k' = k /\ exists tok, w = [tok] /\ v = VTok tok /\ tk_type tok = t
    | Nt n => ids_nonempty (word_of w) -> holds n (word_of w) v k k'
    end.
  Fixpoint sholds_list (Xs : list sym) (w : list token) (vs : list value) (k k' : nat) : Prop :=
    match Xs with
    | [] => w = [] /\ vs = [] /\ k' = k
    | X :: Xs' => exists w1 w2 v vs' k1, w = w1 ++ w2 /\ vs = v :: vs' /\
                  sholds X w1 v k k1 /\ sholds_list Xs' w2 vs' k1 k'
    end.

  (** Appending at the right end *)
  Lemma d_alist_snoc w l c w' a : d_alist w l -> d_comma c -> d_attr w' a -> d_alist (w ++ c ++ w') (l ++ [a]).
  Proof.
    intros H Hc Ha. induction H as [w x Hx|w x c' w1 l Hx Hc' Hl IH].
    - cbn. constructor; [exact Hx|exact Hc|]. constructor. exact Ha.
    - rewrite <- !app_assoc. cbn. constructor; [exact Hx|exact Hc'|]. exact IH.
  Qed.
  Lemma d_attrs_snoc w l w' l' : d_attrs w l -> d_brack w' l' -> d_attrs (w ++ w') (l ++ l').
  Proof.
    intros H Hb. induction H as [w x Hx|w x w1 l1 Hx Hl IH].
    - constructor; [exact Hx|]. constructor. exact Hb.
    - rewrite <- !app_assoc. apply dal_more; assumption.
  Qed.
  Lemma d_rhs_snoc w r k k1 : d_rhs rnd w r k k1 -> forall o b w' l k2, d_op o b -> d_loc rnd w' l k1 k2 ->
    d_rhs rnd (w ++ o :: w') (r ++ [EdgeRH b l]) k k2.
  Proof.
    revert w k. induction r as [|x r IH]; intros w k H o' b' w' l' k2 Ho' Hl'; [inversion H|].
    inversion H as [o b w0 l0 ? ? Ho Hl|o b w0 l0 w1 r1 ? km ? Ho Hl Hr]; subst.
    - cbn. eapply dr_more; eauto. eapply dr_one; eauto.
    - cbn. rewrite <- app_assoc. eapply dr_more; [exact Ho|exact Hl|]. eauto.
  Qed.
  Lemma d_stmts_snoc w l k k1 : d_stmts rnd w l k k1 -> forall w' s c k2, d_stmt rnd w' s k1 k2 -> d_semi c ->
    d_stmts rnd (w ++ w' ++ c) (l ++ [s]) k k2.
  Proof.
    revert w k. induction l as [|x l IH]; intros w k H w' s c k2 Hs Hc.
    - inversion H.
    - inversion H as [w0 s0 c0 ? ? Hs0 Hc0|w0 s0 c0 w1 l1 ? km ? Hs0 Hc0 Hl]; subst.
      + rewrite <- app_assoc. cbn. eapply dss_more; [exact Hs0|exact Hc0|]. apply dss_one; assumption.
      + rewrite <- !app_assoc. cbn. eapply dss_more; [exact Hs0|exact Hc0|]. eauto.
  Qed.

  Lemma word_of_app a b : word_of (a ++ b) = word_of a ++ word_of b.
  Proof. apply map_app. Qed.
  Lemma ids_app a b : ids_nonempty (a ++ b) <-> ids_nonempty a /\ ids_nonempty b.
  Proof. apply Forall_app. Qed.

  Lemma semi_nil_r w s k k1 : d_stmt rnd w s k k1 -> exists w' c, w = w' ++ c /\ d_semi c /\ d_stmt rnd w' s k k1.
  Proof. intros H. exists w, []. rewrite app_nil_r. repeat split; [constructor|exact H]. Qed.

  Lemma d_node_id_k w n k k' : d_node_id w n /\ k' = k -> d_loc rnd w (LNode n) k k'.
  Proof. intros [H ->]. constructor. exact H. Qed.

  Ltac brk := repeat match goal with
    | H : exists _, _ |- _ => destruct H
    | H : _ /\ _ |- _ => destruct H
    | H : Some _ = Some _ |- _ => injection H as H
    | H : VTok _ = VTok _ |- _ => injection H as H
    | H : (_, _) = (_, _) |- _ => injection H as H
    | H : None = Some _ |- _ => discriminate H
    | H : ids_nonempty (_ ++ _) |- _ => apply ids_app in H
    end; subst.

  Lemma ids_cons x a : ids_nonempty (x :: a) <-> (fst x = ID -> snd x <> []) /\ ids_nonempty a.
  Proof. apply Forall_cons_iff. Qed.
  Lemma word_of_cons t a : word_of (t :: a) = tl_of t :: word_of a.
  Proof. reflexivity. Qed.

  Lemma graph_eq w ws st t ty wi i wb l k k1 :
      d_strict ws st -> d_kind t ty -> d_opt_id wi i -> d_body rnd wb l k k1 -> w = ws ++ t :: wi ++ wb ->
      d_graph rnd w (Graph ty st i l) k k1.
  Proof. intros H1 H2 H3 H4 ->. constructor; assumption. Qed.

  Lemma prod_sound pr w vs k k1 v k2 : In pr prod_tab -> sholds_list (p_rhs pr) w vs k k1 ->
    run_sem rnd (p_sem pr) vs k1 = Some (v, k2) -> ids_nonempty (word_of w) ->
    holds (p_nt pr) (word_of w) v k k2.
  Proof.
    intros Hin. unfold prod_tab in Hin. cbn [In] in Hin.
    repeat match type of Hin with _ \/ _ => destruct Hin as [Hin|Hin] end; [..|contradiction]; subst pr;
    cbn [p_rhs p_sem p_nt sholds_list sholds]; intros Hs Hr Hid; brk;
    rewrite ?word_of_app in *; brk;
    repeat match goal with
    | H : ids_nonempty ?w -> holds _ ?w _ _ _, H1 : ids_nonempty ?w |- _ => specialize (H H1); cbn [holds] in H
    end; brk.
    all: cbn [run_sem pure arg oarg nth_error opt_bind as_id as_tok as_stmts as_attr_list as_alist as_attr as_op as_node_id as_port as_rhs as_loc new_graph new_attr new_attr_list append_attr_list opt_attrs] in Hr.
    all: try match type of Hr with Some _ = Some _ => injection Hr as <- <- end.
    all: cbn [holds].
    all: repeat match goal with t : token |- _ => let a := fresh "ty" in let b := fresh "lt" in let c := fresh "po" in let d := fresh "po" in let e := fresh "po" in destruct t as [a b c d e] end;
      cbn [tk_type tk_lit] in *; subst; cbn [word_of map tl_of tk_type tk_lit] in *;
      unfold tl_of in *; cbn [tk_type tk_lit fst snd] in *; fold tl_of in *; rewrite ?app_nil_r in *;
      change (map tl_of) with word_of in *;
      repeat match goal with
      | H : word_of _ = [_] |- _ => rewrite H in *; clear H
      end;
      repeat match goal with H : ids_nonempty (_ :: _) |- _ => apply ids_cons in H; cbn [fst snd] in H; destruct H end.
    all: try match goal with |- exists g, VGraph _ = VGraph g /\ _ =>
      eexists; split; [reflexivity|];
      first [ assumption
            | eapply graph_eq;
              [ first [apply dst_no|apply dst_yes] | first [apply dk_graph|apply dk_digraph]
              | apply doi_none
              | first [eapply dbo_stmts; eassumption | apply dbo_empty]
              | reflexivity ]
            | eapply graph_eq;
              [ first [apply dst_no|apply dst_yes] | first [apply dk_graph|apply dk_digraph]
              | apply doi_some
              | first [eapply dbo_stmts; eassumption | apply dbo_empty]
              | reflexivity ] ] end.

    - (* StmtList : Stmt1 *) rewrite H1 in Hr. injection Hr as <- <-. rewrite H2.
      eexists; split; [reflexivity|]. constructor; assumption.
    - rewrite H3 in Hr. injection Hr as <- <-. rewrite H4.
      eexists; split; [reflexivity|]. eapply d_stmts_snoc; eassumption.
    - (* Stmt1 *) exists x0, (word_of x), []. rewrite app_nil_r. repeat split; try assumption. constructor.
    - exists x0, (word_of x), [(7, lt)]. repeat split; try assumption. constructor.
    - (* Stmt *) eexists; split; [reflexivity|]. constructor.
    - eauto.
    - eauto.
    - eauto.
    - eexists; split; [reflexivity|]. constructor. assumption.
    - eexists; split; [reflexivity|]. apply ds_graph_attrs. assumption.
    - eexists; split; [reflexivity|]. apply ds_node_attrs. assumption.
    - eexists; split; [reflexivity|]. apply ds_edge_attrs. assumption.
    - (* AttrList *) eexists; split; [reflexivity|]. split; [|reflexivity]. apply dal_one. apply db_empty.
    - eexists; split; [reflexivity|]. split; [|reflexivity]. apply dal_one. apply db_list. assumption.
    - eexists; split; [reflexivity|]. split; [|reflexivity]. rewrite <- (app_nil_r x0).
      apply d_attrs_snoc; [assumption|]. apply db_empty.
    - eexists; split; [reflexivity|]. split; [|reflexivity].
      apply d_attrs_snoc; [assumption|]. apply db_list. assumption.
    - (* AList *) eexists; split; [reflexivity|]. split; [|reflexivity]. constructor. assumption.
    - eexists; split; [reflexivity|]. split; [|reflexivity].
      apply (d_alist_snoc _ _ [] _ _); [assumption|constructor|assumption].
    - eexists; split; [reflexivity|]. split; [|reflexivity].
      apply (d_alist_snoc _ _ [(13, lt)] _ _); [assumption|constructor|assumption].
    - (* Attr *) eexists; split; [reflexivity|]. split; [|reflexivity]. constructor.
    - eexists; split; [reflexivity|]. split; [|reflexivity]. constructor.
    - (* EdgeStmt *) eexists; split; [reflexivity|]. rewrite <- (app_nil_r (word_of x4)).
      eapply ds_edge; [constructor; eassumption|eassumption|constructor].
    - eexists; split; [reflexivity|].
      eapply ds_edge; [constructor; eassumption|eassumption|constructor; assumption].
    - eexists; split; [reflexivity|]. rewrite <- (app_nil_r (word_of x4)).
      eapply ds_edge; [constructor; eassumption|eassumption|constructor].
    - eexists; split; [reflexivity|].
      eapply ds_edge; [constructor; eassumption|eassumption|constructor; assumption].
    - (* EdgeRHS *) eexists; split; [reflexivity|]. apply dr_one; [assumption|constructor; assumption].
    - eexists; split; [reflexivity|]. apply dr_one; [assumption|constructor; assumption].
    - eexists; split; [reflexivity|]. eapply d_rhs_snoc; [eassumption|assumption|constructor; assumption].
    - eexists; split; [reflexivity|]. eapply d_rhs_snoc; [eassumption|assumption|constructor; assumption].
    - (* NodeStmt *) eexists; split; [reflexivity|]. rewrite <- (app_nil_r (word_of x)). constructor; [assumption|constructor].
    - eexists; split; [reflexivity|]. constructor; [assumption|constructor; assumption].
    - (* NodeId *) eexists; split; [reflexivity|]. split; [constructor|reflexivity].
    - eexists; split; [reflexivity|]. split; [|reflexivity]. cbn [app]. auto.
    - (* Port *) eexists; split; [reflexivity|]. split; [reflexivity|]. intros i. constructor.
    - eexists; split; [reflexivity|]. split; [reflexivity|]. intros i. constructor.
    - (* SubGraphStmt *) injection Hr as <- <-. eexists; split; [reflexivity|]. apply dsub_bare. assumption.
    - injection Hr as <- <-. eexists; split; [reflexivity|]. apply dsub_anon. apply dbo_stmts. assumption.
    - destruct x0 as [|? ?]; [congruence|]. injection Hr as <- <-. eexists; split; [reflexivity|].
      apply dsub_named. apply dbo_stmts. assumption.
    - injection Hr as <- <-. eexists; split; [reflexivity|]. apply dsub_anon. apply dbo_empty.
    - destruct x as [|? ?]; [congruence|]. injection Hr as <- <-. eexists; split; [reflexivity|].
      apply dsub_named. apply dbo_empty.
    - (* EdgeOp *) do 2 eexists. split; [reflexivity|]. split; [reflexivity|]. split; [constructor|reflexivity].
    - do 2 eexists. split; [reflexivity|]. split; [reflexivity|]. split; [constructor|reflexivity].
    - (* Id *) eexists. split; [reflexivity|]. split; [auto|]. split; reflexivity.
  Qed.

  Lemma der_holds :
    (forall X w v k k', der rnd X w v k k' -> sholds X w v k k') /\
    (forall Xs w vs k k', ders rnd Xs w vs k k' -> sholds_list Xs w vs k k').
  Proof.
    apply (der_ders_ind rnd (fun X w v k k' _ => sholds X w v k k') (fun Xs w vs k k' _ => sholds_list Xs w vs k k')).
    - intros tok k. split; [reflexivity|]. exists tok. auto.
    - intros p pr w vs k k1 v k2 Hp _ IH Hr. cbn [sholds]. intros Hid.
      eapply prod_sound; eauto. eapply nth_error_In; eauto.
    - intros k. cbn. auto.
    - intros X Xs w v k k1 w' vs k2 _ IH _ IHs. cbn. exists w, w', v, vs, k1. auto.
  Qed.

  Theorem der_sentence w v k k' : der rnd (Nt 1) w v k k' -> ids_nonempty (word_of w) ->
    exists g, v = VGraph g /\ d_graph rnd (word_of w) g k k'.
  Proof. intros H Hid. exact (proj1 der_holds _ _ _ _ _ H Hid). Qed.

  (** ** Completeness *)
  Lemma der_eq X w w' v k k' : der rnd X w v k k' -> w = w' -> der rnd X w' v k k'.
  Proof. intros H <-. exact H. Qed.

  Lemma der_tok t tok k : tk_type tok = t -> der rnd (Tm t) [tok] (VTok tok) k k.
  Proof. intros <-. constructor. Qed.

  Lemma ders_nil' k : ders rnd [] [] [] k k.
  Proof. constructor. Qed.
  Lemma ders_tm t tok Xs w vs k k' : tk_type tok = t -> ders rnd Xs w vs k k' ->
    ders rnd (Tm t :: Xs) (tok :: w) (VTok tok :: vs) k k'.
  Proof. intros <- H. apply (ders_cons rnd _ _ [tok] (VTok tok) k k w vs k'); [constructor|exact H]. Qed.
  Lemma c_id t k : tk_type t = ID -> der rnd (Nt 16) [t] (VID (tk_lit t)) k k.
  Proof.
    intros H. apply (der_nt rnd 59 (Prod 16 1 [Tm 18] (SemID 0)) [t] [VTok t] k k).
    - reflexivity.
    - apply ders_tm; [exact H|constructor].
    - reflexivity.
  Qed.
  Lemma ders_id tok Xs w vs k k' : tk_type tok = ID -> ders rnd Xs w vs k k' ->
    ders rnd (Nt 16 :: Xs) (tok :: w) (VID (tk_lit tok) :: vs) k k'.
  Proof. intros E H. apply (ders_cons rnd _ _ [tok] _ k k w vs k'); [apply c_id; exact E|exact H]. Qed.
  Lemma ders_last X w v k k' : der rnd X w v k k' -> ders rnd [X] w [v] k k'.
  Proof. intros H. rewrite <- (app_nil_r w). eapply ders_cons; [exact H|constructor]. Qed.

  Ltac ders_tac := repeat first
    [ apply ders_nil'
    | apply ders_tm; [first [assumption|reflexivity]|]
    | apply ders_id; [first [assumption|reflexivity]|]
    | apply ders_last; eassumption
    | eapply ders_cons; [eassumption|] ].
  Ltac prod p := let o := eval cbv in (nth_error prod_tab p) in match o with Some ?q =>
    eapply (der_nt rnd p q); [reflexivity|cbn [p_rhs]; ders_tac|
     cbn [p_sem run_sem pure arg oarg nth_error opt_bind as_id as_tok as_stmts as_attr_list as_alist as_attr as_op as_node_id as_port as_rhs as_loc new_graph new_attr new_attr_list append_attr_list opt_attrs]; try reflexivity] end.

  Lemma word_of_app_inv toks a b : word_of toks = a ++ b ->
    exists t1 t2, toks = t1 ++ t2 /\ word_of t1 = a /\ word_of t2 = b.
  Proof.
    intros H. apply map_eq_app in H. destruct H as (t1 & t2 & -> & <- & <-). eauto.
  Qed.
  Lemma word_of_cons_inv toks x b : word_of toks = x :: b ->
    exists t t2, toks = t :: t2 /\ tk_type t = fst x /\ tk_lit t = snd x /\ word_of t2 = b.
  Proof.
    intros H. apply map_eq_cons in H. destruct H as (t1 & t2 & -> & <- & <-). exists t1, t2. auto.
  Qed.
  Lemma word_of_nil_inv toks : word_of toks = [] -> toks = [].
  Proof. apply map_eq_nil. Qed.

  Ltac winv := repeat match goal with
    | H : word_of _ = _ ++ _ |- _ => apply word_of_app_inv in H; destruct H as (? & ? & ? & ? & ?)
    | H : word_of _ = _ :: _ |- _ => apply word_of_cons_inv in H; cbn [fst snd] in H; destruct H as (? & ? & ? & ? & ? & ?)
    | H : word_of _ = [] |- _ => apply word_of_nil_inv in H
    end; subst.

  Lemma c_attr w a k toks : d_attr w a -> word_of toks = w -> der rnd (Nt 8) toks (VAttr a) k k.
  Proof.
    intros H E. destruct H; winv.
    - prod 36.
    - prod 37.
  Qed.

  Lemma c_alist w l k : d_alist w l -> forall toks, word_of toks = w ->
    der rnd (Nt 7) toks (VAList l) k k /\
    forall w0 l0 c k0, d_comma (word_of c) -> der rnd (Nt 7) w0 (VAList l0) k0 k ->
      der rnd (Nt 7) (w0 ++ c ++ toks) (VAList (l0 ++ l)) k0 k.
  Proof.
    assert (step : forall w0 l0 c k0 w a, d_comma (word_of c) -> der rnd (Nt 7) w0 (VAList l0) k0 k ->
              der rnd (Nt 8) w (VAttr a) k k -> der rnd (Nt 7) (w0 ++ c ++ w) (VAList (l0 ++ [a])) k0 k).
    { intros w0 l0 c k0 w1 a Hc H1 H2. inversion Hc as [E|s E]; symmetry in E; winv; cbn [app].
      - prod 34.
      - prod 35. }
    induction 1 as [w a Ha|w a c w' l Ha Hc Hl IH]; intros toks E.
    - pose proof (c_attr w a k toks Ha E) as D. split.
      + prod 33.
      + intros. apply step; assumption.
    - winv. pose proof (c_attr _ a k _ Ha eq_refl) as D. destruct (IH _ eq_refl) as [D1 D2]. split.
      + change (a :: l) with ([a] ++ l). apply D2; [assumption|]. prod 33.
      + intros w0 l0 c0 k0 Hc0 H0. pose proof (step w0 l0 c0 k0 _ a Hc0 H0 D) as D3.
        pose proof (D2 _ _ _ _ Hc D3) as D4. rewrite <- !app_assoc in D4. exact D4.
  Qed.

  Lemma c_brack w l k : d_brack w l -> forall toks, word_of toks = w ->
    der rnd (Nt 6) toks (VAttrList l) k k /\
    forall w0 l0 k0, der rnd (Nt 6) w0 (VAttrList l0) k0 k ->
      der rnd (Nt 6) (w0 ++ toks) (VAttrList (l0 ++ l)) k0 k.
  Proof.
    destruct 1 as [a b|a w l b Hl]; intros toks E; winv.
    - split; [prod 29|]. intros w0 l0 k0 D. rewrite app_nil_r. prod 31.
    - destruct (c_alist _ _ k Hl _ eq_refl) as [D1 _]. split; [prod 30|]. intros w0 l0 k0 D. prod 32.
  Qed.

  Lemma c_attrs w l k : d_attrs w l -> forall toks, word_of toks = w ->
    der rnd (Nt 6) toks (VAttrList l) k k /\
    forall w0 l0 k0, der rnd (Nt 6) w0 (VAttrList l0) k0 k ->
      der rnd (Nt 6) (w0 ++ toks) (VAttrList (l0 ++ l)) k0 k.
  Proof.
    induction 1 as [w l Hb|w l w' l' Hb Hl IH]; intros toks E; [exact (c_brack _ _ _ Hb _ E)|].
    winv. destruct (c_brack _ _ k Hb _ eq_refl) as [D1 D2]. destruct (IH _ eq_refl) as [D3 D4]. split.
    - apply D4. exact D1.
    - intros w0 l0 k0 D. pose proof (D4 _ _ _ (D2 _ _ _ D)) as D5. rewrite <- !app_assoc in D5. exact D5.
  Qed.

  Lemma c_node_id w n k : d_node_id w n -> forall toks, word_of toks = w -> der rnd (Nt 12) toks (VNodeID n) k k.
  Proof.
    destruct 1; intros toks E; winv.
    - prod 48.
    - match goal with |- der _ _ [_; ?a; ?b] _ _ _ =>
        assert (D : der rnd (Nt 13) [a; b] (VPort (Port (tk_lit b) [])) k k) by prod 50 end. prod 49.
    - match goal with |- der _ _ [_; ?a; ?b; ?c; ?d] _ _ _ =>
        assert (D : der rnd (Nt 13) [a; b; c; d] (VPort (Port (tk_lit b) (tk_lit d))) k k) by prod 51 end. prod 49.
  Qed.

  Lemma c_op t b k : d_op (tl_of t) b -> der rnd (Nt 15) [t] (VOp b) k k.
  Proof.
    intros H. remember (tl_of t) as o eqn:E. destruct H; injection E as E1 E2; symmetry in E1.
    - prod 57.
    - prod 58.
  Qed.

  Definition Cstmt (w : word) (s : stmt) (k k' : nat) : Prop :=
    ids_nonempty w -> forall toks, word_of toks = w -> exists v, as_stmt v = Some s /\ der rnd (Nt 4) toks v k k'.
  Definition Cloc (w : word) (l : location) (k k' : nat) : Prop :=
    ids_nonempty w -> forall toks, word_of toks = w -> exists v, as_loc v = Some l /\
      (der rnd (Nt 12) toks v k k' \/ der rnd (Nt 14) toks v k k').
  Definition Crhs (w : word) (r : list edge_rh) (k k' : nat) : Prop :=
    ids_nonempty w -> forall toks, word_of toks = w -> der rnd (Nt 10) toks (VEdgeRHS r) k k' /\
      forall w0 r0 k0, der rnd (Nt 10) w0 (VEdgeRHS r0) k0 k -> der rnd (Nt 10) (w0 ++ toks) (VEdgeRHS (r0 ++ r)) k0 k'.
  Definition Csub (w : word) (g : subgraph) (k k' : nat) : Prop :=
    ids_nonempty w -> forall toks, word_of toks = w -> der rnd (Nt 14) toks (VSub g) k k'.
  Definition Cbody (w : word) (l : list stmt) (k k' : nat) : Prop :=
    ids_nonempty w -> forall toks, word_of toks = w -> exists a m b, toks = a :: m ++ [b] /\
      tk_type a = T_lbrace /\ tk_type b = T_rbrace /\
      ((m = [] /\ l = [] /\ k' = k) \/ der rnd (Nt 2) m (VStmtList l) k k').
  Definition Cstmts (w : word) (l : list stmt) (k k' : nat) : Prop :=
    ids_nonempty w -> forall toks, word_of toks = w -> der rnd (Nt 2) toks (VStmtList l) k k' /\
      forall w0 l0 k0, der rnd (Nt 2) w0 (VStmtList l0) k0 k -> der rnd (Nt 2) (w0 ++ toks) (VStmtList (l0 ++ l)) k0 k'.

  Lemma c_stmt1 toks c v k k' : der rnd (Nt 4) toks v k k' -> d_semi (word_of c) -> der rnd (Nt 3) (toks ++ c) v k k'.
  Proof.
    intros D H. inversion H as [E|s E]; symmetry in E; winv.
    - rewrite app_nil_r. prod 19.
    - prod 20.
  Qed.

  Lemma c_rhs1 t b toks l v k k' : d_op (tl_of t) b -> as_loc v = Some l ->
    (der rnd (Nt 12) toks v k k' \/ der rnd (Nt 14) toks v k k') ->
    der rnd (Nt 10) (t :: toks) (VEdgeRHS [EdgeRH b l]) k k' /\
      forall w0 r0 k0, der rnd (Nt 10) w0 (VEdgeRHS r0) k0 k -> der rnd (Nt 10) (w0 ++ t :: toks) (VEdgeRHS (r0 ++ [EdgeRH b l])) k0 k'.
  Proof.
    intros Ho Hv D. pose proof (c_op t b k Ho) as Do. destruct D as [D|D]; (split;
      [change (t :: toks) with ([t] ++ toks)|intros w0 r0 k0 D0; change (t :: toks) with ([t] ++ toks)]).
    - prod 42. rewrite Hv. reflexivity.
    - prod 44. rewrite Hv. reflexivity.
    - prod 43. rewrite Hv. reflexivity.
    - prod 45. rewrite Hv. reflexivity.
  Qed.

  Lemma opt_attrs_inv wa a toks k : d_opt_attrs wa a -> word_of toks = wa ->
    (toks = [] /\ a = []) \/ der rnd (Nt 6) toks (VAttrList a) k k.
  Proof.
    destruct 1 as [|w l Hl]; intros E; winv; [auto|]. right. exact (proj1 (c_attrs _ _ k Hl _ eq_refl)).
  Qed.

  Lemma c_all :
    (forall w s k k', d_stmt rnd w s k k' -> Cstmt w s k k') /\
    (forall w s k k', d_loc rnd w s k k' -> Cloc w s k k') /\
    (forall w s k k', d_rhs rnd w s k k' -> Crhs w s k k') /\
    (forall w s k k', d_sub rnd w s k k' -> Csub w s k k') /\
    (forall w s k k', d_body rnd w s k k' -> Cbody w s k k') /\
    (forall w s k k', d_stmts rnd w s k k' -> Cstmts w s k k').
  Proof.
    apply d_mut; unfold Cstmt, Cloc, Crhs, Csub, Cbody, Cstmts.
    - intros f e v k Hid toks E. winv. eexists. split; [|prod 21]. reflexivity.
    - intros w n wa a k Hn Ha Hid toks E. winv. pose proof (c_node_id _ _ k Hn _ eq_refl) as Dn.
      exists (VNodeStmt n a). split; [reflexivity|].
      assert (D : der rnd (Nt 11) (x ++ x0) (VNodeStmt n a) k k).
      { destruct (opt_attrs_inv _ _ _ k Ha eq_refl) as [[-> ->]|Da].
        - rewrite app_nil_r. prod 46.
        - prod 47. }
      prod 22.
    - intros w l w1 r wa a k k1 k2 _ IHl _ IHr Ha Hid toks E. winv.
      apply ids_app in Hid. destruct Hid as [Hi1 Hi2]. apply ids_app in Hi2. destruct Hi2 as [Hi2 Hi3].
      destruct (IHl Hi1 _ eq_refl) as (v & Hv & Dl). destruct (IHr Hi2 _ eq_refl) as [Dr _].
      exists (VEdgeStmt l r a). split; [reflexivity|].
      assert (D : der rnd (Nt 9) (x ++ x1 ++ x2) (VEdgeStmt l r a) k k2).
      { destruct (opt_attrs_inv _ _ _ k2 Ha eq_refl) as [[-> ->]|Da]; destruct Dl as [Dl|Dl].
        - rewrite app_nil_r. prod 38. rewrite Hv. reflexivity.
        - rewrite app_nil_r. prod 40. rewrite Hv. reflexivity.
        - prod 39. rewrite Hv. reflexivity.
        - prod 41. rewrite Hv. reflexivity. }
      prod 23.
    - intros s wa a k Ha Hid toks E. winv. destruct (c_attrs _ _ k Ha _ eq_refl) as [Da _].
      exists (VGraphAttrs a). split; [reflexivity|].
      match goal with |- der _ _ ?w _ _ _ => assert (D : der rnd (Nt 5) w (VGraphAttrs a) k k) by prod 26 end. prod 24.
    - intros s wa a k Ha Hid toks E. winv. destruct (c_attrs _ _ k Ha _ eq_refl) as [Da _].
      exists (VNodeAttrs a). split; [reflexivity|].
      match goal with |- der _ _ ?w _ _ _ => assert (D : der rnd (Nt 5) w (VNodeAttrs a) k k) by prod 27 end. prod 24.
    - intros s wa a k Ha Hid toks E. winv. destruct (c_attrs _ _ k Ha _ eq_refl) as [Da _].
      exists (VEdgeAttrs a). split; [reflexivity|].
      match goal with |- der _ _ ?w _ _ _ => assert (D : der rnd (Nt 5) w (VEdgeAttrs a) k k) by prod 28 end. prod 24.
    - intros w g k k1 _ IH Hid toks E. pose proof (IH Hid _ E) as D. exists (VSub g). split; [reflexivity|]. prod 25.
    - intros w n k Hn Hid toks E. exists (VNodeID n). split; [reflexivity|]. left. exact (c_node_id _ _ k Hn _ E).
    - intros w g k k1 _ IH Hid toks E. exists (VSub g). split; [reflexivity|]. right. exact (IH Hid _ E).
    - intros o b w l k k1 Ho _ IH Hid toks E. apply ids_cons in Hid. destruct Hid as [_ Hid].
      apply map_eq_cons in E. destruct E as (t & ts & -> & Et & E). destruct (IH Hid _ E) as (v & Hv & D).
      subst o. eapply c_rhs1; eassumption.
    - intros o b w l w' r k k1 k2 Ho _ IH _ IHr Hid toks E. apply ids_cons in Hid. destruct Hid as [_ Hid].
      apply ids_app in Hid. destruct Hid as [Hi1 Hi2].
      apply map_eq_cons in E. destruct E as (t & ts & -> & Et & E).
      apply word_of_app_inv in E. destruct E as (t1 & t2 & -> & E1 & E2).
      destruct (IH Hi1 _ E1) as (v & Hv & D). destruct (IHr Hi2 _ E2) as [D1 D2]. subst o.
      destruct (c_rhs1 t b t1 l v k k1 Ho Hv D) as [D3 D4]. split.
      + exact (D2 _ _ _ D3).
      + intros w0 r0 k0 D0. pose proof (D2 _ _ _ (D4 _ _ _ D0)) as D5. rewrite <- !app_assoc in D5. exact D5.
    - intros a w l b k k1 _ IH Hid toks E. winv. apply ids_cons in Hid. destruct Hid as [_ Hid].
      apply ids_app in Hid. destruct Hid as [Hid _]. destruct (IH Hid _ eq_refl) as [D _]. prod 52.
    - intros s w l k k1 _ IH Hid toks E. winv. apply ids_cons in Hid. destruct Hid as [_ Hid].
      destruct (IH Hid _ eq_refl) as (a & m & b & -> & Ha & Hb & [(-> & -> & ->)|D]).
      + cbn [app]. prod 55.
      + prod 53.
    - intros s i w l k k1 _ IH Hid toks E. winv. apply ids_cons in Hid. destruct Hid as [_ Hid].
      apply ids_cons in Hid. destruct Hid as [Hi Hid]. cbn [fst snd] in Hi. specialize (Hi eq_refl).
      destruct (IH Hid _ eq_refl) as (a & m & b & -> & Ha & Hb & [(-> & -> & ->)|D]).
      + cbn [app]. prod 56. cbn. destruct (tk_lit _); [congruence|reflexivity].
      + prod 54. cbn. destruct (tk_lit _); [congruence|reflexivity].
    - intros a b k Hid toks E. winv. exists x, [], x1. repeat split; auto.
    - intros a w l b k k1 _ IH Hid toks E. winv. apply ids_cons in Hid. destruct Hid as [_ Hid].
      apply ids_app in Hid. destruct Hid as [Hid _]. destruct (IH Hid _ eq_refl) as [D _].
      do 3 eexists. split; [reflexivity|]. auto.
    - intros w s c k k1 _ IH Hc Hid toks E. winv. apply ids_app in Hid. destruct Hid as [Hid _].
      destruct (IH Hid _ eq_refl) as (v & Hv & D). pose proof (c_stmt1 _ _ _ _ _ D Hc) as D1. split.
      + prod 17. cbn. rewrite Hv. reflexivity.
      + intros w0 l0 k0 D0. prod 18. rewrite Hv. reflexivity.
    - intros w s c w' l k k1 k2 _ IH Hc _ IHl Hid toks E. winv. apply ids_app in Hid. destruct Hid as [Hid Hid'].
      apply ids_app in Hid'. destruct Hid' as [_ Hid'].
      destruct (IH Hid _ eq_refl) as (v & Hv & D). pose proof (c_stmt1 _ _ _ _ _ D Hc) as D1.
      destruct (IHl Hid' _ eq_refl) as [D2 D3]. split.
      + rewrite app_assoc. apply (D3 _ [s]). prod 17. cbn. rewrite Hv. reflexivity.
      + intros w0 l0 k0 D0. assert (D4 : der rnd (Nt 2) (w0 ++ x ++ x1) (VStmtList (l0 ++ [s])) k0 k1) by (prod 18; rewrite Hv; reflexivity).
        pose proof (D3 _ _ _ D4) as D5. rewrite <- !app_assoc in D5. exact D5.
  Qed.

  Theorem sentence_der w g k k' toks : d_graph rnd w g k k' -> ids_nonempty w -> word_of toks = w ->
    der rnd (Nt 1) toks (VGraph g) k k'.
  Proof.
    intros H Hid E. destruct H as [ws st t ty wi i wb l k k1 Hs Hk Hi Hb].
    apply ids_app in Hid. destruct Hid as [_ Hid]. apply ids_cons in Hid. destruct Hid as [_ Hid].
    apply ids_app in Hid. destruct Hid as [_ Hid].
    apply word_of_app_inv in E. destruct E as (t1 & t2 & -> & E1 & E2).
    apply map_eq_cons in E2. destruct E2 as (tk & t3 & -> & Et & E2).
    apply word_of_app_inv in E2. destruct E2 as (t4 & t5 & -> & E3 & E4).
    destruct (proj1 (proj2 (proj2 (proj2 (proj2 c_all)))) _ _ _ _ Hb Hid _ E4) as (a & m & b & -> & Ha & Hb' & D).
    subst t. remember (tl_of tk) as o eqn:Eo.
    destruct Hs; destruct Hk; injection Eo as Eo1 Eo2; symmetry in Eo1; destruct Hi; winv; cbn [app];
      (destruct D as [(-> & -> & ->)|D]; cbn [app]).
    all: first [solve [prod 1] | solve [prod 2] | solve [prod 3] | solve [prod 4] | solve [prod 5] | solve [prod 6] | solve [prod 7] | solve [prod 8]
               |solve [prod 9] | solve [prod 10] | solve [prod 11] | solve [prod 12] | solve [prod 13] | solve [prod 14] | solve [prod 15] | solve [prod 16]].
  Qed.
End GP.
