(** Proofs for C76. *)
From Verif Require Import Base Lexer LexSpec LexDfa LexerProofs LexPrint SpecGrammar Parser ParseFacts Maps Graph AttrMap MapFacts SpecGraph GraphProofs Escape SpecEscape SpecAst AstFacts
  Analyse SpecAnalyse AnalyseProofs ReadProofs ReadFacts SpecHeapAnalyse SpecLabel LabelAnalyse EscapeAnalyse SpecEscRead.
From Verif Require Import PropsEscape2.
From Coq Require Import Ascii.
From Verif Require Ast PropsEscape EscapeFacts LabelRead.

Section P.
  Variable uletter udigit : N -> bool.
  Variables oes os : nat -> oracle.
  Hypothesis Foes : forall i, fair (oes i).
  Notation esc := (esc uletter udigit).
  Notation un := (unescaped uletter udigit).
  Notation vstep := (vesc_call uletter udigit oes os).

  (** ** Sequences of calls *)
  Lemma after_panic cs s : make_calls vstep cs (s, true) = ((s, true), repeat None (length cs)).
  Proof. induction cs as [|c cs IH]; [reflexivity|]. cbn [make_calls]. destruct s as [g i]. cbn [vesc_call]. rewrite IH. reflexivity. Qed.
  Definition bad (c : call) : Prop := exists s, escapes c s /\ esc s = None.
  Lemma run_calls cs : forall g i,
    match make_calls vstep cs ((g, i), false) with
    | (((g', i'), false), rs) => (forall c, c ∈ cs -> ~ bad c) /\
        exists cs', Forall2 (escaped_call uletter udigit) cs cs' /\ make_calls (graph_step os) cs' (g, i) = ((g', i'), rs)
    | ((_, true), _) => exists c, c ∈ cs /\ bad c
    end.
  Proof.
    induction cs as [|c cs IH]; intros g i; cbn [make_calls].
    - split; [intros c H; inversion H|]. exists []. split; [constructor|reflexivity].
    - cbn [vesc_call]. destruct (esc_exec uletter udigit (oes i) (os i) c g) as [[g1 r]|] eqn:E.
      + specialize (IH g1 (S i)). destruct (make_calls vstep cs ((g1, S i), false)) as [[[g' i'] b] rs]. destruct b.
        * destruct IH as (c' & H & B). exists c'. split; [right; exact H|exact B].
        * destruct IH as (NB & cs' & F & M). split.
          -- intros c' H. apply elem_of_cons in H. destruct H as [->|H]; [|exact (NB c' H)]. intros B.
             apply (C42_panics uletter udigit (oes i) (os i) c g (Foes i)) in B. congruence.
          -- destruct (C42_delegates _ _ _ _ _ _ _ _ (Foes i) E) as (c' & Ec & Ex). exists (c' :: cs'). split; [constructor; assumption|].
             cbn [make_calls graph_step]. rewrite Ex. cbn. rewrite M. reflexivity.
      + rewrite after_panic. exists c. split; [left|]. apply (C42_panics uletter udigit (oes i) (os i) c g (Foes i)). exact E.
  Qed.
  Lemma bad_perm cs cs' : cs ≡ₚ cs' -> (exists c, c ∈ cs /\ bad c) -> exists c, c ∈ cs' /\ bad c.
  Proof. intros P (c & H & B). exists c. split; [rewrite <- P; exact H|exact B]. Qed.

  (** ** Strings that are left alone *)
  Definition entries (m : attrs) : Prop := forall s, entry m s -> un s.
  Lemma attrs_same m m' : entries m -> escaped_attrs uletter udigit m m' -> m' = m.
  Proof.
    intros U [H1 H2]. apply map_eq. intros k. destruct (m !! k) as [v|] eqn:E.
    - destruct (H1 k v E) as (k' & v' & Ek & _ & [x X]). rewrite (U k) in Ek; [|exists k, v; auto]. injection Ek as <-. rewrite X.
      destruct (H2 k x X) as (k0 & v0 & E0 & Ek0 & Ev0). rewrite (U k0) in Ek0; [|exists k0, v0; auto]. injection Ek0 as ->.
      rewrite (U v0) in Ev0; [|exists k, v0; auto]. congruence.
    - destruct (m' !! k) as [x|] eqn:X; [|reflexivity]. destruct (H2 k x X) as (k0 & v0 & E0 & Ek0 & _).
      rewrite (U k0) in Ek0; [|exists k0, v0; auto]. congruence.
  Qed.
  Definition left_alone (c : call) : Prop := forall s, escapes c s -> un s.
  Lemma call_same c c' : left_alone c -> escaped_call uletter udigit c c' -> c' = c.
  Proof.
    intros U H. unfold left_alone, unescaped in U. destruct H; cbn [escapes] in U; try reflexivity;
      repeat match goal with
      | H : esc ?x = Some ?y |- _ => let E := fresh in assert (E : y = x) by (rewrite (U x) in H by tauto; congruence); subst y; clear H
      | H : escaped_attrs _ _ ?m ?m' |- _ => let E := fresh in assert (E : m' = m) by (apply attrs_same; [intros s Hs; apply U; tauto|exact H]); subst m'; clear H
      end; reflexivity.
  Qed.
  Lemma calls_same cs cs' : Forall left_alone cs -> Forall2 (escaped_call uletter udigit) cs cs' -> cs' = cs.
  Proof. intros U H. induction H as [|c c' cs cs' Hc _ IH]; [reflexivity|]. apply Forall_cons in U. destruct U as [U1 U2]. rewrite (call_same c c' U1 Hc), (IH U2). reflexivity. Qed.
  Lemma none_bad cs : Forall left_alone cs -> ~ exists c, c ∈ cs /\ bad c.
  Proof. intros U (c & H & s & Hs & E). rewrite Forall_forall in U. rewrite (U c H s Hs) in E. discriminate. Qed.

  Lemma un_nil : un [].
  Proof. reflexivity. Qed.
End P.

Section Strings.
  Variable Q : gostr -> Prop.
  Definition only (m : attrs) : Prop := forall s, entry m s -> Q s.
  Definition uses_only (c : call) : Prop := forall s, escapes c s -> Q s.
  (** ** The calls of a tree use its strings *)
  Lemma only_empty : only ∅.
  Proof. intros s (k & v & H & _). rewrite lookup_empty in H. discriminate. Qed.
  Lemma only_union a b : only a -> only b -> only (a ∪ b).
  Proof. intros Ha Hb s (k & v & H & Hs). apply lookup_union_Some_raw in H. destruct H as [H|[_ H]]; [apply Ha|apply Hb]; exists k, v; auto. Qed.
  Lemma only_insert k v m : Q k -> Q v -> only m -> only (<[k := v]> m).
  Proof. intros Hk Hv Hm s (k' & v' & H & Hs). apply lookup_insert_Some in H. destruct H as [[<- <-]|[_ H]]; [destruct Hs; subst s; assumption|apply Hm; exists k', v'; auto]. Qed.
  Lemma only_given a : wf_attrs Q a -> only (given a).
  Proof.
    rewrite <- get_map_given. unfold get_map. intros H. assert (G : forall m, only m -> only (fold_left (fun acc al => fold_left (fun acc a => <[Ast.at_field a := Ast.at_value a]> acc) al acc) a m)).
    { induction H as [|al a Hal _ IH]; intros m Hm; [exact Hm|]. cbn [fold_left]. apply IH. clear IH. revert m Hm. induction Hal as [|x al (Hf & Hx) _ IH]; intros m Hm; [exact Hm|].
      cbn [fold_left]. apply IH. apply only_insert; assumption. }
    apply G, only_empty.
  Qed.
  Notation wfs := (wf_stmt Q).
  Lemma only_nd d pre : only d -> Forall wfs pre -> only (node_defaults d pre).
  Proof. intros Hd H. revert d Hd. induction H as [|s pre Hs _ IH]; intros d Hd; [exact Hd|]. destruct s; cbn [node_defaults]; try (apply IH; exact Hd). apply IH, only_union; [apply only_given; exact Hs|exact Hd]. Qed.
  Lemma only_ed d pre : only d -> Forall wfs pre -> only (edge_defaults d pre).
  Proof. intros Hd H. revert d Hd. induction H as [|s pre Hs _ IH]; intros d Hd; [exact Hd|]. destruct s; cbn [edge_defaults]; try (apply IH; exact Hd). apply IH, only_union; [apply only_given; exact Hs|exact Hd]. Qed.
  Lemma only_gd d pre : only d -> Forall wfs pre -> only (graph_defaults d pre).
  Proof. intros Hd H. revert d Hd. induction H as [|s pre Hs _ IH]; intros d Hd; [exact Hd|]. destruct s; cbn [graph_defaults]; try (apply IH; exact Hd). apply IH, only_union; [apply only_given; exact Hs|exact Hd]. Qed.
  Lemma wf_end lo : wf_loc Q lo -> Q (end_name lo).
  Proof. destruct lo as [n|[id b]]; intros H; [apply H|apply H]. Qed.
  Lemma endpoint_alone name d seen lo : Q name -> wf_loc Q lo -> only d -> Forall uses_only (endpoint_call name d seen lo).
  Proof.
    intros N H Hd. destruct lo as [n|g]; cbn; [|constructor]. destruct (decide _); [constructor|]. constructor; [|constructor].
    intros s [->|[->|K]]; [exact N|apply H|exact (Hd s K)].
  Qed.
  Lemma arrow_alone name d m rhs : Q name -> only d -> only m -> Forall (wf_loc Q) (map dst_of rhs) -> forall seen src, wf_loc Q src -> Forall uses_only (arrow_calls name d m seen src rhs).
  Proof.
    intros N Hd Hm. induction rhs as [|[op dst] rhs IH]; intros W seen src Hs; [constructor|]. cbn [arrow_calls map dst_of] in *. apply Forall_cons in W. destruct W as [W1 W2].
    apply Forall_app. split; [apply endpoint_alone; assumption|]. constructor; [|apply IH; assumption].
    intros s [->|[->|K]]; [apply wf_end; exact Hs|apply wf_end; exact W1|exact (Hm s K)].
  Qed.
  (** The texts of node statements. *)
  Definition texts (l : list Ast.stmt) : Prop := forall n a, in_stmts l (Ast.SNode n a) -> Q (node_text n).
  Lemma texts_incl l l' : (forall x, x ∈ l -> x ∈ l') -> texts l' -> texts l.
  Proof. intros H T n a K. apply (T n a). eapply in_stmts_incl; [exact H|exact K]. Qed.
  Definition texts_loc (l : Ast.location) : Prop := match l with Ast.LNode _ => True | Ast.LSub (Ast.SubGraph _ body) => texts body end.
  Lemma calls_alone :
    (forall name nd ed pre s l, stmt_calls name nd ed pre s l -> Q name -> only nd -> only ed -> Forall wfs pre -> wfs s -> texts [s] -> Forall uses_only l) /\
    (forall name nd ed pre ls l, locs_calls name nd ed pre ls l -> Q name -> only nd -> only ed -> Forall wfs pre -> Forall (wf_loc Q) ls -> Forall texts_loc ls -> Forall uses_only l) /\
    (forall name nd ed pre g l, sub_calls name nd ed pre g l -> Q name -> only nd -> only ed -> Forall wfs pre -> wf_sub Q g -> texts_loc (Ast.LSub g) -> Forall uses_only l) /\
    (forall name nd ed pre body l, body_calls name nd ed pre body l -> Q name -> only nd -> only ed -> Forall wfs pre -> Forall wfs body -> texts body -> Forall uses_only l).
  Proof.
    apply (calls_ind (fun name nd ed pre s l => Q name -> only nd -> only ed -> Forall wfs pre -> wfs s -> texts [s] -> Forall uses_only l)
      (fun name nd ed pre ls l => Q name -> only nd -> only ed -> Forall wfs pre -> Forall (wf_loc Q) ls -> Forall texts_loc ls -> Forall uses_only l)
      (fun name nd ed pre g l => Q name -> only nd -> only ed -> Forall wfs pre -> wf_sub Q g -> texts_loc (Ast.LSub g) -> Forall uses_only l)
      (fun name nd ed pre body l => Q name -> only nd -> only ed -> Forall wfs pre -> Forall wfs body -> texts body -> Forall uses_only l)).
    - intros name nd ed pre n a N Hn He Hp (H1 & H2) T. constructor; [|constructor]. intros s [->|[->|K]]; [exact N|apply (T n a); apply In_here; left|].
      revert s K. apply only_union; [apply only_given; exact H2|]. destruct (decide _); [apply only_empty|apply only_nd; assumption].
    - intros name nd ed pre src rhs a l _ IH N Hn He Hp W T. cbn in W. destruct W as (W1 & _ & W2 & W3). apply rhs_wf in W2. apply Forall_app. split.
      + apply Forall_app. split; [apply endpoint_alone; [exact N|exact W1|apply only_nd; assumption]|]. apply arrow_alone; [exact N|apply only_nd; assumption| |exact W2|exact W1].
        apply only_union; [apply only_given; exact W3|apply only_ed; assumption].
      + apply IH; auto. constructor.
        * destruct src as [n|[id b]]; [exact I|]. intros n0 a0 K. apply (T n0 a0). eapply In_src; [left|exact K].
        * apply Forall_forall. intros lo K. apply elem_of_list_fmap in K. destruct K as ([op d] & -> & K). cbn [dst_of]. destruct d as [n|[id b]]; [exact I|].
          intros n0 a0 K0. apply (T n0 a0). eapply In_dst; [left|exact K|exact K0].
    - intros. constructor.
    - intros. constructor.
    - intros name nd ed pre a l Pm N Hn He Hp W T. cbn in W. apply Forall_forall. intros c Hc. apply elem_of_list_fmap in Hc. destruct Hc as ([k v] & -> & Hc). cbn.
      rewrite Pm in Hc. apply elem_of_map_to_list in Hc. intros s [->|[->| ->]]; [exact N| |]; apply (only_given a W); exists k, v; auto.
    - intros name nd ed pre g l _ IH N Hn He Hp W T. apply IH; auto. destruct g as [id b]. intros n0 a0 K. apply (T n0 a0). eapply In_sub; [left|exact K].
    - intros name nd ed pre a N Hn He Hp (Wf & Wv) T. constructor; [|constructor]. intros s [->|[->| ->]]; assumption.
    - intros. constructor.
    - intros name nd ed pre n ls l _ IH N Hn He Hp W T. apply Forall_cons in W. apply Forall_cons in T. apply IH; tauto.
    - intros name nd ed pre g ls l l' _ IH1 _ IH2 N Hn He Hp W T. apply Forall_cons in W. apply Forall_cons in T. apply Forall_app. split; [apply IH1|apply IH2]; tauto.
    - intros name nd ed pre id body l _ IH N Hn He Hp W T. cbn in W. destruct W as [W1 W2]. apply body_wf in W2. constructor.
      + intros s [->|[->|K]]; [exact N|exact W1|]. revert s K. apply only_gd; [apply only_empty|exact Hp].
      + apply IH; [exact W1|apply only_nd; assumption|apply only_ed; assumption|constructor|exact W2|exact T].
    - intros. constructor.
    - intros name nd ed pre s body l l' _ IH1 _ IH2 N Hn He Hp W T. apply Forall_cons in W. destruct W as [W1 W2]. apply Forall_app. split.
      + apply IH1; try assumption. eapply texts_incl; [|exact T]. intros x K. apply elem_of_list_singleton in K. subst x. left.
      + apply IH2; try assumption; [|eapply texts_incl; [|exact T]; intros x K; right; exact K]. apply Forall_app. split; [exact Hp|]. constructor; [exact W1|constructor].
  Qed.
  Lemma graph_uses a l : Q [] -> wf_graph Q a -> texts (Ast.g_stmts a) -> graph_calls a l -> Forall uses_only l.
  Proof.
    intros Q0 (Wi & W) T (l' & H & ->). assert (N : Q (Ast.g_id a)).
    { destruct (Ast.g_id a) eqn:E; [exact Q0|]. apply Wi. congruence. }
    constructor; [intros s []|]. constructor; [intros s []|]. constructor; [intros s ->; exact N|].
    refine (proj2 (proj2 (proj2 calls_alone)) _ _ _ _ _ _ H N only_empty only_empty (Forall_nil_2 _) W T).
  Qed.
End Strings.

(** ** Texts *)
Lemma ascii_lexes p ps ts : lexes p ps ts -> ascii_text (text ps) -> Forall (fun x : stoken => ascii_text (snd (fst x))) ts.
Proof.
  induction 1 as [p|p ps u rest ts Hl H IH|p ps u rest ty ts Hl H IH|p u c rest H1 H2 H3|p u H1 H2 H3]; intros A.
  - constructor; [constructor|constructor].
  - destruct Hl as (-> & _). rewrite text_app in A. apply Forall_app in A. apply IH, A.
  - destruct Hl as (-> & _). rewrite text_app in A. apply Forall_app in A. constructor; [apply A|apply IH, A].
  - constructor; [|constructor]. cbn. replace (u ++ c :: rest) with ((u ++ [c]) ++ rest) in A by (rewrite <- app_assoc; reflexivity). rewrite text_app in A. apply Forall_app in A. apply A.
  - constructor; [exact A|constructor].
Qed.
Lemma ascii_tokens src w : scans_to src w -> ascii_text src -> ids_ok ascii_text w.
Proof.
  intros (ts & p & H & <-) A. apply ascii_lexes in H; [|rewrite text_pieces; exact A]. apply Forall_app in H. destruct H as [H _].
  unfold ids_ok. apply Forall_map. eapply Forall_impl; [exact H|]. intros x Hx _. exact Hx.
Qed.
Lemma ascii_true : ascii_text (lit "true").
Proof. apply (bool_decide_unpack _). vm_compute. exact I. Qed.
Lemma ascii_anon r : ascii_text (anon r).
Proof.
  unfold anon. apply Forall_app. split; [apply (bool_decide_unpack _); vm_compute; exact I|]. pose proof (dec_digits r) as D. rewrite forallb_forall in D.
  apply List.Forall_forall. intros a Ha. specialize (D a Ha). unfold digit_byte, in_range in D. apply andb_true_iff in D. rewrite !N.leb_le in D. lia.
Qed.
(** All the strings of a parsed tree: the ID tokens that are no ports, "true" and the names of anonymous subgraphs. *)
Lemma parsed_strings (P : gostr -> Prop) rnd k src w a k' : scans_to src w -> parse_bytes rnd k src = Ok (a, k') ->
  P (lit "true") -> (forall r, P (anon r)) -> ids_ok P w -> wf_graph (fun i => is_id i /\ P i) a.
Proof.
  intros S H P1 P2 F. apply parse_ok_iff in H. destruct H as (w' & S' & D). rewrite (LabelRead.scans_once _ _ _ S' S) in D. 
  eapply (wf_d_graph (fun i => is_id i /\ P i)); [| | |exact D|].
  - split; [exact true_is_id|exact P1].
  - intros r. split; [apply anon_is_id|apply P2].
  - intros i [Hi _]. apply is_id_nonempty. exact Hi.
  - apply scans_to_is_id in S. unfold ids_ok in *. rewrite Forall_forall in *. intros x Hx E. auto.
Qed.
Lemma node_in_wf (P : gostr -> Prop) a n l : wf_graph P a -> in_stmts (Ast.g_stmts a) (Ast.SNode n l) -> P (Ast.nid_id n).
Proof.
  intros [_ W] H. remember (Ast.SNode n l) as st eqn:E. revert W. unfold wf_stmts. induction H as [l0 st H|l0 id body st H _ IH|l0 id body rhs a0 st H _ IH|l0 src rhs op id body a0 st H H1 _ IH]; intros W; rewrite Forall_forall in W; specialize (W _ H).
  - subst st. apply W.
  - apply (IH E). cbn in W. apply body_wf. apply W.
  - apply (IH E). cbn in W. apply body_wf. apply W.
  - apply (IH E). cbn in W. destruct W as (_ & _ & W & _). apply rhs_wf in W. rewrite Forall_forall in W.
    specialize (W (Ast.LSub (Ast.SubGraph id body))). cbn in W. apply body_wf. apply W. apply elem_of_list_fmap. exists (Ast.EdgeRH op (Ast.LSub (Ast.SubGraph id body))). auto.
Qed.
Lemma runes_colon s t : runes (s ++ lit ":" ++ t) = runes s ++ 58%N :: runes t.
Proof. change (lit ":" ++ t) with (":"%char :: t). rewrite EscapeProofs.runes_start_app by (apply EscapeProofs.ascii_start; vm_compute; reflexivity). rewrite EscapeProofs.runes_ascii by (vm_compute; reflexivity). reflexivity. Qed.
Lemma node_text_cases n : node_text n = Ast.nid_id n \/ exists t, node_text n = Ast.nid_id n ++ lit ":" ++ t.
Proof. unfold node_text. destruct (Ast.nid_port n) as [[|x i] [|y j]]; cbn [port_text]; rewrite ?app_nil_r; eauto. Qed.
Lemma node_text_blank n : all_blank (node_text n) -> all_blank (Ast.nid_id n).
Proof.
  destruct (node_text_cases n) as [->|[t ->]]; [auto|]. unfold all_blank. rewrite runes_colon. intros H. apply Forall_app in H. apply H.
Qed.
Lemma node_text_quote n : node_text n = [dquote] -> Ast.nid_id n = [dquote] \/ Ast.nid_id n = [].
Proof.
  destruct (node_text_cases n) as [->|[t ->]]; [auto|]. destruct (Ast.nid_id n) as [|x i]; [auto|]. intros H. cbn in H. injection H as -> H. destruct i; discriminate.
Qed.
