(** Properties C38-C41: the escaping of names. *)
From Coq Require Import List Ascii NArith ZArith Bool Lia Arith.
From Verif Require Import Base LexSpec LexDfa LexerProofs LexFacts LexPrint TrimFacts.
From Verif Require MapFacts AstProofs PropsParse Lexer Tokens.
From Verif Require Import Escape SpecEscape EscapeProofs EscapeFacts.
Import ListNotations.
Local Open Scope nat_scope.
Local Arguments dquote : simpl never.
Local Arguments backslash : simpl never.

(** ** Deciding, for the examples, whether a text is an ID: it scans to one ID token and the end. *)
Definition is_idb (s : gostr) : bool :=
  match Tokens.tokens s with
  | [t; e] => Nat.eqb (Lexer.tk_type t) ID && str_eqb (Lexer.tk_lit t) s && Nat.eqb (Lexer.tk_off t) 0 && Nat.eqb (Lexer.tk_line t) 1
              && Nat.eqb (Lexer.tk_col t) 1 && Nat.eqb (Lexer.tk_type e) Lexer.EOF
  | _ => false
  end.
Lemma is_idb_spec s : is_idb s = true <-> is_id s.
Proof.
  unfold is_id. rewrite PropsParse.C04_token_class. unfold is_idb. split.
  - destruct (Tokens.tokens s) as [|[ty l o ln c] [|e [|? ?]]]; try discriminate. cbn [Lexer.tk_type Lexer.tk_lit Lexer.tk_off Lexer.tk_line Lexer.tk_col].
    rewrite !andb_true_iff, !Nat.eqb_eq, MapFacts.str_eqb_eq. intros (((((-> & ->) & ->) & ->) & ->) & He). eauto.
  - intros (e & -> & He). cbn [Lexer.tk_type Lexer.tk_lit Lexer.tk_off Lexer.tk_line Lexer.tk_col]. rewrite He, !Nat.eqb_refl.
    assert (E : str_eqb s s = true) by (apply MapFacts.str_eqb_eq; reflexivity). rewrite E. reflexivity.
Qed.

(** In the examples: ASCII letters and digits are the only ones. *)
Definition none : N -> bool := fun _ => false.

(** ** C38 *)
(** [s] has no rune but spaces: it panics unless it is empty; a single double quote panics; nothing else. *)
Theorem C38_panics : forall uletter udigit s, esc uletter udigit s = None <-> (s <> [] /\ all_blank s) \/ s = [dquote].
Proof.
  intros ul ud s. destruct (esc_spec ul ud s) as [[E P]|[(E & _ & P)|[(E & _ & P & _)|(E & _ & P & _)]]]; rewrite E; (split; [intros H|intros H]); try discriminate H; try (exact P); try (reflexivity); contradiction.
Qed.
Print Assumptions C38_panics.
(** NBSP, then a tab *)
(** Blank means: made of these characters. *)
Theorem C38_blank : forall s, all_blank s <-> Forall (fun c => In c white_space) (runes s).
Proof.
  intros s. unfold all_blank. assert (X : forall c, is_space c = true <-> In c white_space).
  { intros c. unfold is_space, white_space. rewrite !orb_true_iff, !in_range_spec, !N.eqb_eq. cbn [In]. lia. }
  split; intros H; eapply Forall_impl; try exact H; intros c; apply X.
Qed.
Print Assumptions C38_blank.
Example C38_example : all_blank [ascii_of_N 194; ascii_of_N 160; tab] /\ esc none none [ascii_of_N 194; ascii_of_N 160; tab] = None /\
  esc none none [dquote; dquote] = Some [dquote; dquote] /\ esc none none [] = Some [] /\ esc none none [dquote; tab] <> None.
Proof. split; [repeat constructor|]. split; [reflexivity|]. split; [reflexivity|]. split; [reflexivity|discriminate]. Qed.

(** ** C39 *)
Theorem C39_idempotent : forall uletter udigit s t, esc uletter udigit s = Some t -> esc uletter udigit t = Some t.
Proof. exact esc_fixed. Qed.
Print Assumptions C39_idempotent.
Example C39_example : exists t, esc none none (lit "a b") = Some t /\ t <> lit "a b" /\ esc none none t = Some t.
Proof. eexists. split; [vm_compute; reflexivity|]. split; [discriminate|reflexivity]. Qed.

(** ** C40 *)
Lemma int_head w : matches int_lit w -> exists c v, w = c :: v /\ is_space c = false.
Proof.
  assert (D : forall v, matches decimals v -> exists c v', v = c :: v' /\ is_space c = false).
  { intros v. unfold decimals, digit. rewrite m_one_cat. intros (c & v' & -> & H & _). exists c, v'. split; [reflexivity|].
    apply not_true_iff_false. unfold is_space. rewrite !orb_true_iff, !in_range_spec, !N.eqb_eq. lia. }
  intros M. assert (X : exists w', (w = w' \/ w = 45%N :: w') /\ exists c v, w' = c :: v /\ is_space c = false).
  { unfold int_lit in M. apply m_alt in M. destruct M as [M|M]; apply (minus_cases _ []) in M; auto; destruct M as (w' & E & M); exists w'; (split; [exact E|]).
    - unfold cats, chr in M. cbn [fold_right] in M. apply m_one_cat in M. destruct M as (c & v & -> & Hc & M). exists c, v. split; [reflexivity|]. change (bv ".") with 46%N in Hc. assert (c = 46%N) by lia. subst c. reflexivity.
    - cbn [cats fold_right] in M. apply m_cat_iff in M. destruct M as (v1 & v2 & -> & M1 & M2). apply D in M1. destruct M1 as (c & v & -> & Sp). exists c, (v ++ v2). auto. }
  destruct X as (w' & [->| ->] & c & v & -> & Sp); [eauto|]. exists 45%N, (c :: v). auto.
Qed.
(** The first rune of an ID that is not a name is visible. *)
Lemma id_head s : is_id s -> matches name (runes s) \/ exists c w, runes s = c :: w /\ is_space c = false.
Proof.
  intros H. apply is_id_iff in H. destruct H as [H _]. apply lex_id_cases in H. destruct H as [H|[H|[H|H]]]; [left; exact H|right..].
  - apply int_head. exact H.
  - apply m_string_lit in H. destruct H as (b & E & _). exists 34%N, (b ++ [34%N]). auto.
  - apply m_html_head in H. destruct H as [v E]. exists 60%N, v. auto.
Qed.
Lemma id_not_panic ul s : is_id s -> (matches name (runes s) -> go_name ul s) -> ~ panics s.
Proof.
  intros I G [[NE B]| ->].
  - destruct (id_head s I) as [M|(c & w & E & Sp)].
    + destruct (G M) as [_ F]. apply m_name in M. destruct M as (c & v & E & _). unfold all_blank in B. rewrite E in B, F. inversion B as [|? ? X1 _]. inversion F as [|? ? X2 _]. congruence.
    + unfold all_blank in B. rewrite E in B. inversion B. congruence.
  - apply is_idb_spec in I. vm_compute in I. discriminate.
Qed.
(** Every ASCII ID is returned as it is. *)
Theorem C40_ascii_id_kept : forall uletter udigit s, Forall (fun a => bv a < 128)%N s -> is_id s -> esc uletter udigit s = Some s.
Proof.
  intros ul ud s F I. apply kept_esc.
  - apply id_kept; [exact I|]. apply ascii_go_name. exact F.
  - apply (id_not_panic ul); [exact I|]. apply ascii_go_name. exact F.
Qed.
Print Assumptions C40_ascii_id_kept.
(** So is every other ID; an ID that is a name should start with a Go letter, which U+03B5 is not made to be,
    and have no Unicode space. *)
Theorem C40_id_kept : forall uletter udigit s, is_id s ->
  (matches name (runes s) -> (forall c w, runes s = c :: w -> (128 <= c)%N -> uletter c = true /\ c <> 949%N) /\ Forall (fun c => is_space c = false) (runes s)) ->
  esc uletter udigit s = Some s.
Proof. intros ul ud s I G. apply kept_esc; [apply id_kept; assumption|]. apply (id_not_panic ul); assumption. Qed.
Print Assumptions C40_id_kept.
Example C40_example : is_id (lit "-12.5") /\ is_id (lit "<a <b> c>") /\ is_id (quoted (lit "a b")) /\ is_id (lit "abc_1").
Proof. repeat split; apply is_idb_spec; vm_compute; reflexivity. Qed.
(** Without these conditions it fails: the Euro sign (not a letter) and the Greek epsilon are IDs which get quotes;
    a no-break space is an ID on which escaping panics. *)
Definition euro : gostr := map ascii_of_N [226; 130; 172]%N.
Definition epsilon : gostr := map ascii_of_N [206; 181]%N.
Definition nbsp : gostr := map ascii_of_N [194; 160]%N.
Theorem C40_unicode_refuted : forall uletter udigit, uletter 8364%N = false -> udigit 8364%N = false -> udigit 949%N = false ->
  is_id euro /\ esc uletter udigit euro = Some (quoted euro) /\
  is_id epsilon /\ esc uletter udigit epsilon = Some (quoted epsilon) /\
  is_id nbsp /\ esc uletter udigit nbsp = None.
Proof.
  intros ul ud H1 H2 H3. split; [apply is_idb_spec; vm_compute; reflexivity|]. split.
  - unfold esc, is_name, is_number. change (is_html euro) with (Some false). change (trim_space euro) with euro. change (runes euro) with [8364%N]. cbn [euro map Ascii.eqb is_name_loop is_number_loop].
    unfold is_letter, is_digit. rewrite H1, H2. vm_compute. reflexivity.
  - split; [apply is_idb_spec; vm_compute; reflexivity|]. split; [|split; [apply is_idb_spec; vm_compute; reflexivity|vm_compute; reflexivity]].
    unfold esc, is_name, is_number. change (is_html epsilon) with (Some false). change (trim_space epsilon) with epsilon. change (runes epsilon) with [949%N]. cbn [epsilon map Ascii.eqb is_name_loop is_number_loop].
    unfold is_letter, is_digit. rewrite H3, !andb_false_r. vm_compute. reflexivity.
Qed.
Print Assumptions C40_unicode_refuted.

(** ** C41 *)
(** What escaping returns. *)
Theorem C41_result : forall uletter udigit s t, esc uletter udigit s = Some t ->
  (kept uletter udigit s -> t = s) /\
  (~ kept uletter udigit s -> t <> s) /\
  (~ kept uletter udigit s -> starts_angle s -> t = quoted (replace_byte dquote [backslash; dquote] s)) /\
  (~ kept uletter udigit s -> ~ starts_angle s -> t = quoted (html_escape s)).
Proof.
  intros ul ud s t E. destruct (esc_spec ul ud s) as [[E' P]|[(E' & K & P)|[(E' & K & P & SA)|(E' & K & P & SA)]]]; rewrite E in E'; try discriminate; injection E' as ->.
  - split; [auto|]. split; [contradiction|]. split; contradiction.
  - split; [contradiction|]. split; [intros _; apply quoted_longer, replace_length|]. split; [auto|contradiction].
  - split; [contradiction|]. split; [intros _; apply quoted_longer, html_escape_length|]. split; [contradiction|auto].
Qed.
Print Assumptions C41_result.
(** When it is an ID. *)
Theorem C41_when_id : forall uletter udigit s t, esc uletter udigit s = Some t ->
  (is_id t <->
   (kept uletter udigit s /\ is_id s) \/
   (~ kept uletter udigit s /\ lexable (runes s) /\ starts_angle s /\ paired (fun c => c = 34%N) (runes s)) \/
   (~ kept uletter udigit s /\ lexable (runes s) /\ ~ starts_angle s /\ paired (fun _ => False) (runes s))).
Proof.
  intros ul ud s t E. destruct (esc_spec ul ud s) as [[E' P]|[(E' & K & P)|[(E' & K & P & SA)|(E' & K & P & SA)]]]; rewrite E in E'; try discriminate; injection E' as ->.
  - tauto.
  - rewrite quoted_id, runes_back, back_lexable, back_body. tauto.
  - rewrite quoted_id, runes_html, html_lexable. split.
    + intros [L B]. apply html_body in B; [|exact L]. tauto.
    + intros [H|[H|(_ & L & _ & B)]]; try tauto. split; [exact L|]. apply html_body; assumption.
Qed.
Print Assumptions C41_when_id.
(** In particular a name which is not kept, has no backslash, no NUL and is valid UTF-8 without U+FFFD becomes an ID. *)
Theorem C41_no_backslash : forall uletter udigit s t, esc uletter udigit s = Some t -> ~ kept uletter udigit s ->
  Forall (fun c => c <> 0%N /\ c <> rune_error /\ c <> 92%N) (runes s) -> is_id t.
Proof.
  intros ul ud s t E K F. apply (C41_when_id ul ud s t E).
  assert (L : lexable (runes s)) by (unfold lexable; rewrite Forall_forall in *; intros c Hc; destruct (F c Hc) as (? & ? & ?); auto).
  assert (P : forall bad, paired bad (runes s)) by (intros bad; clear -F; induction F as [|c w (? & ? & ?)]; constructor; auto).
  assert (D : starts_angle s \/ ~ starts_angle s). { destruct (esc_spec ul ud s) as [[E' Pn]|[(E' & K' & _)|[(_ & _ & _ & SA)|(_ & _ & _ & SA)]]]; auto; congruence. }
  destruct D; auto 6.
Qed.
Print Assumptions C41_no_backslash.
Example C41_example : exists t, esc none none (lit "a b & c") = Some t /\ is_id t /\ t = quoted (lit "a b &amp; c").
Proof. eexists. split; [vm_compute; reflexivity|]. split; [apply is_idb_spec|]; vm_compute; reflexivity. Qed.
(** Names for which escaping gives no ID: kept though they are none, or with a backslash at the end, a backslash
    before a double quote after '<', a NUL. *)
Theorem C41_not_id : forall s t, In (s, t)
    [ (lit "a:b", lit "a:b"); (lit "graph", lit "graph"); (lit "1.2.3", lit "1.2.3"); (lit "-abc5", lit "-abc5"); (lit "", lit ""); (lit "<a> b", lit "<a> b");
      (lit "a b" ++ [backslash], quoted (lit "a b" ++ [backslash])); (lit "<a" ++ [backslash; dquote], quoted (lit "<a" ++ [backslash; backslash; dquote]));
      ([ascii_of_N 0], quoted (map ascii_of_N [239; 191; 189]%N)) ] ->
  forall uletter udigit, esc uletter udigit s = Some t /\ ~ is_id t.
Proof.
  intros s t H ul ud. cbn [In] in H.
  repeat (destruct H as [H|H]; [injection H as <- <-; split; [vm_compute; reflexivity|intros I; apply is_idb_spec in I; vm_compute in I; discriminate]|]). contradiction.
Qed.
Print Assumptions C41_not_id.
(** An escaped name which is an ID is printed as it is: it has no space at its ends (a digit is no space). *)
Lemma trim_runes s c w d u : runes s = c :: w -> runes s = u ++ [d] -> is_space c = false -> is_space d = false -> trim_space s = s.
Proof.
  intros E1 E2 S1 S2. assert (NE : s <> []) by (intros ->; discriminate). unfold trim_space.
  assert (El : trim_left s = s).
  { unfold trim_left. destruct s as [|a s]; [congruence|]. cbn [length trim_left_f]. destruct (decode_rune (a :: s)) as [r k] eqn:Ed.
    rewrite (runes_cons (a :: s) r k NE Ed) in E1. injection E1 as -> _. rewrite S1. reflexivity. }
  rewrite El. unfold trim_right. destruct s as [|a s]; [congruence|]. cbn [length trim_right_f]. destruct (decode_last_rune (a :: s)) as [r k] eqn:Ed.
  destruct (is_space r) eqn:Sr; [|reflexivity]. destruct (decode_last_split _ _ _ NE Ed Sr) as (s1 & _ & _ & _ & _ & Er). rewrite E2 in Er. apply app_inj_tail in Er. destruct Er. congruence.
Qed.
Lemma ends_vis s w : runes s = w -> w <> [] -> Forall (fun c => is_space c = false) w -> trim_space s = s.
Proof.
  intros E NE F. destruct w as [|c w]; [congruence|]. inversion F as [|? ? Hc _]; subst. destruct (exists_last NE) as (u & d & E2). 
  apply (trim_runes s c w d u); [exact E|congruence|exact Hc|]. rewrite E2 in F. apply Forall_app in F. destruct F as [_ F]. inversion F; assumption.
Qed.
Lemma digits_vis ud w : (forall c, ud c = true -> is_space c = false) -> Forall (number_rune ud) w -> Forall (fun c => is_space c = false) w.
Proof.
  intros U. rewrite !Forall_forall. intros F c Hc. specialize (F c Hc). destruct F as [[F|[_ F]]| ->]; [|apply U; exact F|reflexivity].
  apply not_true_iff_false. unfold is_space. rewrite !orb_true_iff, !in_range_spec, !N.eqb_eq. lia.
Qed.
Lemma number_vis ud s : (forall c, ud c = true -> is_space c = false) -> number_like ud s -> trim_space s = s.
Proof.
  intros U (w & NE & F & [E|(j & E & J)]).
  - apply (ends_vis s w E NE). apply (digits_vis ud); assumption.
  - destruct (exists_last NE) as (u & d & E2). apply (trim_runes s 45 (j ++ w) d (45%N :: j ++ u)); [exact E| |reflexivity|].
    + rewrite E, E2. cbn [app]. rewrite app_assoc. reflexivity.
    + apply digits_vis in F; [|exact U]. rewrite E2 in F. apply Forall_app in F. destruct F as [_ F]. inversion F; assumption.
Qed.
Theorem C41_printed_as_is : forall uletter udigit s t, (forall c, udigit c = true -> is_space c = false) ->
  esc uletter udigit s = Some t -> is_id t -> trim_space t = t.
Proof.
  intros ul ud s t U E I. apply esc_fixed in E. destruct (esc_spec ul ud t) as [[E' _]|[(_ & K & _)|[(E' & K & _)|(E' & K & _)]]]; [congruence| |rewrite E in E'; injection E' as E'; symmetry in E'; destruct (quoted_longer _ _ (replace_length t) E')|rewrite E in E'; injection E' as E'; symmetry in E'; destruct (quoted_longer _ _ (html_escape_length t) E')].
  apply is_id_iff in I. destruct I as [I _]. apply lex_id_cases in I. destruct I as [I|[I|[I|I]]].
  - assert (A : Forall (fun x => x <> 60%N) (runes t)) by (apply (avoids_matches _ _ _ I); vm_compute; reflexivity).
    apply m_name in I. destruct I as (c & v & Ec & Hc & F). destruct K as [->|[K|[K|[K|K]]]]; [reflexivity| | | |].
    + destruct K as [(b & w & Eb & _) _]. rewrite Eb in A. apply Forall_app in A. destruct A as [_ A]. inversion A. congruence.
    + destruct K as (c' & w & Ew & _ & F'). apply (ends_vis t (c' :: w) Ew); [discriminate|]. eapply Forall_impl; [|exact F']. cbn. tauto.
    + apply (number_vis ud); assumption.
    + destruct K as (b & -> & _). change ([dquote] ++ b ++ [dquote]) with (quoted b) in Ec. rewrite runes_quoted in Ec. injection Ec as <- _. lia.
  - apply (number_vis none); [discriminate|]. apply m_int_number. exact I.
  - apply m_string_lit in I. destruct I as (b & Eb & _). apply (trim_runes t 34 (b ++ [34%N]) 34 (34%N :: b)); auto.
  - unfold html_lit1, cats, chr in I. cbn [fold_right] in I. apply m_one_cat in I. destruct I as (c & v & Ev & Hc & I). change (bv "<") with 60%N in Hc. assert (c = 60%N) by lia. subst c.
    apply m_cat_iff in I. destruct I as (v1 & v2 & -> & _ & I). apply m_one_cat in I. destruct I as (d & v3 & -> & Hd & I). change (bv ">") with 62%N in Hd. assert (d = 62%N) by lia. subst d. apply m_eps_iff in I. subst v3.
    apply (trim_runes t 60 (v1 ++ [62%N]) 62 (60%N :: v1)); auto.
Qed.
Print Assumptions C41_printed_as_is.
(** The hypothesis is met by the digits of Unicode, for instance U+0663 (Arabic-Indic digit three). *)
Example C41_printed_example : let ud := N.eqb 1635 in (forall c, ud c = true -> is_space c = false) /\
  let s := map ascii_of_N [217; 163]%N in esc none ud s = Some s /\ is_id s.
Proof. cbv zeta. split; [intros c H; apply N.eqb_eq in H; subst c; reflexivity|]. split; [vm_compute; reflexivity|]. apply is_idb_spec. vm_compute. reflexivity. Qed.
