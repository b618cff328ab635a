(** Idempotence of escaping; when escaped names are DOT IDs; which DOT IDs are kept. *)
From Coq Require Import List Ascii NArith ZArith Bool Lia Arith.
From Verif Require Import Base LexSpec LexDfa LexerProofs LexFacts LexPrint TrimFacts.
From Verif Require MapFacts.
From Verif Require Import Escape SpecEscape EscapeProofs.
Import ListNotations.
Local Open Scope nat_scope.
Local Arguments dquote : simpl never.
Local Arguments backslash : simpl never.

(** ** Replacing bytes below 128 *)
Definition high (s : gostr) : Prop := Forall (fun a => (128 <= bv a)%N) s.
Lemma chunks_ind (P : gostr -> Prop) : (forall s, high s -> P s) -> (forall s a t, high s -> (bv a < 128)%N -> P t -> P (s ++ a :: t)) -> forall s, P s.
Proof.
  intros H1 H2 s. assert (G : forall n s, length s <= n -> P s); [|apply (G (length s)); lia]. clear s. induction n as [|n IH]; intros s L.
  - destruct s; [|cbn in L; lia]. apply H1. constructor.
  - assert (D : high s \/ exists u a t, s = u ++ a :: t /\ high u /\ (bv a < 128)%N).
    { clear. induction s as [|a s IH]; [left; constructor|]. destruct (N.lt_ge_cases (bv a) 128) as [La|La]; [right; exists [], a, s; repeat split; auto; constructor|].
      destruct IH as [IH|(u & b & t & -> & Hu & Hb)]; [left; constructor; auto|]. right. exists (a :: u), b, t. repeat split; auto. constructor; auto. }
    destruct D as [D|(u & a & t & -> & Hu & Ha)]; [apply H1; exact D|]. apply H2; auto. apply IH. rewrite app_length in L. cbn in L. lia.
Qed.
Lemma runes_high s c : high s -> In c (runes s) -> (128 <= c)%N.
Proof.
  intros H I. destruct (N.lt_ge_cases c 128) as [L|L]; [exfalso|exact L]. apply in_split in I. destruct I as (u & v & E).
  destruct (runes_split s u c v E L) as (s1 & a & s2 & -> & Ha & _). apply Forall_app in H. destruct H as [_ H]. inversion H; lia.
Qed.
Section Replace.
  Variable f : ascii -> gostr.
  Hypothesis f_high : forall a, (128 <= bv a)%N -> f a = [a].
  Hypothesis f_low : forall a, (bv a < 128)%N -> exists x l, f a = x :: l /\ rune_start x = true /\ forall t, runes (f a ++ t) = runes (f a) ++ runes t.
  Definition on_rune (c : N) : list N := if N.ltb c 128 then runes (f (ascii_of_N c)) else [c].
  Lemma flat_map_high s : high s -> flat_map f s = s.
  Proof. induction 1 as [|a s Ha H IH]; [reflexivity|]. cbn. rewrite IH, f_high by exact Ha. reflexivity. Qed.
  Lemma runes_flat_map s : runes (flat_map f s) = flat_map on_rune (runes s).
  Proof.
    induction s as [s H|s a t H Ha IH] using chunks_ind.
    - rewrite flat_map_high by exact H. assert (G : forall w, Forall (fun c => 128 <= c)%N w -> flat_map on_rune w = w).
      { induction 1 as [|c w Hc Hw IHw]; [reflexivity|]. cbn. rewrite IHw. unfold on_rune. destruct (N.ltb_spec c 128); [lia|reflexivity]. }
      rewrite G; [reflexivity|]. apply Forall_forall. intros c. apply runes_high. exact H.
    - rewrite flat_map_app, (flat_map_high s) by exact H. cbn [flat_map]. destruct (f_low a Ha) as (x & l & Ef & Hx & Happ).
      assert (E : runes (s ++ f a ++ flat_map f t) = runes s ++ runes (f a ++ flat_map f t)) by (rewrite Ef; cbn [app]; apply runes_start_app; exact Hx).
      rewrite E, Happ, IH. rewrite (runes_start_app s a t) by (apply ascii_start; exact Ha). rewrite runes_ascii by exact Ha. rewrite flat_map_app. cbn [flat_map].
      assert (G : forall w, Forall (fun c => 128 <= c)%N w -> flat_map on_rune w = w).
      { induction 1 as [|c w Hc Hw IHw]; [reflexivity|]. cbn. rewrite IHw. unfold on_rune. destruct (N.ltb_spec c 128); [lia|reflexivity]. }
      rewrite (G (runes s)) by (apply Forall_forall; intros c; apply runes_high; exact H). f_equal. f_equal. unfold on_rune at 1.
      destruct (N.ltb_spec (bv a) 128); [|lia]. unfold bv. rewrite ascii_N_embedding. reflexivity.
  Qed.
End Replace.
Lemma ascii_all (P : ascii -> bool) : forallb P (map ascii_of_N (map N.of_nat (seq 0 256))) = true -> forall a, P a = true.
Proof.
  intros H a. rewrite forallb_forall in H. apply H. rewrite map_map. apply in_map_iff. exists (N.to_nat (bv a)). unfold bv. rewrite N2Nat.id, ascii_N_embedding. split; [reflexivity|].
  apply in_seq. pose proof (bv_bound a). unfold bv in *. lia.
Qed.
Definition cleanb (s : gostr) : bool := forallb (fun c => negb (N.eqb (fst c) rune_error)) (pieces s).
Lemma clean_bool s : cleanb s = true -> clean s.
Proof. unfold cleanb, clean. rewrite forallb_forall. intros H. apply Forall_forall. intros c Hc. apply H in Hc. apply negb_true_iff, N.eqb_neq in Hc. exact Hc. Qed.
Lemma ascii_clean s : Forall (fun a => bv a < 128)%N s -> clean s.
Proof.
  induction 1 as [|a s Ha H IH]; [constructor|]. unfold clean in *. rewrite pieces_ascii by exact Ha. constructor; [cbn; unfold rune_error; lia|exact IH].
Qed.
Lemma html_high a : (128 <= bv a)%N -> html_escape_byte a = [a].
Proof.
  intros H. pose proof (ascii_all (fun a => N.ltb (bv a) 128 || str_eqb (html_escape_byte a) [a]) ltac:(vm_compute; reflexivity) a) as E.
  cbv beta in E. apply orb_true_iff in E. destruct E as [E|E]; [apply N.ltb_lt in E; lia|]. apply MapFacts.str_eqb_eq in E. exact E.
Qed.
Lemma nul_char a : bv a = 0%N -> a = ascii_of_N 0.
Proof. unfold bv. intros H. rewrite <- H. symmetry. apply ascii_N_embedding. Qed.
Lemma runes_fffd t : runes (ascii_of_N 239 :: ascii_of_N 191 :: ascii_of_N 189 :: t) = rune_error :: runes t.
Proof. rewrite (runes_cons _ rune_error 3); [reflexivity|discriminate|vm_compute; reflexivity]. Qed.
Lemma html_low a : (bv a < 128)%N -> exists x l, html_escape_byte a = x :: l /\ rune_start x = true /\ forall t, runes (html_escape_byte a ++ t) = runes (html_escape_byte a) ++ runes t.
Proof.
  intros H. pose proof (ascii_all (fun a => N.eqb (bv a) 0 || negb (N.ltb (bv a) 128) || (forallb (fun b => N.ltb (bv b) 128) (html_escape_byte a) && negb (Nat.eqb (length (html_escape_byte a)) 0))) ltac:(vm_compute; reflexivity) a) as E.
  cbv beta in E. rewrite !orb_true_iff in E. destruct E as [[E|E]|E].
  - apply N.eqb_eq in E. apply nul_char in E. subst a. exists (ascii_of_N 239), [ascii_of_N 191; ascii_of_N 189]. split; [reflexivity|]. split; [reflexivity|]. intros t.
    change (runes (ascii_of_N 239 :: ascii_of_N 191 :: ascii_of_N 189 :: t) = runes (ascii_of_N 239 :: ascii_of_N 191 :: ascii_of_N 189 :: []) ++ runes t). rewrite !runes_fffd. reflexivity.
  - apply negb_true_iff, N.ltb_ge in E. lia.
  - apply andb_true_iff in E. destruct E as [E1 E2]. rewrite forallb_forall in E1. assert (F : Forall (fun a => bv a < 128)%N (html_escape_byte a)) by (apply Forall_forall; intros b Hb; apply N.ltb_lt, E1, Hb).
    destruct (html_escape_byte a) as [|x l]; [discriminate|]. exists x, l. split; [reflexivity|]. split; [apply ascii_start; inversion F; assumption|]. intros t. apply runes_clean_app, ascii_clean, F.
Qed.
Lemma runes_html s : runes (html_escape s) = flat_map (on_rune html_escape_byte) (runes s).
Proof. apply runes_flat_map; [apply html_high|apply html_low]. Qed.
Definition back (c : ascii) : gostr := if Ascii.eqb c dquote then [backslash; dquote] else [c].
Lemma runes_back s : runes (replace_byte dquote [backslash; dquote] s) = flat_map (on_rune back) (runes s).
Proof.
  change (replace_byte dquote [backslash; dquote] s) with (flat_map back s). apply runes_flat_map.
  - intros a H. unfold back. destruct (Ascii.eqb_spec a dquote) as [->|]; [vm_compute in H; congruence|reflexivity].
  - intros a H. unfold back. destruct (Ascii.eqb_spec a dquote) as [->|].
    + exists backslash, [dquote]. split; [reflexivity|]. split; [reflexivity|]. intros t. apply runes_clean_app, ascii_clean. repeat constructor; vm_compute; reflexivity.
    + exists a, []. split; [reflexivity|]. split; [apply ascii_start; exact H|]. intros t. apply runes_clean_app, ascii_clean. repeat constructor; exact H.
Qed.
(** What these do to a rune. *)
Lemma html_rune c : (c = 0%N -> on_rune html_escape_byte c = [rune_error]) /\
  (c <> 0%N -> c <> rune_error -> exists x l, on_rune html_escape_byte c = x :: l /\ (forall y, In y (x :: l) -> y <> 34%N /\ y <> 0%N /\ y <> rune_error /\ (c <> 92%N -> y <> 92%N)) /\
     (c = 92%N -> x :: l = [92%N]) /\ ~ In 92%N l).
Proof.
  split; [intros ->; vm_compute; reflexivity|]. intros N0 NE. unfold on_rune. destruct (N.ltb_spec c 128) as [L|L].
  - assert (B : bv (ascii_of_N c) = c) by (unfold bv; rewrite N_ascii_embedding; [reflexivity|lia]).
    set (ok a := N.eqb (bv a) 0 || negb (N.ltb (bv a) 128) || match runes (html_escape_byte a) with [] => false | x :: l =>
      forallb (fun y => negb (N.eqb y 34) && negb (N.eqb y 0) && negb (N.eqb y rune_error) && (N.eqb (bv a) 92 || negb (N.eqb y 92))) (x :: l) &&
      (negb (N.eqb (bv a) 92) || (N.eqb x 92 && match l with [] => true | _ => false end)) && forallb (fun y => negb (N.eqb y 92)) l end).
    assert (E : ok (ascii_of_N c) = true) by (apply ascii_all; vm_compute; reflexivity). unfold ok in E. rewrite B in E.
    rewrite !orb_true_iff in E. destruct E as [[E|E]|E]; [apply N.eqb_eq in E; contradiction|apply negb_true_iff, N.ltb_ge in E; lia|].
    destruct (runes (html_escape_byte (ascii_of_N c))) as [|x l]; [discriminate|]. exists x, l. split; [reflexivity|].
    rewrite !andb_true_iff in E. destruct E as [[E1 E2] E3]. rewrite forallb_forall in E1, E3. split; [|split].
    + intros y Hy. apply E1 in Hy. rewrite !andb_true_iff, orb_true_iff, !negb_true_iff, !N.eqb_neq, N.eqb_eq in Hy. tauto.
    + intros ->. cbn [negb N.eqb Pos.eqb orb] in E2. apply andb_true_iff in E2. destruct E2 as [E2 E4]. apply N.eqb_eq in E2. destruct l; [congruence|discriminate].
    + intros I. apply E3 in I. discriminate.
  - exists c, []. split; [reflexivity|]. split; [|split; [intros ->; reflexivity|intros []]]. intros y [<-|[]]. repeat split; try assumption; lia.
Qed.
Lemma html_rune_error : on_rune html_escape_byte rune_error = [rune_error].
Proof. reflexivity. Qed.
Lemma back_rune c : on_rune back c = if N.eqb c 34 then [92%N; 34%N] else [c].
Proof.
  unfold on_rune. destruct (N.ltb_spec c 128) as [L|L].
  - assert (B : bv (ascii_of_N c) = c) by (unfold bv; rewrite N_ascii_embedding; [reflexivity|lia]). unfold back.
    destruct (Ascii.eqb_spec (ascii_of_N c) dquote) as [E|E].
    + rewrite E in B. vm_compute in B. subst c. vm_compute. reflexivity.
    + destruct (N.eqb_spec c 34) as [->|N]; [exfalso; apply E; reflexivity|]. rewrite runes_ascii by lia. rewrite B. reflexivity.
  - destruct (N.eqb_spec c 34); [lia|reflexivity].
Qed.

(** ** Quoted strings *)
Inductive str_body : list N -> Prop :=
| Sb_nil : str_body []
| Sb_char c w : c <> 92%N -> c <> 34%N -> str_body w -> str_body (c :: w)
| Sb_esc c w : str_body w -> str_body (92%N :: c :: w).
Lemma str_body_plain l w : (forall y, In y l -> y <> 34%N /\ y <> 92%N) -> str_body (l ++ w) <-> str_body w.
Proof.
  induction l as [|c l IH]; intros H; [reflexivity|]. cbn [app]. rewrite <- IH by (intros y Hy; apply H; right; exact Hy). destruct (H c (or_introl eq_refl)) as [H1 H2]. split.
  - intros B. inversion B; subst; [assumption|contradiction].
  - intros B. constructor; assumption.
Qed.
Lemma list_ind2 {A} (P : list A -> Prop) : P [] -> (forall x, P [x]) -> (forall x y l, P l -> P (y :: l) -> P (x :: y :: l)) -> forall l, P l.
Proof.
  intros H0 H1 H2 l. enough (P l /\ forall x, P (x :: l)) by tauto. induction l as [|y l [IH1 IH2]]; split; auto.
Qed.
Lemma html_body w : lexable w -> str_body (flat_map (on_rune html_escape_byte) w) <-> paired (fun _ => False) w.
Proof.
  intros L. induction w as [|c|c d w IH IH'] using list_ind2.
  - split; constructor.
  - inversion L as [|? ? [Hc1 Hc2] _]; subst. cbn [flat_map]. destruct (html_rune c) as [_ H]. destruct (H Hc1 Hc2) as (x & l & E & Hp & H92 & Hl). rewrite E. destruct (N.eq_dec c 92) as [->|N].
    + rewrite H92 by reflexivity. split; intros B; inversion B; congruence.
    + rewrite str_body_plain by (intros y Hy; destruct (Hp y Hy) as (? & _ & _ & ?); auto). split; intros _; repeat constructor. exact N.
  - inversion L as [|? ? [Hc1 Hc2] L1]; subst. inversion L1 as [|? ? [Hd1 Hd2] L2]; subst. specialize (IH L2). specialize (IH' L1). cbn [flat_map] in *.
    destruct (html_rune c) as [_ H]. destruct (H Hc1 Hc2) as (x & l & E & Hp & H92 & Hl). rewrite E. clear H. destruct (N.eq_dec c 92) as [->|N].
    + rewrite H92 by reflexivity. destruct (html_rune d) as [_ H]. destruct (H Hd1 Hd2) as (y & m & Ed & Hq & _ & Hm). rewrite Ed. cbn [app].
      assert (X : str_body (92%N :: y :: m ++ flat_map (on_rune html_escape_byte) w) <-> str_body (flat_map (on_rune html_escape_byte) w)).
      { transitivity (str_body (m ++ flat_map (on_rune html_escape_byte) w)).
        - split; [intros B; inversion B; subst; [congruence|assumption]|constructor; assumption].
        - apply str_body_plain. intros z Hz. split; [apply Hq; right; exact Hz|intros ->; contradiction]. }
      rewrite X, IH. split; [intros B; apply Paired_esc; [tauto|exact B]|intros B; inversion B; subst; [congruence|assumption]].
    + rewrite <- app_assoc || idtac. rewrite str_body_plain by (intros y Hy; destruct (Hp y Hy) as (? & _ & _ & ?); auto). rewrite IH'. split; [intros B; apply Paired_char; assumption|intros B; inversion B; subst; [assumption|congruence]].
Qed.
Lemma back_body w : str_body (flat_map (on_rune back) w) <-> paired (fun c => c = 34%N) w.
Proof.
  induction w as [|c|c d w IH IH'] using list_ind2; cbn [flat_map] in *; rewrite ?back_rune in *.
  - split; constructor.
  - destruct (N.eqb_spec c 34) as [->|N]; cbn [app]; [split; intros _; repeat constructor; discriminate|].
    split; intros B; inversion B; subst; repeat constructor; auto.
  - destruct (N.eqb_spec c 34) as [->|N].
    + cbn [app]. transitivity (str_body ((if (d =? 34)%N then [92%N; 34%N] else [d]) ++ flat_map (on_rune back) w)).
      * split; [intros B; inversion B; subst; [congruence|assumption]|intros B; constructor; exact B].
      * rewrite IH'. split; [intros B; apply Paired_char; [discriminate|exact B]|intros B; inversion B; assumption].
    + cbn [app]. destruct (N.eq_dec c 92) as [->|N2].
      * destruct (N.eqb_spec d 34) as [->|N3]; cbn [app].
        -- split; [intros B; inversion B; subst; [congruence|]|intros B; inversion B; subst; congruence].
           match goal with X : str_body (34%N :: _) |- _ => inversion X; congruence end.
        -- rewrite <- IH || idtac. split; [intros B; inversion B; subst; [congruence|apply Paired_esc; [exact N3|apply IH; assumption]]|intros B; inversion B; subst; [congruence|constructor; apply IH; assumption]].
      * rewrite <- IH' || idtac. split; [intros B; inversion B; subst; [apply Paired_char; [exact N2|apply IH'; assumption]|congruence]|intros B; inversion B; subst; [constructor; auto; apply IH'; assumption|congruence]].
Qed.
Lemma html_lexable w : lexable (flat_map (on_rune html_escape_byte) w) <-> lexable w.
Proof.
  unfold lexable. induction w as [|c w IH]; [reflexivity|]. cbn [flat_map]. rewrite Forall_app, IH. destruct (html_rune c) as [H0 H1]. split.
  - intros [F1 F2]. constructor; [|exact F2]. destruct (N.eq_dec c 0) as [->|N0]; [rewrite (H0 eq_refl) in F1; inversion F1 as [|? ? [_ X]]; congruence|].
    split; [exact N0|]. intros ->. rewrite html_rune_error in F1. inversion F1 as [|? ? [_ X]]. congruence.
  - intros F. inversion F as [|? ? [A B] C]; subst. split; [|exact C]. destruct (H1 A B) as (x & l & E & Hp & _). rewrite E. apply Forall_forall. intros y Hy. destruct (Hp y Hy) as (_ & ? & ? & _). auto.
Qed.
Lemma back_lexable w : lexable (flat_map (on_rune back) w) <-> lexable w.
Proof.
  unfold lexable. induction w as [|c w IH]; [reflexivity|]. cbn [flat_map]. rewrite Forall_app, IH, back_rune. destruct (N.eqb_spec c 34) as [->|N].
  - split; [intros [_ F]; constructor; [split; discriminate|exact F]|intros F; inversion F; subst; split; [repeat constructor; discriminate|assumption]].
  - split; [intros [F1 F]; inversion F1; constructor; assumption|intros F; inversion F; subst; split; [repeat constructor; tauto|assumption]].
Qed.

(** ** Regular expressions *)
Lemma m_alt a b w : matches (Alt a b) w <-> matches a w \/ matches b w.
Proof. split; [intros H; inversion H; auto|intros [H|H]; [apply m_alt_l|apply m_alt_r]; exact H]. Qed.
Lemma m_cat_iff a b w : matches (Cat a b) w <-> exists w1 w2, w = w1 ++ w2 /\ matches a w1 /\ matches b w2.
Proof. split; [intros H; inversion H; subst; eauto|intros (w1 & w2 & -> & H1 & H2); constructor; assumption]. Qed.
Lemma m_rng_iff lo hi w : matches (Rng lo hi) w <-> exists c, w = [c] /\ (lo <= c <= hi)%N.
Proof. split; [intros H; inversion H; subst; exists r; split; [reflexivity|apply in_range_spec; assumption]|intros (c & -> & H); constructor; apply in_range_spec; exact H]. Qed.
Lemma m_eps_iff w : matches Eps w <-> w = [].
Proof. split; [intros H; inversion H; reflexivity|intros ->; constructor]. Qed.
Lemma m_emp w : ~ matches Emp w.
Proof. intros H. inversion H. Qed.
Lemma m_one_cat lo hi b w : matches (Cat (Rng lo hi) b) w <-> exists c w', w = c :: w' /\ (lo <= c <= hi)%N /\ matches b w'.
Proof.
  rewrite m_cat_iff. split.
  - intros (w1 & w2 & -> & H1 & H2). apply m_rng_iff in H1. destruct H1 as (c & -> & H1). exists c, w2. auto.
  - intros (c & w' & -> & H1 & H2). exists [c], w'. split; [reflexivity|]. split; [apply m_rng_iff; eauto|exact H2].
Qed.
Lemma m_star_ind r (P : list N -> Prop) : P [] -> (forall u v, matches r u -> matches (Star r) v -> P v -> P (u ++ v)) -> forall w, matches (Star r) w -> P w.
Proof.
  intros H0 H1 w H. remember (Star r) as s eqn:E. induction H as [|lo hi x Hx|a b w Hw IH|a b w Hw IH|a b w1 w2 Hw1 IH1 Hw2 IH2|a|a w1 w2 Hw1 IH1 Hw2 IH2]; try discriminate; injection E as ->; auto.
Qed.
Lemma m_star_all r (Q : N -> Prop) w : (forall u, matches r u -> Forall Q u) -> matches (Star r) w -> Forall Q w.
Proof. intros H. apply m_star_ind; [constructor|]. intros u v Hu _ Hv. apply Forall_app. auto. Qed.
Lemma m_star_chars r w : (forall c, In c w -> matches r [c]) -> matches (Star r) w.
Proof. induction w as [|c w IH]; intros H; [constructor|]. apply (m_star_cons r [c] w); [apply H; left; reflexivity|apply IH; intros d Hd; apply H; right; exact Hd]. Qed.

Lemma m_unicode_char w : matches unicode_char w <-> exists c, w = [c] /\ c <> 0%N /\ c <> 34%N /\ c <> 92%N /\ c <> rune_error /\ (c <= 1114111)%N.
Proof.
  unfold unicode_char, ascii_char, unicode_byte, alts. cbn [fold_right]. rewrite !m_alt, !m_rng_iff. unfold rune_error. split.
  - intros [[H|[H|[H|H]]]|[H|H]]; try (destruct H as (c & -> & H); exists c; split; [reflexivity|]; lia). destruct (m_emp _ H).
  - intros (c & -> & H). destruct (N.lt_ge_cases c 128) as [L|L]; [left|right].
    + destruct (N.le_gt_cases c 33); [left; exists c; split; [reflexivity|lia]|right]. destruct (N.le_gt_cases c 91); [left|right; left]; exists c; (split; [reflexivity|lia]).
    + destruct (N.lt_ge_cases c 65533); [left|right]; exists c; (split; [reflexivity|lia]).
Qed.
Lemma m_escaped_char w : matches escaped_char w <-> exists c, w = [92%N; c] /\ c <> 0%N /\ c <> rune_error /\ (c <= 1114111)%N.
Proof.
  unfold escaped_char, alts, code. cbn [fold_right]. rewrite m_one_cat. split.
  - intros (b & v & -> & Hb & H). assert (b = 92%N) by lia. subst b. rewrite !m_alt, !m_rng_iff, m_unicode_char in H.
    destruct H as [H|[H|[H|H]]]; [| | |destruct (m_emp _ H)]; destruct H as (c & -> & H); exists c; (split; [reflexivity|]); unfold rune_error in *; lia.
  - intros (c & -> & H0 & H1 & H2). exists 92%N, [c]. split; [reflexivity|]. split; [lia|]. rewrite !m_alt, !m_rng_iff, m_unicode_char.
    destruct (N.eq_dec c 34) as [->|N1]; [right; left; exists 34%N; split; [reflexivity|lia]|]. destruct (N.eq_dec c 92) as [->|N2]; [right; right; left; exists 92%N; split; [reflexivity|lia]|].
    left. exists c. repeat split; assumption.
Qed.
Lemma m_string_chars w : small w -> matches (Star (Alt unicode_char escaped_char)) w <-> lexable w /\ str_body w.
Proof.
  intros Sm. split.
  - clear Sm. apply (m_star_ind _ (fun w => lexable w /\ str_body w)); [split; constructor|]. intros u v Hu _ [L B]. rewrite m_alt, m_unicode_char, m_escaped_char in Hu.
    destruct Hu as [(c & -> & H0 & H1 & H2 & H3 & _)|(c & -> & H0 & H1 & _)]; cbn [app]; (split; [|constructor; assumption]); repeat (constructor; [split; first [assumption|discriminate]|]); exact L.
  - intros [L B]. induction B as [|c w N1 N2 B IH|c w B IH]; [constructor| |].
    + inversion L as [|? ? [L1 L2] L3]; subst. inversion Sm as [|? ? S1 S2]; subst. apply (m_star_cons _ [c] w); [|auto]. apply m_alt. left. apply m_unicode_char. exists c. unfold max_rune in *. auto 7.
    + inversion L as [|? ? _ L']; subst. inversion L' as [|? ? [L1 L2] L3]; subst. inversion Sm as [|? ? _ S']; subst. inversion S' as [|? ? S1 S2]; subst.
      apply (m_star_cons _ [92%N; c] w); [|auto]. apply m_alt. right. apply m_escaped_char. exists c. auto.
Qed.
Lemma m_string_lit w : matches string_lit w <-> exists b, w = 34%N :: b ++ [34%N] /\ matches (Star (Alt unicode_char escaped_char)) b.
Proof.
  unfold string_lit, cats, code. cbn [fold_right]. rewrite m_one_cat. split.
  - intros (c & v & -> & Hc & H). assert (c = 34%N) by lia. subst c. apply m_cat_iff in H. destruct H as (b & v2 & -> & Hb & H). apply m_one_cat in H. destruct H as (d & v3 & -> & Hd & H).
    apply m_eps_iff in H. subst v3. assert (d = 34%N) by lia. subst d. eauto.
  - intros (b & -> & Hb). exists 34%N, (b ++ [34%N]). split; [reflexivity|]. split; [lia|]. apply m_cat_iff. exists b, [34%N]. split; [reflexivity|]. split; [exact Hb|].
    apply m_one_cat. exists 34%N, []. split; [reflexivity|]. split; [lia|]. constructor.
Qed.
Lemma reserved_no_quote : forallb (fun x => avoids 34 (snd x)) reserved = true.
Proof. vm_compute. reflexivity. Qed.
Lemma name_no_quote : avoids 34 name = true.
Proof. vm_compute. reflexivity. Qed.
Lemma int_no_quote : avoids 34 int_lit = true.
Proof. vm_compute. reflexivity. Qed.
Lemma m_html_head w : matches html_lit1 w -> exists v, w = 60%N :: v.
Proof. unfold html_lit1, cats, chr. cbn [fold_right]. rewrite m_one_cat. intros (c & v & -> & H & _). change (bv "<") with 60%N in H. assert (c = 60%N) by lia. subst c. eauto. Qed.
Lemma is_id_iff s : is_id s <-> matches lex_id (runes s) /\ forall ty r, In (ty, r) reserved -> ~ matches r (runes s).
Proof.
  unfold is_id. rewrite <- runes_pieces. split; [|intros [H1 H2]; apply lx_id; assumption]. intros H. inversion H as [|ty r Hin Hm|H1 H2]; [|auto].
  exfalso. subst ty. clear -Hin. unfold reserved in Hin. cbn [In] in Hin. repeat (destruct Hin as [Hin|Hin]; [discriminate|]). contradiction.
Qed.
Lemma lex_id_cases w : matches lex_id w <-> matches name w \/ matches int_lit w \/ matches string_lit w \/ matches html_lit1 w.
Proof. unfold lex_id, alts. cbn [fold_right]. rewrite !m_alt. split; [intros [H|[H|[H|[H|H]]]]; auto; destruct (m_emp _ H)|tauto]. Qed.
Lemma runes_small s : small (runes s).
Proof. rewrite runes_pieces. apply pieces_small. Qed.
Lemma runes_quoted b : runes (quoted b) = 34%N :: runes b ++ [34%N].
Proof. unfold quoted. cbn [app]. rewrite runes_ascii by (vm_compute; reflexivity). rewrite runes_singleton_last by (vm_compute; reflexivity). reflexivity. Qed.
Lemma quoted_id b : is_id (quoted b) <-> lexable (runes b) /\ str_body (runes b).
Proof.
  rewrite is_id_iff, runes_quoted, lex_id_cases, <- (m_string_chars (runes b)) by apply runes_small.
  assert (Q : forall r, avoids 34 r = true -> ~ matches r (34%N :: runes b ++ [34%N])).
  { intros r Hr M. pose proof (avoids_matches _ _ _ M Hr) as F. inversion F. congruence. }
  split.
  - intros [[M|[M|[M|M]]] _].
    + destruct (Q _ name_no_quote M).
    + destruct (Q _ int_no_quote M).
    + apply m_string_lit in M. destruct M as (b' & E & M). injection E as E. apply app_inj_tail in E. destruct E as [-> _]. exact M.
    + apply m_html_head in M. destruct M as [v E]. discriminate.
  - intros M. split; [right; right; left; apply m_string_lit; eauto|]. intros ty r Hin. apply Q.
    pose proof reserved_no_quote as R. rewrite forallb_forall in R. exact (R _ Hin).
Qed.

(** ** Which IDs are kept *)
Lemma m_html_char w : matches html_char w -> exists c, w = [c] /\ c <> 60%N /\ c <> 62%N.
Proof. unfold html_char, alts. cbn [fold_right]. rewrite !m_alt, !m_rng_iff. intros [H|[H|[H|H]]]; [| | |destruct (m_emp _ H)]; destruct H as (c & -> & H); exists c; (split; [reflexivity|]); lia. Qed.
Definition balanced (w : list N) : Prop := count 60 w = count 62 w.
Lemma balanced_app u v : balanced u -> balanced v -> balanced (u ++ v).
Proof. unfold balanced. rewrite !count_app. lia. Qed.
Lemma balanced_chars w : matches (Star html_char) w -> balanced w.
Proof.
  apply m_star_ind; [reflexivity|]. intros u v Hu _ Hv. apply balanced_app; [|exact Hv]. apply m_html_char in Hu. destruct Hu as (c & -> & H1 & H2).
  unfold balanced. rewrite !count_cons. apply N.eqb_neq in H1, H2. rewrite H1, H2. reflexivity.
Qed.
Lemma balanced_angle w : balanced w -> balanced (60%N :: w ++ [62%N]).
Proof. unfold balanced. rewrite !count_cons, !count_app, !count_cons. cbn. lia. Qed.
Lemma m_html w : matches html_lit1 w -> exists v, w = 60%N :: v /\ balanced w.
Proof.
  unfold html_lit1, cats, chr. cbn [fold_right]. change (bv "<") with 60%N. change (bv ">") with 62%N. rewrite m_one_cat. intros (c & v & -> & Hc & H). assert (c = 60%N) by lia. subst c. exists v. split; [reflexivity|].
  apply m_cat_iff in H. destruct H as (b & t & -> & Hb & Ht). apply m_one_cat in Ht. destruct Ht as (d & t' & -> & Hd & Ht). apply m_eps_iff in Ht. subst t'. assert (d = 62%N) by lia. subst d.
  apply balanced_angle. revert Hb. apply m_star_ind; [reflexivity|]. intros u w Hu _ Hw. apply balanced_app; [|exact Hw]. apply m_alt in Hu. destruct Hu as [Hu|Hu]; [apply balanced_chars; exact Hu|].
  unfold html_tag1, cats, chr in Hu. cbn [fold_right] in Hu. apply m_one_cat in Hu. destruct Hu as (e & u' & -> & He & Hu). change (bv "<") with 60%N in He. assert (e = 60%N) by lia. subst e.
  apply m_cat_iff in Hu. destruct Hu as (u1 & u2 & -> & Hu1 & Hu). apply m_cat_iff in Hu. destruct Hu as (u3 & u4 & -> & Hu3 & Hu). apply m_one_cat in Hu. destruct Hu as (e & u' & -> & He' & Hu). apply m_eps_iff in Hu. subst u'.
  change (bv ">") with 62%N in He'. assert (e = 62%N) by lia. subst e. rewrite app_assoc. apply balanced_angle. apply balanced_app; [|apply balanced_chars; exact Hu3].
  apply m_html_char in Hu1. destruct Hu1 as (x & -> & X1 & X2). unfold balanced. rewrite !count_cons. apply N.eqb_neq in X1, X2. rewrite X1, X2. reflexivity.
Qed.
Lemma str_body_quotes w : str_body w -> forall u v, w = u ++ 34%N :: v -> exists u', u = u' ++ [92%N].
Proof.
  induction 1 as [|c w N1 N2 B IH|c w B IH]; intros u v E.
  - destruct u; discriminate.
  - destruct u as [|x u]; cbn in E; injection E as -> E; [congruence|]. destruct (IH u v E) as [u' ->]. exists (x :: u'). reflexivity.
  - destruct u as [|x u]; cbn in E; [discriminate|]; injection E as <- E. destruct u as [|y u]; cbn in E; [exists []; reflexivity|]; injection E as <- E.
    destruct (IH u v E) as [u' ->]. exists (92%N :: c :: u'). reflexivity.
Qed.
Section Kept.
  Variable uletter udigit : N -> bool.
  Notation esc := (esc uletter udigit).
  Notation kept := (kept uletter udigit).
  Lemma digits_number w : matches (Star digit) w -> Forall (number_rune udigit) w.
  Proof. apply m_star_all. intros u Hu. apply m_rng_iff in Hu. destruct Hu as (c & -> & H). constructor; [left; left; exact H|constructor]. Qed.
  Lemma m_decimals w : matches decimals w -> w <> [] /\ Forall (number_rune udigit) w.
  Proof. unfold decimals, digit. rewrite m_one_cat. intros (c & v & -> & H & Hv). split; [discriminate|]. constructor; [left; left; exact H|apply digits_number; exact Hv]. Qed.
  Lemma minus_cases w v (r : re) : matches (Cat (opt (chr "-")) r) w -> (matches r v -> True) -> exists w', (w = w' \/ w = 45%N :: w') /\ matches r w'.
  Proof. clear uletter udigit.
    intros H _. apply m_cat_iff in H. destruct H as (w1 & w2 & -> & H1 & H2). exists w2. split; [|exact H2]. unfold opt in H1. apply m_alt in H1. destruct H1 as [H1|H1].
    - apply m_rng_iff in H1. destruct H1 as (c & -> & H1). change (bv "-") with 45%N in H1. assert (c = 45%N) by lia. subst c. right. reflexivity.
    - apply m_eps_iff in H1. subst w1. left. reflexivity.
  Qed.
  Lemma m_int_number s : matches int_lit (runes s) -> number_like udigit s.
  Proof.
    intros M. assert (X : exists w', (runes s = w' \/ runes s = 45%N :: w') /\ w' <> [] /\ Forall (number_rune udigit) w').
    { unfold int_lit in M. apply m_alt in M. destruct M as [M|M]; apply (minus_cases _ []) in M; auto; destruct M as (w' & E & M); exists w'; (split; [exact E|]).
      - unfold cats, chr in M. cbn [fold_right] in M. apply m_one_cat in M. destruct M as (c & v & -> & Hc & M). apply m_cat_iff in M. destruct M as (v1 & v2 & -> & M & M2). apply m_eps_iff in M2. subst v2. rewrite app_nil_r.
        split; [discriminate|]. constructor; [right; change (bv ".") with 46%N in Hc; lia|apply m_decimals; exact M].
      - cbn [cats fold_right] in M. apply m_cat_iff in M. destruct M as (v1 & v2 & -> & M1 & M2). apply m_decimals in M1. destruct M1 as [N1 D1]. split; [destruct v1; [congruence|discriminate]|].
        apply Forall_app. split; [exact D1|]. apply m_cat_iff in M2. destruct M2 as (v3 & v4 & -> & M3 & M4). apply m_eps_iff in M4. subst v4. rewrite app_nil_r. unfold opt in M3. apply m_alt in M3. destruct M3 as [M3|M3].
        + unfold chr in M3. apply m_one_cat in M3. destruct M3 as (c & v & -> & Hc & M). constructor; [right; change (bv ".") with 46%N in Hc; lia|apply digits_number; exact M].
        + apply m_eps_iff in M3. subst v3. constructor. }
    destruct X as (w' & E & N & D). exists w'. split; [exact N|]. split; [exact D|]. destruct E as [E|E]; [left; exact E|right]. exists []. split; [exact E|constructor].
  Qed.
  Lemma m_string_like s : matches string_lit (runes s) -> string_like s.
  Proof. clear uletter udigit.
    intros M. apply m_string_lit in M. destruct M as (w & E & M).
    destruct (runes_head s _ _ E ltac:(lia)) as (a & s' & -> & Ha & Es'). destruct (runes_split s' w 34 [] Es' ltac:(lia)) as (b & z & t & -> & Hz & Eb & Et). apply runes_nil in Et. subst t.
    assert (Dq : forall x, bv x = 34%N -> x = dquote) by (intros x Hx; unfold bv in Hx; apply (f_equal ascii_of_N) in Hx; rewrite ascii_N_embedding in Hx; exact Hx).
    apply Dq in Ha, Hz. subst a z. exists b. split; [reflexivity|]. apply str_body_quotes. rewrite <- Eb in M. apply m_string_chars in M; [apply M|apply runes_small].
  Qed.
  Lemma m_name w : matches name w -> exists c v, w = c :: v /\
    ((97 <= c <= 122)%N \/ (65 <= c <= 90)%N \/ c = 95%N \/ (128 <= c)%N) /\ Forall (fun x => x <> 45 /\ x <> 46 /\ x <> 47 /\ (x < 128 -> is_space x = false))%N w.
  Proof. clear uletter udigit.
    assert (L : forall u, matches letter u -> exists c, u = [c] /\ ((97 <= c <= 122)%N \/ (65 <= c <= 90)%N \/ c = 95%N \/ (128 <= c)%N)).
    { intros u. unfold letter, alts, ascii_letter, unicode_byte, chr. cbn [fold_right]. rewrite !m_alt, !m_rng_iff. change (bv "_") with 95%N.
      intros [[H|H]|[[H|H]|[H|H]]]; try (destruct (m_emp _ H)); destruct H as (c & -> & H); exists c; (split; [reflexivity|lia]). }
    assert (Sp : forall c, (48 <= c <= 57)%N \/ (97 <= c <= 122)%N \/ (65 <= c <= 90)%N \/ c = 95%N \/ (128 <= c)%N -> (c <> 45 /\ c <> 46 /\ c <> 47 /\ (c < 128 -> is_space c = false))%N).
    { intros c H. split; [lia|]. split; [lia|]. split; [lia|]. intros Hl. apply not_true_iff_false. unfold is_space. rewrite !orb_true_iff, !in_range_spec, !N.eqb_eq. lia. }
    unfold name. rewrite m_cat_iff. intros (u & v & -> & Hu & Hv). apply L in Hu. destruct Hu as (c & -> & Hc). exists c, v. split; [reflexivity|]. split; [exact Hc|].
    cbn [app]. constructor; [apply Sp; tauto|]. revert Hv. apply m_star_all. intros u Hu. apply m_alt in Hu. destruct Hu as [Hu|Hu].
    - apply L in Hu. destruct Hu as (d & -> & Hd). repeat constructor; apply Sp; tauto.
    - apply m_rng_iff in Hu. destruct Hu as (d & -> & Hd). repeat constructor; apply Sp; lia.
  Qed.
  (** Every ID is kept, if it is a name then under the condition that Go agrees on its first letter and spaces. *)
  Definition go_name (s : gostr) : Prop := (forall c w, runes s = c :: w -> (128 <= c)%N -> uletter c = true /\ c <> 949%N) /\ Forall (fun c => is_space c = false) (runes s).
  Lemma id_kept s : is_id s -> (matches name (runes s) -> go_name s) -> kept s.
  Proof.
    intros H G. apply is_id_iff in H. destruct H as [H _]. apply lex_id_cases in H. unfold SpecEscape.kept. destruct H as [H|[H|[H|H]]].
    - right. right. left. destruct (G H) as [G1 G2]. apply m_name in H. destruct H as (c & v & E & Hc & F). exists c, v. split; [exact E|]. split.
      + unfold go_letter. destruct Hc as [Hc|[Hc|[Hc|Hc]]]; auto. right. right. right. destruct (G1 c v E Hc). auto.
      + rewrite E in *. clear E. rewrite Forall_forall in *. intros x Hx. specialize (F x Hx). specialize (G2 x Hx). tauto.
    - right. right. right. left. apply m_int_number. exact H.
    - right. right. right. right. apply m_string_like. exact H.
    - right. left. apply m_html in H. destruct H as (v & E & B). split; [|exact B]. exists [], v. split; [exact E|constructor].
  Qed.
  Lemma ascii_go_name s : Forall (fun a => bv a < 128)%N s -> matches name (runes s) -> go_name s.
  Proof.
    intros F M. assert (L : forall c, In c (runes s) -> (c < 128)%N).
    { intros c Hc. clear M. induction F as [|a s Ha F IH]; [contradiction|]. rewrite runes_ascii in Hc by exact Ha. destruct Hc as [<-|Hc]; auto. }
    split.
    - intros c w E Hc. assert (c < 128)%N by (apply L; rewrite E; left; reflexivity). lia.
    - apply m_name in M. destruct M as (c & v & E & _ & F'). rewrite Forall_forall in *. intros x Hx. apply (F' x Hx). apply L. exact Hx.
  Qed.
  (** *** Idempotence *)
  Lemma quoted_string_like b : (forall u v, runes b = u ++ 34%N :: v -> exists u', u = u' ++ [92%N]) -> string_like (quoted b).
  Proof. clear uletter udigit. intros H. exists b. split; [reflexivity|exact H]. Qed.
  Lemma string_no_panic s : string_like s -> ~ panics s.
  Proof. clear uletter udigit.
    intros (b & -> & _) [[_ B]|E].
    - unfold all_blank in B. change ([dquote] ++ b ++ [dquote]) with (quoted b) in B. rewrite runes_quoted in B. inversion B as [|? ? X]. vm_compute in X. discriminate.
    - apply (f_equal (@length ascii)) in E. rewrite !app_length in E. cbn in E. lia.
  Qed.
  Lemma kept_esc s : kept s -> ~ panics s -> esc s = Some s.
  Proof. intros K N. destruct (esc_spec uletter udigit s) as [[_ P]|[[E _]|[(_ & K' & _)|(_ & K' & _)]]]; try contradiction. exact E. Qed.
  Lemma html_no_quote s u v : runes (html_escape s) = u ++ 34%N :: v -> False.
  Proof. clear uletter udigit.
    rewrite runes_html. intros E. assert (I : In 34%N (flat_map (on_rune html_escape_byte) (runes s))) by (rewrite E; apply in_app_iff; right; left; reflexivity).
    apply in_flat_map in I. destruct I as (c & _ & I). destruct (html_rune c) as [H0 H1]. destruct (N.eq_dec c 0) as [->|N0]; [rewrite H0 in I by reflexivity; destruct I as [I|[]]; discriminate|].
    destruct (N.eq_dec c rune_error) as [->|NE]; [destruct I as [I|[]]; discriminate|]. destruct (H1 N0 NE) as (x & l & Ex & Hp & _). rewrite Ex in I. destruct (Hp _ I). congruence.
  Qed.
  Lemma back_quotes s u v : runes (replace_byte dquote [backslash; dquote] s) = u ++ 34%N :: v -> exists u', u = u' ++ [92%N].
  Proof. clear uletter udigit.
    rewrite runes_back. revert u. induction (runes s) as [|c w IH]; intros u E; cbn [flat_map] in E; [destruct u; discriminate|]. rewrite back_rune in E. destruct (N.eqb_spec c 34) as [->|N]; cbn [app] in E.
    - destruct u as [|x u]; cbn in E; [discriminate|]; injection E as <- E. destruct u as [|y u]; cbn in E; [exists []; reflexivity|]; injection E as <- E. destruct (IH u E) as [u' ->]. exists (92%N :: 34%N :: u'). reflexivity.
    - destruct u as [|x u]; cbn in E; injection E as -> E; [congruence|]. destruct (IH u E) as [u' ->]. exists (x :: u'). reflexivity.
  Qed.
  Lemma esc_fixed s t : esc s = Some t -> esc t = Some t.
  Proof.
    intros E. destruct (esc_spec uletter udigit s) as [[E' _]|[[E' _]|[(E' & _)|(E' & _)]]]; rewrite E' in E; try discriminate; injection E as <-.
    - exact E'.
    - assert (SL : string_like (quoted (replace_byte dquote [backslash; dquote] s))) by (apply quoted_string_like; intros u v; apply back_quotes).
      apply kept_esc; [unfold SpecEscape.kept; auto|apply string_no_panic; exact SL].
    - assert (SL : string_like (quoted (html_escape s))) by (apply quoted_string_like; intros u v Ev; destruct (html_no_quote _ _ _ Ev)).
      apply kept_esc; [unfold SpecEscape.kept; auto|apply string_no_panic; exact SL].
  Qed.
End Kept.
