(** Glue: scanned tokens, sentences of SpecGrammar and the parser. *)
From Coq Require Import List Ascii NArith ZArith Bool Lia Arith.
From Verif Require Import Base LexTables ParseTables Ast Lexer LexSpec LexDfa Parser ParserDefs ParserSound
  LRCert ParserComplete ParserViable ParserErrors LexerProofs Tokens SpecGrammar GrammarProofs.
Import ListNotations.
Local Opaque bisim_set spec_vec trans_tab act_tab bounds reps prod_tab action_tab goto_tab items_cert first_cert all_edges.

(** [src] is cut into the words [w] and then the end of the input, without a lexical error. *)
Definition scans_to (src : gostr) (w : word) : Prop :=
  exists ts p, lexes start_pos (pieces src) (ts ++ [(1, [], p)]) /\ map fst ts = w.

Lemma lexeme_range w ty : is_lexeme w (Tok ty) -> 2 <= ty <= 18.
Proof.
  intros H. inversion H as [|t r Hin Hm|]; subst.
  - unfold reserved in Hin. cbn [In] in Hin.
    repeat (destruct Hin as [Hin|Hin]; [injection Hin as <- _; lia|]). contradiction.
  - unfold ID. lia.
Qed.

Lemma lexes_shape p ps ts : lexes p ps ts ->
  exists ts0 t, ts = ts0 ++ [t] /\ Forall (fun x : stoken => 2 <= fst (fst x) <= 18) ts0 /\ (fst (fst t) = 0 \/ fst (fst t) = 1).
Proof.
  induction 1 as [p|p ps u rest ts Hl H IH|p ps u rest ty ts Hl H IH|p u c rest H1 H2 H3|p u H1 H2 H3].
  - exists [], (1, [], p). auto.
  - exact IH.
  - destruct IH as (ts0 & t & -> & Hf & Ht). exists ((ty, text u, p) :: ts0), t. split; [reflexivity|].
    split; [|exact Ht]. constructor; [|exact Hf]. cbn. eapply lexeme_range. apply Hl.
  - eexists [], _. split; [reflexivity|]. auto.
  - eexists [], _. split; [reflexivity|]. auto.
Qed.

Lemma lexes_nonempty p ps ts : lexes p ps ts -> Forall (fun c : piece => snd c <> []) ps ->
  Forall (fun x : stoken => fst (fst x) <> 1 -> snd (fst x) <> []) ts.
Proof.
  assert (T : forall u, Forall (fun c : piece => snd c <> []) u -> u <> [] -> text u <> []).
  { intros u H Hu. pose proof (text_pos u H Hu). destruct (text u); [cbn in *; lia|discriminate]. }
  induction 1 as [p|p ps u rest ts Hl H IH|p ps u rest ty ts Hl H IH|p u c rest H1 H2 H3|p u H1 H2 H3]; intros Hne.
  - constructor; [|constructor]. cbn. congruence.
  - rewrite (proj1 Hl) in Hne. apply Forall_app in Hne. apply IH. apply Hne.
  - rewrite (proj1 Hl) in Hne. apply Forall_app in Hne. destruct Hne as [Hu Hr].
    constructor; [|apply IH; exact Hr]. cbn. intros _. apply T; [exact Hu|apply Hl].
  - constructor; [|constructor]. cbn. intros _. apply T.
    + apply Forall_app in Hne. destruct Hne as [Hu Hc]. inversion Hc; subst. apply Forall_app. split; [exact Hu|]. constructor; auto.
    + destruct u; discriminate.
  - constructor; [|constructor]. cbn. intros _. apply T; assumption.
Qed.

Lemma tokens_spec src ts : lexes start_pos (pieces src) ts <-> map stok (tokens src) = ts.
Proof.
  split.
  - intros H. eapply lexes_unique; [apply tokens_lexes|apply pieces_small|exact H].
  - intros <-. apply tokens_lexes.
Qed.

Lemma fst_stok t : fst (stok t) = tl_of t.
Proof. reflexivity. Qed.

Lemma map_fst_stok ts : map fst (map stok ts) = word_of ts.
Proof. rewrite map_map. apply map_ext. apply fst_stok. Qed.

Lemma scans_to_tokens src w : scans_to src w <->
  exists ts t, tokens src = ts ++ [t] /\ tk_type t = EOF /\ word_of ts = w.
Proof.
  split.
  - intros (ts & p & H & Hw). apply tokens_spec in H. apply map_eq_app in H.
    destruct H as (l1 & l2 & E & E1 & E2). apply map_eq_cons in E2. destruct E2 as (t & tl & -> & Et & E2).
    apply map_eq_nil in E2. subst tl. exists l1, t. split; [exact E|].
    split; [injection Et as Et _ _; exact Et|]. rewrite <- map_fst_stok, <- Hw, <- E1. reflexivity.
  - intros (ts & t & E & Et & Hw).
    pose proof (tokens_lexes src) as H. rewrite E, map_app in H. cbn [map] in H.
    pose proof (lexes_nonempty _ _ _ H (pieces_nonempty src)) as Hn.
    destruct t as [ty lit o ln co]. cbn in Et. subst ty.
    destruct (tokens_stream src) as (t0 & lx0 & _ & Hst).
    exists (map stok ts), (Pos o ln co). split.
    + assert (lit = []) as ->; [|exact H].
      clear - H. remember (map stok ts ++ [stok (Token EOF lit o ln co)]) as l eqn:El.
      revert ts El. induction H as [p|p ps u rest l' Hl H' IH|p ps u rest ty l' Hl H' IH|p u c rest H1 H2 H3|p u H1 H2 H3]; intros ts El.
      * destruct ts as [|? [|? ?]]; cbn in El; try discriminate. injection El; intros; subst. reflexivity.
      * eapply IH; eauto.
      * destruct ts as [|x ts]; cbn in El.
        -- injection El; intros; subst. destruct Hl as (_ & _ & Hx & _). apply lexeme_range in Hx. unfold EOF in Hx. lia.
        -- injection El as _ _ _ El. eapply IH; eauto.
      * destruct ts as [|? [|? ?]]; cbn in El; discriminate.
      * destruct ts as [|? [|? ?]]; cbn in El; discriminate.
    + rewrite map_fst_stok. exact Hw.
Qed.

Lemma tokens_ids src ts t : tokens src = ts ++ [t] -> ids_nonempty (word_of ts).
Proof.
  intros E. pose proof (lexes_nonempty _ _ _ (tokens_lexes src) (pieces_nonempty src)) as H.
  rewrite E, map_app in H. apply Forall_app in H. destruct H as [H _].
  unfold ids_nonempty, word_of. rewrite Forall_map in *. revert H. apply Forall_impl.
  intros [ty l o ln co]. cbn. unfold ID. intros H Hty. apply H. lia.
Qed.

Lemma scans_to_ids src w : scans_to src w -> ids_nonempty w.
Proof. intros H. apply scans_to_tokens in H. destruct H as (ts & t & E & _ & <-). eapply tokens_ids; eauto. Qed.

Lemma tokens_nonfinal src ts t : tokens src = ts ++ [t] -> forallb (fun t => negb (is_final t)) ts = true.
Proof.
  intros E. destruct (tokens_final src) as (ts0 & t0 & E0 & _ & Hf).
  rewrite E in E0. apply app_inj_tail in E0. destruct E0 as [-> _]. exact Hf.
Qed.

Theorem parse_ok_iff rnd k0 src g k :
  parse_bytes rnd k0 src = Ok (g, k) <-> exists w, scans_to src w /\ d_graph rnd w g k0 k.
Proof.
  destruct (parse_bytes_iter rnd k0 src) as (f & Hf & Hne & Ep).
  pose proof (iter_inv rnd k0 (tokens src) _ _ _ (Inv_init rnd k0 _ (tokens_final src)) Hf) as HI.
  split.
  - intros E. rewrite E in Ep. destruct (iter f rnd ([(0, VNil)], tokens src, k0)) as [[v k1]|e| |]; try discriminate.
    destruct HI as (ts & t & E1 & Et & Hd).
    destruct (der_sentence rnd _ _ _ _ Hd (tokens_ids _ _ _ E1)) as (g' & -> & Hg).
    injection Ep as <- <-. exists (word_of ts). split; [|exact Hg]. apply scans_to_tokens. exists ts, t. auto.
  - intros (w & Hs & Hg). pose proof (scans_to_ids _ _ Hs) as Hid.
    apply scans_to_tokens in Hs. destruct Hs as (ts & t & E & Et & Hw).
    pose proof (sentence_der rnd _ _ _ _ ts Hg Hid Hw) as Hd.
    pose proof (complete_fuel rnd ts _ k0 k t f Hd Et (tokens_nonfinal _ _ _ E)) as Hc.
    rewrite Ep, E, Hc; [reflexivity|]. rewrite E, app_length in Hf. cbn in Hf. lia.
Qed.

Theorem parse_total rnd k0 src :
  (exists g k, parse_bytes rnd k0 src = Ok (g, k)) \/ (exists e, parse_bytes rnd k0 src = Err e).
Proof.
  destruct (parse_bytes_iter rnd k0 src) as (f & Hf & Hne & Ep).
  pose proof (iter_inv rnd k0 (tokens src) _ _ _ (Inv_init rnd k0 _ (tokens_final src)) Hf) as HI.
  destruct (iter f rnd ([(0, VNil)], tokens src, k0)) as [[v k1]|e| |]; try contradiction.
  - destruct HI as (ts & t & E1 & Et & Hd).
    destruct (der_sentence rnd _ _ _ _ Hd (tokens_ids _ _ _ E1)) as (g' & -> & Hg). left. eauto.
  - right. eauto.
Qed.

Theorem d_graph_unique rnd w g1 k1 g2 k2 k0 : ids_nonempty w -> Forall (fun x : nat * gostr => 2 <= fst x <= 18) w ->
  d_graph rnd w g1 k0 k1 -> d_graph rnd w g2 k0 k2 -> g1 = g2 /\ k1 = k2.
Proof.
  intros Hid Hr H1 H2.
  pose (ts := map (fun x : nat * gostr => Token (fst x) (snd x) 0 0 0) w).
  assert (Ew : word_of ts = w).
  { unfold word_of, ts. rewrite map_map. erewrite map_ext; [apply map_id|]. intros [a b]. reflexivity. }
  pose proof (sentence_der rnd _ _ _ _ ts H1 Hid Ew) as D1.
  pose proof (sentence_der rnd _ _ _ _ ts H2 Hid Ew) as D2.
  assert (Hnf : forallb (fun t => negb (is_final t)) ts = true).
  { apply forallb_forall. intros t Ht. unfold ts in Ht. apply in_map_iff in Ht. destruct Ht as (x & <- & Hx).
    rewrite Forall_forall in Hr. specialize (Hr _ Hx). unfold is_final. cbn. apply negb_true_iff, orb_false_iff.
    unfold EOF, INVALID. split; apply Nat.eqb_neq; lia. }
  pose (f := S (11 * S (length ts))).
  pose proof (complete_fuel rnd ts _ k0 k1 (Token EOF [] 0 0 0) f D1 eq_refl Hnf ltac:(unfold f; lia)) as C1.
  pose proof (complete_fuel rnd ts _ k0 k2 (Token EOF [] 0 0 0) f D2 eq_refl Hnf ltac:(unfold f; lia)) as C2.
  rewrite C1 in C2. injection C2 as -> ->. auto.
Qed.

(** ** Viable prefixes, in terms of SpecGrammar *)
(** [tys] can be continued to the token types of a complete DOT text (1 is the end of input). *)
Definition can_continue (rnd : nat -> N) (tys : list nat) : Prop :=
  exists w g k k' z, ids_nonempty w /\ d_graph rnd w g k k' /\ map fst w ++ [1] = tys ++ z.

Lemma can_continue_fullsent rnd tys : can_continue rnd tys <-> exists z, fullsent (tys ++ z).
Proof.
  split.
  - intros (w & g & k & k' & z & Hid & Hg & E). exists z. exists (map fst w). split; [symmetry; exact E|].
    pose (ts := map (fun x : nat * gostr => Token (fst x) (snd x) 0 0 0) w).
    assert (Ew : word_of ts = w).
    { unfold word_of, ts. rewrite map_map. erewrite map_ext; [apply map_id|]. intros [a b]. reflexivity. }
    pose proof (proj1 (der_tder rnd) _ _ _ _ _ (sentence_der rnd _ _ _ _ ts Hg Hid Ew)) as H.
    unfold ts in H. rewrite map_map in H. cbn in H. exact H.
  - intros (z & y & E & Hy).
    pose (ts := map (fun t => Token t (lit "x") 0 0 0) y).
    assert (Et : map tk_type ts = y). { unfold ts. rewrite map_map. cbn. apply map_id. }
    destruct (proj1 (tder_der rnd) _ _ Hy ts 0 Et) as (v & k' & Hd).
    assert (Hid : ids_nonempty (word_of ts)).
    { unfold ids_nonempty, word_of, ts. rewrite !Forall_map. apply Forall_forall. intros t _ _. discriminate. }
    destruct (der_sentence rnd _ _ _ _ Hd Hid) as (g & _ & Hg).
    exists (word_of ts), g, 0, k', z. split; [exact Hid|]. split; [exact Hg|].
    unfold word_of. rewrite map_map. change (map (fun x => fst (tl_of x)) ts) with (map tk_type ts). rewrite Et.
    symmetry. exact E.
Qed.

Theorem parse_error_spec rnd k0 src e : parse_bytes rnd k0 src = Err e ->
  exists ts ts', tokens src = ts ++ pe_token e :: ts' /\
    can_continue rnd (map tk_type ts) /\
    ~ can_continue rnd (map tk_type ts ++ [tk_type (pe_token e)]) /\
    forall t, In t (pe_expected e) <-> can_continue rnd (map tk_type ts ++ [t]).
Proof.
  intros E. destruct (parse_bytes_iter rnd k0 src) as (f & Hf & Hne & Ep). rewrite E in Ep.
  destruct (iter f rnd ([(0, VNil)], tokens src, k0)) as [[v k1]|e'| |] eqn:Ei; try discriminate.
  { destruct v; discriminate. }
  injection Ep as <-.
  destruct (iter_err_init rnd k0 _ _ _ (tokens_final src) Ei) as (w & ts & E1 & H1 & H2 & H3).
  exists w, ts. split; [exact E1|]. split; [apply can_continue_fullsent; exact H1|]. split.
  - intros C. apply H2. apply can_continue_fullsent in C. destruct C as (z & C). exists z.
    rewrite <- app_assoc in C. exact C.
  - intros t. rewrite H3, can_continue_fullsent. split; intros (z & C); exists z.
    + rewrite <- app_assoc. exact C.
    + rewrite <- app_assoc in C. exact C.
Qed.
