(** The token sequence of an input: successive calls of Scan satisfy LexSpec.lexes, which is
    deterministic; the parser on an input is the driver on that sequence. *)
From Coq Require Import List Ascii NArith ZArith Bool Lia Arith.
From Verif Require Import Base LexTables Lexer LexSpec LexDfa Parser ParserDefs ParserSound LexerProofs.
Import ListNotations.
Local Opaque bisim_set spec_vec trans_tab act_tab bounds reps.

(** Successive calls of Scan (lexer.go:57-123), up to and including the first EOF or INVALID. *)
Fixpoint scan_all (fuel : nat) (lx : lexer) : list token :=
  match fuel with
  | O => []
  | S f => match scan lx with
           | None => []
           | Some (t, lx') => if is_final t then [t] else t :: scan_all f lx'
           end
  end.
Definition tokens (src : gostr) : list token := scan_all (S (length src)) (new_lexer src).

(** Type, literal and position of a token. *)
Definition stok (t : token) : stoken := (tk_type t, tk_lit t, Pos (tk_off t) (tk_line t) (tk_col t)).

Lemma stok_mk ty l p : stok (mk_tok ty l p) = (ty, l, p).
Proof. destruct p. reflexivity. Qed.

Lemma scan_ok rest p : exists t lx, scan (mk_lex rest p) = Some (t, lx) /\ scanned p (pieces rest) t lx.
Proof.
  destruct rest as [|b rest].
  - do 2 eexists. split; [reflexivity|]. constructor.
  - pose proof (scan_loop_spec (S (length (b :: rest))) p [] (b :: rest) 0 0 INVALID) as H.
    cbn [text map concat length advance fold_left app] in H. rewrite Nat.add_0_r in H.
    unfold scan. cbn [mk_lex lx_rest lx_pos lx_line lx_col length]. apply H; auto.
    left. split; [reflexivity|]. split; [lia|]. left. split; [reflexivity|discriminate].
Qed.

Lemma pieces_suffix : forall s u v, pieces s = u ++ v -> pieces (text v) = v.
Proof.
  induction s as [|s r k Hs E IH] using pieces_ind; intros u v H.
  - cbn in H. destruct u; [|discriminate]. cbn in H. subst v. reflexivity.
  - destruct u as [|c u].
    + cbn in H. subst v. rewrite text_pieces. reflexivity.
    + rewrite (pieces_cons s r k Hs E) in H. injection H as _ H. apply (IH _ _ H).
Qed.

Lemma scanned_lexes p ps t lx : scanned p ps t lx ->
  Forall (fun c : piece => snd c <> []) ps ->
  if is_final t then lexes p ps [stok t]
  else exists u rest p', ps = u ++ rest /\ lx = mk_lex (text rest) p' /\ length (text rest) < length (text ps) /\
       forall ts, lexes p' rest ts -> lexes p ps (stok t :: ts).
Proof.
  induction 1 as [p|p ps u rest t lx Hl Hsc IH|p ps u rest ty Hl H1 H2|p u c rest lx H1 H2 H3|p u lx H1 H2 H3]; intros Hne.
  - cbn. rewrite stok_mk. constructor.
  - assert (E : ps = u ++ rest) by apply Hl. subst ps.
    apply Forall_app in Hne. destruct Hne as [_ Hne]. specialize (IH Hne).
    destruct (is_final t).
    + eapply lex_skip; eauto.
    + destruct IH as (u1 & rest1 & p1 & -> & -> & Hlen & Hk). exists (u ++ u1), rest1, p1.
      rewrite <- app_assoc. split; [reflexivity|]. split; [reflexivity|]. split.
      * rewrite (text_app u), app_length. lia.
      * intros ts Hts. eapply lex_skip; eauto.
  - assert (Hf : is_final (mk_tok ty (text u) p) = false).
    { unfold is_final. cbn. apply orb_false_iff. split; apply Nat.eqb_neq; assumption. }
    rewrite Hf. assert (E : ps = u ++ rest) by apply Hl. subst ps.
    exists u, rest, (advance p u). split; [reflexivity|]. split; [reflexivity|]. split.
    + rewrite text_app, app_length. apply Forall_app in Hne. destruct Hne as [Hne _].
      pose proof (text_pos u Hne (proj1 (proj2 Hl))). lia.
    + intros ts Hts. rewrite stok_mk. eapply lex_tok; eauto.
  - cbn. rewrite stok_mk. apply lex_bad; assumption.
  - cbn. rewrite stok_mk. apply lex_trunc; assumption.
Qed.

Lemma scan_all_spec : forall fuel rest p, length rest < fuel ->
  lexes p (pieces rest) (map stok (scan_all fuel (mk_lex rest p))) /\
  length (scan_all fuel (mk_lex rest p)) <= S (length rest) /\
  exists t lx, scan (mk_lex rest p) = Some (t, lx) /\ stream t lx (scan_all fuel (mk_lex rest p)).
Proof.
  induction fuel as [|f IH]; intros rest p Hf; [lia|].
  cbn [scan_all]. destruct (scan_ok rest p) as (t & lx & Es & Hsc). rewrite Es.
  pose proof (scanned_lexes _ _ _ _ Hsc (pieces_nonempty rest)) as H.
  destruct (is_final t) eqn:Ef.
  - split; [exact H|]. split; [cbn; lia|]. exists t, lx. split; [reflexivity|]. constructor. exact Ef.
  - destruct H as (u & rest' & p' & E & -> & Hlen & Hk). rewrite text_pieces in Hlen.
    destruct (IH (text rest') p' ltac:(lia)) as (H1 & H2 & t' & lx' & H3 & H4).
    rewrite (pieces_suffix _ _ _ E) in H1. split; [apply Hk; exact H1|].
    split; [cbn [length]; lia|]. exists t, (mk_lex (text rest') p'). split; [reflexivity|].
    eapply stream_next; eauto.
Qed.

Theorem tokens_lexes src : lexes start_pos (pieces src) (map stok (tokens src)).
Proof. apply (scan_all_spec (S (length src)) src start_pos). lia. Qed.

Lemma tokens_length src : length (tokens src) <= S (length src).
Proof. apply (scan_all_spec (S (length src)) src start_pos). lia. Qed.

Lemma tokens_stream src : exists t lx, scan (new_lexer src) = Some (t, lx) /\ stream t lx (tokens src).
Proof. apply (scan_all_spec (S (length src)) src start_pos). lia. Qed.

Lemma tokens_final src : final_list (tokens src).
Proof. destruct (tokens_stream src) as (t & lx & _ & H). exact (stream_final_list _ _ _ H). Qed.

(** ** The token sequence is unique *)
Lemma lexeme_class_unique w c1 c2 : small w -> is_lexeme w c1 -> is_lexeme w c2 -> c1 = c2.
Proof.
  intros Hs H1 H2. apply dfa_correct in H1; [|exact Hs]. apply dfa_correct in H2; [|exact Hs].
  destruct H1 as (s1 & R1 & L1), H2 as (s2 & R2 & L2). congruence.
Qed.

Lemma viable_prefix w w' : viable (w ++ w') -> viable w.
Proof. intros (x & c & H). exists (w' ++ x), c. rewrite app_assoc. exact H. Qed.

Lemma app_split_len {A} (a b c d : list A) : a ++ b = c ++ d -> length a <= length c ->
  exists e, c = a ++ e /\ b = e ++ d.
Proof.
  revert c. induction a as [|x a IH]; intros c E L; [exists c; auto|].
  destruct c as [|y c]; [cbn in L; lia|]. cbn in *. injection E as -> E.
  destruct (IH c E ltac:(lia)) as (e & -> & ->). exists e. auto.
Qed.

Lemma longest_unique ps u1 r1 c1 u2 r2 c2 : small (runes_of ps) ->
  longest ps u1 r1 c1 -> longest ps u2 r2 c2 -> u1 = u2 /\ r1 = r2 /\ c1 = c2.
Proof.
  intros Hs (E1 & N1 & L1 & M1) (E2 & N2 & L2 & M2).
  pose proof (M1 _ _ _ E2 N2 L2) as A. pose proof (M2 _ _ _ E1 N1 L1) as B.
  assert (E : u1 ++ r1 = u2 ++ r2) by congruence.
  destruct (app_split_len _ _ _ _ E ltac:(lia)) as (e & E3 & E4). destruct e as [|x e].
  - rewrite app_nil_r in E3. subst u2. cbn in E4. subst r2. split; [reflexivity|]. split; [reflexivity|].
    assert (Hs' : small (runes_of u1)) by (rewrite E1, runes_of_app in Hs; apply small_app in Hs; apply Hs).
    exact (lexeme_class_unique _ _ _ Hs' L1 L2).
  - rewrite E3, app_length in A. cbn in A. lia.
Qed.

Lemma longest_not_bad ps u r c u0 x rest :
  longest ps u r c -> ps = u0 ++ x :: rest ->
  (forall u' v' c', u0 ++ [x] = u' ++ v' -> u' <> [] -> ~ is_lexeme (runes_of u') c') ->
  ~ viable (runes_of (u0 ++ [x])) -> False.
Proof.
  intros (E & N & L & _) E0 H1 H3. subst ps.
  assert (E' : u ++ r = (u0 ++ [x]) ++ rest) by (rewrite <- app_assoc; exact E0).
  destruct (Nat.le_gt_cases (length u) (length (u0 ++ [x]))) as [Hl|Hl].
  - destruct (app_split_len _ _ _ _ E' Hl) as (e & E3 & _). exact (H1 _ _ _ E3 N L).
  - destruct (app_split_len _ _ _ _ (eq_sym E') ltac:(lia)) as (e & E3 & _). apply H3.
    apply viable_prefix with (w' := runes_of e). rewrite <- runes_of_app, <- E3. exists [], c. rewrite app_nil_r. exact L.
Qed.

Lemma bad_not_viable u1 x1 r1 u2 x2 r2 :
  u1 ++ x1 :: r1 = u2 ++ x2 :: r2 -> viable (runes_of u1) -> ~ viable (runes_of (u2 ++ [x2])) -> length u1 <= length u2.
Proof.
  intros E V NV. destruct (Nat.le_gt_cases (length u1) (length u2)) as [H|H]; [exact H|exfalso].
  assert (E' : (u2 ++ [x2]) ++ r2 = u1 ++ x1 :: r1) by (rewrite <- app_assoc; symmetry; exact E).
  destruct (app_split_len _ _ _ _ E' ltac:(rewrite app_length; cbn; lia)) as (e & E3 & _).
  apply NV. apply viable_prefix with (w' := runes_of e). rewrite <- runes_of_app, <- E3. exact V.
Qed.

Theorem lexes_unique p ps ts1 : lexes p ps ts1 -> small (runes_of ps) -> forall ts2, lexes p ps ts2 -> ts1 = ts2.
Proof.
  induction 1 as [p|p ps u rest ts Hl H IH|p ps u rest ty ts Hl H IH|p u c rest H1 H2 H3|p u H1 H2 H3]; intros Hs ts2 H'.
  - inversion H'; subst; try reflexivity.
    + match goal with L : longest [] ?u _ _ |- _ => destruct L as (E & N & _); destruct u; [congruence|discriminate] end.
    + match goal with L : longest [] ?u _ _ |- _ => destruct L as (E & N & _); destruct u; [congruence|discriminate] end.
    + match goal with E : ?u ++ _ :: _ = [] |- _ => destruct u; discriminate end.
    + congruence.
  - assert (Hs' : small (runes_of rest)).
    { rewrite (proj1 Hl), runes_of_app in Hs. apply small_app in Hs. apply Hs. }
    inversion H' as [q E1 E2|? ? u2 r2 ? Hl2 Hx|? ? u2 r2 ty2 ? Hl2 Hx|? u2 c2 r2 A1 A2 A3|? u2 A1 A2 A3]; subst.
    + destruct Hl as (E & N & _). destruct u; [congruence|discriminate].
    + destruct (longest_unique _ _ _ _ _ _ _ Hs Hl Hl2) as (-> & -> & _). apply IH; assumption.
    + destruct (longest_unique _ _ _ _ _ _ _ Hs Hl Hl2) as (_ & _ & E). discriminate.
    + exfalso. eapply longest_not_bad; eauto.
    + exfalso. destruct Hl as (E & N & L & _). exact (A2 _ _ _ E N L).
  - assert (Hs' : small (runes_of rest)).
    { rewrite (proj1 Hl), runes_of_app in Hs. apply small_app in Hs. apply Hs. }
    inversion H' as [q E1 E2|? ? u2 r2 ? Hl2 Hx|? ? u2 r2 ty2 ? Hl2 Hx|? u2 c2 r2 A1 A2 A3|? u2 A1 A2 A3]; subst.
    + destruct Hl as (E & N & _). destruct u; [congruence|discriminate].
    + destruct (longest_unique _ _ _ _ _ _ _ Hs Hl Hl2) as (_ & _ & E). discriminate.
    + destruct (longest_unique _ _ _ _ _ _ _ Hs Hl Hl2) as (-> & -> & E). injection E as ->. f_equal. apply IH; assumption.
    + exfalso. eapply longest_not_bad; eauto.
    + exfalso. destruct Hl as (E & N & L & _). exact (A2 _ _ _ E N L).
  - inversion H' as [q E1 E2|? ? u2 r2 ? Hl2 Hx|? ? u2 r2 ty2 ? Hl2 Hx|? u2 c2 r2 A1 A2 A3 E|? u2 A1 A2 A3]; subst.
    + destruct u; discriminate.
    + exfalso. eapply (longest_not_bad _ _ _ _ u c rest Hl2); eauto.
    + exfalso. eapply (longest_not_bad _ _ _ _ u c rest Hl2); eauto.
    + match goal with HE : _ = _ |- _ => rename HE into E end.
      assert (L1 : length u <= length u2) by (eapply bad_not_viable; [symmetry| |]; eauto).
      assert (L2 : length u2 <= length u) by (eapply bad_not_viable; eauto).
      destruct (app_split_len _ _ _ _ E L2) as (e & E3 & E4). destruct e as [|x e].
      * rewrite app_nil_r in E3. subst u2. cbn in E4. injection E4 as -> ->. reflexivity.
      * rewrite E3, app_length in L1. cbn in L1. lia.
    + exfalso. apply H3. apply viable_prefix with (w' := runes_of rest). rewrite <- runes_of_app, <- app_assoc. exact A3.
  - inversion H' as [q E1 E2|? ? u2 r2 ? Hl2 Hx|? ? u2 r2 ty2 ? Hl2 Hx|? u2 c2 r2 A1 A2 A3 E|? u2 A1 A2 A3]; subst.
    + congruence.
    + exfalso. destruct Hl2 as (E & N & L & _). exact (H2 _ _ _ E N L).
    + exfalso. destruct Hl2 as (E & N & L & _). exact (H2 _ _ _ E N L).
    + exfalso. apply A3. apply viable_prefix with (w' := runes_of r2). rewrite <- runes_of_app, <- app_assoc. exact H3.
    + reflexivity.
Qed.

(** ** The parser on an input is the driver on its token list *)
Theorem parse_bytes_iter rnd k0 src :
  exists f, 11 * length (tokens src) < f /\
  iter f rnd ([(0, VNil)], tokens src, k0) <> OutOfFuel /\
  parse_bytes rnd k0 src =
    match iter f rnd ([(0, VNil)], tokens src, k0) with
    | Ok (VGraph g, k) => Ok (g, k)
    | Ok _ => Panic
    | Err e => Err e
    | Panic => Panic
    | OutOfFuel => OutOfFuel
    end.
Proof.
  exists (parse_fuel src).
  assert (Hf : 11 * length (tokens src) < parse_fuel src).
  { pose proof (tokens_length src). unfold parse_fuel. lia. }
  split; [exact Hf|].
  assert (Hne : iter (parse_fuel src) rnd ([(0, VNil)], tokens src, k0) <> OutOfFuel).
  { pose proof (iter_inv rnd k0 (tokens src) _ _ _ (Inv_init rnd k0 _ (tokens_final src)) Hf) as H.
    intros E. rewrite E in H. exact H. }
  split; [exact Hne|].
  unfold parse_bytes. destruct (tokens_stream src) as (t & lx & Es & Hst). rewrite Es.
  rewrite (parse_loop_iter rnd _ _ _ _ _ _ Hst Hne). reflexivity.
Qed.
