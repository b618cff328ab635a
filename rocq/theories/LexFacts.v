(** Consequences of [lexes]: the tokens tile the input, positions, classes. *)
From Coq Require Import List Ascii NArith ZArith Bool Lia Arith.
From Verif Require Import Base LexTables Lexer LexSpec LexDfa Parser ParserDefs ParserSound LexerProofs Tokens.
Import ListNotations.
Local Opaque bisim_set spec_vec trans_tab act_tab bounds reps.

(** ** Decoding a prefix that ends at a rune boundary *)
Lemma decode_prefix s n : s <> [] -> snd (decode_rune s) <= n -> decode_rune (firstn n s) = decode_rune s.
Proof.
  intros Hs Hn. destruct s as [|a0 s1]; [congruence|]. clear Hs.
  destruct n as [|n].
  { exfalso. pose proof (decode_spec (a0 :: s1) ltac:(discriminate)) as D.
    destruct (decode_rune (a0 :: s1)) as [r k]. cbn in Hn. lia. }
  cbn [firstn]. unfold decode_rune in *.
  destruct (N.ltb (bv a0) 128); [reflexivity|].
  destruct (in_range 194 223 (bv a0)).
  { destruct s1 as [|a1 s2]; [rewrite firstn_nil; reflexivity|].
    destruct n as [|n]; cbn [firstn]; [|reflexivity].
    destruct (is_cont a1); [cbn in Hn; lia|reflexivity]. }
  destruct (in_range 224 239 (bv a0)).
  { destruct s1 as [|a1 [|a2 s3]].
    - rewrite firstn_nil; reflexivity.
    - destruct n as [|n]; cbn [firstn]; rewrite ?firstn_nil; reflexivity.
    - destruct n as [|[|n]]; cbn [firstn]; try reflexivity;
        (destruct (second_ok (bv a0) a1 && is_cont a2); [cbn in Hn; lia|reflexivity]). }
  destruct (in_range 240 244 (bv a0)); [|reflexivity].
  destruct s1 as [|a1 [|a2 [|a3 s4]]].
  - rewrite firstn_nil; reflexivity.
  - destruct n as [|n]; cbn [firstn]; rewrite ?firstn_nil; reflexivity.
  - destruct n as [|[|n]]; cbn [firstn]; rewrite ?firstn_nil; reflexivity.
  - destruct n as [|[|[|n]]]; cbn [firstn]; try reflexivity;
      (destruct (second_ok (bv a0) a1 && is_cont a2 && is_cont a3); [cbn in Hn; lia|reflexivity]).
Qed.

Lemma pieces_prefix : forall s u v, pieces s = u ++ v -> pieces (text u) = u.
Proof.
  induction s as [|s r k Hs E IH] using pieces_ind; intros u v H.
  - cbn in H. destruct u; [reflexivity|discriminate].
  - destruct u as [|c u]; [reflexivity|].
    rewrite (pieces_cons s r k Hs E) in H. injection H as <- H. specialize (IH _ _ H).
    pose proof (decode_spec s Hs) as D. rewrite E in D. destruct D as [Dk _].
    assert (Ht : text ((r, firstn k s) :: u) = firstn k s ++ text u) by reflexivity.
    assert (Hts : skipn k s = text u ++ text v) by (rewrite <- text_app, <- H; symmetry; apply text_pieces).
    assert (Hf : firstn k s ++ text u = firstn (k + length (text u)) s).
    { rewrite <- (firstn_skipn k s) at 2. rewrite Hts, firstn_app, firstn_firstn, firstn_length_le by lia.
      replace (Nat.min (k + length (text u)) k) with k by lia. f_equal.
      replace (k + length (text u) - k) with (length (text u)) by lia. symmetry. apply firstn_text. }
    change (pieces (firstn k s ++ text u) = (r, firstn k s) :: u). assert (Hne : firstn k s ++ text u <> []).
    { destruct s; [congruence|]. destruct k; [lia|discriminate]. }
    assert (Hd : decode_rune (firstn k s ++ text u) = (r, k)).
    { rewrite Hf, decode_prefix; [exact E|exact Hs|rewrite E; cbn; lia]. }
    rewrite (pieces_cons _ r k Hne Hd).
    assert (Hl : length (firstn k s) = k) by (apply firstn_length_le; lia).
    rewrite firstn_app, skipn_app, Hl, Nat.sub_diag. cbn [firstn skipn].
    rewrite firstn_firstn, Nat.min_id, app_nil_r, skipn_all2 by lia. cbn [app]. f_equal. exact IH.
Qed.

Lemma pieces_app_eq s u v : pieces s = u ++ v -> s = text u ++ text v /\ pieces (text u) = u /\ pieces (text v) = v.
Proof.
  intros H. split; [|split].
  - rewrite <- text_app, <- H. symmetry. apply text_pieces.
  - eapply pieces_prefix; eauto.
  - eapply pieces_suffix; eauto.
Qed.

(** ** Tiling *)
(** White space and comments only. *)
Definition blank (s : gostr) : Prop :=
  exists us, pieces s = concat us /\ Forall (fun u => matches ignored (runes_of u)) us.

Lemma blank_nil : blank [].
Proof. exists []. split; [reflexivity|constructor]. Qed.

(** The input from byte [a] to byte [b]. *)
Definition slice (s : gostr) (a b : nat) : gostr := firstn (b - a) (skipn a s).

Definition tok_end (t : stoken) : nat := p_off (snd t) + length (snd (fst t)).

Lemma lexeme_skip w : is_lexeme w Skip -> matches ignored w.
Proof. intros H. inversion H. assumption. Qed.

(** [tiled e src ts]: after byte [e], the tokens [ts] occur in order, separated by blanks. *)
Fixpoint tiled (src : gostr) (e : nat) (ts : list stoken) : Prop :=
  match ts with
  | [] => True
  | t :: ts' =>
      e <= p_off (snd t) /\ tok_end t <= length src /\
      blank (slice src e (p_off (snd t))) /\
      slice src (p_off (snd t)) (tok_end t) = snd (fst t) /\
      snd t = advance start_pos (pieces (firstn (p_off (snd t)) src)) /\
      (fst (fst t) = 1 -> p_off (snd t) = length src) /\
      tiled src (tok_end t) ts'
  end.

Lemma slice_mid (a b c : gostr) n m : n = length a -> m = length a + length b -> slice (a ++ b ++ c) n m = b.
Proof.
  intros -> ->. unfold slice. rewrite skipn_app, skipn_all, Nat.sub_diag. cbn.
  replace (length a + length b - length a) with (length b) by lia.
  rewrite firstn_app, firstn_all, Nat.sub_diag. cbn. apply app_nil_r.
Qed.

Lemma blank_app_pieces s us u v rest :
  pieces s = u ++ v ++ rest -> u = concat us -> Forall (fun u => matches ignored (runes_of u)) us ->
  matches ignored (runes_of v) ->
  exists us', u ++ v = concat us' /\ Forall (fun u => matches ignored (runes_of u)) us'.
Proof.
  intros _ -> Hf Hv. exists (us ++ [v]). rewrite concat_app. cbn. rewrite app_nil_r. split; [reflexivity|].
  apply Forall_app. split; [exact Hf|]. constructor; [exact Hv|constructor].
Qed.

Lemma lexes_tiled src : forall p ps ts, lexes p ps ts ->
  forall pre us, pieces src = pre ++ concat us ++ ps -> Forall (fun u => matches ignored (runes_of u)) us ->
  p = advance start_pos (pre ++ concat us) -> tiled src (length (text pre)) ts.
Proof.
  assert (main : forall pre us (lit : list piece) ty rest p,
     pieces src = pre ++ concat us ++ lit ++ rest -> Forall (fun u => matches ignored (runes_of u)) us ->
     p = advance start_pos (pre ++ concat us) ->
     length (text pre) <= p_off p /\ p_off p + length (text lit) <= length src /\
     blank (slice src (length (text pre)) (p_off p)) /\
     slice src (p_off p) (p_off p + length (text lit)) = text lit /\
     p = advance start_pos (pieces (firstn (p_off p) src)) /\
     (ty = 1 -> lit = [] -> rest = [] -> p_off p = length src) /\
     p_off p + length (text lit) = length (text (pre ++ concat us ++ lit))).
  { intros pre us lt ty rest p Hps Hf Hp.
    assert (Hoff : p_off p = length (text pre) + length (text (concat us))).
    { rewrite Hp, p_off_advance, text_app, app_length. cbn. lia. }
    assert (Hsrc : src = text pre ++ text (concat us) ++ text lt ++ text rest).
    { rewrite <- (text_pieces src), Hps, !text_app. reflexivity. }
    assert (Hlen : length src = length (text pre) + length (text (concat us)) + length (text lt) + length (text rest)).
    { rewrite Hsrc, !app_length. lia. }
    split; [lia|]. split; [lia|]. split.
    { exists us. split; [|exact Hf]. rewrite Hsrc.
      rewrite (slice_mid (text pre) (text (concat us)) (text lt ++ text rest)); [|reflexivity|exact Hoff].
      apply pieces_app_eq in Hps. destruct Hps as (_ & _ & Hps).
      apply (pieces_prefix _ _ _ Hps). }
    split.
    { rewrite Hsrc, app_assoc. apply slice_mid; rewrite ?app_length; lia. }
    split.
    { rewrite Hp at 1. f_equal. rewrite app_assoc in Hps. pose proof (pieces_prefix _ _ _ Hps) as Hq.
      rewrite <- Hq at 1. f_equal. rewrite Hsrc, app_assoc, firstn_app, app_length.
      replace (p_off p - (length (text pre) + length (text (concat us)))) with 0 by lia. cbn [firstn].
      rewrite app_nil_r, text_app, firstn_all2; [reflexivity|]. rewrite app_length. lia. }
    split.
    { intros _ -> ->. cbn in Hlen. lia. }
    rewrite !text_app, !app_length. lia. }
  induction 1 as [p|p ps u rest ts Hl H IH|p ps u rest ty ts Hl H IH|p u c rest H1 H2 H3|p u H1 H2 H3]; intros pre us Hps Hf Hp.
  - destruct (main pre us [] 1 [] p Hps Hf Hp) as (A & B & C & D & E & F & G).
    cbn [tiled]. unfold tok_end. cbn [fst snd length]. repeat split; auto.
  - assert (Eps : ps = u ++ rest) by apply Hl. subst ps.
    replace (length (text pre)) with (length (text pre)) by reflexivity.
    apply (IH pre (us ++ [u])).
    + rewrite concat_app. cbn [concat]. rewrite app_nil_r, <- app_assoc. exact Hps.
    + apply Forall_app. split; [exact Hf|]. constructor; [|constructor]. apply lexeme_skip. apply Hl.
    + rewrite concat_app. cbn [concat]. rewrite app_nil_r, app_assoc, advance_app, <- Hp. reflexivity.
  - assert (Eps : ps = u ++ rest) by apply Hl. subst ps.
    destruct (main pre us u ty rest p Hps Hf Hp) as (A & B & C & D & E & F & G).
    cbn [tiled]. unfold tok_end. cbn [fst snd]. repeat split; auto.
    + intros Ety. exfalso. subst ty. destruct Hl as (_ & _ & Hx & _). 
      inversion Hx as [|t r Hin Hm|]; subst.
      unfold reserved in Hin. cbn [In] in Hin. repeat (destruct Hin as [Hin|Hin]; [discriminate|]). contradiction.
    + rewrite G. apply (IH (pre ++ concat us ++ u) []).
      * cbn [concat app]. rewrite <- !app_assoc. exact Hps.
      * constructor.
      * cbn [concat]. rewrite app_nil_r, app_assoc, advance_app, <- Hp. reflexivity.
  - assert (Hps' : pieces src = pre ++ concat us ++ (u ++ [c]) ++ rest) by (rewrite <- app_assoc; exact Hps).
    destruct (main pre us (u ++ [c]) 0 rest p Hps' Hf Hp) as (A & B & C & D & E & F & G).
    cbn [tiled]. unfold tok_end. cbn [fst snd]. repeat split; auto. discriminate.
  - assert (Hps' : pieces src = pre ++ concat us ++ u ++ []) by (rewrite app_nil_r; exact Hps).
    destruct (main pre us u 0 [] p Hps' Hf Hp) as (A & B & C & D & E & F & G).
    cbn [tiled]. unfold tok_end. cbn [fst snd]. repeat split; auto. discriminate.
Qed.

Theorem tokens_tiled src : tiled src 0 (map stok (tokens src)).
Proof.
  apply (lexes_tiled src start_pos (pieces src) _ (tokens_lexes src) [] []); auto.
Qed.

(** ** Lines and columns *)
(** number of newline bytes *)
Definition newlines (s : gostr) : nat := length (filter (fun a => N.eqb (bv a) 10) s).
(** the runes after the last CR or LF *)
Fixpoint last_line (acc rs : list N) : list N :=
  match rs with
  | [] => acc
  | r :: rs' => if N.eqb r 10 || N.eqb r 13 then last_line [] rs' else last_line (acc ++ [r]) rs'
  end.
Definition width (r : N) : nat := if N.eqb r 9 then 4 else 1.
Definition column (rs : list N) : nat := 1 + list_sum (map width (last_line [] rs)).

Lemma decode_nl s r k : s <> [] -> decode_rune s = (r, k) ->
  newlines (firstn k s) = if N.eqb r 10 then 1 else 0.
Proof.
  intros Hs. destruct s as [|a0 s1]; [congruence|]. unfold decode_rune, newlines, rune_error, is_cont.
  destruct (N.ltb_spec (bv a0) 128) as [L|L].
  { intros [= <- <-]. cbn [firstn filter]. destruct (N.eqb (bv a0) 10); reflexivity. }
  assert (A0 : N.eqb (bv a0) 10 = false) by (apply N.eqb_neq; lia).
  destruct (in_range 194 223 (bv a0)) eqn:R1.
  { destruct s1 as [|a1 s2]; [intros [= <- <-]; cbn [firstn filter]; rewrite A0; reflexivity|].
    destruct (in_range 128 191 (bv a1)) eqn:C1; intros [= <- <-]; cbn [firstn filter]; rewrite A0; [|reflexivity].
    apply in_range_spec in C1, R1.
    replace (N.eqb (bv a1) 10) with false by (symmetry; apply N.eqb_neq; lia).
    match goal with |- context [N.eqb ?x 10] => replace (N.eqb x 10) with false by (symmetry; apply N.eqb_neq; lia) end. reflexivity. }
  destruct (in_range 224 239 (bv a0)) eqn:R2.
  { destruct s1 as [|a1 [|a2 s3]]; try (intros [= <- <-]; cbn [firstn filter]; rewrite A0; reflexivity).
    destruct (second_ok (bv a0) a1 && in_range 128 191 (bv a2)) eqn:C1; intros [= <- <-]; cbn [firstn filter]; rewrite A0; [|reflexivity].
    apply andb_true_iff in C1. destruct C1 as [C1 C2]. apply in_range_spec in C2, R2.
    assert (C1' : (bv a1 >= 128)%N /\ ((bv a0 = 224)%N -> (bv a1 >= 160)%N)).
    { unfold second_ok in C1. destruct (N.eqb_spec (bv a0) 224); [apply in_range_spec in C1; lia|].
      destruct (N.eqb_spec (bv a0) 237); [apply in_range_spec in C1; lia|].
      destruct (N.eqb_spec (bv a0) 240); [apply in_range_spec in C1; lia|].
      destruct (N.eqb_spec (bv a0) 244); [apply in_range_spec in C1; lia|].
      unfold is_cont in C1. apply in_range_spec in C1. lia. }
    replace (N.eqb (bv a1) 10) with false by (symmetry; apply N.eqb_neq; lia).
    replace (N.eqb (bv a2) 10) with false by (symmetry; apply N.eqb_neq; lia).
    match goal with |- context [N.eqb ?x 10] => replace (N.eqb x 10) with false by (symmetry; apply N.eqb_neq; lia) end. reflexivity. }
  destruct (in_range 240 244 (bv a0)) eqn:R3; [|intros [= <- <-]; cbn [firstn filter]; rewrite A0; reflexivity].
  destruct s1 as [|a1 [|a2 [|a3 s4]]]; try (intros [= <- <-]; cbn [firstn filter]; rewrite A0; reflexivity).
  destruct (second_ok (bv a0) a1 && in_range 128 191 (bv a2) && in_range 128 191 (bv a3)) eqn:C1; intros [= <- <-]; cbn [firstn filter]; rewrite A0; [|reflexivity].
  rewrite !andb_true_iff in C1. destruct C1 as [[C1 C2] C3]. apply in_range_spec in C2, C3, R3.
  assert (C1' : (bv a1 >= 128)%N /\ ((bv a0 = 240)%N -> (bv a1 >= 144)%N)).
  { unfold second_ok in C1. destruct (N.eqb_spec (bv a0) 224); [apply in_range_spec in C1; lia|].
    destruct (N.eqb_spec (bv a0) 237); [apply in_range_spec in C1; lia|].
    destruct (N.eqb_spec (bv a0) 240); [apply in_range_spec in C1; lia|].
    destruct (N.eqb_spec (bv a0) 244); [apply in_range_spec in C1; lia|].
    unfold is_cont in C1. apply in_range_spec in C1. lia. }
  replace (N.eqb (bv a1) 10) with false by (symmetry; apply N.eqb_neq; lia).
  replace (N.eqb (bv a2) 10) with false by (symmetry; apply N.eqb_neq; lia).
  replace (N.eqb (bv a3) 10) with false by (symmetry; apply N.eqb_neq; lia).
  match goal with |- context [N.eqb ?x 10] => replace (N.eqb x 10) with false by (symmetry; apply N.eqb_neq; lia) end. reflexivity.
Qed.

Lemma advance_line s : forall p, p_line (advance p (pieces s)) = p_line p + newlines s.
Proof.
  induction s as [|s r k Hs E IH] using pieces_ind; intros p; [cbn; lia|].
  rewrite (pieces_cons s r k Hs E). cbn [advance fold_left]. fold (advance (step_pos p (r, firstn k s)) (pieces (skipn k s))).
  rewrite IH. cbn [step_pos p_line].
  replace (newlines s) with (newlines (firstn k s) + newlines (skipn k s)).
  - rewrite (decode_nl s r k Hs E). destruct (N.eqb r 10); lia.
  - unfold newlines. rewrite <- app_length, <- filter_app, firstn_skipn. reflexivity.
Qed.

Lemma advance_col ps : forall p acc, p_col p = 1 + list_sum (map width acc) ->
  p_col (advance p ps) = 1 + list_sum (map width (last_line acc (runes_of ps))).
Proof.
  induction ps as [|[r bs] ps IH]; intros p acc H; [exact H|].
  cbn [advance fold_left]. fold (advance (step_pos p (r, bs)) ps). cbn [runes_of map fst last_line].
  destruct (N.eqb r 10 || N.eqb r 13) eqn:E.
  - apply IH. cbn [step_pos p_col]. rewrite E. reflexivity.
  - apply IH. cbn [step_pos p_col]. rewrite E, H, map_app, list_sum_app. cbn. unfold width.
    destruct (N.eqb r 9); lia.
Qed.

Lemma advance_start_pos s : advance start_pos (pieces s) = Pos (length s) (1 + newlines s) (column (runes_of (pieces s))).
Proof.
  pose proof (p_off_advance (pieces s) start_pos) as H1. rewrite text_pieces in H1.
  pose proof (advance_line s start_pos) as H2. pose proof (advance_col (pieces s) start_pos [] eq_refl) as H3.
  destruct (advance start_pos (pieces s)) as [a b c]. cbn in *. subst. reflexivity.
Qed.

Lemma tiled_in src : forall ts e t, tiled src e ts -> In t ts ->
  p_off (snd t) <= length src /\ snd t = advance start_pos (pieces (firstn (p_off (snd t)) src)).
Proof.
  induction ts as [|x ts IH]; intros e t H Hin; [contradiction|].
  destruct H as (_ & B & _ & _ & E & _ & H). destruct Hin as [->|Hin]; [|eapply IH; eauto].
  split; [unfold tok_end in B; lia|exact E].
Qed.

Theorem token_position src t : In t (tokens src) ->
  tk_line t = 1 + newlines (firstn (tk_off t) src) /\
  tk_col t = column (runes_of (pieces (firstn (tk_off t) src))).
Proof.
  intros H. apply (in_map stok) in H. pose proof (tiled_in src _ _ _ (tokens_tiled src) H) as [_ E].
  rewrite advance_start_pos in E. cbn in E. injection E as _ E1 E2. auto.
Qed.

(** ** A single lexeme *)
Lemma lexeme_alone src ty : is_lexeme (runes_of (pieces src)) (Tok ty) <->
  exists p, lexes start_pos (pieces src) [(ty, src, start_pos); (1, [], p)].
Proof.
  split.
  - intros H. exists (advance start_pos (pieces src)).
    rewrite <- (text_pieces src) at 2. eapply lex_tok with (rest := []); [|constructor].
    split; [rewrite app_nil_r; reflexivity|]. split.
    + intros E. rewrite E in H. cbn in H. apply dfa_correct in H; [|constructor]. destruct H as (s & Hs & Hl).
      cbn in Hs. injection Hs as <-. vm_compute in Hl. discriminate.
    + split; [exact H|]. intros u' rest' c' E _ _. rewrite E, app_length. lia.
  - intros (p & H). inversion H as [|q ps u rest ts Hl Hx|q ps u rest ty' ts Hl Hx| |]; subst.
    + exfalso. assert (Hu : u <> []) by apply Hl.
      assert (Hpos : p_off (advance start_pos u) > 0).
      { rewrite p_off_advance. assert (Hn : Forall (fun c : piece => snd c <> []) u).
        { pose proof (pieces_nonempty src) as Hn. rewrite (proj1 Hl) in Hn. apply Forall_app in Hn. apply Hn. }
        pose proof (text_pos u Hn Hu). lia. }
      assert (Hge : forall q ps ts, lexes q ps ts -> forall t ts', ts = t :: ts' -> p_off q <= p_off (snd t)).
      { clear. induction 1; intros t ts' E; try (injection E as <- _; cbn; lia).
        specialize (IHlexes _ _ E). rewrite p_off_advance in IHlexes. lia. }
      specialize (Hge _ _ _ Hx _ _ eq_refl). cbn in Hge. lia.
    + destruct Hl as (E & Hu & Hlex & _).
      assert (rest = []) as ->.
      { assert (Hlen : length (text (pieces (text u))) = length (text u) + length (text rest)) by (rewrite E, text_app, app_length; reflexivity).
        rewrite text_pieces in Hlen.
        destruct rest as [|c rest]; [reflexivity|]. pose proof (pieces_nonempty (text u)) as Hn. rewrite E in Hn.
        apply Forall_app in Hn. destruct Hn as [_ Hn]. pose proof (text_pos _ Hn ltac:(discriminate)). lia. }
      rewrite app_nil_r in E. rewrite E. exact Hlex.
Qed.
