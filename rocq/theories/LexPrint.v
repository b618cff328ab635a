(** Scanning text that was put together from lexemes and blanks. *)
From Coq Require Import List Ascii NArith ZArith Bool Lia Arith.
From Verif Require Import Base LexTables Lexer LexSpec LexDfa Parser ParserDefs ParserSound LexerProofs Tokens LexFacts
  SpecGrammar GrammarProofs ParseFacts.
Import ListNotations.
Local Opaque bisim_set spec_vec trans_tab act_tab bounds reps.

(** ** Clean text: no U+FFFD among its runes, hence valid UTF-8 *)
Definition clean (s : gostr) : Prop := Forall (fun c : piece => fst c <> rune_error) (pieces s).

Lemma decode_valid_app s t r k : s <> [] -> decode_rune s = (r, k) -> r <> rune_error -> decode_rune (s ++ t) = (r, k).
Proof.
  intros Hs. destruct s as [|a0 s1]; [congruence|]. cbn [app]. unfold decode_rune.
  destruct (N.ltb (bv a0) 128); [auto|].
  destruct (in_range 194 223 (bv a0)).
  { destruct s1 as [|a1 s2]; [intros [= <- <-]; congruence|]. cbn [app]. auto. }
  destruct (in_range 224 239 (bv a0)).
  { destruct s1 as [|a1 [|a2 s3]]; try (intros [= <- <-]; congruence). cbn [app]. auto. }
  destruct (in_range 240 244 (bv a0)); [|auto].
  destruct s1 as [|a1 [|a2 [|a3 s4]]]; try (intros [= <- <-]; congruence). cbn [app]. auto.
Qed.

Lemma pieces_app s t : clean s -> pieces (s ++ t) = pieces s ++ pieces t.
Proof.
  induction s as [|s r k Hs E IH] using pieces_ind; intros Hc; [reflexivity|].
  unfold clean in *. rewrite (pieces_cons s r k Hs E) in Hc |- *. inversion Hc as [|? ? H1 H2]; subst. cbn in H1.
  assert (E' : decode_rune (s ++ t) = (r, k)) by (apply decode_valid_app; assumption).
  rewrite (pieces_cons (s ++ t) r k); [|destruct s; [congruence|discriminate]|exact E'].
  pose proof (decode_spec s Hs) as D. rewrite E in D. destruct D as [Dk _].
  rewrite firstn_app, skipn_app. replace (k - length s) with 0 by lia. cbn [firstn skipn].
  rewrite app_nil_r. rewrite (IH H2). reflexivity.
Qed.

Lemma clean_app s t : clean s -> clean t -> clean (s ++ t).
Proof. intros H1 H2. unfold clean. rewrite pieces_app by exact H1. apply Forall_app. auto. Qed.

Lemma pieces_ascii a s : (bv a < 128)%N -> pieces (a :: s) = (bv a, [a]) :: pieces s.
Proof.
  intros H. rewrite (pieces_cons (a :: s) (bv a) 1); [reflexivity|discriminate|].
  cbn [decode_rune]. apply N.ltb_lt in H. rewrite H. reflexivity.
Qed.

(** ** Regular expressions that avoid a rune *)
Fixpoint avoids (c : N) (r : re) : bool :=
  match r with
  | Emp | Eps => true
  | Rng lo hi => negb (in_range lo hi c)
  | Alt a b | Cat a b => avoids c a && avoids c b
  | Star a => avoids c a
  end.
Lemma avoids_matches c r w : matches r w -> avoids c r = true -> Forall (fun x => x <> c) w.
Proof.
  induction 1 as [|lo hi x Hx|a b w _ IH|a b w _ IH|a b w1 w2 _ IH1 _ IH2|a|a w1 w2 _ IH1 _ IH2]; cbn [avoids]; intros H.
  - constructor.
  - constructor; [|constructor]. intros ->. rewrite Hx in H. discriminate.
  - apply andb_true_iff in H. apply IH. apply H.
  - apply andb_true_iff in H. apply IH. apply H.
  - apply andb_true_iff in H. apply Forall_app. split; [apply IH1|apply IH2]; apply H.
  - constructor.
  - apply Forall_app. split; [apply IH1|apply IH2]; exact H.
Qed.

Lemma lex_id_avoids : avoids rune_error lex_id = true.
Proof. vm_compute. reflexivity. Qed.

(** [s] is one DOT ID token. *)
Definition is_id (s : gostr) : Prop := is_lexeme (runes_of (pieces s)) (Tok ID).

Lemma is_id_clean s : is_id s -> clean s.
Proof.
  intros H. assert (M : matches lex_id (runes_of (pieces s))).
  { inversion H as [|t r Hin Hm|]; subst; [|assumption]. exfalso. unfold reserved in Hin. cbn [In] in Hin.
    repeat (destruct Hin as [Hin|Hin]; [discriminate|]). contradiction. }
  pose proof (avoids_matches _ _ _ M lex_id_avoids) as F. unfold runes_of in F. rewrite Forall_map in F. exact F.
Qed.

Lemma is_id_nonempty s : is_id s -> s <> [].
Proof.
  intros H ->. apply dfa_correct in H; [|constructor]. destruct H as (s & Hs & Hl). cbn in Hs. injection Hs as <-.
  vm_compute in Hl. discriminate.
Qed.

(** ** Lexing up to positions *)
Definition lexw (ps : list piece) (w : word) : Prop :=
  forall p, exists ts q, lexes p ps (ts ++ [(1, [], q)]) /\ map fst ts = w.
Definition lexb (s : gostr) (w : word) : Prop := lexw (pieces s) w.

Lemma lexb_scans s w : lexb s w -> scans_to s w.
Proof. intros H. destruct (H start_pos) as (ts & q & H1 & H2). exists ts, q. auto. Qed.

Lemma lexb_nil : lexb [] [].
Proof. intros p. exists [], p. split; [constructor|reflexivity]. Qed.

Lemma lexw_skip u ps w s :
  small (runes_of (u ++ ps)) -> u <> [] -> dfa_run 0 (runes_of u) = Some s -> label s = [Skip] ->
  lexw ps w -> lexw (u ++ ps) w.
Proof.
  intros Hsm Hu Hr Hl Hw p. destruct (Hw (advance p u)) as (ts & q & H1 & H2). exists ts, q. split; [|exact H2].
  eapply lex_skip; [|exact H1]. apply (longest_intro u ps Skip s); auto.
  destruct ps as [|x l]; [exact I|]. destruct (trans s (fst x)) as [s'|] eqn:Et; [|reflexivity].
  destruct (label_step _ _ _ Et) as [_ HH]. rewrite Hl in HH. destruct HH as [HH _]. congruence.
Qed.

Lemma lexw_tok u ps w s ty :
  small (runes_of (u ++ ps)) -> u <> [] -> dfa_run 0 (runes_of u) = Some s -> label s = [Tok ty] ->
  match ps with [] => True | x :: _ => trans s (fst x) = None end ->
  lexw ps w -> lexw (u ++ ps) ((ty, text u) :: w).
Proof.
  intros Hsm Hu Hr Hl Hn Hw p. destruct (Hw (advance p u)) as (ts & q & H1 & H2).
  exists ((ty, text u, p) :: ts), q. split; [|cbn; rewrite H2; reflexivity].
  cbn [app]. eapply lex_tok; [|exact H1]. apply (longest_intro u ps (Tok ty) s); auto.
Qed.

(** *** blanks *)
Definition blank_byte (a : ascii) : bool :=
  N.eqb (bv a) 32 || N.eqb (bv a) 9 || N.eqb (bv a) 10.

Lemma blank_runs : forallb (fun c => match dfa_run 0 [c] with Some s => match label s with [Skip] => true | _ => false end | None => false end) [32; 9; 10]%N = true.
Proof. vm_compute. reflexivity. Qed.

Lemma lexb_blank a s w : blank_byte a = true -> lexb s w -> lexb (a :: s) w.
Proof.
  intros Hb Hs. unfold lexb.
  assert (Hc : In (bv a) [32; 9; 10]%N).
  { unfold blank_byte in Hb. rewrite !orb_true_iff, !N.eqb_eq in Hb. cbn. intuition. }
  assert (Ha : (bv a < 128)%N) by (cbn in Hc; destruct Hc as [H|[H|[H|[]]]]; lia).
  rewrite (pieces_ascii a s Ha). change ((bv a, [a]) :: pieces s) with ([(bv a, [a])] ++ pieces s).
  pose proof blank_runs as R. rewrite forallb_forall in R. specialize (R _ Hc).
  destruct (dfa_run 0 [bv a]) as [st|] eqn:Er; [|discriminate].
  eapply (lexw_skip [(bv a, [a])] _ _ st); [|discriminate|exact Er| |exact Hs].
  - rewrite runes_of_app. apply small_app. split; [|apply pieces_small]. constructor; [|constructor].
    unfold max_rune. cbn. lia.
  - destruct (label st) as [|[|] [|? ?]]; try discriminate. reflexivity.
Qed.

Lemma lexb_blanks b s w : forallb blank_byte b = true -> lexb s w -> lexb (b ++ s) w.
Proof.
  induction b as [|a b IH]; cbn; [auto|]. rewrite andb_true_iff. intros [H1 H2] Hs.
  apply lexb_blank; [exact H1|]. apply IH; assumption.
Qed.

(** *** tokens: no token can be extended by these bytes *)
Definition stop_runes : list N := [32; 9; 10; 58; 61; 59; 44; 45; 91; 93; 123; 125]%N.
Definition stop_byte (a : ascii) : bool := existsb (N.eqb (bv a)) stop_runes.
Definition stop (s : gostr) : Prop := match s with [] => True | a :: _ => stop_byte a = true end.

Lemma stop_ok : forallb (fun s => match label s with
   | [Tok ty] => forallb (fun c => match trans s c with None => true | _ => false end) stop_runes
   | _ => true end) (seq 0 141) = true.
Proof. vm_compute. reflexivity. Qed.

Lemma stop_trans st ty s : st < 141 -> label st = [Tok ty] -> stop s ->
  match pieces s with [] => True | x :: _ => trans st (fst x) = None end.
Proof.
  intros L Hl Hs. destruct s as [|a s]; [exact I|]. unfold stop in Hs.
  assert (Ha : (bv a < 128)%N).
  { unfold stop_byte in Hs. apply existsb_exists in Hs. destruct Hs as (x & Hx & E). apply N.eqb_eq in E. rewrite E.
    unfold stop_runes in Hx. cbn [In] in Hx. repeat (destruct Hx as [Hx|Hx]; [lia|]). contradiction. }
  rewrite (pieces_ascii a s Ha). cbn [fst].
  pose proof stop_ok as C. rewrite forallb_forall in C. specialize (C st).
  assert (C' := C (proj2 (in_seq 141 0 st) ltac:(lia))). clear C. cbv beta in C'. rewrite Hl in C'.
  rewrite forallb_forall in C'. unfold stop_byte in Hs. apply existsb_exists in Hs. destruct Hs as (x & Hx & E).
  apply N.eqb_eq in E. rewrite E. specialize (C' x Hx). destruct (trans st x); [discriminate|reflexivity].
Qed.

Lemma lexb_token i ty s w : is_lexeme (runes_of (pieces i)) (Tok ty) -> clean i -> stop s -> lexb s w ->
  lexb (i ++ s) ((ty, i) :: w).
Proof.
  intros Hi Hc Hs Hw. unfold lexb. rewrite pieces_app by exact Hc. rewrite <- (text_pieces i) at 2.
  apply dfa_correct in Hi; [|apply pieces_small]. destruct Hi as (st & Hr & Hl).
  apply (lexw_tok _ _ _ st).
  - rewrite runes_of_app. apply small_app. split; apply pieces_small.
  - intros E. rewrite E in Hr. cbn in Hr. injection Hr as <-. vm_compute in Hl. discriminate.
  - exact Hr.
  - exact Hl.
  - eapply stop_trans; eauto. eapply dfa_run_bound; [|exact Hr]. lia.
  - exact Hw.
Qed.

Lemma lexb_id i s w : is_id i -> stop s -> lexb s w -> lexb (i ++ s) ((ID, i) :: w).
Proof. intros H. apply lexb_token; [exact H|apply is_id_clean; exact H]. Qed.

(** *** punctuation and keywords *)
Definition closed_words : list (gostr * nat) :=
  [(lit "{", 3); (lit "}", 4); (lit ";", 7); (lit "=", 8); (lit "[", 11); (lit "]", 12); (lit ",", 13);
   (lit ":", 14); (lit "->", 16); (lit "--", 17)].
Definition kw_words : list (gostr * nat) :=
  [(lit "graph", 2); (lit "strict", 5); (lit "digraph", 6); (lit "node", 9); (lit "edge", 10); (lit "subgraph", 15)].

Definition run_word (x : gostr * nat) : bool :=
  forallb (fun c => N.ltb (bv c) 128) (fst x) &&
  match fst x with [] => false | _ => true end &&
  match dfa_run 0 (map bv (fst x)) with
  | Some s => match label s with [Tok ty] => Nat.eqb ty (snd x) | _ => false end
  | None => false
  end.
Lemma words_run : forallb run_word (closed_words ++ kw_words) = true.
Proof. vm_compute. reflexivity. Qed.
Lemma closed_run : forallb (fun x : gostr * nat => match dfa_run 0 (map bv (fst x)) with
   | Some s => match nth_error trans_tab s with Some ([], None) => true | _ => false end
   | None => false end) closed_words = true.
Proof. vm_compute. reflexivity. Qed.

Lemma pieces_ascii_all s : forallb (fun c => N.ltb (bv c) 128) s = true -> pieces s = map (fun c => (bv c, [c])) s.
Proof.
  induction s as [|a s IH]; cbn [forallb]; [reflexivity|]. rewrite andb_true_iff. intros [H1 H2].
  apply N.ltb_lt in H1. rewrite pieces_ascii by exact H1. rewrite IH by exact H2. reflexivity.
Qed.

Lemma word_facts x ty : In (x, ty) (closed_words ++ kw_words) ->
  x <> [] /\ clean x /\ runes_of (pieces x) = map bv x /\
  exists s, s < 141 /\ dfa_run 0 (map bv x) = Some s /\ label s = [Tok ty].
Proof.
  intros H. pose proof words_run as C. rewrite forallb_forall in C. specialize (C _ H). unfold run_word in C.
  cbn [fst snd] in C. rewrite !andb_true_iff in C. destruct C as [[C1 C2] C3].
  assert (Hr : runes_of (pieces x) = map bv x).
  { rewrite pieces_ascii_all by exact C1. unfold runes_of. rewrite map_map. reflexivity. }
  split; [destruct x; congruence|]. split.
  - unfold clean. rewrite pieces_ascii_all by exact C1. apply Forall_forall. intros c Hc. apply in_map_iff in Hc.
    destruct Hc as (a & <- & Ha). rewrite forallb_forall in C1. specialize (C1 _ Ha). apply N.ltb_lt in C1.
    cbn. unfold rune_error. lia.
  - split; [exact Hr|]. destruct (dfa_run 0 (map bv x)) as [s|] eqn:E; [|discriminate].
    destruct (label s) as [|[|t] [|? ?]] eqn:El; try discriminate. apply Nat.eqb_eq in C3. subst t.
    exists s. split; [eapply dfa_run_bound; [|exact E]; lia|]. auto.
Qed.

Lemma lexb_closed x ty s w : In (x, ty) closed_words -> lexb s w -> lexb (x ++ s) ((ty, x) :: w).
Proof.
  intros Hin Hw. destruct (word_facts x ty) as (Hx & Hc & Hr & st & L & Hd & Hl); [apply in_or_app; auto|].
  unfold lexb. rewrite pieces_app by exact Hc. rewrite <- (text_pieces x) at 2.
  apply (lexw_tok _ _ _ st).
  - rewrite runes_of_app. apply small_app. split; apply pieces_small.
  - intros E. rewrite E in Hr. cbn in Hr. destruct x; [congruence|discriminate].
  - rewrite Hr. exact Hd.
  - exact Hl.
  - destruct (pieces s) as [|c l]; [exact I|].
    pose proof closed_run as C. rewrite forallb_forall in C. specialize (C _ Hin). cbn [fst] in C. rewrite Hd in C.
    unfold trans. destruct (nth_error trans_tab st) as [[[|? ?] [?|]]|]; try discriminate. reflexivity.
  - exact Hw.
Qed.

Lemma lexb_kw x ty s w : In (x, ty) kw_words -> stop s -> lexb s w -> lexb (x ++ s) ((ty, x) :: w).
Proof.
  intros Hin. destruct (word_facts x ty) as (Hx & Hc & Hr & st & L & Hd & Hl); [apply in_or_app; auto|].
  apply lexb_token; [|exact Hc]. apply dfa_correct; [apply pieces_small|]. exists st. rewrite Hr. auto.
Qed.
