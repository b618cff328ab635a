(** C70: a buffer may be used again after Parse or Read; what a syntax error says then. *)
From Coq Require Import List Ascii NArith ZArith Bool Lia.
From Verif Require Import Base LexTables ParseTables Ast Lexer Parser RecParser ErrText ErrProofs Maps Graph Analyse Slices SlicesProofs SpecSlices PropsErr.
Import ListNotations.
Local Open Scope nat_scope.

Lemma look_in_place src now t : in_buf src t -> length now = length src ->
  look now t = Token (sl_type t) (in_place now (look src t)) (sl_off t) (sl_line t) (sl_col t).
Proof.
  intros (E & L1 & L2) L. unfold look, in_place, sub. cbn [tk_lit tk_off]. f_equal. rewrite firstn_length, skipn_length.
  replace (Nat.min (sl_hi t - sl_lo t) (length src - sl_lo t)) with (sl_hi t - sl_lo t) by lia. rewrite E. reflexivity.
Qed.
Lemma look_refreshed src now e : in_buf src (se_token e) -> length now = length src -> look_error now e = refreshed now (look_error src e).
Proof. intros B L. unfold look_error, refreshed. cbn [pe_token pe_expected pe_stack_top]. rewrite (look_in_place src now) by assumption. reflexivity. Qed.

Lemma in_place_own src t : in_buf src t -> in_place src (look src t) = tk_lit (look src t).
Proof.
  intros B. pose proof (look_in_place src src t B eq_refl) as E. change (tk_lit (look src t)) with (sub src (sl_lo t) (sl_hi t)).
  unfold look at 1 in E. injection E as E. symmetry. exact E.
Qed.

(** ** Lists *)
Lemma set_nth_length {A} (l : list A) i a : i < length l -> length (set_nth l i a) = length l.
Proof. intros H. unfold set_nth. rewrite app_length. cbn [length]. rewrite firstn_length, skipn_length. lia. Qed.
Lemma set_nth_same {A} (l : list A) i a : i < length l -> nth_error (set_nth l i a) i = Some a.
Proof.
  intros H. unfold set_nth. rewrite nth_error_app2 by (rewrite firstn_length; lia). rewrite firstn_length.
  replace (i - Nat.min i (length l)) with 0 by lia. reflexivity.
Qed.
Lemma nth_firstn_lt {A} (l : list A) : forall i j, j < i -> nth_error (firstn i l) j = nth_error l j.
Proof. induction l as [|x l IH]; intros [|i] [|j] H; try lia; cbn; try reflexivity. apply IH. lia. Qed.
Lemma nth_skipn {A} (l : list A) : forall i j, nth_error (skipn i l) j = nth_error l (i + j).
Proof. induction l as [|x l IH]; intros [|i] j; cbn; try reflexivity; [destruct j; reflexivity|apply IH]. Qed.
Lemma set_nth_other {A} (l : list A) i j a : j <> i -> i < length l -> nth_error (set_nth l i a) j = nth_error l j.
Proof.
  intros N H. unfold set_nth. destruct (Nat.lt_ge_cases j i) as [L|L].
  - rewrite nth_error_app1 by (rewrite firstn_length; lia). apply nth_firstn_lt. exact L.
  - rewrite nth_error_app2 by (rewrite firstn_length; lia). rewrite firstn_length. replace (Nat.min i (length l)) with i by lia.
    replace (j - i) with (S (j - S i)) by lia. cbn [nth_error]. rewrite nth_skipn. f_equal. lia.
Qed.
Lemma set_byte_nth s i c : set_byte s i c = set_nth s i c. Proof. reflexivity. Qed.
Lemma list_ext {A} : forall l l' : list A, (forall i, nth_error l i = nth_error l' i) -> l = l'.
Proof.
  induction l as [|x l IH]; intros [|y l'] H; [reflexivity|specialize (H 0); discriminate|specialize (H 0); discriminate|].
  f_equal; [specialize (H 0); injection H as H; exact H|apply IH; intros i; exact (H (S i))].
Qed.

Lemma in_place_ext s s' t : (forall i, tk_off t <= i < tk_off t + length (tk_lit t) -> nth_error s i = nth_error s' i) ->
  in_place s t = in_place s' t.
Proof.
  intros H. unfold in_place. apply list_ext. intros i. destruct (Nat.lt_ge_cases i (length (tk_lit t))) as [L|L].
  - rewrite !nth_firstn_lt by exact L. rewrite !nth_skipn. apply H. lia.
  - assert (Z : forall x : gostr, nth_error (firstn (length (tk_lit t)) (skipn (tk_off t) x)) i = None).
    { intros x. apply nth_error_None. rewrite firstn_length. lia. }
    rewrite !Z. reflexivity.
Qed.

Section Run.
  Variable rnd : nat -> N.
  Variable os : nat -> oracle.
  Variable ord : order.
  Notation step := (step rnd os ord).
  Notation run := (run rnd os ord).

  (** ** What an event does to the buffers and to what has been returned *)
  (** the same buffers, with the same owners and lengths, and perhaps more *)
  Definition grown (m m' : list buffer) : Prop :=
    forall p b, nth_error m p = Some b -> exists s, nth_error m' p = Some (Buffer (b_ours b) s) /\ length s = length (b_bytes b) /\
      (b_ours b = false -> s = b_bytes b).
  Lemma grown_refl m : grown m m.
  Proof. intros p [o s] H. exists s. cbn. auto. Qed.
  Lemma grown_trans a b c : grown a b -> grown b c -> grown a c.
  Proof.
    intros H1 H2 p x H. destruct (H1 p x H) as (s & E & L & O). destruct (H2 p _ E) as (s' & E' & L' & O'). cbn in *.
    exists s'. split; [exact E'|]. split; [congruence|]. intros F. rewrite O', O by assumption. reflexivity.
  Qed.
  Lemma grown_app m x : grown m (m ++ x).
  Proof.
    intros p [o s] H. exists s. cbn. split; [|auto]. rewrite nth_error_app1; [exact H|]. apply nth_error_Some. congruence.
  Qed.
  Lemma step_facts w ev w' : step w ev = Some w' -> grown (w_mem w) (w_mem w') /\ exists more, w_got w' = w_got w ++ more.
  Proof.
    destruct ev as [s|p i c|p|s|p]; cbn [Slices.step].
    - intros [= <-]. split; [apply grown_app|]. exists []. symmetry. apply app_nil_r.
    - destruct (nth_error (w_mem w) p) as [[[] s]|] eqn:E; try discriminate. destruct (Nat.ltb_spec i (length s)) as [L|L]; [|discriminate].
      intros [= <-]. split; [|exists []; symmetry; apply app_nil_r]. cbn [w_mem]. intros q [o s'] H.
      assert (P : p < length (w_mem w)) by (apply nth_error_Some; congruence). cbn [b_ours b_bytes].
      destruct (Nat.eq_dec q p) as [->|N].
      + rewrite set_nth_same by exact P. rewrite E in H. injection H as <- <-. eexists. split; [reflexivity|].
        split; [rewrite set_byte_nth; apply set_nth_length; exact L|discriminate].
      + rewrite set_nth_other by assumption. exists s'. auto.
    - destruct (nth_error (w_mem w) p) as [[[] s]|] eqn:E; try discriminate.
      destruct (s_parse_bytes s rnd (w_drawn w)) as [[g k]|[e k]| |]; try discriminate; intros [= <-]; (split; [apply grown_refl|eexists; reflexivity]).
    - destruct (s_parse_bytes s rnd (w_drawn w)) as [[g k]|[e k]| |]; try discriminate; intros [= <-]; (split; [apply grown_app|eexists; reflexivity]).
    - destruct (nth_error (w_mem w) p) as [[[] s]|] eqn:E; try discriminate.
      destruct (s_parse_bytes s rnd (w_drawn w)) as [[g k]|[e k]| |]; try discriminate; intros [= <-]; (split; [apply grown_refl|eexists; reflexivity]).
  Qed.
  Lemma run_facts evs : forall w w', run w evs = Some w' -> grown (w_mem w) (w_mem w') /\ exists more, w_got w' = w_got w ++ more.
  Proof.
    induction evs as [|ev evs IH]; intros w w'; cbn [Slices.run].
    - intros [= <-]. split; [apply grown_refl|]. exists []. symmetry. apply app_nil_r.
    - destruct (step w ev) as [w1|] eqn:E; [|discriminate]. intros H. destruct (step_facts w ev w1 E) as (G1 & m1 & M1).
      destruct (IH w1 w' H) as (G2 & m2 & M2). split; [exact (grown_trans _ _ _ G1 G2)|]. exists (m1 ++ m2). rewrite M2, M1, app_assoc. reflexivity.
  Qed.
  (** a byte that no event stores to *)
  Lemma run_untouched p (L : nat -> Prop) evs : forall w w' s s', run w evs = Some w' ->
    (forall i c, In (EStore p i c) evs -> ~ L i) ->
    contents w p = Some s -> contents w' p = Some s' -> forall i, L i -> nth_error s i = nth_error s' i.
  Proof.
    induction evs as [|ev evs IH]; intros w w' s s'; cbn [Slices.run].
    - intros [= <-] _ H1 H2. rewrite H1 in H2. injection H2 as <-. reflexivity.
    - destruct (step w ev) as [w1|] eqn:E; [|discriminate]. intros H U H1 H2 i Hi.
      assert (K : exists s1, contents w1 p = Some s1 /\ nth_error s i = nth_error s1 i).
      { unfold contents in H1 |- *. destruct (nth_error (w_mem w) p) as [[[] x]|] eqn:E1; try discriminate. injection H1 as ->.
        destruct ev as [z|q j c|q|z|q]; cbn [Slices.step] in E.
        - injection E as <-. cbn [w_mem]. rewrite nth_error_app1 by (apply nth_error_Some; congruence). rewrite E1. eauto.
        - destruct (nth_error (w_mem w) q) as [[[] y]|] eqn:E2; try discriminate. destruct (Nat.ltb_spec j (length y)) as [L1|L1]; [|discriminate].
          injection E as <-. cbn [w_mem]. assert (Q : q < length (w_mem w)) by (apply nth_error_Some; congruence).
          destruct (Nat.eq_dec p q) as [->|N].
          + rewrite set_nth_same by exact Q. eexists. split; [reflexivity|]. rewrite E2 in E1. injection E1 as ->.
            assert (j <> i) by (intros ->; exact (U i c (or_introl eq_refl) Hi)). rewrite set_byte_nth. symmetry. apply set_nth_other; [congruence|exact L1].
          + rewrite set_nth_other by assumption. rewrite E1. eauto.
        - destruct (nth_error (w_mem w) q) as [[[] y]|] eqn:E2; try discriminate.
          destruct (s_parse_bytes y rnd (w_drawn w)) as [[g k]|[e k]| |]; try discriminate; injection E as <-; cbn [w_mem]; rewrite E1; eauto.
        - destruct (s_parse_bytes z rnd (w_drawn w)) as [[g k]|[e k]| |]; try discriminate; injection E as <-; cbn [w_mem];
            (rewrite nth_error_app1 by (apply nth_error_Some; congruence)); rewrite E1; eauto.
        - destruct (nth_error (w_mem w) q) as [[[] y]|] eqn:E2; try discriminate.
          destruct (s_parse_bytes y rnd (w_drawn w)) as [[g k]|[e k]| |]; try discriminate; injection E as <-; cbn [w_mem]; rewrite E1; eauto. }
      destruct K as (s1 & K1 & K2). rewrite K2. apply (IH w1 w' s1 s' H); [|exact K1|exact H2|exact Hi].
      intros j c Hj. apply (U j c). right. exact Hj.
  Qed.

  Lemma got_at w1 w2 w3 evs r : w_got w2 = w_got w1 ++ [r] -> run w2 evs = Some w3 -> nth_error (w_got w3) (length (w_got w1)) = Some r.
  Proof.
    intros G H. destruct (run_facts evs w2 w3 H) as (_ & more & M). rewrite M, G, <- app_assoc.
    rewrite nth_error_app2 by lia. rewrite Nat.sub_diag. reflexivity.
  Qed.
  Lemma contents_later w p s evs w' : contents w p = Some s -> run w evs = Some w' -> exists s', contents w' p = Some s' /\ length s' = length s.
  Proof.
    unfold contents. intros H R. destruct (nth_error (w_mem w) p) as [[[] x]|] eqn:E; try discriminate. injection H as ->.
    destruct (run_facts evs w w' R) as (G & _). destruct (G p _ E) as (s' & E' & L & _). cbn in *. rewrite E'. eauto.
  Qed.
  Lemma text_at P w p s e : contents w p = Some s -> text_now P (w_mem w) p e = error_text P (GoError None (look_error s e)).
  Proof. unfold contents, text_now. destruct (nth_error (w_mem w) p) as [[[] x]|]; try discriminate. intros [= ->]. reflexivity. Qed.
End Run.

(** Parse(buf) does not write to memory.  If it returns a tree, the program has this very tree after whatever it does with its
    buffers (the strings of the tree are copies).  If it returns an error, the text of the error is, at any later time, that of
    the error with the bytes that are in the buffer then. *)
Theorem C70_parse : forall rnd os ord P w p s, contents w p = Some s ->
  exists w1, step rnd os ord w (EParse p) = Some w1 /\ w_mem w1 = w_mem w /\
  forall evs w', run rnd os ord w1 evs = Some w' ->
    match parse_bytes rnd (w_drawn w) s with
    | Ok (g, _) => nth_error (w_got w') (length (w_got w)) = Some (RTree g)
    | Err e =>
        exists r now, nth_error (w_got w') (length (w_got w)) = Some (RSyntax p r) /\ contents w' p = Some now /\ length now = length s /\
          text_now P (w_mem w') p r = error_text P (GoError None (refreshed now e))
    | _ => False
    end.
Proof.
  intros rnd os ord P w p s C. pose proof (s_parse_bytes_eq s rnd (w_drawn w)) as E. cbn [Slices.step].
  assert (M : nth_error (w_mem w) p = Some (Buffer true s)).
  { unfold contents in C. destruct (nth_error (w_mem w) p) as [[[] x]|]; try discriminate. congruence. }
  rewrite M. destruct (s_parse_bytes s rnd (w_drawn w)) as [[g k]|[e k]| |]; try contradiction.
  - eexists. split; [reflexivity|]. split; [reflexivity|]. intros evs w' R. rewrite E. eapply got_at; [|exact R]. reflexivity.
  - destruct E as [E B]. eexists. split; [reflexivity|]. split; [reflexivity|]. intros evs w' R. rewrite E.
    match type of R with run _ _ _ ?x _ = _ => assert (C1 : contents x p = Some s) by exact C end.
    destruct (contents_later rnd os ord _ p s evs w' C1 R) as (now & N & L). exists e, now.
    split; [eapply got_at; [|exact R]; reflexivity|]. split; [exact N|]. split; [exact L|].
    rewrite (text_at P w' p now e N). rewrite (look_refreshed s now e B L). reflexivity.
Qed.
Print Assumptions C70_parse.

(** The same for Read(buf): the graph, and the error of the analysis, are the program's own. *)
Theorem C70_read : forall rnd os ord P w p s, contents w p = Some s ->
  exists w1, step rnd os ord w (ERead p) = Some w1 /\ w_mem w1 = w_mem w /\
  forall evs w', run rnd os ord w1 evs = Some w' ->
    match read rnd os ord (w_drawn w) s with
    | Ok (g, _) => nth_error (w_got w') (length (w_got w)) = Some (RGraph g)
    | Err (AnalyseFailed e) => nth_error (w_got w') (length (w_got w)) = Some (RAnalyse e)
    | Err (ParseFailed e) =>
        exists r now, nth_error (w_got w') (length (w_got w)) = Some (RSyntax p r) /\ contents w' p = Some now /\ length now = length s /\
          text_now P (w_mem w') p r = error_text P (GoError None (refreshed now e))
    | _ => False
    end.
Proof.
  intros rnd os ord P w p s C. pose proof (s_parse_bytes_eq s rnd (w_drawn w)) as E. cbn [Slices.step]. unfold read.
  assert (M : nth_error (w_mem w) p = Some (Buffer true s)).
  { unfold contents in C. destruct (nth_error (w_mem w) p) as [[[] x]|]; try discriminate. congruence. }
  rewrite M. destruct (s_parse_bytes s rnd (w_drawn w)) as [[a k]|[e k]| |]; try contradiction.
  - rewrite E. eexists. split; [reflexivity|]. split; [reflexivity|]. intros evs w' R.
    destruct (new_analysed_graph os ord a) as [g|e]; (eapply got_at; [|exact R]; reflexivity).
  - destruct E as [E B]. rewrite E. eexists. split; [reflexivity|]. split; [reflexivity|]. intros evs w' R.
    match type of R with run _ _ _ ?x _ = _ => assert (C1 : contents x p = Some s) by exact C end.
    destruct (contents_later rnd os ord _ p s evs w' C1 R) as (now & N & L). exists e, now.
    split; [eapply got_at; [|exact R]; reflexivity|]. split; [exact N|]. split; [exact L|].
    rewrite (text_at P w' p now e N). rewrite (look_refreshed s now e B L). reflexivity.
Qed.
Print Assumptions C70_read.

(** ParseString(s): the error keeps its text. *)
Theorem C70_string : forall rnd os ord P w s,
  exists w1, step rnd os ord w (EParseString s) = Some w1 /\
  forall evs w', run rnd os ord w1 evs = Some w' ->
    match parse_bytes rnd (w_drawn w) s with
    | Ok (g, _) => nth_error (w_got w') (length (w_got w)) = Some (RTree g)
    | Err e =>
        exists p r, nth_error (w_got w') (length (w_got w)) = Some (RSyntax p r) /\
          text_now P (w_mem w') p r = error_text P (GoError None e)
    | _ => False
    end.
Proof.
  intros rnd os ord P w s. pose proof (s_parse_bytes_eq s rnd (w_drawn w)) as E. cbn [Slices.step].
  destruct (s_parse_bytes s rnd (w_drawn w)) as [[g k]|[e k]| |]; try contradiction.
  - eexists. split; [reflexivity|]. intros evs w' R. rewrite E. eapply got_at; [|exact R]. reflexivity.
  - destruct E as [E B]. eexists. split; [reflexivity|]. intros evs w' R. rewrite E. exists (length (w_mem w)), e.
    split; [eapply got_at; [|exact R]; reflexivity|].
    destruct (run_facts rnd os ord evs _ w' R) as (G & _). cbn [w_mem] in G.
    destruct (G (length (w_mem w)) (Buffer false s)) as (s' & E' & _ & K).
    { rewrite nth_error_app2 by lia. rewrite Nat.sub_diag. reflexivity. }
    cbn in K. rewrite (K eq_refl) in E'. unfold text_now. rewrite E'. reflexivity.
Qed.
Print Assumptions C70_string.

(** When the text is still the same: exactly if the error is at the end of the input or the bytes of its token are as they were. *)
Lemma quote_inj P a b : quote P a = quote P b -> a = b.
Proof. intros H. pose proof (C49_quote P a) as A. rewrite H, C49_quote in A. congruence. Qed.
Theorem C70_same_text : forall P rnd k src e now, parse_bytes rnd k src = Err e ->
  error_text P (GoError None (refreshed now e)) = error_text P (GoError None e) <->
  tk_type (pe_token e) = EOF \/ in_place now (pe_token e) = tk_lit (pe_token e).
Proof.
  intros P rnd k src e now E. destruct (parse_expected rnd k src e E) as (s & Hs).
  unfold error_text. cbn [ge_err ge_error refreshed pe_expected pe_token tk_line tk_col].
  rewrite all_shown by (rewrite Hs; apply expected_small).
  split.
  - assert (SI : forall a b : gostr, Some a = Some b -> a = b) by congruence.
    intros H. apply SI in H. apply app_inv_head in H. apply app_inv_head in H. apply app_inv_head in H. unfold describe_token in H. cbn [tk_type tk_lit] in H.
    destruct (Nat.eqb (tk_type (pe_token e)) INVALID); [right; apply app_inv_head in H; exact (quote_inj P _ _ H)|].
    destruct (Nat.eqb_spec (tk_type (pe_token e)) EOF) as [Z|Z]; [left; exact Z|right; exact (quote_inj P _ _ H)].
  - intros H. do 3 f_equal. f_equal. unfold describe_token. cbn [tk_type tk_lit]. destruct H as [H| ->]; [|reflexivity]. rewrite H. reflexivity.
Qed.
Print Assumptions C70_same_text.

(** In particular if the program has not written there. *)
Theorem C70_untouched : forall rnd os ord P w p s e w1 evs w' , contents w p = Some s -> parse_bytes rnd (w_drawn w) s = Err e ->
  step rnd os ord w (EParse p) = Some w1 -> run rnd os ord w1 evs = Some w' -> Forall (fun ev => ~ touches p (pe_token e) ev) evs ->
  exists r, nth_error (w_got w') (length (w_got w)) = Some (RSyntax p r) /\ text_now P (w_mem w') p r = error_text P (GoError None e).
Proof.
  intros rnd os ord P w p s e w1 evs w' C E S1 R F. destruct (C70_parse rnd os ord P w p s C) as (w2 & S2 & M & K).
  rewrite S1 in S2. injection S2 as <-. specialize (K evs w' R). rewrite E in K. destruct K as (r & now & G & N & L & T).
  exists r. split; [exact G|]. rewrite T. apply (C70_same_text P rnd (w_drawn w) s e now E). right.
  assert (C1 : contents w1 p = Some s) by (unfold contents in C |- *; rewrite M; exact C).
  pose proof (s_parse_bytes_eq s rnd (w_drawn w)) as B. destruct (s_parse_bytes s rnd (w_drawn w)) as [[g k]|[e' k]| |]; try contradiction; [congruence|].
  destruct B as [B1 B2]. rewrite E in B1. injection B1 as ->. cbn [look_error pe_token] in *.
  transitivity (in_place s (look s (se_token e'))); [|exact (in_place_own s (se_token e') B2)]. apply in_place_ext. intros i Hi. symmetry.
  refine (run_untouched rnd os ord p (fun i => tk_off (look s (se_token e')) <= i < tk_off (look s (se_token e')) + length (tk_lit (look s (se_token e')))) evs w1 w' s now R _ C1 N i Hi).
  intros j c Hj Hl. rewrite List.Forall_forall in F. apply (F _ Hj). cbn [touches]. split; [reflexivity|exact Hl].
Qed.
Print Assumptions C70_untouched.

(** A program that reads requests into one buffer and reports the errors at the end: the first error quotes the second request. *)
Definition rnd0 : nat -> N := fun _ => 0%N.
Definition o0 : oracle := Oracle (fun _ m => map_to_list m) (fun _ s => elements s).
Definition fill (p : nat) (s : gostr) : list event := map (fun ic => EStore p (fst ic) (snd ic)) (combine (seq 0 (length s)) s).
Definition program : list event :=
  [ENew (lit "graph { a } first"); EParse 0] ++ fill 0 (lit "graph { b } again") ++ [EParse 0; EParseString (lit "graph { c } third")] ++
  fill 0 (lit "graph { ok }     ") ++ [EParse 0; ERead 0] ++ fill 0 (lit ".................").
Definition said (w : world) (i : nat) : option gostr :=
  match nth_error (w_got w) i with Some (RSyntax p e) => text_now (fun _ => true) (w_mem w) p e | _ => None end.
Definition final : option world := run rnd0 (fun _ => o0) (fun _ m => map_to_list m) start program.
Theorem C70_error_refuted : exists w w' evs, run rnd0 (fun _ => o0) (fun _ m => map_to_list m) start [ENew (lit "graph { a } first"); EParse 0] = Some w /\
  run rnd0 (fun _ => o0) (fun _ m => map_to_list m) w evs = Some w' /\
  said w 0 = Some (lit "1:13: error: expected ␚; got: ""first""") /\
  said w' 0 = Some (lit "1:13: error: expected ␚; got: ""again""").
Proof.
  do 2 eexists. exists (fill 0 (lit "graph { b } again")). split; [vm_compute; reflexivity|]. split; [vm_compute; reflexivity|].
  split; vm_compute; reflexivity.
Qed.
Print Assumptions C70_error_refuted.
Definition got_sizes (w : world) : list nat :=
  map (fun r => match r with RTree g => length (g_stmts g) | RGraph g => 10 + length (nodes_list (g_nodes g)) | RSyntax _ _ => 100 | RAnalyse _ => 200 end) (w_got w).
Example C70_example :
  option_map (fun w => (said w 0, said w 1, said w 2, got_sizes w)) final =
  Some (Some (lit "1:13: error: expected ␚; got: ""....."""),
        Some (lit "1:13: error: expected ␚; got: ""....."""),
        Some (lit "1:13: error: expected ␚; got: ""third"""), [100; 100; 100; 1; 11]).
Proof. vm_compute. reflexivity. Qed.
Example C70_untouched_example :
  option_map (fun w => said w 0) (run rnd0 (fun _ => o0) (fun _ m => map_to_list m) start
    ([ENew (lit "graph { a } first"); EParse 0] ++ fill 0 (lit "digraph { "))) = Some (Some (lit "1:13: error: expected ␚; got: ""first""")) /\
  Forall (fun ev => ~ touches 0 (Token 18 (lit "first") 12 1 13) ev) (fill 0 (lit "digraph { ")).
Proof.
  split; [vm_compute; reflexivity|]. unfold fill. apply Forall_map. repeat (constructor; [intros [_ [H _]]; cbn in H; lia|]). constructor.
Qed.
