(** C82 Readers, files, lexers and parsers that are used again. *)
From Coq Require Import List Ascii NArith ZArith Bool Lia Arith.
From Verif Require Import Base Ast PropsErr Lexer LexSpec LexerProofs Parser ParseFacts RecParser ErrText Conc Source SourceProofs SpecSource.
Import ListNotations.

Section Readers.
  Variable St : Type.
  Variable read : St -> nat -> gostr * io_status * St.
  Variable room : nat -> nat.

  Lemma read_all_serves st s e : serves St read st s e -> forall i acc, exists F n, F > 0 /\ forall fuel, F <= fuel ->
    read_all St read room fuel i st acc = Some (acc ++ s, e, n).
  Proof.
    revert st s e. fix IH 4. intros st s e H i acc. destruct H as [st s e H1 H2 H3].
    destruct (read st (S (room i))) as [[bs [| |m]] st'] eqn:Er.
    - destruct (H1 _ _ _ (Nat.lt_0_succ _) Er) as (Hlen & t & -> & Hs). destruct (IH _ _ _ Hs (S i) (acc ++ bs)) as (F & n & Hpos & HF). exists (S F), n. split; [lia|].
      intros fuel Hf. destruct fuel as [|fuel]; [lia|]. cbn [read_all]. rewrite Er, HF by lia. rewrite app_assoc. reflexivity.
    - destruct (H2 _ _ _ (Nat.lt_0_succ _) Er) as (_ & -> & ->). exists 1, (S i). split; [lia|]. intros fuel Hf.
      destruct fuel as [|fuel]; [lia|]. cbn [read_all]. rewrite Er. reflexivity.
    - destruct (H3 _ _ _ _ (Nat.lt_0_succ _) Er) as (_ & -> & ->). exists 1, (S i). split; [lia|]. intros fuel Hf.
      destruct fuel as [|fuel]; [lia|]. cbn [read_all]. rewrite Er. reflexivity.
  Qed.

  (** ** Parse(r): the graph or the syntax error of the text that the reader hands out, however it is cut into pieces and however
      large a buffer ReadAll uses. *)
  Theorem C82_reader : forall rnd k0 st s, serves St read st s None ->
    exists F, forall fuel, F <= fuel ->
      same_answer (parse_bytes rnd k0 s) (parse_reader St read room fuel rnd k0 st).
  Proof.
    intros rnd k0 st s H. destruct (read_all_serves st s None H 0 []) as (F & n & _ & HF). exists F. intros fuel Hf.
    unfold parse_reader. rewrite (HF fuel Hf). cbn [app]. unfold as_source.
    destruct (parse_total rnd k0 s) as [(g & k & ->)|(e & ->)]; reflexivity.
  Qed.

  (** An error of the reader is returned, and no graph, even if the bytes that came before it are a graph. *)
  Theorem C82_reader_fails : forall rnd k0 st s m, serves St read st s (Some m) ->
    exists F, forall fuel, F <= fuel -> parse_reader St read room fuel rnd k0 st = Err (SysError m).
  Proof.
    intros rnd k0 st s m H. destruct (read_all_serves st s (Some m) H 0 []) as (F & n & _ & HF). exists F. intros fuel Hf.
    unfold parse_reader. rewrite (HF fuel Hf). reflexivity.
  Qed.

  (** From a reader that never reports an end Parse does not return, whatever it delivers: not even after a text that no
      continuation can make a graph. *)
  Theorem C82_reader_endless : forall rnd k0 (P : St -> Prop),
    (forall st n, P st -> exists bs st', read st n = (bs, IoMore, st') /\ P st') ->
    forall st fuel, P st -> parse_reader St read room fuel rnd k0 st = OutOfFuel.
  Proof.
    intros rnd k0 P H st fuel Hp.
    assert (E : forall fuel i st acc, P st -> read_all St read room fuel i st acc = None).
    { induction fuel0 as [|f IH]; intros i st0 acc H0; [reflexivity|]. cbn [read_all].
      destruct (H st0 (S (room i)) H0) as (bs & st' & -> & H'). apply IH. exact H'. }
    unfold parse_reader. rewrite E by exact Hp. reflexivity.
  Qed.

  (** ** ParseFile *)
  (** If the file cannot be opened, that error is returned and nothing else is done. *)
  Theorem C82_open_fails : forall rnd k0 fuel open path m, open path = OpenFails m ->
    parse_file St read room fuel rnd k0 open path = (Err (SysError m), [COpen path]).
  Proof. intros rnd k0 fuel open path m E. unfold parse_file. rewrite E. reflexivity. Qed.

  (** A file that has been opened is closed exactly once, after the last read, whatever reading and parsing give (a parse never
      panics).  If closing fails, that error is returned in place of the graph or of any other error.  Otherwise the error of
      reading is returned, or the graph or syntax error of the text; a syntax error does not name the file. *)
  Theorem C82_file : forall rnd k0 open path st close s e, open path = Opened st close -> serves St read st s e ->
    exists F n r, (forall fuel, F <= fuel ->
      parse_file St read room fuel rnd k0 open path = (r, COpen path :: repeat CRead n ++ [CClose])) /\
      match close, e with
      | Some m, _ => r = Err (SysError m)
      | None, Some m => r = Err (SysError m)
      | None, None => same_answer (parse_bytes rnd k0 s) r
      end.
  Proof.
    intros rnd k0 open path st close s e E H. destruct (read_all_serves st s e H 0 []) as (F & n & _ & HF). exists F, n.
    unfold parse_file, parse_reader. rewrite E. destruct e as [m|].
    - exists (Err (SysError (match close with Some m' => m' | None => m end))). split; [|destruct close; reflexivity].
      intros fuel Hf. rewrite (HF fuel Hf). destruct close; reflexivity.
    - exists (match close with Some m => Err (SysError m) | None => as_source (parse_bytes rnd k0 s) end). unfold as_source. cbn [app] in HF.
      destruct (parse_total rnd k0 s) as [(g & k & Ep)|(e & Ep)]; rewrite Ep; (split; [intros fuel Hf; rewrite (HF fuel Hf); cbn [app]; rewrite Ep|]; destruct close; reflexivity).
  Qed.
End Readers.
Print Assumptions C82_reader.
Print Assumptions C82_reader_fails.
Print Assumptions C82_reader_endless.
Print Assumptions C82_open_fails.
Print Assumptions C82_file.

(** Readers of these kinds there are: of every text ... *)
Example C82_text_reader : forall s, serves gostr text_read s s None.
Proof.
  intros s. remember (length s) as n eqn:E. revert s E. induction n as [n IH] using lt_wf_ind. intros s ->.
  constructor; intros k bs; [intros st' Hk H|intros st' Hk H|intros m st' Hk H]; destruct s as [|b s]; cbn [text_read] in H; inversion H; subst.
  - split; [rewrite firstn_length; lia|]. exists (skipn k (b :: s)). split; [symmetry; apply firstn_skipn|].
    eapply IH; [|reflexivity]. rewrite skipn_length. cbn [length]. lia.
  - cbn. repeat split; lia.
Qed.
(** ... and with every way to cut it into pieces and every end. *)
Lemma pieces_serves : forall ps e, serves (list gostr * option gostr) pieces_read (ps, e) (concat ps) e.
Proof.
  intros ps e. induction ps as [|p ps IHps].
  - destruct e as [m|]; constructor; intros k bs; intros; cbn [pieces_read] in *; try discriminate;
      match goal with H : _ = _ |- _ => inversion H; subst end; cbn; repeat split; lia.
  - remember (length p) as n eqn:E. revert p E. induction n as [n IH] using lt_wf_ind. intros p ->.
    constructor; intros k bs; [intros st' Hk H|intros st' Hk H|intros m st' Hk H]; cbn [pieces_read] in H;
      destruct (Nat.leb_spec (length p) k) as [L|L]; inversion H; subst.
    + split; [exact L|]. exists (concat ps). split; [reflexivity|exact IHps].
    + split; [rewrite firstn_length; lia|]. exists (concat (skipn k p :: ps)). split.
      * cbn [concat]. rewrite app_assoc, firstn_skipn. reflexivity.
      * eapply IH; [|reflexivity]. rewrite skipn_length. lia.
Qed.
Example C82_pieces_reader : forall ps e, serves (list gostr * option gostr) pieces_read (ps, e) (concat ps) e.
Proof. exact pieces_serves. Qed.

(** So a text may be cut anywhere, in the middle of a name or of a character. *)
Theorem C82_chunks : forall rnd k0 room ps,
  exists F, forall fuel, F <= fuel ->
    same_answer (parse_bytes rnd k0 (concat ps)) (parse_reader _ pieces_read room fuel rnd k0 (ps, None)).
Proof. intros rnd k0 room ps. apply C82_reader. apply pieces_serves. Qed.
Print Assumptions C82_chunks.

(** ParseFile may return a graph or a syntax error, but not if Close fails: the syntax error is lost. *)
Definition broken_file (path : gostr) : opened gostr := Opened (lit "graph {") (Some (lit "close: input/output error")).
Theorem C82_close_refuted : exists F, forall fuel, F <= fuel ->
  fst (parse_file gostr text_read (fun _ => 511) fuel (fun _ => 0%N) 0 broken_file (lit "a.gv")) = Err (SysError (lit "close: input/output error")) /\
  exists e, parse_bytes (fun _ => 0%N) 0 (lit "graph {") = Err e.
Proof.
  destruct (C82_file gostr text_read (fun _ => 511) (fun _ => 0%N) 0 broken_file (lit "a.gv") _ _ _ _ eq_refl (C82_text_reader (lit "graph {"))) as (F & n & r & H & ->).
  exists F. intros fuel Hf. rewrite (H fuel Hf). split; [reflexivity|].
  destruct (parse_bytes (fun _ => 0%N) 0 (lit "graph {")) as [x|e| |] eqn:E; [|exists e; reflexivity| |]; exfalso; revert E; vm_compute; discriminate.
Qed.

(** ** Lexers and parsers that are used again *)

(** The name of the file in front of the text of the error. *)
Theorem C82_lexer_file : forall rnd k0 p path bs P,
  exists l, new_lexer_file (inl bs) path = inr l /\
  match parse_bytes rnd k0 bs with
  | Ok x => fst (fst (parse_with rnd k0 p l)) = Ok x
  | Err e => exists m, error_text P (GoError None e) = Some m /\
      fst (fst (parse_with rnd k0 p l)) = Err (e, Some path) /\ full_error_text P e (Some path) = Some (path ++ lit ":" ++ m)
  | _ => False
  end.
Proof.
  intros rnd k0 p path bs P. eexists. split; [reflexivity|].
  pose proof (parse_with_sim rnd k0 p (SrcLexer bs 0 1 1 (Some path)) eq_refl) as H. cbn [sl_src sl_ctx sl_line sl_col] in H.
  destruct (parse_bytes rnd k0 bs) as [x|e| |] eqn:E; try exact H. destruct H as (e' & H1 & H2 & H3 & H4).
  apply tsim_pos in H2. destruct H2 as (A1 & A2 & A3 & A4 & A5).
  assert (Ee : e' = e).
  { destruct e as [[ty li off line col] ex s], e' as [[ty' li' off' line' col'] ex' s']. cbn [pe_token pe_expected pe_stack_top tk_type tk_lit tk_off tk_line tk_col] in *.
    destruct (existsb _ _); f_equal; try assumption; f_equal; try assumption; lia. }
  subst e'.
  assert (R : rec_parse_bytes (fun _ => []) rnd k0 bs = Err (GoError None e)) by (apply C01_recovery; exists e; auto).
  destruct (C49_message P _ _ _ _ _ R) as (ts & t & ts' & tys & ex & got & line & col & _ & _ & _ & _ & _ & _ & _ & _ & _ & Em).
  eexists. split; [exact Em|]. split; [exact H1|]. unfold full_error_text. rewrite Em. reflexivity.
Qed.
Print Assumptions C82_lexer_file.

Lemma uses_src rnd : forall us s, sl_src (snd (do_uses rnd s us)) = sl_src (snd s) /\ sl_ctx (snd (do_uses rnd s us)) = sl_ctx (snd s).
Proof.
  induction us as [|u us IH]; intros [p l]; [auto|]. unfold do_uses in *. cbn [fold_left]. destruct (IH (do_use rnd (p, l) u)) as [-> ->].
  destruct u as [| |k]; cbn [do_use].
  - unfold src_scan. destruct (scan (lx_of l)) as [[t x]|]; auto.
  - auto.
  - unfold parse_with, src_scan. destruct (scan (lx_of l)) as [[t x]|]; [|auto].
    destruct (rounds _ _ _ _) as [r [[st t'] x']]. auto.
Qed.

(** Whatever has been done with a parser and a lexer before (tokens scanned, texts parsed with or without success, resets), after
    Reset a parse gives the graph that a new parser and a new lexer give.  A syntax error is the same, but for the line and the
    column: Reset goes back to the beginning of the text and leaves line and column as they are, so that lines are counted on from
    the line where the lexer was, and columns, up to the first line break, from the column where it was. *)
Theorem C82_again : forall rnd k0 src ctx us p l,
  do_uses rnd ([(0, VNil)], SrcLexer src 0 1 1 ctx) (us ++ [UReset]) = (p, l) ->
  match parse_bytes rnd k0 src with
  | Ok x => fst (fst (parse_with rnd k0 p l)) = Ok x
  | Err e =>
      let t := pe_token e in
      exists e', fst (fst (parse_with rnd k0 p l)) = Err (e', ctx) /\
        pe_expected e' = pe_expected e /\ pe_stack_top e' = pe_stack_top e /\
        let t' := pe_token e' in
        tk_type t' = tk_type t /\ tk_lit t' = tk_lit t /\ tk_off t' = tk_off t /\
        tk_line t' + 1 = tk_line t + sl_line l /\
        (has_break (runes_of (pieces (firstn (tk_off t) src))) -> tk_col t' = tk_col t) /\
        (~ has_break (runes_of (pieces (firstn (tk_off t) src))) -> tk_col t' + 1 = tk_col t + sl_col l)
  | _ => False
  end.
Proof.
  intros rnd k0 src ctx us p l E.
  assert (E0 : sl_pos l = 0).
  { unfold do_uses in E. rewrite fold_left_app in E. cbn [fold_left] in E. destruct (fold_left _ us _) as [p1 l1]. cbn [do_use] in E. injection E as _ <-. reflexivity. }
  destruct (uses_src rnd (us ++ [UReset]) ([(0, VNil)], SrcLexer src 0 1 1 ctx)) as [Es Ec]. rewrite E in Es, Ec. cbn [snd sl_src sl_ctx] in Es, Ec.
  pose proof (parse_with_sim rnd k0 p l E0) as H. rewrite Es, Ec in H. destruct (parse_bytes rnd k0 src) as [x|e| |]; try exact H.
  destruct H as (e' & H1 & H2 & H3 & H4). cbv zeta. exists e'. split; [exact H1|]. split; [exact H3|]. split; [exact H4|].
  apply tsim_pos in H2. destruct H2 as (A1 & A2 & A3 & A4 & A5). do 4 (split; [assumption|]).
  assert (B : existsb is_break (runes_of (pieces (firstn (tk_off (pe_token e)) src))) = true <-> has_break (runes_of (pieces (firstn (tk_off (pe_token e)) src)))).
  { generalize (runes_of (pieces (firstn (tk_off (pe_token e)) src))). intros w. rewrite existsb_exists. unfold has_break, is_break. split.
    - intros (r & Hi & Hr). apply orb_true_iff in Hr. rewrite !N.eqb_eq in Hr. destruct Hr as [->| ->]; auto.
    - intros [Hi|Hi]; eexists; (split; [exact Hi|reflexivity]). }
  destruct (existsb _ _); split; intros Hb; try exact A5; exfalso.
  - apply Hb, B. reflexivity.
  - pose proof (proj2 B Hb). discriminate.
Qed.
Print Assumptions C82_again.

(** Without Reset a lexer that has been parsed with success is at the end of its text: another parse fails there, whatever the text. *)
Theorem C82_without_reset : forall rnd k0 p l x p' l', parse_with rnd k0 p l = (Ok x, p', l') ->
  forall k1, exists e, fst (fst (parse_with rnd k1 p' l')) = Err (e, sl_ctx l) /\ tk_type (pe_token e) = EOF /\
    map tok_id (pe_expected e) = [lit "graphx"; lit "strict"; lit "digraph"].
Proof.
  intros rnd k0 p l x p' l' H k1. destruct (parse_with_end _ _ _ _ _ _ _ H) as [E1 E2].
  rewrite (parse_with_nothing rnd k1 p' l' E1), E2. eexists. split; [reflexivity|]. split; [reflexivity|]. vm_compute. reflexivity.
Qed.
Print Assumptions C82_without_reset.

(** ** Cases *)
Definition bad_text : gostr := lit "graph {" ++ [nl] ++ lit " a -- }".
Definition said (r : res (parse_error * option gostr) (graph * nat)) : option gostr :=
  match r with Err (e, ctx) => full_error_text (fun _ => true) e ctx | _ => None end.
(** The text of the error changes from one parse to the next: 2:7, then 3:7, then 4:7. *)
Theorem C82_reset_refuted :
  map (fun us => let '(p, l) := do_uses (fun _ => 0%N) ([(0, VNil)], SrcLexer bad_text 0 1 1 (Some (lit "a.gv"))) us in said (fst (fst (parse_with (fun _ => 0%N) 0 p l))))
    [[]; [UParse 0; UReset]; [UParse 0; UReset; UParse 0; UReset]] =
  [Some (lit "a.gv:2:7: error: expected one of ""{"", subgraph or id; got: ""}""");
   Some (lit "a.gv:3:7: error: expected one of ""{"", subgraph or id; got: ""}""");
   Some (lit "a.gv:4:7: error: expected one of ""{"", subgraph or id; got: ""}""")].
Proof. vm_compute. reflexivity. Qed.
(** A text that is a graph is one again after Reset, and an error without it. *)
Example C82_again_example :
  map (fun us => let '(p, l) := do_uses (fun _ => 0%N) ([(0, VNil)], new_src_lexer (lit "graph { a }")) us in
     match fst (fst (parse_with (fun _ => 0%N) 0 p l)) with Ok _ => None | r => said r end)
    [[UParse 0; UReset]; [UScan; UReset; UScan; UScan; UReset]; [UParse 0]; [UScan]] =
  [None; None; Some (lit "1:12: error: expected one of graphx, strict or digraph; got: end-of-file");
   Some (lit "1:7: error: expected one of graphx, strict or digraph; got: ""{""")].
Proof. vm_compute. reflexivity. Qed.
(** A graph followed by an error of the reader *)
Example C82_reader_example : forall room, exists F, forall fuel, F <= fuel ->
  parse_reader _ pieces_read room fuel (fun _ => 0%N) 0 ([lit "gra"; []; lit "ph { a }"], Some (lit "connection reset")) = Err (SysError (lit "connection reset")).
Proof. intros room. apply (C82_reader_fails _ _ room _ _ _ _ _ (pieces_serves _ _)). Qed.
Print Assumptions C82_close_refuted.
Print Assumptions C82_reset_refuted.
