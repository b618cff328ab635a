(** Scan computes the maximal-munch token sequence of LexSpec.v. *)
From Coq Require Import List Ascii NArith ZArith Bool Lia Arith.
From Verif Require Import Base LexTables Lexer LexSpec LexDfa Parser ParserDefs.
Import ListNotations.
Local Opaque bisim_set spec_vec trans_tab act_tab bounds reps.

(** ** decode_rune *)
Lemma bv_bound a : (bv a < 256)%N.
Proof. unfold bv. destruct a as [[] [] [] [] [] [] [] []]; vm_compute; reflexivity. Qed.

Lemma in_range_spec lo hi x : in_range lo hi x = true <-> (lo <= x <= hi)%N.
Proof. unfold in_range. rewrite andb_true_iff, !N.leb_le. tauto. Qed.

Lemma decode_spec s : s <> [] ->
  let '(r, k) := decode_rune s in 1 <= k <= length s /\ (r <= max_rune)%N.
Proof.
  intros Hs. destruct s as [|a0 s1]; [congruence|]. cbn [decode_rune].
  pose proof (bv_bound a0) as B0. unfold max_rune, rune_error.
  destruct (N.ltb_spec (bv a0) 128); [cbn; lia|].
  destruct (in_range 194 223 (bv a0)) eqn:E1.
  { destruct s1 as [|a1 s2]; [cbn; lia|]. pose proof (bv_bound a1) as B1. apply in_range_spec in E1.
    destruct (is_cont a1); cbn [length]; lia. }
  destruct (in_range 224 239 (bv a0)) eqn:E2.
  { destruct s1 as [|a1 [|a2 s3]]; try (cbn; lia). pose proof (bv_bound a1) as B1. pose proof (bv_bound a2) as B2.
    apply in_range_spec in E2. destruct (second_ok (bv a0) a1 && is_cont a2); cbn [length]; lia. }
  destruct (in_range 240 244 (bv a0)) eqn:E3; [|cbn; lia].
  destruct s1 as [|a1 [|a2 [|a3 s4]]]; try (cbn; lia).
  pose proof (bv_bound a2) as B2. pose proof (bv_bound a3) as B3.
  apply in_range_spec in E3.
  destruct (second_ok (bv a0) a1 && is_cont a2 && is_cont a3) eqn:E4; [|cbn; lia].
  rewrite !andb_true_iff in E4. destruct E4 as [[E4 E5] E6].
  unfold is_cont in E5, E6. apply in_range_spec in E5, E6.
  cbn [length]. split; [lia|].
  unfold second_ok in E4.
  destruct (N.eqb_spec (bv a0) 224); [lia|]. destruct (N.eqb_spec (bv a0) 237); [lia|].
  destruct (N.eqb_spec (bv a0) 240); [apply in_range_spec in E4; lia|].
  destruct (N.eqb_spec (bv a0) 244); [apply in_range_spec in E4; lia|].
  unfold is_cont in E4. apply in_range_spec in E4. lia.
Qed.

(** ** pieces *)
Lemma pieces_f_enough : forall n m s, length s <= n -> length s <= m -> pieces_f n s = pieces_f m s.
Proof.
  induction n as [|n IH]; intros m s Hn Hm.
  - destruct s; [|cbn in Hn; lia]. destruct m; reflexivity.
  - destruct s as [|a s]; [destruct m; reflexivity|]. destruct m as [|m]; [cbn in Hm; lia|].
    cbn [pieces_f]. pose proof (decode_spec (a :: s) ltac:(discriminate)) as D.
    destruct (decode_rune (a :: s)) as [r k]. destruct D as [D _].
    f_equal. apply IH; rewrite skipn_length; cbn [length] in *; lia.
Qed.

Lemma pieces_cons s r k : s <> [] -> decode_rune s = (r, k) ->
  pieces s = (r, firstn k s) :: pieces (skipn k s).
Proof.
  intros Hs E. unfold pieces. destruct s as [|a s]; [congruence|].
  cbn [length pieces_f]. rewrite E. f_equal.
  pose proof (decode_spec (a :: s) Hs) as D. rewrite E in D. destruct D as [D _].
  apply pieces_f_enough; rewrite skipn_length; cbn [length] in *; lia.
Qed.

Lemma pieces_ind (P : gostr -> Prop) : P [] ->
  (forall s r k, s <> [] -> decode_rune s = (r, k) -> P (skipn k s) -> P s) -> forall s, P s.
Proof.
  intros H0 HS s. remember (length s) as n eqn:En. assert (L : length s <= n) by lia. clear En.
  revert s L. induction n as [|n IH]; intros s L.
  - destruct s; [exact H0|cbn in L; lia].
  - destruct s as [|a s]; [exact H0|].
    destruct (decode_rune (a :: s)) as [r k] eqn:E.
    pose proof (decode_spec (a :: s) ltac:(discriminate)) as D. rewrite E in D. destruct D as [D _].
    eapply HS; [discriminate|exact E|]. apply IH. rewrite skipn_length. cbn [length] in *. lia.
Qed.

Lemma text_pieces s : text (pieces s) = s.
Proof.
  induction s as [|s r k Hs E IH] using pieces_ind; [reflexivity|].
  rewrite (pieces_cons s r k Hs E). unfold text in *. cbn [map snd concat]. rewrite IH. apply firstn_skipn.
Qed.

Lemma pieces_small s : small (runes_of (pieces s)).
Proof.
  induction s as [|s r k Hs E IH] using pieces_ind; [constructor|].
  rewrite (pieces_cons s r k Hs E). constructor; [|exact IH]. cbn.
  pose proof (decode_spec s Hs) as D. rewrite E in D. apply D.
Qed.

Lemma text_app a b : text (a ++ b) = text a ++ text b.
Proof. unfold text. rewrite map_app, concat_app. reflexivity. Qed.
Lemma runes_of_app a b : runes_of (a ++ b) = runes_of a ++ runes_of b.
Proof. apply map_app. Qed.
Lemma advance_app p a b : advance p (a ++ b) = advance (advance p a) b.
Proof. apply fold_left_app. Qed.
Lemma p_off_advance u : forall p, p_off (advance p u) = p_off p + length (text u).
Proof.
  induction u as [|[r bs] u IH]; intros p; [cbn; lia|].
  cbn [advance fold_left]. fold (advance (step_pos p (r, bs)) u). rewrite IH. unfold text. cbn. rewrite app_length. lia.
Qed.

(** ** Longest matches and the DFA *)
Lemma longest_intro u rest c s :
  small (runes_of (u ++ rest)) -> u <> [] -> dfa_run 0 (runes_of u) = Some s -> label s = [c] ->
  match rest with [] => True | x :: _ => trans s (fst x) = None end ->
  longest (u ++ rest) u rest c.
Proof.
  intros Hsm Hu Hr Hl Hn. rewrite runes_of_app in Hsm. apply small_app in Hsm. destruct Hsm as [Hsu Hsr].
  split; [reflexivity|]. split; [exact Hu|]. split.
  - apply dfa_correct; [exact Hsu|]. exists s. auto.
  - intros u' rest' c' E Hu' Hlex. destruct (Nat.le_gt_cases (length u') (length u)) as [L|L]; [exact L|exfalso].
    assert (Hx : exists x l, u' = u ++ x :: l).
    { assert (E1 : firstn (length u) (u' ++ rest') = u).
      { rewrite <- E, firstn_app, firstn_all, Nat.sub_diag. cbn. apply app_nil_r. }
      rewrite firstn_app in E1. replace (length u - length u') with 0 in E1 by lia. cbn in E1.
      rewrite app_nil_r in E1. exists (nth (length u) u' (0%N, [])), (skipn (S (length u)) u').
      rewrite <- E1 at 1. rewrite <- (firstn_skipn (length u) u') at 1. f_equal.
      clear - L. revert u' L. induction u as [|y u IH]; intros [|z u'] L; cbn in *; try lia; [reflexivity|].
      apply IH. lia. }
    destruct Hx as (x & l & ->). rewrite <- app_assoc in E. apply app_inv_head in E. subst rest.
    cbn [app] in Hn. 
    assert (Hs' : small (runes_of (u ++ x :: l))).
    { rewrite runes_of_app. apply small_app. split; [exact Hsu|].
      change ((x :: l) ++ rest') with ((x :: l) ++ rest') in Hsr. rewrite runes_of_app in Hsr.
      apply small_app in Hsr. apply Hsr. }
    apply dfa_correct in Hlex; [|exact Hs']. destruct Hlex as (s' & Hr' & _).
    rewrite runes_of_app, dfa_run_app, Hr in Hr'. cbn in Hr'. rewrite Hn in Hr'. discriminate.
Qed.

(** All non-empty prefixes of [u] are unlabelled when [u] ends in an unlabelled state. *)
Lemma unlabelled_prefix u1 u2 s : dfa_run 0 (runes_of (u1 ++ u2)) = Some s -> label s = [] ->
  exists s1, dfa_run 0 (runes_of u1) = Some s1 /\ label s1 = [].
Proof.
  revert s. induction u2 as [|x u2 IH] using rev_ind; intros s Hr Hl.
  - rewrite app_nil_r in Hr. eauto.
  - rewrite app_assoc, runes_of_app, dfa_run_app in Hr.
    destruct (dfa_run 0 (runes_of (u1 ++ u2))) as [s0|] eqn:E0; [|discriminate].
    cbn in Hr. destruct (trans s0 (fst x)) as [s1|] eqn:Et; [|discriminate]. injection Hr as <-.
    destruct (label_step _ _ _ Et) as [_ Hls].
    destruct (label s0) as [|c l] eqn:El.
    + apply (IH s0); auto.
    + destruct Hls as [_ [ty Ety]]. congruence.
Qed.

Lemma no_lexeme_prefix u s : small (runes_of u) -> dfa_run 0 (runes_of u) = Some s -> label s = [] ->
  forall u' v' c', u = u' ++ v' -> ~ is_lexeme (runes_of u') c'.
Proof.
  intros Hsm Hr Hl u' v' c' -> Hlex.
  destruct (unlabelled_prefix u' v' s Hr Hl) as (s1 & Hr1 & Hl1).
  rewrite runes_of_app in Hsm. apply small_app in Hsm. destruct Hsm as [Hsm _].
  apply dfa_correct in Hlex; [|exact Hsm]. destruct Hlex as (s2 & Hr2 & Hl2). congruence.
Qed.

(** ** One call of Scan *)
Definition mk_tok (ty : nat) (l : gostr) (p : position) : token := Token ty l (p_off p) (p_line p) (p_col p).
Definition mk_lex (rest : gostr) (p : position) : lexer := Lexer rest (p_off p) (p_line p) (p_col p).

Inductive scanned : position -> list piece -> token -> lexer -> Prop :=
| sc_eof p : scanned p [] (mk_tok EOF [] p) (mk_lex [] p)
| sc_skip p ps u rest t lx :
    longest ps u rest Skip -> scanned (advance p u) rest t lx -> scanned p ps t lx
| sc_tok p ps u rest ty :
    longest ps u rest (Tok ty) -> ty <> EOF -> ty <> INVALID ->
    scanned p ps (mk_tok ty (text u) p) (mk_lex (text rest) (advance p u))
| sc_bad p u c rest lx :
    (forall u' v' c', u ++ [c] = u' ++ v' -> u' <> [] -> ~ is_lexeme (runes_of u') c') ->
    viable (runes_of u) -> ~ viable (runes_of (u ++ [c])) ->
    scanned p (u ++ c :: rest) (mk_tok INVALID (text (u ++ [c])) p) lx
| sc_trunc p u lx :
    u <> [] -> (forall u' v' c', u = u' ++ v' -> u' <> [] -> ~ is_lexeme (runes_of u') c') ->
    viable (runes_of u) ->
    scanned p u (mk_tok INVALID (text u) p) lx.

Lemma act_cases : forallb (fun s => let '(acc, ign) := act s in
   (Z.eqb acc (-1) && ign) || (Z.leb 0 acc && negb (Z.eqb acc 1))) (seq 0 141) = true.
Proof. vm_compute. reflexivity. Qed.

Lemma act_case s : s < 141 ->
  (act s = ((-1)%Z, true) /\ label s = [Skip]) \/
  (exists n ign, act s = (Z.of_nat n, ign) /\ n <> 1 /\ label s = match n with O => [] | _ => [Tok n] end).
Proof.
  intros L. pose proof act_cases as C. rewrite forallb_forall in C. specialize (C s).
  assert (C' := C (proj2 (in_seq 141 0 s) ltac:(lia))). clear C. unfold label. destruct (act s) as [acc ign].
  apply orb_true_iff in C'. destruct C' as [C|C].
  - left. apply andb_true_iff in C. destruct C as [C ->]. apply Z.eqb_eq in C. subst. auto.
  - right. apply andb_true_iff in C. destruct C as [C1 C2]. apply Z.leb_le in C1.
    apply negb_true_iff, Z.eqb_neq in C2.
    exists (Z.to_nat acc), ign. rewrite Z2Nat.id by exact C1. split; [reflexivity|]. split; [lia|].
    destruct (Z.eqb_spec acc (-1)); [lia|]. destruct (Z.eqb_spec acc 0) as [->|]; [reflexivity|].
    destruct (Z.to_nat acc) eqn:E; [lia|]. reflexivity.
Qed.

(** The state of the loop: [u] has been read since [start]. *)
Definition loop_inv (u : list piece) (rest : gostr) (state pos endp ty start : nat) : Prop :=
  (u = [] /\ endp <= start /\ ((ty = INVALID /\ rest <> []) \/ (ty = EOF /\ rest = []))) \/
  (u <> [] /\ endp = pos /\ ty <> EOF /\ label state = match ty with O => [] | _ => [Tok ty] end).

Lemma firstn_text (u : list piece) x : firstn (length (text u)) (text u ++ x) = text u.
Proof. rewrite firstn_app, firstn_all, Nat.sub_diag. cbn. apply app_nil_r. Qed.
Lemma skipn_text (u : list piece) x : skipn (length (text u)) (text u ++ x) = x.
Proof. rewrite skipn_app, skipn_all, Nat.sub_diag. reflexivity. Qed.

(** Pieces are never empty. *)
Lemma pieces_nonempty s : Forall (fun p : piece => snd p <> []) (pieces s).
Proof.
  induction s as [|s r k Hs E IH] using pieces_ind; [constructor|].
  rewrite (pieces_cons s r k Hs E). constructor; [|exact IH]. cbn.
  pose proof (decode_spec s Hs) as D. rewrite E in D. destruct D as [D _].
  destruct s; [congruence|]. destruct k; [lia|]. discriminate.
Qed.
Lemma text_pos u : Forall (fun p : piece => snd p <> []) u -> u <> [] -> 0 < length (text u).
Proof.
  intros H Hu. destruct H as [|[r bs] u Hx _]; [congruence|]. unfold text. cbn. rewrite app_length.
  cbn in Hx. destruct bs; [congruence|cbn; lia].
Qed.

Lemma scan_loop_S fuel state b rest0 pos line col srest start sline scol endp ty :
  scan_loop (S fuel) state (b :: rest0) pos line col srest start sline scol endp ty =
  let '(r, n) := decode_rune (b :: rest0) in
  let rest' := skipn n (b :: rest0) in
  let pos' := pos + n in
  match trans state r with
  | None =>
      let endp' := if Nat.eqb ty INVALID then pos' else endp in
      Some (scan_finish rest' pos' line col srest start sline scol endp' ty)
  | Some st' =>
      let line' := next_line r line in
      let col' := next_col r col in
      let '(acc, ign) := act st' in
      if negb (Z.eqb acc (-1)) then
        scan_loop fuel st' rest' pos' line' col' srest start sline scol pos' (Z.to_nat acc)
      else if ign then
        scan_loop fuel 0 rest' pos' line' col' rest' pos' line' col' endp
                  (match rest' with [] => EOF | _ => ty end)
      else scan_loop fuel st' rest' pos' line' col' srest start sline scol endp ty
  end.
Proof. reflexivity. Qed.

Lemma scan_loop_spec : forall fuel p u rest state endp ty,
  length rest < fuel ->
  dfa_run 0 (runes_of u) = Some state -> (u = [] -> state = 0) ->
  pieces (text u ++ rest) = u ++ pieces rest ->
  loop_inv u rest state (p_off p + length (text u)) endp ty (p_off p) ->
  exists t lx,
    scan_loop fuel state rest (p_off p + length (text u)) (p_line (advance p u)) (p_col (advance p u))
              (text u ++ rest) (p_off p) (p_line p) (p_col p) endp ty = Some (t, lx) /\
    scanned p (u ++ pieces rest) t lx.
Proof.
  induction fuel as [|fuel IH]; intros p u rest state endp ty Hf Hrun Hst Hps Hinv; [lia|].
  assert (Hsm : small (runes_of (u ++ pieces rest))) by (rewrite <- Hps; apply pieces_small).
  assert (Hne : Forall (fun p : piece => snd p <> []) (u ++ pieces rest)) by (rewrite <- Hps; apply pieces_nonempty).
  assert (Hneu : Forall (fun p : piece => snd p <> []) u) by (apply Forall_app in Hne; apply Hne).
  assert (Hsmu : small (runes_of u)).
  { rewrite runes_of_app in Hsm. apply small_app in Hsm. apply Hsm. }
  destruct rest as [|b rest0] eqn:Erest.
  - (* end of input *)
    cbn [scan_loop]. cbn [pieces length pieces_f] in *. rewrite app_nil_r in *.
    destruct Hinv as [(-> & Hend & [[_ Hr]|[-> _]])|(Hu & -> & Hty & Hlab)]; [congruence| |].
    + cbn [text map concat length]. unfold scan_finish. rewrite Nat.add_0_r.
      replace (Nat.eqb EOF INVALID) with false by reflexivity.
      replace (Nat.ltb (p_off p) endp) with false by (symmetry; apply Nat.ltb_ge; lia).
      do 2 eexists. split; [reflexivity|]. cbn. constructor.
    + pose proof (text_pos u Hneu Hu) as Hpos. unfold scan_finish.
      match goal with |- context [if Nat.eqb ty INVALID then ?x else ?x] =>
        replace (if Nat.eqb ty INVALID then x else x) with x by (destruct (Nat.eqb ty INVALID); reflexivity) end.
      replace (Nat.ltb (p_off p) (p_off p + length (text u))) with true by (symmetry; apply Nat.ltb_lt; lia).
      replace (p_off p + length (text u) - p_off p) with (length (text u)) by lia.
      rewrite firstn_all, skipn_all.
      do 2 eexists. split; [reflexivity|]. rewrite ?app_nil_r.
      destruct ty as [|ty].
      * apply (sc_trunc p u).
        -- exact Hu.
        -- intros u' v' c' E _. exact (no_lexeme_prefix u state Hsmu Hrun Hlab u' v' c' E).
        -- apply dfa_viable; [exact Hsmu|]. congruence.
      * rewrite <- p_off_advance.
        change (Lexer [] (p_off (advance p u)) (p_line (advance p u)) (p_col (advance p u)))
          with (mk_lex (text []) (advance p u)).
        apply (sc_tok p u u [] (S ty)); [|exact Hty|discriminate].
        rewrite <- (app_nil_r u) at 1. apply (longest_intro u [] _ state); auto. rewrite app_nil_r. exact Hsmu.
  - (* one more rune *)
    rewrite scan_loop_S. destruct (decode_rune (b :: rest0)) as [r k] eqn:Edec.
    pose proof (pieces_cons (b :: rest0) r k ltac:(discriminate) Edec) as Hpc.
    pose proof (decode_spec (b :: rest0) ltac:(discriminate)) as D. rewrite Edec in D. destruct D as [Dk Dr].
    set (c := (r, firstn k (b :: rest0))) in *. set (rest' := skipn k (b :: rest0)) in *.
    assert (Hlen : length (snd c) = k) by (subst c; cbn [snd]; apply firstn_length_le; lia).
    assert (Hcr : snd c ++ rest' = b :: rest0) by (apply firstn_skipn).
    assert (Htc : text (u ++ [c]) = text u ++ snd c).
    { rewrite text_app. f_equal. unfold text. cbn. apply app_nil_r. }
    assert (Hsmc : small (runes_of (u ++ [c]))).
    { rewrite Hpc in Hsm. change (c :: pieces rest') with ([c] ++ pieces rest') in Hsm.
      rewrite app_assoc, runes_of_app in Hsm. apply small_app in Hsm. apply Hsm. }
    destruct (trans state r) as [st'|] eqn:Etr.
    + (* live transition *)
      destruct (trans_bound _ _ _ Etr) as [Lst Lst'].
      assert (Hrun' : dfa_run 0 (runes_of (u ++ [c])) = Some st').
      { rewrite runes_of_app, dfa_run_app, Hrun. cbn. rewrite Etr. reflexivity. }
      assert (Hline : next_line r (p_line (advance p u)) = p_line (advance p (u ++ [c]))).
      { rewrite advance_app. cbn. unfold next_line. destruct (N.eqb r 10); lia. }
      assert (Hcol : next_col r (p_col (advance p u)) = p_col (advance p (u ++ [c]))).
      { rewrite advance_app. cbn. unfold next_col. destruct (N.eqb r 10); [reflexivity|].
        destruct (N.eqb r 13); [reflexivity|]. cbn. destruct (N.eqb r 9); lia. }
      assert (Hpos' : p_off p + length (text u) + k = p_off p + length (text (u ++ [c]))).
      { rewrite Htc, app_length, Hlen. lia. }
      assert (Hsrc : text u ++ b :: rest0 = text (u ++ [c]) ++ rest').
      { rewrite Htc, <- app_assoc, Hcr. reflexivity. }
      assert (Hps' : pieces (text (u ++ [c]) ++ rest') = (u ++ [c]) ++ pieces rest').
      { rewrite <- Hsrc, Hps, Hpc, <- app_assoc. reflexivity. }
      assert (Hfuel : length rest' < fuel) by (subst rest'; rewrite skipn_length; cbn [length] in *; lia).
      assert (Hune : u ++ [c] <> []) by (destruct u; discriminate).
      rewrite Hline, Hcol, Hpos', Hsrc.
      replace (u ++ pieces (b :: rest0)) with ((u ++ [c]) ++ pieces rest') by (rewrite Hpc, <- app_assoc; reflexivity).
      destruct (act_case st' Lst') as [[Hact Hlab]|(n & ign & Hact & Hn & Hlab)]; rewrite Hact.
      * (* ignored text *)
        cbn [Z.eqb negb]. replace (Z.eqb (-1) (-1)) with true by reflexivity. cbn [negb].
        pose (p' := advance p (u ++ [c])).
        assert (Hlast : longest ((u ++ [c]) ++ pieces rest') (u ++ [c]) (pieces rest') Skip).
        { apply (longest_intro _ _ _ st'); auto.
          - rewrite <- Hps'. apply pieces_small.
          - destruct (pieces rest') as [|x l]; [exact I|].
            destruct (trans st' (fst x)) as [st''|] eqn:Et; [|reflexivity].
            destruct (label_step _ _ _ Et) as [_ HH]. rewrite Hlab in HH. destruct HH as [HH _]. congruence. }
        assert (Hoff : p_off p' = p_off p + length (text (u ++ [c]))) by apply p_off_advance.
        rewrite <- Hoff. fold p'.
        assert (Hendp : endp <= p_off p').
        { destruct Hinv as [(_ & ? & _)|(_ & -> & _)]; rewrite Hoff; [lia|]. rewrite Htc, app_length. lia. }
        assert (Hty : u = [] /\ ty = INVALID \/ u <> [] /\ ty = INVALID).
        { destruct Hinv as [(-> & _ & [[-> _]|[_ ?]])|(? & _ & _ & Hl)]; [auto|congruence|].
          right. split; [assumption|]. destruct ty; [reflexivity|].
          destruct (label_step _ _ _ Etr) as [_ HH]. rewrite Hl in HH. destruct HH as [_ [ty' E]]. congruence. }
        assert (ty = INVALID) by tauto. subst ty.
        destruct (IH p' [] rest' 0 endp (match rest' with [] => EOF | _ => INVALID end)) as (t & lx & E & Hs).
        -- exact Hfuel.
        -- reflexivity.
        -- reflexivity.
        -- reflexivity.
        -- left. split; [reflexivity|]. split; [exact Hendp|]. destruct rest'; [right; auto|left; split; [reflexivity|discriminate]].
        -- cbn [text map concat length advance fold_left app] in E. rewrite Nat.add_0_r in E.
           exists t, lx. split; [exact E|]. eapply sc_skip; [exact Hlast|exact Hs].
      * (* accepting or intermediate state *)
        replace (negb (Z.eqb (Z.of_nat n) (-1))) with true
          by (symmetry; apply negb_true_iff, Z.eqb_neq; lia).
        rewrite Nat2Z.id.
        apply IH; auto.
        -- intros E. congruence.
        -- right. auto.
    + (* dead *)
      assert (Hdead : dfa_run 0 (runes_of (u ++ [c])) = None).
      { rewrite runes_of_app, dfa_run_app, Hrun. cbn. rewrite Etr. reflexivity. }
      unfold scan_finish.
      assert (Hbad : u = [] /\ ty = INVALID \/ u <> [] /\ ty = INVALID /\ label state = [] \/
                     u <> [] /\ ty <> INVALID /\ ty <> EOF /\ label state = [Tok ty] /\ endp = p_off p + length (text u)).
      { destruct Hinv as [(-> & _ & [[-> _]|[_ ?]])|(? & ? & ? & Hl)]; [auto|congruence|].
        destruct ty; [auto|]. right. right. repeat split; auto; discriminate. }
      destruct Hbad as [[Hu ->]|[(Hu & -> & Hl)|(Hu & Hty & Hty' & Hl & ->)]].
      1,2: replace (Nat.eqb INVALID INVALID) with true by reflexivity;
           replace (Nat.ltb (p_off p) (p_off p + length (text u) + k)) with true by (symmetry; apply Nat.ltb_lt; lia);
           replace (p_off p + length (text u) + k - p_off p) with (length (text (u ++ [c])))
             by (rewrite Htc, app_length, Hlen; lia);
           replace (text u ++ b :: rest0) with (text (u ++ [c]) ++ rest')
             by (rewrite Htc, <- app_assoc, Hcr; reflexivity);
           rewrite firstn_text, skipn_text; do 2 eexists; split; [reflexivity|]; rewrite Hpc;
           apply (sc_bad p u c (pieces rest'));
           [ intros u' v' c' E Hu' Hlex
           | apply dfa_viable; [exact Hsmu|congruence]
           | intros V; apply dfa_viable in V; [exact (V Hdead)|exact Hsmc] ].
      1,2: destruct v' as [|x v'] using rev_ind;
           [ rewrite app_nil_r in E; subst u'; apply dfa_correct in Hlex; [|exact Hsmc];
             destruct Hlex as (s' & Hr' & _); pose proof (eq_trans (eq_sym Hdead) Hr'); discriminate
           | rewrite app_assoc in E; apply app_inj_tail in E; destruct E as [E _] ].
      * subst u. destruct u'; [congruence|discriminate].
      * exact (no_lexeme_prefix u state Hsmu Hrun Hl u' v' c' E Hlex).
      * replace (Nat.eqb ty INVALID) with false by (symmetry; apply Nat.eqb_neq; exact Hty).
        pose proof (text_pos u Hneu Hu) as Hpos.
        replace (Nat.ltb (p_off p) (p_off p + length (text u))) with true by (symmetry; apply Nat.ltb_lt; lia).
        replace (p_off p + length (text u) - p_off p) with (length (text u)) by lia.
        rewrite firstn_text, skipn_text. do 2 eexists. split; [reflexivity|].
        rewrite <- p_off_advance. rewrite <- (text_pieces (b :: rest0)) at 2.
        apply (sc_tok p (u ++ pieces (b :: rest0)) u (pieces (b :: rest0)) ty); auto.
        apply (longest_intro _ _ _ state); auto. rewrite Hpc. exact Etr.
Qed.
