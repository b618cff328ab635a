(** Cutting a scanned text at a newline, and putting texts together (C86). *)
From Coq Require Import List Ascii NArith ZArith Bool Lia Arith.
From Verif Require Import Base LexTables ParseTables Ast Lexer LexSpec LexDfa LexerProofs Tokens LexFacts SpecGrammar GrammarProofs ParseFacts
  Parser LexPrint TrimFacts SpecAst AstProofs SpecSharp SharpProofs PrefixProofs SpecBody.
Import ListNotations.
Local Opaque bisim_set spec_vec trans_tab act_tab bounds reps.

Lemma pieces_app_ascii a w s : (bv a < 128)%N -> pieces (s ++ a :: w) = pieces s ++ pieces (a :: w).
Proof.
  intros Ha. induction s as [|s r k Hs E IH] using pieces_ind; [reflexivity|].
  assert (E' : decode_rune (s ++ a :: w) = (r, k)) by (rewrite decode_app_head; assumption).
  rewrite (pieces_cons (s ++ a :: w) r k); [|destruct s; discriminate|exact E']. rewrite (pieces_cons s r k Hs E).
  pose proof (decode_spec s Hs) as D. rewrite E in D. destruct D as [Dk _].
  rewrite firstn_app, skipn_app. replace (k - length s) with 0 by lia. cbn [firstn skipn].
  rewrite app_nil_r. rewrite IH. reflexivity.
Qed.

(** ** The last rune of a lexeme *)
Lemma last_rbrace_ok : forallb (fun s => match trans s 125 with
  | Some t => match label t with [] => true | [Tok 4] => Nat.eqb s 0 | _ => false end | None => true end) (seq 0 141) = true.
Proof. vm_compute. reflexivity. Qed.
Lemma last_nl_ok : forallb (fun s => match trans s 10 with
  | Some t => match label t with [] => true | [Skip] => true | _ => false end | None => true end) (seq 0 141) = true.
Proof. vm_compute. reflexivity. Qed.
Lemma run_zero v : dfa_run 0 v = Some 0 -> v = [].
Proof.
  destruct (snoc_case v) as [->|(v' & r & ->)]; [reflexivity|]. intros H. apply dfa_run_last in H.
  destruct H as (s & _ & H). apply label_step in H. destruct H as [H _]. congruence.
Qed.
Lemma last_rbrace v c : small (v ++ [125%N]) -> is_lexeme (v ++ [125%N]) c -> v = [] /\ c = Tok 4.
Proof.
  intros Sm H. apply dfa_correct in H; [|exact Sm]. destruct H as (t & R & L). apply dfa_run_last in R. destruct R as (s & R & T).
  pose proof (dfa_run_bound v 0 s ltac:(lia) R) as B. pose proof last_rbrace_ok as C. rewrite forallb_forall in C.
  specialize (C s (proj2 (in_seq 141 0 s) ltac:(lia))). cbv beta in C. rewrite T, L in C.
  destruct c as [|[|[|[|[|[|?]]]]]]; try discriminate. apply Nat.eqb_eq in C. subst s. split; [apply run_zero; exact R|reflexivity].
Qed.
Lemma last_nl v c : small (v ++ [10%N]) -> is_lexeme (v ++ [10%N]) c -> c = Skip.
Proof.
  intros Sm H. apply dfa_correct in H; [|exact Sm]. destruct H as (t & R & L). apply dfa_run_last in R. destruct R as (s & R & T).
  pose proof (dfa_run_bound v 0 s ltac:(lia) R) as B. pose proof last_nl_ok as C. rewrite forallb_forall in C.
  specialize (C s (proj2 (in_seq 141 0 s) ltac:(lia))). cbv beta in C. rewrite T, L in C. destruct c; [reflexivity|discriminate].
Qed.

(** ** Cutting at a newline *)
Lemma split2 {A} (u rest ps0 : list A) a b : u ++ rest = ps0 ++ [a; b] ->
  (rest = [] /\ u = ps0 ++ [a; b]) \/ (rest = [b] /\ u = ps0 ++ [a]) \/ exists r0, rest = r0 ++ [a; b] /\ u ++ r0 = ps0.
Proof.
  intros E. destruct (snoc_case rest) as [->|(r1 & x & ->)].
  - left. rewrite app_nil_r in E. auto.
  - right. change [a; b] with ([a] ++ [b]) in E. rewrite !app_assoc in E. apply app_inj_tail in E. destruct E as [E ->].
    destruct (snoc_case r1) as [->|(r2 & y & ->)].
    + left. rewrite app_nil_r in E. auto.
    + right. rewrite app_assoc in E. apply app_inj_tail in E. destruct E as [<- ->]. exists r2. rewrite <- app_assoc. auto.
Qed.
Definition rb : ascii := ascii_of_nat 125.
Lemma lexw_of p ps ts q : lexes p ps (ts ++ [(1, [], q)]) -> lexw ps (map fst ts).
Proof.
  intros H p'. destruct (lexes_shift _ _ _ H p') as (ts' & A & B).
  apply Forall2_app_inv_l in B. destruct B as (t1 & t2 & B1 & B2 & ->). inversion B2 as [|? [[? ?] q'] ? ? E F]; subst. inversion F; subst.
  cbn in E. destruct E as [E _]. injection E as <- <-. exists t1, q'. split; [exact A|].
  clear - B1. induction B1 as [|x y l l' [E _] B1 IH]; cbn; [reflexivity|]. rewrite E, IH. reflexivity.
Qed.
Lemma lexes_same p p' ps ts ts' q q' : small (runes_of ps) -> lexes p ps (ts ++ [(1, [], q)]) -> lexes p' ps (ts' ++ [(1, [], q')]) -> map fst ts = map fst ts'.
Proof.
  intros Sm H H'. destruct (lexw_of _ _ _ _ H p') as (t2 & q2 & A & B).
  pose proof (lexes_unique _ _ _ A Sm _ H') as E. apply app_inj_tail in E. destruct E as [-> _]. symmetry. exact B.
Qed.
Lemma rb_lexes p : exists q, lexes p [(125%N, [rb])] [(4, [rb], p); (1, [], q)].
Proof.
  destruct (lexb_closed (lit "}") 4 [] [] ltac:(cbn; tauto) lexb_nil p) as (ts & q & H & E). exists q.
  change (pieces (lit "}" ++ [])) with [(125%N, [rb])] in H. destruct ts as [|[[ty tx] p'] [|? ?]]; cbn in E; try discriminate. injection E as -> ->.
  inversion H; subst.
  - match goal with K : longest _ _ _ Skip |- _ => destruct K as (Eu & Nu & Lx & _) end. destruct u as [|x [|? ?]]; [congruence| |discriminate].
    injection Eu as <- _. exfalso. destruct (last_rbrace [] Skip) as [_ F]; [|exact Lx|discriminate]. constructor; [vm_compute; discriminate|constructor].
  - exact H.
Qed.
Lemma split_nl : forall p ps ts, lexes p ps ts -> small (runes_of ps) -> forall ps0 ts0 q,
  ps = ps0 ++ [(10%N, [nl]); (125%N, [rb])] -> ts = ts0 ++ [(1, [], q)] ->
  exists w, map fst ts0 = w ++ [(4, [rb])] /\
    forall rest wr, small (runes_of rest) -> lexw rest wr -> lexw (ps0 ++ (10%N, [nl]) :: rest) (w ++ wr).
Proof.
  induction 1 as [p|p ps u rest ts Hl H IH|p ps u rest ty ts Hl H IH|p u c rest H1 H2 H3|p u H1 H2 H3];
    intros Sm ps0 ts0 q E Et.
  - destruct ps0; discriminate.
  - destruct Hl as (Eu & Nu & Lx & _). rewrite E in Eu. symmetry in Eu. rewrite E in Sm.
    assert (Su : small (runes_of u)) by (rewrite <- Eu, runes_of_app in Sm; apply small_app in Sm; apply Sm).
    destruct (proj1 (dfa_correct _ _ Su) Lx) as (s & Rs & Ls).
    destruct (split2 _ _ _ _ _ Eu) as [[-> Eu']|[[-> Eu']|(r0 & Er & Eu')]].
    + exfalso. rewrite Eu' in Lx, Su. rewrite runes_of_app in Lx, Su. change (runes_of [(10%N, [nl]); (125%N, [rb])]) with ([10] ++ [125])%N in Lx, Su.
      rewrite app_assoc in Lx, Su. destruct (last_rbrace _ _ Su Lx) as [F _]. apply app_eq_nil in F. destruct F; discriminate.
    + exists []. split.
      { rewrite Et in H. destruct (rb_lexes p) as (q' & R). cbn [app]. change [(4, [rb])] with (map fst [(4, [rb], p)]).
        eapply lexes_same; [|exact H|exact R]. constructor; [vm_compute; discriminate|constructor]. }
      intros rest wr Sr Hw. cbn [app].
      replace (ps0 ++ (10%N, [nl]) :: rest) with (u ++ rest) by (rewrite Eu', <- app_assoc; reflexivity).
      apply (lexw_skip u rest wr s); auto. rewrite runes_of_app. apply small_app. auto.
    + assert (Sr0 : small (runes_of rest)) by (rewrite <- Eu, runes_of_app in Sm; apply small_app in Sm; apply Sm).
      destruct (IH Sr0 r0 ts0 q Er Et) as (w & E1 & K). exists w. split; [exact E1|]. intros rest' wr Sr Hw.
      rewrite <- Eu', <- app_assoc. apply (lexw_skip u _ _ s); auto.
      rewrite Er in Sr0. rewrite !runes_of_app in *. cbn [runes_of map fst] in *. apply small_app in Sr0. destruct Sr0 as [Sa Sb].
      apply small_app. split; [exact Su|]. apply small_app. split; [exact Sa|]. constructor; [inversion Sb; assumption|exact Sr].
  - destruct Hl as (Eu & Nu & Lx & Mx). rewrite E in Eu. symmetry in Eu. rewrite E in Sm.
    assert (Su : small (runes_of u)) by (rewrite <- Eu, runes_of_app in Sm; apply small_app in Sm; apply Sm).
    assert (Sr0 : small (runes_of rest)) by (rewrite <- Eu, runes_of_app in Sm; apply small_app in Sm; apply Sm).
    destruct (proj1 (dfa_correct _ _ Su) Lx) as (s & Rs & Ls).
    destruct (split2 _ _ _ _ _ Eu) as [[-> Eu']|[[-> Eu']|(r0 & Er & Eu')]].
    + exfalso. rewrite Eu' in Lx, Su. rewrite runes_of_app in Lx, Su. change (runes_of [(10%N, [nl]); (125%N, [rb])]) with ([10] ++ [125])%N in Lx, Su.
      rewrite app_assoc in Lx, Su. destruct (last_rbrace _ _ Su Lx) as [F _]. apply app_eq_nil in F. destruct F; discriminate.
    + exfalso. rewrite Eu' in Lx, Su. rewrite runes_of_app in Lx, Su. pose proof (last_nl _ _ Su Lx). discriminate.
    + destruct ts0 as [|x0 ts0]; cbn [app] in Et.
      { exfalso. injection Et as -> _ _ _. apply lexeme_range in Lx. lia. }
      injection Et as <- Et. destruct (IH Sr0 r0 ts0 q Er Et) as (w & E1 & K). exists ((ty, text u) :: w).
      split; [cbn [map fst app]; rewrite E1; reflexivity|]. intros rest' wr Sr Hw. cbn [app].
      rewrite <- Eu', <- app_assoc.
      assert (St : match r0 ++ (10%N, [nl]) :: rest' with [] => True | x :: _ => trans s (fst x) = None end).
      { assert (Hx : forall x, (exists l, rest = x :: l) -> trans s (fst x) = None).
        { intros x [l El]. destruct (trans s (fst x)) as [t|] eqn:Tr; [|reflexivity]. exfalso.
          destruct (label_step _ _ _ Tr) as [_ K2]. rewrite Ls in K2. destruct K2 as [_ (ty' & L')].
          assert (Lx' : is_lexeme (runes_of (u ++ [x])) (Tok ty')).
          { apply dfa_correct.
            - rewrite runes_of_app. apply small_app. split; [exact Su|]. rewrite El in Sr0. inversion Sr0; subst. constructor; [assumption|constructor].
            - exists t. split; [|exact L']. rewrite runes_of_app, dfa_run_app, Rs. cbn. rewrite Tr. reflexivity. }
          assert (Le : length (u ++ [x]) <= length u).
          { apply (Mx (u ++ [x]) l (Tok ty')); [|destruct u; discriminate|exact Lx']. rewrite E, <- Eu, El, <- app_assoc. reflexivity. }
          rewrite app_length in Le. cbn in Le. lia. }
        destruct r0 as [|x r0]; cbn [app].
        - apply Hx. exists [(125%N, [rb])]. exact Er.
        - apply Hx. eexists. exact Er. }
      apply (lexw_tok u _ _ s ty); auto.
      rewrite Er in Sr0. rewrite !runes_of_app in *. cbn [runes_of map fst] in *. apply small_app in Sr0. destruct Sr0 as [Sa Sb].
      apply small_app. split; [exact Su|]. apply small_app. split; [exact Sa|]. constructor; [inversion Sb; assumption|exact Sr].
  - destruct ts0 as [|? [|? ?]]; discriminate.
  - destruct ts0 as [|? [|? ?]]; discriminate.
Qed.

Lemma split_rb : forall p ps ts, lexes p ps ts -> small (runes_of ps) -> forall ps0 ts0 q,
  ps = ps0 ++ [(125%N, [rb])] -> ts = ts0 ++ [(1, [], q)] ->
  exists w, map fst ts0 = w ++ [(4, [rb])] /\
    forall rest wr, lexb rest wr -> lexw (ps0 ++ (10%N, [nl]) :: pieces rest) (w ++ wr).
Proof.
  assert (Sn : forall rest, small (runes_of ((10%N, [nl]) :: pieces rest))).
  { intros rest. constructor; [vm_compute; discriminate|apply pieces_small]. }
  induction 1 as [p|p ps u rest ts Hl H IH|p ps u rest ty ts Hl H IH|p u c rest H1 H2 H3|p u H1 H2 H3];
    intros Sm ps0 ts0 q E Et.
  - destruct ps0; discriminate.
  - destruct Hl as (Eu & Nu & Lx & _). rewrite E in Eu. symmetry in Eu. rewrite E in Sm.
    assert (Su : small (runes_of u)) by (rewrite <- Eu, runes_of_app in Sm; apply small_app in Sm; apply Sm).
    assert (Sr0 : small (runes_of rest)) by (rewrite <- Eu, runes_of_app in Sm; apply small_app in Sm; apply Sm).
    destruct (proj1 (dfa_correct _ _ Su) Lx) as (s & Rs & Ls).
    destruct (snoc_case rest) as [->|(r0 & y & Er)].
    + exfalso. rewrite app_nil_r in Eu. rewrite Eu in Lx, Su. rewrite runes_of_app in Lx, Su. change (runes_of [(125%N, [rb])]) with [125]%N in Lx, Su.
      destruct (last_rbrace _ _ Su Lx) as [_ F]. discriminate.
    + rewrite Er, app_assoc in Eu. apply app_inj_tail in Eu. destruct Eu as [Eu ->].
      destruct (IH Sr0 r0 ts0 q Er Et) as (w & E1 & K). exists w. split; [exact E1|]. intros rest' wr Hw.
      rewrite <- Eu, <- app_assoc. apply (lexw_skip u _ _ s); auto.
      rewrite Er in Sr0. rewrite runes_of_app in Sr0. apply small_app in Sr0. destruct Sr0 as [Sa Sb].
      rewrite !runes_of_app. apply small_app. split; [exact Su|]. apply small_app. split; [exact Sa|apply Sn].
  - destruct Hl as (Eu & Nu & Lx & Mx). rewrite E in Eu. symmetry in Eu. rewrite E in Sm.
    assert (Su : small (runes_of u)) by (rewrite <- Eu, runes_of_app in Sm; apply small_app in Sm; apply Sm).
    assert (Sr0 : small (runes_of rest)) by (rewrite <- Eu, runes_of_app in Sm; apply small_app in Sm; apply Sm).
    destruct (proj1 (dfa_correct _ _ Su) Lx) as (s & Rs & Ls).
    destruct (snoc_case rest) as [->|(r0 & y & Er)].
    + rewrite app_nil_r in Eu. rewrite Eu in Lx, Su. rewrite runes_of_app in Lx, Su. change (runes_of [(125%N, [rb])]) with [125]%N in Lx, Su.
      destruct (last_rbrace _ _ Su Lx) as [F F']. injection F' as ->. destruct ps0; [|discriminate]. cbn [app] in Eu. subst u.
      inversion H; subst; try (match goal with L : longest [] _ _ _ |- _ => destruct L as (Ex & Nx & _) end; destruct u; [congruence|discriminate]); try congruence; try (destruct u; discriminate).
      exists []. destruct ts0 as [|x ts0]; [discriminate|]. injection Et as <- Et. destruct ts0; [|destruct ts0; discriminate].
      split; [reflexivity|]. intros rest wr Hw. cbn [app]. change ((10%N, [nl]) :: pieces rest) with ([(bv nl, [nl])] ++ pieces rest).
      cbn [app]. rewrite <- (pieces_ascii nl) by reflexivity. apply lexb_blank; [reflexivity|exact Hw].
    + rewrite Er, app_assoc in Eu. apply app_inj_tail in Eu. destruct Eu as [Eu ->].
      destruct ts0 as [|x0 ts0]; cbn [app] in Et.
      { exfalso. injection Et as -> _ _ _. apply lexeme_range in Lx. lia. }
      injection Et as <- Et. destruct (IH Sr0 r0 ts0 q Er Et) as (w & E1 & K). exists ((ty, text u) :: w).
      split; [cbn [map fst app]; rewrite E1; reflexivity|]. intros rest' wr Hw. cbn [app].
      rewrite <- Eu, <- app_assoc.
      assert (St : match r0 ++ (10%N, [nl]) :: pieces rest' with [] => True | x :: _ => trans s (fst x) = None end).
      { destruct r0 as [|x r0]; cbn [app fst].
        - pose proof (stop_trans s ty (nl :: rest') ltac:(eapply dfa_run_bound; [|exact Rs]; lia) Ls eq_refl) as St.
          rewrite (pieces_ascii nl) in St by reflexivity. exact St.
        - destruct (trans s (fst x)) as [t|] eqn:Tr; [|reflexivity]. exfalso.
          destruct (label_step _ _ _ Tr) as [_ K2]. rewrite Ls in K2. destruct K2 as [_ (ty' & L')].
          assert (Lx' : is_lexeme (runes_of (u ++ [x])) (Tok ty')).
          { apply dfa_correct.
            - rewrite runes_of_app. apply small_app. split; [exact Su|]. rewrite Er in Sr0. inversion Sr0; subst. constructor; [assumption|constructor].
            - exists t. split; [|exact L']. rewrite runes_of_app, dfa_run_app, Rs. cbn. rewrite Tr. reflexivity. }
          assert (Le : length (u ++ [x]) <= length u).
          { apply (Mx (u ++ [x]) (r0 ++ [(125%N, [rb])]) (Tok ty')); [|destruct u; discriminate|exact Lx'].
            rewrite E, <- Eu, <- !app_assoc. reflexivity. }
          rewrite app_length in Le. cbn in Le. lia. }
      apply (lexw_tok u _ _ s ty); auto.
      rewrite Er in Sr0. rewrite runes_of_app in Sr0. apply small_app in Sr0. destruct Sr0 as [Sa Sb].
      rewrite !runes_of_app. apply small_app. split; [exact Su|]. apply small_app. split; [exact Sa|apply Sn].
  - destruct ts0 as [|? [|? ?]]; discriminate.
  - destruct ts0 as [|? [|? ?]]; discriminate.
Qed.

Lemma pieces_nl t rest : pieces (t ++ nl :: rest) = pieces t ++ (10%N, [nl]) :: pieces rest.
Proof. rewrite pieces_app_ascii by reflexivity. rewrite (pieces_ascii nl) by reflexivity. reflexivity. Qed.
Lemma cut_nl t W : lexb (t ++ newline ++ lit "}") W -> exists w, W = w ++ [(T_rbrace, lit "}")] /\ lexc (t ++ newline) w.
Proof.
  intros H. destruct (H start_pos) as (ts & q & A & B).
  destruct (split_nl _ _ _ A (pieces_small _) (pieces t) ts q) as (w & E & K); [apply (pieces_nl t)|reflexivity|].
  exists w. split; [rewrite <- B; exact E|]. intros rest wr Hr. unfold lexb. rewrite <- app_assoc. unfold newline. cbn [app].
  rewrite pieces_nl. apply K; [apply pieces_small|exact Hr].
Qed.

Lemma cut_rb t W : lexb (t ++ lit "}") W -> exists w, W = w ++ [(T_rbrace, lit "}")] /\ lexc (t ++ newline) w.
Proof.
  intros H. destruct (H start_pos) as (ts & q & A & B).
  destruct (split_rb _ _ _ A (pieces_small _) (pieces t) ts q) as (w & E & K); [|reflexivity|].
  { change (lit "}") with (rb :: []). rewrite pieces_app_ascii by reflexivity. reflexivity. }
  exists w. split; [rewrite <- B; exact E|]. intros rest wr Hr. unfold lexb. rewrite <- app_assoc. unfold newline. cbn [app].
  rewrite pieces_nl. apply K. exact Hr.
Qed.

(** ** Texts with known tokens before any text *)
Definition fwdp (t : gostr) (w : word) : Prop :=
  forall x p, stop x -> exists q pts, map fst pts = w /\ forall ts, lexes q (pieces x) ts -> lexes p (pieces (t ++ x)) (pts ++ ts).
Definition fwdc (t : gostr) (w : word) : Prop :=
  forall x p, exists q pts, map fst pts = w /\ forall ts, lexes q (pieces x) ts -> lexes p (pieces (t ++ x)) (pts ++ ts).
Lemma fwdp_nil : fwdp [] [].
Proof. intros x p _. exists p, []. auto. Qed.
Lemma fwdc_nil : fwdc [] [].
Proof. intros x p. exists p, []. auto. Qed.
Lemma fwdpc_app s w t w' : fwdp s w -> t <> [] -> stop t -> fwdc t w' -> fwdc (s ++ t) (w ++ w').
Proof.
  intros H1 Hn Hs H2 x p. destruct (H1 (t ++ x) p) as (q & pts & E & K); [destruct t; [congruence|exact Hs]|].
  destruct (H2 x q) as (q' & pts' & E' & K'). exists q', (pts ++ pts'). rewrite map_app, E, E'. split; [reflexivity|].
  intros ts L. rewrite <- !app_assoc. apply K. apply K'. exact L.
Qed.
Lemma fwdc_app s w t w' : fwdc s w -> fwdc t w' -> fwdc (s ++ t) (w ++ w').
Proof.
  intros H1 H2 x p. destruct (H1 (t ++ x) p) as (q & pts & E & K).
  destruct (H2 x q) as (q' & pts' & E' & K'). exists q', (pts ++ pts'). rewrite map_app, E, E'. split; [reflexivity|].
  intros ts L. rewrite <- !app_assoc. apply K. apply K'. exact L.
Qed.
Lemma fwdp_token i ty : is_lexeme (runes_of (pieces i)) (Tok ty) -> clean i -> fwdp i [(ty, i)].
Proof.
  intros Hi Hc x p Hs. exists (advance p (pieces i)), [(ty, i, p)]. split; [reflexivity|]. intros ts L. cbn [app].
  rewrite pieces_app by exact Hc. rewrite <- (text_pieces i) at 2.
  apply dfa_correct in Hi; [|apply pieces_small]. destruct Hi as (st & Hr & Hl).
  eapply lex_tok; [|exact L]. apply (longest_intro _ _ (Tok ty) st).
  - rewrite runes_of_app. apply small_app. split; apply pieces_small.
  - intros E. rewrite E in Hr. cbn in Hr. injection Hr as <-. vm_compute in Hl. discriminate.
  - exact Hr.
  - exact Hl.
  - eapply stop_trans; eauto. eapply dfa_run_bound; [|exact Hr]. lia.
Qed.
Lemma fwdp_id i : is_id i -> fwdp i [(ID, i)].
Proof. intros H. apply fwdp_token; [exact H|apply is_id_clean; exact H]. Qed.
Lemma fwdp_kw x ty : In (x, ty) kw_words -> fwdp x [(ty, x)].
Proof.
  intros Hin. destruct (word_facts x ty) as (Hx & Hc & Hr & st & L & Hd & Hl); [apply in_or_app; auto|].
  apply fwdp_token; [|exact Hc]. apply dfa_correct; [apply pieces_small|]. exists st. rewrite Hr. auto.
Qed.
Lemma fwdc_closed i ty : In (i, ty) closed_words -> fwdc i [(ty, i)].
Proof.
  intros Hin x p. destruct (word_facts i ty) as (Hx & Hc & Hr & st & L & Hd & Hl); [apply in_or_app; auto|].
  exists (advance p (pieces i)), [(ty, i, p)]. split; [reflexivity|]. intros ts Lx. cbn [app].
  rewrite pieces_app by exact Hc. rewrite <- (text_pieces i) at 2.
  eapply lex_tok; [|exact Lx]. apply (longest_intro _ _ (Tok ty) st).
  - rewrite runes_of_app. apply small_app. split; apply pieces_small.
  - intros E. rewrite E in Hr. cbn in Hr. destruct i; [congruence|discriminate].
  - rewrite Hr. exact Hd.
  - exact Hl.
  - destruct (pieces x) as [|c l]; [exact I|].
    pose proof closed_run as C. rewrite forallb_forall in C. specialize (C _ Hin). cbn [fst] in C. rewrite Hd in C.
    unfold trans. destruct (nth_error trans_tab st) as [[[|? ?] [?|]]|]; try discriminate. reflexivity.
Qed.
Lemma fwdc_sp : fwdc (lit " ") [].
Proof.
  intros x p. exists (advance p (pieces (lit " "))), []. split; [reflexivity|]. intros ts Lx. cbn [app].
  change (lit " " ++ x) with (ascii_of_nat 32 :: x). rewrite (pieces_ascii (ascii_of_nat 32) x) by reflexivity.
  change ((bv (ascii_of_nat 32), [ascii_of_nat 32]) :: pieces x) with (pieces (lit " ") ++ pieces x).
  pose proof blank_runs as R. rewrite forallb_forall in R. specialize (R 32%N ltac:(cbn; auto)).
  destruct (dfa_run 0 [32%N]) as [st|] eqn:Er; [|discriminate].
  destruct (label st) as [|[|] [|? ?]] eqn:El; try discriminate.
  eapply lex_skip; [|exact Lx]. apply (longest_intro _ _ Skip st); auto.
  - rewrite runes_of_app. apply small_app. split; apply pieces_small.
  - discriminate.
  - destruct (pieces x) as [|y l]; [exact I|]. destruct (trans st (fst y)) as [s'|] eqn:Et; [|reflexivity].
    destruct (label_step _ _ _ Et) as [_ HH]. rewrite El in HH. destruct HH as [HH _]. congruence.
Qed.
Lemma fwdc_lexc t w : fwdc t w -> lexc t w.
Proof.
  intros H rest wr Hr p. destruct (H rest p) as (q & pts & E & K). destruct (Hr q) as (ts & q' & L & E').
  exists (pts ++ ts), q'. split; [rewrite <- app_assoc; apply K; exact L|]. rewrite map_app, E, E'. reflexivity.
Qed.
Lemma lexes_nonempty p ps : ~ lexes p ps [].
Proof. intros H. remember [] as ts eqn:E. induction H; try discriminate. auto. Qed.
Lemma fwdc_rev t w x W : fwdc t w -> lexb (t ++ x) W -> exists w', W = w ++ w' /\ lexb x w'.
Proof.
  intros H Hx. destruct (H x start_pos) as (q & pts & E & K). destruct (Hx start_pos) as (ts & q' & L & <-).
  pose proof (toks_from_lexes q x) as T. pose proof (K _ T) as L'. pose proof (lexes_unique _ _ _ L (pieces_small _) _ L') as U.
  destruct (map stok (toks_from q x)) as [|y l] eqn:El; [exfalso; exact (lexes_nonempty _ _ T)|].
  destruct (@exists_last _ (y :: l) ltac:(discriminate)) as (l' & z & E2). rewrite E2 in T, U. rewrite app_assoc in U. apply app_inj_tail in U.
  destruct U as [U1 U2]. exists (map fst l'). split; [rewrite U1; rewrite map_app; f_equal; exact E|]. rewrite <- U2 in T. eapply lexw_of. exact T.
Qed.
Lemma scans_lexb s w : scans_to s w -> lexb s w.
Proof. intros (ts & q & H & <-). eapply lexw_of. exact H. Qed.

(** ** The grammar *)
Section Body.
  Variable rnd : nat -> N.
  Definition d_list (w : word) (ss : list stmt) (k k' : nat) : Prop := (w = [] /\ ss = [] /\ k = k') \/ d_stmts rnd w ss k k'.
  Lemma d_body_iff x w y ss k k' : d_body rnd ((T_lbrace, x) :: w ++ [(T_rbrace, y)]) ss k k' <-> d_list w ss k k'.
  Proof.
    split.
    - intros H. inversion H; subst.
      + left. destruct w as [|z [|? ?]]; [auto|discriminate|discriminate].
      + right. match goal with E : _ ++ [_] = _ ++ [_] |- _ => apply app_inj_tail in E; destruct E as [<- _] end. assumption.
    - intros [(-> & -> & ->)|H]; [constructor|constructor; exact H].
  Qed.
  Lemma d_stmts_app w ss k k1 : d_stmts rnd w ss k k1 -> forall w' ss' k2, d_stmts rnd w' ss' k1 k2 -> d_stmts rnd (w ++ w') (ss ++ ss') k k2.
  Proof.
    revert w ss k k1.
    apply (d_stmts_mut rnd (fun _ _ _ _ => True) (fun _ _ _ _ => True) (fun _ _ _ _ => True) (fun _ _ _ _ => True) (fun _ _ _ _ => True)
      (fun w ss k k1 => forall w' ss' k2, d_stmts rnd w' ss' k1 k2 -> d_stmts rnd (w ++ w') (ss ++ ss') k k2)); auto.
    - intros w s c k k1 H _ Hc w' ss' k2 H'. rewrite <- app_assoc. cbn [app]. econstructor; eauto.
    - intros w s c w1 l k k1 k2 H _ Hc H1 IH w' ss' k3 H'. rewrite <- !app_assoc. cbn [app]. econstructor; eauto.
  Qed.
  Lemma d_list_app w ss k k1 w' ss' k2 : d_list w ss k k1 -> d_list w' ss' k1 k2 -> d_list (w ++ w') (ss ++ ss') k k2.
  Proof.
    intros [(-> & -> & ->)|H] [(-> & -> & ->)|H']; cbn [app]; rewrite ?app_nil_r.
    - left. auto. - right. exact H'. - right. exact H. - right. eapply d_stmts_app; eauto.
  Qed.
  Lemma d_graph_inv ws st t ty wi i x wr g k k' : d_strict ws st -> d_kind t ty -> d_opt_id wi i ->
    d_graph rnd (ws ++ t :: wi ++ (T_lbrace, x) :: wr) g k k' ->
    exists ss, g = Graph ty st i ss /\ d_body rnd ((T_lbrace, x) :: wr) ss k k'.
  Proof.
    intros Hs Hk Hi H. inversion H as [ws' st' t' ty' wi' i' wb l k0 k1 Hs' Hk' Hi' Hb E Eg]; subst.
    exists l. assert (B : exists b wr', wb = (T_lbrace, b) :: wr') by (inversion Hb; eauto). destruct B as (b & wr' & ->).
    destruct Hs, Hs', Hk, Hk', Hi, Hi'; cbn [app] in E; try discriminate; injection E; intros; subst; split; auto.
  Qed.

  (** A text [pre] that says the beginning of a graph. *)
  Lemma headed pre ws st t ty wi i x : d_strict ws st -> d_kind t ty -> d_opt_id wi i ->
    fwdc pre (ws ++ t :: wi ++ [(T_lbrace, x)]) -> forall k s ss k',
    parse_bytes rnd k (pre ++ s ++ newline ++ lit "}") = Ok (Graph ty st i ss, k') <->
    exists w, lexc (s ++ newline) w /\ d_list w ss k k'.
  Proof.
    intros Hs Hk Hi Hf k s ss k'. rewrite parse_ok_iff. split.
    - intros (W & Sc & D). apply scans_lexb in Sc. destruct (fwdc_rev _ _ _ _ Hf Sc) as (W' & -> & L).
      destruct (cut_nl _ _ L) as (w & -> & Lc). exists w. split; [exact Lc|].
      replace ((ws ++ t :: wi ++ [(T_lbrace, x)]) ++ w ++ [(T_rbrace, lit "}")]) with (ws ++ t :: wi ++ (T_lbrace, x) :: w ++ [(T_rbrace, lit "}")]) in D
        by (rewrite <- !app_assoc; cbn [app]; rewrite <- app_assoc; reflexivity).
      destruct (d_graph_inv _ _ _ _ _ _ _ _ _ _ _ Hs Hk Hi D) as (ss' & [= ->] & Db). apply d_body_iff in Db. exact Db.
    - intros (w & Lc & D). exists (ws ++ t :: wi ++ (T_lbrace, x) :: w ++ [(T_rbrace, lit "}")]). split.
      + apply lexb_scans. apply fwdc_lexc in Hf.
        replace (ws ++ t :: wi ++ (T_lbrace, x) :: w ++ [(T_rbrace, lit "}")]) with ((ws ++ t :: wi ++ [(T_lbrace, x)]) ++ w ++ [(T_rbrace, lit "}")])
          by (rewrite <- !app_assoc; cbn [app]; rewrite <- app_assoc; reflexivity).
        apply Hf. rewrite app_assoc. apply Lc. apply (lexb_closed (lit "}") T_rbrace [] []); [cbn; tauto|apply lexb_nil].
      + constructor; auto. apply d_body_iff. exact D.
  Qed.
  Lemma headed_same pre ws st t ty wi i x : d_strict ws st -> d_kind t ty -> d_opt_id wi i ->
    fwdc pre (ws ++ t :: wi ++ [(T_lbrace, x)]) -> forall k s ss k',
    parse_bytes rnd k (pre ++ s ++ lit "}") = Ok (Graph ty st i ss, k') ->
    exists w, lexc (s ++ newline) w /\ d_list w ss k k'.
  Proof.
    intros Hs Hk Hi Hf k s ss k'. rewrite parse_ok_iff.
    intros (W & Sc & D). apply scans_lexb in Sc. destruct (fwdc_rev _ _ _ _ Hf Sc) as (W' & -> & L).
    destruct (cut_rb _ _ L) as (w & -> & Lc). exists w. split; [exact Lc|].
    replace ((ws ++ t :: wi ++ [(T_lbrace, x)]) ++ w ++ [(T_rbrace, lit "}")]) with (ws ++ t :: wi ++ (T_lbrace, x) :: w ++ [(T_rbrace, lit "}")]) in D
      by (rewrite <- !app_assoc; cbn [app]; rewrite <- app_assoc; reflexivity).
    destruct (d_graph_inv _ _ _ _ _ _ _ _ _ _ _ Hs Hk Hi D) as (ss' & [= ->] & Db). apply d_body_iff in Db. exact Db.
  Qed.
  Lemma says_iff k s ss k' : says rnd k s ss k' <-> exists w, lexc (s ++ newline) w /\ d_list w ss k k'.
  Proof.
    unfold says. apply (headed (lit "graph {") [] false (T_graph, lit "graph") false [] [] (lit "{")); try constructor.
    cbn [app]. change (lit "graph {") with (lit "graph" ++ lit " " ++ lit "{"). change [(T_graph, lit "graph"); (T_lbrace, lit "{")] with ([(T_graph, lit "graph")] ++ [] ++ [(T_lbrace, lit "{")]).
    apply fwdpc_app; [apply fwdp_kw; cbn; tauto|discriminate|reflexivity|]. apply fwdc_app; [apply fwdc_sp|apply fwdc_closed; cbn; tauto].
  Qed.
  Lemma says_same k s ss k' : parse_bytes rnd k (lit "graph {" ++ s ++ lit "}") = Ok (Graph false false [] ss, k') -> says rnd k s ss k'.
  Proof.
    rewrite says_iff. apply (headed_same (lit "graph {") [] false (T_graph, lit "graph") false [] [] (lit "{")); try constructor.
    cbn [app]. change (lit "graph {") with (lit "graph" ++ lit " " ++ lit "{"). change [(T_graph, lit "graph"); (T_lbrace, lit "{")] with ([(T_graph, lit "graph")] ++ [] ++ [(T_lbrace, lit "{")]).
    apply fwdpc_app; [apply fwdp_kw; cbn; tauto|discriminate|reflexivity|]. apply fwdc_app; [apply fwdc_sp|apply fwdc_closed; cbn; tauto].
  Qed.
  Lemma heading_iff d st i : (i <> [] -> is_id i) -> forall k s ss k',
    parse_bytes rnd k (heading d st i ++ s ++ newline ++ lit "}") = Ok (Graph d st i ss, k') <-> says rnd k s ss k'.
  Proof.
    intros Wi k s ss k'. rewrite says_iff.
    assert (Hst : exists ws, fwdc (if st then lit "strict " else []) ws /\ d_strict ws st).
    { destruct st; [|exists []; split; [apply fwdc_nil|constructor]].
      exists [(T_strict, lit "strict")]. split; [|constructor]. change (lit "strict ") with (lit "strict" ++ lit " ").
      apply (fwdpc_app _ [_] _ []); [apply fwdp_kw; cbn; tauto|discriminate|reflexivity|apply fwdc_sp]. }
    destruct Hst as (ws & S1 & S2).
    assert (Hk : exists t, fwdp (if d then lit "digraph" else lit "graph") [t] /\ d_kind t d).
    { destruct d; [exists (T_digraph, lit "digraph")|exists (T_graph, lit "graph")]; (split; [apply fwdp_kw; cbn; tauto|constructor]). }
    destruct Hk as (t & K1 & K2).
    assert (Hid : exists wi, fwdp i wi /\ d_opt_id wi i).
    { destruct i as [|c i]; [exists []; split; [apply fwdp_nil|constructor]|].
      exists [(ID, c :: i)]. split; [apply fwdp_id; apply Wi; discriminate|constructor]. }
    destruct Hid as (wi & I1 & I2).
    apply (headed _ ws st t d wi i (lit "{")); auto. unfold heading. apply fwdc_app; [exact S1|].
    apply (fwdpc_app _ [t]); [exact K1|discriminate|reflexivity|]. apply (fwdc_app _ []); [apply fwdc_sp|].
    apply fwdpc_app; [exact I1|discriminate|reflexivity|]. change (lit " {") with (lit " " ++ lit "{"). apply (fwdc_app _ []); [apply fwdc_sp|apply fwdc_closed; cbn; tauto].
  Qed.

  Lemma says_join k s ss k1 s' ss' k2 : says rnd k s ss k1 -> says rnd k1 s' ss' k2 -> says rnd k (s ++ newline ++ s') (ss ++ ss') k2.
  Proof.
    rewrite !says_iff. intros (w & L & D) (w' & L' & D'). exists (w ++ w'). split; [|eapply d_list_app; eauto].
    replace ((s ++ newline ++ s') ++ newline) with ((s ++ newline) ++ s' ++ newline) by (rewrite <- !app_assoc; reflexivity). apply lexc_app; assumption.
  Qed.
End Body.

(** ** Parts that are printed, and parts put together by hand *)
Section Parts.
  Variable rnd : nat -> N.
  Lemma lexc_nl : lexc newline [].
  Proof. apply (lexc_blank [nl]). reflexivity. Qed.
  Lemma lexp_line s w : lexp s w -> lexc (s ++ newline) w.
  Proof. intros H. rewrite <- (app_nil_r w). apply lexpc_app; [exact H|discriminate|reflexivity|apply lexc_nl]. Qed.
  Lemma one_list w s k k' : d_stmt rnd w s k k' -> d_list rnd w [s] k k'.
  Proof. intros H. right. rewrite <- (app_nil_r w). apply dss_one; [exact H|constructor]. Qed.

  Lemma says_stmts k ss : Forall (wf_stmt is_id) ss -> forallb bare_stmt ss = true -> says rnd k (stmts_str [] ss) (norm_stmts ss) k.
  Proof.
    intros W B. apply says_iff. destruct (sh_body_ok rnd ss) with (ind := @nil ascii) as (w & L & D); auto.
    { apply Forall_forall. intros s _. apply sh_all_ok. } { reflexivity. }
    exists w. split; [exact L|]. destruct (D k) as [[E1 E2]|H]; [left; auto|right; exact H].
  Qed.
  Lemma says_stmt k s : wf_stmt is_id s -> bare_stmt s = true -> says rnd k (stmt_str [] s) (norm_stmts [s]) k.
  Proof.
    intros W B. apply says_iff. pose proof (proj1 (sh_all_ok rnd) s W B [] eq_refl) as H. unfold norm_stmts. cbn [flat_map]. rewrite app_nil_r.
    destruct (keep s).
    - destruct H as (_ & w & L & D). exists w. split; [apply lexp_line; exact L|apply one_list; apply D].
    - rewrite H. exists []. split; [apply lexc_nl|left; auto].
  Qed.
  Lemma says_stmt_semi k s : wf_stmt is_id s -> bare_stmt s = true -> keep s = true -> says rnd k (stmt_str [] s ++ lit ";") (norm_stmts [s]) k.
  Proof.
    intros W B K. apply says_iff. pose proof (proj1 (sh_all_ok rnd) s W B [] eq_refl) as H. unfold norm_stmts. cbn [flat_map]. rewrite app_nil_r. rewrite K in *.
    destruct H as (_ & w & L & D). exists (w ++ [(T_semi, lit ";")]). split.
    - rewrite <- app_assoc. apply lexpc_app; [exact L|discriminate|reflexivity|]. rewrite <- (app_nil_r [_]).
      apply lexc_app; [apply lexc_word; cbn; tauto|apply lexc_nl].
    - right. apply dss_one; [apply D|constructor].
  Qed.

  (** A subgraph written around a text. *)
  Lemma body_lex s w : lexc (s ++ newline) w -> lexc (lit "{" ++ s ++ newline ++ lit "}") ((T_lbrace, lit "{") :: w ++ [(T_rbrace, lit "}")]).
  Proof.
    intros L. apply (lexc_app (lit "{") [(T_lbrace, lit "{")]); [apply lexc_word; cbn; tauto|].
    rewrite app_assoc. apply lexc_app; [exact L|apply lexc_word; cbn; tauto].
  Qed.
  Lemma says_sub k i s ss k' : is_id i -> says rnd k s ss k' ->
    says rnd k (lit "subgraph " ++ i ++ lit " {" ++ s ++ newline ++ lit "}") [SSub (SubGraph i ss)] k'.
  Proof.
    intros Wi. rewrite !says_iff. intros (w & L & D).
    exists ((T_subgraph, lit "subgraph") :: (ID, i) :: (T_lbrace, lit "{") :: w ++ [(T_rbrace, lit "}")]). split.
    - apply lexp_line. apply lexc_lexp.
      change (lit "subgraph ") with (lit "subgraph" ++ lit " "). change (lit " {") with (lit " " ++ lit "{"). rewrite <- !app_assoc.
      apply (lexpc_app (lit "subgraph") [(T_subgraph, lit "subgraph")]); [apply lexp_kw; cbn; tauto|discriminate|reflexivity|].
      apply (lexc_app _ []); [apply lexc_blank; reflexivity|].
      apply (lexpc_app _ [(ID, i)]); [apply lexp_id; apply Wi|discriminate|reflexivity|].
      apply (lexc_app _ []); [apply lexc_blank; reflexivity|]. apply body_lex. exact L.
    - apply one_list. constructor. constructor. apply d_body_iff. exact D.
  Qed.
  Lemma says_sub_anon k s ss k' : says rnd k s ss k' ->
    says rnd k (lit "subgraph {" ++ s ++ newline ++ lit "}") [SSub (SubGraph (anon (rnd k')) ss)] (S k').
  Proof.
    rewrite !says_iff. intros (w & L & D).
    exists ((T_subgraph, lit "subgraph") :: (T_lbrace, lit "{") :: w ++ [(T_rbrace, lit "}")]). split.
    - apply lexp_line. apply lexc_lexp.
      change (lit "subgraph {") with (lit "subgraph" ++ lit " " ++ lit "{"). rewrite <- !app_assoc.
      apply (lexpc_app (lit "subgraph") [(T_subgraph, lit "subgraph")]); [apply lexp_kw; cbn; tauto|discriminate|reflexivity|].
      apply (lexc_app _ []); [apply lexc_blank; reflexivity|]. apply body_lex. exact L.
    - apply one_list. constructor. constructor. apply d_body_iff. exact D.
  Qed.
  Lemma says_sub_bare k s ss k' : ss <> [] -> says rnd k s ss k' ->
    says rnd k (lit "{" ++ s ++ newline ++ lit "}") [SSub (SubGraph (anon (rnd k')) ss)] (S k').
  Proof.
    intros N. rewrite !says_iff. intros (w & L & D).
    exists ((T_lbrace, lit "{") :: w ++ [(T_rbrace, lit "}")]). split; [apply lexp_line; apply lexc_lexp; apply body_lex; exact L|].
    apply one_list. constructor. constructor. destruct D as [(_ & E & _)|D]; [congruence|exact D].
  Qed.

  (** " " and the text of an attribute list *)
  Lemma attrs_line a : wf_attrs is_id a -> exists w, stop (lit " " ++ attr_list_str a) /\ lexc ((lit " " ++ attr_list_str a) ++ newline) w /\ d_opt_attrs w (norm_attrs a).
  Proof.
    intros W. destruct (sh_attrs_tail a W) as (X & w & E & _ & St & L & D). exists w. split; [reflexivity|]. split; [|exact D].
    rewrite E, <- app_assoc. rewrite <- (app_nil_r w). apply lexpc_app; [exact L|discriminate|reflexivity|].
    apply (lexc_app (lit " ") [] newline []); [apply lexc_blank; reflexivity|apply lexc_nl].
  Qed.
  Lemma says_node k n a : wf_node_id is_id n -> wf_attrs is_id a -> says rnd k (node_id_str n ++ lit " " ++ attr_list_str a) [SNode n (norm_attrs a)] k.
  Proof.
    intros Wn Wa. apply says_iff. destruct (sh_lexp_node_id n Wn) as (w & L & D & _ & _). destruct (attrs_line a Wa) as (wa & St & La & Da).
    exists (w ++ wa). split; [rewrite <- app_assoc; apply lexpc_app; [exact L|discriminate|reflexivity|exact La]|].
    apply one_list. constructor; assumption.
  Qed.
  Lemma says_default k (kw : gostr) ty a (C : list (list attr) -> stmt) : In (kw, ty) kw_words ->
    (forall wa l j, d_attrs wa l -> d_stmt rnd ((ty, kw) :: wa) (C l) j j) ->
    wf_attrs is_id a -> norm_attrs a <> [] -> says rnd k (kw ++ lit " " ++ attr_list_str a) [C (norm_attrs a)] k.
  Proof.
    intros Hk Hc Wa Na. apply says_iff. destruct (attrs_line a Wa) as (wa & St & La & Da).
    exists ((ty, kw) :: wa). split; [rewrite <- app_assoc; apply (lexpc_app _ [_]); [apply lexp_kw; exact Hk|discriminate|reflexivity|exact La]|].
    apply one_list. apply Hc. inversion Da; subst; [congruence|assumption].
  Qed.
  Definition hop (x : bool * location) : gostr := edge_op_str (fst x) ++ location_str (snd x).
  Lemma hops_lex r : r <> [] -> Forall (fun x => wf_loc is_id (snd x) /\ bare_loc (snd x) = true) r ->
    exists w, stop (concat (map hop r)) /\ lexp (concat (map hop r)) w /\ forall k, d_rhs rnd w (map (fun x => EdgeRH (fst x) (norm_loc (snd x))) r) k k.
  Proof.
    intros Hn. induction r as [|[o d] r IH]; [congruence|]. clear Hn. intros H. inversion H as [|? ? [Wd Bd] Hr]; subst. cbn [snd] in *.
    destruct (proj1 (proj2 (sh_all_ok rnd)) d Wd Bd) as (_ & _ & w & L & D).
    assert (Hop : exists ty, lexc (edge_op_str o) [(ty, edge_op_str o)] /\ d_op (ty, edge_op_str o) o).
    { destruct o; [exists T_arrow|exists T_line]; (split; [apply lexc_word; cbn; tauto|constructor]). }
    destruct Hop as (ty & Ho1 & Ho2). cbn [map concat]. unfold hop at 1 3. cbn [fst snd].
    destruct r as [|e r].
    - cbn [map concat]. rewrite app_nil_r. exists ((ty, edge_op_str o) :: w). split; [destruct o; reflexivity|].
      split; [apply (lexcp_app _ [_]); assumption|]. intros k. constructor; auto.
    - destruct (IH ltac:(discriminate) Hr) as (w' & S' & L' & D'). exists ((ty, edge_op_str o) :: w ++ w'). split; [destruct o; reflexivity|]. split.
      + rewrite <- app_assoc. apply (lexcp_app _ [_]); [exact Ho1|]. apply lexp_app; [exact L|exact S'|exact L'].
      + intros k. apply (dr_more rnd (ty, edge_op_str o) o w (norm_loc d) w' _ k k k); auto.
  Qed.
  Lemma says_edge k l r a : wf_loc is_id l -> bare_loc l = true -> r <> [] -> Forall (fun x => wf_loc is_id (snd x) /\ bare_loc (snd x) = true) r -> wf_attrs is_id a ->
    says rnd k (location_str l ++ concat (map hop r) ++ lit " " ++ attr_list_str a)
      [SEdge (norm_loc l) (map (fun x => EdgeRH (fst x) (norm_loc (snd x))) r) (norm_attrs a)] k.
  Proof.
    intros Wl Bl Nr Hr Wa. apply says_iff. destruct (proj1 (proj2 (sh_all_ok rnd)) l Wl Bl) as (_ & _ & w & L & D).
    destruct (hops_lex r Nr Hr) as (wr & Sr & Lr & Dr). destruct (attrs_line a Wa) as (wa & Sa & La & Da).
    exists (w ++ wr ++ wa). split.
    - rewrite <- !app_assoc. apply lexpc_app; [exact L| | |].
      + intros E. apply app_eq_nil in E. destruct E as [_ E]. discriminate.
      + apply stop_app; [exact Sr|reflexivity].
      + apply lexpc_app; [exact Lr|discriminate|reflexivity|exact La].
    - apply one_list. apply (ds_edge rnd w (norm_loc l) wr _ wa _ k k k); auto.
  Qed.
End Parts.
