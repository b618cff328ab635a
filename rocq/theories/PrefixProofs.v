(** Scanning and parsing a text that continues another one. *)
From Coq Require Import List Ascii NArith ZArith Bool Lia Arith.
From Verif Require Import Base LexTables ParseTables Ast Lexer LexSpec LexDfa Parser ParserDefs ParserSound LexerProofs Tokens LexFacts ParseFacts SpecPrefix.
Import ListNotations.
Local Opaque bisim_set spec_vec trans_tab act_tab bounds reps.

(** ** Decoding *)
Lemma decode_app4 s w : 4 <= length s -> decode_rune (s ++ w) = decode_rune s.
Proof.
  intros H. destruct s as [|a [|b [|c [|d s]]]]; cbn in H; try lia. reflexivity.
Qed.
Lemma ascii_not_cont a : (bv a < 128)%N -> is_cont a = false.
Proof. intros H. unfold is_cont, in_range. apply andb_false_iff. left. apply N.leb_gt. exact H. Qed.
Lemma ascii_not_second b a : (bv a < 128)%N -> second_ok b a = false.
Proof.
  intros H. unfold second_ok. repeat match goal with |- context [if ?c then _ else _] => destruct c end;
  unfold in_range, is_cont, in_range; apply andb_false_iff; left; apply N.leb_gt; lia.
Qed.
Lemma decode_app_head s a w : s <> [] -> (bv a < 128)%N -> decode_rune (s ++ a :: w) = decode_rune s.
Proof.
  intros Hs Ha. pose proof (ascii_not_cont a Ha) as C. destruct s as [|a0 s]; [congruence|].
  pose proof (ascii_not_second (bv a0) a Ha) as C2. cbn [app]. unfold decode_rune.
  destruct (N.ltb (bv a0) 128); [reflexivity|].
  destruct (in_range 194 223 (bv a0)); [destruct s; cbn [app]; [rewrite C|]; reflexivity|].
  destruct (in_range 224 239 (bv a0)).
  { destruct s as [|a1 [|a2 s]]; cbn [app]; [|rewrite C, andb_false_r; reflexivity|reflexivity].
    destruct w; [reflexivity|]. rewrite C2. reflexivity. }
  destruct (in_range 240 244 (bv a0)); [|reflexivity].
  destruct s as [|a1 [|a2 [|a3 s]]]; cbn [app]; [| | |reflexivity].
  - destruct w as [|? [|? ?]]; try reflexivity. rewrite C2. reflexivity.
  - destruct w as [|? ?]; try reflexivity. rewrite C, andb_false_r. reflexivity.
  - rewrite C, andb_false_r. reflexivity.
Qed.
Lemma decode_app_last s a w : (bv a < 128)%N -> decode_rune ((s ++ [a]) ++ w) = decode_rune (s ++ [a]).
Proof.
  intros Ha. rewrite <- app_assoc. cbn [app]. destruct s as [|a0 s].
  - cbn [app]. unfold decode_rune. apply N.ltb_lt in Ha. rewrite Ha. reflexivity.
  - rewrite (decode_app_head (a0 :: s) a w), (decode_app_head (a0 :: s) a []) by (discriminate || exact Ha). reflexivity.
Qed.

(** ** Scan on a longer text *)
Definition tend (t : token) : nat := tk_off t + length (tk_lit t).
Definition ext (lx : lexer) (w : gostr) : lexer := Lexer (lx_rest lx ++ w) (lx_pos lx) (lx_line lx) (lx_col lx).
(** The states that accept [ty] have no transition on the first rune of [w]. *)
Definition blocked (ty : nat) (w : gostr) : Prop :=
  w <> [] -> forall st, st < 141 -> fst (act st) = Z.of_nat ty -> trans st (fst (decode_rune w)) = None.

Definition targets (s : nat) : list nat :=
  match nth_error trans_tab s with Some (rs, d) => map snd rs ++ match d with Some t => [t] | None => [] end | None => [] end.
Lemma find_range_in l r t : find_range l r = Some t -> In t (map snd l).
Proof.
  induction l as [|[[lo hi] x] l IH]; [discriminate|]. cbn [find_range]. destruct (in_range lo hi r); [intros H; injection H as <-; left; reflexivity|].
  intros H. right. apply IH. exact H.
Qed.
Lemma trans_target s r t : trans s r = Some t -> In t (targets s).
Proof.
  unfold trans, targets. destruct (nth_error trans_tab s) as [[rs d]|]; [|discriminate]. destruct (find_range rs r) eqn:E.
  - intros H. injection H as <-. apply in_or_app. left. eapply find_range_in. exact E.
  - intros ->. apply in_or_app. right. left. reflexivity.
Qed.
(** After a lexeme that is a token, Scan reads on only while it has a token. *)
Lemma accept_closed_ok : forallb (fun s => if Z.leb 2 (fst (act s)) then forallb (fun t => Z.leb 2 (fst (act t))) (targets s) else true) (seq 0 141) = true.
Proof. vm_compute. reflexivity. Qed.
Lemma accept_closed s r t : s < 141 -> (2 <= fst (act s))%Z -> trans s r = Some t -> (2 <= fst (act t))%Z.
Proof.
  intros L A T. pose proof accept_closed_ok as C. rewrite forallb_forall in C. specialize (C s (proj2 (in_seq 141 0 s) ltac:(lia))).
  cbv beta in C. apply Z.leb_le in A. rewrite A in C. rewrite forallb_forall in C. specialize (C t (trans_target _ _ _ T)). apply Z.leb_le in C. exact C.
Qed.

Definition loop_ok (state : nat) (rest : gostr) (pos start endp ty : nat) : Prop :=
  (pos = start /\ endp <= start /\ ((ty = INVALID /\ rest <> []) \/ (ty = EOF /\ rest = []))) \/
  (start < pos /\ endp = pos /\ state < 141 /\ fst (act state) = Z.of_nat ty /\ ty <> EOF).
(** One step of the loop keeps the invariant: two cases, a state that accepts and one that ignores. *)
Lemma loop_step state b rest pos start endp ty n r st' :
  loop_ok state (b :: rest) pos start endp ty -> 0 < n -> trans state r = Some st' ->
  (exists m ign, act st' = (Z.of_nat m, ign) /\ forall rs, loop_ok st' rs (pos + n) start (pos + n) m) \/
  (act st' = ((-1)%Z, true) /\ ty = INVALID /\
   forall rs, loop_ok 0 rs (pos + n) (pos + n) endp (match rs with [] => EOF | _ => ty end)).
Proof.
  intros I N Et. pose proof (trans_bound _ _ _ Et) as [Bs Bd]. destruct (act_case st' Bd) as [[Ea _]|(m & ign & Ea & M & _)].
  - right. split; [exact Ea|].
    assert (T : ty = INVALID).
    { destruct I as [(A & B & [[C _]|[_ C]])|(A & B & C & D & E)]; [exact C|discriminate|].
      destruct (Nat.eq_dec ty INVALID) as [|Ne]; [assumption|]. exfalso.
      pose proof (accept_closed _ _ _ C ltac:(unfold INVALID, EOF in *; lia) Et) as K. rewrite Ea in K. cbn in K. lia. }
    split; [exact T|]. intros rs. left. split; [reflexivity|]. split; [destruct I as [(A & B & _)|(A & B & _)]; lia|].
    destruct rs; [right; split; reflexivity|left; split; [exact T|discriminate]].
  - left. exists m, ign. split; [exact Ea|]. intros rs. right. rewrite Ea. cbn [fst].
    split; [destruct I as [(A & _)|(A & _)]; lia|]. split; [reflexivity|]. split; [exact Bd|]. split; [reflexivity|exact M].
Qed.
Lemma finish_end state rest pos start endp ty rest' pos' n line col srest sline scol t lx' :
  loop_ok state rest pos start endp ty -> length srest = length rest + (pos - start) -> pos' = pos + n -> n <= length rest -> (rest <> [] -> 0 < n) ->
  scan_finish rest' pos' line col srest start sline scol (if Nat.eqb ty INVALID then pos' else endp) ty = (t, lx') ->
  pos <= tend t /\ tend t <= pos + length rest /\ tk_type t = ty /\ (ty <> INVALID -> tend t = pos).
Proof.
  intros I L -> N P H. unfold scan_finish in H.
  destruct (Nat.ltb_spec start (if Nat.eqb ty INVALID then pos + n else endp)) as [Hl|Hl];
    injection H as <- _; unfold tend; cbn [tk_off tk_lit tk_type length].
  - destruct (Nat.eqb_spec ty INVALID) as [->|Ne].
    + rewrite firstn_length_le by (destruct I as [(A & _)|(A & _)]; lia). split; [destruct I as [(A & _)|(A & _)]; lia|]. split; [destruct I as [(A & _)|(A & _)]; lia|]. split; [reflexivity|congruence].
    + assert (E : endp = pos) by (destruct I as [(A & B & _)|(A & B & _)]; lia). subst endp.
      rewrite firstn_length_le by lia. split; [lia|]. split; [lia|]. split; [reflexivity|lia].
  - destruct I as [(A & B & C)|(A & B & C)].
    + subst pos. split; [lia|]. split; [lia|]. split; [reflexivity|lia].
    + exfalso. destruct (Nat.eqb ty INVALID); lia.
Qed.

Lemma scan_loop_end : forall fuel state rest pos line col srest start sline scol endp ty t lx',
  loop_ok state rest pos start endp ty -> length srest = length rest + (pos - start) ->
  scan_loop fuel state rest pos line col srest start sline scol endp ty = Some (t, lx') ->
  pos <= tend t /\ tend t <= pos + length rest.
Proof.
  induction fuel as [|f IH]; intros state rest pos line col srest start sline scol endp ty t lx' I L H; [discriminate|].
  destruct rest as [|b rest].
  - cbn [scan_loop] in H. cbv zeta in H. injection H as H.
    destruct (finish_end _ _ _ _ _ _ _ pos 0 _ _ _ _ _ _ _ I L ltac:(lia) ltac:(cbn; lia) ltac:(congruence) H) as (A & B & _). auto.
  - rewrite scan_loop_S in H. pose proof (decode_spec (b :: rest) ltac:(discriminate)) as D0.
    destruct (decode_rune (b :: rest)) as [r n]. destruct D0 as [D0 _]. cbv zeta in H.
    assert (L' : length (skipn n (b :: rest)) = length (b :: rest) - n) by apply skipn_length.
    destruct (trans state r) as [st'|] eqn:Et.
    + destruct (loop_step _ _ _ _ _ _ _ n _ _ I ltac:(lia) Et) as [(m & ign & Ea & I')|(Ea & -> & I')]; rewrite Ea in H.
      * replace (negb (Z.eqb (Z.of_nat m) (-1))) with true in H by (symmetry; apply negb_true_iff, Z.eqb_neq; lia). rewrite Nat2Z.id in H.
        apply IH in H; [lia|apply I'|]. destruct I as [(A & _)|(A & _)]; lia.
      * change (negb (Z.eqb (-1) (-1))) with false in H. cbv iota in H. apply IH in H; [lia|apply I'|lia].
    + injection H as H.
      destruct (finish_end _ _ _ _ _ _ _ (pos + n) n _ _ _ _ _ _ _ I L ltac:(lia) ltac:(lia) ltac:(lia) H) as (A & B & _). auto.
Qed.
Lemma firstn_app_le {A} (a b : list A) n : n <= length a -> firstn n (a ++ b) = firstn n a.
Proof. intros H. rewrite firstn_app. replace (n - length a) with 0 by lia. cbn. apply app_nil_r. Qed.
Lemma skipn_app_le {A} (a b : list A) n : n <= length a -> skipn n (a ++ b) = skipn n a ++ b.
Proof. intros H. rewrite skipn_app. replace (n - length a) with 0 by lia. reflexivity. Qed.
Lemma finish_ext rest pos line col srest start sline scol e ty w :
  (start < e -> e - start <= length srest) ->
  scan_finish (rest ++ w) pos line col (srest ++ w) start sline scol e ty =
  let '(t, lx) := scan_finish rest pos line col srest start sline scol e ty in (t, ext lx w).
Proof.
  intros H. unfold scan_finish. destruct (Nat.ltb_spec start e) as [L|L]; [|reflexivity].
  rewrite firstn_app_le, skipn_app_le by auto. reflexivity.
Qed.

Lemma scan_loop_ext w : forall fuel fuel' state rest pos line col srest start sline scol endp ty t lx',
  fuel <= fuel' -> loop_ok state rest pos start endp ty -> length srest = length rest + (pos - start) ->
  scan_loop fuel state rest pos line col srest start sline scol endp ty = Some (t, lx') ->
  (forall s x, s <> [] -> rest = x ++ s -> pos + length x <= tend t -> decode_rune (s ++ w) = decode_rune s) ->
  tend t < pos + length rest \/ (is_final t = false /\ blocked (tk_type t) w) ->
  scan_loop fuel' state (rest ++ w) pos line col (srest ++ w) start sline scol endp ty = Some (t, ext lx' w).
Proof.
  induction fuel as [|f IH]; intros fuel' state rest pos line col srest start sline scol endp ty t lx' Fl I L H Hd He; [discriminate|].
  destruct fuel' as [|f']; [lia|].
  destruct rest as [|b rest].
  - cbn [scan_loop] in H. cbv zeta in H. injection H as H.
    destruct (finish_end _ _ _ _ _ _ _ pos 0 _ _ _ _ _ _ _ I L ltac:(lia) ltac:(cbn; lia) ltac:(congruence) H) as (A & B & C & D).
    destruct He as [He|[Hf Hb]]; [cbn [length] in He; lia|].
    assert (Ty : ty <> INVALID /\ ty <> EOF).
    { unfold is_final in Hf. rewrite C in Hf. apply orb_false_iff in Hf. destruct Hf as [F1 F2]. apply Nat.eqb_neq in F1, F2. auto. }
    destruct I as [(_ & _ & [[C1 _]|[C1 _]])|(I1 & I2 & I3 & I4 & _)]; [tauto|tauto|].
    assert (Es : (if Nat.eqb ty INVALID then pos else endp) = endp) by (destruct (Nat.eqb_spec ty INVALID); [tauto|reflexivity]).
    rewrite Es in H. cbn [app]. destruct w as [|a w].
    + cbn [scan_loop]. cbv zeta. rewrite Es, app_nil_r, H. destruct lx' as [r1 p1 l1 c1]. unfold ext. cbn. rewrite app_nil_r. reflexivity.
    + rewrite scan_loop_S. pose proof (Hb ltac:(discriminate) state I3 ltac:(congruence)) as Tn. destruct (decode_rune (a :: w)) as [r n]. cbn [fst] in Tn.
      cbv zeta. rewrite Tn. destruct (Nat.eqb_spec ty INVALID) as [E|_]; [tauto|].
      unfold scan_finish in H |- *. cbn [length] in L. replace (Nat.ltb start endp) with true in * by (symmetry; apply Nat.ltb_lt; lia).
      injection H as <- <-. unfold ext. cbn [lx_rest lx_pos lx_line lx_col]. rewrite firstn_app_le, skipn_app_le by lia. reflexivity.
  - pose proof (scan_loop_end _ _ _ _ _ _ _ _ _ _ _ _ _ _ I L H) as [Te _].
    pose proof (Hd (b :: rest) [] ltac:(discriminate) eq_refl ltac:(cbn; lia)) as Dc.
    rewrite scan_loop_S in H. cbn [app]. rewrite scan_loop_S. change (b :: rest ++ w) with ((b :: rest) ++ w). rewrite Dc. clear Dc.
    pose proof (decode_spec (b :: rest) ltac:(discriminate)) as D0.
    destruct (decode_rune (b :: rest)) as [r n]. destruct D0 as [D0 _]. cbv zeta in H |- *.
    assert (L' : length (skipn n (b :: rest)) = length (b :: rest) - n) by apply skipn_length.
    rewrite (skipn_app_le (b :: rest) w n) by lia.
    assert (Hd' : forall s x, s <> [] -> skipn n (b :: rest) = x ++ s -> pos + n + length x <= tend t -> decode_rune (s ++ w) = decode_rune s).
    { intros s x Hs Hx Hl. apply (Hd s (firstn n (b :: rest) ++ x) Hs).
      - rewrite <- app_assoc, <- Hx. symmetry. apply firstn_skipn.
      - rewrite app_length, firstn_length_le by lia. lia. }
    destruct (trans state r) as [st'|] eqn:Et.
    + destruct (loop_step _ _ _ _ _ _ _ n _ _ I ltac:(lia) Et) as [(m & ign & Ea & I')|(Ea & -> & I')]; rewrite Ea in H |- *.
      * replace (negb (Z.eqb (Z.of_nat m) (-1))) with true in * by (symmetry; apply negb_true_iff, Z.eqb_neq; lia). rewrite Nat2Z.id in *.
        eapply IH; [|apply I'| |exact H|exact Hd'|]; [lia| |].
        -- destruct I as [(A & _)|(A & _)]; lia.
        -- destruct He as [He|He]; [left; lia|right; exact He].
      * change (negb (Z.eqb (-1) (-1))) with false in *. cbv iota in H |- *.
        remember (skipn n (b :: rest)) as rs eqn:Ers. destruct rs as [|b1 rs].
        -- exfalso. destruct f as [|f]; [discriminate|]. cbn [scan_loop] in H. cbv zeta in H. injection H as H.
           destruct (finish_end 0 [] (pos + n) (pos + n) endp EOF _ (pos + n) 0 _ _ [] _ _ _ _ (I' []) ltac:(cbn; lia) ltac:(lia) ltac:(cbn; lia) ltac:(congruence) H) as (A & B & C & D).
           specialize (D ltac:(discriminate)). cbn [length] in *. destruct He as [He|[He _]]; [lia|]. unfold is_final in He. rewrite C in He. discriminate.
        -- cbn [app] in *. change (b1 :: rs ++ w) with ((b1 :: rs) ++ w).
           eapply (IH f' 0 (b1 :: rs) (pos + n) _ _ (b1 :: rs) (pos + n)); [lia|apply (I' (b1 :: rs))|lia|exact H|exact Hd'|].
           destruct He as [He|He]; [left; lia|right; exact He].
    + injection H as H. f_equal.
      destruct (finish_end _ _ _ _ _ _ _ (pos + n) n _ _ _ _ _ _ _ I L ltac:(lia) ltac:(lia) ltac:(lia) H) as (A & B & C & D).
      rewrite finish_ext; [rewrite H; reflexivity|]. intros _. destruct I as [(I1 & I2 & _)|(I1 & I2 & _)]; destruct (Nat.eqb ty INVALID); lia.
Qed.

Lemma scan_ext lx w t lx' :
  scan lx = Some (t, lx') ->
  (forall s x, s <> [] -> lx_rest lx = x ++ s -> lx_pos lx + length x <= tend t -> decode_rune (s ++ w) = decode_rune s) ->
  tend t < lx_pos lx + length (lx_rest lx) \/ (is_final t = false /\ blocked (tk_type t) w) ->
  scan (ext lx w) = Some (t, ext lx' w).
Proof.
  intros H Hd He. unfold scan in H |- *. cbn [ext lx_rest lx_pos lx_line lx_col].
  destruct (lx_rest lx) as [|b rest] eqn:Er.
  - injection H as <- <-. exfalso. unfold tend in He. cbn in He. destruct He as [He|[He _]]; [lia|discriminate].
  - cbn [app]. change (b :: rest ++ w) with ((b :: rest) ++ w).
    eapply (scan_loop_ext w _ _ 0 (b :: rest) (lx_pos lx) _ _ (b :: rest)); [|left|lia|exact H|exact Hd|exact He].
    + rewrite app_length. lia.
    + split; [reflexivity|]. split; [lia|]. left. split; [reflexivity|discriminate].
Qed.
Lemma scan_end lx t lx' : scan lx = Some (t, lx') -> lx_pos lx <= tend t /\ tend t <= lx_pos lx + length (lx_rest lx).
Proof.
  intros H. unfold scan in H. destruct (lx_rest lx) as [|b rest] eqn:Er.
  - injection H as <- <-. unfold tend. cbn. lia.
  - eapply (scan_loop_end _ 0 (b :: rest) (lx_pos lx) _ _ (b :: rest) (lx_pos lx)); [left|lia|exact H].
    split; [reflexivity|]. split; [lia|]. left. split; [reflexivity|discriminate].
Qed.
(** After a token the lexer is at its end. *)
Lemma scan_loop_after : forall fuel state rest pos line col srest start sline scol endp ty t lx',
  loop_ok state rest pos start endp ty -> (exists x, length x = pos - start /\ srest = x ++ rest) ->
  scan_loop fuel state rest pos line col srest start sline scol endp ty = Some (t, lx') ->
  exists x, rest = x ++ lx_rest lx' /\ lx_pos lx' = pos + length x /\ (is_final t = false -> lx_pos lx' = tend t).
Proof.
  induction fuel as [|f IH]; intros state rest pos line col srest start sline scol endp ty t lx' I Hx H; [discriminate|].
  assert (FIN : forall rest' n, rest' = skipn n rest -> n <= length rest -> 
     scan_finish rest' (pos + n) line col srest start sline scol (if Nat.eqb ty INVALID then pos + n else endp) ty = (t, lx') ->
     exists x, rest = x ++ lx_rest lx' /\ lx_pos lx' = pos + length x /\ (is_final t = false -> lx_pos lx' = tend t)).
  { intros rest' n -> N E. unfold scan_finish in E. destruct Hx as (x & Lx & ->).
    destruct (Nat.ltb_spec start (if Nat.eqb ty INVALID then pos + n else endp)) as [Hl|Hl]; injection E as <- <-; cbn [lx_rest lx_pos].
    - destruct (Nat.eqb ty INVALID) eqn:Ei.
      + exists (firstn n rest). split; [|split].
        * rewrite skipn_app, skipn_all2 by lia. cbn [app]. replace (pos + n - start - length x) with n by (destruct I as [(A & _)|(A & _)]; lia). symmetry. apply firstn_skipn.
        * rewrite firstn_length_le; lia.
        * intros Hf. unfold is_final in Hf. cbn [tk_type] in Hf. rewrite Ei, orb_true_r in Hf. discriminate.
      + assert (endp = pos) by (destruct I as [(A & B & _)|(A & B & _)]; lia). subst endp. exists []. split; [|split].
        * rewrite skipn_app, skipn_all2 by lia. cbn [app]. replace (pos - start - length x) with 0 by lia. reflexivity.
        * cbn. lia.
        * intros _. unfold tend. cbn [tk_off tk_lit]. rewrite firstn_length, app_length. lia.
    - exists (firstn n rest). split; [symmetry; apply firstn_skipn|]. split; [rewrite firstn_length_le; lia|].
      intros Hf. destruct I as [(A & B & [[-> _]|[-> _]])|(A & B & C)]; [discriminate|discriminate|]. destruct (Nat.eqb ty INVALID); lia. }
  destruct rest as [|b rest].
  - cbn [scan_loop] in H. cbv zeta in H. injection H as H. apply (FIN [] 0); [reflexivity|cbn; lia|]. rewrite Nat.add_0_r. exact H.
  - rewrite scan_loop_S in H. pose proof (decode_spec (b :: rest) ltac:(discriminate)) as D0.
    destruct (decode_rune (b :: rest)) as [r n]. destruct D0 as [D0 _]. cbv zeta in H.
    assert (L' : length (skipn n (b :: rest)) = length (b :: rest) - n) by apply skipn_length.
    assert (Lf : length (firstn n (b :: rest)) = n) by (apply firstn_length_le; lia).
    destruct (trans state r) as [st'|] eqn:Et.
    + assert (K : forall st0 srest0 start0 l0 c0 e0 ty0 sl sc, loop_ok st0 (skipn n (b :: rest)) (pos + n) start0 e0 ty0 ->
        (exists x, length x = pos + n - start0 /\ srest0 = x ++ skipn n (b :: rest)) ->
        scan_loop f st0 (skipn n (b :: rest)) (pos + n) l0 c0 srest0 start0 sl sc e0 ty0 = Some (t, lx') ->
        exists x, b :: rest = x ++ lx_rest lx' /\ lx_pos lx' = pos + length x /\ (is_final t = false -> lx_pos lx' = tend t)).
      { intros st0 srest0 start0 l0 c0 e0 ty0 sl sc K1 K2 K3. destruct (IH _ _ _ _ _ _ _ _ _ _ _ _ _ K1 K2 K3) as (x & E1 & E2 & E3).
        exists (firstn n (b :: rest) ++ x). split; [|split; [rewrite app_length; lia|exact E3]].
        rewrite <- app_assoc, <- E1. symmetry. apply firstn_skipn. }
      destruct (loop_step _ _ _ _ _ _ _ n _ _ I ltac:(lia) Et) as [(m & ign & Ea & I')|(Ea & -> & I')]; rewrite Ea in H.
      * replace (negb (Z.eqb (Z.of_nat m) (-1))) with true in * by (symmetry; apply negb_true_iff, Z.eqb_neq; lia). rewrite Nat2Z.id in *.
        eapply K; [apply I'| |exact H]. destruct Hx as (x & Lx & ->). exists (x ++ firstn n (b :: rest)). split.
        -- rewrite app_length. destruct I as [(A & _)|(A & _)]; lia.
        -- rewrite <- app_assoc, firstn_skipn. reflexivity.
      * change (negb (Z.eqb (-1) (-1))) with false in *. cbv iota in H. eapply K; [apply I'| |exact H]. exists []. split; [cbn; lia|reflexivity].
    + injection H as H. apply (FIN _ n eq_refl ltac:(lia) H).
Qed.
Lemma scan_after lx t lx' : scan lx = Some (t, lx') ->
  exists x, lx_rest lx = x ++ lx_rest lx' /\ lx_pos lx' = lx_pos lx + length x /\ (is_final t = false -> lx_pos lx' = tend t).
Proof.
  intros H. unfold scan in H. destruct (lx_rest lx) as [|b rest] eqn:Er.
  - injection H as <- <-. exists []. rewrite Er. cbn. split; [reflexivity|]. split; [lia|]. discriminate.
  - eapply (scan_loop_after _ 0 (b :: rest) (lx_pos lx) _ _ (b :: rest) (lx_pos lx)); [left| |exact H].
    + split; [reflexivity|]. split; [lia|]. left. split; [reflexivity|discriminate].
    + exists []. split; [cbn; lia|reflexivity].
Qed.

(** ** Many calls of Scan *)
(** The lexer before the token number [length a]. *)
Inductive reaches : lexer -> list token -> lexer -> Prop :=
| rch_here lx : reaches lx [] lx
| rch_next lx t lx1 a lx2 : scan lx = Some (t, lx1) -> is_final t = false -> reaches lx1 a lx2 -> reaches lx (t :: a) lx2.
Lemma reaches_app lx a lx1 b lx2 : reaches lx a lx1 -> reaches lx1 b lx2 -> reaches lx (a ++ b) lx2.
Proof. induction 1; intros K; [exact K|]. cbn. econstructor; eauto. Qed.
Lemma scan_all_reaches : forall a fuel lx x v, scan_all fuel lx = a ++ x :: v ->
  exists lx1 lx2 f, reaches lx a lx1 /\ scan lx1 = Some (x, lx2) /\ fuel = length a + S f /\
    (if is_final x then v = [] else v = scan_all f lx2).
Proof.
  induction a as [|t a IH]; intros fuel lx x v H; destruct fuel as [|f]; try discriminate; cbn [scan_all app] in H;
    destruct (scan lx) as [[t1 lx1]|] eqn:E; try discriminate.
  - exists lx, lx1, f. split; [constructor|]. destruct (is_final t1) eqn:F; injection H as <- <-; rewrite F; auto.
  - destruct (is_final t1) eqn:F; [injection H as _ H; destruct a; discriminate|]. injection H as <- H.
    destruct (IH _ _ _ _ H) as (l1 & l2 & f1 & R & S1 & E1 & E2). exists l1, l2, f1. split; [econstructor; eauto|]. split; [exact S1|]. split; [cbn [length]; lia|exact E2].
Qed.
Lemma reaches_scan_all lx a lx1 : reaches lx a lx1 -> forall f, scan_all (length a + f) lx = a ++ scan_all f lx1.
Proof.
  induction 1 as [lx|lx t lx1 a lx2 S F R IH]; intros f; [reflexivity|]. cbn [length Nat.add scan_all app]. rewrite S, F, IH. reflexivity.
Qed.
Lemma reaches_pos lx a lx1 : reaches lx a lx1 -> exists y, lx_rest lx = y ++ lx_rest lx1 /\ lx_pos lx1 = lx_pos lx + length y.
Proof.
  induction 1 as [lx|lx t lx1 a lx2 S F R IH]; [exists []; cbn; auto|]. destruct IH as (y & E1 & E2).
  destruct (scan_after _ _ _ S) as (x & E3 & E4 & _). exists (x ++ y). rewrite E3, E1, app_assoc, app_length. split; [reflexivity|lia].
Qed.
Definition stable (lx : lexer) (e : nat) (w : gostr) : Prop :=
  forall s y, s <> [] -> lx_rest lx = y ++ s -> lx_pos lx + length y <= e -> decode_rune (s ++ w) = decode_rune s.
Lemma stable_after lx y lx1 e w : lx_rest lx = y ++ lx_rest lx1 -> lx_pos lx1 = lx_pos lx + length y -> stable lx e w -> stable lx1 e w.
Proof.
  intros E1 E2 H s z Hs Ez Hl. apply (H s (y ++ z) Hs); [rewrite E1, Ez, app_assoc; reflexivity|rewrite app_length; lia].
Qed.
Lemma stable_le lx e e' w : e' <= e -> stable lx e w -> stable lx e' w.
Proof. intros L H s y Hs E Hl. apply (H s y Hs E). lia. Qed.
(** Tokens before [x] are found again in the longer text, and so is [x] unless the end of the text decides about it. *)
Lemma reaches_ext w : forall lx a lx1, reaches lx a lx1 -> lx_rest lx1 <> [] -> stable lx (lx_pos lx1) w -> reaches (ext lx w) a (ext lx1 w).
Proof.
  induction 1 as [lx|lx t lx1 a lx2 S F R IH]; intros N H; [constructor|].
  destruct (scan_after _ _ _ S) as (x & E1 & E2 & E3). specialize (E3 F).
  destruct (reaches_pos _ _ _ R) as (y & E4 & E5).
  assert (N' : 0 < length (lx_rest lx2)) by (destruct (lx_rest lx2); [congruence|cbn; lia]).
  econstructor; [|exact F|apply IH; [exact N|eapply stable_after; eauto]].
  apply scan_ext; [exact S|eapply stable_le; [|exact H]; lia|]. left. rewrite E1, app_length, E4, app_length. lia.
Qed.
Lemma scan_nonfinal_rest lx t lx' : scan lx = Some (t, lx') -> is_final t = false -> lx_rest lx <> [].
Proof. unfold scan. destruct (lx_rest lx); [|discriminate]. intros H. injection H as <- _. discriminate. Qed.

(** ** Layout at the end of the text *)
Lemma scan_loop_mono : forall f f' state rest pos line col srest start sline scol endp ty r, f <= f' ->
  scan_loop f state rest pos line col srest start sline scol endp ty = Some r ->
  scan_loop f' state rest pos line col srest start sline scol endp ty = Some r.
Proof.
  induction f as [|f IH]; intros f' state rest pos line col srest start sline scol endp ty r L H; [discriminate|]. destruct f' as [|f']; [lia|].
  destruct rest as [|b rest]; [exact H|]. rewrite scan_loop_S in *. destruct (decode_rune (b :: rest)) as [c n]. cbv zeta in *.
  destruct (trans state c); [|exact H]. destruct (act n0) as [acc ign]. destruct (negb (Z.eqb acc (-1))); [eapply IH; [lia|exact H]|].
  destruct ign; (eapply IH; [lia|exact H]).
Qed.
Lemma scan_loop_endp : forall f rest pos line col e1 e2, e1 <= pos -> e2 <= pos ->
  scan_loop f 0 rest pos line col rest pos line col e1 (match rest with [] => EOF | _ => INVALID end) =
  scan_loop f 0 rest pos line col rest pos line col e2 (match rest with [] => EOF | _ => INVALID end).
Proof.
  induction f as [|f IH]; intros rest pos line col e1 e2 L1 L2; [reflexivity|]. destruct rest as [|b rest].
  - cbn [scan_loop]. cbv zeta. change (Nat.eqb EOF INVALID) with false. cbv iota. unfold scan_finish.
    replace (Nat.ltb pos e1) with false by (symmetry; apply Nat.ltb_ge; lia). replace (Nat.ltb pos e2) with false by (symmetry; apply Nat.ltb_ge; lia). reflexivity.
  - rewrite !scan_loop_S. pose proof (decode_spec (b :: rest) ltac:(discriminate)) as D0. destruct (decode_rune (b :: rest)) as [r n]. destruct D0 as [D0 _]. cbv zeta.
    destruct (trans 0 r) as [st'|] eqn:Et.
    + assert (I : loop_ok 0 (b :: rest) pos pos e1 INVALID) by (left; split; [reflexivity|split; [exact L1|left; split; [reflexivity|discriminate]]]).
      destruct (loop_step _ _ _ _ _ _ _ n _ _ I ltac:(lia) Et) as [(m & ign & Ea & I')|(Ea & _ & I')]; rewrite Ea.
      * replace (negb (Z.eqb (Z.of_nat m) (-1))) with true by (symmetry; apply negb_true_iff, Z.eqb_neq; lia). reflexivity.
      * change (negb (Z.eqb (-1) (-1))) with false. cbv iota. apply IH; lia.
    + reflexivity.
Qed.
(** A lexeme that is being read has been read to its end or is a token (or nothing) yet: a loop that ends with EOF ends after layout. *)
Lemma scan_loop_eof w : w <> [] -> forall f state rest pos line col srest start sline scol endp ty t lx' f' r,
  loop_ok state rest pos start endp ty -> length srest = length rest + (pos - start) ->
  scan_loop f state rest pos line col srest start sline scol endp ty = Some (t, lx') -> tk_type t = EOF -> rest <> [] ->
  (forall s y, s <> [] -> rest = y ++ s -> decode_rune (s ++ w) = decode_rune s) ->
  f + f' >= 0 ->
  scan_loop f' 0 w (lx_pos lx') (lx_line lx') (lx_col lx') w (lx_pos lx') (lx_line lx') (lx_col lx') 0 INVALID = Some r ->
  lx_rest lx' = [] /\ lx_pos lx' = pos + length rest /\
  scan_loop (f + f') state (rest ++ w) pos line col (srest ++ w) start sline scol endp ty = Some r.
Proof.
  intros W. induction f as [|f IH]; intros state rest pos line col srest start sline scol endp ty t lx' f' r I L H Ty N Hd _ R; [discriminate|].
  destruct rest as [|b rest]; [congruence|].
  pose proof (Hd (b :: rest) [] ltac:(discriminate) eq_refl) as Dc. rewrite scan_loop_S in H. cbn [app Nat.add]. rewrite scan_loop_S. change (b :: rest ++ w) with ((b :: rest) ++ w). rewrite Dc. clear Dc.
  pose proof (decode_spec (b :: rest) ltac:(discriminate)) as D0. destruct (decode_rune (b :: rest)) as [c n]. destruct D0 as [D0 _]. cbv zeta in H |- *.
  assert (L' : length (skipn n (b :: rest)) = length (b :: rest) - n) by apply skipn_length.
  rewrite (skipn_app_le (b :: rest) w n) by lia.
  assert (Hd' : forall s y, s <> [] -> skipn n (b :: rest) = y ++ s -> decode_rune (s ++ w) = decode_rune s).
  { intros s y Hs Hy. apply (Hd s (firstn n (b :: rest) ++ y) Hs). rewrite <- app_assoc, <- Hy. symmetry. apply firstn_skipn. }
  destruct (trans state c) as [st'|] eqn:Et.
  - destruct (loop_step _ _ _ _ _ _ _ n _ _ I ltac:(lia) Et) as [(m & ign & Ea & I')|(Ea & -> & I')]; rewrite Ea in H |- *.
    + replace (negb (Z.eqb (Z.of_nat m) (-1))) with true in * by (symmetry; apply negb_true_iff, Z.eqb_neq; lia). rewrite Nat2Z.id in *.
      destruct (skipn n (b :: rest)) as [|b1 rs] eqn:Ers.
      * exfalso. destruct f as [|f]; [discriminate|]. cbn [scan_loop] in H. cbv zeta in H. injection H as H.
        assert (Lx : length srest = length (@nil ascii) + (pos + n - start)) by (cbn [length] in *; destruct I as [(A & _)|(A & _)]; lia).
        destruct (finish_end _ _ _ _ _ _ _ (pos + n) 0 _ _ _ _ _ _ _ (I' []) Lx ltac:(lia) ltac:(cbn; lia) ltac:(congruence) H) as (_ & _ & C & _).
        destruct (I' []) as [(A & _)|(_ & _ & _ & _ & E)]; [destruct I as [(A1 & _)|(A1 & _)]; lia|]. congruence.
      * destruct (IH st' (b1 :: rs) (pos + n) _ _ srest start _ _ _ _ _ _ f' r (I' _) ltac:(destruct I as [(A & _)|(A & _)]; lia) H Ty ltac:(discriminate) Hd' ltac:(lia) R) as (A & B & C).
        split; [exact A|]. split; [lia|exact C].
    + change (negb (Z.eqb (-1) (-1))) with false in *. cbv iota in H |- *.
      destruct (skipn n (b :: rest)) as [|b1 rs] eqn:Ers.
      * destruct f as [|f]; [discriminate|]. cbn [scan_loop] in H. cbv zeta in H. change (Nat.eqb EOF INVALID) with false in H. cbv iota in H. unfold scan_finish in H.
        assert (Le : endp <= pos) by (destruct I as [(A & B & _)|(A & B & _)]; lia).
        replace (Nat.ltb (pos + n) endp) with false in H by (symmetry; apply Nat.ltb_ge; lia). injection H as <- <-. cbn [lx_rest lx_pos lx_line lx_col] in *.
        split; [reflexivity|]. cbn [length] in *. split; [lia|]. cbn [app].
        destruct w as [|a w]; [congruence|]. apply (scan_loop_mono f'); [lia|]. rewrite <- R.
        apply (scan_loop_endp f' (a :: w) (pos + n) (next_line c line) (next_col c col) endp 0); lia.
      * cbn [app]. change (b1 :: rs ++ w) with ((b1 :: rs) ++ w).
        destruct (IH 0 (b1 :: rs) (pos + n) _ _ (b1 :: rs) (pos + n) _ _ _ _ _ _ f' r (I' (b1 :: rs)) ltac:(lia) H Ty ltac:(discriminate) Hd' ltac:(lia) R) as (A & B & C).
        split; [exact A|]. split; [lia|exact C].
  - exfalso. injection H as H.
    destruct (finish_end _ _ _ _ _ _ _ (pos + n) n _ _ _ _ _ _ _ I L ltac:(lia) ltac:(lia) ltac:(lia) H) as (_ & _ & C & _).
    destruct I as [(_ & _ & [[A _]|[_ A]])|(_ & _ & _ & _ & A)]; [unfold EOF, INVALID in *; congruence|discriminate|congruence].
Qed.
Lemma scan_total lx : exists t lx', scan lx = Some (t, lx').
Proof.
  destruct (scan_ok (lx_rest lx) (Pos (lx_pos lx) (lx_line lx) (lx_col lx))) as (t & lx' & H & _).
  replace (mk_lex (lx_rest lx) (Pos (lx_pos lx) (lx_line lx) (lx_col lx))) with lx in H by (destruct lx; reflexivity). eauto.
Qed.
Lemma scan_eof lx w t lx' : scan lx = Some (t, lx') -> tk_type t = EOF -> stable lx (lx_pos lx + length (lx_rest lx)) w ->
  lx_rest lx' = [] /\ lx_pos lx' = lx_pos lx + length (lx_rest lx) /\
  (w <> [] -> scan (ext lx w) = scan (ext lx' w)).
Proof.
  intros H Ty Hd. pose proof H as H0. unfold scan in H. destruct (lx_rest lx) as [|b rest] eqn:Er.
  - injection H as <- <-. rewrite Er. cbn. split; [reflexivity|]. split; [lia|]. intros _. reflexivity.
  - assert (I : loop_ok 0 (b :: rest) (lx_pos lx) (lx_pos lx) 0 INVALID) by (left; split; [reflexivity|split; [lia|left; split; [reflexivity|discriminate]]]).
    destruct w as [|a w].
    + assert (K : lx_rest lx' = [] /\ lx_pos lx' = lx_pos lx + length (b :: rest)); [|destruct K; split; [|split]; auto; congruence].
      pose proof (scan_loop_eof [ascii_of_nat 32] ltac:(discriminate)) as K.
      destruct (scan_total (Lexer [ascii_of_nat 32] (lx_pos lx') (lx_line lx') (lx_col lx'))) as (t1 & l1 & R).
      unfold scan in R. cbn [lx_rest lx_pos lx_line lx_col] in R.
      destruct (K _ 0 (b :: rest) _ _ _ (b :: rest) _ _ _ _ _ _ _ _ _ I ltac:(lia) H Ty ltac:(discriminate)
        ltac:(intros s y Hs _; apply decode_app_head; [exact Hs|vm_compute; reflexivity]) ltac:(lia) R) as (A & B & _). auto.
    + destruct (scan_total (ext lx' (a :: w))) as (t1 & l1 & R).
      assert (A0 : lx_rest lx' = [] -> scan_loop (S (length (a :: w))) 0 (a :: w) (lx_pos lx') (lx_line lx') (lx_col lx') (a :: w) (lx_pos lx') (lx_line lx') (lx_col lx') 0 INVALID = Some (t1, l1)).
      { intros E. unfold scan, ext in R. cbn [lx_rest lx_pos lx_line lx_col] in R. rewrite E in R. cbn [app] in R. exact R. }
      destruct (scan_total (Lexer (a :: w) (lx_pos lx') (lx_line lx') (lx_col lx'))) as (t2 & l2 & R2).
      unfold scan in R2. cbn [lx_rest lx_pos lx_line lx_col] in R2.
      destruct (scan_loop_eof (a :: w) ltac:(discriminate) _ 0 (b :: rest) _ _ _ (b :: rest) _ _ _ _ _ _ _ _ _ I ltac:(lia) H Ty ltac:(discriminate)
        ltac:(intros s y Hs Hy; apply (Hd s y Hs); [congruence|rewrite Hy, app_length; lia]) ltac:(lia) R2) as (A & B & C).
      split; [exact A|]. split; [exact B|]. intros _. rewrite R. rewrite (A0 A) in R2. injection R2 as <- <-.
      destruct (scan_total (ext lx (a :: w))) as (t3 & l3 & R3). rewrite R3.
      unfold scan, ext in R3. cbn [lx_rest lx_pos lx_line lx_col] in R3. rewrite Er in R3. cbn [app] in R3.
      apply (scan_loop_mono _ (S (length (b :: rest)) + S (length (a :: w)))) in R3; [|cbn [length]; rewrite app_length; cbn [length]; lia].
      rewrite <- R3. exact C.
Qed.

(** ** Token lists *)
Lemma ascii_end_suffix x s : ascii_end (x ++ s) -> s <> [] -> ascii_end s.
Proof.
  intros (s' & a & E & H) N. destruct (exists_last N) as (s1 & b & ->). rewrite app_assoc in E. apply app_inj_tail in E. destruct E as [_ ->]. exists s1, a. auto.
Qed.
Lemma stable_end lx e w : ascii_end (lx_rest lx) -> stable lx e w.
Proof. intros H s y N E _. rewrite E in H. destruct (ascii_end_suffix _ _ H N) as (s' & a & -> & Ha). apply decode_app_last. exact Ha. Qed.
Lemma stable_start lx e w : ascii_start w -> stable lx e w.
Proof. intros (a & w' & -> & Ha) s y N _ _. apply decode_app_head; assumption. Qed.
Lemma stable_margin lx e w : e + 4 <= lx_pos lx + length (lx_rest lx) -> stable lx e w.
Proof. intros H s y N E L. apply decode_app4. rewrite E, app_length in H. lia. Qed.

Lemma tokens_app_early t w a x v : tokens t = a ++ x :: v -> tend x < length t -> tend x + 4 <= length t \/ ascii_end t \/ ascii_start w ->
  exists v', tokens (t ++ w) = a ++ x :: v'.
Proof.
  intros E L H. destruct (scan_all_reaches _ _ _ _ _ E) as (lx1 & lx2 & f & R & S1 & Ef & _).
  destruct (reaches_pos _ _ _ R) as (y & E1 & E2). cbn [new_lexer lx_rest lx_pos] in E1, E2.
  assert (St : stable (new_lexer t) (tend x) w).
  { destruct H as [H|[H|H]]; [apply stable_margin; exact H|apply stable_end; exact H|apply stable_start; exact H]. }
  pose proof (scan_end _ _ _ S1) as [Te1 Te2].
  assert (Lt : length t = length y + length (lx_rest lx1)) by (rewrite E1, app_length; reflexivity).
  assert (N : lx_rest lx1 <> []) by (intros E0; rewrite E0 in *; cbn in *; lia).
  assert (R' := reaches_ext w _ _ _ R N (stable_le _ _ _ _ Te1 St)).
  assert (S' : scan (ext lx1 w) = Some (x, ext lx2 w)).
  { apply scan_ext; [exact S1|apply (stable_after (new_lexer t) y); [exact E1|exact E2|exact St]|left; lia]. }
  unfold tokens. rewrite app_length. replace (S (length t + length w)) with (length a + S (f + length w)) by lia.
  change (new_lexer (t ++ w)) with (ext (new_lexer t) w). rewrite (reaches_scan_all _ _ _ R'). cbn [scan_all]. rewrite S'.
  destruct (is_final x); eauto.
Qed.

Lemma stok_inj t t' : stok t = stok t' -> t = t'.
Proof. destruct t, t'. unfold stok. cbn. intros H. injection H as -> -> -> -> ->. reflexivity. Qed.
Lemma map_stok_inj : forall l l', map stok l = map stok l' -> l = l'.
Proof. induction l as [|x l IH]; intros [|y l'] H; try discriminate; [reflexivity|]. cbn [map] in H. f_equal; [apply stok_inj; congruence|apply IH; congruence]. Qed.
Lemma scan_all_fuel f f' rest p : length rest < f -> length rest < f' -> scan_all f (mk_lex rest p) = scan_all f' (mk_lex rest p).
Proof.
  intros L L'. apply map_stok_inj. eapply lexes_unique; [apply scan_all_spec; exact L|apply pieces_small|apply scan_all_spec; exact L'].
Qed.
Definition toks_from (p : position) (w : gostr) : list token := scan_all (S (length w)) (mk_lex w p).

Lemma tokens_app_end t w a x : tokens t = a ++ [x] -> tk_type x = EOF -> w <> [] -> ascii_end t \/ ascii_start w ->
  (forall a' y, a = a' ++ [y] -> blocked (tk_type y) w) ->
  exists p, p_off p = length t /\ tokens (t ++ w) = a ++ toks_from p w.
Proof.
  intros E Ty W H B. destruct (scan_all_reaches _ _ _ _ _ E) as (lx1 & lx2 & f & R & S1 & Ef & _).
  destruct (reaches_pos _ _ _ R) as (y & E1 & E2). cbn [new_lexer lx_rest lx_pos] in E1, E2.
  assert (St : forall e, stable (new_lexer t) e w) by (intros e; destruct H as [H|H]; [apply stable_end; exact H|apply stable_start; exact H]).
  assert (R' : reaches (ext (new_lexer t) w) a (ext lx1 w)).
  { destruct a as [|a0 a1] eqn:Ea; [inversion R; subst; constructor|]. rewrite <- Ea in *. assert (Na : a <> []) by (rewrite Ea; discriminate). clear Ea.
    destruct (exists_last Na) as (a' & z & ->). clear -R St B.
    assert (X : exists lx0, reaches (new_lexer t) a' lx0 /\ scan lx0 = Some (z, lx1) /\ is_final z = false).
    { remember (a' ++ [z]) as l eqn:El. clear St B. revert a' El. induction R as [lx|lx t0 l1 b l2 S F R IH]; intros a' El; [destruct a'; discriminate|].
      destruct a' as [|z0 a']; cbn in El; injection El as -> El.
      - subst b. inversion R; subst. exists lx. split; [constructor|]. auto.
      - destruct (IH _ El) as (lx0 & A & C & D). exists lx0. split; [econstructor; eauto|auto]. }
    destruct X as (lx0 & R0 & S0 & F0). destruct (reaches_pos _ _ _ R0) as (y & E1 & E2).
    eapply reaches_app; [apply reaches_ext; [exact R0|eapply scan_nonfinal_rest; eauto|apply St]|].
    econstructor; [|exact F0|constructor]. apply scan_ext; [exact S0|apply (stable_after (new_lexer t) y); [exact E1|exact E2|apply St]|].
    right. split; [exact F0|]. eapply B. reflexivity. }
  destruct (scan_eof _ w _ _ S1 Ty ltac:(apply (stable_after (new_lexer t) y); [exact E1|exact E2|apply St])) as (A & C & D). specialize (D W).
  exists (Pos (lx_pos lx2) (lx_line lx2) (lx_col lx2)). split.
  { cbn. rewrite C, E2, E1, app_length. lia. }
  unfold tokens. rewrite app_length. replace (S (length t + length w)) with (length a + S (f + length w)) by lia.
  change (new_lexer (t ++ w)) with (ext (new_lexer t) w). rewrite (reaches_scan_all _ _ _ R'). f_equal.
  unfold toks_from. rewrite (scan_all_fuel (S (length w)) (S (f + length w))) by lia.
  unfold mk_lex. cbn [p_off p_line p_col scan_all]. rewrite D. unfold ext. rewrite A. reflexivity.
Qed.

Lemma F2_impl {A B} (P Q : A -> B -> Prop) l l' : (forall a b, P a b -> Q a b) -> Forall2 P l l' -> Forall2 Q l l'.
Proof. intros H. induction 1; constructor; auto. Qed.
(** Positions do not matter for what the tokens are. *)
Lemma lexes_shift : forall p ps ts, lexes p ps ts -> forall p', exists ts', lexes p' ps ts' /\
  Forall2 (fun x x' : stoken => fst x = fst x' /\ p_off (snd x') + p_off p = p_off (snd x) + p_off p') ts ts'.
Proof.
  induction 1 as [p|p ps u rest ts Hl H IH|p ps u rest ty ts Hl H IH|p u c rest H1 H2 H3|p u H1 H2 H3]; intros p'.
  - exists [(1, [], p')]. split; [constructor|]. constructor; [|constructor]. cbn. split; [reflexivity|lia].
  - destruct (IH (advance p' u)) as (ts' & A & B). exists ts'. split; [eapply lex_skip; eauto|].
    eapply F2_impl; [|exact B]. cbn. intros x x'. rewrite !p_off_advance. intros [C D]. split; [exact C|lia].
  - destruct (IH (advance p' u)) as (ts' & A & B). exists ((ty, text u, p') :: ts'). split; [eapply lex_tok; eauto|].
    constructor; [cbn; split; [reflexivity|lia]|].
    eapply F2_impl; [|exact B]. cbn. intros x x'. rewrite !p_off_advance. intros [C D]. split; [exact C|lia].
  - exists [(0, text (u ++ [c]), p')]. split; [apply lex_bad; assumption|]. constructor; [|constructor]. cbn. split; [reflexivity|lia].
  - exists [(0, text u, p')]. split; [apply lex_trunc; assumption|]. constructor; [|constructor]. cbn. split; [reflexivity|lia].
Qed.
Lemma toks_from_lexes p w : lexes p (pieces w) (map stok (toks_from p w)).
Proof. apply scan_all_spec. lia. Qed.
Lemma toks_from_tokens p w : Forall2 (fun x y => tk_type x = tk_type y /\ tk_lit x = tk_lit y /\ tk_off y = tk_off x + p_off p) (tokens w) (toks_from p w).
Proof.
  destruct (lexes_shift _ _ _ (tokens_lexes w) p) as (ts' & A & B).
  pose proof (lexes_unique _ _ _ A (pieces_small w) _ (toks_from_lexes p w)) as ->.
  remember (tokens w) as l eqn:El. remember (toks_from p w) as l' eqn:El'. clear El El' A. revert l' B.
  induction l as [|x l IH]; intros [|y l'] B; inversion B; subst; constructor; [|apply IH; assumption].
  match goal with H : fst _ = _ /\ _ |- _ => destruct H as [C D] end. unfold stok in C, D. cbn in C, D. injection C as C1 C2. split; [exact C1|]. split; [exact C2|lia].
Qed.

(** No rune continues a closing brace; a space continues no token. *)
Lemma rbrace_blocked w : blocked 4 w.
Proof.
  intros _ st L A. assert (C : forallb (fun s => if Z.eqb (fst (act s)) 4 then match targets s with [] => true | _ => false end else true) (seq 0 141) = true) by (vm_compute; reflexivity).
  rewrite forallb_forall in C. specialize (C st (proj2 (in_seq 141 0 st) ltac:(lia))). cbv beta in C. rewrite A in C. cbn in C.
  destruct (trans st (fst (decode_rune w))) as [t|] eqn:E; [|reflexivity]. apply trans_target in E. destruct (targets st); [destruct E|discriminate].
Qed.
Definition sp : ascii := ascii_of_nat 32.
Lemma space_blocked ty w : 2 <= ty -> blocked ty (sp :: w).
Proof.
  intros T _ st L A. assert (C : forallb (fun s => if Z.leb 2 (fst (act s)) then match trans s 32 with None => true | _ => false end else true) (seq 0 141) = true) by (vm_compute; reflexivity).
  rewrite forallb_forall in C. specialize (C st (proj2 (in_seq 141 0 st) ltac:(lia))). cbv beta in C. rewrite A in C.
  replace (Z.leb 2 (Z.of_nat ty)) with true in C by (symmetry; apply Z.leb_le; lia). change (decode_rune (sp :: w)) with (32%N, 1). cbn [fst].
  destruct (trans st 32); [discriminate|reflexivity].
Qed.

(** ** A text whose last token is a closing brace ends with an ASCII byte *)
Lemma decode_small s r k : s <> [] -> decode_rune s = (r, k) -> (r < 128)%N -> exists a s', s = a :: s' /\ bv a = r /\ k = 1.
Proof.
  intros Hs. destruct s as [|a0 s1]; [congruence|]. unfold decode_rune, rune_error, is_cont.
  destruct (N.ltb_spec (bv a0) 128) as [L|L].
  { intros [= <- <-] _. exists a0, s1. auto. }
  destruct (in_range 194 223 (bv a0)) eqn:R1.
  { destruct s1 as [|a1 s2]; [intros [= <- <-]; lia|].
    destruct (in_range 128 191 (bv a1)) eqn:C1; intros [= <- <-]; [|lia]. apply in_range_spec in C1, R1. lia. }
  destruct (in_range 224 239 (bv a0)) eqn:R2.
  { destruct s1 as [|a1 [|a2 s3]]; try (intros [= <- <-]; lia).
    destruct (second_ok (bv a0) a1 && in_range 128 191 (bv a2)) eqn:C1; intros [= <- <-]; [|lia].
    apply andb_true_iff in C1. destruct C1 as [C1 C2]. apply in_range_spec in C2, R2.
    assert (C1' : (bv a1 >= 128)%N /\ ((bv a0 = 224)%N -> (bv a1 >= 160)%N)).
    { unfold second_ok in C1. destruct (N.eqb_spec (bv a0) 224); [apply in_range_spec in C1; lia|].
      destruct (N.eqb_spec (bv a0) 237); [apply in_range_spec in C1; lia|].
      destruct (N.eqb_spec (bv a0) 240); [apply in_range_spec in C1; lia|].
      destruct (N.eqb_spec (bv a0) 244); [apply in_range_spec in C1; lia|].
      unfold is_cont in C1. apply in_range_spec in C1. lia. }
    lia. }
  destruct (in_range 240 244 (bv a0)) eqn:R3; [|intros [= <- <-]; lia].
  destruct s1 as [|a1 [|a2 [|a3 s4]]]; try (intros [= <- <-]; lia).
  destruct (second_ok (bv a0) a1 && in_range 128 191 (bv a2) && in_range 128 191 (bv a3)) eqn:C1; intros [= <- <-]; [|lia].
  rewrite !andb_true_iff in C1. destruct C1 as [[C1 C2] C3]. apply in_range_spec in C2, C3, R3.
  assert (C1' : (bv a1 >= 128)%N /\ ((bv a0 = 240)%N -> (bv a1 >= 144)%N)).
  { unfold second_ok in C1. destruct (N.eqb_spec (bv a0) 224); [apply in_range_spec in C1; lia|].
    destruct (N.eqb_spec (bv a0) 237); [apply in_range_spec in C1; lia|].
    destruct (N.eqb_spec (bv a0) 240); [apply in_range_spec in C1; lia|].
    destruct (N.eqb_spec (bv a0) 244); [apply in_range_spec in C1; lia|].
    unfold is_cont in C1. apply in_range_spec in C1. lia. }
  lia.
Qed.
Lemma pieces_last_small s ps r bs : pieces s = ps ++ [(r, bs)] -> (r < 128)%N -> ascii_end s.
Proof.
  revert ps. induction s as [|s r0 k Hs E IH] using pieces_ind; intros ps H Hr; [destruct ps; discriminate|].
  rewrite (pieces_cons s r0 k Hs E) in H. destruct ps as [|p0 ps]; cbn [app] in H.
  - injection H as -> _ H. destruct (decode_small s r k Hs E Hr) as (a & s' & -> & <- & ->). cbn [skipn] in H.
    destruct s' as [|b s']; [exists [], a; auto|]. exfalso. unfold pieces in H. cbn [length pieces_f] in H. destruct (decode_rune (b :: s')). discriminate.
  - injection H as _ H. destruct (IH ps H Hr) as (s' & a & E1 & Ha). exists (firstn k s ++ s'), a. rewrite <- app_assoc, <- E1, firstn_skipn. auto.
Qed.
(** Layout and closing braces end with an ASCII rune. *)
Lemma small_last_ok : forallb (fun s => match nth_error trans_tab s with
    | Some (rs, d) => forallb (fun x => let '(lo, hi, t) := x in negb (Z.eqb (fst (act t)) (-1) || Z.eqb (fst (act t)) 4) || N.ltb hi 128) rs &&
                      match d with Some t => negb (Z.eqb (fst (act t)) (-1) || Z.eqb (fst (act t)) 4) | None => true end
    | None => true end) (seq 0 141) = true.
Proof. vm_compute. reflexivity. Qed.
Lemma find_range_small l r t : find_range l r = Some t -> (fst (act t) = -1 \/ fst (act t) = 4)%Z ->
  forallb (fun x => let '(lo, hi, t) := x in negb (Z.eqb (fst (act t)) (-1) || Z.eqb (fst (act t)) 4) || N.ltb hi 128) l = true -> (r < 128)%N.
Proof.
  intros H A. induction l as [|[[lo hi] x] l IH]; [discriminate|]. cbn [find_range] in H. cbn [forallb]. rewrite andb_true_iff. intros [C1 C2].
  destruct (in_range lo hi r) eqn:E; [|apply IH; assumption]. injection H as ->. apply orb_true_iff in C1. destruct C1 as [C1|C1].
  - exfalso. apply negb_true_iff, orb_false_iff in C1. destruct C1 as [C1 C3]. apply Z.eqb_neq in C1, C3. lia.
  - apply N.ltb_lt in C1. apply in_range_spec in E. lia.
Qed.
Lemma small_last s r t : s < 141 -> trans s r = Some t -> (fst (act t) = -1 \/ fst (act t) = 4)%Z -> (r < 128)%N.
Proof.
  intros L H A. pose proof small_last_ok as C. rewrite forallb_forall in C. specialize (C s (proj2 (in_seq 141 0 s) ltac:(lia))). cbv beta in C.
  unfold trans in H. destruct (nth_error trans_tab s) as [[rs d]|]; [|discriminate]. apply andb_true_iff in C. destruct C as [C1 C2].
  destruct (find_range rs r) eqn:E; [injection H as ->; eapply find_range_small; eauto|]. subst d.
  exfalso. apply negb_true_iff, orb_false_iff in C2. destruct C2 as [C2 C3]. apply Z.eqb_neq in C2, C3. lia.
Qed.
Lemma dfa_run_last : forall w s r t, dfa_run s (w ++ [r]) = Some t -> exists s', dfa_run s w = Some s' /\ trans s' r = Some t.
Proof.
  induction w as [|c w IH]; intros s r t H; cbn [app dfa_run] in *.
  - exists s. split; [reflexivity|]. destruct (trans s r); [exact H|discriminate].
  - destruct (trans s c) as [s1|]; [|discriminate]. apply IH. exact H.
Qed.
Lemma lexeme_last u r c : small (u ++ [r]) -> is_lexeme (u ++ [r]) c -> c = Skip \/ c = Tok 4 -> (r < 128)%N.
Proof.
  intros Sm H C. apply dfa_correct in H; [|exact Sm]. destruct H as (s & R & Lb). apply dfa_run_last in R. destruct R as (s' & R & T).
  pose proof (trans_bound _ _ _ T) as [B1 B2]. apply (small_last _ _ _ B1 T).
  destruct (act_case s B2) as [[E Ls]|(n & ign & E & M & Ls)]; rewrite E; cbn [fst]; [left; reflexivity|].
  rewrite Lb in Ls. destruct n; [discriminate|]. injection Ls as ->. destruct C as [C|C]; [discriminate|]. injection C as ->. right. reflexivity.
Qed.
Lemma lexes_end : forall p ps ts, lexes p ps ts -> small (runes_of ps) -> forall ts0 q, ts = ts0 ++ [(1, [], q)] ->
  (forall ts1 x, ts0 = ts1 ++ [x] -> fst (fst x) = 4) -> ps <> [] -> exists ps' r bs, ps = ps' ++ [(r, bs)] /\ (r < 128)%N.
Proof.
  assert (K : forall u c, u <> [] -> small (runes_of u) -> is_lexeme (runes_of u) c -> c = Skip \/ c = Tok 4 -> exists ps' r bs, u = ps' ++ [(r, bs)] /\ (r < 128)%N).
  { intros u c N Sm H C. destruct (exists_last N) as (u' & [r bs] & ->). exists u', r, bs. split; [reflexivity|].
    rewrite runes_of_app in H, Sm. eapply lexeme_last; [exact Sm|exact H|exact C]. }
  induction 1 as [p|p ps u rest ts Hl H IH|p ps u rest ty ts Hl H IH|p u c rest H1 H2 H3|p u H1 H2 H3]; intros Sm ts0 q E Hlast N; [congruence| | | |].
  - destruct Hl as (-> & Nu & Lx & _). rewrite runes_of_app in Sm. apply small_app in Sm. destruct Sm as [Su Sr].
    destruct rest as [|x rest].
    + rewrite app_nil_r. eapply K; eauto.
    + destruct (IH Sr _ _ E Hlast ltac:(discriminate)) as (ps' & r & bs & -> & Hr). exists (u ++ ps'), r, bs. rewrite app_assoc. auto.
  - destruct Hl as (-> & Nu & Lx & _). rewrite runes_of_app in Sm. apply small_app in Sm. destruct Sm as [Su Sr].
    destruct ts0 as [|x0 ts0]; cbn [app] in E.
    { exfalso. injection E as -> _ _ _. apply lexeme_range in Lx. lia. }
    injection E as <- E. destruct rest as [|x rest].
    + rewrite app_nil_r. eapply (K u (Tok ty)); eauto. right. f_equal. inversion H; subst.
      * destruct ts0 as [|? ts0]; [apply (Hlast [] (ty, text u, p)); reflexivity|]. destruct ts0; discriminate.
      * match goal with L : longest [] ?u _ _ |- _ => destruct L as (Ex & Nx & _); destruct u; [congruence|discriminate] end.
      * match goal with L : longest [] ?u _ _ |- _ => destruct L as (Ex & Nx & _); destruct u; [congruence|discriminate] end.
      * destruct u0; discriminate.
      * congruence.
    + assert (Hlast' : forall ts1 y, ts0 = ts1 ++ [y] -> fst (fst y) = 4).
      { intros ts1 y ->. apply (Hlast ((ty, text u, p) :: ts1) y). reflexivity. }
      destruct (IH Sr _ _ E Hlast' ltac:(discriminate)) as (ps' & r & bs & -> & Hr). exists (u ++ ps'), r, bs. rewrite app_assoc. auto.
  - destruct ts0 as [|? [|? ?]]; discriminate.
  - destruct ts0 as [|? [|? ?]]; discriminate.
Qed.
