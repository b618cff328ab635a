(** Quoting: what is quoted can be read back, and the text contains no control characters. *)
From Coq Require Import List Ascii NArith ZArith Bool Lia.
From Verif Require Import Base LexDfa LexerProofs ParseTables TokNames Lexer Parser RecParser ErrText SpecErr.
Import ListNotations.

Lemma bv_ascii n : (n < 256)%N -> bv (ascii_of_N n) = n.
Proof. intros H. unfold bv. apply N_ascii_embedding. exact H. Qed.
Lemma ascii_bv a : ascii_of_N (bv a) = a.
Proof. unfold bv. apply ascii_N_embedding. Qed.
Lemma bv_inj a b : bv a = bv b -> a = b.
Proof. intros H. rewrite <- (ascii_bv a), <- (ascii_bv b), H. reflexivity. Qed.

(** ** Encoding *)
Lemma second_range b0 a1 : second_ok b0 a1 = true -> (128 <= bv a1 <= 191)%N /\ (b0 = 224 -> 160 <= bv a1)%N /\ (b0 = 240 -> 144 <= bv a1)%N.
Proof.
  unfold second_ok. destruct (N.eqb_spec b0 224); [rewrite in_range_spec; lia|].
  destruct (N.eqb_spec b0 237); [rewrite in_range_spec; lia|].
  destruct (N.eqb_spec b0 240); [rewrite in_range_spec; lia|].
  destruct (N.eqb_spec b0 244); [rewrite in_range_spec; lia|].
  unfold is_cont. rewrite in_range_spec. lia.
Qed.
Local Ltac arith := match goal with |- _ => Z.to_euclidean_division_equations; lia end.
Lemma utf8_2 b0 b1 : (194 <= b0 <= 223 -> 128 <= b1 <= 191 -> let r := (b0 - 192) * 64 + (b1 - 128) in
  utf8 r = [ascii_of_N b0; ascii_of_N b1])%N.
Proof.
  intros H0 H1 r. unfold utf8. assert (R : (128 <= r < 2048)%N) by (unfold r; lia).
  replace (N.ltb r 128) with false by (symmetry; apply N.ltb_ge; lia).
  replace (N.ltb r 2048) with true by (symmetry; apply N.ltb_lt; lia).
  assert (Q : (r / 64 = b0 - 192)%N). { symmetry. apply (N.div_unique r 64 _ (b1 - 128)); unfold r; lia. }
  assert (M : (r mod 64 = b1 - 128)%N). { symmetry. apply (N.mod_unique r 64 (b0 - 192)); unfold r; lia. }
  cbn [map]. rewrite Q, M. repeat f_equal; lia.
Qed.
Lemma utf8_3 b0 b1 b2 : (224 <= b0 <= 239 -> 128 <= b1 <= 191 -> (b0 = 224 -> 160 <= b1) -> 128 <= b2 <= 191 ->
  let r := (b0 - 224) * 4096 + (b1 - 128) * 64 + (b2 - 128) in
  utf8 r = [ascii_of_N b0; ascii_of_N b1; ascii_of_N b2])%N.
Proof.
  intros H0 H1 H1' H2 r. unfold utf8. assert (R : (2048 <= r < 65536)%N) by (unfold r; lia).
  replace (N.ltb r 128) with false by (symmetry; apply N.ltb_ge; lia).
  replace (N.ltb r 2048) with false by (symmetry; apply N.ltb_ge; lia).
  replace (N.ltb r 65536) with true by (symmetry; apply N.ltb_lt; lia).
  assert (Q : (r / 4096 = b0 - 224)%N). { symmetry. apply (N.div_unique r 4096 _ ((b1 - 128) * 64 + (b2 - 128))); unfold r; lia. }
  assert (Q2 : (r / 64 = (b0 - 224) * 64 + (b1 - 128))%N). { symmetry. apply (N.div_unique r 64 _ (b2 - 128)); unfold r; lia. }
  assert (M2 : (((b0 - 224) * 64 + (b1 - 128)) mod 64 = b1 - 128)%N). { symmetry. apply (N.mod_unique _ 64 (b0 - 224)); lia. }
  assert (M : (r mod 64 = b2 - 128)%N). { symmetry. apply (N.mod_unique r 64 ((b0 - 224) * 64 + (b1 - 128))); unfold r; lia. }
  cbn [map]. rewrite Q, Q2, M2, M. repeat f_equal; lia.
Qed.
Lemma utf8_4 b0 b1 b2 b3 : (240 <= b0 <= 244 -> 128 <= b1 <= 191 -> (b0 = 240 -> 144 <= b1) -> 128 <= b2 <= 191 -> 128 <= b3 <= 191 ->
  let r := (b0 - 240) * 262144 + (b1 - 128) * 4096 + (b2 - 128) * 64 + (b3 - 128) in
  65536 <= r /\ utf8 r = [ascii_of_N b0; ascii_of_N b1; ascii_of_N b2; ascii_of_N b3])%N.
Proof.
  intros H0 H1 H1' H2 H3 r. assert (R : (65536 <= r)%N) by (unfold r; lia). split; [exact R|]. unfold utf8.
  replace (N.ltb r 128) with false by (symmetry; apply N.ltb_ge; lia).
  replace (N.ltb r 2048) with false by (symmetry; apply N.ltb_ge; lia).
  replace (N.ltb r 65536) with false by (symmetry; apply N.ltb_ge; lia).
  assert (Q : (r / 262144 = b0 - 240)%N). { symmetry. apply (N.div_unique r 262144 _ ((b1 - 128) * 4096 + (b2 - 128) * 64 + (b3 - 128))); unfold r; lia. }
  assert (Q1 : (r / 4096 = (b0 - 240) * 64 + (b1 - 128))%N). { symmetry. apply (N.div_unique r 4096 _ ((b2 - 128) * 64 + (b3 - 128))); unfold r; lia. }
  assert (M1 : (((b0 - 240) * 64 + (b1 - 128)) mod 64 = b1 - 128)%N). { symmetry. apply (N.mod_unique _ 64 (b0 - 240)); lia. }
  assert (Q2 : (r / 64 = (b0 - 240) * 4096 + (b1 - 128) * 64 + (b2 - 128))%N). { symmetry. apply (N.div_unique r 64 _ (b3 - 128)); unfold r; lia. }
  assert (M2 : (((b0 - 240) * 4096 + (b1 - 128) * 64 + (b2 - 128)) mod 64 = b2 - 128)%N). { symmetry. apply (N.mod_unique _ 64 ((b0 - 240) * 64 + (b1 - 128))); lia. }
  assert (M : (r mod 64 = b3 - 128)%N). { symmetry. apply (N.mod_unique r 64 ((b0 - 240) * 4096 + (b1 - 128) * 64 + (b2 - 128))); unfold r; lia. }
  cbn [map]. rewrite Q, Q1, M1, Q2, M2, M. repeat f_equal; lia.
Qed.

(** What decode_rune found: an ASCII byte, an invalid byte, or an encoding of bytes from 128. *)
Lemma decode_cases a s r k : decode_rune (a :: s) = (r, k) ->
  (r = bv a /\ (r < 128)%N /\ k = 1) \/
  (r = rune_error /\ k = 1) \/
  ((128 <= r)%N /\ k <> 1 /\ firstn k (a :: s) = utf8 r /\ Forall (fun c => (128 <= bv c)%N) (firstn k (a :: s))).
Proof.
  unfold decode_rune. pose proof (bv_bound a) as B. destruct (N.ltb_spec (bv a) 128) as [L|L].
  { intros [= <- <-]. left. auto. }
  destruct (in_range 194 223 (bv a)) eqn:R1.
  { destruct s as [|a1 s2]; [intros [= <- <-]; auto|].
    destruct (is_cont a1) eqn:C1; intros [= <- <-]; [|auto]. right. right.
    unfold is_cont in C1. rewrite in_range_spec in C1, R1. split; [lia|]. split; [discriminate|].
    rewrite (utf8_2 (bv a) (bv a1)) by assumption. rewrite !ascii_bv. cbn [firstn]. split; [reflexivity|].
    repeat constructor; lia. }
  destruct (in_range 224 239 (bv a)) eqn:R2.
  { destruct s as [|a1 [|a2 s3]]; try (intros [= <- <-]; auto; fail).
    destruct (second_ok (bv a) a1 && is_cont a2) eqn:C1; intros [= <- <-]; [|auto]. right. right.
    apply andb_true_iff in C1 as [C1 C2]. apply second_range in C1 as (C1 & C1' & _). unfold is_cont in C2. rewrite in_range_spec in C2, R2.
    split; [lia|]. split; [discriminate|].
    rewrite (utf8_3 (bv a) (bv a1) (bv a2)) by assumption. rewrite !ascii_bv. cbn [firstn]. split; [reflexivity|].
    repeat constructor; lia. }
  destruct (in_range 240 244 (bv a)) eqn:R3; [|intros [= <- <-]; auto].
  destruct s as [|a1 [|a2 [|a3 s4]]]; try (intros [= <- <-]; auto; fail).
  destruct (second_ok (bv a) a1 && is_cont a2 && is_cont a3) eqn:C1; intros [= <- <-]; [|auto]. right. right.
  rewrite !andb_true_iff in C1. destruct C1 as [[C1 C2] C3]. apply second_range in C1 as (C1 & _ & C1').
  unfold is_cont in C2, C3. rewrite in_range_spec in C2, C3, R3.
  destruct (utf8_4 (bv a) (bv a1) (bv a2) (bv a3)) as [G E]; try assumption.
  split; [lia|]. split; [discriminate|]. rewrite E, !ascii_bv. cbn [firstn]. split; [reflexivity|].
  repeat constructor; lia.
Qed.

(** ** Hexadecimal digits *)
Lemma unhex1_digit n : (n < 16)%N -> unhex1 (hex_digit n) = Some n.
Proof.
  intros H. assert (A : forallb (fun m => match unhex1 (hex_digit (N.of_nat m)) with Some x => N.eqb x (N.of_nat m) | None => false end) (seq 0 16) = true)
    by (vm_compute; reflexivity).
  rewrite forallb_forall in A. specialize (A (N.to_nat n)). rewrite N2Nat.id in A.
  assert (I : In (N.to_nat n) (seq 0 16)) by (apply in_seq; lia). apply A in I.
  destruct (unhex1 (hex_digit n)) as [x|]; [|discriminate]. apply N.eqb_eq in I. congruence.
Qed.
Lemma hex_digit_plain n : (n < 16)%N -> (48 <= bv (hex_digit n) <= 102)%N.
Proof. intros H. unfold hex_digit. destruct (N.ltb_spec n 10); rewrite bv_ascii; lia. Qed.
Lemma unhex_snoc l c : unhex (l ++ [c]) = match unhex l, unhex1 c with Some n, Some d => Some (16 * n + d)%N | _, _ => None end.
Proof. unfold unhex. rewrite fold_left_app. reflexivity. Qed.
Lemma unhex_hex k : forall n, unhex (hex k n) = Some (n mod 16 ^ N.of_nat k)%N.
Proof.
  induction k as [|k IH]; intros n; [cbn; f_equal; symmetry; apply N.mod_1_r|].
  cbn [hex]. rewrite unhex_snoc, IH, unhex1_digit by (apply N.mod_lt; lia). f_equal.
  rewrite Nat2N.inj_succ, N.pow_succ_r'. rewrite N.mod_mul_r by (try apply N.pow_nonzero; lia). lia.
Qed.
Lemma unhex_hex_id k n : (n < 16 ^ N.of_nat k)%N -> unhex (hex k n) = Some n.
Proof. intros H. rewrite unhex_hex, N.mod_small by exact H. reflexivity. Qed.
Lemma hex_plain k : forall n, Forall (fun c => (32 <= bv c)%N /\ bv c <> 127%N) (hex k n).
Proof.
  induction k as [|k IH]; intros n; [constructor|]. cbn [hex]. apply Forall_app. split; [apply IH|].
  constructor; [|constructor]. pose proof (hex_digit_plain (n mod 16)) as H. assert ((n mod 16 < 16)%N) by (apply N.mod_lt; lia).
  specialize (H H0). lia.
Qed.

Section Q.
  Variable P : N -> bool.
  Lemma quote_body_enough n : forall m s, length s <= n -> length s <= m -> quote_body P n s = quote_body P m s.
  Proof.
    clear. induction n as [|n IH]; intros m s Ln Lm.
    - destruct s; [|cbn in Ln; lia]. destruct m; reflexivity.
    - destruct m as [|m]; [destruct s; [reflexivity|cbn in Lm; lia]|]. destruct s as [|a s]; [reflexivity|].
      cbn [quote_body]. destruct (decode_rune (a :: s)) as [r k] eqn:E.
      pose proof (decode_spec (a :: s) ltac:(discriminate)) as D. rewrite E in D. destruct D as [D _].
      f_equal. apply IH; rewrite skipn_length; cbn [length] in *; lia.
  Qed.
  Definition code (a : ascii) (s : gostr) (r : N) (k : nat) : gostr :=
    if Nat.eqb k 1 && N.eqb r rune_error then lit "\x" ++ hex 2 (bv a) else escaped_rune P r (firstn k (a :: s)).
  Lemma quote_body_cons a s r k : decode_rune (a :: s) = (r, k) ->
    quote_body P (length (a :: s)) (a :: s) = code a s r k ++ quote_body P (length (skipn k (a :: s))) (skipn k (a :: s)).
  Proof.
    clear. intros E. cbn [length quote_body]. rewrite E. unfold code. f_equal.
    pose proof (decode_spec (a :: s) ltac:(discriminate)) as D. rewrite E in D. destruct D as [D _].
    apply quote_body_enough; rewrite skipn_length; cbn [length] in *; lia.
  Qed.

  (** *** No control characters *)
  Definition plain (c : ascii) : Prop := (32 <= bv c)%N /\ bv c <> 127%N.
  Lemma code_plain a s r k : decode_rune (a :: s) = (r, k) -> Forall plain (code a s r k).
  Proof.
    clear. intros E. unfold code. pose proof (decode_cases _ _ _ _ E) as C.
    assert (X : forall n k, Forall plain (lit "\x" ++ hex k n)).
    { intros n j. apply Forall_app. split; [repeat constructor; discriminate|apply hex_plain]. }
    assert (X2 : forall n k, Forall plain (lit "\u" ++ hex k n)).
    { intros n j. apply Forall_app. split; [repeat constructor; discriminate|apply hex_plain]. }
    assert (X3 : forall n k, Forall plain (lit "\U" ++ hex k n)).
    { intros n j. apply Forall_app. split; [repeat constructor; discriminate|apply hex_plain]. }
    assert (Y : forall l, forallb (fun c => N.leb 32 (bv c) && negb (N.eqb (bv c) 127)) l = true -> Forall plain l).
    { intros l H. rewrite forallb_forall in H. apply Forall_forall. intros c Hc. apply H in Hc.
      rewrite andb_true_iff, N.leb_le, negb_true_iff, N.eqb_neq in Hc. exact Hc. }
    destruct (Nat.eqb_spec k 1) as [K|K]; cbn [andb].
    - destruct (N.eqb_spec r rune_error) as [R|R]; [apply X|]. destruct C as [(R1 & R2 & _)|[(? & _)|(_ & ? & _)]]; try congruence.
      subst k. cbn [firstn]. unfold escaped_rune.
      destruct (N.eqb_spec r 34) as [Q|Q]; [rewrite <- (ascii_bv a), <- R1, Q; apply Y; reflexivity|].
      destruct (N.eqb_spec r 92) as [Q2|Q2]; [rewrite <- (ascii_bv a), <- R1, Q2; apply Y; reflexivity|]. cbn [orb].
      unfold is_print. replace (N.ltb r 128) with true by (symmetry; apply N.ltb_lt; lia).
      destruct (in_range 32 126 r) eqn:Ep; [apply in_range_spec in Ep; constructor; [unfold plain; lia|constructor]|].
      repeat match goal with |- Forall _ (if ?b then _ else _) => destruct b; [first [apply X|apply Y; reflexivity]|] end.
      destruct (N.ltb r 65536); auto.
    - destruct C as [(_ & _ & C)|[(_ & C)|(C1 & _ & _ & C2)]]; try congruence.
      unfold escaped_rune. replace (N.eqb r 34) with false by (symmetry; apply N.eqb_neq; lia).
      replace (N.eqb r 92) with false by (symmetry; apply N.eqb_neq; lia). cbn [orb].
      destruct (is_print P r).
      { eapply Forall_impl; [|exact C2]. intros c Hc. cbn in Hc. unfold plain. lia. }
      repeat match goal with |- Forall _ (if ?b then _ else _) => destruct b; [first [apply X|apply X2|apply Y; reflexivity]|] end. apply X3.
  Qed.
  Lemma quote_body_plain s : Forall plain (quote_body P (length s) s).
  Proof.
    clear. induction s as [|s r k Hs E IH] using pieces_ind; [constructor|].
    destruct s as [|a s]; [congruence|]. rewrite (quote_body_cons _ _ _ _ E). apply Forall_app. split; [|exact IH].
    eapply code_plain. exact E.
  Qed.
  Lemma quote_plain s : Forall plain (quote P s).
  Proof.
    clear. unfold quote. constructor; [split; [|intros H]; vm_compute in *; discriminate|]. apply Forall_app. split; [apply quote_body_plain|].
    constructor; [split; [|intros H]; vm_compute in *; discriminate|constructor].
  Qed.

  (** *** Reading back *)
  Lemma unq_raw c t u : bv c <> 34%N -> bv c <> 92%N -> unquote_body t = Some u -> unquote_body (c :: t) = Some (c :: u).
  Proof.
    clear. intros H1 H2 E. cbn [unquote_body].
    destruct (Ascii.eqb_spec c dquote) as [->|_]; [vm_compute in H1; congruence|].
    destruct (Ascii.eqb_spec c backslash) as [->|_]; [vm_compute in H2; congruence|]. rewrite E. reflexivity.
  Qed.
  Lemma unq_raws l t u : Forall (fun c => (128 <= bv c)%N) l -> unquote_body t = Some u -> unquote_body (l ++ t) = Some (l ++ u).
  Proof.
    clear. induction 1 as [|c l H _ IH]; intros E; [exact E|]. cbn [app]. apply unq_raw; [lia|lia|]. apply IH. exact E.
  Qed.
  Lemma unq_x n t u : (n < 256)%N -> unquote_body t = Some u -> unquote_body (lit "\x" ++ hex 2 n ++ t) = Some (ascii_of_N n :: u).
  Proof.
    clear. intros H E. pose proof (unhex_hex_id 2 n H) as U. cbn [hex app] in *.
    set (x := hex_digit (n / 16 mod 16)) in *. set (y := hex_digit (n mod 16)) in *. clearbody x y.
    change (unquote_body (lit "\x" ++ x :: y :: t)) with (add (option_map (fun n => [ascii_of_N n]) (unhex [x; y])) (unquote_body t)).
    rewrite U, E. reflexivity.
  Qed.
  Lemma unq_u n t u : (n < 65536)%N -> unquote_body t = Some u -> unquote_body (lit "\u" ++ hex 4 n ++ t) = Some (utf8 n ++ u).
  Proof.
    clear. intros H E. pose proof (unhex_hex_id 4 n H) as U. cbn [hex app] in *.
    repeat match goal with |- context [hex_digit ?z] => let x := fresh "x" in set (x := hex_digit z) in *; clearbody x end.
    match goal with |- unquote_body (lit "\u" ++ ?a :: ?b :: ?c :: ?d :: t) = _ =>
      change (unquote_body (lit "\u" ++ a :: b :: c :: d :: t)) with (add (option_map utf8 (unhex [a; b; c; d])) (unquote_body t)) end.
    rewrite U, E. reflexivity.
  Qed.
  Lemma unq_U n t u : (n < 4294967296)%N -> unquote_body t = Some u -> unquote_body (lit "\U" ++ hex 8 n ++ t) = Some (utf8 n ++ u).
  Proof.
    clear. intros H E. pose proof (unhex_hex_id 8 n H) as U. cbn [hex app] in *.
    repeat match goal with |- context [hex_digit ?z] => let x := fresh "x" in set (x := hex_digit z) in *; clearbody x end.
    match goal with |- unquote_body (lit "\U" ++ ?a :: ?b :: ?c :: ?d :: ?e :: ?f :: ?g :: ?h :: t) = _ =>
      change (unquote_body (lit "\U" ++ a :: b :: c :: d :: e :: f :: g :: h :: t))
        with (add (option_map utf8 (unhex [a; b; c; d; e; f; g; h])) (unquote_body t)) end.
    rewrite U, E. reflexivity.
  Qed.
  Lemma unq_simple e x t u : simple e = Some x -> unquote_body t = Some u -> unquote_body (backslash :: e :: t) = Some (x ++ u).
  Proof.
    clear. intros H E. cbn [unquote_body]. replace (Ascii.eqb backslash dquote) with false by reflexivity. rewrite Ascii.eqb_refl.
    destruct (Ascii.eqb_spec e "x") as [->|_]; [discriminate|]. destruct (Ascii.eqb_spec e "u") as [->|_]; [discriminate|].
    destruct (Ascii.eqb_spec e "U") as [->|_]; [discriminate|]. rewrite H, E. reflexivity.
  Qed.
  Lemma unq_code a s r k t u : decode_rune (a :: s) = (r, k) -> unquote_body t = Some u ->
    unquote_body (code a s r k ++ t) = Some (firstn k (a :: s) ++ u).
  Proof.
    clear. intros E U. pose proof (decode_cases _ _ _ _ E) as C. pose proof (bv_bound a) as B. unfold code.
    pose proof (decode_spec (a :: s) ltac:(discriminate)) as D. rewrite E in D. destruct D as [_ D]. unfold max_rune in D.
    destruct (Nat.eqb_spec k 1) as [->|K]; cbn [andb].
    - cbn [firstn]. destruct (N.eqb_spec r rune_error) as [R|R].
      + rewrite <- app_assoc, (unq_x _ _ u) by assumption. rewrite ascii_bv. reflexivity.
      + destruct C as [(R1 & R2 & _)|[(? & _)|(_ & ? & _)]]; try congruence.
        unfold escaped_rune.
        destruct (N.eqb_spec r 34) as [Q|Q]; [cbn [orb app]; replace a with dquote by (apply bv_inj; rewrite <- R1, Q; reflexivity); apply (unq_simple dquote [dquote]); [reflexivity|exact U]|].
        destruct (N.eqb_spec r 92) as [Q2|Q2]; [cbn [orb app]; replace a with backslash by (apply bv_inj; rewrite <- R1, Q2; reflexivity); apply (unq_simple backslash [backslash]); [reflexivity|exact U]|]. cbn [orb].
        unfold is_print. replace (N.ltb r 128) with true by (symmetry; apply N.ltb_lt; lia).
        destruct (in_range 32 126 r) eqn:Ep; [apply unq_raw; [congruence|congruence|exact U]|].
        assert (S : forall c n, simple c = Some [ascii_of_N n] -> r = n -> unquote_body ([backslash; c] ++ t) = Some ([a] ++ u)).
        { intros c n Hc Hn. cbn [app]. rewrite (unq_simple c _ t u Hc U). rewrite <- Hn, R1, ascii_bv. reflexivity. }
        destruct (N.eqb_spec r 7) as [Z|_]; [exact (S "a"%char 7%N eq_refl Z)|].
        destruct (N.eqb_spec r 8) as [Z|_]; [exact (S "b"%char 8%N eq_refl Z)|].
        destruct (N.eqb_spec r 12) as [Z|_]; [exact (S "f"%char 12%N eq_refl Z)|].
        destruct (N.eqb_spec r 10) as [Z|_]; [exact (S "n"%char 10%N eq_refl Z)|].
        destruct (N.eqb_spec r 13) as [Z|_]; [exact (S "r"%char 13%N eq_refl Z)|].
        destruct (N.eqb_spec r 9) as [Z|_]; [exact (S "t"%char 9%N eq_refl Z)|].
        destruct (N.eqb_spec r 11) as [Z|_]; [exact (S "v"%char 11%N eq_refl Z)|].
        assert (Hc : (N.ltb r 32 || N.eqb r 127)%bool = true).
        { destruct (N.ltb_spec r 32); [reflexivity|]. destruct (N.eqb_spec r 127); [reflexivity|].
          assert (in_range 32 126 r = true) by (apply in_range_spec; lia). congruence. }
        rewrite Hc, <- app_assoc, (unq_x _ _ u) by (try lia; assumption). rewrite R1, ascii_bv. reflexivity.
    - destruct C as [(_ & _ & C)|[(_ & C)|(C1 & _ & C3 & C2)]]; try congruence.
      unfold escaped_rune.
      repeat match goal with |- context [N.eqb r ?n] => replace (N.eqb r n) with false by (symmetry; apply N.eqb_neq; lia) end. cbn [orb].
      destruct (is_print P r); [apply unq_raws; assumption|].
      replace (N.ltb r 32) with false by (symmetry; apply N.ltb_ge; lia). cbn [orb].
      destruct (N.ltb_spec r 65536) as [L|L]; rewrite <- app_assoc, C3.
      + apply unq_u; assumption.
      + apply unq_U; [lia|exact U].
  Qed.
  Theorem unquote_quote s : unquote (quote P s) = Some s.
  Proof.
    clear. unfold unquote, quote. replace (Ascii.eqb dquote dquote) with true by reflexivity.
    assert (H : forall s, unquote_body (quote_body P (length s) s ++ [dquote]) = Some s); [clear s|exact (H s)].
    intros s. induction s as [|s r k Hs E IH] using pieces_ind; [reflexivity|].
    destruct s as [|a s]; [congruence|]. rewrite (quote_body_cons _ _ _ _ E), <- app_assoc.
    rewrite (unq_code a s r k _ (skipn k (a :: s)) E IH). rewrite firstn_skipn. reflexivity.
  Qed.
End Q.
