(** Lemmas about runes, TrimSpace and the functions of Escape.v. *)
From Coq Require Import List Ascii NArith ZArith Bool Lia Arith.
From Verif Require Import Base LexSpec LexDfa LexerProofs LexFacts LexPrint TrimFacts.
From Verif Require Import Escape SpecEscape.
Import ListNotations.
Local Open Scope nat_scope.

(** ** Runes *)
Lemma runes_skip_skipn k : forall s, runes_skip k s = runes_skip 0 (skipn k s).
Proof.
  induction k as [|k IH]; intros s; [reflexivity|]. destruct s as [|a s]; [reflexivity|]. cbn [runes_skip skipn]. apply IH.
Qed.
Lemma runes_cons s r k : s <> [] -> decode_rune s = (r, k) -> runes s = r :: runes (skipn k s).
Proof.
  intros Hs E. unfold runes. destruct s as [|a s]; [congruence|]. cbn [runes_skip].
  pose proof (decode_spec (a :: s) Hs) as D. rewrite E in *. destruct D as [D _]. f_equal. rewrite runes_skip_skipn. f_equal.
  destruct k as [|k]; [lia|]. cbn [skipn]. rewrite Nat.sub_succ, Nat.sub_0_r. reflexivity.
Qed.
Lemma runes_pieces s : runes s = runes_of (pieces s).
Proof.
  induction s as [|s r k Hs E IH] using pieces_ind; [reflexivity|]. rewrite (runes_cons s r k Hs E), (pieces_cons s r k Hs E), IH. reflexivity.
Qed.
Lemma runes_nil s : runes s = [] -> s = [].
Proof.
  destruct s as [|a s]; [reflexivity|]. destruct (decode_rune (a :: s)) as [r k] eqn:E. rewrite (runes_cons _ r k); [discriminate|discriminate|exact E].
Qed.
Lemma runes_ascii a s : (bv a < 128)%N -> runes (a :: s) = bv a :: runes s.
Proof. intros H. rewrite !runes_pieces, pieces_ascii by exact H. reflexivity. Qed.

Lemma second_cont b a : second_ok b a = true -> is_cont a = true.
Proof.
  unfold second_ok, is_cont. destruct (N.eqb b 224); [|destruct (N.eqb b 237); [|destruct (N.eqb b 240); [|destruct (N.eqb b 244)]]]; rewrite ?in_range_spec; lia.
Qed.
Lemma not_cont a : rune_start a = true -> is_cont a = false.
Proof. unfold rune_start. apply negb_true_iff. Qed.
(** Decoding does not look past the start of a rune. *)
Lemma decode_start_app s a t : s <> [] -> rune_start a = true -> decode_rune (s ++ a :: t) = decode_rune s.
Proof.
  intros Hs Ha. apply not_cont in Ha. assert (Hb : forall b, second_ok b a = false) by (intros b; apply not_true_iff_false; intros H; apply second_cont in H; congruence).
  destruct s as [|a0 s1]; [congruence|]. cbn [app]. unfold decode_rune.
  destruct (N.ltb (bv a0) 128); [reflexivity|].
  destruct (in_range 194 223 (bv a0)).
  { destruct s1 as [|a1 s2]; cbn [app]; [rewrite Ha|]; reflexivity. }
  destruct (in_range 224 239 (bv a0)).
  { destruct s1 as [|a1 [|a2 s3]]; cbn [app]; try reflexivity.
    - destruct t; [reflexivity|]. rewrite Hb. reflexivity.
    - rewrite Ha, andb_false_r. reflexivity. }
  destruct (in_range 240 244 (bv a0)); [|reflexivity].
  destruct s1 as [|a1 [|a2 [|a3 s4]]]; cbn [app]; try reflexivity.
  - destruct t as [|? [|? ?]]; try reflexivity. rewrite Hb. reflexivity.
  - destruct t as [|? ?]; try reflexivity. rewrite Ha, andb_false_r. reflexivity.
  - rewrite Ha, !andb_false_r. reflexivity.
Qed.
Lemma pieces_start_app s a t : rune_start a = true -> pieces (s ++ a :: t) = pieces s ++ pieces (a :: t).
Proof.
  intros Ha. induction s as [|s r k Hs E IH] using pieces_ind; [reflexivity|].
  pose proof (decode_start_app s a t Hs Ha) as E'. rewrite E in E'.
  rewrite (pieces_cons (s ++ a :: t) r k); [|destruct s; [congruence|discriminate]|exact E']. rewrite (pieces_cons s r k Hs E). cbn [app].
  pose proof (decode_spec s Hs) as D. rewrite E in D. destruct D as [D _]. rewrite firstn_app, skipn_app. replace (k - length s) with 0 by lia.
  cbn [firstn skipn]. rewrite app_nil_r, IH. reflexivity.
Qed.
Lemma runes_start_app s a t : rune_start a = true -> runes (s ++ a :: t) = runes s ++ runes (a :: t).
Proof. intros Ha. rewrite !runes_pieces, pieces_start_app by exact Ha. apply runes_of_app. Qed.
Lemma ascii_start a : (bv a < 128)%N -> rune_start a = true.
Proof. intros H. unfold rune_start, is_cont. apply negb_true_iff, not_true_iff_false. rewrite in_range_spec. lia. Qed.
Lemma runes_clean_app s t : clean s -> runes (s ++ t) = runes s ++ runes t.
Proof. intros H. rewrite !runes_pieces, pieces_app by exact H. apply runes_of_app. Qed.

(** Runes below 128 are bytes. *)
Lemma decode_ascii s r k : s <> [] -> decode_rune s = (r, k) -> (r < 128)%N -> exists a s', s = a :: s' /\ bv a = r /\ k = 1.
Proof.
  intros Hs E Hr. destruct s as [|a0 s1]; [congruence|]. cbn [decode_rune] in E. destruct (N.ltb_spec (bv a0) 128).
  { injection E as <- <-. eauto. }
  exfalso. unfold rune_error in E.
  destruct (in_range 194 223 (bv a0)) eqn:R1.
  { apply in_range_spec in R1. destruct s1 as [|a1 s2]; [injection E as <- _; lia|]. destruct (is_cont a1) eqn:C; injection E as <- _; lia. }
  destruct (in_range 224 239 (bv a0)) eqn:R2.
  { apply in_range_spec in R2. destruct s1 as [|a1 [|a2 s3]]; try (injection E as <- _; lia). destruct (second_ok (bv a0) a1 && is_cont a2) eqn:C; [|injection E as <- _; lia].
    apply andb_true_iff in C. destruct C as [C _]. injection E as <- _. unfold second_ok in C.
    destruct (N.eqb_spec (bv a0) 224); [apply in_range_spec in C; lia|]. lia. }
  destruct (in_range 240 244 (bv a0)) eqn:R3; [|injection E as <- _; lia].
  apply in_range_spec in R3. destruct s1 as [|a1 [|a2 [|a3 s4]]]; try (injection E as <- _; lia).
  destruct (second_ok (bv a0) a1 && is_cont a2 && is_cont a3) eqn:C; [|injection E as <- _; lia].
  rewrite !andb_true_iff in C. destruct C as [[C _] _]. injection E as <- _. unfold second_ok in C.
  destruct (N.eqb_spec (bv a0) 224); [lia|]. destruct (N.eqb_spec (bv a0) 237); [lia|]. destruct (N.eqb_spec (bv a0) 240); [apply in_range_spec in C; lia|]. lia.
Qed.
Lemma runes_head s c w : runes s = c :: w -> (c < 128)%N -> exists a s', s = a :: s' /\ bv a = c /\ runes s' = w.
Proof.
  intros H Hc. assert (Hs : s <> []) by (intros ->; discriminate). destruct (decode_rune s) as [r k] eqn:E. rewrite (runes_cons s r k Hs E) in H.
  injection H as -> H. destruct (decode_ascii s c k Hs E Hc) as (a & s' & -> & Ha & ->). exists a, s'. auto.
Qed.
(** A rune below 128 splits the text. *)
Lemma runes_split s u c v : runes s = u ++ c :: v -> (c < 128)%N -> exists s1 a s2, s = s1 ++ a :: s2 /\ bv a = c /\ runes s1 = u /\ runes s2 = v.
Proof.
  intros H Hc. rewrite runes_pieces in H. unfold runes_of in H. apply map_eq_app in H. destruct H as (p1 & p2 & E & E1 & E2).
  destruct (pieces_app_eq _ _ _ E) as (Es & P1 & P2).
  assert (R2 : runes (text p2) = c :: v) by (rewrite runes_pieces, P2; exact E2).
  destruct (runes_head _ _ _ R2 Hc) as (a & s2 & Et & Ha & Hv). exists (text p1), a, s2. rewrite Es, Et. split; [reflexivity|]. split; [exact Ha|]. split; [|exact Hv].
  rewrite runes_pieces, P1. exact E1.
Qed.
Lemma runes_singleton_last s a : (bv a < 128)%N -> runes (s ++ [a]) = runes s ++ [bv a].
Proof. intros H. rewrite runes_start_app by (apply ascii_start; exact H). rewrite runes_ascii by exact H. reflexivity. Qed.

(** ** TrimSpace *)
Notation blanks := (Forall (fun c : N => is_space c = true)).
Lemma trim_left_runes s : exists b, runes s = b ++ runes (trim_left s) /\ blanks b /\
  (trim_left s = [] \/ exists c w, runes (trim_left s) = c :: w /\ is_space c = false).
Proof.
  unfold trim_left. assert (H : forall n s, length s <= n -> exists b, runes s = b ++ runes (trim_left_f n s) /\ blanks b /\
    (trim_left_f n s = [] \/ exists c w, runes (trim_left_f n s) = c :: w /\ is_space c = false)); [|apply H; lia].
  clear s. induction n as [|n IH]; intros s L.
  - destruct s; [|cbn in L; lia]. exists []. cbn. repeat split; auto.
  - cbn [trim_left_f]. destruct s as [|a s]; [exists []; cbn; repeat split; auto|].
    destruct (decode_rune (a :: s)) as [r k] eqn:E. pose proof (decode_spec (a :: s) ltac:(discriminate)) as D. rewrite E in D. destruct D as [D _].
    destruct (is_space r) eqn:Sp.
    + destruct (IH (skipn k (a :: s))) as (b & E1 & B & T); [rewrite skipn_length; cbn [length] in *; lia|].
      exists (r :: b). rewrite (runes_cons (a :: s) r k) by (auto; discriminate). rewrite E1. repeat split; auto.
    + exists []. repeat split; auto. right. rewrite (runes_cons (a :: s) r k) by (auto; discriminate). eauto.
Qed.
Lemma decode_last_split s r k : s <> [] -> decode_last_rune s = (r, k) -> is_space r = true ->
  exists s1 a u, s = s1 ++ a :: u /\ firstn (length s - k) s = s1 /\ runes s = runes s1 ++ [r].
Proof.
  intros Hs E Sp. unfold decode_last_rune in E. destruct (rev s) as [|b l] eqn:Er.
  { apply (f_equal (@rev ascii)) in Er. rewrite rev_involutive in Er. cbn in Er. congruence. }
  assert (Hne : is_space rune_error = false) by (vm_compute; reflexivity).
  assert (TL : forall n, 1 <= n -> try_last n s = Some (r, k) -> exists s1 a u, s = s1 ++ a :: u /\ firstn (length s - k) s = s1 /\ runes s = runes s1 ++ [r]).
  { intros n Hn H. unfold try_last in H. destruct (Nat.ltb_spec (length s) n); [injection H as <- _; congruence|].
    destruct (skipn (length s - n) s) as [|a u] eqn:Es; [discriminate|]. destruct (rune_start a) eqn:Ra; [|discriminate].
    destruct (decode_rune (a :: u)) as [r' n'] eqn:Ed. destruct (Nat.eqb_spec n' n) as [->|]; [|injection H as <- _; congruence]. injection H as -> ->.
    assert (Lu : length (a :: u) = k) by (rewrite <- Es, skipn_length; lia).
    assert (Esp : s = firstn (length s - k) s ++ a :: u) by (rewrite <- Es; symmetry; apply firstn_skipn).
    exists (firstn (length s - k) s), a, u. split; [exact Esp|]. split; [reflexivity|]. rewrite Esp at 1. rewrite runes_start_app by exact Ra. f_equal.
    rewrite (runes_cons (a :: u) r k) by (auto; discriminate). rewrite skipn_all2 by lia. reflexivity. }
  destruct (N.ltb_spec (bv b) 128).
  { injection E as <- <-. apply (f_equal (@rev ascii)) in Er. rewrite rev_involutive in Er. cbn [rev] in Er.
    exists (rev l), b, []. split; [exact Er|]. rewrite Er. split; [rewrite app_length; cbn [length]; rewrite Nat.add_sub, firstn_app, firstn_all, Nat.sub_diag; cbn; apply app_nil_r|].
    apply runes_singleton_last. assumption. }
  destruct (try_last 2 s) as [[r2 k2]|] eqn:E2; [injection E as -> ->; apply (TL 2); [lia|exact E2]|].
  destruct (try_last 3 s) as [[r3 k3]|] eqn:E3; [injection E as -> ->; apply (TL 3); [lia|exact E3]|].
  destruct (try_last 4 s) as [[r4 k4]|] eqn:E4; [injection E as -> ->; apply (TL 4); [lia|exact E4]|].
  injection E as <- _. congruence.
Qed.
Lemma trim_right_runes s : exists b, runes s = runes (trim_right s) ++ b /\ blanks b.
Proof.
  unfold trim_right. generalize (length s) at 1. intros n. revert s. induction n as [|n IH]; intros s; cbn [trim_right_f].
  - exists []. rewrite app_nil_r. auto.
  - destruct s as [|a s]; [exists []; auto|]. destruct (decode_last_rune (a :: s)) as [r k] eqn:E. destruct (is_space r) eqn:Sp; [|exists []; rewrite app_nil_r; auto].
    destruct (decode_last_split (a :: s) r k ltac:(discriminate) E Sp) as (s1 & a1 & u & _ & E1 & E2). rewrite E1. destruct (IH s1) as (b & Eb & B).
    exists (b ++ [r]). rewrite E2, Eb, <- app_assoc. split; [reflexivity|]. apply Forall_app. auto.
Qed.
Lemma trim_space_runes s : exists b1 b2, runes s = b1 ++ runes (trim_space s) ++ b2 /\ blanks b1 /\ blanks b2 /\
  (trim_space s = [] \/ exists c w, runes (trim_space s) = c :: w /\ is_space c = false).
Proof.
  unfold trim_space. destruct (trim_left_runes s) as (b1 & E1 & B1 & T). destruct (trim_right_runes (trim_left s)) as (b2 & E2 & B2).
  exists b1, b2. rewrite E1, E2. repeat split; auto. destruct T as [T|(c & w & T & Sp)]; [left; rewrite T; reflexivity|].
  destruct (trim_right (trim_left s)) as [|x t] eqn:Et; [left; reflexivity|right]. rewrite T in E2.
  destruct (runes (x :: t)) as [|c' w'] eqn:Ew; [apply runes_nil in Ew; discriminate|]. cbn in E2. injection E2 as <- _. eauto.
Qed.
Lemma trim_space_empty s : trim_space s = [] <-> all_blank s.
Proof.
  destruct (trim_space_runes s) as (b1 & b2 & E & B1 & B2 & T). unfold all_blank. split.
  - intros Et. rewrite E, Et. cbn. apply Forall_app. auto.
  - intros F. destruct T as [T|(c & w & T & Sp)]; [exact T|]. rewrite E, T in F. apply Forall_app in F. destruct F as [_ F]. inversion F; congruence.
Qed.
Lemma first_visible b1 w1 b2 w2 c1 c2 : b1 ++ c1 :: w1 = b2 ++ c2 :: w2 -> blanks b1 -> blanks b2 -> is_space c1 = false -> is_space c2 = false ->
  b1 = b2 /\ c1 = c2 /\ w1 = w2.
Proof.
  intros E B1. revert b2 E. induction B1 as [|x b1 Hx B1 IH]; intros b2 E B2 S1 S2; destruct B2 as [|y b2 Hy B2]; cbn in E; injection E as E1 E2; subst; try congruence; auto.
  destruct (IH _ E2 B2 S1 S2) as (-> & -> & ->). auto.
Qed.
Lemma angle_char a : bv a = 60%N -> a = "<"%char.
Proof. unfold bv. intros H. apply (f_equal ascii_of_N) in H. rewrite ascii_N_embedding in H. exact H. Qed.
Lemma trim_angle s : (exists t, trim_space s = "<"%char :: t) <-> starts_angle s.
Proof.
  destruct (trim_space_runes s) as (b1 & b2 & E & B1 & B2 & T). split.
  - intros [t Et]. rewrite Et, runes_ascii in E by (vm_compute; reflexivity). exists b1, (runes t ++ b2). auto.
  - intros (b & w & E' & B). rewrite E' in E. destruct T as [T|(c & w' & T & Sp)].
    + exfalso. rewrite T in E. assert (F : blanks (b ++ 60%N :: w)) by (rewrite E; apply Forall_app; auto). apply Forall_app in F. destruct F as [_ F]. inversion F as [|? ? H]. vm_compute in H. discriminate.
    + rewrite T in E. cbn [app] in E. destruct (first_visible _ _ _ _ _ _ E B B1 ltac:(vm_compute; reflexivity) Sp) as (_ & <- & _).
      destruct (runes_head _ _ _ T ltac:(lia)) as (a & s' & -> & Ha & _). apply angle_char in Ha. subst a. eauto.
Qed.

(** ** isHTML *)
Lemma count_cons c x w : count c (x :: w) = (if N.eqb x c then 1 else 0) + count c w.
Proof.
  unfold count. rewrite list.filter_cons. destruct (base.decide (x = c)) as [->|D]; [rewrite N.eqb_refl; reflexivity|]. apply N.eqb_neq in D. rewrite D. reflexivity.
Qed.
Lemma count_app c u v : count c (u ++ v) = count c u + count c v.
Proof. unfold count. rewrite list.filter_app. apply app_length. Qed.
Lemma count_blanks c b : is_space c = false -> blanks b -> count c b = 0.
Proof. intros Hc B. induction B as [|x b Hx B IH]; [reflexivity|]. rewrite count_cons, IH. destruct (N.eqb_spec x c) as [->|]; [congruence|reflexivity]. Qed.
Lemma angle_count w : forall z, fold_left angle_step w z = (z + Z.of_nat (count 60 w) - Z.of_nat (count 62 w))%Z.
Proof.
  induction w as [|c w IH]; intros z; [cbn; lia|]. cbn [fold_left]. rewrite IH, !count_cons. unfold angle_step.
  destruct (N.eqb_spec c 60) as [->|]; [cbn; lia|]. destruct (N.eqb c 62); lia.
Qed.
Lemma is_html_spec s : is_html s = None /\ s <> [] /\ all_blank s \/
  is_html s = Some true /\ html_like s \/ is_html s = Some false /\ ~ html_like s /\ (s = [] \/ ~ all_blank s).
Proof.
  unfold is_html. destruct s as [|a s].
  { right. right. split; [reflexivity|]. split; [|auto]. intros [(b & w & E & _) _]. apply (f_equal (@length N)) in E. rewrite app_length in E. cbn in E. lia. }
  pose proof (trim_space_runes (a :: s)) as (b1 & b2 & E & B1 & B2 & T). pose proof (trim_angle (a :: s)) as TA. pose proof (trim_space_empty (a :: s)) as TE.
  destruct (trim_space (a :: s)) as [|c t] eqn:Et.
  { left. split; [reflexivity|]. split; [discriminate|]. apply TE. reflexivity. }
  right. assert (NB : ~ all_blank (a :: s)) by (intros H; apply TE in H; discriminate).
  destruct (Ascii.eqb_spec c "<") as [->|N]; cbn [negb].
  - assert (SA : starts_angle (a :: s)) by (apply TA; eauto).
    assert (C : forall x, is_space x = false -> count x (runes (a :: s)) = count x (runes ("<"%char :: t))).
    { intros x Hx. rewrite E, !count_app, (count_blanks x b1), (count_blanks x b2) by auto. lia. }
    rewrite angle_count, <- !C by (vm_compute; reflexivity).
    destruct (Z.eqb_spec (0 + Z.of_nat (count 60 (runes (a :: s))) - Z.of_nat (count 62 (runes (a :: s)))) 0) as [Hz|Hz]; [left|right].
    + split; [reflexivity|]. split; [exact SA|]. lia.
    + split; [reflexivity|]. split; [|auto]. intros [_ Hc]. lia.
  - right. split; [reflexivity|]. split; [|auto]. intros [SA _]. apply TA in SA. destruct SA as [t' Ht]. injection Ht as -> _. congruence.
Qed.

Section Classes.
  Variable uletter udigit : N -> bool.
  (** ** isID *)
  Lemma is_letter_spec c : is_letter uletter c = true <-> go_letter uletter c.
  Proof. unfold is_letter, go_letter. rewrite !orb_true_iff, !andb_true_iff, !in_range_spec, N.eqb_eq, N.leb_le, negb_true_iff, N.eqb_neq. tauto. Qed.
  Definition inner (x : N) : Prop := is_space x = false /\ x <> 45%N /\ x <> 46%N /\ x <> 47%N.
  Lemma is_name_loop_spec w : forall i pos, i <> 0 -> is_name_loop uletter i pos w = true <-> pos = true /\ Forall inner w.
  Proof.
    induction w as [|c w IH]; intros i pos Hi; cbn [is_name_loop]; [split; [intros ->; auto|tauto]|].
    assert (E : Nat.eqb i 0 = false) by (apply Nat.eqb_neq; exact Hi). rewrite E. cbn [andb].
    assert (X : Forall inner (c :: w) <-> inner c /\ Forall inner w) by (split; [intros H; inversion H; auto|intros []; constructor; auto]). rewrite X. unfold inner at 1.
    destruct (is_space c); [split; [discriminate|intros (_ & (? & _) & _); congruence]|].
    destruct (N.eqb_spec c 45); [split; [discriminate|tauto]|]. destruct (N.eqb_spec c 47); [split; [discriminate|tauto]|]. destruct (N.eqb_spec c 46); [split; [discriminate|tauto]|].
    rewrite IH by lia. tauto.
  Qed.
  Lemma is_name_spec s : is_name uletter s = true <-> name_like uletter s.
  Proof.
    unfold is_name, name_like. destruct (runes s) as [|c w]; cbn [is_name_loop].
    - split; [discriminate|]. intros (c & w & ? & _). discriminate.
    - assert (X : (exists c' w', c :: w = c' :: w' /\ go_letter uletter c' /\ Forall inner (c' :: w')) <-> go_letter uletter c /\ inner c /\ Forall inner w).
      { split; [intros (c' & w' & [= <- <-] & H1 & H2); inversion H2; auto|intros (H1 & H2 & H3); exists c, w; repeat split; auto; constructor; auto]. }
      unfold inner in X at 1. rewrite X. rewrite <- is_letter_spec. unfold inner at 1.
      cbn [Nat.eqb andb]. destruct (is_letter uletter c); cbn [negb]; [|split; [discriminate|intros [? _]; discriminate]].
      destruct (is_space c); [split; [discriminate|intros (_ & (? & _) & _); congruence]|].
      destruct (N.eqb_spec c 45); [split; [discriminate|tauto]|]. destruct (N.eqb_spec c 47); [split; [discriminate|tauto]|]. destruct (N.eqb_spec c 46); [split; [discriminate|tauto]|].
      rewrite is_name_loop_spec by lia. tauto.
  Qed.

  (** ** isNumber *)
  Lemma num_spec c : is_digit udigit c || N.eqb c 46 = true <-> number_rune udigit c.
  Proof. unfold is_digit, number_rune, go_digit. rewrite !orb_true_iff, andb_true_iff, in_range_spec, N.eqb_eq, N.leb_le. tauto. Qed.
  Lemma num_false c : is_digit udigit c || N.eqb c 46 = false <-> ~ number_rune udigit c.
  Proof. rewrite <- num_spec. destruct (is_digit udigit c || N.eqb c 46); split; congruence. Qed.
  Lemma number_loop2 w : is_number_loop udigit 2 w = true <-> Forall (number_rune udigit) w.
  Proof.
    induction w as [|c w IH]; cbn [is_number_loop]; [split; [constructor|reflexivity]|].
    rewrite <- negb_orb, orb_comm. destruct (is_digit udigit c || N.eqb c 46) eqn:E; cbn [negb].
    - apply num_spec in E. rewrite IH. split; [constructor; auto|intros H; inversion H; auto].
    - apply num_false in E. split; [discriminate|intros H; inversion H; contradiction].
  Qed.
  Lemma number_loop1 w : is_number_loop udigit 1 w = true <->
    exists junk d, w = junk ++ d /\ Forall (fun c => ~ number_rune udigit c) junk /\ d <> [] /\ Forall (number_rune udigit) d.
  Proof.
    induction w as [|c w IH]; cbn [is_number_loop].
    - split; [discriminate|]. intros (j & d & E & _ & N & _). symmetry in E. apply app_eq_nil in E. tauto.
    - destruct (is_digit udigit c || N.eqb c 46) eqn:E.
      + apply num_spec in E. rewrite number_loop2. split.
        * intros H. exists [], (c :: w). repeat split; auto; discriminate.
        * intros (j & d & Ew & J & N & D). destruct J as [|x j Hx J]; [|cbn in Ew; injection Ew as <- _; contradiction]. cbn in Ew. subst d. inversion D; auto.
      + apply num_false in E. rewrite IH. split.
        * intros (j & d & -> & J & N & D). exists (c :: j), d. repeat split; auto.
        * intros (j & d & Ew & J & N & D). destruct J as [|x j Hx J]; [cbn in Ew; subst d; inversion D; contradiction|]. cbn in Ew. injection Ew as <- ->. eauto 6.
  Qed.
  Lemma is_number_spec s : is_number udigit s = true <-> number_like udigit s.
  Proof.
    unfold is_number, number_like. destruct (runes s) as [|c w]; cbn [is_number_loop].
    - split; [discriminate|]. intros (w & N & _ & [E|(j & E & _)]); [congruence|discriminate].
    - destruct (is_digit udigit c || N.eqb c 46) eqn:E.
      + apply num_spec in E. rewrite number_loop2. split.
        * intros H. exists (c :: w). split; [discriminate|]. split; [constructor; auto|auto].
        * intros (d & N & D & [Ew|(j & Ew & _)]).
          -- subst d. inversion D; auto.
          -- injection Ew as -> _. destruct E as [[E|[E _]]|E]; lia.
      + apply num_false in E. destruct (N.eqb_spec c 45) as [->|N45].
        * rewrite number_loop1. split.
          -- intros (j & d & -> & J & N & D). exists d. split; [exact N|]. split; [exact D|]. right. exists j. auto.
          -- intros (d & N & D & [Ew|(j & Ew & J)]); [subst d; inversion D; contradiction|]. injection Ew as ->. exists j, d. auto.
        * split; [discriminate|]. intros (d & N & D & [Ew|(j & Ew & J)]); [subst d; inversion D; contradiction|congruence].
  Qed.
End Classes.

Local Arguments dquote : simpl never.
Local Arguments backslash : simpl never.
(** ** isStringLit *)
Lemma is_string_loop_spec w : forall p, is_string_loop p w = true <-> forall u v, w = u ++ 34%N :: v -> exists u', p :: u = u' ++ [92%N].
Proof.
  induction w as [|r w IH]; intros p; cbn [is_string_loop].
  - split; [|reflexivity]. intros _ u v E. symmetry in E. apply app_eq_nil in E. destruct E; discriminate.
  - destruct (N.eqb_spec r 34) as [->|N]; cbn [andb].
    + destruct (N.eqb_spec p 92) as [->|N]; cbn [negb].
      * rewrite IH. split.
        -- intros H u v E. destruct u as [|x u]; [exists []; reflexivity|]. cbn in E. injection E as <- E. destruct (H u v E) as [u' Hu]. exists (92%N :: u'). cbn. rewrite Hu. reflexivity.
        -- intros H u v E. destruct (H (34%N :: u) v) as [u' Hu]; [cbn; rewrite E; reflexivity|]. destruct u' as [|x u']; [discriminate|]. cbn in Hu. injection Hu as _ Hu. eauto.
      * split; [discriminate|]. intros H. destruct (H [] w eq_refl) as [u' Hu]. destruct u' as [|x [|? ?]]; cbn in Hu; try discriminate. injection Hu as ->. congruence.
    + rewrite IH. split.
      * intros H u v E. destruct u as [|x u]; [cbn in E; injection E as -> _; congruence|]. cbn in E. injection E as <- E. destruct (H u v E) as [u' Hu]. exists (p :: u'). cbn. rewrite Hu. reflexivity.
      * intros H u v E. destruct (H (r :: u) v) as [u' Hu]; [cbn; rewrite E; reflexivity|]. destruct u' as [|x u']; [discriminate|]. cbn in Hu. injection Hu as _ Hu. eauto.
Qed.
Lemma string_body_spec b : is_string_loop 0 (runes b) = true <-> forall u v, runes b = u ++ 34%N :: v -> exists u', u = u' ++ [92%N].
Proof.
  rewrite is_string_loop_spec. split; intros H u v E; destruct (H u v E) as [u' Hu].
  - destruct u' as [|x u']; [cbn in Hu; discriminate|]. cbn in Hu. injection Hu as _ Hu. eauto.
  - exists (0%N :: u'). rewrite Hu. reflexivity.
Qed.
Lemma is_string_lit_spec s : is_string_lit s = None /\ s = [dquote] \/ is_string_lit s = Some true /\ string_like s \/ is_string_lit s = Some false /\ ~ string_like s /\ s <> [dquote].
Proof.
  unfold is_string_lit. destruct s as [|a s]; [right; right; split; [reflexivity|]; split; [intros (b & E & _); discriminate|discriminate]|].
  cbn [has_prefix]. assert (HP : forall x, has_prefix x [] = true) by (intros []; reflexivity). rewrite HP, andb_true_r. unfold has_suffix.
  destruct (Ascii.eqb_spec dquote a) as [<-|N]; cbn [negb orb].
  2: { right. right. split; [reflexivity|]. split; [intros (b & E & _); injection E as -> _; congruence|congruence]. }
  destruct (rev (dquote :: s)) as [|z l] eqn:Er; [apply (f_equal (@length ascii)) in Er; rewrite rev_length in Er; discriminate|].
  apply (f_equal (@rev ascii)) in Er. rewrite rev_involutive in Er. cbn [rev] in Er.
  change (rev [dquote]) with [dquote]. cbn [has_prefix]. rewrite HP, andb_true_r.
  destruct (Ascii.eqb_spec dquote z) as [<-|N]; cbn [negb].
  2: { right. right. split; [reflexivity|]. split.
       - intros (b & E & _). cbn in E. rewrite Er in E. change (rev l ++ [z] = (dquote :: b) ++ [dquote]) in E. apply app_inj_tail in E. destruct E. congruence.
       - intros E. rewrite E in Er. destruct l as [|? ?] using rev_ind; [cbn in Er; congruence|]. rewrite rev_app_distr in Er. cbn in Er. injection Er as _ Er. destruct (rev l); discriminate. }
  destruct s as [|c s]; [left; split; reflexivity|]. right. replace (Nat.ltb (length (dquote :: c :: s) - 1) 1) with false by (symmetry; apply Nat.ltb_ge; cbn; lia).
  destruct (rev l) as [|d m] eqn:El; [cbn in Er; discriminate|]. cbn in Er. injection Er as <- Er.
  assert (Ef : firstn (length (dquote :: c :: s) - 1 - 1) (skipn 1 (dquote :: c :: s)) = m).
  { cbn [skipn]. rewrite Er. replace (length (dquote :: m ++ [dquote]) - 1 - 1) with (length m) by (cbn [length]; rewrite app_length; cbn; lia). rewrite firstn_app, firstn_all, Nat.sub_diag. apply app_nil_r. }
  rewrite Ef, Er. pose proof (string_body_spec m) as B. destruct (is_string_loop 0 (runes m)); [left|right].
  - split; [reflexivity|]. exists m. split; [reflexivity|]. apply B. reflexivity.
  - split; [reflexivity|]. split; [|destruct m; discriminate]. intros (b & E & H). cbn in E. injection E as E. apply app_inj_tail in E. destruct E as [<- _]. apply B in H. discriminate.
Qed.

(** ** esc *)
Section Esc.
  Variable uletter udigit : N -> bool.
  Notation esc := (esc uletter udigit).
  Notation kept := (kept uletter udigit).
  Lemma quoted_longer s t : length s <= length t -> quoted t <> s.
  Proof. intros L E. apply (f_equal (@length ascii)) in E. unfold quoted in E. rewrite !app_length in E. cbn in E. lia. Qed.
  Lemma html_escape_length s : length s <= length (html_escape s).
  Proof.
    unfold html_escape. induction s as [|c s IH]; [cbn; lia|]. cbn [flat_map]. rewrite app_length. cbn [length]. enough (1 <= length (html_escape_byte c)) by lia.
    unfold html_escape_byte. repeat match goal with |- context [if ?b then _ else _] => destruct b end; try (cbn; lia); unfold lit; cbn; lia.
  Qed.
  Lemma replace_length s : length s <= length (replace_byte dquote [backslash; dquote] s).
  Proof.
    unfold replace_byte. induction s as [|c s IH]; [cbn; lia|]. cbn [flat_map]. rewrite app_length. cbn [length]. destruct (Ascii.eqb c dquote); cbn; lia.
  Qed.
  (** The classes other than html_like do not start with '<'. *)
  Lemma others_no_angle s : name_like uletter s \/ number_like udigit s \/ string_like s -> ~ starts_angle s.
  Proof.
    intros H (b & w & E & B). assert (X : forall c v, runes s = c :: v -> is_space c = false -> c = 60%N).
    { intros c v Ec Sp. rewrite Ec in E. destruct (first_visible [] v b w c 60 E (Forall_nil _) B Sp ltac:(vm_compute; reflexivity)) as (_ & Hc & _). exact Hc. }
    destruct H as [(c & v & Ec & L & F)|[(d & N & D & [Ew|(j & Ew & J)])|(m & Em & _)]].
    - inversion F as [|? ? [Sp _]]; subst. specialize (X c v Ec Sp). subst c. destruct L as [L|[L|[L|[L _]]]]; lia.
    - destruct d as [|c d]; [congruence|]. inversion D as [|? ? Hc]; subst.
      assert (Sp : is_space c = true \/ is_space c = false) by (destruct (is_space c); auto). destruct Sp as [Sp|Sp].
      + destruct Hc as [[Hc|[Hc1 Hc2]]|Hc].
        * unfold is_space in Sp. rewrite !orb_true_iff, !in_range_spec, !N.eqb_eq in Sp. lia.
        * rewrite Ew in E. destruct b as [|x b]; cbn in E; injection E as E1 E2; [lia|]. clear -E2 B D. 
          assert (D' : Forall (number_rune udigit) d) by (inversion D; assumption). rewrite E2 in D'. apply Forall_app in D'. destruct D' as [_ D'].
          inversion D' as [|? ? Hn]. destruct Hn as [[Hn|[Hn _]]|Hn]; lia.
        * subst c. vm_compute in Sp. discriminate.
      + specialize (X c d Ew Sp). subst c. destruct Hc as [[Hc|[Hc _]]|Hc]; lia.
    - specialize (X 45%N _ Ew ltac:(vm_compute; reflexivity)). discriminate.
    - assert (Er : runes s = 34%N :: runes (m ++ [dquote])) by (rewrite Em; apply runes_ascii; vm_compute; reflexivity). specialize (X 34%N _ Er ltac:(vm_compute; reflexivity)). discriminate.
  Qed.
  Definition panics (s : gostr) : Prop := s <> [] /\ all_blank s \/ s = [dquote].
  Lemma esc_spec s :
    esc s = None /\ panics s \/
    esc s = Some s /\ kept s /\ ~ panics s \/
    esc s = Some (quoted (replace_byte dquote [backslash; dquote] s)) /\ ~ kept s /\ ~ panics s /\ starts_angle s \/
    esc s = Some (quoted (html_escape s)) /\ ~ kept s /\ ~ panics s /\ ~ starts_angle s.
  Proof.
    destruct (list_eq_dec ascii_dec s [dquote]) as [->|NE]; [left; split; [vm_compute; reflexivity|right; reflexivity]|].
    unfold Escape.esc, SpecEscape.kept, panics. destruct s as [|a s0]; [right; left; split; [reflexivity|]; split; [auto|]; intros [[H _]|H]; congruence|]. set (s := a :: s0). assert (Hs : s <> []) by discriminate.
    destruct (is_html_spec s) as [(-> & _ & B)|[(-> & H)|(-> & H & NB)]].
    - left. split; [reflexivity|]. auto.
    - right. left. split; [reflexivity|]. split; [auto|]. destruct H as [SA _]. intros [[_ B]|E].
      + destruct SA as (b & w & E & _). unfold all_blank in B. rewrite E in B. apply Forall_app in B. destruct B as [_ B]. inversion B as [|? ? X]. vm_compute in X. discriminate.
      + rewrite E in SA. apply trim_angle in SA. destruct SA as [t Ht]. vm_compute in Ht. discriminate.
    - destruct NB as [NB|NB]; [contradiction|]. destruct (trim_space s) as [|c t] eqn:Et; [exfalso; apply NB, trim_space_empty; exact Et|]. right.
      pose proof (trim_angle s) as TA. rewrite Et in TA. destruct (Ascii.eqb_spec c "<") as [->|Nc].
      + right. left. assert (SA : starts_angle s) by (apply TA; eauto). split; [reflexivity|]. split; [|split; [|exact SA]].
        * intros [K|[K|K]]; [contradiction|contradiction|]. exact (others_no_angle s K SA).
        * intros [[_ B]|E]; [contradiction|]. rewrite E in SA. apply trim_angle in SA. destruct SA as [t' Ht]. vm_compute in Ht. discriminate.
      + assert (NA : ~ starts_angle s) by (intros SA; apply TA in SA; destruct SA as [t' Ht]; injection Ht as -> _; congruence).
        pose proof (is_name_spec uletter udigit s) as Nm. destruct (is_name uletter s).
        { left. split; [reflexivity|]. assert (K : name_like uletter s) by (apply Nm; reflexivity). split; [auto|]. intros [[_ B]|E]; [contradiction|].
          destruct K as (c' & w & Ec & L & _). rewrite E in Ec. vm_compute in Ec. injection Ec as <- _. destruct L as [L|[L|[L|[L _]]]]; lia. }
        pose proof (is_number_spec uletter udigit s) as Nn. destruct (is_number udigit s).
        { left. split; [reflexivity|]. assert (K : number_like udigit s) by (apply Nn; reflexivity). split; [auto|]. intros [[_ B]|E]; [contradiction|].
          destruct K as (d & N & D & [Ew|(j & Ew & J)]); rewrite E in Ew; vm_compute in Ew; [|discriminate]. subst d. inversion D as [|? ? X]. destruct X as [[X|[X _]]|X]; lia. }
        destruct (is_string_lit_spec s) as [(_ & E)|[(-> & K)|(-> & K & _)]].
        * contradiction.
        * left. split; [reflexivity|]. split; [auto 6|]. intros [[_ B]|E]; [contradiction|].
          destruct K as (b & Eb & _). rewrite E in Eb. apply (f_equal (@length ascii)) in Eb. rewrite !app_length in Eb. cbn in Eb. lia.
        * right. right. split; [reflexivity|]. split; [|split; [|exact NA]].
          -- intros [K'|[K'|[K'|[K'|K']]]]; try contradiction; [apply Nm in K'|apply Nn in K']; discriminate.
          -- intros [[_ B]|E]; contradiction.
  Qed.
End Esc.
