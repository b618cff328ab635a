(** strings.TrimSpace on text with a visible first and last rune. *)
From Coq Require Import List Ascii NArith ZArith Bool Lia Arith.
From Verif Require Import Base LexSpec LexDfa LexerProofs Tokens LexFacts LexPrint.
Import ListNotations.

(** The text starts (ends) with a rune that is not white space, whatever follows (precedes). *)
Definition vis_left (s : gostr) : Prop :=
  s <> [] /\ fst (decode_rune s) <> rune_error /\ is_space (fst (decode_rune s)) = false.
Definition vis_right (s : gostr) : Prop :=
  s <> [] /\ forall x, is_space (fst (decode_last_rune (x ++ s))) = false.

Lemma vis_left_app s t : vis_left s -> vis_left (s ++ t).
Proof.
  intros (H1 & H2 & H3). destruct (decode_rune s) as [r k] eqn:E. cbn in H2, H3.
  unfold vis_left. rewrite (decode_valid_app s t r k H1 E H2). split; [destruct s; [congruence|discriminate]|]. auto.
Qed.
Lemma vis_right_app s t : vis_right t -> vis_right (s ++ t).
Proof.
  intros (H1 & H2). split; [destruct t; [congruence|destruct s; discriminate]|]. intros x. rewrite app_assoc. apply H2.
Qed.

Definition visible_ascii (a : ascii) : bool := N.ltb (bv a) 128 && negb (is_space (bv a)).
Lemma vis_left_ascii a s : visible_ascii a = true -> vis_left (a :: s).
Proof.
  unfold visible_ascii. rewrite andb_true_iff, N.ltb_lt, negb_true_iff. intros [H1 H2].
  unfold vis_left. cbn [decode_rune]. apply N.ltb_lt in H1 as H1'. rewrite H1'. cbn [fst].
  split; [discriminate|]. split; [unfold rune_error; lia|exact H2].
Qed.
Lemma decode_last_ascii x a : (bv a < 128)%N -> decode_last_rune (x ++ [a]) = (bv a, 1).
Proof. intros H. unfold decode_last_rune. rewrite rev_unit. apply N.ltb_lt in H. rewrite H. reflexivity. Qed.
Lemma vis_right_ascii s a : visible_ascii a = true -> vis_right (s ++ [a]).
Proof.
  unfold visible_ascii. rewrite andb_true_iff, N.ltb_lt, negb_true_iff. intros [H1 H2].
  split; [destruct s; discriminate|]. intros x. rewrite app_assoc, decode_last_ascii by exact H1. exact H2.
Qed.

Lemma trim_left_id s : vis_left s -> trim_left s = s.
Proof.
  intros (H1 & _ & H3). unfold trim_left. destruct s as [|a s]; [congruence|]. cbn [length trim_left_f].
  destruct (decode_rune (a :: s)) as [r k]. cbn in H3. rewrite H3. reflexivity.
Qed.
Lemma trim_right_id s : vis_right s -> trim_right s = s.
Proof.
  intros (H1 & H3). specialize (H3 []). cbn [app] in H3. unfold trim_right. destruct s as [|a s]; [congruence|].
  cbn [length trim_right_f]. destruct (decode_last_rune (a :: s)) as [r k]. cbn in H3. rewrite H3. reflexivity.
Qed.
Lemma trim_space_id s : vis_left s -> vis_right s -> trim_space s = s.
Proof. intros H1 H2. unfold trim_space. rewrite trim_left_id by exact H1. apply trim_right_id. exact H2. Qed.
Lemma trim_space_sp s : vis_left s -> vis_right s -> trim_space (s ++ lit " ") = s.
Proof.
  intros H1 H2. unfold trim_space. rewrite trim_left_id by (apply vis_left_app; exact H1).
  unfold trim_right. rewrite app_length. change (length (lit " ")) with 1. rewrite Nat.add_1_r.
  assert (E : decode_last_rune (s ++ lit " ") = (32%N, 1)) by (apply (decode_last_ascii s " "%char); vm_compute; reflexivity).
  cbn [trim_right_f]. rewrite E. destruct (s ++ lit " ") as [|a l] eqn:El; [destruct s; discriminate|]. rewrite <- El.
  change (is_space 32) with true. cbv iota.
  replace (firstn (length (s ++ lit " ") - 1) (s ++ lit " ")) with s.
  - apply (trim_right_id s H2).
  - rewrite app_length. change (length (lit " ")) with 1. rewrite Nat.add_sub, firstn_app, firstn_all, Nat.sub_diag. cbn. symmetry. apply app_nil_r.
Qed.

(** *** identifiers that TrimSpace leaves alone *)
Lemma trim_left_f_len n : forall s, length (trim_left_f n s) <= length s.
Proof.
  induction n as [|n IH]; intros s; cbn [trim_left_f]; [lia|]. destruct s as [|a s]; [cbn; lia|].
  destruct (decode_rune (a :: s)) as [r k]. destruct (is_space r); [|lia]. etransitivity; [apply IH|]. rewrite skipn_length. lia.
Qed.
Lemma trim_right_f_len n : forall s, length (trim_right_f n s) <= length s.
Proof.
  induction n as [|n IH]; intros s; cbn [trim_right_f]; [lia|]. destruct s as [|a s]; [cbn; lia|].
  destruct (decode_last_rune (a :: s)) as [r k]. destruct (is_space r); [|lia]. etransitivity; [apply IH|]. rewrite firstn_length. lia.
Qed.
Lemma try_last_width s n r k : 1 <= n -> try_last n s = Some (r, k) -> 1 <= k.
Proof.
  intros Hn. unfold try_last. destruct (Nat.ltb (length s) n); [intros [= _ <-]; lia|].
  destruct (skipn _ s) as [|a t]; [discriminate|]. destruct (rune_start a); [|discriminate].
  destruct (decode_rune (a :: t)) as [r' n']. destruct (Nat.eqb n' n); intros [= _ <-]; lia.
Qed.
Lemma decode_last_width s : s <> [] -> 1 <= snd (decode_last_rune s).
Proof.
  intros Hs. unfold decode_last_rune. destruct (rev s) as [|b l] eqn:E.
  { apply (f_equal (@rev ascii)) in E. rewrite rev_involutive in E. cbn in E. congruence. }
  destruct (N.ltb (bv b) 128); [cbn; lia|].
  destruct (try_last 2 s) as [[r k]|] eqn:E2; [eapply try_last_width in E2; cbn; lia|].
  destruct (try_last 3 s) as [[r k]|] eqn:E3; [eapply try_last_width in E3; cbn; lia|].
  destruct (try_last 4 s) as [[r k]|] eqn:E4; [eapply try_last_width in E4; cbn; lia|]. cbn; lia.
Qed.

Lemma trim_space_left s : s <> [] -> trim_space s = s -> is_space (fst (decode_rune s)) = false.
Proof.
  intros Hs H. destruct (is_space (fst (decode_rune s))) eqn:E; [exfalso|reflexivity].
  apply (f_equal (@length ascii)) in H. unfold trim_space, trim_right in H.
  pose proof (trim_right_f_len (length (trim_left s)) (trim_left s)) as L. unfold trim_left in L, H at 1.
  unfold trim_left in H. pose proof (decode_spec s Hs) as D.
  destruct s as [|a s]; [congruence|]. cbn [length trim_left_f] in *.
  destruct (decode_rune (a :: s)) as [r k]. cbn [fst] in E. rewrite E in *.
  pose proof (trim_left_f_len (length s) (skipn k (a :: s))) as L2. rewrite skipn_length in L2. cbn [length] in L2.
  destruct D as [D _]. lia.
Qed.
Lemma trim_space_right s : s <> [] -> trim_space s = s -> is_space (fst (decode_last_rune s)) = false.
Proof.
  intros Hs H. destruct (is_space (fst (decode_last_rune s))) eqn:E; [exfalso|reflexivity].
  unfold trim_space in H. pose proof (trim_left_f_len (length s) s) as L1. fold (trim_left s) in L1.
  pose proof (trim_right_f_len (length (trim_left s)) (trim_left s)) as L2. fold (trim_right (trim_left s)) in L2.
  assert (E1 : trim_left s = s).
  { assert (length (trim_left s) = length s) as El by (rewrite H in L2; lia).
    revert El. unfold trim_left. destruct s as [|a s]; [congruence|]. cbn [length trim_left_f].
    pose proof (decode_spec (a :: s) Hs) as D.
    destruct (decode_rune (a :: s)) as [r k]. destruct (is_space r); [|auto]. intros El.
    pose proof (trim_left_f_len (length s) (skipn k (a :: s))) as L. rewrite skipn_length in L. cbn [length] in L.
    destruct D as [D _]. lia. }
  rewrite E1 in H. apply (f_equal (@length ascii)) in H. unfold trim_right in H.
  pose proof (decode_last_width s Hs) as D.
  destruct s as [|a s]; [congruence|]. cbn [length trim_right_f] in H.
  destruct (decode_last_rune (a :: s)) as [r k]. cbn [fst snd] in E, D. rewrite E in H.
  pose proof (trim_right_f_len (length s) (firstn (S (length s) - k) (a :: s))) as L. rewrite firstn_length in L. lia.
Qed.

(** In clean text the last rune can be found without looking further back. *)
Lemma clean_first a s : clean (a :: s) -> rune_start a = true.
Proof.
  intros H. unfold clean in H. destruct (decode_rune (a :: s)) as [r k] eqn:E.
  rewrite (pieces_cons (a :: s) r k) in H; [|discriminate|exact E]. inversion H as [|? ? H1 _]; subst. cbn in H1.
  unfold rune_start. destruct (is_cont a) eqn:Ec; [|reflexivity]. exfalso. apply H1.
  unfold decode_rune in E. unfold is_cont, in_range in Ec. rewrite andb_true_iff, !N.leb_le in Ec.
  destruct (N.ltb (bv a) 128) eqn:E0; [apply N.ltb_lt in E0; lia|].
  unfold in_range in E.
  destruct (N.leb 194 (bv a) && N.leb (bv a) 223) eqn:E1; [rewrite andb_true_iff, !N.leb_le in E1; lia|].
  destruct (N.leb 224 (bv a) && N.leb (bv a) 239) eqn:E2; [rewrite andb_true_iff, !N.leb_le in E2; lia|].
  destruct (N.leb 240 (bv a) && N.leb (bv a) 244) eqn:E3; [rewrite andb_true_iff, !N.leb_le in E3; lia|].
  injection E as <- _. reflexivity.
Qed.

Lemma try_last_app n x s : n <= length s -> try_last n (x ++ s) = try_last n s.
Proof.
  intros H. unfold try_last. rewrite app_length.
  destruct (Nat.ltb_spec (length x + length s) n); [lia|]. destruct (Nat.ltb_spec (length s) n); [lia|].
  replace (length x + length s - n) with (length x + (length s - n)) by lia.
  rewrite skipn_app, skipn_all2 by lia. replace (length x + (length s - n) - length x) with (length s - n) by lia.
  reflexivity.
Qed.
Lemma try_last_None_first n a s : n = length (a :: s) -> rune_start a = true -> try_last n (a :: s) <> None.
Proof.
  intros -> Ha. unfold try_last. rewrite Nat.ltb_irrefl, Nat.sub_diag. cbn [skipn]. rewrite Ha.
  destruct (decode_rune (a :: s)) as [r k]. discriminate.
Qed.

Lemma decode_last_app x s : s <> [] -> clean s -> decode_last_rune (x ++ s) = decode_last_rune s.
Proof.
  intros Hs Hc. unfold decode_last_rune. rewrite rev_app_distr.
  destruct (rev s) as [|b l] eqn:E.
  { apply (f_equal (@rev ascii)) in E. rewrite rev_involutive in E. cbn in E. congruence. }
  cbn [app]. destruct (N.ltb (bv b) 128) eqn:Eb; [reflexivity|].
  destruct s as [|a s]; [congruence|]. pose proof (clean_first a s Hc) as Ha.
  assert (L2 : 2 <= length (a :: s)).
  { destruct s as [|a' s]; [exfalso|cbn; lia]. cbn in E. injection E as -> <-.
    unfold clean in Hc. destruct (decode_rune [b]) as [r k] eqn:Ed.
    rewrite (pieces_cons [b] r k) in Hc; [|discriminate|exact Ed]. inversion Hc as [|? ? H1 _]; subst. apply H1. cbn [fst].
    unfold decode_rune in Ed. rewrite Eb in Ed.
    destruct (in_range 194 223 (bv b)), (in_range 224 239 (bv b)), (in_range 240 244 (bv b)); injection Ed as <- _; reflexivity. }
  rewrite (try_last_app 2) by exact L2.
  destruct (try_last 2 (a :: s)) eqn:E2; [reflexivity|].
  assert (L3 : 3 <= length (a :: s)).
  { destruct (Nat.eq_dec (length (a :: s)) 2) as [E'|]; [|lia]. exfalso. eapply try_last_None_first; [symmetry; exact E'|exact Ha|exact E2]. }
  rewrite (try_last_app 3) by exact L3.
  destruct (try_last 3 (a :: s)) eqn:E3; [reflexivity|].
  assert (L4 : 4 <= length (a :: s)).
  { destruct (Nat.eq_dec (length (a :: s)) 3) as [E'|]; [|lia]. exfalso. eapply try_last_None_first; [symmetry; exact E'|exact Ha|exact E3]. }
  rewrite (try_last_app 4) by exact L4. reflexivity.
Qed.

(** An ID that TrimSpace does not change is visible at both ends. *)
Lemma vis_left_id i : is_id i -> trim_space i = i -> vis_left i.
Proof.
  intros H1 H2. pose proof (is_id_nonempty i H1) as Hn. split; [exact Hn|]. split; [|apply trim_space_left; assumption].
  pose proof (is_id_clean i H1) as Hc. unfold clean in Hc. destruct (decode_rune i) as [r k] eqn:E.
  rewrite (pieces_cons i r k Hn E) in Hc. inversion Hc; subst. assumption.
Qed.
Lemma vis_right_id i : is_id i -> trim_space i = i -> vis_right i.
Proof.
  intros H1 H2. pose proof (is_id_nonempty i H1) as Hn. split; [exact Hn|]. intros x.
  rewrite decode_last_app by (auto using is_id_clean). apply trim_space_right; assumption.
Qed.
