(** Escaping does not confuse different names. *)
From Coq Require Import List Ascii NArith Bool Lia.
From Verif Require Import Base LexSpec LexDfa LexerProofs LexFacts LexPrint.
From Verif Require Import Escape SpecEscape EscapeProofs EscapeFacts.
Import ListNotations.
Local Arguments dquote : simpl never.
Local Arguments backslash : simpl never.

(** A code without a word that starts another word *)
Lemma flat_map_inj {A} (ok : A -> Prop) (f : A -> gostr) : (forall a, ok a -> f a <> []) ->
  (forall a b u v, ok a -> ok b -> f a ++ u = f b ++ v -> a = b) ->
  forall s s', Forall ok s -> Forall ok s' -> flat_map f s = flat_map f s' -> s = s'.
Proof.
  intros N P. induction s as [|a s IH]; intros [|b s'] F F' E; cbn in E; [reflexivity| | |].
  - inversion F'; subst. destruct (f b) eqn:X; [exfalso; eapply N; eassumption|discriminate].
  - inversion F; subst. destruct (f a) eqn:X; [exfalso; eapply N; eassumption|discriminate].
  - inversion F; inversion F'; subst. assert (a = b) as -> by (eapply P; [| |exact E]; assumption). f_equal. apply IH; try assumption.
    apply (app_inv_head _ _ _ E).
Qed.
Fixpoint common (u v : gostr) : bool :=   (* one of the two starts the other *)
  match u, v with [], _ => true | _, [] => true | a :: u', b :: v' => Ascii.eqb a b && common u' v' end.
Lemma common_app u : forall v x y, u ++ x = v ++ y -> common u v = true.
Proof.
  induction u as [|a u IH]; intros [|b v] x y E; try reflexivity. cbn in *. injection E as -> E. rewrite Ascii.eqb_refl. cbn. eapply IH; exact E.
Qed.
Definition codes_ok (a b : ascii) : bool :=
  N.eqb (bv a) 0 || N.eqb (bv b) 0 || Ascii.eqb a b || negb (common (html_escape_byte a) (html_escape_byte b)).
Lemma codes_ok_all : forallb (fun i => forallb (fun j => codes_ok (ascii_of_N (N.of_nat i)) (ascii_of_N (N.of_nat j))) (seq 0 256)) (seq 0 256) = true.
Proof. vm_compute. reflexivity. Qed.
Lemma ascii_seq (a : ascii) : exists i, In i (seq 0 256) /\ a = ascii_of_N (N.of_nat i).
Proof.
  exists (nat_of_ascii a). split; [apply in_seq; pose proof (nat_ascii_bounded a); lia|]. rewrite <- (ascii_nat_embedding a) at 1. unfold ascii_of_nat. reflexivity.
Qed.
Lemma codes_prefix a b u v : bv a <> 0%N -> bv b <> 0%N -> html_escape_byte a ++ u = html_escape_byte b ++ v -> a = b.
Proof.
  intros Na Nb E. apply common_app in E. destruct (ascii_seq a) as (i & Hi & Ei). destruct (ascii_seq b) as (j & Hj & Ej).
  pose proof codes_ok_all as X. rewrite forallb_forall in X. specialize (X i Hi). rewrite forallb_forall in X. specialize (X j Hj).
  rewrite <- Ei, <- Ej in X. unfold codes_ok in X. rewrite E in X. rewrite !orb_true_iff in X. destruct X as [[[X|X]|X]|X].
  - apply N.eqb_eq in X. congruence.
  - apply N.eqb_eq in X. congruence.
  - apply Ascii.eqb_eq in X. exact X.
  - discriminate.
Qed.
Lemma html_nonempty a : html_escape_byte a <> [].
Proof.
  destruct (ascii_seq a) as (i & Hi & ->). assert (X : forallb (fun i => match html_escape_byte (ascii_of_N (N.of_nat i)) with [] => false | _ => true end) (seq 0 256) = true) by (vm_compute; reflexivity).
  rewrite forallb_forall in X. specialize (X i Hi). intros E. rewrite E in X. discriminate.
Qed.
(** NUL is written as U+FFFD. *)
Lemma html_nul s : html_escape (nul_replaced s) = html_escape s.
Proof.
  unfold html_escape, nul_replaced. induction s as [|a s IH]; [reflexivity|]. cbn [flat_map]. rewrite flat_map_app, IH. f_equal.
  destruct (Ascii.eqb_spec a NUL) as [->|N]; [vm_compute; reflexivity|]. cbn. apply app_nil_r.
Qed.
Lemma nul_gone s : Forall (fun a => bv a <> 0%N) (nul_replaced s).
Proof.
  unfold nul_replaced. apply Forall_forall. intros b H. apply in_flat_map in H. destruct H as (a & Ha & H).
  destruct (Ascii.eqb_spec a NUL) as [E0|N].
  - intros E. cbn in H. destruct H as [<-|[<-|[<-|[]]]]; vm_compute in E; discriminate.
  - destruct H as [<-|[]]. intros E. apply N. unfold bv in E. rewrite <- (ascii_N_embedding a), E. reflexivity.
Qed.
Lemma html_inj s s' : html_escape s = html_escape s' -> nul_replaced s = nul_replaced s'.
Proof.
  intros E. rewrite <- (html_nul s), <- (html_nul s') in E. eapply (flat_map_inj (fun a => bv a <> 0%N)); try exact E; try apply nul_gone.
  - intros a _. apply html_nonempty.
  - intros a b u v. apply codes_prefix.
Qed.
Lemma back_head s v : flat_map back s <> dquote :: v.
Proof.
  destruct s as [|a s]; [discriminate|]. cbn. unfold back at 1. destruct (Ascii.eqb_spec a dquote) as [->|N]; [discriminate|]. cbn. congruence.
Qed.
Lemma back_inj : forall s s', flat_map back s = flat_map back s' -> s = s'.
Proof.
  induction s as [|a s IH]; intros [|b s'] E; [reflexivity| | |]; cbn [flat_map] in E; unfold back at 1 in E; try unfold back at 2 in E.
  - destruct (Ascii.eqb b dquote); discriminate.
  - destruct (Ascii.eqb a dquote); discriminate.
  - destruct (Ascii.eqb_spec a dquote) as [->|Na].
    + destruct (Ascii.eqb_spec b dquote) as [->|Nb]; cbn in E.
      * injection E as E. f_equal. apply IH, E.
      * injection E as _ E. symmetry in E. apply back_head in E. contradiction.
    + destruct (Ascii.eqb_spec b dquote) as [->|Nb]; cbn in E.
      * injection E as _ E. apply back_head in E. contradiction.
      * injection E as -> E. f_equal. apply IH, E.
Qed.
Lemma html_no_angle s : ~ In 60%N (runes (html_escape s)).
Proof.
  rewrite runes_html. intros H. apply in_flat_map in H. destruct H as (c & _ & H). unfold on_rune in H. destruct (N.ltb_spec c 128) as [L|L].
  - destruct (ascii_seq (ascii_of_N c)) as (i & Hi & Ei). rewrite Ei in H.
    assert (X : forallb (fun i => forallb (fun y => negb (N.eqb y 60)) (runes (html_escape_byte (ascii_of_N (N.of_nat i))))) (seq 0 128) = true) by (vm_compute; reflexivity).
    rewrite forallb_forall in X. assert (Hi' : In i (seq 0 128)).
    { apply in_seq in Hi. apply in_seq. apply (f_equal N_of_ascii) in Ei. rewrite !N_ascii_embedding in Ei by lia. lia. }
    specialize (X i Hi'). rewrite forallb_forall in X. apply X in H. discriminate.
  - destruct H as [H|[]]. lia.
Qed.
Lemma back_angle s : starts_angle s -> In 60%N (runes (replace_byte dquote [backslash; dquote] s)).
Proof.
  intros (b & w & E & _). rewrite runes_back, E. apply in_flat_map. exists 60%N. split; [apply in_or_app; right; left; reflexivity|]. rewrite back_rune. left. reflexivity.
Qed.
Lemma quoted_inj u v : quoted u = quoted v -> u = v.
Proof. unfold quoted. intros E. apply app_inv_head in E. apply app_inj_tail in E. apply E. Qed.

Lemma esc_inj uletter udigit s s' t : esc uletter udigit s = Some t -> esc uletter udigit s' = Some t ->
  s = t \/ s' = t \/ nul_replaced s = nul_replaced s'.
Proof.
  intros E E'.
  destruct (esc_spec uletter udigit s) as [(X & _)|[(X & _)|[(X & _ & _ & A)|(X & _ & _ & A)]]]; rewrite E in X; try discriminate; injection X as X; [auto| |];
  destruct (esc_spec uletter udigit s') as [(X' & _)|[(X' & _)|[(X' & _ & _ & A')|(X' & _ & _ & A')]]]; rewrite E' in X'; try discriminate; injection X' as X'; auto; right; right;
  rewrite X in X'; apply quoted_inj in X'.
  - f_equal. apply back_inj, X'.
  - exfalso. apply (html_no_angle s'). rewrite <- X'. apply back_angle, A.
  - exfalso. apply (html_no_angle s). rewrite X'. apply back_angle, A'.
  - apply html_inj, X'.
Qed.
