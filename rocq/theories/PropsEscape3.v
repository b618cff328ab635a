(** Property C56: escaping confuses a name only with its own escaped form. *)
From Verif Require Import Base Maps Graph AttrMap SpecGraph MapFacts GraphProofs Escape SpecEscape EscapeProofs.
From Verif Require EscapeFacts EscapeInj PropsEscape PropsGraph PropsEscape2.
From Verif Require Import Direct SpecDirect DirectProofs.
From Coq Require Import Ascii.
Notation o_id := PropsGraph.o_id.

Section C56.
  Variable uletter udigit : N -> bool.   (* unicode.IsLetter, unicode.IsDigit from U+0080 on *)
  Notation esc := (esc uletter udigit).
  Notation esc_exec := (esc_exec uletter udigit).
  Notation esc_reachable := (esc_reachable uletter udigit).

  (** Two names with the same escaped form: one of them is this form, or they are the same but for NUL bytes. *)
  Theorem C56_same_form : forall s s' t, esc s = Some t -> esc s' = Some t -> s = t \/ s' = t \/ nul_replaced s = nul_replaced s'.
  Proof. exact (EscapeInj.esc_inj uletter udigit). Qed.
  (** Without NUL bytes. *)
  Lemma nul_free s : NUL ∉ s -> nul_replaced s = s.
  Proof.
    induction s as [|a s IH]; intros H; [reflexivity|]. unfold nul_replaced in *. cbn [flat_map]. apply not_elem_of_cons in H as [Na Ns]. rewrite (IH Ns).
    destruct (Ascii.eqb_spec a NUL) as [->|_]; [congruence|reflexivity].
  Qed.
  Theorem C56_no_nul : forall s s' t, NUL ∉ s -> NUL ∉ s' -> esc s = Some t -> esc s' = Some t -> s = s' \/ s = t \/ s' = t.
  Proof.
    intros s s' t N N' E E'. destruct (C56_same_form s s' t E E') as [H|[H|H]]; [auto|auto|]. rewrite (nul_free s N), (nul_free s' N') in H. auto.
  Qed.
  (** AddNode on an Escape graph makes a node appear under the name given and its other spellings, not under other names. *)
  Theorem C56_new_node : forall oe o p n m g g' n2, fair oe -> fair o -> esc_reachable g -> NUL ∉ n -> NUL ∉ n2 ->
    esc_exec oe o (CAddNode p n m) g = Some (g', None) ->
    esc_is_node uletter udigit g' n2 = Some true -> esc_is_node uletter udigit g n2 = Some false ->
    n2 = n \/ esc n = Some n2 \/ esc n2 = Some n.
  Proof.
    intros oe o p n m g g' n2 Foe Fo R N N2 E I' I. destruct (PropsEscape2.C42_delegates _ _ _ _ _ _ _ _ Foe E) as (c' & Ec & E').
    pose proof (PropsGraph.C23_refinement_step o c' g Fo (PropsEscape2.C42_reachable _ _ g R)) as S. inversion Ec; subst. rewrite E' in S. cbn [fst snd] in S.
    unfold esc_is_node in I, I'. destruct (esc n2) as [t|] eqn:E2; [|discriminate]. cbn [bindo] in I, I'.
    injection I as I. injection I' as I'. apply PropsGraph.C23_queries in I'. remember (view g') as s2 eqn:Es. inversion S; subst.
    assert (Et : t = n').
    { destruct (decide (t = n')) as [->|D]; [reflexivity|exfalso]. assert (X : s_is_node (view g) t).
      { unfold s_is_node in *. match goal with H : s_put_node _ _ _ _ = view g' |- _ => rewrite <- H in I' end. cbn in I'. rewrite lookup_insert_ne in I' by congruence. exact I'. }
      apply PropsGraph.C23_queries in X. congruence. }
    subst t. match goal with H : esc n = Some n' |- _ => rename H into En end.
    destruct (C56_no_nul n n2 n' N N2 En E2) as [H|[H|H]]; subst; auto.
  Qed.
End C56.
Print Assumptions C56_same_form.
Print Assumptions C56_no_nul.
Print Assumptions C56_new_node.

(** Without the condition on NUL it is false: NUL is written as U+FFFD. *)
Definition s_nul : gostr := lit "a " ++ [NUL].
Definition s_fffd : gostr := lit "a " ++ [ascii_of_N 239; ascii_of_N 191; ascii_of_N 189].
Theorem C56_nul_refuted : forall uletter udigit, exists s s' t, s <> s' /\ s <> t /\ s' <> t /\
  esc uletter udigit s = Some t /\ esc uletter udigit s' = Some t.
Proof.
  intros ul ud. exists s_nul, s_fffd, (quoted s_fffd). repeat split; try (vm_compute; congruence); vm_compute; reflexivity.
Qed.
Print Assumptions C56_nul_refuted.

(** Five names that differ in what must be escaped get five nodes. *)
Example C56_example : let E := esc PropsEscape.none PropsEscape.none in
  E (lit "a & b") = Some (quoted (lit "a &amp; b")) /\ E (lit "a &amp; b") = Some (quoted (lit "a &amp;amp; b")) /\
  E (lit "a < b") = Some (quoted (lit "a &lt; b")) /\ E (lit "<a b") = Some (quoted (lit "<a b")) /\
  E (quoted (lit "a b")) = E (lit "a b").
Proof. vm_compute. repeat split. Qed.
