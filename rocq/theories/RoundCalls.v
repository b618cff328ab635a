(** The calls that the written text of a graph stands for. *)
From stdpp Require Import sorting.
From Verif Require Import Base Parser Maps Graph AttrMap SpecGraph MapFacts GraphProofs Analyse SpecAnalyse AnalyseProofs ReadProofs.
From Verif Require Import Write SpecWrite EdgeOrder WriteProofs WriteFacts WriteFacts2 SpecRound.
From Verif Require Ast PropsGraph.

Definition quiet (st : Ast.stmt) : Prop :=
  match st with Ast.SNodeAttrs _ | Ast.SEdgeAttrs _ | Ast.SGraphAttrs _ => False | _ => True end.
Lemma quiet_nd pre : Forall quiet pre -> forall d, node_defaults d pre = d.
Proof. induction 1 as [|s pre Q _ IH]; intros d; [reflexivity|]. destruct s; cbn in *; try contradiction; apply IH. Qed.
Lemma quiet_ed pre : Forall quiet pre -> forall d, edge_defaults d pre = d.
Proof. induction 1 as [|s pre Q _ IH]; intros d; [reflexivity|]. destruct s; cbn in *; try contradiction; apply IH. Qed.
Lemma quiet_gd pre : Forall quiet pre -> forall d, graph_defaults d pre = d.
Proof. induction 1 as [|s pre Q _ IH]; intros d; [reflexivity|]. destruct s; cbn in *; try contradiction; apply IH. Qed.

Lemma body_app name nd ed b1 : forall pre b2 l, body_calls name nd ed pre (b1 ++ b2) l ->
  exists l1 l2, l = l1 ++ l2 /\ body_calls name nd ed pre b1 l1 /\ body_calls name nd ed (pre ++ b1) b2 l2.
Proof.
  induction b1 as [|s b1 IH]; intros pre b2 l H; cbn [app] in H.
  - exists [], l. rewrite app_nil_r. split; [reflexivity|]. split; [constructor|exact H].
  - inversion H as [|? ? ? ? ? ? l0 l' HS HB]; subst. apply IH in HB. destruct HB as (l1 & l2 & -> & H1 & H2).
    exists (l0 ++ l1), l2. rewrite app_assoc. split; [reflexivity|]. split; [econstructor; eassumption|]. rewrite <- app_assoc in H2. exact H2.
Qed.

Lemma get_in_order m : given [in_order m] = m.
Proof. rewrite <- get_map_given.
  pose proof (PropsGraph.C43_get_put PropsGraph.o_id 0 m PropsGraph.fair_id) as H. unfold put_map, sorted_keys in H.
  rewrite (sorted_enum (keys m)) in H by apply PropsGraph.fair_id. exact H.
Qed.

Lemma attrs_calls name nd ed al : forall pre l, body_calls name nd ed pre (map Ast.SAttr al) l ->
  l = map (fun a => CAddAttr name (Ast.at_field a) (Ast.at_value a)) al.
Proof.
  induction al as [|a al IH]; intros pre l H; cbn [map] in *; inversion H as [|? ? ? ? ? ? l0 l' HS HB]; subst; [reflexivity|].
  inversion HS; subst. cbn [app]. f_equal. eapply IH. exact HB.
Qed.
Lemma in_order_calls name nd ed m pre l x : body_calls name nd ed pre (map Ast.SAttr (in_order m)) l ->
  x ∈ l <-> exists k v, m !! k = Some v /\ x = CAddAttr name k v.
Proof.
  intros H. apply attrs_calls in H. subst l. rewrite elem_of_list_fmap. destruct (in_order_spec m) as [_ I]. split.
  - intros ([k v] & -> & E). apply I in E. eauto.
  - intros (k & v & E & ->). exists (Ast.Attr k v). split; [reflexivity|]. apply I. exact E.
Qed.

Section Calls.
  Variable s : sgraph.
  Notation c_sub := (c_sub s).
  (** What the body of the subgraph [m] stands for, without the bodies of nested subgraphs. *)
  Definition local (m : gostr) (x : call) : Prop :=
    (exists a k v, s_subs s !! m = Some a /\ a !! k = Some v /\ x = CAddAttr m k v) \/
    (exists c a, is_child s m c /\ s_nodes s !! c = Some a /\ x = CAddNode m c a) \/
    (exists c, nested s m c /\ x = CAddSubGraph m c ∅).
  Definition sub_says (p n : gostr) (x : call) : Prop :=
    x = CAddSubGraph p n ∅ \/ exists m, rtc (nested s) n m /\ local m x.

  Lemma quiet_attrs l : Forall quiet (map Ast.SAttr l).
  Proof. apply Forall_fmap. apply Forall_forall. intros x _. exact I. Qed.
  Lemma quiet_children rec cs body : Forall2 (fun c st => c_child s rec c = Ok st) cs body -> Forall quiet body.
  Proof.
    induction 1 as [|c st cs body H _ IH]; constructor; [|exact IH]. unfold c_child in H. destruct (s_nodes s !! c); [injection H as <-; exact I|].
    destruct (s_subs s !! c); [|discriminate]. destruct (rec c); cbn in H; try discriminate. injection H as <-. exact I.
  Qed.

  Definition sub_calls_ok (f : nat) : Prop := forall n t, c_sub f n = Ok t -> forall p pre l, Forall quiet pre ->
    sub_calls p ∅ ∅ pre t l -> forall x, x ∈ l <-> sub_says p n x.

  Lemma children_calls f n cs : sub_calls_ok f -> forall body pre l,
    Forall2 (fun c st => c_child s (c_sub f) c = Ok st) cs body -> Forall quiet pre -> body_calls n ∅ ∅ pre body l ->
    forall x, x ∈ l <-> exists c, c ∈ cs /\ ((exists a, s_nodes s !! c = Some a /\ x = CAddNode n c a) \/
                                       (~ s_is_node s c /\ s_is_sub s c /\ sub_says n c x)).
  Proof.
    intros IH body pre l F. revert pre l. induction F as [|c st cs body H F IHF]; intros pre l Q B x; inversion B as [|? ? ? ? ? ? l0 l' HS HB]; subst.
    - split; [intros E; inversion E|intros (c & E & _); inversion E].
    - assert (Q' : Forall quiet (pre ++ [st])).
      { apply Forall_app. split; [exact Q|]. constructor; [|constructor]. pose proof (quiet_children (c_sub f) [c] [st]) as QC.
        specialize (QC ltac:(constructor; [exact H|constructor])). inversion QC; assumption. }
      rewrite elem_of_app, (IHF _ _ Q' HB x). setoid_rewrite elem_of_cons.
      assert (HC : x ∈ l0 <-> (exists a, s_nodes s !! c = Some a /\ x = CAddNode n c a) \/ (~ s_is_node s c /\ s_is_sub s c /\ sub_says n c x)).
      { unfold c_child in H. destruct (s_nodes s !! c) as [a|] eqn:En.
        - injection H as <-. inversion HS; subst. match goal with |- x ∈ [CAddNode _ ?i ?m] <-> _ => assert (Ei : i = c) by (unfold node_text; cbn; apply app_nil_r);
            assert (Em : m = a) by (rewrite get_in_order, (quiet_nd pre Q); destruct (decide _); apply (right_id_L (∅ : attrs) (∪))) end.
          rewrite Em, Ei, elem_of_list_singleton.
          split; [intros ->; left; eauto|]. intros [(a' & [= <-] & ->)|(N & _)]; [reflexivity|]. destruct N. unfold s_is_node. rewrite En. eauto.
        - destruct (s_subs s !! c) as [a|] eqn:Es; [|discriminate]. destruct (c_sub f c) as [t|e| |] eqn:Et; cbn in H; try discriminate. injection H as <-.
          inversion HS; subst. match goal with X : sub_calls _ _ _ _ _ _ |- _ => rewrite (IH c t Et n pre l0 Q X x) end.
          split; [intros K; right; split; [apply not_node; exact En|]; split; [unfold s_is_sub; rewrite Es; eauto|exact K]|].
          intros [(a' & [=] & _)|(_ & _ & K)]. exact K. }
      rewrite HC. split.
      + intros [K|(c' & K1 & K2)]; eauto.
      + intros (c' & [->|K1] & K2); eauto.
  Qed.

  Lemma sub_calls_all f : sub_calls_ok f.
  Proof.
    induction f as [|f IH]; intros n t H p pre l Q HC x; [discriminate|].
    apply c_sub_inv in H. destruct H as (a & body & Ha & F & ->). inversion HC as [? ? ? ? ? ? l0 HB]; subst.
    rewrite (quiet_nd pre Q), (quiet_ed pre Q) in HB. rewrite (quiet_gd pre Q).
    apply body_app in HB. destruct HB as (l1 & l2 & -> & H1 & H2). cbn [app] in H2.
    rewrite elem_of_cons, elem_of_app, (in_order_calls _ _ _ _ _ _ x H1), (children_calls f n _ IH body _ l2 F (quiet_attrs _) H2 x).
    unfold sub_says. apply or_iff_compat_l. split.
    - intros [(k & v & E & ->)|(c & E & K)].
      + exists n. split; [apply rtc_refl|]. left. eauto 6.
      + apply elem_of_sorted, elem_of_kids in E. destruct K as [(b & E2 & ->)|(N1 & N2 & K)].
        * exists n. split; [apply rtc_refl|]. right. left. eauto.
        * destruct K as [->|(m & R & L)].
          -- exists n. split; [apply rtc_refl|]. right. right. exists c. split; [split; [exact E|auto]|reflexivity].
          -- exists m. split; [|exact L]. eapply rtc_l; [|exact R]. split; [exact E|auto].
    - intros (m & R & L). apply rtc_inv in R. destruct R as [<-|(c & (E & N2 & N1) & R)].
      + destruct L as [(b & k & v & E1 & E2 & ->)|[(c & b & E1 & E2 & ->)|(c & (E & N2 & N1) & ->)]].
        * left. rewrite Ha in E1. injection E1 as <-. eauto.
        * right. exists c. split; [apply elem_of_sorted, elem_of_kids; exact E1|]. left. eauto.
        * right. exists c. split; [apply elem_of_sorted, elem_of_kids; exact E|]. right. split; [exact N1|]. split; [exact N2|]. left. reflexivity.
      + right. exists c. split; [apply elem_of_sorted, elem_of_kids; exact E|]. right. split; [exact N1|]. split; [exact N2|]. right. eauto.
  Qed.
End Calls.
