(** The order on edges used by Edges.Sorted (C31). *)
From stdpp Require Import sorting.
From Verif Require Import Maps Graph SpecGraph MapFacts Write SpecWrite.

Lemma attr_at_value e k : attr_at (e_attrs e) k = attr_value e k.
Proof. unfold attr_at, attr_value. destruct (e_attrs e !! k); reflexivity. Qed.

(** The loop over the names, as a lexicographic comparison. *)
Lemma attrs_less_spec a b ks : StronglySorted before ks ->
  attrs_less a b ks = true <->
  exists k, k ∈ ks /\ before (attr_at a k) (attr_at b k) /\ forall k', k' ∈ ks -> before k' k -> attr_at a k' = attr_at b k'.
Proof.
  induction 1 as [|k ks H IH F]; cbn.
  - split; [discriminate|]. intros (k & Hk & _). apply elem_of_nil in Hk. contradiction.
  - rewrite Forall_forall in F. destruct (str_ltb (attr_at a k) (attr_at b k)) eqn:E1.
    + split; [intros _|reflexivity]. exists k. split; [left|]. split; [exact E1|]. intros k' Hk' L.
      apply elem_of_cons in Hk'. destruct Hk' as [->|Hk']; unfold before in *.
      * rewrite str_ltb_irrefl in L. discriminate.
      * specialize (F _ Hk'). rewrite (str_ltb_asym _ _ F) in L. discriminate.
    + destruct (str_ltb (attr_at b k) (attr_at a k)) eqn:E2.
      * split; [discriminate|]. intros (k1 & Hk1 & L & R). apply elem_of_cons in Hk1. destruct Hk1 as [->|Hk1].
        -- unfold before in L. congruence.
        -- specialize (R k (elem_of_list_here _ _) (F _ Hk1)). rewrite R, str_ltb_irrefl in E2. discriminate.
      * pose proof (str_ltb_total _ _ E1 E2) as Eq. rewrite IH. split.
        -- intros (k1 & Hk1 & L & R). exists k1. split; [right; exact Hk1|]. split; [exact L|]. intros k' Hk' L'.
           apply elem_of_cons in Hk'. destruct Hk' as [->|Hk']; [exact Eq|]. apply R; assumption.
        -- intros (k1 & Hk1 & L & R). apply elem_of_cons in Hk1. destruct Hk1 as [->|Hk1].
           { unfold before in L. congruence. }
           exists k1. split; [exact Hk1|]. split; [exact L|]. intros k' Hk' L'. apply R; [right; exact Hk'|exact L'].
Qed.

Lemma attr_at_missing (m : attrs) k : k ∉ keys m -> attr_at m k = [].
Proof. intros H. unfold attr_at. apply not_elem_of_dom in H. rewrite H. reflexivity. Qed.

Definition edge_keys (x y : edge) : list gostr := sorted (keys (e_attrs y ∪ e_attrs x)).
Lemma edge_keys_less x y : attrs_less (e_attrs x) (e_attrs y) (edge_keys x y) = true <->
  exists k, before (attr_value x k) (attr_value y k) /\ forall k', before k' k -> attr_value x k' = attr_value y k'.
Proof.
  unfold edge_keys. rewrite attrs_less_spec by apply sorted_strict. split.
  - intros (k & Hk & L & R). exists k. rewrite <- !attr_at_value. split; [exact L|]. intros k' L'. rewrite <- !attr_at_value.
    destruct (decide (k' ∈ sorted (keys (e_attrs y ∪ e_attrs x)))) as [D|D]; [apply R; assumption|].
    rewrite elem_of_sorted in D. unfold keys in D. rewrite dom_union, elem_of_union in D.
    rewrite !attr_at_missing; [reflexivity| |]; intros C; apply D; auto.
  - intros (k & L & R). exists k. rewrite !attr_at_value. split; [|split; [exact L|]].
    + rewrite elem_of_sorted. destruct (decide (k ∈ keys (e_attrs y ∪ e_attrs x))) as [D|D]; [exact D|]. exfalso.
      unfold keys in D. rewrite dom_union, elem_of_union in D. unfold before in L. rewrite <- !attr_at_value in L.
      rewrite !attr_at_missing in L; [discriminate| |]; intros C; apply D; auto.
    + intros k' _ L'. rewrite !attr_at_value. auto.
Qed.

(** Less is the lexicographic order, whatever the iteration orders. *)
Lemma edge_less_spec o x y : fair o -> edge_less o x y = true <-> edge_before x y.
Proof.
  intros [Fa Fn]. unfold edge_less.
  rewrite (copy_enum (e_attrs x)) by apply Fa. rewrite (extend_enum (e_attrs x) (e_attrs y)) by apply Fa.
  unfold sorted_keys. rewrite (sorted_enum (keys (e_attrs y ∪ e_attrs x))) by apply Fn. fold (edge_keys x y).
  split.
  - destruct (str_ltb (e_src x) (e_src y)) eqn:A1; [intros _; apply Eb_src; exact A1|].
    destruct (str_ltb (e_src y) (e_src x)) eqn:A2; [discriminate|]. pose proof (str_ltb_total _ _ A1 A2) as A.
    destruct (str_ltb (e_dst x) (e_dst y)) eqn:B1; [intros _; apply Eb_dst; assumption|].
    destruct (str_ltb (e_dst y) (e_dst x)) eqn:B2; [discriminate|]. pose proof (str_ltb_total _ _ B1 B2) as B.
    destruct (str_ltb (e_src_port x) (e_src_port y)) eqn:C1; [intros _; apply Eb_src_port; assumption|].
    destruct (str_ltb (e_src_port y) (e_src_port x)) eqn:C2; [discriminate|]. pose proof (str_ltb_total _ _ C1 C2) as C.
    destruct (str_ltb (e_dst_port x) (e_dst_port y)) eqn:D1; [intros _; apply Eb_dst_port; assumption|].
    destruct (str_ltb (e_dst_port y) (e_dst_port x)) eqn:D2; [discriminate|]. pose proof (str_ltb_total _ _ D1 D2) as D.
    destruct (Bool.eqb (e_dir x) (e_dir y)) eqn:E; cbn [negb].
    + apply eqb_prop in E. rewrite edge_keys_less. intros (k & L & R). apply (Eb_attr x y k); [repeat split; assumption|exact L|exact R].
    + intros H. apply Eb_dir; try assumption. destruct (e_dir y); [|reflexivity]. rewrite H in E. discriminate.
  - unfold before. intros [H|H1 H|H1 H2 H|H1 H2 H3 H|H1 H2 H3 H4 H5 H6|k (H1 & H2 & H3 & H4 & H5) L R].
    + rewrite H. reflexivity.
    + rewrite H1, str_ltb_irrefl, H. reflexivity.
    + rewrite H1, H2, !str_ltb_irrefl, H. reflexivity.
    + rewrite H1, H2, H3, !str_ltb_irrefl, H. reflexivity.
    + rewrite H1, H2, H3, H4, !str_ltb_irrefl, H5, H6. reflexivity.
    + rewrite H1, H2, H3, H4, H5, !str_ltb_irrefl, eqb_reflx. cbn [negb]. apply edge_keys_less. eauto.
Qed.
Lemma edge_less_oracle o o' x y : fair o -> fair o' -> edge_less o x y = edge_less o' x y.
Proof.
  intros F F'. pose proof (edge_less_spec o x y F) as H. pose proof (edge_less_spec o' x y F') as H'.
  destruct (edge_less o x y), (edge_less o' x y); try reflexivity; [symmetry; apply H', H; reflexivity|apply H, H'; reflexivity].
Qed.

Lemma edge_before_irrefl x : ~ edge_before x x.
Proof.
  assert (I : forall a, ~ before a a) by (intros a; unfold before; rewrite str_ltb_irrefl; discriminate).
  intros [H|? H|? ? H|? ? ? H|? ? ? ? H1 H2|k ? H ?]; try exact (I _ H). congruence.
Qed.
Lemma before_trans a b c : before a b -> before b c -> before a c.
Proof. apply str_ltb_trans. Qed.
Lemma before_tricho a b : before a b \/ a = b \/ before b a.
Proof. unfold before. destruct (str_ltb a b) eqn:E1; [auto|]. destruct (str_ltb b a) eqn:E2; [auto|]. right. left. apply str_ltb_total; assumption. Qed.
Lemma edge_before_trans x y z : edge_before x y -> edge_before y z -> edge_before x z.
Proof.
  intros [A|A1 A|A1 A2 A|A1 A2 A3 A|A1 A2 A3 A4 A5 A6|k (A1 & A2 & A3 & A4 & A5) L R]
         [B|B1 B|B1 B2 B|B1 B2 B3 B|B1 B2 B3 B4 B5 B6|k2 (B1 & B2 & B3 & B4 & B5) L2 R2];
    try (apply Eb_src; first [eapply before_trans; eassumption|congruence|rewrite <- B1; assumption|rewrite A1; assumption]);
    try (apply Eb_dst; [congruence|first [eapply before_trans; eassumption|congruence]]);
    try (apply Eb_src_port; [congruence|congruence|first [eapply before_trans; eassumption|congruence]]);
    try (apply Eb_dst_port; [congruence|congruence|congruence|first [eapply before_trans; eassumption|congruence]]);
    try (apply Eb_dir; congruence).
  destruct (before_tricho k k2) as [K|[<-|K]].
  - apply (Eb_attr x z k); [repeat split; congruence| |].
    + rewrite <- (R2 k K). exact L.
    + intros k' K'. rewrite (R k' K'). apply R2. eapply before_trans; eassumption.
  - apply (Eb_attr x z k); [repeat split; congruence| |].
    + eapply before_trans; eassumption.
    + intros k' K'. rewrite (R k' K'). apply R2. exact K'.
  - apply (Eb_attr x z k2); [repeat split; congruence| |].
    + rewrite (R k2 K). exact L2.
    + intros k' K'. rewrite (R k') by (eapply before_trans; eassumption). apply R2. exact K'.
Qed.
Lemma edge_tricho x y : edge_before x y \/ same_key x y \/ edge_before y x.
Proof.
  destruct (before_tricho (e_src x) (e_src y)) as [A|[A|A]]; [left; apply Eb_src; exact A| |right; right; apply Eb_src; exact A].
  destruct (before_tricho (e_dst x) (e_dst y)) as [B|[B|B]]; [left; apply Eb_dst; assumption| |right; right; apply Eb_dst; auto].
  destruct (before_tricho (e_src_port x) (e_src_port y)) as [C|[C|C]]; [left; apply Eb_src_port; assumption| |right; right; apply Eb_src_port; auto].
  destruct (before_tricho (e_dst_port x) (e_dst_port y)) as [D|[D|D]]; [left; apply Eb_dst_port; assumption| |right; right; apply Eb_dst_port; auto].
  destruct (e_dir x) eqn:E1, (e_dir y) eqn:E2; try (left; apply Eb_dir; congruence); try (right; right; apply Eb_dir; congruence).
  1, 2: assert (E : same_ends x y) by (repeat split; congruence); assert (E' : same_ends y x) by (repeat split; congruence);
  clear -E E';
  destruct (attrs_less (e_attrs x) (e_attrs y) (edge_keys x y)) eqn:L1;
  [left; apply edge_keys_less in L1; destruct L1 as (k & L & R); exact (Eb_attr x y k E L R)|];
  destruct (attrs_less (e_attrs y) (e_attrs x) (edge_keys x y)) eqn:L2.
  1, 3: right; right;
    assert (EK : edge_keys x y = edge_keys y x) by
      (unfold edge_keys; f_equal; apply set_eq; intros k; unfold keys; rewrite !dom_union, !elem_of_union; tauto);
    rewrite EK in L2; apply edge_keys_less in L2; destruct L2 as (k & L & R); exact (Eb_attr y x k E' L R).
  1, 2: right; left; split; [exact E|]; intros k; rewrite <- !attr_at_value;
    (destruct (decide (k ∈ edge_keys x y)) as [D|D];
    [|unfold edge_keys in D; rewrite elem_of_sorted in D; unfold keys in D; rewrite dom_union, elem_of_union in D;
      rewrite !attr_at_missing; [reflexivity| |]; intros C; apply D; auto]);
    revert L1 L2 D; generalize (edge_keys x y); intros ks; induction ks as [|k1 ks IH]; cbn;
    [intros _ _ D; apply elem_of_nil in D; contradiction|];
    destruct (str_ltb (attr_at (e_attrs x) k1) (attr_at (e_attrs y) k1)) eqn:Q1; [discriminate|];
    destruct (str_ltb (attr_at (e_attrs y) k1) (attr_at (e_attrs x) k1)) eqn:Q2; [discriminate|];
    intros L1 L2 D; apply elem_of_cons in D; destruct D as [->|D]; [apply str_ltb_total; assumption|apply IH; assumption].
Qed.
Lemma same_key_sym x y : same_key x y -> same_key y x.
Proof. intros [(A1&A2&A3&A4&A5) H]. repeat split; auto. Qed.
Lemma same_key_before x x' y y' : same_key x x' -> same_key y y' -> edge_before x y -> edge_before x' y'.
Proof.
  intros [(X1 & X2 & X3 & X4 & X5) X] [(Y1 & Y2 & Y3 & Y4 & Y5) Y] [A|A1 A|A1 A2 A|A1 A2 A3 A|A1 A2 A3 A4 A5 A6|k (A1 & A2 & A3 & A4 & A5) L R].
  - apply Eb_src. congruence.
  - apply Eb_dst; congruence.
  - apply Eb_src_port; congruence.
  - apply Eb_dst_port; congruence.
  - apply Eb_dir; congruence.
  - apply (Eb_attr x' y' k); [repeat split; congruence|rewrite <- X, <- Y; exact L|]. intros k' K. rewrite <- X, <- Y. auto.
Qed.
Lemma same_key_not_before x y : same_key x y -> ~ edge_before x y.
Proof. intros S B. apply (edge_before_irrefl y). eapply same_key_before; [exact S| |exact B]. repeat split; reflexivity. Qed.

(** Edges without empty values are determined by their key. *)
Definition full (e : edge) : Prop := forall k, e_attrs e !! k <> Some [].
Lemma same_key_full x y : full x -> full y -> same_key x y -> x = y.
Proof.
  intros F1 F2 [(H1 & H2 & H3 & H4 & H5) H]. destruct x as [a b c d e m], y as [a' b' c' d' e' m']; cbn in *. subst. f_equal.
  apply map_eq. intros k. specialize (H k). specialize (F1 k). specialize (F2 k). unfold attr_value in H. cbn in *.
  destruct (m !! k), (m' !! k); congruence.
Qed.

(** Sorting: any two sorted permutations of edges with the same content agree when no value is empty. *)
Lemma sorts_unique o o' srt srt' l l' : fair o -> fair o' -> sorts (edge_less o) srt -> sorts (edge_less o') srt' ->
  l ≡ₚ l' -> Forall full l -> srt l = srt' l'.
Proof.
  intros Fo Fo' S S' P F. destruct (S l) as [P1 S1]. destruct (S' l') as [P2 S2].
  apply (sorted_perm_unique (fun x y => negb (edge_less o y x))).
  - intros a b Ha Hb L1 L2. apply negb_true_iff in L1, L2. rewrite P1 in Ha, Hb. rewrite Forall_forall in F.
    apply same_key_full; [apply F; exact Ha|apply F; exact Hb|].
    destruct (edge_tricho a b) as [T|[T|T]]; [|exact T|]; apply (edge_less_spec o) in T; try exact Fo; congruence.
  - rewrite P1, P2. exact P.
  - clear -S1. induction S1 as [|x l0 H IH HF]; constructor; [exact IH|]. eapply Forall_impl; [exact HF|]. intros y Hy. cbn in *. rewrite Hy. reflexivity.
  - clear -S2 Fo Fo'. induction S2 as [|x l0 H IH HF]; constructor; [exact IH|]. eapply Forall_impl; [exact HF|]. intros y Hy. cbn in *.
    rewrite (edge_less_oracle o o') by assumption. rewrite Hy. reflexivity.
Qed.
(** Sorting functions exist. *)
Lemma sorts_exists o : fair o -> exists srt, sorts (edge_less o) srt.
Proof.
  intros Fo. exists (sort_by (fun x y => negb (edge_less o y x))). intros l.
  assert (Tot : forall a b, negb (edge_less o b a) = true \/ negb (edge_less o a b) = true).
  { intros a b. rewrite !negb_true_iff. destruct (edge_less o b a) eqn:E; [right|left; reflexivity].
    destruct (edge_less o a b) eqn:E2; [|reflexivity]. apply (edge_less_spec o) in E, E2; try exact Fo.
    destruct (edge_before_irrefl a (edge_before_trans _ _ _ E2 E)). }
  assert (Tr : forall a b c, negb (edge_less o b a) = true -> negb (edge_less o c b) = true -> negb (edge_less o c a) = true).
  { intros a b c. rewrite !negb_true_iff, <- !not_true_iff_false, !(edge_less_spec o) by exact Fo. intros H1 H2 H3.
    destruct (edge_tricho a b) as [T|[T|T]]; [exact (H2 (edge_before_trans _ _ _ H3 T))| |exact (H1 T)].
    apply H2. eapply same_key_before; [|exact T|exact H3]. repeat split; reflexivity. }
  split; [apply sort_by_perm|].
  pose proof (sort_by_sorted (fun x y => negb (edge_less o y x)) Tot Tr l) as H.
  induction H as [|x m H IH HF]; constructor; [exact IH|]. eapply Forall_impl; [exact HF|]. intros y Hy. apply negb_true_iff. exact Hy.
Qed.
