(** Proofs for C73: which tree, which error, and when. *)
From stdpp Require Import sorting.
From Verif Require Import Base Parser Maps Graph AttrMap SpecGraph MapFacts GraphProofs Write SpecWrite EdgeOrder WriteProofs WriteFacts WriteFacts2 SpecTop TopProofs.
From Verif Require Ast.

Lemma map_res_first {E A B} (f : A -> res E B) (l : list A) (e : E) :
  map_res f l = Err e <-> exists l1 x l2, l = l1 ++ x :: l2 /\ (forall y, y ∈ l1 -> exists b, f y = Ok b) /\ f x = Err e.
Proof.
  induction l as [|a l IH]; cbn [map_res].
  - split; [discriminate|]. intros (l1 & x & l2 & H & _). destruct l1; discriminate.
  - split.
    + destruct (f a) as [b|e'| |] eqn:Ea; cbn [bind]; try discriminate.
      * destruct (map_res f l) as [bs|e'| |] eqn:El; cbn [bind]; try discriminate. intros [= ->].
        destruct (proj1 IH eq_refl) as (l1 & x & l2 & -> & H1 & H2). exists (a :: l1), x, l2. split; [reflexivity|]. split; [|exact H2].
        intros y Hy. apply elem_of_cons in Hy. destruct Hy as [->|Hy]; [eauto|apply H1; exact Hy].
      * intros [= ->]. exists [], a, l. split; [reflexivity|]. split; [intros y Hy; apply elem_of_nil in Hy; contradiction|exact Ea].
    + intros (l1 & x & l2 & H & H1 & H2). destruct l1 as [|a' l1]; injection H as <- ->.
      * rewrite H2. reflexivity.
      * destruct (H1 a (elem_of_list_here _ _)) as [b Hb]. rewrite Hb. cbn [bind].
        assert (X : map_res f (l1 ++ x :: l2) = Err e). { apply IH. exists l1, x, l2. split; [reflexivity|]. split; [|exact H2]. intros y Hy. apply H1. right. exact Hy. }
        rewrite X. reflexivity.
Qed.

Section Outcome.
  Variable s : sgraph.
  Notation c_sub := (c_sub s).

  Lemma kids_list n l : lists_names (is_child s n) l -> l = sorted (kids s n).
  Proof.
    intros [So H]. apply strict_sorted_unique; [exact So|apply sorted_strict|]. intros c. rewrite elem_of_sorted, elem_of_kids. apply H.
  Qed.

  (** ** A tree that the specification allows is computed, with enough fuel *)
  Lemma shows_run : forall n st, shows s n st -> exists f0, forall f, f0 <= f -> c_child s (c_sub f) n = Ok st
  with shows_sub_run : forall n t, shows_sub s n t -> exists f0, forall f, f0 <= f -> c_sub f n = Ok t.
  Proof.
    - intros n st H. destruct H as [n a l Ha Hl|n t N H].
      + exists 0. intros f _. unfold c_child. rewrite Ha. unfold c_node. rewrite (lists_attrs_unique a l Hl). reflexivity.
      + destruct (shows_sub_run n t H) as [f0 F]. exists f0. intros f L. unfold c_child.
        destruct (s_nodes s !! n) as [a|] eqn:E; [destruct N; eexists; exact E|].
        destruct (s_subs s !! n) as [a|] eqn:E2; [rewrite (F f L); reflexivity|]. exfalso. inversion H. congruence.
    - intros n t H. destruct H as [n a l cs body Ha Hl Hc HF].
      assert (G : exists f0, forall f, f0 <= f -> Forall2 (fun c st => c_child s (c_sub f) c = Ok st) cs body).
      { clear Hc. revert cs body HF. fix go 3. intros cs body HF. destruct HF as [|c st cs body H HF].
        - exists 0. intros f _. constructor.
        - destruct (shows_run c st H) as [f1 F1]. destruct (go cs body HF) as [f2 F2]. exists (Nat.max f1 f2). intros f L. constructor; [apply F1; lia|apply F2; lia]. }
      destruct G as [f0 G]. exists (S f0). intros f L. destruct f as [|f]; [lia|]. cbn [WriteProofs.c_sub]. rewrite Ha.
      rewrite <- (kids_list n cs Hc). specialize (G f ltac:(lia)). apply map_res_ok in G. rewrite G. cbn [bind]. rewrite (lists_attrs_unique a l Hl). reflexivity.
  Qed.
  Lemma shows_end_run n port l : shows_end s n port l -> exists f0, forall f, f0 <= f -> c_end s f n port = Ok l.
  Proof.
    intros [[a Ha]|N [[a Ha] P] ->|t N NC -> H].
    - exists 0. intros f _. unfold c_end. rewrite Ha. reflexivity.
    - exists 0. intros f _. unfold c_end. destruct (s_nodes s !! n) eqn:E; [destruct N; eexists; exact E|]. rewrite Ha. apply prefix_spec in P. rewrite P. reflexivity.
    - destruct (shows_sub_run n t H) as [f0 F]. exists f0. intros f L. unfold c_end. destruct (s_nodes s !! n) eqn:E; [destruct N; eexists; exact E|].
      destruct (s_subs s !! n) as [a|] eqn:E2; [|exfalso; inversion H; congruence].
      destruct (has_prefix n (lit "cluster")) eqn:P; [destruct NC; split; [eexists; exact E2|apply prefix_spec; exact P]|]. rewrite (F f L). reflexivity.
  Qed.
  Lemma shows_edge_run e st : shows_edge s e st -> exists f0, forall f, f0 <= f -> c_edge s f e = Ok st.
  Proof.
    intros [src dst l H1 H2 Hl]. destruct (shows_end_run _ _ _ H1) as [f1 F1]. destruct (shows_end_run _ _ _ H2) as [f2 F2].
    exists (Nat.max f1 f2). intros f L. unfold c_edge. rewrite F1 by lia. cbn [bind]. rewrite F2 by lia. cbn [bind]. rewrite (lists_attrs_unique _ _ Hl). reflexivity.
  Qed.
  Lemma child_shows f n st : c_child s (c_sub f) n = Ok st -> shows s n st.
  Proof.
    unfold c_child. destruct (s_nodes s !! n) as [b|] eqn:E1; [intros [= <-]; apply c_node_shows; exact E1|].
    destruct (s_subs s !! n); [|discriminate]. destruct (c_sub f n) eqn:E; try discriminate. intros [= <-]. apply Shows_sub; [apply not_node; exact E1|eapply c_sub_shows; exact E].
  Qed.
  (** Enough fuel for a whole list. *)
  Lemma all_fuel {A B} (g : nat -> A -> res err B) (l : list A) : (forall y, y ∈ l -> exists b f0, forall f, f0 <= f -> g f y = Ok b) ->
    exists f0, forall f, f0 <= f -> forall y, y ∈ l -> exists b, g f y = Ok b.
  Proof.
    induction l as [|a l IH]; intros H; [exists 0; intros f _ y Hy; apply elem_of_nil in Hy; contradiction|].
    destruct (H a (elem_of_list_here _ _)) as (b & f1 & F1). destruct IH as [f2 F2]; [intros y Hy; apply H; right; exact Hy|].
    exists (Nat.max f1 f2). intros f L y Hy. apply elem_of_cons in Hy. destruct Hy as [->|Hy]; [exists b; apply F1; lia|apply F2; [lia|exact Hy]].
  Qed.

  (** ** The first error *)
  Lemma c_sub_fails f : forall n e, c_sub f n = Err e -> fails s n e.
  Proof.
    induction f as [|f IH]; intros n e; cbn [WriteProofs.c_sub]; [discriminate|]. destruct (s_subs s !! n) as [a|] eqn:En; [|discriminate].
    destruct (map_res _ _) as [b|e'| |] eqn:E; cbn [bind]; try discriminate. intros [= ->]. apply map_res_first in E. destruct E as (l1 & x & l2 & El & H1 & H2).
    assert (L : lists_names (is_child s n) (l1 ++ x :: l2)) by (rewrite <- El; apply kids_lists).
    assert (H1' : forall y, y ∈ l1 -> exists st, shows s y st) by (intros y Hy; destruct (H1 y Hy) as [st Hst]; exists st; eapply child_shows; exact Hst).
    assert (Sn : s_is_sub s n) by (eexists; exact En).
    unfold c_child in H2. destruct (s_nodes s !! x) eqn:E1; [discriminate|]. destruct (s_subs s !! x) eqn:E2.
    - destruct (c_sub f x) eqn:E3; try discriminate. cbn in H2. injection H2 as ->. eapply Fails_below; [exact Sn|exact L|exact H1'| |apply IH; exact E3].
      split; [apply (proj2 L); apply elem_of_app; right; left|]. split; [eexists; exact E2|apply not_node; exact E1].
    - injection H2 as <-. eapply Fails_here; [exact Sn|exact L|exact H1'|]. split; [apply not_node; exact E1|apply not_sub; exact E2].
  Qed.
  Lemma fails_run n e : fails s n e -> exists f0, forall f, f0 <= f -> c_sub f n = Err e.
  Proof.
    induction 1 as [n cs c cs' [a Ha] L H1 [U1 U2]|n cs c cs' e [a Ha] L H1 N H IH].
    - destruct (all_fuel (fun f => c_child s (c_sub f)) cs) as [f0 F0].
      { intros y Hy. destruct (H1 y Hy) as [st Hst]. destruct (shows_run y st Hst) as [f0 F]. eauto. }
      exists (S f0). intros f Lf. destruct f as [|f]; [lia|]. cbn [WriteProofs.c_sub]. rewrite Ha.
      assert (X : map_res (c_child s (c_sub f)) (sorted (kids s n)) = Err (unknown_text c)).
      { rewrite <- (kids_list n _ L). apply map_res_first. exists cs, c, cs'. split; [reflexivity|]. split; [apply F0; lia|]. unfold c_child.
        destruct (s_nodes s !! c) eqn:E1; [destruct U1; eexists; exact E1|]. destruct (s_subs s !! c) eqn:E2; [destruct U2; eexists; exact E2|]. reflexivity. }
      rewrite X. reflexivity.
    - destruct (all_fuel (fun f => c_child s (c_sub f)) cs) as [f0 F0].
      { intros y Hy. destruct (H1 y Hy) as [st Hst]. destruct (shows_run y st Hst) as [f0 F]. eauto. }
      destruct IH as [f1 F1]. exists (S (Nat.max f0 f1)). intros f Lf. destruct f as [|f]; [lia|]. cbn [WriteProofs.c_sub]. rewrite Ha.
      assert (X : map_res (c_child s (c_sub f)) (sorted (kids s n)) = Err e).
      { rewrite <- (kids_list n _ L). apply map_res_first. exists cs, c, cs'. split; [reflexivity|]. split; [apply F0; lia|]. unfold c_child. destruct N as (_ & [b Hb] & N).
        destruct (s_nodes s !! c) eqn:E1; [destruct N; eexists; exact E1|]. rewrite Hb. rewrite F1 by lia. reflexivity. }
      rewrite X. reflexivity.
  Qed.
  Lemma c_end_fails f n port e : c_end s f n port = Err e -> end_fails s n port e.
  Proof.
    unfold c_end. destruct (s_nodes s !! n) eqn:E1; [discriminate|]. destruct (s_subs s !! n) eqn:E2.
    - destruct port as [|x port].
      + destruct (has_prefix n (lit "cluster")) eqn:E3; [discriminate|]. destruct (c_sub f n) eqn:E4; try discriminate. cbn. intros [= <-].
        apply End_sub; [apply not_node; exact E1| |reflexivity|eapply c_sub_fails; exact E4]. intros [_ H]. apply prefix_spec in H. congruence.
      + intros [= <-]. apply End_port; [apply not_node; exact E1|eexists; exact E2|discriminate].
    - intros [= <-]. apply End_unknown. split; [apply not_node; exact E1|apply not_sub; exact E2].
  Qed.
  Lemma fails_sub n e : fails s n e -> s_is_sub s n.
  Proof. destruct 1; assumption. Qed.
  Lemma end_fails_run n port e : end_fails s n port e -> exists f0, forall f, f0 <= f -> c_end s f n port = Err e.
  Proof.
    intros [[U1 U2]|N [a Ha] P|x N NC -> H].
    - exists 0. intros f _. unfold c_end. destruct (s_nodes s !! n) eqn:E1; [destruct U1; eexists; exact E1|]. destruct (s_subs s !! n) eqn:E2; [destruct U2; eexists; exact E2|]. reflexivity.
    - exists 0. intros f _. unfold c_end. destruct (s_nodes s !! n) eqn:E1; [destruct N; eexists; exact E1|]. rewrite Ha. destruct port; [contradiction|reflexivity].
    - destruct (fails_sub _ _ H) as [a Ha]. destruct (fails_run n x H) as [f0 F]. exists f0. intros f L. unfold c_end. destruct (s_nodes s !! n) eqn:E1; [destruct N; eexists; exact E1|]. rewrite Ha.
      destruct (has_prefix n (lit "cluster")) eqn:P; [destruct NC; split; [eexists; exact Ha|apply prefix_spec; exact P]|]. rewrite (F f L). reflexivity.
  Qed.
  Lemma c_edge_fails f e x : c_edge s f e = Err x -> edge_fails s e x.
  Proof.
    unfold c_edge. destruct (c_end s f (e_src e) (e_src_port e)) eqn:E1; cbn [bind]; try discriminate.
    - destruct (c_end s f (e_dst e) (e_dst_port e)) eqn:E2; cbn [bind]; try discriminate. intros [= <-]. eapply Edge_dst; [apply (c_end_shows s f); exact E1|eapply c_end_fails; exact E2].
    - intros [= <-]. apply Edge_src. eapply c_end_fails; exact E1.
  Qed.
  Lemma edge_fails_run e x : edge_fails s e x -> exists f0, forall f, f0 <= f -> c_edge s f e = Err x.
  Proof.
    intros [y H|l y H1 H2].
    - destruct (end_fails_run _ _ _ H) as [f0 F]. exists f0. intros f L. unfold c_edge. rewrite (F f L). reflexivity.
    - destruct (shows_end_run _ _ _ H1) as [f1 F1]. destruct (end_fails_run _ _ _ H2) as [f2 F2]. exists (Nat.max f1 f2). intros f L. unfold c_edge. rewrite F1 by lia. cbn [bind]. rewrite F2 by lia. reflexivity.
  Qed.
  Lemma all_ok {A B} (g : A -> res err B) (l : list A) : (forall y, y ∈ l -> exists b, g y = Ok b) <-> exists bs, map_res g l = Ok bs.
  Proof.
    induction l as [|a l IH]; cbn [map_res].
    - split; [eauto|]. intros _ y Hy. apply elem_of_nil in Hy. contradiction.
    - split.
      + intros H. destruct (H a (elem_of_list_here _ _)) as [b ->]. cbn [bind]. destruct (proj1 IH) as [bs ->]; [intros y Hy; apply H; right; exact Hy|]. cbn. eauto.
      + intros [bs H]. destruct (g a) as [b|e| |] eqn:Ea; try discriminate. cbn [bind] in H. destruct (map_res g l) as [bs'|e| |]; try discriminate.
        intros y Hy. apply elem_of_cons in Hy. destruct Hy as [->|Hy]; [eauto|]. apply IH; eauto.
  Qed.

  Section T.
    Variables (T : list gostr) (es : list edge).
    Hypotheses (HT : top_subgraphs s T) (P : es ≡ₚ s_edges s).
    Lemma write_err_iff e : (exists f, c_write s f es = Err e) <-> first_error s T es e.
    Proof.
      split.
      - intros [f H]. rewrite (c_write_eq s f es T P HT) in H. destruct (map_res (c_edge s f) es) as [el|x| |] eqn:E1; cbn [bind] in H; try discriminate.
        + destruct (map_res (c_sub f) T) as [ts|x| |] eqn:E2; cbn [bind] in H; try discriminate. injection H as ->.
          apply map_res_first in E2. destruct E2 as (T1 & n & T2 & ET & H1 & H2). eapply First_sub; [|exact ET| |eapply c_sub_fails; exact H2].
          * intros y Hy. destruct (proj2 (all_ok (c_edge s f) es) (ex_intro _ _ E1) y Hy) as [st Hst]. exists st. eapply c_edge_shows; exact Hst.
          * intros y Hy. destruct (H1 y Hy) as [t Ht]. exists t. eapply c_sub_shows; exact Ht.
        + injection H as ->. apply map_res_first in E1. destruct E1 as (l1 & a & l2 & El & H1 & H2). eapply First_edge; [exact El| |eapply c_edge_fails; exact H2].
          intros y Hy. destruct (H1 y Hy) as [st Hst]. exists st. eapply c_edge_shows; exact Hst.
      - intros [es1 a es2 x El H1 H2|T1 n T2 x H0 ET H1 H2].
        + destruct (all_fuel (fun f => c_edge s f) es1) as [f0 F0]; [intros y Hy; destruct (H1 y Hy) as [st Hst]; exists st; apply shows_edge_run; exact Hst|].
          destruct (edge_fails_run a x H2) as [f1 F1]. exists (Nat.max f0 f1). rewrite (c_write_eq s _ es T P HT).
          assert (X : map_res (c_edge s (Nat.max f0 f1)) es = Err x) by (apply map_res_first; exists es1, a, es2; split; [exact El|]; split; [apply F0; lia|apply F1; lia]). rewrite X. reflexivity.
        + destruct (all_fuel (fun f => c_edge s f) es) as [f0 F0]; [intros y Hy; destruct (H0 y Hy) as [st Hst]; exists st; apply shows_edge_run; exact Hst|].
          destruct (all_fuel (fun f => c_sub f) T1) as [f1 F1]; [intros y Hy; destruct (H1 y Hy) as [t Ht]; exists t; apply shows_sub_run; exact Ht|].
          destruct (fails_run n x H2) as [f2 F2]. set (f := Nat.max f0 (Nat.max f1 f2)). exists f. rewrite (c_write_eq s _ es T P HT).
          destruct (proj1 (all_ok (c_edge s f) es) (F0 f ltac:(lia))) as [el ->]. cbn [bind].
          assert (X : map_res (c_sub f) T = Err x) by (apply map_res_first; exists T1, n, T2; split; [exact ET|]; split; [apply F1; lia|apply F2; lia]). rewrite X. reflexivity.
    Qed.
    Lemma write_ok_shape f a : c_write s f es = Ok a -> exists el ts ns nl,
      a = Ast.Graph (s_directed s) (s_strict s) (s_name s) (map Ast.SAttr (in_order (s_attrs s)) ++ el ++ map Ast.SSub ts ++ nl) /\
      Forall2 (shows_edge s) es el /\ Forall2 (shows_sub s) T ts /\ top_nodes s T ns /\ Forall2 (shows s) ns nl.
    Proof.
      rewrite (c_write_eq s f es T P HT). destruct (map_res (c_edge s f) es) as [el|x| |] eqn:E1; cbn [bind]; try discriminate.
      destruct (map_res (c_sub f) T) as [ts|x| |] eqn:E2; cbn [bind]; try discriminate. intros [= <-]. apply map_res_ok in E1, E2.
      set (N := filter (fun n => n ∉ marks (el ++ map Ast.SSub ts)) (sorted (dom (s_nodes s)))).
      exists el, ts, N, (map (fun n => c_node n (default ∅ (s_nodes s !! n))) N). split; [reflexivity|].
      split; [eapply Forall2_impl; [exact E1|]; intros e st; apply c_edge_shows|]. split; [eapply Forall2_impl; [exact E2|]; intros n t; apply c_sub_shows|].
      assert (M : forall n, n ∈ marks (el ++ map Ast.SSub ts) <-> is_shown s T n).
      { intros n. rewrite marks_app, elem_of_union, (edges_mentions s f es el n P E1). rewrite elem_of_marks. split.
        - intros [(r & R1 & R2)|(st & Hst & H)]; [exists r; auto|]. apply elem_of_list_fmap in Hst. destruct Hst as (t & -> & Ht). destruct (elem_of_list_lookup_1 _ _ Ht) as [i Hi].
          destruct (Forall2_lookup_r _ _ _ _ _ E2 Hi) as (r & Hr & X). apply elem_of_list_lookup_2 in Hr. exists r. split; [auto|]. apply (sub_mentions _ _ _ _ _ X). exact H.
        - intros (r & [R1|R1] & R2); [left; eauto|right]. destruct (elem_of_list_lookup_1 _ _ R1) as [i Hi]. destruct (Forall2_lookup_l _ _ _ _ _ E2 Hi) as (t & Ht & X). apply elem_of_list_lookup_2 in Ht.
          exists (Ast.SSub t). split; [apply elem_of_list_fmap; eauto|]. cbn [st_names]. apply (sub_mentions _ _ _ _ _ X). exact R2. }
      split.
      - split.
        + unfold N. generalize (sorted_strict (dom (s_nodes s))). generalize (sorted (dom (s_nodes s))). clear. intros l So. induction So as [|x l So IH F]; [constructor|]. rewrite filter_cons. destruct (decide _); [|exact IH].
          constructor; [exact IH|]. rewrite Forall_forall in *. intros y Hy. apply elem_of_list_filter in Hy. apply F. tauto.
        + intros n. unfold N. rewrite elem_of_list_filter, nodes_listed, M. tauto.
      - assert (Hn : forall n, n ∈ N -> s_is_node s n) by (intros n Hn; apply elem_of_list_filter in Hn; apply nodes_listed; tauto).
        clearbody N. induction N as [|n N IH]; cbn [map]; constructor.
        + destruct (Hn n (elem_of_list_here _ _)) as [b Hb]. rewrite Hb. apply c_node_shows. exact Hb.
        + apply IH. intros m Hm. apply Hn. right. exact Hm.
    Qed.

    Lemma write_ok_sound f a : c_write s f es = Ok a -> ~ faulty s T /\ ~ loops s T.
    Proof.
      rewrite (c_write_eq s f es T P HT). destruct (map_res (c_edge s f) es) as [el|x| |] eqn:E1; cbn [bind]; try discriminate.
      destruct (map_res (c_sub f) T) as [ts|x| |] eqn:E2; cbn [bind]; try discriminate. intros _.
      assert (W : forall n, is_written s T n -> exists f' r t, c_sub f' r = Ok t /\ rtc (nested s) r n).
      { intros n (r & [(port & (e & He & X) & R1 & R2 & R3)|R] & Rn).
        - rewrite <- P in He. destruct (proj2 (all_ok (c_edge s f) es) (ex_intro _ _ E1) e He) as [st Hst]. unfold c_edge in Hst.
          destruct (c_end s f (e_src e) (e_src_port e)) as [l1|x| |] eqn:F1; cbn [bind] in Hst; try discriminate.
          destruct (c_end s f (e_dst e) (e_dst_port e)) as [l2|x| |] eqn:F2; cbn [bind] in Hst; try discriminate.
          assert (K : forall l, c_end s f r port = Ok l -> exists t, c_sub f r = Ok t).
          { intros l H. unfold c_end in H. destruct (s_nodes s !! r) eqn:X1; [destruct R2; eexists; exact X1|].
            destruct (s_subs s !! r) eqn:X2; [|discriminate]. destruct port; [|discriminate].
            destruct (has_prefix _ _) eqn:X3; [destruct R3; split; [exact R1|apply prefix_spec; exact X3]|].
            destruct (c_sub f r) as [t|x| |] eqn:X4; try discriminate. eauto. }
          destruct X as [[Er Ep]|[Er Ep]]; subst r port; [destruct (K _ F1) as [t Ht]|destruct (K _ F2) as [t Ht]]; eauto.
        - destruct (proj2 (all_ok (c_sub f) T) (ex_intro _ _ E2) r R) as [t Ht]. eauto. }
      split.
      - intros [n port (e & He & X) B|p c Wp C N1 N2].
        + rewrite <- P in He. destruct (proj2 (all_ok (c_edge s f) es) (ex_intro _ _ E1) e He) as [st Hst]. apply c_edge_shows in Hst. destruct Hst as (_ & B1 & B2). destruct X as [[-> ->]|[-> ->]]; contradiction.
        + destruct (W p Wp) as (f' & r & t & X & R). destruct (c_sub_nested s f' r t X p R) as [_ Q]. destruct (Q c C); contradiction.
      - intros (n & Wn & C). destruct (W n Wn) as (f' & r & t & X & R). exact (c_sub_cycle s f' r t X n R C).
    Qed.
    Lemma write_err_faulty f e : c_write s f es = Err e -> faulty s T.
    Proof.
      intros H. assert (X : first_error s T es e) by (apply write_err_iff; eauto). 
      assert (K : forall n x, fails s n x -> exists p c, rtc (nested s) n p /\ is_child s p c /\ ~ s_is_node s c /\ ~ s_is_sub s c).
      { intros n x F. destruct (fails_run n x F) as [f0 F0]. specialize (F0 f0 (le_n _)). apply c_sub_err in F0. destruct F0 as (p & c & R & C & N1 & N2 & _). eauto 8. }
      destruct X as [es1 a es2 x El _ H2|T1 n T2 x _ ET _ H2].
      - assert (Ha : a ∈ s_edges s) by (rewrite <- P, El; apply elem_of_app; right; left).
        assert (Y : forall n port, endpoint s n port -> end_fails s n port x -> faulty s T).
        { intros n port En [[U1 U2]|N Sn Np|y N NC -> F].
          - eapply Faulty_edge; [exact En|apply Bad_unknown; assumption].
          - eapply Faulty_edge; [exact En|apply Bad_port; assumption].
          - destruct (K n y F) as (p & c & R & C & N1 & N2). eapply (Faulty_child s T p c); try assumption. exists n. split; [left|exact R]. exists []. split; [exact En|]. split; [eapply fails_sub; exact F|auto]. }
        destruct H2 as [y F|l y _ F]; (eapply Y; [|exact F]; exists a; auto).
      - destruct (K n x H2) as (p & c & R & C & N1 & N2). eapply (Faulty_child s T p c); try assumption. exists n. split; [right; rewrite ET; apply elem_of_app; right; left|exact R].
    Qed.
    Lemma write_ends : ~ loops s T -> forall f, size (s_subs s) < f -> c_write s f es <> OutOfFuel.
    Proof.
      intros A f Lf. assert (Q : forall n, s_is_sub s n -> (edge_start s n \/ n ∈ T) -> c_sub f n <> OutOfFuel).
      { intros n Sn St. apply (c_sub_terminates s _ n ∅ Sn).
        - intros p Hp. apply elem_of_empty in Hp. contradiction.
        - intros m R C. apply A. exists m. split; [exists n; auto|exact C].
        - rewrite size_empty, size_dom. lia. }
      rewrite (c_write_eq s f es T P HT). destruct (map_res (c_edge s f) es) as [el|x| |] eqn:E1; cbn [bind]; try discriminate.
      - destruct (map_res (c_sub f) T) as [ts|x| |] eqn:E2; cbn [bind]; try discriminate. apply map_res_fuel in E2. destruct E2 as (n & Hn & E2). destruct (Q n); auto. apply HT in Hn. tauto.
      - apply map_res_fuel in E1. destruct E1 as (e & He & E1). rewrite P in He. unfold c_edge in E1.
        assert (K : forall n p, endpoint s n p -> c_end s f n p <> OutOfFuel).
        { intros n p Hn. unfold c_end. destruct (s_nodes s !! n) eqn:X1; [discriminate|]. destruct (s_subs s !! n) eqn:X2; [|discriminate].
          destruct p; [|discriminate]. destruct (has_prefix _ _) eqn:X3; [discriminate|].
          assert (Sn : s_is_sub s n) by (eexists; exact X2). assert (St : edge_start s n).
          { exists []. split; [exact Hn|]. split; [exact Sn|]. split; [apply not_node; exact X1|]. intros [_ H]. apply prefix_spec in H. congruence. }
          specialize (Q n Sn (or_introl St)). destruct (c_sub f n); cbn; congruence. }
        pose proof (K (e_src e) (e_src_port e) ltac:(exists e; auto)) as K1. pose proof (K (e_dst e) (e_dst_port e) ltac:(exists e; auto)) as K2.
        destruct (c_end s f (e_src e) (e_src_port e)); cbn [bind] in E1; try congruence.
        destruct (c_end s f (e_dst e) (e_dst_port e)); cbn [bind] in E1; congruence.
    Qed.
  End T.

  (** ** There is exactly one top level *)
  Lemma top_unique T T' : top_subgraphs s T -> top_subgraphs s T' -> T = T'.
  Proof.
    intros [S1 H1] [S2 H2]. apply strict_sorted_unique; [exact S1|exact S2|].
    assert (K : forall k n, length (filter (fun x => str_ltb x n = true) (sorted (dom (s_subs s)))) <= k -> n ∈ T <-> n ∈ T').
    { induction k as [|k IH]; intros n L; rewrite H1, H2.
      - assert (X : forall U : list gostr, (forall m, m ∈ U -> s_is_sub s m) -> forall r, r ∈ U -> before r n -> False).
        { intros U HU r R1 R2. assert (r ∈ filter (fun x => str_ltb x n = true) (sorted (dom (s_subs s)))) as R3 by (apply elem_of_list_filter; split; [exact R2|apply subs_listed, HU; exact R1]).
          destruct (filter _ _); [apply elem_of_nil in R3; contradiction|cbn in L; lia]. }
        assert (X1 := X T (fun m Hm => proj1 (proj1 (H1 m) Hm))). assert (X2 := X T' (fun m Hm => proj1 (proj1 (H2 m) Hm))).
        split; intros (A & B & C & D); (split; [exact A|]; split; [exact B|]; split; [exact C|]); intros r R1 R2; exfalso; eauto.
      - assert (X : forall r, s_is_sub s r -> before r n -> r ∈ T <-> r ∈ T').
        { intros r Sr B. apply IH. clear - L Sr B.
          assert (Y : S (length (filter (fun x => str_ltb x r = true) (sorted (dom (s_subs s))))) <= length (filter (fun x => str_ltb x n = true) (sorted (dom (s_subs s))))); [|lia].
          assert (Z : r :: filter (fun x => str_ltb x r = true) (sorted (dom (s_subs s))) ⊆+ filter (fun x => str_ltb x n = true) (sorted (dom (s_subs s)))).
          { apply NoDup_submseteq.
            - constructor; [|apply NoDup_filter, NoDup_sorted]. intros H. apply elem_of_list_filter in H. destruct H as [H _]. rewrite str_ltb_irrefl in H. discriminate.
            - intros x Hx. apply elem_of_cons in Hx. apply elem_of_list_filter. destruct Hx as [->|Hx]; [split; [exact B|apply subs_listed; exact Sr]|].
              apply elem_of_list_filter in Hx. destruct Hx as [Hx1 Hx2]. split; [eapply str_ltb_trans; [exact Hx1|exact B]|exact Hx2]. }
          apply submseteq_length in Z. exact Z. }
        split; intros (A & B & C & D); (split; [exact A|]; split; [exact B|]; split; [exact C|]); intros r R1 R2; apply D; try exact R2; apply X; auto.
        + apply H2 in R1. tauto.
        + apply H1 in R1. tauto. }
    intros n. exact (K _ n (le_n _)).
  Qed.

  Lemma edge_mentions_dec n : Decision (exists r, edge_start s r /\ mentions s r n).
  Proof.
    assert (E : (exists r, edge_start s r /\ mentions s r n) <->
      Exists (fun r => is_Some (s_subs s !! r) /\ s_nodes s !! r = None /\ has_prefix r (lit "cluster") = false /\ mentions s r n) (map e_src (s_edges s) ++ map e_dst (s_edges s))).
    { rewrite Exists_exists. split.
      - intros (r & (port & (e & He & X) & R1 & R2 & R3) & M). exists r. split.
        + apply elem_of_app. rewrite !elem_of_list_fmap. destruct X as [[-> _]|[-> _]]; [left|right]; eauto.
        + split; [exact R1|]. split; [destruct (s_nodes s !! r) eqn:Y; [destruct R2; eexists; exact Y|reflexivity]|]. split; [|exact M].
          destruct (has_prefix r (lit "cluster")) eqn:Y; [destruct R3; split; [exact R1|apply prefix_spec; exact Y]|reflexivity].
      - intros (r & Hr & R1 & R2 & R3 & M). exists r. split; [|exact M].
        assert (X : exists port, endpoint s r port).
        { apply elem_of_app in Hr. rewrite !elem_of_list_fmap in Hr. destruct Hr as [(e & -> & He)|(e & -> & He)]; eexists; exists e; eauto. }
        destruct X as [port X]. exists port. split; [exact X|]. split; [exact R1|]. split; [apply not_node; exact R2|]. intros [_ H]. apply prefix_spec in H. congruence. }
    destruct (decide (Exists (fun r => is_Some (s_subs s !! r) /\ s_nodes s !! r = None /\ has_prefix r (lit "cluster") = false /\ mentions s r n) (map e_src (s_edges s) ++ map e_dst (s_edges s)))) as [d|d];
      [left|right]; rewrite E; exact d.
  Qed.
  Lemma top_exists : exists T, top_subgraphs s T.
  Proof.
    (* the list of the subgraphs seen so far is handled *)
    assert (K : forall ns, StronglySorted before ns -> (forall n, n ∈ ns -> s_is_sub s n) -> exists T, StronglySorted before T /\ 
      forall n, n ∈ T <-> n ∈ ns /\ is_child s (s_name s) n /\ (forall r, edge_start s r -> ~ mentions s r n) /\ (forall r, r ∈ T -> before r n -> ~ mentions s r n)).
    { intros ns. induction ns as [|n ns IH] using rev_ind; intros So Sub.
      - exists []. split; [constructor|]. intros n. split; [intros H; apply elem_of_nil in H; contradiction|intros [H _]; apply elem_of_nil in H; contradiction].
      - assert (So' : StronglySorted before ns /\ forall x, x ∈ ns -> before x n).
        { clear - So. induction ns as [|y ns IH]; [split; [constructor|intros x Hx; apply elem_of_nil in Hx; contradiction]|]. cbn in So. inversion So as [|? ? S1 F1]; subst.
          destruct (IH S1) as [IH1 IH2]. rewrite Forall_forall in F1. split.
          - constructor; [exact IH1|]. rewrite Forall_forall. intros z Hz. apply F1. apply elem_of_app. auto.
          - intros x Hx. apply elem_of_cons in Hx. destruct Hx as [->|Hx]; [|auto]. apply F1. apply elem_of_app. right. left. }
        destruct So' as [So1 So2]. destruct IH as (T & ST & HT); [exact So1|intros m Hm; apply Sub, elem_of_app; auto|].
        assert (D : Decision (n ∈ kids s (s_name s) /\ ~ (exists r, edge_start s r /\ mentions s r n) /\ ~ Exists (fun r => mentions s r n) T)).
        { pose proof (edge_mentions_dec n). apply _. }
        assert (Tb : forall r, r ∈ T -> before r n) by (intros r Hr; apply So2; apply HT in Hr; tauto).
        assert (Nn : n ∉ T). { intros H. specialize (Tb n H). unfold before in Tb. rewrite str_ltb_irrefl in Tb. discriminate. }
        destruct D as [(D1 & D2 & D3)|D].
        + exists (T ++ [n]). split.
          * clear - ST Tb. induction ST as [|x l So IH F]; cbn; [constructor; [constructor|constructor]|]. constructor; [apply IH; intros r Hr; apply Tb; right; exact Hr|].
            apply Forall_app. split; [exact F|]. constructor; [apply Tb; left|constructor].
          * intros m. rewrite !elem_of_app, !elem_of_list_singleton. split.
            -- intros [H| ->].
               ++ pose proof H as H'. apply HT in H. destruct H as (A & B & C & E). split; [auto|]. split; [exact B|]. split; [exact C|]. intros r Hr R2.
                  apply elem_of_app in Hr. destruct Hr as [Hr|Hr]; [apply E; assumption|]. apply elem_of_list_singleton in Hr. subst r.
                  specialize (Tb m H'). unfold before in *. rewrite (str_ltb_asym _ _ Tb) in R2. discriminate.
               ++ split; [auto|]. split; [apply elem_of_kids; exact D1|]. split; [intros r R1 R2; apply D2; eauto|]. intros r Hr R2.
                  apply elem_of_app in Hr. destruct Hr as [Hr|Hr]; [intros M; apply D3, Exists_exists; eauto|]. apply elem_of_list_singleton in Hr. subst r.
                  unfold before in R2. rewrite str_ltb_irrefl in R2. discriminate.
            -- intros ([H| ->] & B & C & E); [|auto]. left. apply HT. split; [exact H|]. split; [exact B|]. split; [exact C|]. intros r R1 R2. apply E; [apply elem_of_app; auto|exact R2].
        + exists T. split; [exact ST|]. intros m. rewrite elem_of_app, elem_of_list_singleton. split.
          * intros H. apply HT in H. tauto.
          * intros ([H| ->] & B & C & E); [apply HT; auto|]. exfalso. apply D. split; [apply elem_of_kids; exact B|]. split; [intros (r & R1 & R2); exact (C r R1 R2)|].
            intros H. apply Exists_exists in H. destruct H as (r & R1 & R2). exact (E r R1 (Tb r R1) R2). }
    destruct (K (sorted (dom (s_subs s))) (sorted_strict _) (fun n => proj1 (subs_listed s n))) as (T & ST & HT). exists T. split; [exact ST|].
    intros n. rewrite HT, subs_listed. reflexivity.
  Qed.
End Outcome.
