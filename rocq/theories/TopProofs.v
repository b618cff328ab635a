(** Proofs for C73: the canonical writer (WriteProofs.v) and the specification of SpecTop.v. *)
From stdpp Require Import sorting.
From Verif Require Import Base Parser Maps Graph AttrMap SpecGraph MapFacts GraphProofs Write SpecWrite EdgeOrder WriteProofs WriteFacts WriteFacts2 SpecTop.
From Verif Require Ast.

(** ** Reachability in a finite relation is decidable *)
Section Reach.
  Definition avoid (R : gostr -> gostr -> Prop) (n : gostr) (x y : gostr) : Prop := R x y /\ y <> n.
  Lemma rtc_avoid (R : gostr -> gostr -> Prop) (n m : gostr) : rtc R n m <-> n = m \/ exists c, avoid R n n c /\ rtc (avoid R n) c m.
  Proof.
    split.
    - revert m. apply (rtc_ind_r (fun m => n = m \/ exists c, avoid R n n c /\ rtc (avoid R n) c m)); [left; reflexivity|]. intros y z H1 H2 IH.
      destruct (decide (z = n)) as [->|D]; [left; reflexivity|]. right. destruct IH as [<-|(c & A & B)].
      + exists z. split; [split; assumption|reflexivity].
      + exists c. split; [exact A|]. eapply rtc_r; [exact B|split; assumption].
    - intros [->|(c & [A _] & B)]; [reflexivity|]. eapply rtc_l; [exact A|]. clear A.
      induction B as [x|x y z [A _] B IH]; [reflexivity|]. eapply rtc_l; [exact A|exact IH].
  Qed.
  Lemma rtc_dec_in (k : nat) : forall (V : names) (R : gostr -> gostr -> Prop) (n m : gostr), size V <= k -> n ∈ V ->
    (forall x y, {R x y} + {~ R x y}) -> (forall x y, R x y -> y ∈ V) -> {rtc R n m} + {~ rtc R n m}.
  Proof.
    induction k as [|k IH]; intros V R n m L Hn D C.
    - exfalso. assert (size V <> 0) by (apply size_non_empty_iff; clear - Hn; set_solver). lia.
    - destruct (decide (n = m)) as [->|N]; [left; reflexivity|].
      assert (X : {Exists (fun c => avoid R n n c /\ rtc (avoid R n) c m) (elements (V ∖ {[n]}))} + {~ Exists (fun c => avoid R n n c /\ rtc (avoid R n) c m) (elements (V ∖ {[n]}))}).
      { assert (Y : forall c, c ∈ elements (V ∖ {[n]}) -> {avoid R n n c /\ rtc (avoid R n) c m} + {~ (avoid R n n c /\ rtc (avoid R n) c m)}).
        { intros c Hc. apply elem_of_elements in Hc.
          assert (D1 : {avoid R n n c} + {~ avoid R n n c}).
          { destruct (D n c) as [d|d]; [|right; intros [d' _]; contradiction]. destruct (decide (c = n)) as [e|e]; [right; intros [_ e']; contradiction|left; split; assumption]. }
          destruct D1 as [d1|d1]; [|right; tauto].
          assert (D2 : {rtc (avoid R n) c m} + {~ rtc (avoid R n) c m}).
          { apply (IH (V ∖ {[n]})).
            - assert (S0 : {[n]} ⊆ V) by (apply singleton_subseteq_l; exact Hn). rewrite (size_difference V {[n]} S0), size_singleton. lia.
            - exact Hc.
            - intros x y. destruct (D x y) as [d|d]; [|right; intros [d' _]; contradiction]. destruct (decide (y = n)) as [e|e]; [right; intros [_ e']; contradiction|left; split; assumption].
            - intros x y [H1 H2]. apply C in H1. apply elem_of_difference. split; [exact H1|]. intros H3. apply elem_of_singleton in H3. contradiction. }
          destruct D2; [left; split; assumption|right; tauto]. }
        induction (elements (V ∖ {[n]})) as [|c l IHl]; [right; intros H; inversion H|].
        destruct (Y c (elem_of_list_here _ _)) as [y|y]; [left; left; exact y|].
        destruct IHl as [i|i]; [intros z Hz; apply Y; right; exact Hz|left; right; exact i|right; intros H; inversion H; contradiction]. }
      destruct X as [X|X]; [left|right].
      + apply rtc_avoid. right. apply Exists_exists in X. destruct X as (c & _ & X). eauto.
      + intros H. apply rtc_avoid in H. destruct H as [->|(c & A & B)]; [contradiction|]. apply X. apply Exists_exists. exists c. split; [|auto].
        apply elem_of_elements. destruct A as [A1 A2]. apply C in A1. apply elem_of_difference. split; [exact A1|]. intros H3. apply elem_of_singleton in H3. contradiction.
  Qed.
End Reach.

Section Top.
  Variable s : sgraph.
  Notation c_sub := (c_sub s).

  Global Instance nested_dec (x y : gostr) : Decision (nested s x y).
  Proof.
    unfold nested, Decision. destruct (decide (y ∈ kids s x)) as [k|k]; [|right; intros (H & _); apply k; apply elem_of_kids; exact H].
    apply elem_of_kids in k. destruct (s_subs s !! y) as [a|] eqn:E1; [|right; intros (_ & [a H] & _); congruence].
    destruct (s_nodes s !! y) as [b|] eqn:E2; [right; intros (_ & _ & H); apply H; eexists; exact E2|].
    left. split; [exact k|]. split; [eexists; exact E1|apply not_node; exact E2].
  Qed.
  Global Instance reach_dec (x y : gostr) : Decision (rtc (nested s) x y).
  Proof.
    apply (rtc_dec_in (size ({[x]} ∪ dom (s_subs s))) ({[x]} ∪ dom (s_subs s))); [lia|set_solver|intros a b; apply nested_dec|].
    intros a b (_ & H & _). apply elem_of_dom in H. set_solver.
  Qed.
  Global Instance mentions_dec (r n : gostr) : Decision (mentions s r n).
  Proof.
    assert (E : mentions s r n <-> Exists (fun p => rtc (nested s) r p /\ (n = p \/ n ∈ kids s p)) (r :: elements (dom (s_subs s)))).
    { rewrite Exists_exists. split.
      - intros (p & R & H). exists p. split; [|split; [exact R|rewrite elem_of_kids; exact H]].
        apply rtc_inv_r in R. destruct R as [<-|(y & _ & (_ & Sub & _))]; [left|right; apply elem_of_elements, elem_of_dom; exact Sub].
      - intros (p & _ & R & H). exists p. rewrite elem_of_kids in H. auto. }
    destruct (decide (Exists (fun p => rtc (nested s) r p /\ (n = p \/ n ∈ kids s p)) (r :: elements (dom (s_subs s))))) as [d|d]; [left|right]; rewrite E; exact d.
  Qed.

  (** ** Marked is mentioned *)
  Lemma inside_names t t' : inside t t' -> sub_names t' ⊆ sub_names t.
  Proof.
    induction 1 as [t|id body t t' H I IH]; [reflexivity|]. rewrite (sub_names_eq id body). intros x Hx. apply elem_of_union_r, elem_of_marks.
    exists (Ast.SSub t). split; [exact H|]. cbn [st_names]. apply IH. exact Hx.
  Qed.
  Lemma sub_mentions f n t m : c_sub f n = Ok t -> m ∈ sub_names t <-> mentions s n m.
  Proof.
    intros H. split.
    - revert n t H m. induction f as [|f IH]; intros n t H m M; [discriminate|]. apply c_sub_inv in H. destruct H as (a & body & Ha & F & ->).
      rewrite sub_names_eq, marks_app, marks_attrs, union_empty_l_L, elem_of_union, elem_of_singleton in M. destruct M as [->|M]; [exists n; split; [reflexivity|left; reflexivity]|].
      apply elem_of_marks in M. destruct M as (st & Hst & M). destruct (elem_of_list_lookup_1 _ _ Hst) as [i Hi].
      destruct (Forall2_lookup_r _ _ _ _ _ F Hi) as (c & Hc & E). apply elem_of_list_lookup_2, elem_of_sorted, elem_of_kids in Hc.
      unfold c_child in E. destruct (s_nodes s !! c) eqn:E1.
      + injection E as <-. cbn in M. apply elem_of_singleton in M. subst m. exists n. split; [reflexivity|right; exact Hc].
      + destruct (s_subs s !! c) eqn:E2; [|discriminate]. destruct (c_sub f c) as [t1|e| |] eqn:E3; try discriminate. injection E as <-.
        cbn [st_names] in M. destruct (IH c t1 E3 m M) as (p & R & X). exists p. split; [|exact X]. eapply rtc_l; [|exact R].
        split; [exact Hc|]. split; [eexists; exact E2|apply not_node; exact E1].
    - intros (p & R & X). destruct (c_sub_nested s f n t H p R) as [(f' & t' & _ & H' & I) _]. apply (inside_names _ _ I).
      destruct f' as [|f']; [discriminate|]. apply c_sub_inv in H'. destruct H' as (a & body & Ha & F & ->). rewrite sub_names_eq. destruct X as [->|X]; [set_solver|].
      apply elem_of_union_r. rewrite marks_app. apply elem_of_union_r. apply elem_of_kids, elem_of_sorted in X. destruct (elem_of_list_lookup_1 _ _ X) as [i Hi].
      destruct (Forall2_lookup_l _ _ _ _ _ F Hi) as (st & Hst & E). apply elem_of_list_lookup_2 in Hst. apply elem_of_marks. exists st. split; [exact Hst|].
      unfold c_child in E. destruct (s_nodes s !! m) eqn:E1; [injection E as <-; cbn; set_solver|]. destruct (s_subs s !! m) eqn:E2; [|discriminate].
      destruct (c_sub f' m) as [t1|e| |] eqn:E3; try discriminate. injection E as <-. cbn [st_names]. destruct f' as [|f']; [discriminate|].
      apply c_sub_inv in E3. destruct E3 as (a' & body' & _ & _ & ->). rewrite sub_names_eq. set_solver.
  Qed.
  Lemma end_mentions f n p l m : c_end s f n p = Ok l ->
    m ∈ loc_names l <-> s_is_sub s n /\ ~ s_is_node s n /\ ~ cluster s n /\ mentions s n m.
  Proof.
    unfold c_end. destruct (s_nodes s !! n) eqn:E1.
    - intros [= <-]. cbn. split; [set_solver|]. intros (_ & N & _). destruct N. eexists; exact E1.
    - destruct (s_subs s !! n) eqn:E2; [|discriminate]. destruct p; [|discriminate]. destruct (has_prefix n (lit "cluster")) eqn:E3.
      + intros [= <-]. cbn. split; [set_solver|]. intros (_ & _ & N & _). destruct N. split; [eexists; exact E2|apply prefix_spec; exact E3].
      + destruct (c_sub f n) as [t|e| |] eqn:E4; try discriminate. intros [= <-]. cbn. rewrite (sub_mentions f n t m E4).
        split; [intros M; split; [eexists; exact E2|]; split; [apply not_node; exact E1|]; split; [|exact M]|tauto].
        intros [_ H]. apply prefix_spec in H. congruence.
  Qed.
  Lemma edges_mentions f es el m : es ≡ₚ s_edges s -> Forall2 (fun e st => c_edge s f e = Ok st) es el ->
    m ∈ marks el <-> exists r, edge_start s r /\ mentions s r m.
  Proof.
    intros P F. rewrite elem_of_marks. split.
    - intros (st & Hst & M). destruct (elem_of_list_lookup_1 _ _ Hst) as [i Hi]. destruct (Forall2_lookup_r _ _ _ _ _ F Hi) as (e & He & E).
      apply elem_of_list_lookup_2 in He. rewrite P in He. unfold c_edge in E.
      destruct (c_end s f (e_src e) (e_src_port e)) as [l1|x| |] eqn:E1; cbn [bind] in E; try discriminate.
      destruct (c_end s f (e_dst e) (e_dst_port e)) as [l2|x| |] eqn:E2; cbn [bind] in E; try discriminate. injection E as <-.
      cbn in M. rewrite union_empty_r_L in M. apply elem_of_union in M. destruct M as [M|M].
      + apply (end_mentions _ _ _ _ _ E1) in M. destruct M as (M1 & M2 & M3 & M4). exists (e_src e). split; [|exact M4]. exists (e_src_port e). split; [exists e; auto|auto].
      + apply (end_mentions _ _ _ _ _ E2) in M. destruct M as (M1 & M2 & M3 & M4). exists (e_dst e). split; [|exact M4]. exists (e_dst_port e). split; [exists e; auto|auto].
    - intros (r & (port & (e & He & X) & M1 & M2 & M3) & M4). rewrite <- P in He. destruct (elem_of_list_lookup_1 _ _ He) as [i Hi].
      destruct (Forall2_lookup_l _ _ _ _ _ F Hi) as (st & Hst & E). apply elem_of_list_lookup_2 in Hst. exists st. split; [exact Hst|]. unfold c_edge in E.
      destruct (c_end s f (e_src e) (e_src_port e)) as [l1|x| |] eqn:E1; cbn [bind] in E; try discriminate.
      destruct (c_end s f (e_dst e) (e_dst_port e)) as [l2|x| |] eqn:E2; cbn [bind] in E; try discriminate. injection E as <-. cbn. rewrite union_empty_r_L, elem_of_union.
      destruct X as [[Er Ep]|[Er Ep]]; subst r port; [left; apply (end_mentions _ _ _ _ _ E1)|right; apply (end_mentions _ _ _ _ _ E2)]; auto.
  Qed.

  (** ** The loop over the subgraphs, exactly *)
  Lemma tops_loop f (T : list gostr) (base : list Ast.stmt) : top_subgraphs s T ->
    (forall m, m ∈ marks base <-> exists r, edge_start s r /\ mentions s r m) ->
    forall ns T0 ts0, StronglySorted before ns -> (forall n, n ∈ ns -> s_is_sub s n) -> Forall2 (fun n t => c_sub f n = Ok t) T0 ts0 ->
    (forall n, n ∈ T0 <-> n ∈ T /\ n ∉ ns) -> (forall r n, r ∈ T0 -> n ∈ ns -> before r n) ->
    c_tops s f ns (base ++ map Ast.SSub ts0) = bind (map_res (c_sub f) (filter (.∈ T) ns)) (fun ts => Ok (base ++ map Ast.SSub (ts0 ++ ts))).
  Proof.
    intros [ST HT] HB. induction ns as [|n ns IH]; intros T0 ts0 So Sub F E B; cbn [c_tops].
    - cbn. rewrite app_nil_r. reflexivity.
    - inversion So as [|? ? So' Fn]; subst. rewrite Forall_forall in Fn.
      assert (Nn : n ∉ ns). { intros H. specialize (Fn n H). unfold before in Fn. rewrite str_ltb_irrefl in Fn. discriminate. }
      assert (Sub' : forall m, m ∈ ns -> s_is_sub s m) by (intros m Hm; apply Sub; right; exact Hm).
      assert (M : n ∈ marks (base ++ map Ast.SSub ts0) <-> (exists r, edge_start s r /\ mentions s r n) \/ exists r, r ∈ T0 /\ mentions s r n).
      { rewrite marks_app, elem_of_union, HB. apply or_iff_compat_l. rewrite elem_of_marks. split.
        - intros (st & Hst & H). apply elem_of_list_fmap in Hst. destruct Hst as (t & -> & Ht). destruct (elem_of_list_lookup_1 _ _ Ht) as [i Hi].
          destruct (Forall2_lookup_r _ _ _ _ _ F Hi) as (r & Hr & X). apply elem_of_list_lookup_2 in Hr. exists r. split; [exact Hr|]. apply (sub_mentions _ _ _ _ X). exact H.
        - intros (r & Hr & H). destruct (elem_of_list_lookup_1 _ _ Hr) as [i Hi]. destruct (Forall2_lookup_l _ _ _ _ _ F Hi) as (t & Ht & X). apply elem_of_list_lookup_2 in Ht.
          exists (Ast.SSub t). split; [apply elem_of_list_fmap; eauto|]. cbn [st_names]. apply (sub_mentions _ _ _ _ X). exact H. }
      assert (Bef : forall r, r ∈ T /\ before r n <-> r ∈ T0).
      { intros r. rewrite E. split.
        - intros [H1 H2]. split; [exact H1|]. intros H. apply elem_of_cons in H. destruct H as [->|H].
          + unfold before in H2. rewrite str_ltb_irrefl in H2. discriminate.
          + pose proof (Fn r H) as H3. unfold before in *. rewrite (str_ltb_asym _ _ H2) in H3. discriminate.
        - intros H. pose proof H as H'. apply E in H'. split; [tauto|]. apply B; [exact H'|left]. }
      assert (In : n ∈ T <-> n ∉ marks (base ++ map Ast.SSub ts0) /\ n ∈ kids s (s_name s)).
      { rewrite HT, M, elem_of_kids. split.
        - intros (_ & K & N1 & N2). split; [|exact K]. intros [(r & R1 & R2)|(r & R1 & R2)]; [exact (N1 r R1 R2)|]. apply Bef in R1. exact (N2 r (proj1 R1) (proj2 R1) R2).
        - intros [N K]. split; [apply Sub; left|]. split; [exact K|]. split; [intros r R1 R2; apply N; left; eauto|].
          intros r R1 R2 R3. apply N. right. exists r. split; [apply Bef; auto|exact R3]. }
      rewrite filter_cons. destruct (decide (n ∈ marks (base ++ map Ast.SSub ts0))) as [D|D].
      + rewrite decide_False by tauto. apply (IH T0); [exact So'|exact Sub'|exact F| |].
        * intros x. rewrite E, not_elem_of_cons. split; [tauto|]. intros [H1 H2]. split; [exact H1|]. split; [|exact H2]. intros ->. tauto.
        * intros r x R1 R2. apply B; [exact R1|right; exact R2].
      + destruct (decide (n ∈ kids s (s_name s))) as [K|K].
        * rewrite decide_True by tauto. cbn [map_res]. destruct (c_sub f n) as [t|e| |] eqn:X; cbn [bind]; try reflexivity.
          rewrite <- app_assoc. change [Ast.SSub t] with (map Ast.SSub [t]). rewrite <- map_app.
          rewrite (IH (T0 ++ [n])); [|exact So'|exact Sub'|apply Forall2_app; [exact F|constructor; [exact X|constructor]]| |].
          -- destruct (map_res (c_sub f) (filter (.∈ T) ns)); cbn [bind]; try reflexivity. rewrite <- app_assoc. reflexivity.
          -- intros x. rewrite elem_of_app, elem_of_list_singleton, E, not_elem_of_cons. split.
             ++ intros [(H1 & H2 & H3)| ->]; [auto|]. split; [tauto|exact Nn].
             ++ intros [H1 H2]. destruct (decide (x = n)) as [->|N]; [right; reflexivity|left; auto].
          -- intros r x R1 R2. apply elem_of_app in R1. destruct R1 as [R1|R1]; [apply B; [exact R1|right; exact R2]|]. apply elem_of_list_singleton in R1. subst r. apply Fn. exact R2.
        * rewrite decide_False by tauto. apply (IH T0); [exact So'|exact Sub'|exact F| |].
          -- intros x. rewrite E, not_elem_of_cons. split; [tauto|]. intros [H1 H2]. split; [exact H1|]. split; [|exact H2]. intros ->. tauto.
          -- intros r x R1 R2. apply B; [exact R1|right; exact R2].
  Qed.
  Lemma top_filter (T : list gostr) : top_subgraphs s T -> filter (.∈ T) (sorted (dom (s_subs s))) = T.
  Proof.
    intros [ST HT]. apply strict_sorted_unique.
    - pose proof (sorted_strict (dom (s_subs s))) as So. induction So as [|x l So IH F]; [constructor|]. rewrite filter_cons. destruct (decide _); [|exact IH].
      constructor; [exact IH|]. rewrite Forall_forall in *. intros y Hy. apply elem_of_list_filter in Hy. apply F. tauto.
    - exact ST.
    - intros n. rewrite elem_of_list_filter, subs_listed. split; [tauto|]. intros H. split; [exact H|]. apply HT in H. tauto.
  Qed.
  (** The whole writer, as a function of the top level. *)
  Lemma c_write_eq f es (T : list gostr) : es ≡ₚ s_edges s -> top_subgraphs s T ->
    c_write s f es = bind (map_res (c_edge s f) es) (fun el => bind (map_res (c_sub f) T) (fun ts =>
      Ok (Ast.Graph (s_directed s) (s_strict s) (s_name s) (map Ast.SAttr (in_order (s_attrs s)) ++ el ++ map Ast.SSub ts ++
        map (fun n => c_node n (default ∅ (s_nodes s !! n))) (filter (fun n => n ∉ marks (el ++ map Ast.SSub ts)) (sorted (dom (s_nodes s)))))))).
  Proof.
    intros P HT. unfold c_write. destruct (map_res (c_edge s f) es) as [el|e| |] eqn:E; cbn [bind]; try reflexivity.
    apply map_res_ok in E. set (base := map Ast.SAttr (in_order (s_attrs s)) ++ el).
    pose proof (tops_loop f T base HT) as L.
    assert (HB : forall m, m ∈ marks base <-> exists r, edge_start s r /\ mentions s r m).
    { intros m. unfold base. rewrite marks_app, marks_attrs, union_empty_l_L. apply (edges_mentions f es el m P E). }
    specialize (L HB (sorted (dom (s_subs s))) [] []). cbn [map app] in L. rewrite app_nil_r in L. rewrite L; clear L.
    - rewrite (top_filter T HT). destruct (map_res (c_sub f) T) as [ts|e| |]; cbn [bind]; try reflexivity. f_equal. f_equal.
      rewrite c_nodes_eq by apply NoDup_sorted. unfold base. rewrite <- !app_assoc. do 4 f_equal. apply filter_ext_in'. intros x _.
      rewrite !marks_app, marks_attrs, union_empty_l_L. reflexivity.
    - apply sorted_strict.
    - intros n. apply subs_listed.
    - constructor.
    - intros n. split; [intros H; apply elem_of_nil in H; contradiction|]. intros [H1 H2]. exfalso. apply H2. apply subs_listed. apply HT in H1. tauto.
    - intros r n H. apply elem_of_nil in H. contradiction.
  Qed.
End Top.
