(** C60: the abstract graphs that histories of calls can build. *)
From Verif Require Import Maps Graph SpecGraph SpecImage MapFacts GraphProofs.

(** ** Invariants *)
Lemma all_valid_union (a b : attrs) : all_valid a -> all_valid b -> all_valid (a ∪ b).
Proof. intros A B k v H. apply lookup_union_Some_raw in H. destruct H as [H|[_ H]]; [exact (A k v H)|exact (B k v H)]. Qed.
Lemma all_valid_empty : all_valid ∅.
Proof. intros k v H. rewrite lookup_empty in H. discriminate. Qed.
Lemma all_valid_default (m : gmap gostr attrs) n : (forall n a, m !! n = Some a -> all_valid a) -> all_valid (default ∅ (m !! n)).
Proof. intros H. destruct (m !! n) as [a|] eqn:E; cbn; [exact (H n a E)|apply all_valid_empty]. Qed.
Lemma all_valid_insert (m : gmap gostr attrs) n a0 : (forall n a, m !! n = Some a -> all_valid a) -> all_valid a0 ->
  forall k a, <[n := a0]> m !! k = Some a -> all_valid a.
Proof. intros H H0 k a E. apply lookup_insert_Some in E. destruct E as [[_ <-]|[_ E]]; [exact H0|exact (H k a E)]. Qed.
Lemma plain_empty : plain s_empty.
Proof.
  constructor; cbn; try apply all_valid_empty; try (intros ? ? H; rewrite lookup_empty in H; discriminate).
  - constructor.
  - intros n. unfold s_is_node. cbn. rewrite lookup_empty. split; [intros H; inversion H|intros H; destruct (is_Some_None H)].
  - constructor.
Qed.
Lemma plain_put_attrs s n m : plain s -> all_valid m -> plain (s_put_attrs s n m).
Proof.
  intros [N O A Nd S E] V. unfold s_put_attrs. destruct (decide (s_name s = n)); constructor; cbn; auto using all_valid_union.
  apply all_valid_insert; [exact S|]. apply all_valid_union; [exact V|]. apply all_valid_default. exact S.
Qed.
Lemma plain_open_sub s p n : plain s -> plain (s_open_sub s p n).
Proof. intros [N O A Nd S E]. constructor; cbn; auto. apply all_valid_insert; [exact S|]. apply all_valid_default. exact S. Qed.
Lemma plain_drop_nodes s p N0 : plain s -> plain (s_drop_nodes s p N0).
Proof.
  intros [N O A Nd S E]. constructor; cbn; auto.
  - apply NoDup_filter. exact N.
  - intros n. rewrite elem_of_list_filter, O. unfold s_is_node. cbn. split.
    + intros (H & a & Ha). exists a. apply map_filter_lookup_Some. auto.
    + intros (a & Ha). apply map_filter_lookup_Some in Ha. destruct Ha as [Ha H]. split; [exact H|eauto].
  - intros n a H. apply map_filter_lookup_Some in H. destruct H as [H _]. exact (Nd n a H).
  - apply Forall_forall. intros e He. apply elem_of_list_filter in He. rewrite Forall_forall in E. apply E. apply He.
Qed.
Lemma plain_call c s s' r : spec_call c s s' r -> plain s -> plain s'.
Proof.
  intros H P. destruct H; try exact P; try (destruct P; constructor; cbn; auto; fail).
  - destruct P as [N O A Nd S E]. constructor; cbn; auto. apply Forall_app. split; [exact E|]. constructor; [assumption|constructor].
  - destruct P as [N O A Nd S E]. constructor; cbn; auto. apply Forall_app. split; [exact E|]. constructor; [assumption|constructor].
  - destruct P as [N O A Nd S E]. constructor; cbn; auto.
    + destruct (s_nodes s !! n) eqn:En; [exact N|]. apply NoDup_app. split; [exact N|]. split; [|apply NoDup_singleton].
      intros x Hx ->%elem_of_list_singleton. apply O in Hx. unfold s_is_node in Hx. rewrite En in Hx. destruct (is_Some_None Hx).
    + intros k. unfold s_is_node. cbn. destruct (decide (k = n)) as [->|Hk].
      * rewrite lookup_insert. split; [eauto|]. intros _. destruct (s_nodes s !! n) eqn:En; [apply O; unfold s_is_node; rewrite En; eauto|].
        apply elem_of_app. right. apply elem_of_list_singleton. reflexivity.
      * rewrite lookup_insert_ne by congruence. fold (s_is_node s k). rewrite <- O.
        destruct (s_nodes s !! n); [reflexivity|]. rewrite elem_of_app, elem_of_list_singleton. tauto.
    + apply all_valid_insert; [exact Nd|]. apply all_valid_union; [assumption|]. apply all_valid_default. exact Nd.
  - apply plain_put_attrs; [exact P|]. intros k v0 Hk. apply lookup_singleton_Some in Hk. destruct Hk as [<- _]. assumption.
  - apply plain_put_attrs; [apply plain_open_sub; exact P|assumption].
  - apply plain_put_attrs; [apply plain_open_sub; exact P|assumption].
  - apply plain_drop_nodes. exact P.
  - pose proof (plain_drop_nodes s p N P) as [N' O A Nd S E]. constructor; cbn; auto.
    + intros k a Ha. apply lookup_delete_Some in Ha. destruct Ha as [_ Ha]. exact (S k a Ha).
    + apply Forall_forall. intros e He. apply elem_of_list_filter in He. destruct He as [_ He]. rewrite Forall_forall in E. apply E. exact He.
  - apply plain_drop_nodes. exact P.
Qed.
Lemma put_attrs_same s n m : s_is_sub s n -> forall k,
  (s_is_node (s_put_attrs s n m) k <-> s_is_node s k) /\ (s_is_sub (s_put_attrs s n m) k <-> s_is_sub s k) /\
  s_rels (s_put_attrs s n m) = s_rels s.
Proof.
  intros H k. unfold s_put_attrs. destruct (decide (s_name s = n)); [split; [|split]; reflexivity|].
  split; [reflexivity|]. split; [|reflexivity]. unfold s_is_sub in *. cbn. destruct (decide (k = n)) as [->|Hk].
  - rewrite lookup_insert. split; eauto.
  - rewrite lookup_insert_ne by congruence. reflexivity.
Qed.
Lemma put_attrs_same' s n m : s_name s = n \/ s_is_sub s n -> forall k,
  (s_is_node (s_put_attrs s n m) k <-> s_is_node s k) /\ (s_is_sub (s_put_attrs s n m) k <-> s_is_sub s k) /\
  s_rels (s_put_attrs s n m) = s_rels s.
Proof.
  intros [H|H] k; [|apply put_attrs_same; exact H]. unfold s_put_attrs. rewrite decide_True by exact H. split; [|split]; reflexivity.
Qed.
Lemma open_sub_same s p n k :
  (s_is_node (s_open_sub s p n) k <-> s_is_node s k) /\ (s_is_sub (s_open_sub s p n) k <-> k = n \/ s_is_sub s k) /\
  s_rels (s_open_sub s p n) = {[(p, n)]} ∪ s_rels s.
Proof.
  split; [reflexivity|]. split; [|reflexivity]. unfold s_is_sub. cbn. destruct (decide (k = n)) as [->|Hk].
  - rewrite lookup_insert. split; eauto.
  - rewrite lookup_insert_ne by congruence. tauto.
Qed.
Lemma put_node_same s p n m k : s_is_node (s_put_node s p n m) k <-> k = n \/ s_is_node s k.
Proof.
  unfold s_is_node. cbn. destruct (decide (k = n)) as [->|Hk].
  - rewrite lookup_insert. split; eauto.
  - rewrite lookup_insert_ne by congruence. tauto.
Qed.
(** The facts about parents only depend on these three. *)
Lemma placed_iff s s' : (forall k, s_is_node s k <-> s_is_node s' k) -> (forall k, s_is_sub s k <-> s_is_sub s' k) -> s_rels s = s_rels s' ->
  (placed s <-> placed s') /\ (both_placed s <-> both_placed s').
Proof.
  intros H1 H2 H3. unfold placed, both_placed, has_parent, is_child. setoid_rewrite H1. setoid_rewrite H2. rewrite H3. split; reflexivity.
Qed.
Lemma placed_put_attrs s n m : s_name s = n \/ s_is_sub s n ->
  (placed (s_put_attrs s n m) <-> placed s) /\ (both_placed (s_put_attrs s n m) <-> both_placed s).
Proof. intros H. apply placed_iff; [intros k|intros k|apply (put_attrs_same' s n m H [])]; apply (put_attrs_same' s n m H k). Qed.
Lemma placed_open_sub s p n : placed s -> placed (s_open_sub s p n).
Proof.
  intros [A B]. split.
  - intros k [H|H].
    + destruct (A k (or_introl H)) as [q Hq]. exists q. unfold is_child in *. cbn. set_solver.
    + apply open_sub_same in H. destruct H as [->|H].
      * exists p. unfold is_child. cbn. set_solver.
      * destruct (A k (or_intror H)) as [q Hq]. exists q. unfold is_child in *. cbn. set_solver.
  - intros q c H. unfold is_child in H. cbn in H. apply elem_of_union in H. destruct H as [[= -> ->]%elem_of_singleton|H].
    + right. apply open_sub_same. auto.
    + destruct (B q c H) as [H'|H']; [left; exact H'|right]. apply open_sub_same. auto.
Qed.
Lemma placed_call c s s' r : spec_call c s s' r -> additive c -> placed s -> placed s'.
Proof.
  intros H Ad P. destruct H; try contradiction; try exact P.
  - destruct P as [A B]. split.
    + intros k Hk. assert (k = n \/ (s_is_node s k \/ s_is_sub s k)) as [->|Hk'].
      { destruct Hk as [Hk|Hk]; [apply put_node_same in Hk; tauto|]. right. right. exact Hk. }
      * exists p. unfold is_child. cbn. set_solver.
      * destruct (A k Hk') as [q Hq]. exists q. unfold is_child in *. cbn. set_solver.
    + intros q c H'. unfold is_child in H'. cbn in H'. apply elem_of_union in H'. destruct H' as [[= -> ->]%elem_of_singleton|H'].
      * left. apply put_node_same. auto.
      * destruct (B q c H') as [Hc|Hc]; [left; apply put_node_same; auto|right; exact Hc].
  - apply placed_put_attrs; assumption.
  - apply placed_put_attrs; [right; apply open_sub_same; auto|]. apply placed_open_sub. exact P.
  - apply placed_put_attrs; [right; apply open_sub_same; auto|]. apply placed_open_sub. exact P.
Qed.
Lemma both_open_sub s p n : both_placed s -> both_placed (s_open_sub s p n).
Proof.
  intros A k H1 H2. apply open_sub_same in H2. destruct H2 as [->|H2].
  - exists p. unfold is_child. cbn. set_solver.
  - destruct (A k H1 H2) as [q Hq]. exists q. unfold is_child in *. cbn. set_solver.
Qed.
Lemma both_drop s p N : both_placed s -> both_placed (s_drop_nodes s p N).
Proof.
  intros A k [a H1] H2. cbn in H1. apply map_filter_lookup_Some in H1. destruct H1 as [H1 Hk]. cbn in Hk.
  destruct (A k (ex_intro _ a H1) H2) as [q Hq]. exists q. unfold is_child in *. cbn. apply elem_of_filter. cbn. split; [tauto|exact Hq].
Qed.
Lemma both_call c s s' r : spec_call c s s' r -> both_placed s -> both_placed s'.
Proof.
  intros H P. destruct H; try exact P.
  - intros k H1 H2. apply put_node_same in H1. destruct (decide (k = n)) as [->|Hk].
    + exists p. unfold is_child. cbn. set_solver.
    + destruct H1 as [H1|H1]; [contradiction|]. destruct (P k H1 H2) as [q Hq]. exists q. unfold is_child in *. cbn. set_solver.
  - apply placed_put_attrs; assumption.
  - apply placed_put_attrs; [right; apply open_sub_same; auto|]. apply both_open_sub. exact P.
  - apply placed_put_attrs; [right; apply open_sub_same; auto|]. apply both_open_sub. exact P.
  - apply both_drop. exact P.
  - pose proof (both_drop s p N P) as P'. intros k H1 H2. cbn in H2. destruct H2 as [a H2]. cbn in H2. apply lookup_delete_Some in H2.
    destruct H2 as [Hk H2]. destruct (P' k H1 (ex_intro _ a H2)) as [q Hq]. exists q. unfold is_child in *. cbn in *.
    apply elem_of_difference. split; [exact Hq|]. intros [= _ ->]%elem_of_singleton. congruence.
  - apply both_drop. exact P.
Qed.

(** ** Building *)
(** [s'] comes from [s] by calls in [P], all of which return nil. *)
Definition Steps (P : call -> Prop) (s s' : sgraph) : Prop :=
  exists cs, Forall P cs /\ spec_run cs s s' (replicate (length cs) None).
Lemma Steps_refl P s : Steps P s s.
Proof. exists []. split; constructor. Qed.
Lemma spec_run_app cs cs' s s1 s2 rs rs' : spec_run cs s s1 rs -> spec_run cs' s1 s2 rs' -> spec_run (cs ++ cs') s s2 (rs ++ rs').
Proof. induction 1; intros H'; cbn; [exact H'|]. econstructor; [eassumption|]. auto. Qed.
Lemma Steps_trans P s s1 s2 : Steps P s s1 -> Steps P s1 s2 -> Steps P s s2.
Proof.
  intros (cs & F & R) (cs' & F' & R'). exists (cs ++ cs'). split; [apply Forall_app; auto|].
  rewrite app_length, replicate_add. eapply spec_run_app; eassumption.
Qed.
Lemma Steps_one (P : call -> Prop) c s s' : P c -> spec_call c s s' None -> Steps P s s'.
Proof. intros H S. exists [c]. split; [constructor; [exact H|constructor]|]. cbn. econstructor; [exact S|constructor]. Qed.
Lemma Steps_snoc (P : call -> Prop) c s s1 s2 : Steps P s s1 -> P c -> spec_call c s1 s2 None -> Steps P s s2.
Proof. intros S H C. eapply Steps_trans; [exact S|]. eapply Steps_one; eassumption. Qed.
Lemma Steps_weaken (P Q : call -> Prop) s s' : (forall c, P c -> Q c) -> Steps P s s' -> Steps Q s s'.
Proof. intros H (cs & F & R). exists cs. split; [|exact R]. exact (Forall_impl _ _ _ F H). Qed.

Local Instance ascii_inhabited : Inhabited Ascii.ascii := populate Ascii.zero.
Section Build.
  Variable t : sgraph.
  Hypothesis PT : plain t.
  (** a name that does not occur *)
  Definition q0 : gostr :=
    fresh (A := list Ascii.ascii) (dom (s_subs t) ∪ dom (s_nodes t) ∪ (set_map fst (s_rels t) : names) ∪ (set_map snd (s_rels t) : names)).
  Lemma q0_sub : s_subs t !! q0 = None.
  Proof.
    apply not_elem_of_dom. pose proof (is_fresh (dom (s_subs t) ∪ dom (s_nodes t) ∪ (set_map fst (s_rels t) : names) ∪ (set_map snd (s_rels t) : names))).
    fold q0 in H. set_solver.
  Qed.
  Lemma q0_node : s_nodes t !! q0 = None.
  Proof.
    apply not_elem_of_dom. pose proof (is_fresh (dom (s_subs t) ∪ dom (s_nodes t) ∪ (set_map fst (s_rels t) : names) ∪ (set_map snd (s_rels t) : names))).
    fold q0 in H. set_solver.
  Qed.
  Lemma q0_parent c : (q0, c) ∉ s_rels t.
  Proof.
    intros Hc. pose proof (is_fresh (dom (s_subs t) ∪ dom (s_nodes t) ∪ (set_map fst (s_rels t) : names) ∪ (set_map snd (s_rels t) : names))).
    fold q0 in H. apply H. apply elem_of_union_l, elem_of_union_r. apply elem_of_map. exists (q0, c). auto.
  Qed.
  Lemma q0_child p : (p, q0) ∉ s_rels t.
  Proof.
    intros Hc. pose proof (is_fresh (dom (s_subs t) ∪ dom (s_nodes t) ∪ (set_map fst (s_rels t) : names) ∪ (set_map snd (s_rels t) : names))).
    fold q0 in H. apply H. apply elem_of_union_r. apply elem_of_map. exists (p, q0). auto.
  Qed.
  Definition mk (N : gmap gostr attrs) (o : list gostr) (es : list edge) (S : gmap gostr attrs) (R : gset (gostr * gostr)) (a : attrs) : sgraph :=
    SGraph q0 (s_directed t) (s_strict t) a N o es S R.

  (** flags, name and attributes of the graph *)
  Lemma build_start : Steps additive s_empty (mk ∅ [] [] ∅ ∅ ∅).
  Proof.
    eapply Steps_snoc; [eapply Steps_snoc; [eapply Steps_one|..]|..].
    - instantiate (1 := CSetStrict (s_strict t)). exact I.
    - apply Sp_strict.
    - instantiate (1 := CSetDir (s_directed t)). exact I.
    - apply Sp_dir.
    - instantiate (1 := CSetName q0). exact I.
    - apply (Sp_name q0).
  Qed.
  Lemma build_attrs (N : gmap gostr attrs) (o : list gostr) (es : list edge) (S : gmap gostr attrs) (R : gset (gostr * gostr)) (m : attrs) : all_valid m -> Steps additive (mk N o es S R ∅) (mk N o es S R m).
  Proof.
    induction m as [|k v m E IH] using map_ind; intros V; [apply Steps_refl|].
    eapply Steps_snoc; [apply IH| |].
    - intros k' v' H. apply (V k' v'). rewrite lookup_insert_ne; [exact H|congruence].
    - instantiate (1 := CAddAttr q0 k v). exact I.
    - replace (mk N o es S R (<[k := v]> m)) with (s_put_attrs (mk N o es S R m) q0 {[k := v]}).
      + apply Sp_attr; [apply (V k v); apply lookup_insert|left; reflexivity].
      + unfold s_put_attrs. rewrite decide_True by reflexivity. unfold mk, s_with_attrs. cbn. rewrite insert_union_singleton_l. reflexivity.
  Qed.
  Lemma build_edges (N : gmap gostr attrs) (o : list gostr) (S : gmap gostr attrs) (R : gset (gostr * gostr)) (a : attrs) (es : list edge) : Forall (fun e => all_valid (e_attrs e)) es -> Steps additive (mk N o [] S R a) (mk N o es S R a).
  Proof.
    induction es as [|e es IH] using rev_ind; intros F; [apply Steps_refl|]. apply Forall_app in F. destruct F as [F Fe].
    eapply Steps_snoc; [apply IH; exact F| |].
    - instantiate (1 := CAddPortEdge (e_src e) (e_src_port e) (e_dst e) (e_dst_port e) (e_dir e) (e_attrs e)). exact I.
    - replace (mk N o (es ++ [e]) S R a) with (s_with_edges (mk N o es S R a) (es ++ [Edge (e_src e) (e_src_port e) (e_dst e) (e_dst_port e) (e_dir e) (e_attrs e)])).
      + apply (Sp_port_edge (e_src e) (e_src_port e) (e_dst e) (e_dst_port e) (e_dir e) (e_attrs e) (mk N o es S R a)). inversion Fe; assumption.
      + destruct e; reflexivity.
  Qed.
  Lemma open_put (N : gmap gostr attrs) (o : list gostr) (es : list edge) (S : gmap gostr attrs) (R : gset (gostr * gostr)) (a : attrs) (p : gostr) (n : gostr) (m : attrs) : n <> q0 -> S !! n = None ->
    s_put_attrs (s_open_sub (mk N o es S R a) p n) n m = mk N o es (<[n := m]> S) ({[(p, n)]} ∪ R) a.
  Proof.
    intros Hn E. unfold s_put_attrs. rewrite decide_False by (cbn; congruence). unfold mk, s_open_sub, s_with_subs, s_with_rels. cbn. f_equal.
    rewrite lookup_insert, insert_insert. cbn. rewrite E. cbn. f_equal. apply map_union_empty.
  Qed.
  Lemma put_node_mk (N : gmap gostr attrs) (o : list gostr) (es : list edge) (S : gmap gostr attrs) (R : gset (gostr * gostr)) (a : attrs) (p : gostr) (n : gostr) (m : attrs) : N !! n = None ->
    s_put_node (mk N o es S R a) p n m = mk (<[n := m]> N) (o ++ [n]) es S ({[(p, n)]} ∪ R) a.
  Proof. intros E. unfold s_put_node, mk. cbn. rewrite E. cbn. rewrite map_union_empty. reflexivity. Qed.
  Lemma put_node_old (N : gmap gostr attrs) (o : list gostr) (es : list edge) (S : gmap gostr attrs) (R : gset (gostr * gostr)) (a : attrs) (p : gostr) (n : gostr) : is_Some (N !! n) ->
    s_put_node (mk N o es S R a) p n ∅ = mk N o es S ({[(p, n)]} ∪ R) a.
  Proof.
    intros [m E]. unfold s_put_node, mk. cbn. rewrite E. cbn. rewrite map_empty_union. rewrite insert_id by exact E. reflexivity.
  Qed.
  Lemma open_put_old (N : gmap gostr attrs) (o : list gostr) (es : list edge) (S : gmap gostr attrs) (R : gset (gostr * gostr)) (a : attrs) (p : gostr) (n : gostr) : n <> q0 -> is_Some (S !! n) ->
    s_put_attrs (s_open_sub (mk N o es S R a) p n) n ∅ = mk N o es S ({[(p, n)]} ∪ R) a.
  Proof.
    intros Hn [m E]. unfold s_put_attrs. rewrite decide_False by (cbn; congruence). unfold mk, s_open_sub, s_with_subs, s_with_rels. cbn. f_equal.
    rewrite lookup_insert, insert_insert. cbn. rewrite E. cbn. rewrite map_empty_union. apply insert_id. exact E.
  Qed.
  Lemma sub_ne (n : gostr) (a : attrs) : s_subs t !! n = Some a -> n <> q0.
  Proof. intros H ->. rewrite q0_sub in H. discriminate. Qed.
  Lemma node_ne (n : gostr) (a : attrs) : s_nodes t !! n = Some a -> n <> q0.
  Proof. intros H ->. rewrite q0_node in H. discriminate. Qed.

  (** *** with additive calls only *)
  Section Adds.
    Hypothesis PL : placed t.
    Lemma grow_subs (S : gmap gostr attrs) : S ⊆ s_subs t -> exists R, R ⊆ s_rels t /\ Steps additive (mk ∅ [] [] ∅ ∅ ∅) (mk ∅ [] [] S R ∅).
    Proof.
      induction S as [|n a S E IH] using map_ind; intros Sub; [exists ∅; split; [set_solver|apply Steps_refl]|].
      destruct IH as (R & HR & St). { etransitivity; [|exact Sub]. apply insert_subseteq. exact E. }
      assert (Hn : s_subs t !! n = Some a) by (eapply lookup_weaken; [apply lookup_insert|exact Sub]).
      destruct (proj1 PL n (or_intror (ex_intro _ a Hn))) as [p Hp].
      exists ({[(p, n)]} ∪ R). split; [unfold is_child in Hp; set_solver|].
      eapply Steps_snoc; [exact St| |].
      - instantiate (1 := CAddSubGraph p n a). exact I.
      - rewrite <- (open_put ∅ [] [] S R ∅ p n a); [|eapply sub_ne; exact Hn|exact E].
        apply Sp_sub. exact (pl_subs t PT n a Hn).
    Qed.
    Lemma grow_nodes (S : gmap gostr attrs) (R0 : gset (gostr * gostr)) (o : list gostr) : R0 ⊆ s_rels t -> NoDup o -> (forall n, n ∈ o -> s_is_node t n) ->
      exists N R, R ⊆ s_rels t /\ (forall n, n ∈ o -> N !! n = s_nodes t !! n) /\ (forall n, n ∉ o -> N !! n = None) /\
        Steps additive (mk ∅ [] [] S R0 ∅) (mk N o [] S R ∅).
    Proof.
      intros HR0. induction o as [|n o IH] using rev_ind; intros ND Hin.
      - exists ∅, R0. split; [exact HR0|]. split; [intros n H; inversion H|]. split; [intros n _; apply lookup_empty|apply Steps_refl].
      - apply NoDup_app in ND. destruct ND as (ND & Hd & _).
        destruct IH as (N & R & HR & H1 & H2 & St); [exact ND|intros k Hk; apply Hin, elem_of_app; auto|].
        assert (Hno : n ∉ o) by (intros X; apply (Hd n X), elem_of_list_singleton; reflexivity).
        assert (Hn : s_is_node t n) by (apply Hin, elem_of_app; right; apply elem_of_list_singleton; reflexivity).
        destruct (proj1 PL n (or_introl Hn)) as [p Hp]. destruct Hn as [a Hn].
        exists (<[n := a]> N), ({[(p, n)]} ∪ R). split; [unfold is_child in Hp; set_solver|].
        split.
        { intros k Hk. destruct (decide (k = n)) as [->|Hkn]; [rewrite lookup_insert; congruence|]. rewrite lookup_insert_ne by congruence.
          apply H1. apply elem_of_app in Hk. rewrite elem_of_list_singleton in Hk. tauto. }
        split.
        { intros k Hk. rewrite elem_of_app, elem_of_list_singleton in Hk. rewrite lookup_insert_ne by (intros ->; tauto). apply H2. tauto. }
        eapply Steps_snoc; [exact St| |].
        + instantiate (1 := CAddNode p n a). exact I.
        + rewrite <- (put_node_mk N o [] S R ∅ p n a); [|apply H2; exact Hno]. apply Sp_node. exact (pl_nodes t PT n a Hn).
    Qed.
    Lemma grow_rels (R0 : gset (gostr * gostr)) (R : gset (gostr * gostr)) : R ⊆ s_rels t ->
      Steps additive (mk (s_nodes t) (s_order t) [] (s_subs t) R0 ∅) (mk (s_nodes t) (s_order t) [] (s_subs t) (R ∪ R0) ∅).
    Proof.
      induction R as [|(p, c) R E IH] using set_ind_L; intros Sub; [rewrite union_empty_l_L; apply Steps_refl|].
      assert (Hc : (p, c) ∈ s_rels t) by set_solver.
      assert (St : Steps additive (mk (s_nodes t) (s_order t) [] (s_subs t) R0 ∅) (mk (s_nodes t) (s_order t) [] (s_subs t) (R ∪ R0) ∅)) by (apply IH; set_solver).
      replace ({[(p, c)]} ∪ R ∪ R0) with ({[(p, c)]} ∪ (R ∪ R0)) by set_solver.
      destruct (proj2 PL p c Hc) as [Hn|[a Hs]].
      - eapply Steps_snoc; [exact St| |].
        + instantiate (1 := CAddNode p c ∅). exact I.
        + rewrite <- (put_node_old _ _ _ _ _ _ p c Hn). apply Sp_node. apply all_valid_empty.
      - eapply Steps_snoc; [exact St| |].
        + instantiate (1 := CAddSubGraph p c ∅). exact I.
        + rewrite <- (open_put_old _ _ _ _ _ _ p c (sub_ne c a Hs) (ex_intro _ a Hs)). apply Sp_sub. apply all_valid_empty.
    Qed.
  End Adds.
  Lemma nodes_full (N : gmap gostr attrs) : (forall n, n ∈ s_order t -> N !! n = s_nodes t !! n) -> (forall n, n ∉ s_order t -> N !! n = None) -> N = s_nodes t.
  Proof.
    intros H1 H2. apply map_eq. intros n. destruct (decide (n ∈ s_order t)) as [H|H]; [apply H1; exact H|]. rewrite H2 by exact H.
    destruct (s_nodes t !! n) as [a|] eqn:E; [|reflexivity]. exfalso. apply H, (pl_order t PT). exists a. exact E.
  Qed.
  Lemma build_end : Steps additive (mk (s_nodes t) (s_order t) [] (s_subs t) (s_rels t) ∅) t.
  Proof.
    eapply Steps_trans; [apply build_attrs, (pl_attrs t PT)|]. eapply Steps_trans; [apply build_edges, (pl_edges t PT)|].
    eapply Steps_one; [instantiate (1 := CSetName (s_name t)); exact I|].
    assert (H : forall u, u = SGraph (s_name t) (s_directed t) (s_strict t) (s_attrs t) (s_nodes t) (s_order t) (s_edges t) (s_subs t) (s_rels t) ->
      spec_call (CSetName (s_name t)) (mk (s_nodes t) (s_order t) (s_edges t) (s_subs t) (s_rels t) (s_attrs t)) u None).
    { intros u ->. apply (Sp_name (s_name t) (mk (s_nodes t) (s_order t) (s_edges t) (s_subs t) (s_rels t) (s_attrs t))). }
    apply H. destruct t. reflexivity.
  Qed.
  Lemma build_adds : placed t -> Steps additive s_empty t.
  Proof.
    intros PL. eapply Steps_trans; [apply build_start|].
    destruct (grow_subs PL (s_subs t)) as (R1 & HR1 & S1); [reflexivity|]. eapply Steps_trans; [exact S1|].
    destruct (grow_nodes PL (s_subs t) R1 (s_order t) HR1 (pl_nodup t PT)) as (N & R2 & HR2 & H1 & H2 & S2).
    { intros n Hn. apply (pl_order t PT). exact Hn. }
    rewrite (nodes_full N H1 H2) in S2. eapply Steps_trans; [exact S2|].
    eapply Steps_trans; [apply (grow_rels PL R2 (s_rels t)); reflexivity|].
    replace (s_rels t ∪ R2) with (s_rels t) by set_solver. apply build_end.
  Qed.

  (** *** with all calls *)
  Definition anyc (c : call) : Prop := True.
  Lemma drop_none s p : s_drop_nodes s p ∅ = s.
  Proof.
    destruct s as [nm d st a N o es S R]. unfold s_drop_nodes. cbn. f_equal.
    - apply map_filter_id. intros k x _. set_solver.
    - induction o as [|x o IH]; [reflexivity|]. rewrite filter_cons_True by set_solver. rewrite IH. reflexivity.
    - induction es as [|x es IH]; [reflexivity|]. rewrite filter_cons_True by (unfold avoids; set_solver). rewrite IH. reflexivity.
    - apply set_eq. intros x. rewrite elem_of_filter. set_solver.
  Qed.
  (** a node without a parent *)
  Lemma free_node (N : gmap gostr attrs) (o : list gostr) (n : gostr) (m : attrs) : n <> q0 -> N !! n = None -> all_valid m ->
    Steps anyc (mk N o [] ∅ ∅ ∅) (mk (<[n := m]> N) (o ++ [n]) [] ∅ ∅ ∅).
  Proof.
    intros Hq E V. eapply Steps_snoc; [eapply Steps_one; [instantiate (1 := CAddNode q0 n m); exact I|]|instantiate (1 := CRemoveSubGraph q0 n); exact I|].
    - apply Sp_node. exact V.
    - rewrite put_node_mk by exact E. set (s1 := mk _ _ _ _ _ _).
      assert (H : forall u, u = (let s2 := s_drop_nodes s1 q0 ∅ in
         s_with_edges (s_with_subs (s_with_rels s2 (s_rels s2 ∖ {[(q0, n)]})) (delete n (s_subs s2))) (filter (avoids_sub n) (s_edges s2))) ->
         spec_call (CRemoveSubGraph q0 n) s1 u None).
      { intros u ->. apply (Sp_remove_sub q0 n s1 ∅).
        - intros c. unfold is_child, s1. cbn. split; [set_solver|]. intros Hc. exfalso. apply elem_of_union in Hc.
          destruct Hc as [[= -> _]%elem_of_singleton|Hc]; [congruence|set_solver].
        - intros c Hc. set_solver. }
      apply H. rewrite drop_none. unfold s1, mk, s_with_edges, s_with_subs, s_with_rels. cbn. rewrite delete_empty. f_equal. set_solver.
  Qed.
  Lemma free_nodes (o : list gostr) : NoDup o -> (forall n, n ∈ o -> s_is_node t n) ->
    exists N : gmap gostr attrs, (forall n, n ∈ o -> N !! n = s_nodes t !! n) /\ (forall n, n ∉ o -> N !! n = None) /\
      Steps anyc (mk ∅ [] [] ∅ ∅ ∅) (mk N o [] ∅ ∅ ∅).
  Proof.
    induction o as [|n o IH] using rev_ind; intros ND Hin.
    - exists ∅. split; [intros n H; inversion H|]. split; [intros n _; apply lookup_empty|apply Steps_refl].
    - apply NoDup_app in ND. destruct ND as (ND & Hd & _).
      destruct IH as (N & H1 & H2 & St); [exact ND|intros k Hk; apply Hin, elem_of_app; auto|].
      assert (Hno : n ∉ o) by (intros X; apply (Hd n X), elem_of_list_singleton; reflexivity).
      assert (Hn : s_is_node t n) by (apply Hin, elem_of_app; right; apply elem_of_list_singleton; reflexivity).
      destruct Hn as [a Hn]. exists (<[n := a]> N).
      split.
      { intros k Hk. destruct (decide (k = n)) as [->|Hkn]; [rewrite lookup_insert; congruence|]. rewrite lookup_insert_ne by congruence.
        apply H1. apply elem_of_app in Hk. rewrite elem_of_list_singleton in Hk. tauto. }
      split.
      { intros k Hk. rewrite elem_of_app, elem_of_list_singleton in Hk. rewrite lookup_insert_ne by (intros ->; tauto). apply H2. tauto. }
      eapply Steps_trans; [exact St|]. apply free_node; [eapply node_ne; exact Hn|apply H2; exact Hno|exact (pl_nodes t PT n a Hn)].
  Qed.
  (** a name that is not a node gets the parent [q0] by a call and loses it again *)
  Lemma visit_node (S : gmap gostr attrs) (R : gset (gostr * gostr)) (n p : gostr) : ~ s_is_node t n ->
    Steps anyc (mk (s_nodes t) (s_order t) [] S R ∅) (mk (s_nodes t) (s_order t) [] S (filter (fun pc => pc <> (p, n)) R) ∅).
  Proof.
    intros Hn. assert (E : s_nodes t !! n = None) by (destruct (s_nodes t !! n) eqn:X; [destruct Hn; unfold s_is_node; eauto|reflexivity]).
    eapply Steps_snoc; [eapply Steps_one; [instantiate (1 := CAddNode p n ∅); exact I|]|instantiate (1 := CRemoveNode p n); exact I|].
    - apply Sp_node. apply all_valid_empty.
    - rewrite put_node_mk by exact E. set (s1 := mk _ _ _ _ _ _).
      assert (H : forall u, u = s_drop_nodes s1 p {[n]} -> spec_call (CRemoveNode p n) s1 u None).
      { intros u ->. apply Sp_remove_node. exists ∅. cbn. apply lookup_insert. }
      apply H. unfold s1, mk, s_drop_nodes. cbn. f_equal.
      + apply map_eq. intros k. destruct (decide (k = n)) as [->|Hk].
        * rewrite E. symmetry. apply map_filter_lookup_None. right. intros x _. cbn. set_solver.
        * destruct (s_nodes t !! k) as [a|] eqn:Ek; symmetry.
          -- apply map_filter_lookup_Some. rewrite lookup_insert_ne by congruence. split; [exact Ek|]. cbn. set_solver.
          -- apply map_filter_lookup_None. left. rewrite lookup_insert_ne by congruence. exact Ek.
      + rewrite filter_app. rewrite (filter_cons_False _ n []) by set_solver. cbn. rewrite app_nil_r.
        assert (Hno : n ∉ s_order t) by (intros X; apply Hn, (pl_order t PT); exact X).
        revert Hno. generalize (s_order t). intros l. induction l as [|x l IHl]; intros Hno; [reflexivity|].
        rewrite filter_cons_True by set_solver. f_equal. apply IHl. set_solver.
      + apply set_eq. intros [a b]. rewrite !elem_of_filter. cbn. split.
        * intros [H1 H2]. split; [|set_solver]. intros [-> ->%elem_of_singleton]. congruence.
        * intros [H1 H2]. apply elem_of_union in H2. destruct H2 as [[= -> ->]%elem_of_singleton|H2]; [destruct H1; set_solver|].
          split; [|exact H2]. intros [= -> ->]. apply H1. set_solver.
  Qed.
  Section All.
    Hypothesis BP : both_placed t.
    Lemma free_subs (S : gmap gostr attrs) : S ⊆ s_subs t ->
      exists R : gset (gostr * gostr), R ⊆ s_rels t /\ Steps anyc (mk (s_nodes t) (s_order t) [] ∅ ∅ ∅) (mk (s_nodes t) (s_order t) [] S R ∅).
    Proof.
      induction S as [|n a S E IH] using map_ind; intros Sub; [exists ∅; split; [set_solver|apply Steps_refl]|].
      destruct IH as (R & HR & St). { etransitivity; [|exact Sub]. apply insert_subseteq. exact E. }
      assert (Hn : s_subs t !! n = Some a) by (eapply lookup_weaken; [apply lookup_insert|exact Sub]).
      assert (Go : forall p, Steps anyc (mk (s_nodes t) (s_order t) [] ∅ ∅ ∅) (mk (s_nodes t) (s_order t) [] (<[n := a]> S) ({[(p, n)]} ∪ R) ∅)).
      { intros p. eapply Steps_snoc; [exact St|instantiate (1 := CAddSubGraph p n a); exact I|].
        rewrite <- (open_put (s_nodes t) (s_order t) [] S R ∅ p n a); [|eapply sub_ne; exact Hn|exact E].
        apply Sp_sub. exact (pl_subs t PT n a Hn). }
      destruct (s_nodes t !! n) as [x|] eqn:En.
      - destruct (BP n (ex_intro _ x En) (ex_intro _ a Hn)) as [p Hp]. exists ({[(p, n)]} ∪ R). split; [unfold is_child in Hp; set_solver|apply Go].
      - exists R. split; [exact HR|]. eapply Steps_trans; [apply (Go q0)|].
        replace R with (filter (fun pc => pc <> (q0, n)) ({[(q0, n)]} ∪ R)) at 2.
        + apply visit_node. unfold s_is_node. rewrite En. apply is_Some_None.
        + apply set_eq. intros pc. rewrite elem_of_filter. split; [set_solver|]. intros H. split; [|set_solver].
          intros ->. exact (q0_parent n (HR _ H)).
    Qed.
    Lemma free_rels (R0 R : gset (gostr * gostr)) : R0 ⊆ s_rels t -> R ⊆ s_rels t ->
      Steps anyc (mk (s_nodes t) (s_order t) [] (s_subs t) R0 ∅) (mk (s_nodes t) (s_order t) [] (s_subs t) (R ∪ R0) ∅).
    Proof.
      intros HR0. induction R as [|(p, c) R E IH] using set_ind_L; intros Sub; [rewrite union_empty_l_L; apply Steps_refl|].
      assert (Hc : (p, c) ∈ s_rels t) by set_solver.
      assert (St : Steps anyc (mk (s_nodes t) (s_order t) [] (s_subs t) R0 ∅) (mk (s_nodes t) (s_order t) [] (s_subs t) (R ∪ R0) ∅)) by (apply IH; set_solver).
      replace ({[(p, c)]} ∪ R ∪ R0) with ({[(p, c)]} ∪ (R ∪ R0)) by set_solver.
      destruct (s_nodes t !! c) as [x|] eqn:Ec.
      - eapply Steps_snoc; [exact St| |].
        + instantiate (1 := CAddNode p c ∅). exact I.
        + rewrite <- (put_node_old (s_nodes t) _ _ _ _ _ p c (ex_intro _ x Ec)). apply Sp_node. apply all_valid_empty.
      - (* AddNode(p, c), then RemoveNode(q0, c) *)
        eapply Steps_trans; [exact St|].
        eapply Steps_snoc; [eapply Steps_one; [instantiate (1 := CAddNode p c ∅); exact I|]|instantiate (1 := CRemoveNode q0 c); exact I|].
        + apply Sp_node. apply all_valid_empty.
        + rewrite put_node_mk by exact Ec. set (s1 := mk _ _ _ _ _ _).
          assert (H : forall u, u = s_drop_nodes s1 q0 {[c]} -> spec_call (CRemoveNode q0 c) s1 u None).
          { intros u ->. apply Sp_remove_node. exists ∅. cbn. apply lookup_insert. }
          apply H. unfold s1, mk, s_drop_nodes. cbn. f_equal.
          * apply map_eq. intros k. destruct (decide (k = c)) as [->|Hk].
            -- rewrite Ec. symmetry. apply map_filter_lookup_None. right. intros y _. cbn. set_solver.
            -- destruct (s_nodes t !! k) as [a|] eqn:Ek; symmetry.
               ++ apply map_filter_lookup_Some. rewrite lookup_insert_ne by congruence. split; [exact Ek|]. cbn. set_solver.
               ++ apply map_filter_lookup_None. left. rewrite lookup_insert_ne by congruence. exact Ek.
          * rewrite filter_app. rewrite (filter_cons_False _ c []) by set_solver. cbn. rewrite app_nil_r.
            assert (Hno : c ∉ s_order t). { intros X. apply (pl_order t PT) in X. unfold s_is_node in X. rewrite Ec in X. destruct (is_Some_None X). }
            revert Hno. generalize (s_order t). intros l. induction l as [|x l IHl]; intros Hno; [reflexivity|].
            rewrite filter_cons_True by set_solver. f_equal. apply IHl. set_solver.
          * apply set_eq. intros [a b]. rewrite elem_of_filter. cbn. split; [|tauto]. intros Hin. split; [|exact Hin].
            intros [-> _]. apply (q0_parent b). apply elem_of_union in Hin. destruct Hin as [[= -> ->]%elem_of_singleton|Hin]; [exact Hc|].
            set_solver.
    Qed.
    Lemma build_all : Steps anyc s_empty t.
    Proof.
      eapply Steps_trans; [eapply Steps_weaken; [|apply build_start]; intros c _; exact I|].
      destruct (free_nodes (s_order t) (pl_nodup t PT)) as (N & H1 & H2 & S1).
      { intros n Hn. apply (pl_order t PT). exact Hn. }
      rewrite (nodes_full N H1 H2) in S1. eapply Steps_trans; [exact S1|].
      destruct (free_subs (s_subs t)) as (R1 & HR1 & S2); [reflexivity|]. eapply Steps_trans; [exact S2|].
      eapply Steps_trans; [apply (free_rels R1 (s_rels t)); [exact HR1|reflexivity]|].
      replace (s_rels t ∪ R1) with (s_rels t) by set_solver. eapply Steps_weaken; [|apply build_end]. intros c _. exact I.
    Qed.
  End All.
End Build.
