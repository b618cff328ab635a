(** The specification of SpecGraph is tight: every behaviour it allows is produced by some
    iteration order. *)
From Verif Require Import Maps Graph SpecGraph MapFacts GraphProofs Direct SpecDirect DirectProofs PropsGraph.

Definition o_first (m : attrs) (l : list (gostr * gostr)) : oracle :=
  Oracle (fun _ m' => if decide (m' = m) then l else map_to_list m') (fun _ s => elements s).
Lemma o_first_fair m l : l ≡ₚ map_to_list m -> fair (o_first m l).
Proof. intros P. split; intros; cbn; [|reflexivity]. destruct (decide (m0 = m)) as [->|]; [exact P|reflexivity]. Qed.
Lemma o_first_eq m l i : o_attrs (o_first m l) i m = l.
Proof. cbn. apply decide_True. reflexivity. Qed.
Definition o_nfirst (s : names) (l : list gostr) : oracle :=
  Oracle (fun _ m => map_to_list m) (fun _ s' => if decide (s' = s) then l else elements s').
Lemma o_nfirst_fair s l : l ≡ₚ elements s -> fair (o_nfirst s l).
Proof. intros P. split; intros; cbn; [reflexivity|]. destruct (decide (s0 = s)) as [->|]; [exact P|reflexivity]. Qed.
Lemma o_nfirst_eq s l i : o_names (o_nfirst s l) i s = l.
Proof. cbn. apply decide_True. reflexivity. Qed.

Lemma attrs_split (m m' : attrs) k v : m' ⊆ m -> m !! k = Some v -> m' !! k = None ->
  exists r, map_to_list m' ++ (k, v) :: r ≡ₚ map_to_list m.
Proof.
  intros S H N. exists (map_to_list (delete k m ∖ m')).
  apply NoDup_Permutation.
  - apply NoDup_app. split; [apply NoDup_map_to_list|]. split.
    + intros [i x] Hx. apply elem_of_map_to_list in Hx. rewrite elem_of_cons, elem_of_map_to_list. intros [[= -> ->]|Hd]; [congruence|].
      apply lookup_difference_Some in Hd. destruct Hd. congruence.
    + apply NoDup_cons. split; [|apply NoDup_map_to_list]. rewrite elem_of_map_to_list. intros Hd. apply lookup_difference_Some in Hd.
      destruct Hd as [Hd _]. rewrite lookup_delete in Hd. discriminate.
  - apply NoDup_map_to_list.
  - intros [i x]. rewrite elem_of_app, elem_of_cons, !elem_of_map_to_list. rewrite lookup_difference_Some, lookup_delete_Some. split.
    + intros [Hx|[[= -> ->]|[[_ Hx] _]]]; [eapply lookup_weaken; eauto|exact H|exact Hx].
    + intros Hx. destruct (decide (i = k)) as [->|Hn]; [right; left; congruence|]. destruct (m' !! i) as [y|] eqn:E.
      * left. rewrite <- Hx. symmetry. rewrite Hx. pose proof (lookup_weaken _ _ _ _ E S). congruence.
      * right; right. split; [split; congruence|reflexivity].
Qed.
Lemma bad_attr_split m e : bad_attr m e -> exists k v r, (k, v) :: r ≡ₚ map_to_list m /\ ~ valid_attr k /\ e = k ++ lit " is not a valid attribute".
Proof.
  intros (k & v & H1 & H2 & ->). destruct (attrs_split m ∅ k v) as [r Hr]; [apply map_empty_subseteq|exact H1|apply lookup_empty|].
  rewrite map_to_list_empty in Hr. exists k, v, r. auto.
Qed.
Lemma new_attrs_bad k v r : ~ valid_attr k -> new_attrs ((k, v) :: r) = inr (k ++ lit " is not a valid attribute").
Proof. intros H. unfold new_attrs. cbn [new_attrs_loop]. rewrite attrs_add_spec, decide_False by exact H. reflexivity. Qed.

Lemma prefix_unique {A} (P : A -> Prop) l1 l2 l1' x l2' : l1 ++ l2 = l1' ++ x :: l2' ->
  Forall P l1 -> Forall P l1' -> ~ P x -> (match l2 with [] => True | y :: _ => ~ P y end) -> l1 = l1' /\ l2 = x :: l2'.
Proof.
  revert l1'. induction l1 as [|a l1 IH]; intros [|b l1'] E F1 F2 Hx H2; cbn in E.
  - auto.
  - subst l2. inversion F2; contradiction.
  - injection E as -> _. inversion F1; contradiction.
  - injection E as -> E. inversion F1; inversion F2; subst. destruct (IH l1' E) as [-> ->]; auto.
Qed.

Theorem spec_tight `{!accepts PA} c g s' r : graph_okP PA g -> spec_call c (view g) s' r ->
  exists o, fair o /\ view (exec o c g).1 = s' /\ (exec o c g).2 = r.
Proof.
  intros OK H.
  assert (Det : (exists o, fair o /\ robust c r /\ (r = None \/ (exec o c g).2 = r)) -> exists o, fair o /\ view (exec o c g).1 = s' /\ (exec o c g).2 = r).
  { intros (o & Fo & Rb & Er). exists o. split; [exact Fo|]. destruct (exec_ok o c g Fo OK) as [_ S].
    destruct (spec_det c (view g) s' _ r _ H S Rb) as [E1 E2]. split; [congruence|]. destruct Er as [->|Er]; [|exact Er].
    apply E2. reflexivity. }
  remember (view g) as s eqn:Es. destruct H; subst.
  all: try (apply Det; exists o_id; split; [apply fair_id|]; split; [right; reflexivity|left; reflexivity]).
  - destruct (bad_attr_split m e) as (k & v & rest & P & V & ->); [assumption|]. apply Det. exists (o_first m ((k, v) :: rest)).
    split; [apply o_first_fair; exact P|]. split; [left; exact I|]. right. cbn [exec]. unfold add_port_edge.
    rewrite o_first_eq, new_attrs_bad by exact V. reflexivity.
  - destruct (bad_attr_split m e) as (k & v & rest & P & V & ->); [assumption|]. apply Det. exists (o_first m ((k, v) :: rest)).
    split; [apply o_first_fair; exact P|]. split; [left; exact I|]. right. cbn [exec]. unfold add_edge, add_port_edge.
    rewrite o_first_eq, new_attrs_bad by exact V. reflexivity.
  - destruct (bad_attr_split m e) as (k & v & rest & P & V & ->); [assumption|]. apply Det. exists (o_first m ((k, v) :: rest)).
    split; [apply o_first_fair; exact P|]. split; [left; exact I|]. right. cbn [exec]. unfold add_node.
    rewrite o_first_eq, new_attrs_bad by exact V. reflexivity.
  - apply Det. exists o_id. split; [apply fair_id|]. split; [left; exact I|]. right. cbn [exec].
    destruct (add_attr_spec g n f v OK) as [[? ->]|[(? & ? & ? & -> & _)|(? & ? & ? & -> & _)]]; try contradiction; reflexivity.
  - apply Det. exists o_id. split; [apply fair_id|]. split; [left; exact I|]. right. cbn [exec].
    destruct (add_attr_spec g n f v OK) as [[? ->]|[([?|?] & _)|([?|?] & _)]]; try contradiction; reflexivity.
  - clear Det. destruct H as (k & v & B1 & B2 & ->).
    destruct (attrs_split m m' k v) as [rest P]; [assumption|exact B1| |].
    { destruct (m' !! k) as [x|] eqn:E; [|reflexivity]. match goal with V : all_valid m' |- _ => destruct (B2 (V k x E)) end. }
    exists (o_first m (map_to_list m' ++ (k, v) :: rest)). split; [apply o_first_fair; exact P|]. cbn [exec]. unfold add_subgraph.
    rewrite o_first_eq.
    pose proof (ok_sub o_id g p n ∅ fair_id OK) as Hs. unfold add_subgraph in Hs.
    change (o_attrs o_id 0 ∅) with (map_to_list (∅ : attrs)) in Hs. rewrite map_to_list_empty in Hs. cbn [add_attrs_loop] in Hs.
    set (g2 := with_subs _ _) in *. clearbody g2. destruct Hs as [OK2 Hs].
    assert (E2 : view g2 = s_open_sub (view g) p n).
    { remember (view g2) as s2 eqn:Es2. inversion Hs; subst.
      apply put_attrs_empty. right. unfold s_is_sub. cbn. rewrite lookup_insert. eauto. }
    assert (Ha : has_attrs (view g2) n).
    { rewrite E2. right. unfold s_is_sub. cbn. rewrite lookup_insert. eauto. }
    destruct (add_attrs_loop_spec n (map_to_list m' ++ (k, v) :: rest) g2 OK2 Ha) as (l1 & l2 & E & F & O & Ev & R).
    { rewrite P. apply NoDup_fst_map_to_list. }
    symmetry in E. apply (prefix_unique (fun kv => valid_attr kv.1)) in E; [|exact F|apply all_valid_spec; assumption|exact B2|destruct l2 as [|? ?]; [exact I|apply R]].
    destruct E as [-> ->]. destruct R as [_ R]. split; [|exact R]. rewrite Ev, E2, list_to_map_to_list. reflexivity.
  - apply Det. exists o_id. split; [apply fair_id|]. split; [left; exact I|]. right. cbn [exec].
    destruct (remove_node_spec g p n OK) as [[? ->]|(? & _)]; [reflexivity|contradiction].
  - clear Det. set (ch := children (g_rels g) n).
    assert (Sub : exists rest, elements N ++ c :: rest ≡ₚ elements ch).
    { exists (elements (ch ∖ {[c]} ∖ N)). assert (Hc : c ∈ ch) by (apply view_child; assumption).
      assert (D : ch = N ∪ ({[c]} ∪ (ch ∖ {[c]} ∖ N))).
      { apply set_eq. intros x. rewrite !elem_of_union, !elem_of_difference, !elem_of_singleton. split.
        - intros Hx. destruct (decide (x ∈ N)); [auto|]. destruct (decide (x = c)); auto.
        - intros [Hx|[->|[[Hx _] _]]]; auto. match goal with G : forall c, c ∈ N -> _ |- _ => apply G in Hx; destruct Hx as [Hx _]; apply view_child in Hx; exact Hx end. }
      assert (Nc : c ∉ N). { intros Hx. match goal with G : forall c, c ∈ N -> _ |- _ => apply G in Hx; destruct Hx; contradiction end. }
      rewrite D at 2. rewrite elements_disj_union by set_solver. rewrite elements_disj_union by set_solver.
      rewrite elements_singleton. reflexivity. }
    destruct Sub as [rest P]. exists (o_nfirst ch (elements N ++ c :: rest)). split; [apply o_nfirst_fair; exact P|].
    cbn [exec]. unfold remove_subgraph. fold ch. rewrite o_nfirst_eq.
    destruct (remove_nodes_loop_spec p (elements N ++ c :: rest) g OK) as (l1 & l2 & E & F & O & Ev & R).
    { rewrite P. apply NoDup_elements. }
    symmetry in E. apply (prefix_unique (s_is_node (view g))) in E.
    2: { apply Forall_forall. exact F. }
    2: { apply Forall_forall. intros x Hx. apply elem_of_elements in Hx. match goal with G : forall c, c ∈ N -> _ |- _ => apply G in Hx; destruct Hx; assumption end. }
    2: { assumption. }
    2: { destruct l2 as [|? ?]; [exact I|apply R]. }
    destruct E as [-> ->]. destruct R as [_ R].
    destruct (remove_nodes_loop g p (elements N ++ c :: rest)) as [g1 r1]. cbn [fst snd] in *. rewrite R. cbn [fst snd].
    split; [|reflexivity]. rewrite Ev. f_equal. apply set_eq. intros x. rewrite elem_of_list_to_set, elem_of_elements. reflexivity.
Qed.

(** C23, the other direction: for every graph and call, each outcome that SpecGraph allows is
    produced under some iteration order; SpecGraph.spec_call is exactly the behaviour of the API. *)
Theorem C23_spec_exact : forall c g s' r, built g ->
  spec_call c (view g) s' r <-> exists o, fair o /\ view (exec o c g).1 = s' /\ (exec o c g).2 = r.
Proof.
  intros c g s' r R. pose proof (built_ok g R) as OK. split; [apply (@spec_tight _ accepts_any); exact OK|].
  intros (o & Fo & <- & <-). apply (@exec_ok _ accepts_any); assumption.
Qed.
Print Assumptions C23_spec_exact.
