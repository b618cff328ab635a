(** Property C62: how often things are written, and how long the text of a graph is. *)
From stdpp Require Import sorting.
From Verif Require Import Base Parser Maps Graph Direct AttrMap SpecGraph SpecDirect MapFacts GraphProofs DirectProofs Write SpecWrite EdgeOrder WriteProofs WriteFacts WriteFacts2
  SpecCount CountProofs PropsGraph PropsWrite.
From Verif Require Ast.
Local Arguments count : simpl never.

Lemma sublist_NoDup {A} (l k : list A) : sublist l k -> NoDup k -> NoDup l.
Proof.
  induction 1 as [|x l k H IH|x l k H IH]; intros N; [constructor| |]; apply NoDup_cons in N; destruct N as [N1 N2]; [|auto].
  constructor; [|auto]. intros E. apply N1. eapply elem_of_submseteq; [exact E|apply sublist_submseteq; exact H].
Qed.
Lemma inside_subs t t' : inside t t' -> match t' with Ast.SubGraph id _ => id ∈ subs_of t end.
Proof.
  intros I. induction I as [t|id body t t' HI I IH]; [destruct t; left|]. destruct t' as [id' body']. cbn [subs_of]. right.
  apply elem_of_list_In, in_flat_map. exists (Ast.SSub t). split; apply elem_of_list_In; [exact HI|exact IH].
Qed.
Lemma occurs_subs l t' : occurs l t' -> match t' with Ast.SubGraph id _ => id ∈ flat_map subs_in l end.
Proof.
  intros O. destruct t' as [id body]. apply elem_of_list_In, in_flat_map. destruct O as [t HI I|t rhs aa HI I|src op t aa HI I]; apply inside_subs in I;
    eexists; (split; [apply elem_of_list_In; exact HI|]); apply elem_of_list_In; cbn [subs_in subs_at flat_map]; rewrite ?elem_of_app; auto.
Qed.
Lemma write_law srt o g fuel a : fair o -> sorts (edge_less o) srt -> built g -> write_ast srt o g fuel = Ok a ->
  let s := view g in
  NoDup (top_subs a) /\ NoDup (top_nodes a) /\
  (forall n, n ∈ top_subs a -> is_child s (s_name s) n /\ s_is_sub s n) /\
  (forall n, ~ s_is_node s n ->
     count n (graph_subs a) = count n (top_subs a) + ends_top s (srt (s_edges s)) n + count_parents s n (graph_subs a)) /\
  (forall n, s_is_node s n -> count n (graph_subs a) = count n (top_subs a)) /\
  (forall n, s_is_node s n -> count n (graph_nodes a) = count n (top_nodes a) + count_parents s n (graph_subs a)).
Proof.
  intros Fo S R H s. rewrite (write_canon o g Fo (built_ok g R)) in H. fold s in H. apply c_write_ok in H.
  destruct H as (el & tops & ts & ns & -> & Fe & Ft & Sl & T & Q & Ens).
  unfold graph_subs, graph_nodes, top_subs, top_nodes. cbn [Ast.g_stmts]. rewrite !flat_map_app, attrs_no_subs, attrs_no_nodes.
  destruct (top_subs_edges s _ _ _ Fe) as [Z1 Z2]. destruct (top_subs_tops s _ _ _ Ft) as [Z3 Z4].
  destruct (count_nodes_map s ns []) as (_ & Z5 & Z6 & Z7). rewrite Z1, Z2, Z3, Z4, Z5, Z6, Z7, !app_nil_r. cbn [app].
  assert (A1 : forall l : list Ast.attr, flat_map (fun st => match st with Ast.SSub (Ast.SubGraph id _) => [id] | _ => [] end) (map Ast.SAttr l) = []) by (induction l; auto).
  assert (A2 : forall l : list Ast.attr, flat_map (fun st => match st with Ast.SNode n _ => [Ast.nid_id n] | _ => [] end) (map Ast.SAttr l) = []) by (induction l; auto).
  rewrite A1, A2. cbn [app].
  assert (L : forall n, law_sub s (ends_top s (srt (s_edges s)) n + count n tops) n (flat_map subs_in el ++ flat_map subs_in (map Ast.SSub ts)) /\
                        law_node s n (flat_map subs_in el ++ flat_map subs_in (map Ast.SSub ts)) (flat_map nodes_in el ++ flat_map nodes_in (map Ast.SSub ts))).
  { intros n. destruct (edges_law s _ _ _ Fe n) as [E1 E2]. destruct (tops_law s _ _ _ Ft n) as [T1 T2]. unfold law_sub, law_node in *.
    rewrite !count_app, count_parents_app. split; [rewrite E1, T1; destruct (decide _); lia|]. intros N. rewrite (E2 N), (T2 N). reflexivity. }
  split; [eapply sublist_NoDup; [exact Sl|apply NoDup_sorted]|].
  split; [rewrite Ens; apply NoDup_filter, NoDup_sorted|].
  split; [intros n Hn; destruct (T n Hn) as (T1 & T2 & _); auto|].
  split; [|split].
  - intros n N. destruct (L n) as [L1 _]. unfold law_sub in L1. rewrite decide_False in L1 by exact N. rewrite L1. lia.
  - intros n N. destruct (L n) as [L1 _]. unfold law_sub in L1. rewrite decide_True in L1 by exact N. rewrite L1.
    rewrite ends_top_count, decide_True by (left; exact N). lia.
  - intros n N. destruct (L n) as [_ L2]. destruct (count_nodes_map s ns n) as (C & _). rewrite app_assoc, count_app, C, (L2 N). lia.
Qed.
Lemma ends_perm srt s n : srt (s_edges s) ≡ₚ s_edges s ->
  ends_top s (srt (s_edges s)) n = if decide (is_Some (s_nodes s !! n) \/ has_prefix n (lit "cluster") = true) then 0 else count_ends s n.
Proof.
  intros P. rewrite ends_top_count. destruct (decide _); [reflexivity|]. unfold count_ends, count.
  rewrite (Permutation_length (filter_Permutation _ _ _ (fmap_Permutation e_src _ _ P))).
  rewrite (Permutation_length (filter_Permutation _ _ _ (fmap_Permutation e_dst _ _ P))). reflexivity.
Qed.

(** ** C62.  A subgraph has a statement for each statement of each of its parents, one for each edge that ends at it (unless its name
    starts with cluster), and at most one at the top level; a node has one for each statement of each of its parents, and at
    most one at the top level. *)
Theorem C62_count : forall srt o g fuel a, fair o -> sorts (edge_less o) srt -> built g -> write_ast srt o g fuel = Ok a ->
  let s := view g in
  NoDup (top_subs a) /\ NoDup (top_nodes a) /\
  (forall n, ~ s_is_node s n -> ~ cluster s n ->
     count n (graph_subs a) = count n (top_subs a) + count_ends s n + count_parents s n (graph_subs a)) /\
  (forall n, ~ s_is_node s n -> cluster s n ->
     count n (graph_subs a) = count n (top_subs a) + count_parents s n (graph_subs a)) /\
  (forall n, s_is_node s n -> count n (graph_subs a) = count n (top_subs a)) /\
  (forall n, s_is_node s n -> count n (graph_nodes a) = count n (top_nodes a) + count_parents s n (graph_subs a)).
Proof.
  intros srt o g fuel a Fo S R H s. destruct (write_law srt o g fuel a Fo S R H) as (H1 & H2 & H3 & H4 & H5 & H6). fold s in H3, H4, H5, H6.
  split; [exact H1|]. split; [exact H2|].
  pose proof (fun n => ends_perm srt s n (proj1 (S (s_edges s)))) as E.
  split; [|split; [|split; [exact H5|exact H6]]].
  - intros n N C. rewrite (H4 n N), E. destruct (decide (_ \/ _)) as [[D|D]|D]; [contradiction| |reflexivity].
    (* a name that starts with cluster but is no subgraph: no edge ends at it *)
    assert (count_ends s n = 0) as ->; [|reflexivity].
    destruct (decide (count_ends s n = 0)) as [Z|Z]; [exact Z|]. exfalso.
    assert (exists e, e ∈ s_edges s /\ (n = e_src e \/ n = e_dst e)) as (e & He & Hn).
    { unfold count_ends in Z. destruct (decide (0 < count n (map e_src (s_edges s)))) as [P|P]; [apply count_pos in P|
        assert (P' : 0 < count n (map e_dst (s_edges s))) by lia; apply count_pos in P'; clear P; rename P' into P];
      apply elem_of_list_fmap in P; destruct P as (e & -> & He); eauto. }
    rewrite (write_canon o g Fo (built_ok g R)) in H. fold s in H. apply c_write_ok in H. destruct H as (el & tops & ts & ns & _ & Fe & _).
    rewrite <- (proj1 (S (s_edges s))) in He. destruct (elem_of_list_lookup_1 _ _ He) as [i Hi].
    destruct (Forall2_lookup_l _ _ _ _ _ Fe Hi) as (st & _ & X). apply c_edge_shows in X. destruct X as (_ & X1 & X2).
    assert (Ns : ~ s_is_sub s n) by (intros Hs; apply C; split; [exact Hs|apply prefix_spec; exact D]).
    destruct Hn as [->| ->]; [apply X1|apply X2]; constructor; assumption.
  - intros n N C. rewrite (H4 n N), E, decide_True; [lia|]. right. apply prefix_spec. apply C.
Qed.
Print Assumptions C62_count.

(** Hence, in a graph where everything has at most one parent and edges end at nodes and clusters, every node and every written subgraph has exactly
    one statement. *)
Theorem C62_once : forall srt o g fuel a, fair o -> sorts (edge_less o) srt -> built g -> no_clash (view g) -> tree_like (view g) ->
  write_ast srt o g fuel = Ok a ->
  NoDup (graph_subs a) /\ NoDup (graph_nodes a) /\
  (forall n, written (view g) n -> n ∈ graph_subs a) /\ (forall n, s_is_node (view g) n -> n ∈ graph_nodes a).
Proof.
  intros srt o g fuel a Fo S R NC [U EN] H. pose proof (write_law srt o g fuel a Fo S R H) as (H1 & H2 & H3 & H4 & H5 & H6).
  pose proof (C32_complete srt o g fuel a Fo S R NC H) as (K1 & K2 & K3).
  set (s := view g) in *.
  assert (W : forall n, written s n -> n ∈ graph_subs a).
  { intros n Hn. destruct (K2 n Hn) as (t & Sh & O). apply occurs_subs in O. inversion Sh; subst. exact O. }
  assert (Ac : acyclic s).
  { rewrite (write_canon o g Fo (built_ok g R)) in H. eapply c_write_cyclic; [exact NC|apply (S (s_edges (view g)))|exact H]. }
  assert (Z : forall n, ends_top s (srt (s_edges s)) n = 0).
  { intros n. rewrite (ends_perm srt s n (proj1 (S (s_edges s)))). destruct (decide (_ \/ _)) as [D|D]; [reflexivity|].
    assert (D1 : ~ is_Some (s_nodes s !! n)) by tauto. assert (D2 : has_prefix n (lit "cluster") <> true) by tauto.
    assert (X : forall e, e ∈ s_edges s -> e_src e <> n /\ e_dst e <> n).
    { intros e He. split; intros <-.
      - destruct (EN (e_src e) (e_src_port e)) as [Y|[_ Y]]; [exists e; auto|exact (D1 Y)|apply prefix_spec in Y; contradiction].
      - destruct (EN (e_dst e) (e_dst_port e)) as [Y|[_ Y]]; [exists e; auto|exact (D1 Y)|apply prefix_spec in Y; contradiction]. }
    unfold count_ends. assert (count n (map e_src (s_edges s)) = 0 /\ count n (map e_dst (s_edges s)) = 0) as [-> ->]; [|reflexivity].
    split; apply count_zero; intros Y; apply elem_of_list_fmap in Y; destruct Y as (e & -> & He); destruct (X e He); congruence. }
  (* at most one parent *)
  assert (CP : forall n p l, is_child s p n -> count_parents s n l = count p l).
  { intros n p l C. unfold count_parents. assert (parents s n = [p]) as ->; [|cbn; unfold id; lia].
    pose proof (parents_nodup s n) as ND. pose proof (fun q => elem_of_parents s q n) as EP. apply EP in C.
    destruct (parents s n) as [|q [|q' r]].
    - apply elem_of_nil in C. contradiction.
    - apply elem_of_list_singleton in C. subst. reflexivity.
    - exfalso. apply NoDup_cons in ND. destruct ND as [ND _]. assert (q = q') as -> by (apply (U n); apply EP; [left|right; left]). apply ND. left. }
  assert (CP0 : forall n l, (forall p, ~ is_child s p n) -> count_parents s n l = 0).
  { intros n l C. unfold count_parents. destruct (parents s n) as [|p P] eqn:E; [reflexivity|]. destruct (C p). apply elem_of_parents. rewrite E. left. }
  assert (TN : forall n, n ∈ top_subs a -> ~ s_is_node s n).
  { intros n Hn N. destruct (H3 n Hn) as [Y1 Y2]. exact (NC n Y2 N Y1). }
  (* what is written comes from the top *)
  assert (FR : forall n, n ∈ graph_subs a -> exists r, r ∈ top_subs a /\ rtc (nested s) r n).
  { intros n Hn. rewrite (write_canon o g Fo (built_ok g R)) in H. apply c_write_ok in H. fold s in H.
    destruct H as (el & tops & ts & ns & Ea & Fe & Ft & _). rewrite Ea in Hn |- *. unfold graph_subs, top_subs in *. cbn [Ast.g_stmts] in *.
    rewrite !flat_map_app, attrs_no_subs in Hn. rewrite !flat_map_app. destruct (top_subs_tops s _ _ _ Ft) as [-> _].
    destruct (count_nodes_map s ns []) as (_ & Z5 & _). rewrite Z5, app_nil_r in Hn. cbn [app] in Hn. apply elem_of_app in Hn.
    assert (Hel : flat_map subs_in el = []).
    { destruct (flat_map subs_in el) as [|m l] eqn:E; [reflexivity|]. exfalso.
      assert (Hm : m ∈ flat_map subs_in el) by (rewrite E; left). clear E. apply elem_of_list_In, in_flat_map in Hm. destruct Hm as (st & Hst & Hm).
      apply elem_of_list_In in Hst. destruct (elem_of_list_lookup_1 _ _ Hst) as [i Hi]. destruct (Forall2_lookup_r _ _ _ _ _ Fe Hi) as (e & He & X).
      apply elem_of_list_lookup_2 in He. rewrite (proj1 (S (s_edges s))) in He. apply c_edge_shows in X. destruct X as [X _].
      inversion X as [src dst l' X1 X2]; subst. cbn [subs_in flat_map] in Hm. rewrite app_nil_r in Hm. apply in_app_or in Hm.
      assert (Q : forall nn port loc, shows_end s nn port loc -> (s_is_node s nn \/ cluster s nn) -> subs_at loc = []).
      { intros nn port loc Sh [Y|Y]; inversion Sh; subst; try reflexivity; contradiction. }
      rewrite (Q _ _ _ X1), (Q _ _ _ X2) in Hm; [destruct Hm as [[]|[]]| |]; eapply EN; exists e; (split; [exact He|auto]). }
    rewrite Hel in Hn. destruct Hn as [Hn|Hn]; [apply elem_of_nil in Hn; contradiction|].
    apply elem_of_list_In, in_flat_map in Hn. destruct Hn as (st & Hst & Hn). apply elem_of_list_In, elem_of_list_fmap in Hst. destruct Hst as (t & -> & Ht).
    destruct (elem_of_list_lookup_1 _ _ Ht) as [i Hi]. destruct (Forall2_lookup_r _ _ _ _ _ Ft Hi) as (r & Hr & X). apply elem_of_list_lookup_2 in Hr.
    exists r. split; [rewrite !elem_of_app; auto|]. eapply subs_reach; [exact X|]. apply elem_of_list_In. exact Hn. }
  assert (NM : s_name s ∉ graph_subs a).
  { intros Hm. destruct (FR _ Hm) as (r & Hr & P). destruct (H3 r Hr) as [Y1 Y2].
    apply (Ac (s_name s)); [exists r; split; [constructor 1; assumption|exact P]|].
    eapply tc_rtc_r; [|exact P]. apply tc_once. split; [exact Y1|]. split; [exact Y2|apply TN; exact Hr]. }
  assert (C1 : forall n, count n (graph_subs a) <= 1).
  { intros n. destruct (decide (0 < count n (graph_subs a))) as [P|P]; [|lia]. apply count_pos in P. destruct (FR n P) as (r & Hr & Q).
    apply rtc_nsteps in Q. destruct Q as (k & Q). clear P. revert n Q. induction k as [|k IH]; intros n Q.
    - inversion Q; subst. rewrite (H4 n (TN n Hr)), Z, (count_nodup n _ H1), decide_True by exact Hr. rewrite (CP n (s_name s)) by (apply H3; exact Hr).
      apply count_zero in NM. lia.
    - apply nsteps_inv_r in Q. destruct Q as (p & Q & (P1 & P2 & P3)). rewrite (H4 n P3), Z, (CP n p _ P1).
      destruct (decide (n ∈ top_subs a)) as [D|D].
      + assert (p = s_name s) as -> by (eapply U; [exact P1|apply H3; exact D]). apply count_zero in NM. rewrite (count_nodup n _ H1), decide_True by exact D. lia.
      + apply count_zero in D. specialize (IH p Q). lia. }
  assert (EX : forall n, s_is_node s n -> n ∈ graph_nodes a).
  { intros n N. destruct (K1 n N) as (st & Sh & O). assert (st = st /\ n ∈ nodes_in st) as [_ E].
    { split; [reflexivity|]. inversion Sh; subst; [left|contradiction]. }
    destruct O as [O|(id & body & O & B)].
    - apply elem_of_list_In, in_flat_map. exists st. split; apply elem_of_list_In; assumption.
    - assert (INn : forall t t', inside t t' -> match t' with Ast.SubGraph _ b => st ∈ b -> n ∈ nodes_of t end).
      { intros t t' I. induction I as [t|id' b' t t' HI I IH].
        - destruct t as [i b]. intros Hb. cbn [nodes_of]. apply elem_of_list_In, in_flat_map. exists st. split; apply elem_of_list_In; assumption.
        - destruct t' as [i b]. intros Hb. cbn [nodes_of]. apply elem_of_list_In, in_flat_map. exists (Ast.SSub t). split; apply elem_of_list_In; [exact HI|exact (IH Hb)]. }
      apply elem_of_list_In, in_flat_map. destruct O as [t HI I|t rhs aa HI I|src op t aa HI I]; pose proof (INn _ _ I B) as I';
      eexists; (split; [apply elem_of_list_In; exact HI|]); apply elem_of_list_In; cbn [nodes_in nodes_at flat_map]; rewrite ?elem_of_app; auto. }
  split; [apply nodup_count; exact C1|]. split; [|split; [exact W|exact EX]].
  apply nodup_count. intros n.
  destruct (decide (s_is_node s n)) as [N|N].
  - rewrite (H6 n N). destruct (decide (n ∈ top_nodes a)) as [D|D]; rewrite (count_nodup n _ H2); [rewrite decide_True by exact D|rewrite decide_False by exact D].
    + (* at the top: in no written subgraph *)
      assert (forall p, is_child s p n -> count p (graph_subs a) = 0) as Y.
      { intros p C. apply count_zero. intros Hp. destruct (FR p Hp) as (r & Hr & Q). destruct (H3 r Hr) as [Y1 Y2].
        assert (Wp : written s p) by (exists r; split; [constructor 1; assumption|exact Q]). destruct (K2 p Wp) as (t & Sh & O).
        inversion Sh as [n' aa l cs body Ha Hl Hc Fb]; subst. apply (proj2 Hc) in C. destruct (elem_of_list_lookup_1 _ _ C) as [i Hi].
        destruct (Forall2_lookup_l _ _ _ _ _ Fb Hi) as (st & Hst & Sn). apply elem_of_list_lookup_2 in Hst.
        inversion Sn as [n' a' l' Ha' Hl'|]; subst; [|contradiction].
        unfold top_nodes in D. apply elem_of_list_In, in_flat_map in D. destruct D as (st & Hd & Hn).
        destruct st as [nid al| | | | | |]; try destruct Hn as [Hn|[]]; try (destruct g0; contradiction); try contradiction.
        apply elem_of_list_In in Hd.
        rewrite (write_canon o g Fo (built_ok g R)) in H. apply c_write_ok in H. fold s in H. destruct H as (el & tops & ts & ns & Ea & Fe & Ft & _).
        assert (nid = Ast.NodeID n (Ast.Port [] [])) as ->.
        { rewrite Ea in Hd. cbn [Ast.g_stmts] in Hd. rewrite !elem_of_app in Hd. destruct Hd as [Hd|[Hd|[Hd|Hd]]].
          - apply elem_of_list_fmap in Hd. destruct Hd as (? & ? & _). discriminate.
          - destruct (elem_of_list_lookup_1 _ _ Hd) as [j Hj]. destruct (Forall2_lookup_r _ _ _ _ _ Fe Hj) as (e & _ & X). apply c_edge_shows in X. destruct X as [X _]. inversion X.
          - apply elem_of_list_fmap in Hd. destruct Hd as (? & ? & _). discriminate.
          - apply elem_of_list_fmap in Hd. destruct Hd as (m & Em & _). unfold c_node in Em. injection Em as -> _. cbn in Hn. subst. reflexivity. }
        apply (K3 (Ast.NodeID n (Ast.Port [] [])) al [l'] p (map Ast.SAttr l ++ body) Hd O). apply elem_of_app. right. exact Hst. }
      destruct (parents s n) as [|p P] eqn:Ep.
      * rewrite CP0; [lia|]. intros p C. apply elem_of_parents in C. rewrite Ep in C. apply elem_of_nil in C. contradiction.
      * assert (C : is_child s p n) by (apply elem_of_parents; rewrite Ep; left). rewrite (CP n p _ C), (Y p C). lia.
    + destruct (parents s n) as [|p P] eqn:Ep.
      * rewrite CP0; [lia|]. intros p C. apply elem_of_parents in C. rewrite Ep in C. apply elem_of_nil in C. contradiction.
      * assert (C : is_child s p n) by (apply elem_of_parents; rewrite Ep; left). rewrite (CP n p _ C). specialize (C1 p). lia.
  - (* only nodes have node statements *)
    assert (n ∉ graph_nodes a) as Y; [|apply count_zero in Y; lia]. intros Hn. apply N. clear N.
    rewrite (write_canon o g Fo (built_ok g R)) in H. apply c_write_ok in H. fold s in H. destruct H as (el & tops & ts & ns & Ea & Fe & Ft & _ & _ & _ & Ens).
    rewrite Ea in Hn. unfold graph_nodes in Hn. cbn [Ast.g_stmts] in Hn. rewrite !flat_map_app, attrs_no_nodes in Hn. cbn [app] in Hn. rewrite !elem_of_app in Hn.
    destruct Hn as [Hn|[Hn|Hn]].
    + apply elem_of_list_In, in_flat_map in Hn. destruct Hn as (st & Hst & Hn). apply elem_of_list_In in Hst, Hn.
      destruct (elem_of_list_lookup_1 _ _ Hst) as [i Hi]. destruct (Forall2_lookup_r _ _ _ _ _ Fe Hi) as (e & _ & X). unfold c_edge in X.
      destruct (c_end s fuel (e_src e) (e_src_port e)) eqn:X1; cbn [bind] in X; try discriminate.
      destruct (c_end s fuel (e_dst e) (e_dst_port e)) eqn:X2; cbn [bind] in X; try discriminate. injection X as <-.
      cbn [nodes_in flat_map] in Hn. rewrite app_nil_r in Hn. apply elem_of_app in Hn. destruct Hn as [Hn|Hn]; [exact (end_nodes_are s _ _ _ _ _ X1 Hn)|exact (end_nodes_are s _ _ _ _ _ X2 Hn)].
    + apply elem_of_list_In, in_flat_map in Hn. destruct Hn as (st & Hst & Hn). apply elem_of_list_In, elem_of_list_fmap in Hst. destruct Hst as (t & -> & Ht).
      destruct (elem_of_list_lookup_1 _ _ Ht) as [i Hi]. destruct (Forall2_lookup_r _ _ _ _ _ Ft Hi) as (r & _ & X).
      eapply nodes_are; [exact X|]. apply elem_of_list_In. exact Hn.
    + destruct (count_nodes_map s ns n) as (C & _). assert (P : n ∈ ns) by (apply count_pos; rewrite <- C; apply count_pos; exact Hn).
      rewrite Ens in P. apply elem_of_list_filter in P. apply nodes_listed. apply P.
Qed.
Print Assumptions C62_once.
