(** Proofs for C75: calls commute with replacing names, ports and values. *)
From Verif Require Import Base Maps MapFacts Graph SpecGraph GraphProofs SpecLabel.

Lemma filter_map' {A B} (f : A -> B) (P : A -> Prop) (Q : B -> Prop) `{HP : forall x, Decision (P x)} `{HQ : forall x, Decision (Q x)} (l : list A) :
  (forall x, x ∈ l -> Q (f x) <-> P x) -> filter Q (map f l) = map f (filter P l).
Proof.
  induction l as [|x l IH]; intros H; [reflexivity|]. cbn [map]. rewrite !filter_cons.
  assert (E : filter Q (map f l) = map f (filter P l)) by (apply IH; intros y Hy; apply H; right; exact Hy).
  pose proof (H x (elem_of_list_here _ _)). destruct (decide (P x)), (decide (Q (f x))); try tauto; rewrite E; reflexivity.
Qed.

Section Label.
  Variables nm pt vl : gostr -> gostr.
  Context {HI : Inj (=) (=) nm}.
  Notation LA := (lb_attrs vl).
  Notation LT := (lb_table nm vl).
  Notation LE := (lb_edge nm pt vl).
  Notation LG := (lb_graph nm pt vl).
  Notation LC := (lb_call nm pt vl).

  Lemma la_union m m' : LA (m ∪ m') = LA m ∪ LA m'.
  Proof. unfold lb_attrs. apply map_eq. intros k. rewrite lookup_fmap, !lookup_union, !lookup_fmap. by destruct (m !! k), (m' !! k). Qed.
  Lemma la_single f v : LA {[f := v]} = {[f := vl v]}.
  Proof. apply map_fmap_singleton. Qed.
  Lemma la_empty : LA ∅ = ∅.
  Proof. apply fmap_empty. Qed.
  Lemma la_valid m : all_valid (LA m) <-> all_valid m.
  Proof.
    split; intros H k v E.
    - apply (H k (vl v)). unfold lb_attrs. by rewrite lookup_fmap, E.
    - unfold lb_attrs in E. rewrite lookup_fmap in E. destruct (m !! k) as [w|] eqn:Ek; [|discriminate]. exact (H k w Ek).
  Qed.
  Lemma la_bad m e : bad_attr m e -> bad_attr (LA m) e.
  Proof. intros (k & v & E & N & ->). exists k, (vl v). unfold lb_attrs. rewrite lookup_fmap, E. auto. Qed.
  Lemma bad_text m e : bad_attr m e -> lb_error nm e e.
  Proof. intros (k & v & _ & _ & ->). constructor. Qed.

  Lemma lt_lookup (m : gmap gostr attrs) n : LT m !! nm n = LA <$> m !! n.
  Proof. unfold lb_table. rewrite (lookup_kmap nm). apply lookup_fmap. Qed.
  Lemma lt_some (m : gmap gostr attrs) n' x : LT m !! n' = Some x -> exists n a, n' = nm n /\ m !! n = Some a /\ x = LA a.
  Proof.
    unfold lb_table. intros H. apply (lookup_kmap_Some nm) in H. destruct H as (n & -> & H). rewrite lookup_fmap in H.
    destruct (m !! n) as [a|] eqn:E; [|discriminate]. injection H as <-. eauto.
  Qed.
  Lemma lt_is (m : gmap gostr attrs) n : is_Some (LT m !! nm n) <-> is_Some (m !! n).
  Proof. rewrite lt_lookup. destruct (m !! n); cbn; split; intros [x H]; eauto; discriminate. Qed.
  Lemma lt_insert (m : gmap gostr attrs) n a : LT (<[n := a]> m) = <[nm n := LA a]> (LT m).
  Proof. unfold lb_table. rewrite fmap_insert. apply (kmap_insert nm). Qed.
  Lemma lt_delete (m : gmap gostr attrs) n : LT (delete n m) = delete (nm n) (LT m).
  Proof. unfold lb_table. rewrite fmap_delete. apply (kmap_delete nm). Qed.
  Lemma lt_default (m : gmap gostr attrs) n : default ∅ (LT m !! nm n) = LA (default ∅ (m !! n)).
  Proof. rewrite lt_lookup. destruct (m !! n); cbn; [reflexivity|]. symmetry. apply la_empty. Qed.
  Lemma in_image (N : names) n : nm n ∈ (set_map nm N : names) <-> n ∈ N.
  Proof. rewrite elem_of_map. split; [intros (x & E & H); apply HI in E; by subst|eauto]. Qed.
  Lemma lt_filter (m : gmap gostr attrs) (N : names) : LT (filter (fun kv => kv.1 ∉ N) m) = filter (fun kv => kv.1 ∉ (set_map nm N : names)) (LT m).
  Proof.
    apply map_eq. intros k. apply option_eq. intros x. split.
    - intros H. apply lt_some in H. destruct H as (n & a & -> & H & ->). apply map_filter_lookup_Some in H. destruct H as [H1 H2].
      apply map_filter_lookup_Some. split; [by rewrite lt_lookup, H1|]. cbn in *. by rewrite in_image.
    - intros H. apply map_filter_lookup_Some in H. destruct H as [H1 H2]. apply lt_some in H1. destruct H1 as (n & a & -> & H1 & ->).
      rewrite lt_lookup. cbn in H2. rewrite in_image in H2. assert (E : filter (fun kv => kv.1 ∉ N) m !! n = Some a) by (apply map_filter_lookup_Some; auto).
      by rewrite E.
  Qed.

  Lemma lg_child s p c : is_child (LG s) (nm p) (nm c) <-> is_child s p c.
  Proof.
    unfold is_child. cbn. rewrite elem_of_map. split.
    - intros ([p' c'] & E & H). cbn in E. injection E as E1 E2. apply HI in E1. apply HI in E2. by subst.
    - intros H. exists (p, c). auto.
  Qed.
  Lemma lg_child_inv s p' c' : is_child (LG s) p' c' -> exists p c, p' = nm p /\ c' = nm c /\ is_child s p c.
  Proof. unfold is_child. cbn. intros H. apply elem_of_map in H. destruct H as ([p c] & E & H). cbn in E. injection E as -> ->. eauto. Qed.
  Lemma lg_node s n : s_is_node (LG s) (nm n) <-> s_is_node s n.
  Proof. apply lt_is. Qed.
  Lemma lg_sub s n : s_is_sub (LG s) (nm n) <-> s_is_sub s n.
  Proof. apply lt_is. Qed.

  Lemma lg_with_edges s es : LG (s_with_edges s es) = s_with_edges (LG s) (map LE es).
  Proof. reflexivity. Qed.
  Lemma lg_add_pair s p c : (set_map (fun pc => (nm pc.1, nm pc.2)) ({[(p, c)]} ∪ s_rels s) : gset (gostr * gostr)) =
    {[(nm p, nm c)]} ∪ set_map (fun pc => (nm pc.1, nm pc.2)) (s_rels s).
  Proof. rewrite set_map_union_L, set_map_singleton_L. reflexivity. Qed.
  Lemma lg_put_node s p n m : LG (s_put_node s p n m) = s_put_node (LG s) (nm p) (nm n) (LA m).
  Proof.
    unfold s_put_node, lb_graph. cbn. rewrite lt_insert, la_union, lt_default, lg_add_pair, lt_lookup. f_equal.
    destruct (s_nodes s !! n); cbn; [reflexivity|]. rewrite map_app. reflexivity.
  Qed.
  Lemma lg_put_attrs s n m : LG (s_put_attrs s n m) = s_put_attrs (LG s) (nm n) (LA m).
  Proof.
    unfold s_put_attrs. destruct (decide (s_name s = n)) as [<-|N].
    - rewrite decide_True by reflexivity. unfold lb_graph, s_with_attrs. cbn. rewrite la_union. reflexivity.
    - rewrite decide_False by (cbn; intros E; apply HI in E; contradiction). unfold lb_graph, s_with_subs. cbn. rewrite lt_insert, la_union, lt_default. reflexivity.
  Qed.
  Lemma lg_open s p n : LG (s_open_sub s p n) = s_open_sub (LG s) (nm p) (nm n).
  Proof. unfold s_open_sub, lb_graph, s_with_subs, s_with_rels. cbn. rewrite lt_insert, lt_default, lg_add_pair. reflexivity. Qed.
  Lemma lg_drop (s : sgraph) (p : gostr) (N : names) : LG (s_drop_nodes s p N) = s_drop_nodes (LG s) (nm p) (set_map nm N).
  Proof.
    unfold s_drop_nodes, lb_graph. cbn. f_equal.
    - apply lt_filter.
    - symmetry. apply filter_map'. intros x _. by rewrite in_image.
    - symmetry. apply filter_map'. intros e _. unfold avoids. cbn. by rewrite !in_image.
    - apply set_eq. intros [a b]. rewrite elem_of_map, elem_of_filter. split.
      + intros ([a' b'] & [= -> ->] & H). apply elem_of_filter in H. cbn in H. destruct H as [H1 H2]. split; [|apply elem_of_map; exists (a', b'); auto].
        cbn [fst snd]. intros [E1 E2]. apply HI in E1. apply H1. split; [exact E1|exact (proj1 (in_image N b') E2)].
      + intros [H1 H2]. apply elem_of_map in H2. destruct H2 as ([a' b'] & [= -> ->] & H2). exists (a', b'). split; [reflexivity|]. apply elem_of_filter. cbn [fst snd] in *. split; [|exact H2].
        intros [E1 E2]. apply H1. split; [congruence|]. apply in_image. exact E2.
  Qed.

  Theorem lb_spec c s s' r : pt [] = [] -> ports_apart nm pt c s -> spec_call c s s' r ->
    exists r', spec_call (LC c) (LG s) (LG s') r' /\ lb_result nm r r'.
  Proof.
    intros P0 PA H. destruct H; cbn [lb_call].
    - exists None. split; [constructor|exact I].
    - exists None. split; [constructor|exact I].
    - exists None. split; [constructor|exact I].
    - exists None. split; [|exact I]. rewrite lg_with_edges, map_app. cbn [map]. apply Sp_port_edge. by apply la_valid.
    - exists (Some e). split; [apply Sp_port_edge_bad, la_bad; assumption|cbn; eapply bad_text; eassumption].
    - exists None. split; [|exact I]. rewrite lg_with_edges, map_app. cbn [map]. unfold lb_edge at 2. cbn. rewrite P0. apply Sp_edge. by apply la_valid.
    - exists (Some e). split; [apply Sp_edge_bad, la_bad; assumption|cbn; eapply bad_text; eassumption].
    - exists None. split; [|exact I]. rewrite lg_put_node. apply Sp_node. by apply la_valid.
    - exists (Some e). split; [apply Sp_node_bad, la_bad; assumption|cbn; eapply bad_text; eassumption].
    - exists None. split; [|exact I]. rewrite lg_put_attrs, la_single. apply Sp_attr; [assumption|]. rewrite lg_sub. cbn. destruct H0 as [->|H0]; auto.
    - eexists. split; [apply Sp_attr_bad; [assumption|]|cbn; constructor]. rewrite lg_sub. cbn. destruct H0 as [->|H0]; auto.
    - eexists. split; [apply Sp_attr_unknown; [cbn; intros E; apply HI in E; contradiction|by rewrite lg_sub]|cbn; constructor].
    - exists None. split; [|exact I]. rewrite lg_put_attrs, lg_open. apply Sp_sub. by apply la_valid.
    - exists (Some e). split; [|cbn; eapply bad_text; eassumption]. rewrite lg_put_attrs, lg_open. apply Sp_sub_bad; [apply la_bad; assumption| |by apply la_valid].
      unfold lb_attrs. apply map_fmap_mono. assumption.
    - exists None. split; [|exact I]. rewrite lg_drop, set_map_singleton_L. apply Sp_remove_node. by apply lg_node.
    - eexists. split; [apply Sp_remove_node_bad; by rewrite lg_node|cbn; constructor].
    - exists None. split; [|exact I]. cbn [ports_apart] in PA.
      assert (E : LG (let s1 := s_drop_nodes s p N in
         s_with_edges (s_with_subs (s_with_rels s1 (s_rels s1 ∖ {[(p, n)]})) (delete n (s_subs s1))) (filter (avoids_sub n) (s_edges s1))) =
         (let s1 := s_drop_nodes (LG s) (nm p) (set_map nm N) in
         s_with_edges (s_with_subs (s_with_rels s1 (s_rels s1 ∖ {[(nm p, nm n)]})) (delete (nm n) (s_subs s1))) (filter (avoids_sub (nm n)) (s_edges s1)))).
      { rewrite <- lg_drop. set (s1 := s_drop_nodes s p N). cbv zeta. unfold lb_graph, s_with_edges, s_with_subs, s_with_rels. cbn. f_equal.
        - symmetry. apply filter_map'. intros e He. assert (He' : e ∈ s_edges s) by (unfold s1 in He; cbn in He; apply elem_of_list_filter in He; apply He).
          destruct (PA e He') as [A B]. assert (C : forall x, nm x = nm n <-> x = n) by (intros x; split; [apply HI|congruence]).
          unfold avoids_sub. cbn. rewrite A, B, !C. reflexivity.
        - apply lt_delete.
        - apply set_eq. intros [a b]. rewrite elem_of_difference, !elem_of_map, elem_of_singleton. cbn. split.
          + intros ([a' b'] & [= -> ->] & K1). apply elem_of_difference in K1. destruct K1 as [K1 K2]. split; [exists (a', b'); auto|].
            intros [= E1 E2]. apply HI in E1. apply HI in E2. subst. apply K2. by apply elem_of_singleton.
          + intros [([a' b'] & [= -> ->] & K1) K2]. exists (a', b'). split; [reflexivity|]. apply elem_of_difference. split; [exact K1|]. intros X. apply elem_of_singleton in X. injection X as -> ->. auto. }
      refine (eq_rect_r (fun z => spec_call _ _ z None) _ E). apply Sp_remove_sub.
      + intros c'. split.
        * intros X. apply elem_of_map in X. destruct X as (c & -> & X). apply lg_child. by apply H.
        * intros X. apply lg_child_inv in X. destruct X as (p' & c & E1 & -> & X). apply HI in E1. subst. apply in_image. by apply H.
      + intros c' X. apply elem_of_map in X. destruct X as (c & -> & X). apply lg_node. auto.
    - exists (Some (lit "node " ++ nm c ++ lit " not found")). split; [|cbn; constructor]. rewrite lg_drop. eapply (Sp_remove_sub_bad _ _ _ _ (nm c)); [by apply lg_child|by rewrite lg_node|].
      intros c' X. apply elem_of_map in X. destruct X as (c0 & -> & X). rewrite lg_child, lg_node. by apply H1.
  Qed.
End Label.
