(** How often things are written. *)
From stdpp Require Import sorting.
From Verif Require Import Base Parser Maps Graph AttrMap SpecGraph MapFacts GraphProofs Write SpecWrite EdgeOrder WriteProofs WriteFacts WriteFacts2 SpecCount.
From Verif Require Ast.

Local Arguments count : simpl never.
Lemma count_app n l l' : count n (l ++ l') = count n l + count n l'.
Proof. unfold count. rewrite filter_app, app_length. reflexivity. Qed.
Lemma count_cons n m l : count n (m :: l) = (if decide (m = n) then 1 else 0) + count n l.
Proof. unfold count. rewrite filter_cons. destruct (decide (m = n)); reflexivity. Qed.
Lemma count_nil n : count n [] = 0.
Proof. reflexivity. Qed.
Lemma count_pos n l : 0 < count n l <-> n ∈ l.
Proof.
  induction l as [|m l IH]; [rewrite count_nil; split; [lia|intros H; apply elem_of_nil in H; contradiction]|].
  rewrite count_cons, elem_of_cons, <- IH. destruct (decide (m = n)) as [->|N]; split; intros; [auto|lia|right; lia|destruct H; [congruence|lia]].
Qed.
Lemma count_zero n l : count n l = 0 <-> n ∉ l.
Proof. rewrite <- count_pos. lia. Qed.
Lemma count_nodup n l : NoDup l -> count n l = if decide (n ∈ l) then 1 else 0.
Proof.
  induction 1 as [|m l N ND IH]; [reflexivity|]. rewrite count_cons, IH. destruct (decide (m = n)) as [->|E].
  - rewrite decide_False by exact N. rewrite decide_True by left. reflexivity.
  - destruct (decide (n ∈ l)); [rewrite decide_True by (right; assumption)|rewrite decide_False by (rewrite elem_of_cons; intros [|]; congruence)]; reflexivity.
Qed.
Lemma nodup_count l : (forall n, count n l <= 1) <-> NoDup l.
Proof.
  split.
  - induction l as [|m l IH]; intros H; constructor.
    + intros E. specialize (H m). rewrite count_cons, decide_True in H by reflexivity. apply count_pos in E. lia.
    + apply IH. intros n. specialize (H n). rewrite count_cons in H. lia.
  - intros ND n. rewrite count_nodup by exact ND. destruct (decide _); lia.
Qed.
Lemma sum_add {A} (f h : A -> nat) l : sum_list (map (fun x => f x + h x) l) = sum_list (map f l) + sum_list (map h l).
Proof. induction l as [|x l IH]; [reflexivity|]. cbn. rewrite IH. lia. Qed.
Lemma sum_zero {A} (l : list A) : sum_list (map (fun _ => 0) l) = 0.
Proof. induction l; auto. Qed.
Lemma sum_ind r P : sum_list (map (fun p : gostr => if decide (r = p) then 1 else 0) P) = count r P.
Proof. induction P as [|p P IH]; [reflexivity|]. cbn. rewrite IH, count_cons. destruct (decide (r = p)), (decide (p = r)); congruence || lia. Qed.

Lemma elem_of_parents s p n : p ∈ parents s n <-> is_child s p n.
Proof.
  unfold parents, is_child. rewrite elem_of_list_fmap. split.
  - intros ((p' & n') & -> & H). apply elem_of_list_filter in H. cbn in H. destruct H as [-> H]. apply elem_of_elements in H. exact H.
  - intros H. exists (p, n). split; [reflexivity|]. apply elem_of_list_filter. split; [reflexivity|apply elem_of_elements; exact H].
Qed.
Lemma parents_nodup s n : NoDup (parents s n).
Proof.
  unfold parents. apply NoDup_fmap_2_strong; [|apply NoDup_filter, NoDup_elements].
  intros (p, a) (q, b) H1 H2 E. apply elem_of_list_filter in H1, H2. cbn in *. destruct H1 as [-> _], H2 as [-> _]. congruence.
Qed.
Lemma parents_count s p n : count p (parents s n) = if decide (p ∈ parents s n) then 1 else 0.
Proof. apply count_nodup, parents_nodup. Qed.
Lemma count_parents_app s n l l' : count_parents s n (l ++ l') = count_parents s n l + count_parents s n l'.
Proof. unfold count_parents. rewrite <- sum_add. f_equal. apply map_ext. intros p. apply count_app. Qed.
Lemma count_parents_nil s n : count_parents s n [] = 0.
Proof. unfold count_parents. apply sum_zero. Qed.
Lemma count_parents_cons s n r l : count_parents s n (r :: l) = count r (parents s n) + count_parents s n l.
Proof.
  unfold count_parents. rewrite <- sum_ind, <- sum_add. f_equal. apply map_ext. intros p. apply count_cons.
Qed.
Lemma attrs_no_subs l : flat_map subs_in (map Ast.SAttr l) = [].
Proof. induction l; auto. Qed.
Lemma attrs_no_nodes l : flat_map nodes_in (map Ast.SAttr l) = [].
Proof. induction l; auto. Qed.

Section Law.
  Variable s : sgraph.
  Definition law_sub (top : nat) (n : gostr) (l : list gostr) : Prop :=
    count n l = top + (if decide (is_Some (s_nodes s !! n)) then 0 else count_parents s n l).
  Definition law_node (n : gostr) (l l' : list gostr) : Prop :=
    is_Some (s_nodes s !! n) -> count n l' = count_parents s n l.
  Lemma child_law f c st :
    (forall n t, c_sub s f n = Ok t -> forall m, law_sub (if decide (n = m) then 1 else 0) m (subs_of t) /\ law_node m (subs_of t) (nodes_of t)) ->
    c_child s (c_sub s f) c = Ok st -> forall n,
      count n (subs_in st) = (if decide (is_Some (s_nodes s !! n)) then 0 else (if decide (c = n) then 1 else 0) + count_parents s n (subs_in st)) /\
      (is_Some (s_nodes s !! n) -> count n (nodes_in st) = (if decide (c = n) then 1 else 0) + count_parents s n (subs_in st)).
  Proof.
    intros IH. unfold c_child. destruct (s_nodes s !! c) as [a|] eqn:E1.
    - intros [= <-] n. cbn [c_node subs_in nodes_in Ast.nid_id]. rewrite count_parents_nil, count_cons, count_nil. split.
      + destruct (decide (is_Some _)) as [S|S]; [reflexivity|]. rewrite decide_False; [reflexivity|]. intros ->. apply S. rewrite E1. eauto.
      + intros _. reflexivity.
    - destruct (s_subs s !! c); [|discriminate]. destruct (c_sub s f c) as [t|e| |] eqn:E; try discriminate. intros [= <-] n. cbn [subs_in nodes_in].
      destruct (IH c t E n) as [L1 L2]. split.
      + unfold law_sub in L1. destruct (decide (is_Some _)) as [S|S]; [|exact L1]. rewrite L1. rewrite decide_False; [reflexivity|]. intros ->. rewrite E1 in S. destruct (is_Some_None S).
      + intros S. rewrite decide_False; [|intros ->; rewrite E1 in S; destruct (is_Some_None S)]. apply L2. exact S.
  Qed.
  Lemma body_law f cs body n :
    (forall n t, c_sub s f n = Ok t -> forall m, law_sub (if decide (n = m) then 1 else 0) m (subs_of t) /\ law_node m (subs_of t) (nodes_of t)) ->
    Forall2 (fun c st => c_child s (c_sub s f) c = Ok st) cs body ->
    count n (flat_map subs_in body) = (if decide (is_Some (s_nodes s !! n)) then 0 else count n cs + count_parents s n (flat_map subs_in body)) /\
    (is_Some (s_nodes s !! n) -> count n (flat_map nodes_in body) = count n cs + count_parents s n (flat_map subs_in body)).
  Proof.
    intros IH. induction 1 as [|c st cs body H F IHF].
    - cbn. rewrite count_nil, count_parents_nil. split; [destruct (decide _); reflexivity|reflexivity].
    - cbn [flat_map]. rewrite !count_app, count_parents_app, count_cons. destruct (child_law f c st IH H n) as [C1 C2]. destruct IHF as [F1 F2]. split.
      + rewrite C1, F1. destruct (decide (is_Some _)); lia.
      + intros S. rewrite (C2 S), (F2 S). lia.
  Qed.
  Lemma sub_law f : forall n t, c_sub s f n = Ok t -> forall m, law_sub (if decide (n = m) then 1 else 0) m (subs_of t) /\ law_node m (subs_of t) (nodes_of t).
  Proof.
    induction f as [|f IH]; intros r t H n; [discriminate|]. apply c_sub_inv in H. destruct H as (a & body & _ & F & ->).
    destruct (body_law f _ body n IH F) as [B1 B2]. unfold law_sub, law_node. cbn [subs_of nodes_of].
    rewrite !flat_map_app, attrs_no_subs, attrs_no_nodes. cbn [app]. rewrite count_cons, count_parents_cons.
    assert (E : count n (sorted (kids s r)) = count r (parents s n)).
    { rewrite parents_count, (count_nodup n) by apply NoDup_sorted. destruct (decide (n ∈ _)) as [D|D], (decide (r ∈ _)) as [D'|D']; auto.
      - destruct D'. apply elem_of_parents. apply elem_of_kids, elem_of_sorted. exact D.
      - destruct D. apply elem_of_sorted, elem_of_kids, elem_of_parents. exact D'. }
    split.
    - rewrite B1, E. destruct (decide (is_Some _)); lia.
    - intros S. rewrite (B2 S), E. reflexivity.
  Qed.
  Lemma subs_reach f : forall n t, c_sub s f n = Ok t -> forall m, m ∈ subs_of t -> rtc (nested s) n m.
  Proof.
    induction f as [|f IH]; intros r t H n; [discriminate|]. apply c_sub_inv in H. destruct H as (a & body & _ & F & ->).
    cbn [subs_of]. rewrite flat_map_app, attrs_no_subs. cbn [app]. rewrite elem_of_cons. intros [->|Hn]; [reflexivity|].
    apply elem_of_list_In, in_flat_map in Hn. destruct Hn as (st & Hst & Hn). apply elem_of_list_In in Hst, Hn.
    destruct (elem_of_list_lookup_1 _ _ Hst) as [i Hi]. destruct (Forall2_lookup_r _ _ _ _ _ F Hi) as (c & Hc & E).
    apply elem_of_list_lookup_2, elem_of_sorted, elem_of_kids in Hc. unfold c_child in E. destruct (s_nodes s !! c) eqn:E1.
    { injection E as <-. cbn in Hn. apply elem_of_nil in Hn. contradiction. }
    destruct (s_subs s !! c) eqn:E2; [|discriminate]. destruct (c_sub s f c) as [t|e| |] eqn:E3; try discriminate. injection E as <-.
    cbn in Hn. eapply rtc_l; [|eapply IH; eassumption]. split; [exact Hc|]. split; [eexists; exact E2|apply not_node; exact E1].
  Qed.
  Lemma nodes_are f : forall n t, c_sub s f n = Ok t -> forall m, m ∈ nodes_of t -> s_is_node s m.
  Proof.
    induction f as [|f IH]; intros r t H n; [discriminate|]. apply c_sub_inv in H. destruct H as (a & body & _ & F & ->).
    cbn [nodes_of]. rewrite flat_map_app, attrs_no_nodes. cbn [app]. intros Hn.
    apply elem_of_list_In, in_flat_map in Hn. destruct Hn as (st & Hst & Hn). apply elem_of_list_In in Hst, Hn.
    destruct (elem_of_list_lookup_1 _ _ Hst) as [i Hi]. destruct (Forall2_lookup_r _ _ _ _ _ F Hi) as (c & Hc & E).
    unfold c_child in E. destruct (s_nodes s !! c) eqn:E1.
    { injection E as <-. cbn in Hn. apply elem_of_list_singleton in Hn. subst. eexists. exact E1. }
    destruct (s_subs s !! c) eqn:E2; [|discriminate]. destruct (c_sub s f c) as [t|e| |] eqn:E3; try discriminate. injection E as <-.
    cbn in Hn. eapply IH; eassumption.
  Qed.
  Lemma end_nodes_are f n port l m : c_end s f n port = Ok l -> m ∈ nodes_at l -> s_is_node s m.
  Proof.
    unfold c_end. destruct (s_nodes s !! n) eqn:E1.
    - intros [= <-] H. apply elem_of_nil in H. contradiction.
    - destruct (s_subs s !! n); [|discriminate]. destruct port; [|discriminate]. destruct (has_prefix n (lit "cluster")).
      + intros [= <-] H. apply elem_of_nil in H. contradiction.
      + destruct (c_sub s f n) as [t|e| |] eqn:E; try discriminate. intros [= <-]. cbn [nodes_at]. apply (nodes_are f n t E).
  Qed.
  (** Edges *)
  Definition end_top (n m : gostr) : nat :=
    if decide (n = m) then (if decide (is_Some (s_nodes s !! m) \/ has_prefix m (lit "cluster") = true) then 0 else 1) else 0.
  Lemma end_law f n port l : c_end s f n port = Ok l -> forall m,
    law_sub (end_top n m) m (subs_at l) /\ law_node m (subs_at l) (nodes_at l).
  Proof.
    unfold c_end, law_sub, law_node, end_top. destruct (s_nodes s !! n) eqn:E1.
    - intros [= <-] m. cbn. rewrite count_nil, count_parents_nil. split; [|reflexivity]. destruct (decide (n = m)) as [->|]; [|destruct (decide _); reflexivity].
      rewrite !decide_True by (first [left; rewrite E1; eauto | rewrite E1; eauto]). reflexivity.
    - destruct (s_subs s !! n); [|discriminate]. destruct port; [|discriminate]. destruct (has_prefix n (lit "cluster")) eqn:E3.
      + intros [= <-] m. cbn. rewrite count_nil, count_parents_nil. split; [|reflexivity]. destruct (decide (n = m)) as [->|]; [|destruct (decide _); reflexivity].
        rewrite (decide_True (P := _ \/ _)) by (right; exact E3). destruct (decide _); reflexivity.
      + destruct (c_sub s f n) as [t|e| |] eqn:E4; try discriminate. intros [= <-] m. cbn [subs_at nodes_at].
        destruct (sub_law f n t E4 m) as [L1 L2]. split; [|exact L2]. rewrite L1. f_equal. destruct (decide (n = m)) as [->|]; [|reflexivity].
        rewrite (decide_False (P := _ \/ _)); [reflexivity|]. intros [S|S]; [rewrite E1 in S; destruct (is_Some_None S)|congruence].
  Qed.
  Lemma edge_law f e st : c_edge s f e = Ok st -> forall m,
    law_sub (end_top (e_src e) m + end_top (e_dst e) m) m (subs_in st) /\ law_node m (subs_in st) (nodes_in st).
  Proof.
    unfold c_edge. destruct (c_end s f (e_src e) (e_src_port e)) as [l1|x| |] eqn:E1; cbn [bind]; try discriminate.
    destruct (c_end s f (e_dst e) (e_dst_port e)) as [l2|x| |] eqn:E2; cbn [bind]; try discriminate. intros [= <-] m.
    destruct (end_law _ _ _ _ E1 m) as [A1 A2]. destruct (end_law _ _ _ _ E2 m) as [B1 B2].
    unfold law_sub, law_node in *. cbn [subs_in nodes_in flat_map]. rewrite !app_nil_r, !count_app, count_parents_app. split.
    - rewrite A1, B1. destruct (decide _); lia.
    - intros S. rewrite (A2 S), (B2 S). reflexivity.
  Qed.
  Definition ends_top (es : list edge) (m : gostr) : nat := sum_list (map (fun e => end_top (e_src e) m + end_top (e_dst e) m) es).
  Lemma edges_law f es el : Forall2 (fun e st => c_edge s f e = Ok st) es el -> forall m,
    law_sub (ends_top es m) m (flat_map subs_in el) /\ law_node m (flat_map subs_in el) (flat_map nodes_in el).
  Proof.
    intros F m. induction F as [|e st es el H F [I1 I2]]; unfold law_sub, law_node in *.
    - cbn. rewrite count_nil, count_parents_nil. split; [destruct (decide _)|]; reflexivity.
    - cbn [flat_map ends_top map sum_list sum_list_with]. destruct (edge_law f e st H m) as [A1 A2]. unfold law_sub, law_node in *.
      rewrite !count_app, count_parents_app. split; [|intros S; rewrite (A2 S), (I2 S); reflexivity].
      rewrite A1, I1. unfold ends_top. cbn. destruct (decide _); lia.
  Qed.
  Lemma tops_law f tops ts : Forall2 (fun n t => c_sub s f n = Ok t) tops ts -> forall m,
    law_sub (count m tops) m (flat_map subs_in (map Ast.SSub ts)) /\ law_node m (flat_map subs_in (map Ast.SSub ts)) (flat_map nodes_in (map Ast.SSub ts)).
  Proof.
    intros F m. induction F as [|n t tops ts H F [I1 I2]]; unfold law_sub, law_node in *.
    - cbn. rewrite !count_nil, count_parents_nil. split; [destruct (decide _)|]; reflexivity.
    - cbn [flat_map map subs_in nodes_in]. destruct (sub_law f n t H m) as [A1 A2]. unfold law_sub, law_node in *.
      rewrite !count_app, count_parents_app, count_cons. split; [|intros S; rewrite (A2 S), (I2 S); reflexivity].
      rewrite A1, I1. destruct (decide (is_Some _)); lia.
  Qed.
  Lemma top_subs_edges f es el : Forall2 (fun e st => c_edge s f e = Ok st) es el ->
    flat_map (fun st => match st with Ast.SSub (Ast.SubGraph id _) => [id] | _ => [] end) el = [] /\
    flat_map (fun st => match st with Ast.SNode n _ => [Ast.nid_id n] | _ => [] end) el = [].
  Proof.
    induction 1 as [|e st es el H F [I1 I2]]; [split; reflexivity|]. unfold c_edge in H.
    destruct (c_end _ _ _ _); cbn [bind] in H; try discriminate. destruct (c_end _ _ _ _); cbn [bind] in H; try discriminate. injection H as <-. split; assumption.
  Qed.
  Lemma top_subs_tops f tops ts : Forall2 (fun n t => c_sub s f n = Ok t) tops ts ->
    flat_map (fun st => match st with Ast.SSub (Ast.SubGraph id _) => [id] | _ => [] end) (map Ast.SSub ts) = tops /\
    flat_map (fun st => match st with Ast.SNode n _ => [Ast.nid_id n] | _ => [] end) (map Ast.SSub ts) = [].
  Proof.
    induction 1 as [|n t tops ts H F [I1 I2]]; [split; reflexivity|]. destruct f as [|f]; [discriminate|].
    apply c_sub_inv in H. destruct H as (a & body & _ & _ & ->). cbn [map flat_map app]. rewrite I1, I2. split; reflexivity.
  Qed.
  Lemma ends_top_count es m : ends_top es m =
    if decide (is_Some (s_nodes s !! m) \/ has_prefix m (lit "cluster") = true) then 0 else count m (map e_src es) + count m (map e_dst es).
  Proof.
    unfold ends_top. induction es as [|e es IH]; [cbn; destruct (decide _); reflexivity|]. cbn [map sum_list_with]. change (sum_list (end_top (e_src e) m + end_top (e_dst e) m :: map (fun e => end_top (e_src e) m + end_top (e_dst e) m) es)) with (end_top (e_src e) m + end_top (e_dst e) m + sum_list (map (fun e => end_top (e_src e) m + end_top (e_dst e) m) es)). rewrite IH. clear IH.
    rewrite !count_cons. unfold end_top. destruct (decide (_ \/ _)), (decide (e_src e = m)), (decide (e_dst e = m)); cbn; lia.
  Qed.
  Lemma count_nodes_map (ns : list gostr) m : count m (flat_map nodes_in (map (fun n => c_node n (default ∅ (s_nodes s !! n))) ns)) = count m ns /\
    flat_map subs_in (map (fun n => c_node n (default ∅ (s_nodes s !! n))) ns) = [] /\
    flat_map (fun st => match st with Ast.SSub (Ast.SubGraph id _) => [id] | _ => [] end) (map (fun n => c_node n (default ∅ (s_nodes s !! n))) ns) = [] /\
    flat_map (fun st => match st with Ast.SNode n _ => [Ast.nid_id n] | _ => [] end) (map (fun n => c_node n (default ∅ (s_nodes s !! n))) ns) = ns.
  Proof.
    induction ns as [|n ns (I1 & I2 & I3 & I4)]; [repeat split|]. cbn [map flat_map]. rewrite I2, I3, I4. cbn. rewrite !count_cons, I1. repeat split.
  Qed.
End Law.
