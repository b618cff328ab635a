(** Property C65: removing undoes adding. *)
From Verif Require Import Maps Graph Direct SpecGraph SpecUndo MapFacts GraphProofs DirectProofs PropsGraph PropsImage PropsOrder.

Lemma sgraph_ext (s s' : sgraph) : s_name s = s_name s' -> s_directed s = s_directed s' -> s_strict s = s_strict s' -> s_attrs s = s_attrs s' ->
  s_nodes s = s_nodes s' -> s_order s = s_order s' -> s_edges s = s_edges s' -> s_subs s = s_subs s' -> s_rels s = s_rels s' -> s = s'.
Proof. destruct s, s'; cbn. intros; subst; reflexivity. Qed.
Lemma filter_all {A} (P : A -> Prop) `{!forall x, Decision (P x)} (l : list A) : (forall x, x ∈ l -> P x) -> filter P l = l.
Proof.
  induction l as [|x l IH]; intros HH; [reflexivity|]. rewrite filter_cons_True by (apply HH; left). f_equal. apply IH. intros y Hy. apply HH. right. exact Hy.
Qed.
(** What a block of calls leaves after the subgraph was opened: [s] the state before, [X] the nodes added. *)
Record filled (s : sgraph) (p S : gostr) (X Y : gset gostr) (s1 : sgraph) : Prop := Filled {
  fi_name : s_name s1 = s_name s; fi_dir : s_directed s1 = s_directed s; fi_strict : s_strict s1 = s_strict s; fi_attrs : s_attrs s1 = s_attrs s;
  fi_node : forall n, n ∉ X -> s_nodes s1 !! n = s_nodes s !! n;
  fi_new : forall n, n ∈ Y -> s_is_node s1 n;
  fi_order : filter (fun n => n ∉ X) (s_order s1) = s_order s;
  fi_edges : filter (fun e => avoids X e /\ avoids_sub S e) (s_edges s1) = s_edges s;
  fi_sub : forall n, n <> S -> s_subs s1 !! n = s_subs s !! n;
  fi_S : s_is_sub s1 S;
  fi_child : forall a b, is_child s1 a b <-> is_child s a b \/ (a = p /\ b = S) \/ (a = S /\ b ∈ Y) }.
Lemma filled_step s p S X Y s1 c s2 : S <> s_name s -> filled s p S X Y s1 -> fills S X c -> (forall x, x ∈ new_nodes_of [c] -> x ∈ X) ->
  spec_call c s1 s2 None -> filled s p S X (Y ∪ new_nodes_of [c]) s2.
Proof.
  intros NS [a1 a2 a3 a4 a5 a6 a7 a8 a9 a10 a11] F HX H. unfold new_nodes_of in *. inversion H; subst; try contradiction; cbn [omap list_omap list_to_set] in *.
  - constructor; cbn; try assumption; try (rewrite union_empty_r_L; assumption).
    rewrite filter_app, a8, filter_cons_False, filter_nil, app_nil_r; [reflexivity|]. unfold avoids, avoids_sub. cbn. destruct F as [F _]. tauto.
  - constructor; cbn; try assumption; try (rewrite union_empty_r_L; assumption).
    rewrite filter_app, a8, filter_cons_False, filter_nil, app_nil_r; [reflexivity|]. unfold avoids, avoids_sub. cbn. destruct F as [F _]. tauto.
  - destruct F as [-> _]. assert (I : n ∈ X) by (apply HX; set_solver). constructor; cbn; try assumption.
    + intros x Hx. rewrite lookup_insert_ne by (intros ->; contradiction). apply a5. exact Hx.
    + intros x Hx. unfold s_is_node. cbn. rewrite lookup_insert_is_Some'. rewrite union_empty_r_L in Hx. apply elem_of_union in Hx.
      destruct Hx as [Hx|Hx]; [right; apply a6; exact Hx|left; apply elem_of_singleton in Hx; auto].
    + destruct (s_nodes s1 !! n); [exact a7|]. rewrite filter_app, a7, filter_cons_False, filter_nil, app_nil_r by tauto. reflexivity.
    + intros a b. unfold is_child. cbn. rewrite elem_of_union, elem_of_singleton. change ((a, b) = (S, n) \/ is_child s1 a b <-> is_child s a b \/ (a = p /\ b = S) \/ (a = S /\ b ∈ Y ∪ ({[n]} ∪ ∅))).
      rewrite a11, union_empty_r_L, elem_of_union, elem_of_singleton. split; [intros [[= -> ->]|K]|]; naive_solver.
  - destruct F as [-> _]. unfold s_put_attrs. rewrite decide_False by congruence. constructor; cbn; try assumption; try (rewrite union_empty_r_L; assumption).
    + intros x Hx. rewrite lookup_insert_ne by congruence. apply a9. exact Hx.
    + unfold s_is_sub. cbn. rewrite lookup_insert. eauto.
Qed.
Lemma new_nodes_cons c cs : new_nodes_of (c :: cs) = new_nodes_of [c] ∪ new_nodes_of cs.
Proof. unfold new_nodes_of. destruct c; cbn; set_solver. Qed.
Lemma filled_run s p S X cs : forall Y s1 s2 rs, S <> s_name s -> filled s p S X Y s1 -> Forall (fills S X) cs -> (forall x, x ∈ new_nodes_of cs -> x ∈ X) ->
  spec_run cs s1 s2 rs -> filled s p S X (Y ∪ new_nodes_of cs) s2 /\ Forall (fun r => r = None) rs.
Proof.
  induction cs as [|c cs IH]; intros Y s1 s2 rs NS F FF HX R; inversion R as [|? ? ? sx ? r rs' C R']; subst.
  - split; [|constructor]. unfold new_nodes_of. cbn. rewrite union_empty_r_L. exact F.
  - rewrite new_nodes_cons in *. inversion FF as [|? ? Fc Fcs]; subst. assert (r = None) as ->.
    { destruct F as [_ _ _ _ _ _ _ _ _ a10 _]. unfold fills in Fc. inversion C; subst; try reflexivity; try contradiction;
        try (destruct Fc as [_ V]; match goal with B : bad_attr _ _ |- _ => destruct B as (k & v & B1 & B2 & _); destruct (B2 (V k v B1)) end).
      - destruct Fc as [_ V]. contradiction.
      - destruct Fc as [-> _]. contradiction. }
    assert (F1 := filled_step s p S X Y s1 c sx NS F Fc ltac:(set_solver) C).
    destruct (IH _ sx s2 rs' NS F1 Fcs ltac:(set_solver) R') as [F2 N]. split; [|constructor; auto].
    rewrite (assoc_L (∪)). exact F2.
Qed.
Lemma filled_open s p S X m : unused_sub s p S -> (forall x, x ∈ X -> unused_node s p x) -> (forall x, x ∈ s_order s -> s_is_node s x) ->
  filled s p S X ∅ (s_put_attrs (s_open_sub s p S) S m).
Proof.
  intros (NS & U1 & U2 & U3 & U4) U O. unfold s_put_attrs. rewrite decide_False by (cbn; congruence). constructor; cbn; try reflexivity.
  - intros n Hn. set_solver.
  - apply filter_all. intros x Hx Hn. destruct (U x Hn) as [N _]. apply N, O, Hx.
  - apply filter_all. intros e He. split; [|apply U4; exact He]. split; intros Hn; destruct (U _ Hn) as (_ & N & _); destruct (N e He); congruence.
  - intros n Hn. rewrite !lookup_insert_ne by congruence. reflexivity.
  - unfold s_is_sub. cbn. rewrite lookup_insert. eauto.
  - intros a b. unfold is_child. cbn. rewrite elem_of_union, elem_of_singleton. set_solver.
Qed.
(** Removing the subgraph. *)
Lemma filled_remove s p S X s1 s2 r : p <> S -> unused_sub s p S -> (forall x, x ∈ X -> unused_node s p x) -> filled s p S X X s1 ->
  spec_call (CRemoveSubGraph p S) s1 s2 r -> r = None /\ s_with_rels s2 ∅ = s_with_rels s ∅ /\
  forall a b, is_child s2 a b <-> is_child s a b \/ (a = S /\ b ∈ X).
Proof.
  intros NP (NS & U1 & U2 & U3 & U4) U [a1 a2 a3 a4 a5 a6 a7 a8 a9 a10 a11] H.
  assert (KX : forall c, is_child s1 S c <-> c ∈ X).
  { intros c. rewrite a11. split; [intros [K|[[K _]|[_ K]]]; [destruct (U2 c K)|congruence|exact K]|auto]. }
  inversion H as [| | | | | | | | | | | | | | | |? ? ? N E1 E2|? ? ? N c E1 E2]; subst.
  - split; [reflexivity|]. assert (N = X) as -> by (apply set_eq; intros c; rewrite E1; apply KX). split.
    + apply sgraph_ext; cbn; try assumption; try reflexivity.
      * apply map_eq. intros n. destruct (decide (n ∈ X)) as [I|I].
        -- rewrite map_filter_lookup_None_2 by (right; intros x Hx; cbn; tauto). destruct (U n I) as [Nn _]. unfold s_is_node in Nn. destruct (s_nodes s !! n); [destruct Nn; eauto|reflexivity].
        -- rewrite <- (a5 n I). destruct (s_nodes s1 !! n) as [x|] eqn:E.
           ++ apply map_filter_lookup_Some_2; [exact E|exact I].
           ++ apply map_filter_lookup_None_2. left. exact E.
      * rewrite <- a8. rewrite list_filter_filter. apply list_filter_iff. intros e. tauto.
      * apply map_eq. intros n. destruct (decide (n = S)) as [->|D]; [rewrite lookup_delete|rewrite lookup_delete_ne by congruence; apply a9; exact D].
        unfold s_is_sub in U1. destruct (s_subs s !! S); [destruct U1; eauto|reflexivity].
    + intros a b. unfold is_child at 1. cbn. rewrite elem_of_difference, elem_of_filter, elem_of_singleton. cbn [fst snd].
      change (((~ (a = p /\ b ∈ X) /\ is_child s1 a b) /\ (a, b) <> (p, S)) <-> is_child s a b \/ (a = S /\ b ∈ X)). rewrite a11. split.
      * intros [[K1 [K|[[-> ->]|K]]] K2]; [auto|congruence|auto].
      * intros [K|[-> K]].
        -- split; [split; [|auto]|].
           ++ intros [-> Kb]. destruct (U b Kb) as (_ & _ & Nb). contradiction.
           ++ intros [= -> ->]. contradiction.
        -- split; [split; [|auto]|]; [intros [Kp _]; congruence|intros [= Kp _]; congruence].
  - destruct E2. apply a6. apply KX. assumption.
Qed.

Lemma built_order g : built g -> forall x, x ∈ s_order (view g) -> s_is_node (view g) x.
Proof. intros B x. rewrite view_is_node. apply (oview_in _ (go_nodes g (built_ok g B))). Qed.
Lemma put_drop s p n m : unused_node s p n -> (forall x, x ∈ s_order s -> s_is_node s x) -> s_drop_nodes (s_put_node s p n m) p {[n]} = s.
Proof.
  intros (U1 & U2 & U3) O. assert (E : s_nodes s !! n = None) by (unfold s_is_node in U1; destruct (s_nodes s !! n); [destruct U1; eauto|reflexivity]).
  apply sgraph_ext; cbn; try reflexivity.
  - apply map_eq. intros x. destruct (decide (x = n)) as [->|D].
    + rewrite map_filter_lookup_None_2 by (right; intros y Hy; cbn; set_solver). symmetry. exact E.
    + destruct (s_nodes s !! x) as [y|] eqn:Ex.
      * apply map_filter_lookup_Some_2; [rewrite lookup_insert_ne by congruence; exact Ex|cbn; set_solver].
      * apply map_filter_lookup_None_2. left. rewrite lookup_insert_ne by congruence. exact Ex.
  - rewrite E. rewrite filter_app, filter_cons_False, filter_nil, app_nil_r by set_solver. apply filter_all. intros x Hx Hn. apply elem_of_singleton in Hn. subst x. apply U1, O, Hx.
  - apply filter_all. intros e He. destruct (U2 e He). unfold avoids. rewrite !not_elem_of_singleton. auto.
  - apply set_eq. intros [a b]. rewrite elem_of_filter, elem_of_union, !elem_of_singleton. cbn [fst snd]. split.
    + intros [K [[= -> ->]|K']]; [destruct K; auto|exact K'].
    + intros K. split; [|auto]. intros [-> ->]. contradiction.
Qed.
Lemma node_undo s s1 s2 p n m r1 r2 : all_valid m -> unused_node s p n -> (forall x, x ∈ s_order s -> s_is_node s x) ->
  spec_call (CAddNode p n m) s s1 r1 -> spec_call (CRemoveNode p n) s1 s2 r2 -> r1 = None /\ r2 = None /\ s2 = s.
Proof.
  intros V U O S1 S2.
  inversion S1 as [| | | | | | |? ? ? ? V1|? ? ? ? e Bad| | | | | | | | |]; subst; [|destruct Bad as (k & v & K1 & K2 & _); destruct (K2 (V k v K1))].
  split; [reflexivity|].
  inversion S2 as [| | | | | | | | | | | | | |? ? ? I|? ? ? I| |]; subst; [|destruct I; unfold s_is_node; cbn; rewrite lookup_insert; eauto].
  split; [reflexivity|]. apply put_drop; assumption.
Qed.
(** ** C65.  AddNode of an unused name, undone by RemoveNode: the graph is as before. *)
Theorem C65_node : forall g o o' p n m, built g -> fair o -> fair o' -> all_valid m -> unused_node (view g) p n ->
  let '(g1, r1) := exec o (CAddNode p n m) g in let '(g2, r2) := exec o' (CRemoveNode p n) g1 in
  r1 = None /\ r2 = None /\ view g2 = view g.
Proof.
  intros g o o' p n m B Fo Fo' V U. pose proof (C23_refinement_step o (CAddNode p n m) g Fo B) as S1.
  assert (B1 : built (exec o (CAddNode p n m) g).1) by (apply built_call; assumption).
  destruct (exec o (CAddNode p n m) g) as [g1 r1]. cbn [fst snd] in *.
  pose proof (C23_refinement_step o' (CRemoveNode p n) g1 Fo' B1) as S2. destruct (exec o' (CRemoveNode p n) g1) as [g2 r2]. cbn [fst snd] in *.
  exact (node_undo _ _ _ _ _ _ _ _ V U (built_order g B) S1 S2).
Qed.
Print Assumptions C65_node.
(** AddSubGraph of an unused name, then calls that fill the subgraph with new nodes and add edges that touch these or the subgraph,
    undone by RemoveSubGraph: all calls succeed, and the graph is as before, except that the new nodes are still recorded as children
    of the subgraph that is no more. *)
Theorem C65_block : forall g o o' p S m h, built g -> fair o -> fair o' -> Forall (fun oc => fair oc.1) h -> all_valid m -> p <> S ->
  unused_sub (view g) p S -> (forall x, x ∈ new_nodes_of (map snd h) -> unused_node (view g) p x) ->
  Forall (fills S (new_nodes_of (map snd h))) (map snd h) ->
  let '(g', rs) := run ((o, CAddSubGraph p S m) :: h ++ [(o', CRemoveSubGraph p S)]) g in
  Forall (fun r => r = None) rs /\ s_with_rels (view g') ∅ = s_with_rels (view g) ∅ /\
  forall a b, is_child (view g') a b <-> is_child (view g) a b \/ (a = S /\ b ∈ new_nodes_of (map snd h)).
Proof.
  intros g o o' p S m h B Fo Fo' F V NP US UN FF.
  destruct (run_built ((o, CAddSubGraph p S m) :: h ++ [(o', CRemoveSubGraph p S)]) g B) as [_ R].
  { constructor; [exact Fo|]. apply Forall_app. split; [exact F|]. repeat constructor; apply Fo'. }
  destruct (run _ g) as [g' rs]. cbn [fst snd map] in R. rewrite map_app in R. cbn [map snd] in R.
  inversion R as [|? ? ? s1 ? r1 rs1 C1 R1]; subst.
  inversion C1 as [| | | | | | | | | | | |? ? ? ? V1|? ? ? ? ? e Bad| | | |]; subst; [|destruct Bad as (k & v & K1 & K2 & _); destruct (K2 (V k v K1))].
  assert (SP : forall cs c s s2 rs, spec_run (cs ++ [c]) s s2 rs -> exists sx rs' r, rs = rs' ++ [r] /\ spec_run cs s sx rs' /\ spec_call c sx s2 r).
  { clear. induction cs as [|x cs IH]; intros c s s2 rs H; cbn [app] in H; inversion H as [|? ? ? sx ? r rs' C R]; subst.
    - inversion R; subst. exists s, [], r. split; [reflexivity|]. split; [constructor|exact C].
    - destruct (IH _ _ _ _ R) as (sy & rs'' & r' & -> & R' & C'). exists sy, (r :: rs''), r'. split; [reflexivity|]. split; [econstructor; eassumption|exact C']. }
  destruct (SP _ _ _ _ _ R1) as (sx & rs' & r & -> & R2 & C2).
  assert (F0 := filled_open (view g) p S (new_nodes_of (map snd h)) m US UN (built_order g B)).
  destruct (filled_run (view g) p S _ (map snd h) ∅ _ sx rs' ltac:(apply US) F0 FF ltac:(auto) R2) as [F1 N]. rewrite union_empty_l_L in F1.
  destruct (filled_remove (view g) p S _ sx (view g') r NP US UN F1 C2) as (-> & E & K).
  split; [|split; [exact E|exact K]]. constructor; [reflexivity|]. apply Forall_app. split; [exact N|repeat constructor].
Qed.
Print Assumptions C65_block.
(** In particular AddSubGraph is undone by RemoveSubGraph. *)
Corollary C65_sub : forall g o o' p S m, built g -> fair o -> fair o' -> all_valid m -> p <> S -> unused_sub (view g) p S ->
  let '(g1, r1) := exec o (CAddSubGraph p S m) g in let '(g2, r2) := exec o' (CRemoveSubGraph p S) g1 in
  r1 = None /\ r2 = None /\ view g2 = view g.
Proof.
  intros g o o' p S m B Fo Fo' V NP US. pose proof (C65_block g o o' p S m [] B Fo Fo' (Forall_nil_2 _) V NP US) as H. cbn [run app map] in H.
  destruct (exec o (CAddSubGraph p S m) g) as [g1 r1]. destruct (exec o' (CRemoveSubGraph p S) g1) as [g2 r2].
  destruct H as (N & E & K); [intros x Hx; unfold new_nodes_of in Hx; cbn in Hx; set_solver|constructor|].
  inversion N as [|? ? N1 N2]; subst. inversion N2; subst. split; [reflexivity|]. split; [reflexivity|].
  assert (Er : s_rels (view g2) = s_rels (view g)).
  { apply set_eq. intros [a b]. etransitivity; [exact (K a b)|]. unfold new_nodes_of. cbn. split; [intros [X|[_ X]]; [exact X|set_solver]|intros X; left; exact X]. }
  destruct (view g2), (view g). cbn in *. unfold s_with_rels in E. cbn in E. injection E as -> -> -> -> -> -> -> ->. subst. reflexivity.
Qed.
Print Assumptions C65_sub.

(** A name in use: RemoveNode takes more than AddNode gave. *)
Theorem C65_used_refuted : exists g p n m, reachable g /\ all_valid m /\
  (exec o_id (CRemoveNode p n) (exec o_id (CAddNode p n m) g).1).2 = None /\
  view (exec o_id (CRemoveNode p n) (exec o_id (CAddNode p n m) g).1).1 <> view g.
Proof.
  exists (run (map (pair o_id) [CAddEdge (lit "a") (lit "b") true ∅]) new_graph).1, [], (lit "a"), ∅.
  split; [apply run_reach; [constructor|repeat constructor; apply fair_id]|]. split; [intros k v Hk; rewrite lookup_empty in Hk; discriminate|].
  split; [vm_compute; reflexivity|]. intros E. apply (f_equal (fun s => length (s_edges s))) in E. vm_compute in E. discriminate.
Qed.
Print Assumptions C65_used_refuted.

(** *** Example: a subgraph with two nodes, edges between them and to an old node, on the graph of the example of C13. *)
Definition block : list call :=
  [CAddNode (lit "T") (lit "x") ∅; CAddEdge (lit "a") (lit "x") true ∅; CAddNode (lit "T") (lit "y") {[lit "color" := lit "red"]};
   CAddPortEdge (lit "x") (lit "p") (lit "y") [] false ∅; CAddEdge (lit "T") (lit "b") true ∅; CAddAttr (lit "T") (lit "rank") (lit "same")].
Definition unusedb (s : sgraph) (p n : gostr) : bool :=
  bool_decide (s_nodes s !! n = None) && forallb (fun e => bool_decide (e_src e <> n /\ e_dst e <> n)) (s_edges s) && bool_decide ((p, n) ∉ s_rels s).
Lemma unusedb_ok s p n : unusedb s p n = true -> unused_node s p n.
Proof.
  unfold unusedb. rewrite !andb_true_iff, !bool_decide_eq_true, forallb_forall. intros [[A B] C]. split; [|split].
  - unfold s_is_node. rewrite A. intros [x X]. discriminate.
  - intros e He. specialize (B e (proj1 (elem_of_list_In _ _) He)). apply bool_decide_eq_true in B. exact B.
  - exact C.
Qed.
Definition unused_subb (s : sgraph) (p n : gostr) : bool :=
  negb (str_eqb n (s_name s)) && bool_decide (s_subs s !! n = None) && forallb (fun pc => negb (str_eqb pc.1 n)) (elements (s_rels s)) &&
  bool_decide ((p, n) ∉ s_rels s) &&
  forallb (fun e => bool_decide (e_src e <> n /\ e_dst e <> n /\ e_src_port e <> n /\ e_dst_port e <> n)) (s_edges s).
Lemma unused_subb_ok s p n : unused_subb s p n = true -> unused_sub s p n.
Proof.
  unfold unused_subb. rewrite !andb_true_iff, !bool_decide_eq_true, !forallb_forall, negb_true_iff. intros [[[[A B] C] D] E].
  split; [|split; [|split; [|split]]].
  - intros ->. rewrite (proj2 (str_eqb_eq _ _) eq_refl) in A. discriminate.
  - unfold s_is_sub. rewrite B. intros [x X]. discriminate.
  - intros c Hc. specialize (C (n, c)). unfold is_child in Hc. apply elem_of_elements, elem_of_list_In in Hc. apply C in Hc. cbn in Hc.
    rewrite (proj2 (str_eqb_eq _ _) eq_refl) in Hc. discriminate.
  - exact D.
  - intros e He. specialize (E e (proj1 (elem_of_list_In _ _) He)). apply bool_decide_eq_true in E. exact E.
Qed.
Lemma ex_unused_T : unused_sub (view g1) (lit "G") (lit "T").
Proof. apply unused_subb_ok. vm_compute. reflexivity. Qed.
Lemma ex_unused_x : unused_node (view g1) (lit "G") (lit "x").
Proof. apply unusedb_ok. vm_compute. reflexivity. Qed.
Lemma ex_unused_y : unused_node (view g1) (lit "G") (lit "y").
Proof. apply unusedb_ok. vm_compute. reflexivity. Qed.
Lemma ex_new : new_nodes_of block = {[lit "x"; lit "y"]}.
Proof. apply (bool_decide_unpack _). vm_compute. exact I. Qed.
Lemma ex_fills : Forall (fills (lit "T") {[lit "x"; lit "y"]}) block.
Proof.
  assert (E0 : all_valid ∅) by (intros k v Hk; rewrite lookup_empty in Hk; discriminate).
  assert (E1 : all_valid {[lit "color" := lit "red"]}).
  { intros k v Hk. apply lookup_singleton_Some in Hk. destruct Hk as [<- <-]. apply (bool_decide_unpack _). vm_compute. exact I. }
  unfold block. repeat apply List.Forall_cons; [..|apply List.Forall_nil].
  - exact (conj eq_refl E0).
  - refine (conj (or_intror (or_introl _)) E0). set_solver.
  - exact (conj eq_refl E1).
  - refine (conj (or_introl _) E0). set_solver.
  - exact (conj (or_intror (or_intror (or_introl eq_refl))) E0).
  - refine (conj eq_refl _). apply (bool_decide_unpack _). vm_compute. exact I.
Qed.
Example C65_example : built g1 /\ lit "G" <> lit "T" /\ unused_sub (view g1) (lit "G") (lit "T") /\
  (forall x, x ∈ new_nodes_of block -> unused_node (view g1) (lit "G") x) /\ Forall (fills (lit "T") (new_nodes_of block)) block /\
  new_nodes_of block = {[lit "x"; lit "y"]}.
Proof.
  rewrite ex_new. refine (conj (reachable_built _ reach_g1) (conj _ (conj ex_unused_T (conj _ (conj ex_fills eq_refl))))); [discriminate|].
  intros x Hx. apply elem_of_union in Hx. rewrite !elem_of_singleton in Hx. destruct Hx as [->| ->]; [exact ex_unused_x|exact ex_unused_y].
Qed.
