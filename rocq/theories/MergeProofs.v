(** Laying a graph over another: proofs for C68. *)
From Verif Require Import Base Parser Maps Graph Direct MapFacts SpecGraph GraphProofs DirectProofs Analyse SpecAnalyse AnalyseProofs ReadProofs SpecOrder OrderProofs PropsGraph SpecMerge.
From Verif Require Ast.

Lemma sgraph_ext (s t : sgraph) : s_name s = s_name t -> s_directed s = s_directed t -> s_strict s = s_strict t -> s_attrs s = s_attrs t ->
  s_nodes s = s_nodes t -> s_order s = s_order t -> s_edges s = s_edges t -> s_subs s = s_subs t -> s_rels s = s_rels t -> s = t.
Proof. destruct s, t. cbn. intros. subst. reflexivity. Qed.

Lemma laid_lookup (old new : gmap gostr attrs) (n : gostr) : laid old new !! n =
  match new !! n, old !! n with Some a, Some b => Some (a ∪ b) | Some a, None => Some a | None, x => x end.
Proof. unfold laid. rewrite lookup_union_with. destruct (new !! n), (old !! n); reflexivity. Qed.
Global Arguments laid : simpl never.
Lemma laid_insert (old new : gmap gostr attrs) (n : gostr) (m : attrs) :
  laid old (<[n := m ∪ default ∅ (new !! n)]> new) = <[n := m ∪ default ∅ (laid old new !! n)]> (laid old new).
Proof.
  apply map_eq. intros k. rewrite laid_lookup. destruct (decide (k = n)) as [->|Hk].
  - rewrite !lookup_insert, laid_lookup. destruct (new !! n) as [a|], (old !! n) as [b|]; cbn [default from_option]; unfold id; f_equal;
      rewrite ?(right_id_L ∅ (∪) m), ?(right_id_L ∅ (∪)), ?(assoc_L (∪)); reflexivity.
  - rewrite !lookup_insert_ne by congruence. rewrite laid_lookup. reflexivity.
Qed.
Lemma laid_insert_none (old new : gmap gostr attrs) (n : gostr) :
  laid old (<[n := default ∅ (new !! n)]> new) = <[n := default ∅ (laid old new !! n)]> (laid old new).
Proof.
  pose proof (laid_insert old new n ∅) as H. rewrite !(left_id_L ∅ (∪)) in H. exact H.
Qed.

Lemma overlay_put_node s t p n m : overlay s (s_put_node t p n m) = s_put_node (overlay s t) p n m.
Proof.
  apply sgraph_ext; try reflexivity; cbn [overlay s_put_node s_nodes s_order s_rels].
  - apply laid_insert.
  - rewrite laid_lookup. destruct (s_nodes t !! n) as [a|].
    + destruct (s_nodes s !! n); reflexivity.
    + rewrite filter_app. rewrite filter_cons, filter_nil. destruct (s_nodes s !! n) as [b|] eqn:E.
      * rewrite decide_False by congruence. rewrite app_nil_r. reflexivity.
      * rewrite decide_True by reflexivity. rewrite app_assoc. reflexivity.
  - rewrite (assoc_L (∪)). reflexivity.
Qed.
Lemma overlay_put_attrs s t n m : overlay s (s_put_attrs t n m) = s_put_attrs (overlay s t) n m.
Proof.
  unfold s_put_attrs. change (s_name (overlay s t)) with (s_name t). destruct (decide (s_name t = n)).
  - apply sgraph_ext; try reflexivity. cbn. rewrite (assoc_L (∪)). reflexivity.
  - apply sgraph_ext; try reflexivity. cbn [overlay s_with_subs s_subs]. apply laid_insert.
Qed.
Lemma overlay_open_sub s t p n : overlay s (s_open_sub t p n) = s_open_sub (overlay s t) p n.
Proof.
  apply sgraph_ext; try reflexivity; cbn [overlay s_open_sub s_with_subs s_with_rels s_subs s_rels].
  - apply laid_insert_none.
  - rewrite (assoc_L (∪)). reflexivity.
Qed.
Lemma overlay_build s t c : builds c -> overlay s (s_build t c) = s_build (overlay s t) c.
Proof.
  intros B. destruct c; try contradiction; cbn [s_build].
  - apply sgraph_ext; try reflexivity. cbn. rewrite app_assoc. reflexivity.
  - apply overlay_put_node.
  - apply overlay_put_attrs.
  - rewrite overlay_put_attrs, overlay_open_sub. reflexivity.
Qed.
Lemma overlay_fold s l : forall t, Forall builds l -> overlay s (fold_left s_build l t) = fold_left s_build l (overlay s t).
Proof.
  induction l as [|c l IH]; intros t B; cbn [fold_left]; [reflexivity|]. inversion B; subst.
  rewrite IH by assumption. rewrite overlay_build by assumption. reflexivity.
Qed.

(** Successful calls. *)
Lemma overlay_call s c t t' : no_removal c -> spec_call c t t' None -> spec_call c (overlay s t) (overlay s t') None.
Proof.
  intros A H. inversion H; subst; try contradiction; try (constructor; assumption).
  - match goal with |- spec_call _ _ ?x _ => replace x with (s_with_edges (overlay s t) (s_edges (overlay s t) ++ [Edge a pa b pb dir m])) end; [constructor; assumption|].
    apply sgraph_ext; try reflexivity. cbn. rewrite app_assoc. reflexivity.
  - match goal with |- spec_call _ _ ?x _ => replace x with (s_with_edges (overlay s t) (s_edges (overlay s t) ++ [Edge a [] b [] dir m])) end; [constructor; assumption|].
    apply sgraph_ext; try reflexivity. cbn. rewrite app_assoc. reflexivity.
  - rewrite overlay_put_node. constructor; assumption.
  - rewrite overlay_put_attrs. constructor; [assumption|]. match goal with X : _ \/ _ |- _ => destruct X as [E|E] end; [left; assumption|right].
    unfold s_is_sub in *. cbn [overlay s_subs]. rewrite laid_lookup. destruct E as [x E]. rewrite E. destruct (s_subs s !! n); eauto.
  - rewrite overlay_put_attrs, overlay_open_sub. constructor; assumption.
Qed.
Lemma bad_not_valid m e : bad_attr m e -> all_valid m -> False.
Proof. intros (k & v & H & N & _) A. apply N. eapply A. exact H. Qed.
Lemma success_det c s s1 s2 r : no_removal c -> spec_call c s s1 None -> spec_call c s s2 r -> s1 = s2 /\ r = None.
Proof.
  intros A H H'. inversion H; subst; try contradiction; inversion H'; subst; auto; try (exfalso; eauto using bad_not_valid; fail); exfalso; tauto.
Qed.
Lemma overlay_run s cs : forall t t' rs, Forall no_removal cs -> spec_run cs t t' rs -> Forall (fun r => r = None) rs ->
  forall u us, spec_run cs (overlay s t) u us -> u = overlay s t' /\ Forall (fun r => r = None) us.
Proof.
  induction cs as [|c cs IH]; intros t t' rs A R N u us R'; inversion R; subst; inversion R'; subst; [split; [reflexivity|constructor]|].
  inversion A; subst. inversion N; subst.
  match goal with X : spec_call c t ?t1 None, Y : spec_call c (overlay s t) _ _ |- _ =>
    destruct (success_det c _ _ _ _ ltac:(assumption) (overlay_call s c t t1 ltac:(assumption) X) Y) as [<- ->] end.
  match goal with X : spec_run cs ?t1 t' ?rs1, Y : spec_run cs (overlay s ?t1) _ _ |- _ =>
    destruct (IH t1 t' rs1 ltac:(assumption) X ltac:(assumption) _ _ Y) as [E E'] end. split; [exact E|]. constructor; auto.
Qed.
Lemma overlay_blank s : overlay s (blank s) = s.
Proof.
  apply sgraph_ext; try reflexivity; cbn.
  - apply (left_id_L ∅ (∪)).
  - apply map_eq. intros k. rewrite laid_lookup, lookup_empty. reflexivity.
  - apply app_nil_r.
  - apply app_nil_r.
  - apply map_eq. intros k. rewrite laid_lookup, lookup_empty. reflexivity.
  - apply (left_id_L ∅ (∪)).
Qed.
Lemma laid_laid (s t : gmap gostr attrs) : laid (laid s t) t = laid s t.
Proof.
  apply map_eq. intros k. rewrite !laid_lookup. destruct (t !! k) as [a|], (s !! k) as [b|]; try reflexivity; f_equal;
    rewrite ?(assoc_L (∪)); try rewrite !(idemp_L (∪)); reflexivity.
Qed.
Lemma overlay_again s t : nodes_listed t -> overlay (overlay s t) t = more_edges (overlay s t) (s_edges t).
Proof.
  intros L. apply sgraph_ext; try reflexivity; cbn.
  - rewrite (assoc_L (∪)). rewrite (idemp_L (∪)). reflexivity.
  - apply laid_laid.
  - assert (X : forall l, (forall n, n ∈ l -> is_Some (s_nodes t !! n)) -> filter (fun n => laid (s_nodes s) (s_nodes t) !! n = None) l = []).
    { induction l as [|n l IH]; intros H; [reflexivity|]. rewrite filter_cons. rewrite decide_False.
      - apply IH. intros n' Hn. apply H. apply elem_of_cons. auto.
      - rewrite laid_lookup. destruct (H n) as [x ->]; [apply elem_of_cons; auto|]. destruct (s_nodes s !! n); discriminate. }
    rewrite (X (s_order t)); [apply app_nil_r|]. intros n. apply L.
  - apply laid_laid.
  - set_solver.
Qed.
Lemma overlay_assoc s t u : overlay (overlay s t) u = overlay s (overlay t u).
Proof.
  apply sgraph_ext; try reflexivity; cbn.
  - rewrite (assoc_L (∪)). reflexivity.
  - apply map_eq. intros k. rewrite !laid_lookup. destruct (s_nodes s !! k), (s_nodes t !! k), (s_nodes u !! k); try reflexivity. rewrite (assoc_L (∪)). reflexivity.
  - rewrite <- app_assoc. f_equal. rewrite filter_app. f_equal. induction (s_order u) as [|n l IH]; [reflexivity|].
    rewrite (filter_cons (fun n => s_nodes t !! n = None)). rewrite filter_cons, laid_lookup.
    destruct (s_nodes t !! n) as [x|] eqn:E.
    + rewrite decide_False by (destruct (s_nodes s !! n); discriminate). rewrite decide_False by discriminate. exact IH.
    + rewrite (decide_True (P := None = None)) by reflexivity. rewrite filter_cons. destruct (decide (s_nodes s !! n = None)); rewrite IH; reflexivity.
  - rewrite app_assoc. reflexivity.
  - apply map_eq. intros k. rewrite !laid_lookup. destruct (s_subs s !! k), (s_subs t !! k), (s_subs u !! k); try reflexivity. rewrite (assoc_L (∪)). reflexivity.
  - set_solver.
Qed.

(** ** Analysing into a graph *)
Lemma make_calls_built (os : nat -> oracle) (cs : list call) : (forall i, fair (os i)) -> forall g i, built g ->
  built (make_calls (graph_step os) cs (g, i)).1.1 /\
  spec_run cs (view g) (view (make_calls (graph_step os) cs (g, i)).1.1) (make_calls (graph_step os) cs (g, i)).2.
Proof.
  intros F. induction cs as [|c cs IH]; intros g i R; cbn [make_calls]; [split; [exact R|constructor]|].
  unfold graph_step at 1 3 5. pose proof (C23_refinement_step (os i) c g (F i) R) as HS.
  pose proof (built_call g (os i) c R (F i)) as R'.
  destruct (exec (os i) c g) as [g' r]. cbn [fst snd] in *. specialize (IH g' (Datatypes.S i) R').
  destruct (make_calls (graph_step os) cs (g', Datatypes.S i)) as [[g2 j] rs]. cbn [fst snd] in *. destruct IH as [IH1 IH2].
  split; [exact IH1|]. econstructor; eassumption.
Qed.
Definition head (s : sgraph) (a : Ast.graph) : sgraph :=
  SGraph (Ast.g_id a) (Ast.g_type a) (Ast.g_strict a) (s_attrs s) (s_nodes s) (s_order s) (s_edges s) (s_subs s) (s_rels s).
Lemma overlay_start s a : overlay s (s_start a) = head s a.
Proof.
  apply sgraph_ext; try reflexivity; cbn.
  - apply (left_id_L ∅ (∪)).
  - apply map_eq. intros k. rewrite laid_lookup, lookup_empty. reflexivity.
  - apply app_nil_r.
  - apply app_nil_r.
  - apply map_eq. intros k. rewrite laid_lookup, lookup_empty. reflexivity.
  - apply (left_id_L ∅ (∪)).
Qed.
Lemma head_has s a : forall n, n ∈ [Ast.g_id a] -> has_attrs (head s a) n.
Proof. intros n Hn. apply elem_of_list_singleton in Hn. subst. left. reflexivity. Qed.
Lemma analysed_into os ord a g i : (forall i, fair (os i)) -> fair_order ord -> built g -> exists l,
  body_calls (Ast.g_id a) ∅ ∅ [] (Ast.g_stmts a) l /\
  built (analyse _ (graph_step os) ord a (g, i)).1.1 /\
  match (analyse _ (graph_step os) ord a (g, i)).2 with
  | None => Forall call_ok l /\ view (analyse _ (graph_step os) ord a (g, i)).1.1 = fold_left s_build l (head (view g) a)
  | Some _ => ~ Forall call_ok l
  end.
Proof.
  intros Fo Ford R. destruct (analyse_calls ord a Ford) as (cs & (l & HB & ->) & H). exists l. split; [exact HB|].
  rewrite H.
  destruct (make_calls_built os ([CSetStrict (Ast.g_strict a); CSetDir (Ast.g_type a); CSetName (Ast.g_id a)] ++ l) Fo g i R) as [R' Sp].
  destruct (make_calls _ _ _) as [[g' i'] rs]. cbn [fst snd] in *. split; [exact R'|].
  cbn [app] in Sp. inversion Sp as [|? ? ? s1 ? r1 rs1 C1 Sp1]; subst. inversion Sp1 as [|? ? ? s2 ? r2 rs2 C2 Sp2]; subst. inversion Sp2 as [|? ? ? s3 ? r3 rs3 C3 Sp3]; subst.
  inversion C1; subst. inversion C2; subst. inversion C3; subst. cbn in Sp3.
  pose proof (spec_run_ok l _ _ _ [Ast.g_id a] (body_builds _ _ _ _ _ _ HB) (body_wp _ _ _ _ _ _ HB [Ast.g_id a] ltac:(apply elem_of_list_singleton; reflexivity)) (head_has (view g) a) Sp3) as HO.
  destruct (get_error (errors (None :: None :: None :: rs3))) eqn:E.
  - intros HF. apply HO in HF. assert (get_error (errors (None :: None :: None :: rs3)) = None); [|congruence].
    apply errors_nil. repeat (constructor; [reflexivity|]). exact HF.
  - apply errors_nil in E. repeat (apply Forall_cons in E; destruct E as [_ E]). split; [apply HO; exact E|].
    apply (spec_run_build l _ _ rs3); [eapply body_builds; exact HB|exact E|exact Sp3].
Qed.
Lemma body_same_build name B l l' s : body_calls name ∅ ∅ [] B l -> body_calls name ∅ ∅ [] B l' -> s_name s = name ->
  fold_left s_build l s = fold_left s_build l' s.
Proof.
  intros H H' E. eapply (trace_eq_build l l' (body_det _ _ _ _ _ _ H _ H') [name]); [eapply body_wp; [exact H|]; apply elem_of_list_singleton; reflexivity|].
  intros n Hn. apply elem_of_list_singleton in Hn. subst. left. reflexivity.
Qed.

(** ** Two parts of a body *)
Definition present (s : sgraph) (name n : gostr) : Prop := s_is_node s n /\ is_child s name n.
Lemma put_attrs_nodes s n m : s_nodes (s_put_attrs s n m) = s_nodes s.
Proof. unfold s_put_attrs. destruct (decide _); reflexivity. Qed.
Lemma put_attrs_rels s n m : s_rels (s_put_attrs s n m) = s_rels s.
Proof. unfold s_put_attrs. destruct (decide _); reflexivity. Qed.
Lemma present_build s c p n : present s p n -> present (s_build s c) p n.
Proof.
  unfold present, s_is_node, is_child. intros [H H']. destruct c; cbn [s_build]; try (split; assumption); rewrite ?put_attrs_nodes, ?put_attrs_rels; cbn; try (split; assumption).
  - split; [apply lookup_insert_is_Some'; auto|apply elem_of_union_r; assumption].
  - split; [assumption|apply elem_of_union_r; assumption].
Qed.
Lemma present_fold l p n : forall s, present s p n -> present (fold_left s_build l s) p n.
Proof. induction l as [|c l IH]; intros s H; cbn [fold_left]; [exact H|]. apply IH, present_build, H. Qed.
Lemma present_added l p n m : CAddNode p n m ∈ l -> forall s, present (fold_left s_build l s) p n.
Proof.
  induction l as [|c l IH]; intros H s; [inversion H|]. cbn [fold_left]. apply elem_of_cons in H. destruct H as [<-|H]; [|apply IH, H].
  apply present_fold. unfold present, s_is_node, is_child. cbn. rewrite lookup_insert. split; [eauto|]. apply elem_of_union_l, elem_of_singleton. reflexivity.
Qed.
Lemma put_present s p n : present s p n -> s_put_node s p n ∅ = s.
Proof.
  unfold present, s_is_node, is_child. intros [[x H] H']. apply sgraph_ext; try reflexivity; cbn; rewrite ?H.
  - cbn. rewrite (left_id_L ∅ (∪)). apply insert_id. exact H.
  - reflexivity.
  - set_solver.
Qed.
(** The calls of a block may be dropped where they only name present nodes. *)
Definition harmless (l l' : list call) (p : gostr) (N : list gostr) : Prop :=
  (Forall call_ok l <-> Forall call_ok l') /\ forall s, (forall n, n ∈ N -> present s p n) -> fold_left s_build l s = fold_left s_build l' s.
Lemma harmless_refl l p N : harmless l l p N.
Proof. split; [reflexivity|auto]. Qed.
Lemma harmless_app l1 l1' l2 l2' p N : harmless l1 l1' p N -> harmless l2 l2' p N -> harmless (l1 ++ l2) (l1' ++ l2') p N.
Proof.
  intros [O E] [O' E']. split; [rewrite !Forall_app, O, O'; reflexivity|]. intros s H. rewrite !fold_left_app. rewrite (E s H).
  apply E'. intros n Hn. apply present_fold. auto.
Qed.
Lemma ok_empty_node p n : call_ok (CAddNode p n ∅).
Proof. intros k [x H]. rewrite lookup_empty in H. discriminate. Qed.
Lemma harmless_endpoint p N (seen : list gostr) lo : harmless (endpoint_call p ∅ (N ++ seen) lo) (endpoint_call p ∅ seen lo) p N.
Proof.
  destruct lo as [n|g]; cbn; [|apply harmless_refl]. destruct (decide (Ast.nid_id n ∈ N ++ seen)) as [X|X]; destruct (decide (Ast.nid_id n ∈ seen)) as [Y|Y]; try apply harmless_refl.
  - split; [split; intros _; [constructor; [apply ok_empty_node|constructor]|constructor]|]. intros s H. cbn [fold_left s_build]. symmetry. apply put_present. apply H.
    apply elem_of_app in X. destruct X; [assumption|contradiction].
  - destruct X. apply elem_of_app. auto.
Qed.
Lemma harmless_arrows p N m rhs : forall (seen : list gostr) src, harmless (arrow_calls p ∅ m (N ++ seen) src rhs) (arrow_calls p ∅ m seen src rhs) p N.
Proof.
  induction rhs as [|[op dst] rhs IH]; intros seen src; cbn [arrow_calls]; [apply harmless_refl|].
  apply harmless_app; [apply harmless_endpoint|]. rewrite <- app_assoc. apply (harmless_app [_] [_]); [apply harmless_refl|apply IH].
Qed.
Lemma node_defaults_none (q : list Ast.stmt) : Forall no_node_default q -> forall d, node_defaults d q = d.
Proof. induction 1 as [|s q Hs _ IH]; intros d; [reflexivity|]. destruct s; cbn; try apply IH. contradiction. Qed.
Lemma defaults_app (q2 q1 : list Ast.stmt) : Forall no_default q1 -> forall d,
  edge_defaults d (q1 ++ q2) = edge_defaults d q2 /\ graph_defaults d (q1 ++ q2) = graph_defaults d q2 /\ node_defaults d (q1 ++ q2) = node_defaults d q2.
Proof. induction 1 as [|s q Hs _ IH]; intros d; [auto|]. destruct s; cbn; try apply IH; contradiction. Qed.
Lemma sub_shift name (q1 q2 : list Ast.stmt) g l : Forall no_default q1 -> sub_calls name ∅ ∅ (q1 ++ q2) g l -> sub_calls name ∅ ∅ q2 g l.
Proof.
  intros D H. inversion H; subst. destruct (defaults_app q2 q1 D ∅) as (E1 & E2 & E3).
  match goal with X : body_calls _ _ _ _ _ _ |- _ => rewrite E1, E3 in X end. rewrite E2. constructor. assumption.
Qed.
Lemma locs_shift name (q1 q2 : list Ast.stmt) ls : Forall no_default q1 -> forall l, locs_calls name ∅ ∅ (q1 ++ q2) ls l -> locs_calls name ∅ ∅ q2 ls l.
Proof.
  intros D. induction ls as [|lo ls IH]; intros l H; inversion H; subst; [constructor|constructor; apply IH; assumption|].
  constructor; [eapply sub_shift; eassumption|apply IH; assumption].
Qed.
Lemma body_shift name (q1 B : list Ast.stmt) : Forall no_default q1 -> forall q2 l, Forall no_node_default q2 -> Forall no_node_default B ->
  body_calls name ∅ ∅ (q1 ++ q2) B l -> exists l', body_calls name ∅ ∅ q2 B l' /\ harmless l l' name (mentioned q1).
Proof.
  intros D. induction B as [|s B IH]; intros q2 l N NB H; inversion H as [|? ? ? ? ? ? l1 l2 Hs HB]; subst.
  { exists []. split; [constructor|apply harmless_refl]. }
  inversion NB; subst. rewrite <- app_assoc in HB. destruct (IH (q2 ++ [s]) l2) as (l2' & B2 & HH2); [apply Forall_app; auto|assumption|exact HB|].
  assert (X : exists l1', stmt_calls name ∅ ∅ q2 s l1' /\ harmless l1 l1' name (mentioned q1)).
  { destruct (defaults_app q2 q1 D ∅) as (E1 & E2 & E3). pose proof (node_defaults_none q2 N ∅) as E4. inversion Hs; subst.
    - eexists. split; [constructor|]. rewrite E3, E4. destruct (decide _), (decide _); apply harmless_refl.
    - eexists. split; [constructor; eapply locs_shift; eassumption|]. rewrite E1, E3, E4. apply harmless_app; [|apply harmless_refl].
      unfold mentioned. rewrite flat_map_app. fold (mentioned q1) (mentioned q2). apply harmless_app; [apply harmless_endpoint|].
      rewrite <- app_assoc. apply harmless_arrows.
    - eexists. split; [constructor|apply harmless_refl].
    - eexists. split; [constructor|apply harmless_refl].
    - eexists. split; [constructor; eassumption|apply harmless_refl].
    - eexists. split; [constructor; eapply sub_shift; eassumption|apply harmless_refl].
    - eexists. split; [constructor|apply harmless_refl]. }
  destruct X as (l1' & S1 & HH1). exists (l1' ++ l2'). split; [econstructor; eassumption|apply harmless_app; assumption].
Qed.
Lemma build_name c s : s_name (s_build s c) = s_name s /\ s_directed (s_build s c) = s_directed s /\ s_strict (s_build s c) = s_strict s.
Proof. destruct c; cbn [s_build]; try (split; [reflexivity|split; reflexivity]); unfold s_put_attrs; destruct (decide _); repeat split. Qed.
Lemma fold_name l : forall s, s_name (fold_left s_build l s) = s_name s /\ s_directed (fold_left s_build l s) = s_directed s /\ s_strict (fold_left s_build l s) = s_strict s.
Proof. induction l as [|c l IH]; intros s; cbn [fold_left]; [auto|]. destruct (IH (s_build s c)) as (-> & -> & ->). apply build_name. Qed.
Lemma head_same s a : s_name s = Ast.g_id a -> s_directed s = Ast.g_type a -> s_strict s = Ast.g_strict a -> head s a = s.
Proof. intros. apply sgraph_ext; cbn; auto. Qed.
