(** Printing forgets nothing that the analysis looks at: the normalised AST stands for the same calls. *)
From Verif Require Import Base Parser Maps Graph AttrMap MapFacts SpecGraph GraphProofs Analyse SpecAnalyse AnalyseProofs ReadProofs SpecAst.
From Verif Require AstProofs.
From Verif Require Ast.

Lemma given_norm a : given (norm_attrs a) = given a.
Proof.
  rewrite <- !get_map_given. unfold get_map. generalize (∅ : attrs). induction a as [|al a IH]; intros m; [reflexivity|]. cbn [norm_attrs List.filter].
  destruct al as [|x al]; cbn [fold_left]; apply IH.
Qed.
Lemma given_dropped a : norm_attrs a = [] -> given a = ∅.
Proof. intros H. rewrite <- given_norm, H. reflexivity. Qed.
Lemma norm_stmts_app l l' : norm_stmts (l ++ l') = norm_stmts l ++ norm_stmts l'.
Proof. apply flat_map_app. Qed.
Lemma norm_nd pre : forall d, node_defaults d (norm_stmts pre) = node_defaults d pre.
Proof.
  induction pre as [|s pre IH]; intros d; [reflexivity|]. cbn [norm_stmts flat_map].
  destruct s; cbn [keep]; try (destruct (norm_attrs a) eqn:E); cbn [app norm_stmt node_defaults]; try apply IH.
  - rewrite (given_dropped a E), (left_id_L ∅ (∪)). apply IH.
  - rewrite given_norm. apply IH.
Qed.
Lemma norm_ed pre : forall d, edge_defaults d (norm_stmts pre) = edge_defaults d pre.
Proof.
  induction pre as [|s pre IH]; intros d; [reflexivity|]. cbn [norm_stmts flat_map].
  destruct s; cbn [keep]; try (destruct (norm_attrs a) eqn:E); cbn [app norm_stmt edge_defaults]; try apply IH.
  - rewrite (given_dropped a E), (left_id_L ∅ (∪)). apply IH.
  - rewrite given_norm. apply IH.
Qed.
Lemma norm_gd pre : forall d, graph_defaults d (norm_stmts pre) = graph_defaults d pre.
Proof.
  induction pre as [|s pre IH]; intros d; [reflexivity|]. cbn [norm_stmts flat_map].
  destruct s; cbn [keep]; try (destruct (norm_attrs a) eqn:E); cbn [app norm_stmt graph_defaults]; try apply IH.
  - rewrite (given_dropped a E), (left_id_L ∅ (∪)). apply IH.
  - rewrite given_norm. apply IH.
Qed.
Definition norm_rh (e : Ast.edge_rh) : Ast.edge_rh := match e with Ast.EdgeRH o d => Ast.EdgeRH o (norm_loc d) end.
Lemma norm_plain l : plain (norm_loc l) = plain l.
Proof. destruct l as [n|[i b]]; reflexivity. Qed.
Lemma norm_loc_id l : end_name (norm_loc l) = end_name l.
Proof. destruct l as [n|[i b]]; reflexivity. Qed.
Lemma norm_loc_port l : end_port (norm_loc l) = end_port l.
Proof. destruct l as [n|[i b]]; reflexivity. Qed.
Lemma norm_mentions s : mentions (norm_stmt s) = mentions s.
Proof.
  destruct s; try reflexivity. cbn [norm_stmt mentions]. rewrite norm_plain. f_equal. rewrite flat_map_concat_map, map_map, flat_map_concat_map.
  f_equal. apply map_ext. intros [o d]. cbn. apply norm_plain.
Qed.
Lemma norm_mentioned pre : mentioned (norm_stmts pre) = mentioned pre.
Proof.
  induction pre as [|s pre IH]; [reflexivity|]. cbn [norm_stmts flat_map]. unfold norm_stmts in IH.
  rewrite mentioned_app, IH. cbn [mentioned flat_map]. f_equal.
  assert (K : keep s = false -> mentions s = []) by (destruct s; cbn; congruence).
  destruct (keep s); cbn; [rewrite app_nil_r; apply norm_mentions|symmetry; apply K; reflexivity].
Qed.
Lemma norm_endpoint name d seen l : endpoint_call name d seen (norm_loc l) = endpoint_call name d seen l.
Proof. destruct l as [n|[i b]]; reflexivity. Qed.
Lemma norm_arrows name d m rhs : forall seen src,
  arrow_calls name d m seen (norm_loc src) (map norm_rh rhs) = arrow_calls name d m seen src rhs.
Proof.
  induction rhs as [|[o dst] rhs IH]; intros seen src; [reflexivity|]. cbn [map norm_rh arrow_calls].
  rewrite norm_endpoint, norm_plain, !norm_loc_id, !norm_loc_port, IH. reflexivity.
Qed.

Lemma norm_calls :
  (forall name nd ed pre s l, stmt_calls name nd ed pre s l -> stmt_calls name nd ed (norm_stmts pre) (norm_stmt s) l) /\
  (forall name nd ed pre ls l, locs_calls name nd ed pre ls l -> locs_calls name nd ed (norm_stmts pre) (map norm_loc ls) l) /\
  (forall name nd ed pre g l, sub_calls name nd ed pre g l -> sub_calls name nd ed (norm_stmts pre) (norm_sub g) l) /\
  (forall name nd ed pre body l, body_calls name nd ed pre body l -> body_calls name nd ed (norm_stmts pre) (norm_stmts body) l).
Proof.
  apply (calls_ind (fun name nd ed pre s l => stmt_calls name nd ed (norm_stmts pre) (norm_stmt s) l)
    (fun name nd ed pre ls l => locs_calls name nd ed (norm_stmts pre) (map norm_loc ls) l)
    (fun name nd ed pre g l => sub_calls name nd ed (norm_stmts pre) (norm_sub g) l)
    (fun name nd ed pre body l => body_calls name nd ed (norm_stmts pre) (norm_stmts body) l)).
  - intros name nd ed pre n a. cbn [norm_stmt].
    pose proof (Sc_node name nd ed (norm_stmts pre) n (norm_attrs a)) as H. rewrite norm_nd, norm_mentioned, given_norm in H. exact H.
  - intros name nd ed pre src rhs a l _ IH. cbn [norm_stmt].
    assert (E : map norm_loc (src :: map dst_of rhs) = norm_loc src :: map dst_of (map norm_rh rhs)).
    { cbn [map]. f_equal. rewrite !map_map. apply map_ext. intros [o d]. reflexivity. }
    rewrite E in IH. pose proof (Sc_edge name nd ed (norm_stmts pre) (norm_loc src) (map norm_rh rhs) (norm_attrs a) l IH) as H.
    rewrite norm_nd, norm_ed, norm_mentioned, given_norm, norm_plain, norm_endpoint, norm_arrows in H. exact H.
  - intros. constructor.
  - intros. constructor.
  - intros name nd ed pre a l P. apply Sc_graph_attrs. rewrite given_norm. exact P.
  - intros name nd ed pre g l _ IH. apply Sc_sub. exact IH.
  - intros. constructor.
  - intros. constructor.
  - intros. constructor. assumption.
  - intros. cbn [map norm_loc]. constructor; assumption.
  - intros name nd ed pre id body l _ IH. rewrite <- (norm_gd pre).
    apply (Gc name nd ed (norm_stmts pre) id (norm_stmts body)). rewrite norm_nd, norm_ed. exact IH.
  - intros. constructor.
  - intros name nd ed pre s body l l' HS IHS _ IHB. rewrite norm_stmts_app in IHB. cbn [norm_stmts flat_map] in *. rewrite app_nil_r in IHB.
    destruct (keep s) eqn:K.
    + cbn [app]. econstructor; eassumption.
    + rewrite app_nil_r in IHB. assert (l = []) as ->; [|exact IHB].
      clear -HS K. destruct HS; cbn in K; try discriminate; try reflexivity. destruct (norm_attrs a) eqn:E; [|discriminate].
      rewrite (given_dropped a E), map_to_list_empty in H. symmetry in H. apply Permutation_nil in H. subst. reflexivity.
Qed.
Lemma norm_graph_calls a cs : graph_calls a cs -> graph_calls (norm_graph a) cs.
Proof. intros (l & H & ->). exists l. split; [|reflexivity]. exact (proj2 (proj2 (proj2 norm_calls)) _ _ _ _ _ _ H). Qed.

(** So the analysis of the normalised AST succeeds iff that of the AST does, with the same content. *)
Lemma norm_analysed os ord os' ord' a : (forall i, fair (os i)) -> fair_order ord -> (forall i, fair (os' i)) -> fair_order ord' ->
  match new_analysed_graph os ord a, new_analysed_graph os' ord' (norm_graph a) with
  | inl g, inl g' => view g = view g'
  | inr _, inr _ => True
  | _, _ => False
  end.
Proof.
  intros F O F' O'. destruct (analysed_graph os ord a F O) as (l & B & H). destruct (analysed_graph os' ord' (norm_graph a) F' O') as (l' & B' & H').
  pose proof (proj2 (proj2 (proj2 norm_calls)) _ _ _ _ _ _ B) as BN. pose proof (body_det _ _ _ _ _ _ BN _ B') as T.
  pose proof (trace_eq_ok _ _ T) as TO.
  destruct (new_analysed_graph os ord a), (new_analysed_graph os' ord' (norm_graph a)); try tauto.
  destruct H as (_ & _ & ->), H' as (_ & _ & ->).
  apply (trace_eq_build l l' T [Ast.g_id a]).
  - apply (body_wp _ _ _ _ _ _ B). apply elem_of_list_singleton. reflexivity.
  - intros n Hn. apply elem_of_list_singleton in Hn. subst. left. reflexivity.
Qed.
