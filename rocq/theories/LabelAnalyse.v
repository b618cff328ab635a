(** Proofs for C75: analysing a tree with other names. *)
From Verif Require Import Base Parser Maps Graph AttrMap MapFacts SpecGraph GraphProofs Analyse SpecAnalyse AnalyseProofs ReadProofs SpecWrite SpecRename SpecLabel LabelProofs.
From Verif Require Ast.

Section Label.
  Variable nm : gostr -> gostr.
  Context {HI : Inj (=) (=) nm}.
  Notation LC := (lb_call nm id id).
  Notation RS := (ren_stmt nm nm).
  Notation RL := (ren_loc nm nm).

  Lemma la_id (m : attrs) : lb_attrs id m = m.
  Proof. apply map_fmap_id. Qed.

  Lemma nd_ren pre : forall d, node_defaults d (map RS pre) = node_defaults d pre.
  Proof. induction pre as [|s pre IH]; intros d; [reflexivity|]. destruct s; cbn; apply IH. Qed.
  Lemma ed_ren pre : forall d, edge_defaults d (map RS pre) = edge_defaults d pre.
  Proof. induction pre as [|s pre IH]; intros d; [reflexivity|]. destruct s; cbn; apply IH. Qed.
  Lemma gd_ren pre : forall d, graph_defaults d (map RS pre) = graph_defaults d pre.
  Proof. induction pre as [|s pre IH]; intros d; [reflexivity|]. destruct s; cbn; apply IH. Qed.

  Lemma plain_ren l : plain (RL l) = map nm (plain l).
  Proof. destruct l as [n|[i b]]; reflexivity. Qed.
  Lemma end_name_ren l : end_name (RL l) = nm (end_name l).
  Proof. destruct l as [n|[i b]]; reflexivity. Qed.
  Lemma end_port_ren l : end_port (RL l) = end_port l.
  Proof. destruct l as [n|[i b]]; reflexivity. Qed.
  Lemma dst_ren e : dst_of (ren_rh nm nm e) = RL (dst_of e).
  Proof. destruct e; reflexivity. Qed.

  Definition whole (n : Ast.node_id) : Prop := nm (node_text n) = nm (Ast.nid_id n) ++ port_text (Ast.nid_port n).
  Definition wholes (l : list Ast.stmt) : Prop := forall n a, in_stmts l (Ast.SNode n a) -> whole n.
  Lemma text_ren n : whole n -> node_text (ren_id nm n) = nm (node_text n).
  Proof. intros H. unfold node_text. cbn. rewrite <- H. reflexivity. Qed.

  Lemma in_stmts_incl l : forall l' st, (forall x, x ∈ l -> x ∈ l') -> in_stmts l st -> in_stmts l' st.
  Proof.
    intros l' st H K. destruct K.
    - apply In_here. auto.
    - eapply In_sub; eauto.
    - eapply In_src; eauto.
    - eapply In_dst; eauto.
  Qed.
  Lemma wholes_incl l l' : (forall x, x ∈ l -> x ∈ l') -> wholes l' -> wholes l.
  Proof. intros H W n a K. apply (W n a). eapply in_stmts_incl; eauto. Qed.
  Definition wholes_loc (l : Ast.location) : Prop := match l with Ast.LNode _ => True | Ast.LSub (Ast.SubGraph _ body) => wholes body end.

  Definition node_whole (pre : list Ast.stmt) : Prop := forall n a, Ast.SNode n a ∈ pre -> whole n.
  Lemma mentions_ren s : node_whole [s] -> mentions (RS s) = map nm (mentions s).
  Proof.
    intros W. destruct s as [n a|src l a| | | | |]; cbn; try reflexivity.
    - f_equal. apply text_ren. apply (W n a). apply elem_of_list_singleton. reflexivity.
    - rewrite plain_ren, map_app. f_equal. clear. induction l as [|e rhs IH]; cbn; [reflexivity|]. rewrite dst_ren, plain_ren, IH, map_app. reflexivity.
  Qed.
  Lemma mentioned_ren pre : node_whole pre -> mentioned (map RS pre) = map nm (mentioned pre).
  Proof.
    induction pre as [|s pre IH]; intros W; [reflexivity|]. cbn. rewrite map_app. f_equal.
    - apply mentions_ren. intros n a H. apply (W n a). apply elem_of_list_singleton in H. rewrite H. left.
    - apply IH. intros n a H. apply (W n a). right. exact H.
  Qed.
  Lemma in_map_inj (x : gostr) (l : list gostr) : nm x ∈ map nm l <-> x ∈ l.
  Proof. split; [|apply elem_of_list_fmap_1]. intros H. apply elem_of_list_fmap in H. destruct H as (y & E & H). apply HI in E. by subst. Qed.

  Lemma endpoint_ren name d seen l : endpoint_call (nm name) d (map nm seen) (RL l) = map LC (endpoint_call name d seen l).
  Proof.
    destruct l as [n|[i b]]; [|reflexivity]. cbn. destruct (decide (Ast.nid_id n ∈ seen)) as [H|H].
    - rewrite decide_True by (apply in_map_inj; exact H). reflexivity.
    - rewrite decide_False by (rewrite in_map_inj; exact H). cbn. rewrite la_id. reflexivity.
  Qed.
  Lemma arrows_ren name d m rhs : forall seen src,
    arrow_calls (nm name) d m (map nm seen) (RL src) (map (ren_rh nm nm) rhs) = map LC (arrow_calls name d m seen src rhs).
  Proof.
    induction rhs as [|[o dst] rhs IH]; intros seen src; [reflexivity|]. cbn [map ren_rh arrow_calls].
    rewrite endpoint_ren, plain_ren, <- map_app, !end_name_ren, !end_port_ren, IH, map_app. cbn [map lb_call]. rewrite la_id. reflexivity.
  Qed.

  Lemma ren_calls :
    (forall name nd ed pre s l, stmt_calls name nd ed pre s l -> node_whole pre -> wholes [s] -> stmt_calls (nm name) nd ed (map RS pre) (RS s) (map LC l)) /\
    (forall name nd ed pre ls l, locs_calls name nd ed pre ls l -> node_whole pre -> Forall wholes_loc ls -> locs_calls (nm name) nd ed (map RS pre) (map RL ls) (map LC l)) /\
    (forall name nd ed pre g l, sub_calls name nd ed pre g l -> node_whole pre -> wholes_loc (Ast.LSub g) -> sub_calls (nm name) nd ed (map RS pre) (ren_tree nm nm g) (map LC l)) /\
    (forall name nd ed pre body l, body_calls name nd ed pre body l -> node_whole pre -> wholes body -> body_calls (nm name) nd ed (map RS pre) (map RS body) (map LC l)).
  Proof.
    apply (calls_ind (fun name nd ed pre s l => node_whole pre -> wholes [s] -> stmt_calls (nm name) nd ed (map RS pre) (RS s) (map LC l))
      (fun name nd ed pre ls l => node_whole pre -> Forall wholes_loc ls -> locs_calls (nm name) nd ed (map RS pre) (map RL ls) (map LC l))
      (fun name nd ed pre g l => node_whole pre -> wholes_loc (Ast.LSub g) -> sub_calls (nm name) nd ed (map RS pre) (ren_tree nm nm g) (map LC l))
      (fun name nd ed pre body l => node_whole pre -> wholes body -> body_calls (nm name) nd ed (map RS pre) (map RS body) (map LC l))).
    - intros name nd ed pre n a WP W. cbn [ren_stmt map lb_call]. rewrite la_id.
      pose proof (Sc_node (nm name) nd ed (map RS pre) (ren_id nm n) a) as H.
      rewrite nd_ren, mentioned_ren in H by exact WP. rewrite text_ren in H by (apply (W n a); apply In_here; apply elem_of_list_singleton; reflexivity).
      destruct (decide (node_text n ∈ mentioned pre)) as [D|D].
      + rewrite decide_True in H by (apply in_map_inj; exact D). exact H.
      + rewrite decide_False in H by (rewrite in_map_inj; exact D). exact H.
    - intros name nd ed pre src rhs a l _ IH WP W. cbn [ren_stmt].
      assert (WL : Forall wholes_loc (src :: map dst_of rhs)).
      { constructor.
        - destruct src as [n|[i b]]; cbn; [exact I|]. intros n' a' K. apply (W n' a'). eapply In_src; [apply elem_of_list_singleton; reflexivity|exact K].
        - apply Forall_forall. intros x Hx. apply elem_of_list_fmap in Hx. destruct Hx as ([op d] & -> & Hx). cbn. destruct d as [n|[i b]]; cbn; [exact I|].
          intros n' a' K. apply (W n' a'). eapply In_dst; [apply elem_of_list_singleton; reflexivity|exact Hx|exact K]. }
      specialize (IH WP WL).
      assert (E : map RL (src :: map dst_of rhs) = RL src :: map dst_of (map (ren_rh nm nm) rhs)).
      { cbn [map]. f_equal. rewrite !map_map. apply map_ext. intros e. symmetry. apply dst_ren. }
      rewrite E in IH. pose proof (Sc_edge (nm name) nd ed (map RS pre) (RL src) (map (ren_rh nm nm) rhs) a _ IH) as H.
      rewrite nd_ren, ed_ren, mentioned_ren, plain_ren, <- map_app, endpoint_ren, arrows_ren, <- !map_app in H by exact WP. exact H.
    - intros. constructor.
    - intros. constructor.
    - intros name nd ed pre a l P _ _. cbn [ren_stmt]. rewrite map_map. cbn. apply Sc_graph_attrs. exact P.
    - intros name nd ed pre g l _ IH WP W. cbn [ren_stmt]. apply Sc_sub. apply IH; [exact WP|].
      destruct g as [i b]. cbn. intros n a K. apply (W n a). eapply In_sub; [apply elem_of_list_singleton; reflexivity|exact K].
    - intros. cbn. constructor.
    - intros. constructor.
    - intros name nd ed pre n ls l _ IH WP W. apply Forall_cons in W. cbn [map ren_loc]. constructor. apply IH; [exact WP|apply W].
    - intros name nd ed pre g ls l l' _ IH1 _ IH2 WP W. apply Forall_cons in W. destruct W as [W1 W2]. cbn [map ren_loc]. rewrite map_app. constructor; auto.
    - intros name nd ed pre id body l _ IH WP W. cbn [ren_tree map lb_call]. rewrite la_id, <- (gd_ren pre).
      apply (Gc (nm name) nd ed (map RS pre) (nm id) (map RS body)). rewrite nd_ren, ed_ren. apply (IH (fun n a K => match not_elem_of_nil _ K with end) W).
    - intros. constructor.
    - intros name nd ed pre s body l l' _ IH1 _ IH2 WP W. cbn [map]. rewrite map_app. econstructor.
      + apply IH1; [exact WP|]. eapply wholes_incl; [|exact W]. intros x Hx. apply elem_of_list_singleton in Hx. subst. left.
      + rewrite map_app in IH2. cbn [map] in IH2. apply IH2.
        * intros n a K. apply elem_of_app in K. destruct K as [K|K]; [exact (WP n a K)|]. apply elem_of_list_singleton in K. subst. apply (W n a). apply In_here. left.
        * eapply wholes_incl; [|exact W]. intros x Hx. right. exact Hx.
  Qed.

  Lemma lb_build s c : named nm (s_build s c) = s_build (named nm s) (LC c).
  Proof.
    unfold named. destruct c; try reflexivity.
    - cbn [s_build lb_call]. rewrite lg_with_edges, map_app. reflexivity.
    - cbn [s_build lb_call]. apply lg_put_node. exact HI.
    - cbn [s_build lb_call]. rewrite lg_put_attrs, la_single by exact HI. reflexivity.
    - cbn [s_build lb_call]. rewrite lg_put_attrs, lg_open by exact HI. reflexivity.
  Qed.
  Lemma lb_builds l : forall s, named nm (fold_left s_build l s) = fold_left s_build (map LC l) (named nm s).
  Proof. induction l as [|c l IH]; intros s; [reflexivity|]. cbn [fold_left map]. rewrite IH, lb_build. reflexivity. Qed.
  Lemma lb_uses c k : uses (LC c) k <-> uses c k.
  Proof. destruct c; cbn; rewrite ?la_id; reflexivity. Qed.
  Lemma lb_ok (l : list call) : Forall call_ok (map LC l) <-> Forall call_ok l.
  Proof.
    rewrite Forall_fmap. apply Forall_iff. intros c. unfold call_ok. cbn. split; intros H k; specialize (H k); [rewrite lb_uses in H|rewrite lb_uses]; exact H.
  Qed.

  Lemma ren_analysed os ord os' ord' a : (forall i, fair (os i)) -> fair_order ord -> (forall i, fair (os' i)) -> fair_order ord' -> whole_names nm a ->
    match new_analysed_graph os ord a, new_analysed_graph os' ord' (lb_ast nm a) with
    | inl g, inl g' => view g' = named nm (view g)
    | inr _, inr _ => True
    | _, _ => False
    end.
  Proof.
    intros F O F' O' W. destruct (analysed_graph os ord a F O) as (l & B & H). destruct (analysed_graph os' ord' (lb_ast nm a) F' O') as (l' & B' & H').
    assert (BN : body_calls (nm (Ast.g_id a)) ∅ ∅ [] (map RS (Ast.g_stmts a)) (map LC l)).
    { apply (proj2 (proj2 (proj2 ren_calls)) _ _ _ _ _ _ B); [intros n x K; destruct (not_elem_of_nil _ K)|exact W]. }
    pose proof (body_det _ _ _ _ _ _ BN _ B') as T. pose proof (trace_eq_ok _ _ T) as TO. rewrite lb_ok in TO.
    destruct (new_analysed_graph os ord a), (new_analysed_graph os' ord' (lb_ast nm a)); try tauto.
    destruct H as (_ & _ & ->), H' as (_ & _ & ->). rewrite lb_builds.
    assert (E0 : named nm (s_start a) = s_start (lb_ast nm a)).
    { unfold named, lb_graph, s_start. cbn. f_equal. apply la_empty. }
    rewrite E0.
    symmetry. apply (trace_eq_build _ _ T [nm (Ast.g_id a)]).
    - apply (body_wp _ _ _ _ _ _ BN). apply elem_of_list_singleton. reflexivity.
    - intros n Hn. apply elem_of_list_singleton in Hn. subst. left. reflexivity.
  Qed.
End Label.
