(** Proofs for C75: writing a graph with other names. *)
From stdpp Require Import sorting.
From Verif Require Import Base Parser Maps Graph MapFacts SpecGraph GraphProofs Write SpecWrite EdgeOrder WriteProofs SpecRename SpecLabel LabelProofs LabelAnalyse.
From Verif Require AstProofs RenameProofs.
From Verif Require Ast.

Section Label.
  Variable nm : gostr -> gostr.
  Context {HI : Inj (=) (=) nm}.
  Variable s : sgraph.
  Hypothesis HO : order_kept nm s.
  Hypothesis HCl : clusters_kept nm s.
  Notation s' := (named nm s).
  Notation RS := (ren_stmt nm nm).
  Notation RL := (ren_loc nm nm).
  Notation RT := (ren_tree nm nm).
  Notation LE := (lb_edge nm id id).

  Definition lb_res {A} (f : A -> A) (r r' : res err A) : Prop :=
    match r, r' with
    | Ok a, Ok b => b = f a | Err e, Err e' => lb_error nm e e' | Panic, Panic => True | OutOfFuel, OutOfFuel => True | _, _ => False
    end.
  Lemma res_bind {A B} (f : A -> A) (h : B -> B) r r' (k k' : _ -> res err B) : lb_res f r r' -> (forall a, lb_res h (k a) (k' (f a))) -> lb_res h (bind r k) (bind r' k').
  Proof. destruct r, r'; cbn; try contradiction; auto. intros -> H. apply H. Qed.
  Lemma res_map {A B} (f : A -> A) (h : B -> B) (k k' : A -> res err B) l : (forall x, x ∈ l -> lb_res h (k x) (k' (f x))) -> lb_res (map h) (map_res k l) (map_res k' (map f l)).
  Proof.
    induction l as [|x l IH]; intros H; [reflexivity|]. cbn [map_res map]. eapply res_bind; [apply H; left|]. intros b.
    eapply res_bind; [apply IH; intros y Hy; apply H; right; exact Hy|]. intros bs. reflexivity.
  Qed.

  Lemma sorted_map (X : names) : (forall x, x ∈ X -> known s x) -> sorted (set_map nm X) = map nm (sorted X).
  Proof.
    intros HK. apply strict_sorted_unique.
    - apply sorted_strict.
    - pose proof (sorted_strict X) as H. assert (K : Forall (known s) (sorted X)) by (apply Forall_forall; intros x Hx; apply HK; apply elem_of_sorted; exact Hx).
      induction H as [|x l H IH F]; cbn; [constructor|]. apply Forall_cons in K. destruct K as [K1 K2]. constructor; [apply IH; exact K2|].
      apply Forall_fmap. rewrite Forall_forall in *. intros y Hy. apply HO; [exact K1|apply K2; exact Hy|apply F; exact Hy].
    - intros x. rewrite elem_of_sorted, elem_of_map, elem_of_list_fmap. split; intros (y & E & H); exists y; (split; [exact E|]); apply elem_of_sorted; exact H.
  Qed.
  Lemma kids_ren n : kids s' (nm n) = set_map nm (kids s n).
  Proof.
    apply set_eq. intros c. rewrite elem_of_kids, elem_of_map. split.
    - intros H. apply lg_child_inv in H. destruct H as (p & c' & E & -> & H). apply HI in E. subst. exists c'. split; [reflexivity|]. apply elem_of_kids. exact H.
    - intros (c' & -> & H). apply elem_of_kids in H. apply lg_child; [exact HI|exact H].
  Qed.
  Lemma dom_ren (m : gmap gostr attrs) : dom (lb_table nm id m) = set_map nm (dom m).
  Proof.
    apply set_eq. intros n. rewrite elem_of_dom, elem_of_map. split.
    - intros [a H]. apply lt_some in H; [|exact HI]. destruct H as (x & b & -> & H & _). exists x. split; [reflexivity|]. apply elem_of_dom. eauto.
    - intros (x & -> & H). apply lt_is; [exact HI|]. apply elem_of_dom. exact H.
  Qed.
  Lemma look_ren (m : gmap gostr attrs) n : lb_table nm id m !! nm n = m !! n.
  Proof. rewrite lt_lookup by exact HI. destruct (m !! n); cbn; [|reflexivity]. rewrite la_id. reflexivity. Qed.

  Lemma c_child_ren rec rec' c : (forall n, s_is_sub s n -> lb_res RT (rec n) (rec' (nm n))) -> lb_res RS (c_child s rec c) (c_child s' rec' (nm c)).
  Proof.
    intros HR. unfold c_child. cbn [s_nodes s_subs named lb_graph]. rewrite !look_ren. destruct (s_nodes s !! c); [reflexivity|].
    destruct (s_subs s !! c) eqn:E; [|constructor]. eapply res_bind; [apply HR; unfold s_is_sub; eauto|]. reflexivity.
  Qed.
  Lemma c_sub_ren f : forall n, lb_res RT (c_sub s f n) (c_sub s' f (nm n)).
  Proof.
    induction f as [|f IH]; intros n; [exact I|]. cbn [c_sub]. replace (s_subs s' !! nm n) with (s_subs s !! n) by (symmetry; apply look_ren).
    destruct (s_subs s !! n); [|exact I]. rewrite kids_ren, sorted_map.
    - eapply res_bind; [apply (res_map nm); intros x _; apply c_child_ren; auto|]. intros body. cbn. f_equal. rewrite map_app, map_map. reflexivity.
    - intros x Hx. apply elem_of_kids in Hx. do 4 right. left. eauto.
  Qed.
  Lemma prefix_is (n t : gostr) : has_prefix n t = true <-> exists u, n = t ++ u.
  Proof.
    revert n. induction t as [|x t IH]; intros [|y n]; cbn; try (split; [eauto|reflexivity]); try (split; [discriminate|intros [u Hu]; discriminate]).
    rewrite andb_true_iff, Ascii.eqb_eq, IH. split; [intros [-> [u ->]]; eauto|intros [u [= -> ->]]; eauto].
  Qed.
  Lemma cluster_ren n : s_is_sub s n -> has_prefix (nm n) (lit "cluster") = has_prefix n (lit "cluster").
  Proof. intros H. apply eq_true_iff_eq. rewrite !prefix_is. apply HCl. exact H. Qed.
  Lemma c_end_ren f n p : lb_res RL (c_end s f n p) (c_end s' f (nm n) p).
  Proof.
    unfold c_end. cbn [s_nodes s_subs named lb_graph]. rewrite !look_ren. destruct (s_nodes s !! n); [cbn; f_equal; symmetry; apply RenameProofs.ren_make|].
    destruct (s_subs s !! n) eqn:E; [|constructor]. destruct p as [|x p]; [|constructor].
    rewrite cluster_ren by (unfold s_is_sub; eauto). destruct (has_prefix n (lit "cluster")); [reflexivity|]. eapply res_bind; [apply c_sub_ren|]. reflexivity.
  Qed.
  Lemma c_edge_ren f e : lb_res RS (c_edge s f e) (c_edge s' f (LE e)).
  Proof.
    unfold c_edge. cbn. eapply res_bind; [apply c_end_ren|]. intros l1. eapply res_bind; [apply c_end_ren|]. intros l2. cbn. rewrite la_id. reflexivity.
  Qed.

  Lemma names_union (X Y : names) : set_map nm (X ∪ Y) = (set_map nm X ∪ set_map nm Y : names).
  Proof. apply set_map_union_L. Qed.
  Lemma names_single (x : gostr) : set_map nm ({[x]} : names) = ({[nm x]} : names).
  Proof. apply set_map_singleton_L. Qed.
  Lemma names_empty : set_map nm (∅ : names) = (∅ : names).
  Proof. apply set_map_empty. Qed.
  Lemma names_ren : (forall st, st_names (RS st) = set_map nm (st_names st)) /\ (forall l, loc_names (RL l) = set_map nm (loc_names l)) /\
    (forall t, sub_names (RT t) = set_map nm (sub_names t)).
  Proof.
    apply AstProofs.stmt_all_ind; intros; cbn; rewrite ?names_empty, ?names_single; try reflexivity; auto.
    - rewrite names_union, H. f_equal. clear H. induction H0 as [|[o d] r E F IH]; cbn; [rewrite names_empty; reflexivity|]. rewrite E, IH, names_union. reflexivity.
    - rewrite names_union, names_single. f_equal. induction H as [|st b E F IH]; cbn; [rewrite names_empty; reflexivity|]. rewrite E, IH, names_union. reflexivity.
  Qed.
  Lemma marks_ren l : marks (map RS l) = set_map nm (marks l).
  Proof. induction l as [|st l IH]; [symmetry; apply names_empty|]. cbn [map]. rewrite !marks_cons, names_union, IH, (proj1 names_ren). reflexivity. Qed.
  Lemma in_marks_ren n l : nm n ∈ marks (map RS l) <-> n ∈ marks l.
  Proof. rewrite marks_ren. apply in_image. exact HI. Qed.

  Lemma c_tops_ren f ns : forall acc, lb_res (map RS) (c_tops s f ns acc) (c_tops s' f (map nm ns) (map RS acc)).
  Proof.
    induction ns as [|n ns IH]; intros acc; [reflexivity|]. cbn [c_tops map]. destruct (decide (n ∈ marks acc)) as [H|H].
    - rewrite decide_True by (apply in_marks_ren; exact H). apply IH.
    - rewrite (decide_False (P := nm n ∈ _)) by (rewrite in_marks_ren; exact H). change (s_name s') with (nm (s_name s)). rewrite kids_ren.
      destruct (decide (n ∈ kids s (s_name s))) as [K|K].
      + rewrite decide_True by (apply in_image; [exact HI|exact K]). eapply res_bind; [apply c_sub_ren|]. intros t.
        replace (map RS acc ++ [Ast.SSub (RT t)]) with (map RS (acc ++ [Ast.SSub t])) by (rewrite map_app; reflexivity). apply IH.
      + rewrite decide_False by (rewrite in_image; [exact K|exact HI]). apply IH.
  Qed.
  Lemma c_nodes_ren ns : forall acc, c_nodes s' (map nm ns) (map RS acc) = map RS (c_nodes s ns acc).
  Proof.
    induction ns as [|n ns IH]; intros acc; [reflexivity|]. cbn [c_nodes map]. destruct (decide (n ∈ marks acc)) as [H|H].
    - rewrite decide_True by (apply in_marks_ren; exact H). apply IH.
    - rewrite (decide_False (P := nm n ∈ _)) by (rewrite in_marks_ren; exact H). rewrite <- IH, map_app. cbn [s_nodes named lb_graph]. rewrite look_ren. reflexivity.
  Qed.
  Lemma c_write_ren f es : lb_res (lb_ast nm) (c_write s f es) (c_write s' f (map LE es)).
  Proof.
    unfold c_write. eapply res_bind; [apply (res_map LE); intros e _; apply c_edge_ren|]. intros el.
    cbn [s_subs s_nodes s_attrs s_directed s_strict s_name named lb_graph]. rewrite !dom_ren, !sorted_map, la_id.
    - eapply res_bind.
      + replace (map Ast.SAttr (in_order (s_attrs s)) ++ map RS el) with (map RS (map Ast.SAttr (in_order (s_attrs s)) ++ el)) by (rewrite map_app, map_map; reflexivity).
        apply c_tops_ren.
      + intros l. cbn. rewrite c_nodes_ren. reflexivity.
    - intros x Hx. apply elem_of_dom in Hx. right. left. exact Hx.
    - intros x Hx. apply elem_of_dom in Hx. right. right. left. exact Hx.
  Qed.

  (** ** The order of the edges *)
  Lemma before_back x y : known s x -> known s y -> before (nm x) (nm y) -> before x y.
  Proof.
    intros Kx Ky H. destruct (str_ltb x y) eqn:E; [exact E|]. exfalso. destruct (str_ltb y x) eqn:E'.
    - apply (HO y x Ky Kx) in E'. unfold before in *. rewrite (str_ltb_asym _ _ E') in H. discriminate.
    - rewrite (str_ltb_total x y E E') in H. unfold before in H. rewrite str_ltb_irrefl in H. discriminate.
  Qed.
  Lemma edge_before_back x y : x ∈ s_edges s -> y ∈ s_edges s -> edge_before (LE x) (LE y) -> edge_before x y.
  Proof.
    intros Hx Hy.
    assert (K1 : known s (e_src x)) by (do 3 right; left; eauto). assert (K2 : known s (e_dst x)) by (do 3 right; left; eauto).
    assert (K3 : known s (e_src y)) by (do 3 right; left; eauto). assert (K4 : known s (e_dst y)) by (do 3 right; left; eauto).
    assert (V : forall e k, attr_value (LE e) k = attr_value e k) by (intros e k; unfold attr_value; cbn; rewrite la_id; reflexivity).
    intros [A|A1 A|A1 A2 A|A1 A2 A3 A|A1 A2 A3 A4 A5 A6|k (A1 & A2 & A3 & A4 & A5) L R]; cbn in *; unfold id in *.
    - apply Eb_src. apply before_back; assumption.
    - apply Eb_dst; [apply HI; exact A1|apply before_back; assumption].
    - apply Eb_src_port; [apply HI; exact A1|apply HI; exact A2|exact A].
    - apply Eb_dst_port; [apply HI; exact A1|apply HI; exact A2|exact A3|exact A].
    - apply Eb_dir; try assumption; apply HI; assumption.
    - rewrite !V in L. apply (Eb_attr x y k); [repeat split; try assumption; apply HI; assumption|exact L|]. intros k' K. specialize (R k' K). rewrite !V in R. exact R.
  Qed.
  Lemma edges_sorted o o' srt srt' : fair o -> fair o' -> sorts (edge_less o) srt -> sorts (edge_less o') srt' -> Forall full (s_edges s) ->
    srt' (map LE (s_edges s)) = map LE (srt (s_edges s)).
  Proof.
    intros Fo Fo' S S' F. destruct (S (s_edges s)) as [P1 S1]. destruct (S' (map LE (s_edges s))) as [P2 S2].
    apply (sorted_perm_unique (fun x y => negb (edge_less o' y x))).
    - intros a b Ha Hb L1 L2. apply negb_true_iff in L1, L2. rewrite P2 in Ha, Hb. rewrite Forall_forall in F.
      assert (FL : forall z, z ∈ map LE (s_edges s) -> full z).
      { intros z Hz. apply elem_of_list_fmap in Hz. destruct Hz as (e & -> & He). intros k. cbn. rewrite la_id. exact (F e He k). }
      apply same_key_full; [apply FL; exact Ha|apply FL; exact Hb|].
      destruct (edge_tricho a b) as [T|[T|T]]; [|exact T|]; apply (edge_less_spec o') in T; try exact Fo'; congruence.
    - rewrite P1, P2. reflexivity.
    - clear -S2. induction S2 as [|x l0 H IH HF]; constructor; [exact IH|]. eapply Forall_impl; [exact HF|]. intros y Hy. cbn in *. rewrite Hy. reflexivity.
    - assert (K : Forall (fun e => e ∈ s_edges s) (srt (s_edges s))) by (apply Forall_forall; intros e He; rewrite P1 in He; exact He).
      clear P1 P2 S2. induction S1 as [|x l0 H IH HF]; cbn; constructor; apply Forall_cons in K; destruct K as [K1 K2]; [apply IH; exact K2|].
      apply Forall_fmap. rewrite Forall_forall in *. intros y Hy. cbn. apply negb_true_iff. destruct (edge_less o' (LE y) (LE x)) eqn:E; [|reflexivity].
      exfalso. apply (edge_less_spec o') in E; [|exact Fo']. apply edge_before_back in E; [|auto|exact K1].
      apply (edge_less_spec o) in E; [|exact Fo]. specialize (HF y Hy). cbn in HF. congruence.
  Qed.
End Label.
