(** Tidy graphs can be written, to well-formed trees; and writing looks at nothing that reading changes. *)
From stdpp Require Import sorting.
From Verif Require Import Base Parser Maps Graph AttrMap SpecGraph MapFacts GraphProofs.
From Verif Require Import Write SpecWrite EdgeOrder WriteProofs WriteFacts WriteFacts2 SpecRound RoundCalls RoundCalls2 RoundProofs.
From Verif Require Import SpecAst LexPrint AstProofs.
From Verif Require Ast PropsEscape.

Lemma valid_good_all : forallb (fun k => PropsEscape.is_idb k && str_eqb (trim_space k) k) valid_attrs = true.
Proof. vm_compute. reflexivity. Qed.
Lemma valid_good k : valid_attr k -> good_id k.
Proof.
  intros H. pose proof valid_good_all as V. rewrite forallb_forall in V. apply elem_of_list_In in H. specialize (V k H).
  apply andb_true_iff in V. destruct V as [V1 V2]. split; [apply PropsEscape.is_idb_spec; exact V1|apply MapFacts.str_eqb_eq; exact V2].
Qed.

(** ** What is written is well formed *)
Section TextWf.
  Variable s : sgraph.
  Hypothesis N1 : s_name s = [] \/ good_id (s_name s).
  Hypothesis N2 : forall n, s_is_node s n \/ s_is_sub s n -> good_id n.
  Hypothesis N3 : forall m k v, holds_attrs s m -> m !! k = Some v -> good_id v.
  Hypothesis N4 : forall n port, endpoint s n port -> s_is_node s n -> good_port port.
  Hypothesis V : forall m k v, holds_attrs s m -> m !! k = Some v -> valid_attr k.
  Lemma in_order_wf m : holds_attrs s m -> Forall (wf_attr good_id) (in_order m).
  Proof.
    intros H. apply Forall_forall. intros [k v] K. apply (proj2 (in_order_spec m)) in K. split; cbn.
    - apply valid_good. eapply V; eassumption.
    - eapply N3; eassumption.
  Qed.
  Lemma attrs_wf m : holds_attrs s m -> Forall (wf_stmt good_id) (map Ast.SAttr (in_order m)).
  Proof. intros H. apply Forall_fmap. eapply Forall_impl; [apply in_order_wf; exact H|]. intros x K. exact K. Qed.
  Lemma node_wf n a : s_nodes s !! n = Some a -> wf_stmt good_id (c_node n a).
  Proof.
    intros H. cbn. split; [split; [apply N2; left; exists a; exact H|exact I]|]. constructor; [|constructor].
    apply in_order_wf. eapply Ha_node. exact H.
  Qed.
  Lemma wf_fold l : fold_right (fun st acc => wf_stmt good_id st /\ acc) True l <-> Forall (wf_stmt good_id) l.
  Proof. induction l as [|x l IH]; cbn; [split; constructor|]. rewrite IH, Forall_cons. reflexivity. Qed.
  Lemma sub_wf f : forall n t, c_sub s f n = Ok t -> wf_sub good_id t.
  Proof.
    induction f as [|f IH]; intros n t H; [discriminate|]. apply c_sub_inv in H. destruct H as (a & body & Ha & F & ->).
    cbn. rewrite wf_fold. split; [apply N2; right; exists a; exact Ha|].
    apply Forall_app. split; [apply attrs_wf; eapply Ha_sub; exact Ha|]. apply Forall_forall. intros st K.
    destruct (elem_of_list_lookup_1 _ _ K) as [i Hi]. destruct (Forall2_lookup_r _ _ _ _ _ F Hi) as (c & _ & X). unfold c_child in X.
    destruct (s_nodes s !! c) as [b|] eqn:En; [injection X as <-; apply node_wf; exact En|]. destruct (s_subs s !! c); [|discriminate].
    destruct (c_sub s f c) as [t|e| |] eqn:Et; cbn in X; try discriminate. injection X as <-. cbn. eapply IH. exact Et.
  Qed.
  Lemma end_wf f n p lo : endpoint s n p -> c_end s f n p = Ok lo -> wf_loc good_id lo.
  Proof.
    intros E H. unfold c_end in H. destruct (s_nodes s !! n) as [a|] eqn:En.
    - injection H as <-. assert (N : s_is_node s n) by (unfold s_is_node; rewrite En; eauto).
      pose proof (N4 n p E N) as G. cbn. split.
      + replace (Ast.nid_id (Ast.make_node_id n p)) with n; [apply N2; auto|].
        unfold Ast.make_node_id. destruct p; [reflexivity|]. destruct (split_on _ _) as [|? [|? ?]]; reflexivity.
      + apply (good_port_made n p G).
    - destruct (s_subs s !! n) as [b|] eqn:Es; [|discriminate]. destruct p; [|discriminate]. destruct (has_prefix n (lit "cluster")).
      + injection H as <-. cbn. split; [apply N2; right; exists b; exact Es|exact I].
      + destruct (c_sub s f n) as [t|e| |] eqn:Et; cbn in H; try discriminate. injection H as <-. cbn. eapply sub_wf. exact Et.
  Qed.
  Lemma edge_wf f e st : e ∈ s_edges s -> c_edge s f e = Ok st -> wf_stmt good_id st.
  Proof.
    intros He H. unfold c_edge in H. destruct (c_end s f (e_src e) (e_src_port e)) as [l1|x| |] eqn:E1; cbn [bind] in H; try discriminate.
    destruct (c_end s f (e_dst e) (e_dst_port e)) as [l2|x| |] eqn:E2; cbn [bind] in H; try discriminate. injection H as <-.
    apply end_wf in E1; [|exists e; auto]. apply end_wf in E2; [|exists e; auto]. cbn.
    split; [exact E1|]. split; [discriminate|]. split; [auto|]. constructor; [|constructor]. apply in_order_wf. apply (Ha_edge s e He).
  Qed.
  Lemma text_wf f es a : es ≡ₚ s_edges s -> c_write s f es = Ok a -> wf_graph good_id a.
  Proof.
    intros P H. apply c_write_ok in H. destruct H as (el & tops & ts & ns & -> & Fe & Ft & _ & _ & _ & ->). split; cbn.
    - intros N. destruct (N1) as [E|E]; [contradiction|exact E].
    - apply Forall_app. split; [apply attrs_wf; apply Ha_graph|]. apply Forall_app. split; [|apply Forall_app; split].
      + apply Forall_forall. intros st K. destruct (elem_of_list_lookup_1 _ _ K) as [i Hi]. destruct (Forall2_lookup_r _ _ _ _ _ Fe Hi) as (e & He & X).
        eapply edge_wf; [|exact X]. rewrite <- P. eapply elem_of_list_lookup_2. exact He.
      + apply Forall_forall. intros st K. apply elem_of_list_fmap in K. destruct K as (t & -> & K). destruct (elem_of_list_lookup_1 _ _ K) as [i Hi].
        destruct (Forall2_lookup_r _ _ _ _ _ Ft Hi) as (n & _ & X). cbn. eapply sub_wf. exact X.
      + apply Forall_forall. intros st K. apply elem_of_list_fmap in K. destruct K as (n & -> & K). apply elem_of_list_filter in K. destruct K as [_ K].
        apply elem_of_sorted, elem_of_dom in K. destruct K as [b Hb]. rewrite Hb. cbn [from_option id default]. apply node_wf. exact Hb.
  Qed.
End TextWf.

Section Tidy.
  Variable s : sgraph.
  Hypothesis T : tidy s.
  Hypothesis V : forall m k v, holds_attrs s m -> m !! k = Some v -> valid_attr k.

  Lemma tidy_no_clash : no_clash s.
  Proof. intros n H1 H2 _. exact (t_apart s T n H2 H1). Qed.
  Lemma written_sub n : written s n -> s_is_sub s n.
  Proof. intros (r & St & R). eapply rtc_sub; [|exact R]. destruct St; assumption. Qed.
  Lemma tidy_writable : ~ unwritable s.
  Proof.
    intros [n port E Bd|p c W C N1 N2].
    - destruct (t_ends s T n port E) as [[N _]|(S & _ & ->)]; destruct Bd; try contradiction; congruence.
    - destruct (t_children s T p c (written_sub p W) C); contradiction.
  Qed.
  Lemma tidy_writes es : es ≡ₚ s_edges s -> exists a, c_write s (S (size (s_subs s))) es = Ok a.
  Proof.
    intros P. pose proof (c_write_terminates s es P (t_acyclic s T)) as N. pose proof (c_write_panic s (S (size (s_subs s))) es) as NP.
    destruct (c_write s (S (size (s_subs s))) es) as [a|e| |] eqn:E; try congruence; [eauto|].
    destruct tidy_writable. eapply complaint_unwritable, c_write_err; eassumption.
  Qed.

  Lemma tidy_wf f es a : es ≡ₚ s_edges s -> c_write s f es = Ok a -> wf_graph good_id a.
  Proof.
    apply text_wf; [exact (t_name s T)|exact (t_names s T)|exact (t_values s T)| |exact V].
    intros n port E N. destruct (t_ends s T n port E) as [[_ G]|(S & _)]; [exact G|destruct (t_apart s T n N S)].
  Qed.
End Tidy.

(** ** The writer on graphs with the same content below the main graph *)
Lemma map_res_ext {E A B} (f f' : A -> res E B) l : (forall x, x ∈ l -> f x = f' x) -> map_res f l = map_res f' l.
Proof.
  induction l as [|x l IH]; intros H; [reflexivity|]. cbn [map_res]. rewrite (H x) by left. rewrite IH; [reflexivity|]. intros y K. apply H. right. exact K.
Qed.
Section Agree.
  Variables s s' : sgraph.
  Hypothesis E1 : s_nodes s' = s_nodes s.
  Hypothesis E2 : s_subs s' = s_subs s.
  Hypothesis E3 : forall p c, s_is_sub s p -> is_child s' p c <-> is_child s p c.
  Lemma sub_agree f : forall n, s_is_sub s n -> c_sub s' f n = c_sub s f n.
  Proof.
    induction f as [|f IH]; intros n S; [reflexivity|]. cbn [c_sub]. rewrite E2.
    assert (K : kids s' n = kids s n) by (apply set_eq; intros c; rewrite !elem_of_kids; apply E3; exact S). rewrite K.
    assert (M : map_res (c_child s' (c_sub s' f)) (sorted (kids s n)) = map_res (c_child s (c_sub s f)) (sorted (kids s n))).
    { apply map_res_ext. intros c _. unfold c_child. rewrite E1, E2. destruct (s_nodes s !! c); [reflexivity|].
      destruct (s_subs s !! c) eqn:Es; [|reflexivity]. rewrite IH; [reflexivity|]. unfold s_is_sub. rewrite Es. eauto. }
    rewrite M. reflexivity.
  Qed.
  Lemma end_agree f n p : c_end s' f n p = c_end s f n p.
  Proof.
    unfold c_end. rewrite E1, E2. destruct (s_nodes s !! n); [reflexivity|]. destruct (s_subs s !! n) eqn:Es; [|reflexivity].
    destruct p; [|reflexivity]. destruct (has_prefix _ _); [reflexivity|]. rewrite sub_agree; [reflexivity|]. unfold s_is_sub. rewrite Es. eauto.
  Qed.
  Lemma edges_agree f es : map_res (c_edge s' f) es = map_res (c_edge s f) es.
  Proof. apply map_res_ext. intros e _. unfold c_edge. rewrite !end_agree. reflexivity. Qed.
  Hypothesis E4 : s_name s' = s_name s.
  Lemma tops_agree f ns : (forall n, n ∈ ns -> s_is_sub s n) -> forall acc b, c_tops s f ns acc = Ok b ->
    (forall n, n ∈ ns -> is_child s' (s_name s) n -> is_child s (s_name s) n \/ n ∈ marks acc) ->
    (forall n t, n ∈ ns -> c_sub s f n = Ok t -> Ast.SSub t ∈ b -> is_child s' (s_name s) n) ->
    c_tops s' f ns acc = Ok b.
  Proof.
    induction ns as [|n ns IH]; intros S acc b H H1 H2; cbn [c_tops] in *; [exact H|].
    assert (S' : forall m, m ∈ ns -> s_is_sub s m) by (intros m K; apply S; right; exact K).
    assert (H1' : forall acc', marks acc ⊆ marks acc' -> forall m, m ∈ ns -> is_child s' (s_name s) m -> is_child s (s_name s) m \/ m ∈ marks acc').
    { intros acc' L m K1 K2. destruct (H1 m) as [K|K]; [right; exact K1|exact K2|auto|right; apply L; exact K]. }
    assert (H2' : forall m t, m ∈ ns -> c_sub s f m = Ok t -> Ast.SSub t ∈ b -> is_child s' (s_name s) m) by (intros m t K; apply H2; right; exact K).
    destruct (decide (n ∈ marks acc)) as [M|M]; [apply IH; auto|]. rewrite E4.
    destruct (decide (n ∈ kids s (s_name s))) as [K|K].
    - rewrite sub_agree by (apply S; left). destruct (c_sub s f n) as [t|e| |] eqn:Et; cbn [bind] in *; try discriminate.
      assert (I : Ast.SSub t ∈ b).
      { apply c_tops_ok in H. destruct H as (tops & ts & -> & _). rewrite !elem_of_app. left. right. apply elem_of_list_singleton. reflexivity. }
      rewrite decide_True by (apply elem_of_kids, (H2 n t); [left|exact Et|exact I]). cbn [bind]. apply IH; auto. apply H1'. rewrite marks_app. set_solver.
    - rewrite decide_False; [apply IH; auto|]. intros K'. apply elem_of_kids in K'. destruct (H1 n) as [K2|K2]; [left|exact K'| |contradiction].
      apply K. apply elem_of_kids. exact K2.
  Qed.
  Lemma c_nodes_agree ns : forall acc, c_nodes s' ns acc = c_nodes s ns acc.
  Proof. induction ns as [|n ns IH]; intros acc; [reflexivity|]. cbn [c_nodes]. rewrite E1, !IH. reflexivity. Qed.
End Agree.

Lemma c_write_parts s f es a : c_write s f es = Ok a -> exists el tops ts ns,
    a = Ast.Graph (s_directed s) (s_strict s) (s_name s)
          (map Ast.SAttr (in_order (s_attrs s)) ++ el ++ map Ast.SSub ts ++ map (fun n => c_node n (default ∅ (s_nodes s !! n))) ns) /\
    Forall2 (fun e st => c_edge s f e = Ok st) es el /\
    Forall2 (fun n t => c_sub s f n = Ok t) tops ts /\
    (forall n, n ∈ tops -> is_child s (s_name s) n /\ s_is_sub s n /\ n ∉ marks el) /\
    (forall n, s_is_sub s n -> is_child s (s_name s) n -> n ∈ marks (el ++ map Ast.SSub ts)) /\
    ns = filter (fun n => n ∉ marks (el ++ map Ast.SSub ts)) (sorted (dom (s_nodes s))) /\
    map_res (c_edge s f) es = Ok el /\
    c_tops s f (sorted (dom (s_subs s))) (map Ast.SAttr (in_order (s_attrs s)) ++ el) = Ok ((map Ast.SAttr (in_order (s_attrs s)) ++ el) ++ map Ast.SSub ts) /\
    Ast.g_stmts a = c_nodes s (sorted (dom (s_nodes s))) ((map Ast.SAttr (in_order (s_attrs s)) ++ el) ++ map Ast.SSub ts).
Proof.
  intros H. pose proof H as H0. apply c_write_ok in H0. destruct H0 as (el & tops & ts & ns & Ea & Fe & Ft & Sl & Ht & Hm & Hn).
  unfold c_write in H. pose proof Fe as Fe'. apply map_res_ok in Fe'. rewrite Fe' in H. cbn [bind] in H.
  destruct (c_tops _ _ _ _) as [b|e| |] eqn:E2; cbn [bind] in H; try discriminate. injection H as Ha.
  apply c_tops_ok in E2 as E3. destruct E3 as (tops' & ts' & -> & Ft' & Sl' & P' & Q').
  exists el, tops', ts'. eexists. rewrite c_nodes_eq in Ha by apply NoDup_sorted.
  assert (M : forall x, marks ((map Ast.SAttr (in_order (s_attrs s)) ++ el) ++ x) = marks (el ++ x)) by (intros x; rewrite !marks_app, marks_attrs, (left_id_L ∅ (∪)); reflexivity).
  split; [rewrite <- Ha, <- !app_assoc; reflexivity|]. split; [exact Fe|]. split; [exact Ft'|]. split; [|split; [|split; [|split; [|split]]]].
  - intros n K. destruct (P' n K) as [K1 K2]. split; [exact K1|]. split; [apply subs_listed; eapply elem_of_submseteq; [exact K|apply sublist_submseteq; exact Sl']|].
    rewrite marks_app, marks_attrs in K2. set_solver.
  - intros n K C. rewrite <- M. apply Q'; [apply subs_listed; exact K|exact C].
  - apply filter_ext_in'. intros n _. rewrite <- M, <- app_assoc. reflexivity.
  - exact Fe'.
  - exact E2.
  - rewrite <- Ha, c_nodes_eq by apply NoDup_sorted. reflexivity.
Qed.
