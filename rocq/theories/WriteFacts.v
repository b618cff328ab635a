(** Facts about the canonical writer: fuel, errors, content, termination. *)
From stdpp Require Import sorting.
From Verif Require Import Base Parser Maps Graph AttrMap SpecGraph MapFacts GraphProofs Write SpecWrite EdgeOrder WriteProofs.
From Verif Require Ast.

(** ** Sequencing *)
Section MapRes.
  Context {E A B : Type}.
  Implicit Types (f : A -> res E B) (l : list A).
  Lemma map_res_ok f l b : map_res f l = Ok b <-> Forall2 (fun x y => f x = Ok y) l b.
  Proof.
    revert b. induction l as [|x l IH]; intros b; cbn [map_res].
    - split; [intros [= <-]; constructor|]. intros H. inversion H. reflexivity.
    - destruct (f x) as [y|e| |] eqn:Ef; cbn [bind]; try (split; [discriminate|]; intros H; inversion H; congruence).
      destruct (map_res f l) as [ys|e| |] eqn:Em; cbn [bind].
      + split.
        * intros [= <-]. constructor; [exact Ef|]. apply IH. reflexivity.
        * intros H. inversion H as [|? ? ? ys' H1 H2]; subst. apply IH in H2. congruence.
      + split; [discriminate|]. intros H. inversion H as [|? ? ? ys' H1 H2]; subst. apply IH in H2. discriminate.
      + split; [discriminate|]. intros H. inversion H as [|? ? ? ys' H1 H2]; subst. apply IH in H2. discriminate.
      + split; [discriminate|]. intros H. inversion H as [|? ? ? ys' H1 H2]; subst. apply IH in H2. discriminate.
  Qed.
  Lemma map_res_err f l e : map_res f l = Err e -> exists x, x ∈ l /\ f x = Err e.
  Proof.
    induction l as [|x l IH]; cbn [map_res]; [discriminate|]. destruct (f x) eqn:Ef; cbn [bind]; try discriminate.
    - destruct (map_res f l); cbn [bind]; try discriminate. intros [= ->]. destruct IH as (z & Hz & Hf); [reflexivity|]. exists z. split; [right; exact Hz|exact Hf].
    - intros [= ->]. exists x. split; [left|exact Ef].
  Qed.
  Lemma map_res_panic f l : map_res f l = Panic -> exists x, x ∈ l /\ f x = Panic.
  Proof.
    induction l as [|x l IH]; cbn [map_res]; [discriminate|]. destruct (f x) eqn:Ef; cbn [bind]; try discriminate.
    - destruct (map_res f l); cbn [bind]; try discriminate. intros _. destruct IH as (z & Hz & Hf); [reflexivity|]. exists z. split; [right; exact Hz|exact Hf].
    - intros _. exists x. split; [left|exact Ef].
  Qed.
  Lemma map_res_fuel f l : map_res f l = OutOfFuel -> exists x, x ∈ l /\ f x = OutOfFuel.
  Proof.
    induction l as [|x l IH]; cbn [map_res]; [discriminate|]. destruct (f x) eqn:Ef; cbn [bind]; try discriminate.
    - destruct (map_res f l); cbn [bind]; try discriminate. intros _. destruct IH as (z & Hz & Hf); [reflexivity|]. exists z. split; [right; exact Hz|exact Hf].
    - intros _. exists x. split; [left|exact Ef].
  Qed.
  Lemma map_res_mono f f' l : (forall x, x ∈ l -> f x <> OutOfFuel -> f' x = f x) -> map_res f l <> OutOfFuel -> map_res f' l = map_res f l.
  Proof.
    induction l as [|x l IH]; intros H N; cbn [map_res] in *; [reflexivity|].
    assert (Hx : f x <> OutOfFuel) by (intros C; rewrite C in N; apply N; reflexivity).
    rewrite (H x (elem_of_list_here _ _) Hx). destruct (f x) as [y|e| |]; cbn [bind] in *; try reflexivity.
    rewrite IH; [reflexivity|intros z Hz; apply H; right; exact Hz|]. intros C. rewrite C in N. apply N. reflexivity.
  Qed.
End MapRes.

Section Facts.
  Variable s : sgraph.
  Notation c_sub := (c_sub s).

  (** ** More fuel does not change a result *)
  Lemma c_sub_mono f f' n : f <= f' -> c_sub f n <> OutOfFuel -> c_sub f' n = c_sub f n.
  Proof.
    revert f' n. induction f as [|f IH]; intros f' n L N; [destruct (N eq_refl)|]. destruct f' as [|f']; [lia|].
    cbn [WriteProofs.c_sub] in *. destruct (s_subs s !! n) as [a|]; [|reflexivity].
    rewrite (map_res_mono (c_child s (c_sub f)) (c_child s (c_sub f'))); [reflexivity| |].
    - intros x _ Hx. unfold c_child in *. destruct (s_nodes s !! x); [reflexivity|]. destruct (s_subs s !! x); [|reflexivity].
      rewrite IH; [reflexivity|lia|]. intros C. rewrite C in Hx. apply Hx. reflexivity.
    - intros C. rewrite C in N. apply N. reflexivity.
  Qed.
  Lemma c_end_mono f f' n p : f <= f' -> c_end s f n p <> OutOfFuel -> c_end s f' n p = c_end s f n p.
  Proof.
    intros L N. unfold c_end in *. destruct (s_nodes s !! n); [reflexivity|]. destruct (s_subs s !! n); [|reflexivity].
    destruct p; [|reflexivity]. destruct (has_prefix _ _); [reflexivity|].
    rewrite (c_sub_mono f f'); [reflexivity|exact L|]. intros C. rewrite C in N. apply N. reflexivity.
  Qed.
  Lemma c_edge_mono f f' e : f <= f' -> c_edge s f e <> OutOfFuel -> c_edge s f' e = c_edge s f e.
  Proof.
    intros L N. unfold c_edge in *. assert (N1 : c_end s f (e_src e) (e_src_port e) <> OutOfFuel) by (intros C; rewrite C in N; apply N; reflexivity).
    rewrite (c_end_mono f f') by assumption. destruct (c_end s f (e_src e) (e_src_port e)); cbn [bind] in *; try reflexivity.
    rewrite (c_end_mono f f'); [reflexivity|exact L|]. intros C. rewrite C in N. apply N. reflexivity.
  Qed.
  Lemma c_tops_mono f f' ns : f <= f' -> forall acc, c_tops s f ns acc <> OutOfFuel -> c_tops s f' ns acc = c_tops s f ns acc.
  Proof.
    intros L. induction ns as [|n ns IH]; intros acc N; cbn [c_tops] in *; [reflexivity|].
    destruct (decide (n ∈ marks acc)); [apply IH; exact N|]. destruct (decide (n ∈ kids s (s_name s))); [|apply IH; exact N].
    rewrite (c_sub_mono f f'); [|exact L|intros C; rewrite C in N; apply N; reflexivity].
    destruct (c_sub f n); cbn [bind] in *; try reflexivity. apply IH. exact N.
  Qed.
  Lemma c_write_mono f f' es : f <= f' -> c_write s f es <> OutOfFuel -> c_write s f' es = c_write s f es.
  Proof.
    intros L N. unfold c_write in *.
    rewrite (map_res_mono (c_edge s f) (c_edge s f')); [|intros x _; apply c_edge_mono; exact L|intros C; rewrite C in N; apply N; reflexivity].
    destruct (map_res _ es); cbn [bind] in *; try reflexivity.
    rewrite (c_tops_mono f f'); [reflexivity|exact L|]. intros C. rewrite C in N. apply N. reflexivity.
  Qed.

  (** ** No panic *)
  Lemma c_sub_panic f : forall n, s_is_sub s n -> c_sub f n <> Panic.
  Proof.
    induction f as [|f IH]; intros n [a Ha]; cbn [WriteProofs.c_sub]; [discriminate|]. rewrite Ha. intros C.
    destruct (map_res _ _) eqn:Em; cbn [bind] in C; try discriminate.
    apply map_res_panic in Em. destruct Em as (x & _ & Hx). unfold c_child in Hx. destruct (s_nodes s !! x); [discriminate|].
    destruct (s_subs s !! x) eqn:E; [|discriminate]. specialize (IH x (ex_intro _ _ E)). destruct (c_sub f x); try discriminate. congruence.
  Qed.
  Lemma c_end_panic f n p : c_end s f n p <> Panic.
  Proof.
    unfold c_end. destruct (s_nodes s !! n); [discriminate|]. destruct (s_subs s !! n) eqn:E; [|discriminate].
    destruct p; [|discriminate]. destruct (has_prefix _ _); [discriminate|]. pose proof (c_sub_panic f n (ex_intro _ _ E)).
    destruct (c_sub f n); cbn; congruence.
  Qed.
  Lemma c_edge_panic f e : c_edge s f e <> Panic.
  Proof.
    unfold c_edge. pose proof (c_end_panic f (e_src e) (e_src_port e)). destruct (c_end s f (e_src e) (e_src_port e)); cbn; try congruence.
    pose proof (c_end_panic f (e_dst e) (e_dst_port e)). destruct (c_end s f (e_dst e) (e_dst_port e)); cbn; congruence.
  Qed.
  Lemma c_tops_panic f ns : (forall n, n ∈ ns -> s_is_sub s n) -> forall acc, c_tops s f ns acc <> Panic.
  Proof.
    induction ns as [|n ns IH]; intros Hns acc; cbn [c_tops]; [discriminate|].
    assert (Hns' : forall m, m ∈ ns -> s_is_sub s m) by (intros m Hm; apply Hns; right; exact Hm).
    destruct (decide _); [apply IH; exact Hns'|]. destruct (decide _); [|apply IH; exact Hns'].
    pose proof (c_sub_panic f n (Hns n (elem_of_list_here _ _))). destruct (c_sub f n); cbn [bind]; try congruence. apply IH; exact Hns'.
  Qed.
  Lemma subs_listed n : n ∈ sorted (dom (s_subs s)) <-> s_is_sub s n.
  Proof. rewrite elem_of_sorted, elem_of_dom. reflexivity. Qed.
  Lemma nodes_listed n : n ∈ sorted (dom (s_nodes s)) <-> s_is_node s n.
  Proof. rewrite elem_of_sorted, elem_of_dom. reflexivity. Qed.
  Lemma c_write_panic f es : c_write s f es <> Panic.
  Proof.
    unfold c_write. destruct (map_res _ es) eqn:E; cbn [bind]; try discriminate.
    - pose proof (c_tops_panic f (sorted (dom (s_subs s))) (fun n => proj1 (subs_listed n)) (map Ast.SAttr (in_order (s_attrs s)) ++ a)).
      destruct (c_tops _ _ _ _); cbn [bind]; congruence.
    - apply map_res_panic in E. destruct E as (x & _ & Hx). destruct (c_edge_panic f x Hx).
  Qed.

  (** ** Errors *)
  Lemma not_node n : s_nodes s !! n = None -> ~ s_is_node s n.
  Proof. intros E [a H]. congruence. Qed.
  Lemma not_sub n : s_subs s !! n = None -> ~ s_is_sub s n.
  Proof. intros E [a H]. congruence. Qed.
  Lemma c_sub_err f : forall n e, c_sub f n = Err e -> exists p c, rtc (nested s) n p /\ is_child s p c /\ ~ s_is_node s c /\ ~ s_is_sub s c /\
    e = c ++ lit " is not a node or a subgraph".
  Proof.
    induction f as [|f IH]; intros n e; cbn [WriteProofs.c_sub]; [discriminate|]. destruct (s_subs s !! n) eqn:En; [|discriminate].
    destruct (map_res _ _) eqn:E; cbn [bind]; try discriminate. intros [= <-]. apply map_res_err in E. destruct E as (x & Hx & E).
    apply elem_of_sorted, elem_of_kids in Hx. unfold c_child in E. destruct (s_nodes s !! x) eqn:E1; [discriminate|].
    destruct (s_subs s !! x) eqn:E2.
    - destruct (c_sub f x) eqn:E3; try discriminate. cbn in E. injection E as <-.
      destruct (IH x _ E3) as (p & c & R & H). exists p, c. split; [|exact H]. eapply rtc_l; [|exact R].
      split; [exact Hx|]. split; [eexists; exact E2|apply not_node; exact E1].
    - injection E as <-. exists n, x. split; [reflexivity|]. split; [exact Hx|]. split; [apply not_node; exact E1|]. split; [apply not_sub; exact E2|reflexivity].
  Qed.
  Lemma prefix_spec n : has_prefix n (lit "cluster") = true <-> exists t, n = lit "cluster" ++ t.
  Proof.
    generalize (lit "cluster"). intros p. revert n. induction p as [|x p IH]; intros [|y n]; cbn; try (split; [eauto|reflexivity]); try (split; [discriminate|intros [t Ht]; discriminate]).
    rewrite andb_true_iff, Ascii.eqb_eq, IH. split; [intros [-> [t ->]]; eauto|intros [t [= -> ->]]; eauto].
  Qed.
  Lemma c_end_err f n p e : endpoint s n p -> c_end s f n p = Err e -> complaint s e.
  Proof.
    intros P. unfold c_end. destruct (s_nodes s !! n) eqn:E1; [discriminate|]. destruct (s_subs s !! n) eqn:E2.
    - destruct p as [|c p].
      + destruct (has_prefix _ _) eqn:E3; [discriminate|]. destruct (c_sub f n) eqn:E4; try discriminate. cbn. intros [= <-].
        apply c_sub_err in E4. destruct E4 as (q & c & R & C & N1 & N2 & ->). left. exists c. repeat split; auto. right. exists q. split; [|exact C].
        exists n. split; [|exact R]. eapply Starts_end; [exact P|eexists; exact E2|apply not_node; exact E1|].
        intros [_ H]. apply prefix_spec in H. congruence.
      + intros [= <-]. right. exists n, (c :: p). split; [exact P|]. split; [apply not_node; exact E1|]. split; [eexists; exact E2|]. split; [discriminate|reflexivity].
    - intros [= <-]. left. exists n. split; [apply not_node; exact E1|]. split; [apply not_sub; exact E2|]. split; [reflexivity|]. left. eauto.
  Qed.
  Lemma c_edge_err f e x : e ∈ s_edges s -> c_edge s f e = Err x -> complaint s x.
  Proof.
    intros He. unfold c_edge. destruct (c_end s f (e_src e) (e_src_port e)) eqn:E1; cbn [bind]; try discriminate.
    - destruct (c_end s f (e_dst e) (e_dst_port e)) eqn:E2; cbn [bind]; try discriminate. intros [= <-].
      eapply c_end_err; [|exact E2]. exists e. auto.
    - intros [= <-]. eapply c_end_err; [|exact E1]. exists e. auto.
  Qed.
  Lemma c_tops_err f ns : (forall n, n ∈ ns -> s_is_sub s n) -> forall acc x, c_tops s f ns acc = Err x -> complaint s x.
  Proof.
    induction ns as [|n ns IH]; intros Hns acc x; cbn [c_tops]; [discriminate|].
    assert (Hns' : forall m, m ∈ ns -> s_is_sub s m) by (intros m Hm; apply Hns; right; exact Hm).
    destruct (decide _); [apply IH; exact Hns'|]. destruct (decide _) as [K|K]; [|apply IH; exact Hns'].
    destruct (c_sub f n) eqn:E; cbn [bind]; try discriminate; [apply IH; exact Hns'|]. intros [= <-].
    apply c_sub_err in E. destruct E as (q & c & R & C & N1 & N2 & ->). left. exists c. repeat split; auto. right. exists q. split; [|exact C].
    exists n. split; [|exact R]. apply Starts_top; [apply elem_of_kids; exact K|]. apply Hns. left.
  Qed.
  Lemma c_write_err f es x : es ≡ₚ s_edges s -> c_write s f es = Err x -> complaint s x.
  Proof.
    intros P. unfold c_write. destruct (map_res _ es) eqn:E; cbn [bind]; try discriminate.
    - destruct (c_tops _ _ _ _) eqn:E2; cbn [bind]; try discriminate. intros [= <-]. eapply c_tops_err; [|exact E2]. intros n. apply subs_listed.
    - intros [= <-]. apply map_res_err in E. destruct E as (e' & He & E). rewrite P in He. eapply c_edge_err; eassumption.
  Qed.
  Lemma complaint_unwritable x : complaint s x -> unwritable s.
  Proof.
    intros [(n & N1 & N2 & _ & [[port P]|(p & W & C)])|(n & port & P & N1 & N2 & N3 & _)].
    - eapply Bad_edge; [exact P|]. apply Bad_unknown; assumption.
    - eapply Bad_child; eassumption.
    - eapply Bad_edge; [exact P|]. apply Bad_port; assumption.
  Qed.

  (** ** Content *)
  Lemma kids_lists n : lists_names (is_child s n) (sorted (kids s n)).
  Proof. split; [apply sorted_strict|]. intros c. rewrite elem_of_sorted. apply elem_of_kids. Qed.
  Lemma c_node_shows n a : s_nodes s !! n = Some a -> shows s n (c_node n a).
  Proof. intros H. apply Shows_node with a; [exact H|apply in_order_spec]. Qed.
  Lemma c_sub_inv f n t : c_sub (S f) n = Ok t -> exists a body, s_subs s !! n = Some a /\
    Forall2 (fun c st => c_child s (c_sub f) c = Ok st) (sorted (kids s n)) body /\ t = Ast.SubGraph n (map Ast.SAttr (in_order a) ++ body).
  Proof.
    cbn [WriteProofs.c_sub]. destruct (s_subs s !! n) as [a|]; [|discriminate]. destruct (map_res _ _) as [body|e| |] eqn:E; cbn [bind]; try discriminate.
    intros [= <-]. exists a, body. split; [reflexivity|]. split; [apply map_res_ok; exact E|reflexivity].
  Qed.
  Lemma c_sub_shows f : forall n t, c_sub f n = Ok t -> shows_sub s n t.
  Proof.
    induction f as [|f IH]; intros n t H; [discriminate|]. apply c_sub_inv in H. destruct H as (a & body & Ha & F & ->).
    apply Shows_body with a (sorted (kids s n)); [exact Ha|apply in_order_spec|apply kids_lists|].
    eapply Forall2_impl; [exact F|]. intros c st. unfold c_child. destruct (s_nodes s !! c) as [b|] eqn:E1.
    - intros [= <-]. apply c_node_shows. exact E1.
    - destruct (s_subs s !! c); [|discriminate]. destruct (c_sub f c) eqn:E; try discriminate. intros [= <-]. apply Shows_sub; [apply not_node; exact E1|apply IH; exact E].
  Qed.
  (** A written subgraph: nothing below it is bad, all below is inside the tree. *)
  Lemma c_sub_nested f : forall n t, c_sub f n = Ok t -> forall m, rtc (nested s) n m ->
    (exists f' t', f' <= f /\ c_sub f' m = Ok t' /\ inside t t') /\ forall c, is_child s m c -> s_is_node s c \/ s_is_sub s c.
  Proof.
    induction f as [|f IH]; intros n t H m R; [discriminate|]. pose proof H as H0. apply c_sub_inv in H. destruct H as (a & body & Ha & F & ->).
    apply rtc_inv in R. destruct R as [<-|(c & (N1 & N2 & N3) & R)].
    - split; [eexists (S f), _; split; [lia|]; split; [exact H0|constructor]|]. intros c C. apply elem_of_kids, elem_of_sorted in C.
      destruct (elem_of_list_lookup_1 _ _ C) as [i Hi]. destruct (Forall2_lookup_l _ _ _ _ _ F Hi) as (st & _ & E).
      unfold c_child in E. destruct (s_nodes s !! c) eqn:E1; [left; eexists; exact E1|]. destruct (s_subs s !! c) eqn:E2; [right; eexists; exact E2|discriminate].
    - apply elem_of_kids, elem_of_sorted in N1. destruct (elem_of_list_lookup_1 _ _ N1) as [i Hi].
      destruct (Forall2_lookup_l _ _ _ _ _ F Hi) as (st & Hst & E). apply elem_of_list_lookup_2 in Hst.
      unfold c_child in E. destruct (s_nodes s !! c) eqn:E1; [destruct N3; eexists; exact E1|]. destruct (s_subs s !! c) eqn:E2; [|discriminate].
      destruct (c_sub f c) as [t1|e| |] eqn:E3; try discriminate. injection E as <-. destruct (IH c t1 E3 m R) as [(f' & t' & L & Hm & I) B].
      split; [|exact B]. exists f', t'. split; [lia|]. split; [exact Hm|]. eapply Inside_step; [|exact I]. apply elem_of_app. right. exact Hst.
  Qed.
  (** What is marked. *)
  Lemma c_sub_marks f : forall n t, c_sub f n = Ok t -> forall m, m ∈ sub_names t ->
    (exists t', rtc (nested s) n m /\ shows_sub s m t' /\ inside t t') \/
    (exists st id body, shows s m st /\ s_is_node s m /\ inside t (Ast.SubGraph id body) /\ st ∈ body).
  Proof.
    induction f as [|f IH]; intros n t H m M; [discriminate|]. pose proof H as H0. apply c_sub_inv in H. destruct H as (a & body & Ha & F & ->).
    rewrite sub_names_eq, marks_app, marks_attrs, union_empty_l_L, elem_of_union, elem_of_singleton in M. destruct M as [->|M].
    - left. eexists. split; [reflexivity|]. split; [eapply c_sub_shows; exact H0|constructor].
    - apply elem_of_marks in M. destruct M as (st & Hst & M). destruct (elem_of_list_lookup_1 _ _ Hst) as [i Hi].
      destruct (Forall2_lookup_r _ _ _ _ _ F Hi) as (c & Hc & E). apply elem_of_list_lookup_2, elem_of_sorted, elem_of_kids in Hc.
      unfold c_child in E. destruct (s_nodes s !! c) eqn:E1.
      + injection E as <-. cbn in M. apply elem_of_singleton in M. subst m. right. eexists _, _, _. split; [apply c_node_shows; exact E1|].
        split; [eexists; exact E1|]. split; [apply Inside_refl|]. apply elem_of_app. right. exact Hst.
      + destruct (s_subs s !! c) eqn:E2; [|discriminate]. destruct (c_sub f c) as [t1|e| |] eqn:E3; try discriminate. injection E as <-.
        cbn [st_names] in M. destruct (IH c t1 E3 m M) as [(t' & R & S & I)|(st & id & b & S & N & I & B)].
        * left. exists t'. split; [|split; [exact S|]].
          -- eapply rtc_l; [|exact R]. split; [exact Hc|]. split; [eexists; exact E2|apply not_node; exact E1].
          -- eapply Inside_step; [|exact I]. apply elem_of_app. right. exact Hst.
        * right. exists st, id, b. split; [exact S|]. split; [exact N|]. split; [|exact B]. eapply Inside_step; [|exact I]. apply elem_of_app. right. exact Hst.
  Qed.
  Lemma c_end_shows f n p l : c_end s f n p = Ok l -> shows_end s n p l /\ ~ bad_end s n p.
  Proof.
    unfold c_end. destruct (s_nodes s !! n) eqn:E1.
    - intros [= <-]. split; [apply Shows_end_node; eexists; exact E1|]. intros [N _|N _ _]; apply N; eexists; exact E1.
    - destruct (s_subs s !! n) eqn:E2; [|discriminate]. destruct p; [|discriminate].
      assert (NB : ~ bad_end s n []). { intros [_ N|_ _ N]; [apply N; eexists; exact E2|apply N; reflexivity]. }
      destruct (has_prefix n (lit "cluster")) eqn:E3.
      + intros [= <-]. split; [|exact NB]. apply Shows_end_cluster; [apply not_node; exact E1| |reflexivity]. split; [eexists; exact E2|apply prefix_spec; exact E3].
      + destruct (c_sub f n) as [t|e| |] eqn:E4; try discriminate. intros [= <-]. split; [|exact NB].
        apply Shows_end_sub; [apply not_node; exact E1| |reflexivity|eapply c_sub_shows; exact E4]. intros [_ H]. apply prefix_spec in H. congruence.
  Qed.
  Lemma c_edge_shows f e st : c_edge s f e = Ok st -> shows_edge s e st /\ ~ bad_end s (e_src e) (e_src_port e) /\ ~ bad_end s (e_dst e) (e_dst_port e).
  Proof.
    unfold c_edge. destruct (c_end s f (e_src e) (e_src_port e)) eqn:E1; cbn [bind]; try discriminate.
    destruct (c_end s f (e_dst e) (e_dst_port e)) eqn:E2; cbn [bind]; try discriminate. intros [= <-].
    apply c_end_shows in E1, E2. split; [|tauto]. apply Shows_edge; [tauto|tauto|apply in_order_spec].
  Qed.
End Facts.
