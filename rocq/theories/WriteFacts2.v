(** Facts about the canonical writer: the whole tree, and termination. *)
From stdpp Require Import sorting.
From Verif Require Import Base Parser Maps Graph AttrMap SpecGraph MapFacts GraphProofs Write SpecWrite EdgeOrder WriteProofs WriteFacts.
From Verif Require Ast.

Lemma filter_ext_in' {A} (P Q : A -> Prop) `{HP : forall x, Decision (P x)} `{HQ : forall x, Decision (Q x)} (l : list A) :
  (forall x, x ∈ l -> P x <-> Q x) -> filter P l = filter Q l.
Proof.
  induction l as [|x l IH]; intros H; [reflexivity|]. rewrite !filter_cons.
  assert (E : filter P l = filter Q l) by (apply IH; intros y Hy; apply H; right; exact Hy).
  pose proof (H x (elem_of_list_here _ _)). destruct (decide (P x)), (decide (Q x)); try tauto; rewrite E; reflexivity.
Qed.

Section Whole.
  Variable s : sgraph.
  Notation c_sub := (c_sub s).

  Lemma c_tops_ok f ns : forall acc b, c_tops s f ns acc = Ok b -> exists tops ts, b = acc ++ map Ast.SSub ts /\
    Forall2 (fun n t => c_sub f n = Ok t) tops ts /\ sublist tops ns /\
    (forall n, n ∈ tops -> is_child s (s_name s) n /\ n ∉ marks acc) /\
    (forall n, n ∈ ns -> is_child s (s_name s) n -> n ∈ marks b).
  Proof.
    induction ns as [|n ns IH]; intros acc b; cbn [c_tops].
    - intros [= <-]. exists [], []. cbn. rewrite app_nil_r. split; [reflexivity|]. split; [constructor|]. split; [constructor|]. split; intros n Hn; apply elem_of_nil in Hn; contradiction.
    - destruct (decide (n ∈ marks acc)) as [M|M]; [|destruct (decide (n ∈ kids s (s_name s))) as [K|K]].
      + intros H. destruct (IH acc b H) as (tops & ts & -> & F & S & P & Q). exists tops, ts. repeat split; auto; try apply P; auto; [apply sublist_cons; exact S|].
        intros m Hm C. apply elem_of_cons in Hm. destruct Hm as [->|Hm]; [rewrite marks_app; apply elem_of_union_l; exact M|apply Q; assumption].
      + destruct (c_sub f n) as [t|e| |] eqn:E; cbn [bind]; try discriminate. intros H.
        destruct (IH _ b H) as (tops & ts & -> & F & S & P & Q). exists (n :: tops), (t :: ts). cbn [map].
        split; [rewrite <- app_assoc; reflexivity|]. split; [constructor; assumption|]. split; [apply sublist_skip; exact S|]. split.
        * intros m Hm. apply elem_of_cons in Hm. destruct Hm as [->|Hm]; [split; [apply elem_of_kids; exact K|exact M]|].
          destruct (P m Hm) as [P1 P2]. split; [exact P1|]. rewrite marks_app in P2. set_solver.
        * intros m Hm C. apply elem_of_cons in Hm. destruct Hm as [->|Hm].
          -- rewrite !marks_app. apply elem_of_union_l, elem_of_union_r. rewrite marks_cons. apply elem_of_union_l. cbn [st_names].
             destruct f as [|f]; [discriminate|]. apply c_sub_inv in E. destruct E as (a & body & _ & _ & ->). rewrite sub_names_eq. set_solver.
          -- apply Q; assumption.
      + intros H. destruct (IH acc b H) as (tops & ts & -> & F & S & P & Q). exists tops, ts. repeat split; auto; try apply P; auto; [apply sublist_cons; exact S|].
        intros m Hm C. apply elem_of_cons in Hm. destruct Hm as [->|Hm]; [destruct K; apply elem_of_kids; exact C|apply Q; assumption].
  Qed.
  Lemma c_nodes_eq ns : NoDup ns -> forall acc,
    c_nodes s ns acc = acc ++ map (fun n => c_node n (default ∅ (s_nodes s !! n))) (filter (fun n => n ∉ marks acc) ns).
  Proof.
    induction 1 as [|n ns N H IH]; intros acc; cbn [c_nodes]; [rewrite app_nil_r; reflexivity|]. rewrite filter_cons.
    destruct (decide (n ∈ marks acc)) as [M|M]; [rewrite decide_False by tauto; apply IH|]. rewrite decide_True by exact M. rewrite IH. rewrite <- app_assoc. cbn [map app].
    do 3 f_equal. apply filter_ext_in'. intros m Hm. rewrite marks_app, not_elem_of_union. rewrite marks_cons. cbn. set_solver.
  Qed.

  Lemma c_write_ok f es a : c_write s f es = Ok a -> exists el tops ts ns,
    a = Ast.Graph (s_directed s) (s_strict s) (s_name s)
          (map Ast.SAttr (in_order (s_attrs s)) ++ el ++ map Ast.SSub ts ++ map (fun n => c_node n (default ∅ (s_nodes s !! n))) ns) /\
    Forall2 (fun e st => c_edge s f e = Ok st) es el /\
    Forall2 (fun n t => c_sub f n = Ok t) tops ts /\ sublist tops (sorted (dom (s_subs s))) /\
    (forall n, n ∈ tops -> is_child s (s_name s) n /\ s_is_sub s n /\ n ∉ marks el) /\
    (forall n, s_is_sub s n -> is_child s (s_name s) n -> n ∈ marks (el ++ map Ast.SSub ts)) /\
    ns = filter (fun n => n ∉ marks (el ++ map Ast.SSub ts)) (sorted (dom (s_nodes s))).
  Proof.
    unfold c_write. destruct (map_res _ es) as [el|e| |] eqn:E1; cbn [bind]; try discriminate.
    destruct (c_tops _ _ _ _) as [l|e| |] eqn:E2; cbn [bind]; try discriminate. intros [= <-].
    apply map_res_ok in E1. apply c_tops_ok in E2. destruct E2 as (tops & ts & -> & F & S & P & Q).
    assert (M : forall x, marks ((map Ast.SAttr (in_order (s_attrs s)) ++ el) ++ x) = marks (el ++ x)) by (intros x; rewrite !marks_app, marks_attrs; set_solver).
    rewrite c_nodes_eq by apply NoDup_sorted. eexists el, tops, ts, _. split; [rewrite <- !app_assoc; reflexivity|].
    split; [exact E1|]. split; [exact F|]. split; [exact S|]. split; [|split].
    - intros n Hn. destruct (P n Hn) as [P1 P2]. split; [exact P1|]. split; [apply subs_listed; eapply elem_of_submseteq; [exact Hn|apply sublist_submseteq; exact S]|].
      rewrite marks_app, marks_attrs in P2. set_solver.
    - intros n Hn C. rewrite <- M. apply Q; [apply subs_listed; exact Hn|exact C].
    - apply filter_ext_in'. intros n _. rewrite !marks_app, marks_attrs. set_solver.
  Qed.

  (** What marks mean. *)
  Lemma end_marks f n p l : c_end s f n p = Ok l -> endpoint s n p -> forall m, m ∈ loc_names l -> exists t, l = Ast.LSub t /\
    ((exists t', written s m /\ shows_sub s m t' /\ inside t t' /\ (m = n \/ ~ s_is_node s m)) \/
     (exists st id body, shows s m st /\ s_is_node s m /\ inside t (Ast.SubGraph id body) /\ st ∈ body)) /\ starts s n /\ ~ s_is_node s n.
  Proof.
    unfold c_end. destruct (s_nodes s !! n) eqn:E1; [intros [= <-] _ m Hm; set_solver|].
    destruct (s_subs s !! n) eqn:E2; [|discriminate]. destruct p; [|discriminate].
    destruct (has_prefix n (lit "cluster")) eqn:E3; [intros [= <-] _ m Hm; set_solver|].
    destruct (c_sub f n) as [t|e| |] eqn:E4; try discriminate. intros [= <-] P m Hm. exists t. split; [reflexivity|].
    assert (St : starts s n).
    { eapply Starts_end; [exact P|eexists; exact E2|apply not_node; exact E1|]. intros [_ H]. apply prefix_spec in H. congruence. }
    split; [|split; [exact St|apply not_node; exact E1]].
    destruct (c_sub_marks s f n t E4 m Hm) as [(t' & R & S & I)|H]; [|right; exact H]. left. exists t'. split; [exists n; auto|]. split; [exact S|]. split; [exact I|].
    apply rtc_inv_r in R. destruct R as [<-|(y & _ & (_ & _ & N))]; auto.
  Qed.
  Lemma edge_marks f e st : c_edge s f e = Ok st -> e ∈ s_edges s -> forall l, st ∈ l -> forall m, m ∈ st_names st ->
    (exists t', written s m /\ shows_sub s m t' /\ occurs l t' /\ ~ s_is_node s m) \/
    (exists st', shows s m st' /\ s_is_node s m /\ occurs_stmt l st').
  Proof.
    unfold c_edge. destruct (c_end s f (e_src e) (e_src_port e)) as [l1|x| |] eqn:E1; cbn [bind]; try discriminate.
    destruct (c_end s f (e_dst e) (e_dst_port e)) as [l2|x| |] eqn:E2; cbn [bind]; try discriminate. intros [= <-] He l Hl m Hm.
    cbn in Hm. apply elem_of_union in Hm. rewrite union_empty_r_L in Hm. destruct Hm as [Hm|Hm].
    - destruct (end_marks f _ _ _ E1 ltac:(exists e; auto) m Hm) as (t & -> & [(t' & W & S & I & N)|(st & id & body & S & N & I & B)] & _ & Nn).
      + left. exists t'. split; [exact W|]. split; [exact S|]. split; [eapply Occurs_src; eassumption|]. destruct N as [->|N]; assumption.
      + right. exists st. split; [exact S|]. split; [exact N|]. right. exists id, body. split; [eapply Occurs_src; eassumption|exact B].
    - destruct (end_marks f _ _ _ E2 ltac:(exists e; auto) m Hm) as (t & -> & [(t' & W & S & I & N)|(st & id & body & S & N & I & B)] & _ & Nn).
      + left. exists t'. split; [exact W|]. split; [exact S|]. split; [eapply Occurs_dst; eassumption|]. destruct N as [->|N]; assumption.
      + right. exists st. split; [exact S|]. split; [exact N|]. right. exists id, body. split; [eapply Occurs_dst; eassumption|exact B].
  Qed.
  Lemma write_marks f es el tops ts l : no_clash s -> es ≡ₚ s_edges s -> Forall2 (fun e st => c_edge s f e = Ok st) es el ->
    Forall2 (fun n t => c_sub f n = Ok t) tops ts -> (forall n, n ∈ tops -> is_child s (s_name s) n /\ s_is_sub s n) ->
    (forall st, st ∈ el -> st ∈ l) -> (forall t, t ∈ ts -> Ast.SSub t ∈ l) -> forall m, m ∈ marks (el ++ map Ast.SSub ts) ->
    (exists t', written s m /\ shows_sub s m t' /\ occurs l t' /\ ~ s_is_node s m) \/
    (exists st', shows s m st' /\ s_is_node s m /\ occurs_stmt l st').
  Proof.
    intros NC P Fe Ft T L1 L2 m Hm. rewrite marks_app in Hm. apply elem_of_union in Hm. destruct Hm as [Hm|Hm]; apply elem_of_marks in Hm; destruct Hm as (st & Hst & Hm).
    - destruct (elem_of_list_lookup_1 _ _ Hst) as [i Hi]. destruct (Forall2_lookup_r _ _ _ _ _ Fe Hi) as (e & He & E).
      apply elem_of_list_lookup_2 in He. rewrite P in He. eapply edge_marks; eauto.
    - apply elem_of_list_fmap in Hst. destruct Hst as (t & -> & Ht). destruct (elem_of_list_lookup_1 _ _ Ht) as [i Hi].
      destruct (Forall2_lookup_r _ _ _ _ _ Ft Hi) as (n & Hn & E). apply elem_of_list_lookup_2 in Hn. destruct (T n Hn) as [T1 T2].
      cbn [st_names] in Hm. destruct (c_sub_marks s f n t E m Hm) as [(t' & R & S & I)|(st & id & body & S & N & I & B)].
      + left. exists t'. split; [exists n; split; [apply Starts_top; assumption|exact R]|]. split; [exact S|]. split; [eapply Occurs_stmt; [apply L2; exact Ht|exact I]|].
        apply rtc_inv_r in R. destruct R as [<-|(y & _ & (_ & _ & N))]; [|exact N]. intros N. exact (NC n T2 N T1).
      + right. exists st. split; [exact S|]. split; [exact N|]. right. exists id, body. split; [eapply Occurs_stmt; [apply L2; exact Ht|exact I]|exact B].
  Qed.

  (** Everything that has to be written was. *)
  Lemma start_written f es el tops ts r : no_clash s -> es ≡ₚ s_edges s -> Forall2 (fun e st => c_edge s f e = Ok st) es el ->
    Forall2 (fun n t => c_sub f n = Ok t) tops ts -> (forall n, n ∈ tops -> is_child s (s_name s) n /\ s_is_sub s n) ->
    (forall n, s_is_sub s n -> is_child s (s_name s) n -> n ∈ marks (el ++ map Ast.SSub ts)) ->
    starts s r -> exists f' n t, c_sub f' n = Ok t /\ rtc (nested s) n r /\ forall l, (forall st, st ∈ el -> st ∈ l) -> (forall t, t ∈ ts -> Ast.SSub t ∈ l) -> forall t', inside t t' -> occurs l t'.
  Proof.
    intros NC P Fe Ft T Q [C Sub|port E Sub N1 N2].
    - pose proof (Q r Sub C) as M. rewrite marks_app in M. apply elem_of_union in M. destruct M as [M|M]; apply elem_of_marks in M; destruct M as (st & Hst & M).
      + destruct (elem_of_list_lookup_1 _ _ Hst) as [i Hi]. destruct (Forall2_lookup_r _ _ _ _ _ Fe Hi) as (e & He & E).
        apply elem_of_list_lookup_2 in He. rewrite P in He. unfold c_edge in E.
        destruct (c_end s f (e_src e) (e_src_port e)) as [l1|x| |] eqn:E1; cbn [bind] in E; try discriminate.
        destruct (c_end s f (e_dst e) (e_dst_port e)) as [l2|x| |] eqn:E2; cbn [bind] in E; try discriminate. injection E as <-.
        cbn in M. rewrite union_empty_r_L in M. apply elem_of_union in M.
        assert (K : forall n port l, c_end s f n port = Ok l -> r ∈ loc_names l -> exists t, l = Ast.LSub t /\ c_sub f n = Ok t /\ rtc (nested s) n r).
        { intros n port l H Hr. unfold c_end in H. destruct (s_nodes s !! n) eqn:X1; [injection H as <-; set_solver|].
          destruct (s_subs s !! n); [|discriminate]. destruct port; [|discriminate]. destruct (has_prefix _ _); [injection H as <-; set_solver|].
          destruct (c_sub f n) as [t|x| |] eqn:X; try discriminate. injection H as <-. exists t. split; [reflexivity|]. split; [reflexivity|].
          destruct (c_sub_marks s f n t X r Hr) as [(t' & R & _)|(st' & id & body & _ & N & _)]; [exact R|]. exfalso. exact (NC r Sub N C). }
        destruct M as [M|M]; [destruct (K _ _ _ E1 M) as (t & -> & X & R)|destruct (K _ _ _ E2 M) as (t & -> & X & R)];
          (exists f; eexists; exists t; split; [exact X|]; split; [exact R|]; intros l L1 L2 t' I).
        * eapply Occurs_src; [apply L1; exact Hst|exact I].
        * eapply Occurs_dst; [apply L1; exact Hst|exact I].
      + apply elem_of_list_fmap in Hst. destruct Hst as (t & -> & Ht). destruct (elem_of_list_lookup_1 _ _ Ht) as [i Hi].
        destruct (Forall2_lookup_r _ _ _ _ _ Ft Hi) as (n & Hn & X). apply elem_of_list_lookup_2 in Hn. destruct (T n Hn) as [T1 T2].
        exists f, n, t. split; [exact X|]. split.
        * destruct (c_sub_marks s f n t X r M) as [(t' & R & _)|(st' & id & body & _ & N & _)]; [exact R|]. exfalso. exact (NC r Sub N C).
        * intros l L1 L2 t' I. eapply Occurs_stmt; [apply L2; exact Ht|exact I].
    - destruct E as (e & He & E). rewrite <- P in He. destruct (elem_of_list_lookup_1 _ _ He) as [i Hi]. destruct (Forall2_lookup_l _ _ _ _ _ Fe Hi) as (st & Hst & X).
      apply elem_of_list_lookup_2 in Hst. unfold c_edge in X.
      destruct (c_end s f (e_src e) (e_src_port e)) as [l1|x| |] eqn:E1; cbn [bind] in X; try discriminate.
      destruct (c_end s f (e_dst e) (e_dst_port e)) as [l2|x| |] eqn:E2; cbn [bind] in X; try discriminate. injection X as <-.
      assert (K : forall l, c_end s f r port = Ok l -> exists t, l = Ast.LSub t /\ c_sub f r = Ok t).
      { intros l H. unfold c_end in H. destruct (s_nodes s !! r) eqn:X1; [destruct N1; eexists; exact X1|].
        destruct (s_subs s !! r) eqn:X2; [|discriminate]. destruct port; [|discriminate].
        destruct (has_prefix _ _) eqn:X3; [destruct N2; split; [exact Sub|apply prefix_spec; exact X3]|].
        destruct (c_sub f r) as [t|x| |] eqn:X; try discriminate. injection H as <-. eauto. }
      destruct E as [[Er Ep]|[Er Ep]].
      + rewrite <- Er, <- Ep in E1. destruct (K _ E1) as (t & -> & X). exists f, r, t. split; [exact X|]. split; [reflexivity|].
        intros l L1 L2 t' I. eapply Occurs_src; [apply L1; exact Hst|exact I].
      + rewrite <- Er, <- Ep in E2. destruct (K _ E2) as (t & -> & X). exists f, r, t. split; [exact X|]. split; [reflexivity|].
        intros l L1 L2 t' I. eapply Occurs_dst; [apply L1; exact Hst|exact I].
  Qed.
  Lemma written_ok f es a : no_clash s -> es ≡ₚ s_edges s -> c_write s f es = Ok a -> forall m, written s m ->
    (exists f' t, c_sub f' m = Ok t /\ occurs (Ast.g_stmts a) t) /\ forall c, is_child s m c -> s_is_node s c \/ s_is_sub s c.
  Proof.
    intros NC P H m (r & St & R). apply c_write_ok in H. destruct H as (el & tops & ts & ns & -> & Fe & Ft & S & T & Q & _).
    destruct (start_written f es el tops ts r NC P Fe Ft) as (f' & n & t & X & R' & O); [intros x Hx; destruct (T x Hx) as (A & B & _); auto|exact Q|exact St|].
    destruct (c_sub_nested s f' n t X m (transitivity R' R)) as [(f2 & t2 & _ & X2 & I) B]. split; [|exact B].
    exists f2, t2. split; [exact X2|]. apply O; [| |exact I]; cbn [Ast.g_stmts].
    - intros st Hst. rewrite !elem_of_app. auto.
    - intros t0 Ht0. rewrite !elem_of_app. right. right. left. apply elem_of_list_fmap. eauto.
  Qed.
  Lemma c_write_unwritable f es a : no_clash s -> es ≡ₚ s_edges s -> c_write s f es = Ok a -> ~ unwritable s.
  Proof.
    intros NC P H [n port (e & He & E) B|p c W C N1 N2].
    - apply c_write_ok in H. destruct H as (el & tops & ts & ns & -> & Fe & _). rewrite <- P in He.
      destruct (elem_of_list_lookup_1 _ _ He) as [i Hi]. destruct (Forall2_lookup_l _ _ _ _ _ Fe Hi) as (st & _ & X). apply c_edge_shows in X.
      destruct X as (_ & X1 & X2). destruct E as [[-> ->]|[-> ->]]; contradiction.
    - destruct (written_ok f es a NC P H p W) as [_ Q]. destruct (Q c C); contradiction.
  Qed.

  (** ** Termination *)
  Lemma c_sub_terminates f : forall n (P : names), s_is_sub s n -> (forall p, p ∈ P -> s_is_sub s p /\ tc (nested s) p n) ->
    (forall m, rtc (nested s) n m -> ~ tc (nested s) m m) -> size (dom (s_subs s)) < size P + f -> c_sub f n <> OutOfFuel.
  Proof.
    induction f as [|f IH]; intros n P Sn HP A L.
    - exfalso. assert (Hn : n ∉ P). { intros H. destruct (HP n H) as [_ H']. apply (A n); [reflexivity|exact H']. }
      assert (Sz : size ({[n]} ∪ P) <= size (dom (s_subs s))).
      { apply subseteq_size. intros x Hx. apply elem_of_union in Hx. rewrite elem_of_dom. destruct Hx as [Hx|Hx]; [apply elem_of_singleton in Hx; subst; exact Sn|apply HP; exact Hx]. }
      rewrite size_union in Sz by set_solver. rewrite size_singleton in Sz. lia.
    - cbn [WriteProofs.c_sub]. destruct Sn as [a Ha]. rewrite Ha. intros C. destruct (map_res _ _) eqn:E; cbn [bind] in C; try discriminate.
      apply map_res_fuel in E. destruct E as (c & Hc & E). apply elem_of_sorted, elem_of_kids in Hc. unfold c_child in E.
      destruct (s_nodes s !! c) eqn:E1; [discriminate|]. destruct (s_subs s !! c) eqn:E2; [|discriminate].
      assert (Nc : nested s n c) by (split; [exact Hc|]; split; [eexists; exact E2|apply not_node; exact E1]).
      assert (X : c_sub f c = OutOfFuel) by (destruct (c_sub f c); try discriminate; reflexivity). revert X.
      assert (Hn : n ∉ P). { intros H. destruct (HP n H) as [_ H']. apply (A n); [reflexivity|exact H']. }
      apply (IH c ({[n]} ∪ P)).
      + eexists; exact E2.
      + intros p Hp. apply elem_of_union in Hp. destruct Hp as [Hp|Hp].
        * apply elem_of_singleton in Hp. subst p. split; [eexists; exact Ha|]. apply tc_once. exact Nc.
        * destruct (HP p Hp) as [H1 H2]. split; [exact H1|]. eapply tc_r; [exact H2|exact Nc].
      + intros m R. apply A. eapply rtc_l; [exact Nc|exact R].
      + rewrite size_union by set_solver. rewrite size_singleton. lia.
  Qed.
  Lemma c_write_terminates es : es ≡ₚ s_edges s -> acyclic s -> c_write s (S (size (s_subs s))) es <> OutOfFuel.
  Proof.
    intros P A. assert (T : forall n, starts s n -> c_sub (S (size (s_subs s))) n <> OutOfFuel).
    { intros n St. apply (c_sub_terminates _ n ∅).
      - destruct St; assumption.
      - intros p Hp. set_solver.
      - intros m R. apply A. exists n. auto.
      - rewrite size_empty, size_dom. lia. }
    remember (S (size (s_subs s))) as f eqn:Ef. unfold c_write. destruct (map_res _ es) as [el|e| |] eqn:E1; cbn [bind]; try discriminate.
    - destruct (c_tops _ _ _ _) eqn:E2; cbn [bind]; try discriminate. exfalso. revert E2.
      generalize (map Ast.SAttr (in_order (s_attrs s)) ++ el).
      assert (Ns : forall n, n ∈ sorted (dom (s_subs s)) -> s_is_sub s n) by (intros n; apply subs_listed).
      revert Ns. generalize (sorted (dom (s_subs s))). intros ns. induction ns as [|n ns IH]; intros Ns acc; cbn [c_tops]; [discriminate|].
      assert (Ns' : forall m, m ∈ ns -> s_is_sub s m) by (intros m Hm; apply Ns; right; exact Hm).
      destruct (decide _); [apply IH; exact Ns'|]. destruct (decide _) as [K|K]; [|apply IH; exact Ns'].
      pose proof (T n (Starts_top s n (proj1 (elem_of_kids _ _ _) K) (Ns n (elem_of_list_here _ _)))) as Tn.
      destruct (c_sub f n); cbn [bind]; try congruence. apply IH. exact Ns'.
    - apply map_res_fuel in E1. destruct E1 as (e & He & E1). rewrite P in He. unfold c_edge in E1.
      assert (K : forall n p, endpoint s n p -> c_end s f n p <> OutOfFuel).
      { intros n p Hn. unfold c_end. destruct (s_nodes s !! n) eqn:X1; [discriminate|]. destruct (s_subs s !! n) eqn:X2; [|discriminate].
        destruct p; [|discriminate]. destruct (has_prefix _ _) eqn:X3; [discriminate|].
        assert (St : starts s n). { eapply Starts_end; [exact Hn|eexists; exact X2|apply not_node; exact X1|]. intros [_ H]. apply prefix_spec in H. congruence. }
        specialize (T n St). destruct (c_sub f n); cbn; congruence. }
      pose proof (K (e_src e) (e_src_port e) ltac:(exists e; auto)) as K1. pose proof (K (e_dst e) (e_dst_port e) ltac:(exists e; auto)) as K2.
      destruct (c_end s f (e_src e) (e_src_port e)); cbn [bind] in E1; try congruence.
      destruct (c_end s f (e_dst e) (e_dst_port e)); cbn [bind] in E1; congruence.
  Qed.
  (** A cycle that is reached makes the recursion unbounded. *)
  Lemma c_sub_cycle f : forall n t, c_sub f n = Ok t -> forall m, rtc (nested s) n m -> ~ tc (nested s) m m.
  Proof.
    induction f as [f IH] using lt_wf_ind. intros n t H m R C.
    destruct (c_sub_nested s f n t H m R) as [(f' & t' & L & H' & _) _].
    destruct f' as [|f']; [discriminate|].
    inversion C as [? c|? c ? N Cm]; subst.
    - apply c_sub_inv in H'. destruct H' as (a & body & _ & F & _). destruct H0 as (N1 & N2 & N3).
      apply elem_of_kids, elem_of_sorted in N1. destruct (elem_of_list_lookup_1 _ _ N1) as [i Hi]. destruct (Forall2_lookup_l _ _ _ _ _ F Hi) as (st & _ & E).
      unfold c_child in E. destruct (s_nodes s !! m) eqn:X1; [destruct N3; eexists; exact X1|]. destruct (s_subs s !! m); [|discriminate].
      destruct (c_sub f' m) as [t1|e| |] eqn:X; try discriminate. eapply (IH f'); [lia|exact X|reflexivity|]. exact C.
    - pose proof N as N0. apply c_sub_inv in H'. destruct H' as (a & body & _ & F & _). destruct N as (N1 & N2 & N3).
      apply elem_of_kids, elem_of_sorted in N1. destruct (elem_of_list_lookup_1 _ _ N1) as [i Hi]. destruct (Forall2_lookup_l _ _ _ _ _ F Hi) as (st & _ & E).
      unfold c_child in E. destruct (s_nodes s !! c) eqn:X1; [destruct N3; eexists; exact X1|]. destruct (s_subs s !! c); [|discriminate].
      destruct (c_sub f' c) as [t1|e| |] eqn:X; try discriminate. eapply (IH f'); [lia|exact X| |exact C]. apply tc_rtc. exact Cm.
  Qed.
  Lemma c_write_cyclic f es a : no_clash s -> es ≡ₚ s_edges s -> c_write s f es = Ok a -> acyclic s.
  Proof.
    intros NC P H n W. destruct (written_ok f es a NC P H n W) as [(f' & t & X & _) _]. eapply c_sub_cycle; [exact X|reflexivity].
  Qed.
End Whole.
