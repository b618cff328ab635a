(** Proofs about trees made by hand. *)
From Coq Require Import List Lia.
From Verif Require Import Base Ast Walk RawTree SpecRaw SpecWalk WalkProofs AstProofs.
Import ListNotations.

(** ** Induction *)
Section RInd.
  Variables (Ps : rstmt -> Prop) (Pl : rloc -> Prop) (Pe : rerh -> Prop) (Pg : rsub -> Prop).
  Hypotheses (H0 : Ps RNil) (H1 : forall n a, Ps (RNode n a))
    (H2 : forall l r a, Pl l -> Forall Pe r -> Ps (REdge l r a))
    (H3 : forall a, Ps (REdgeAttrs a)) (H4 : forall a, Ps (RNodeAttrs a)) (H5 : forall a, Ps (RGraphAttrs a))
    (H6 : forall g, Pg g -> Ps (RSub g)) (H7 : forall a, Ps (RAttr a))
    (L0 : Pl RLNil) (L1 : forall n, Pl (RLNode n)) (L2 : forall g, Pg g -> Pl (RLSub g))
    (E0 : Pe RHNil) (E1 : forall op d, Pl d -> Pe (RH op d))
    (G0 : Pg RSNil) (G1 : forall i b, Forall Ps b -> Pg (RSubGraph i b)).
  Fixpoint rstmt_ind' (s : rstmt) : Ps s :=
    match s with
    | RNil => H0
    | RNode n a => H1 n a
    | REdge l r a => H2 l r a (rloc_ind' l)
        ((fix go (r : list rerh) : Forall Pe r :=
            match r with [] => Forall_nil _ | e :: r' => Forall_cons e (rerh_ind' e) (go r') end) r)
    | REdgeAttrs a => H3 a
    | RNodeAttrs a => H4 a
    | RGraphAttrs a => H5 a
    | RSub g => H6 g (rsub_ind' g)
    | RAttr a => H7 a
    end
  with rloc_ind' (l : rloc) : Pl l := match l with RLNil => L0 | RLNode n => L1 n | RLSub g => L2 g (rsub_ind' g) end
  with rerh_ind' (e : rerh) : Pe e := match e with RHNil => E0 | RH op d => E1 op d (rloc_ind' d) end
  with rsub_ind' (g : rsub) : Pg g :=
    match g with
    | RSNil => G0
    | RSubGraph i b => G1 i b
        ((fix go (b : list rstmt) : Forall Ps b :=
            match b with [] => Forall_nil _ | s :: b' => Forall_cons s (rstmt_ind' s) (go b') end) b)
    end.
  Lemma raw_all_ind : (forall s, Ps s) /\ (forall l, Pl l) /\ (forall e, Pe e) /\ (forall g, Pg g).
  Proof. split; [exact rstmt_ind'|split; [exact rloc_ind'|split; [exact rerh_ind'|exact rsub_ind']]]. Qed.
End RInd.

Scheme nil_stmt_i := Minimality for nil_stmt Sort Prop
with nil_loc_i := Minimality for nil_loc Sort Prop
with nil_erh_i := Minimality for nil_erh Sort Prop
with nil_sub_i := Minimality for nil_sub Sort Prop.
Combined Scheme nil_all from nil_stmt_i, nil_loc_i, nil_erh_i, nil_sub_i.

(** ** A tree has a nil or is an AST *)
Lemma image_list {A B} (f : A -> B) (N : B -> Prop) l : Forall (fun y => N y \/ exists x, y = f x) l ->
  (exists y, In y l /\ N y) \/ exists xs, l = map f xs.
Proof.
  induction 1 as [|y l [Hy|[x ->]] Hl IH].
  - right. exists []. reflexivity.
  - left. exists y. split; [left; reflexivity|exact Hy].
  - destruct IH as [(z & Hz & Nz)|[xs ->]]; [left; exists z; split; [right|]; assumption|right; exists (x :: xs); reflexivity].
Qed.
Lemma image_attrs a : nil_attrs a \/ exists b, a = raw_attrs b.
Proof.
  destruct (image_list (map Some) (fun l : list (option attr) => In None l) a) as [(l & H1 & H2)|H].
  - apply Forall_forall. intros l _.
    destruct (image_list (@Some attr) (fun x => x = None) l) as [(x & Hx & ->)|H]; [|left; exact Hx|right; exact H].
    apply Forall_forall. intros [x|] _; [right; eauto|left; reflexivity].
  - left. exists l. split; assumption.
  - right. exact H.
Qed.
Lemma image_all :
  (forall x, nil_stmt x \/ exists p, x = raw_stmt p) /\ (forall l, nil_loc l \/ exists p, l = raw_loc p) /\
  (forall e, nil_erh e \/ exists p, e = raw_erh p) /\ (forall g, nil_sub g \/ exists p, g = raw_sub p).
Proof.
  apply raw_all_ind.
  - left. constructor.
  - intros [n|] a; [|left; constructor]. destruct (image_attrs a) as [H|[b ->]]; [left; constructor; exact H|right; exists (SNode n b); reflexivity].
  - intros l r a [Hl|[pl ->]] Hr; [left; apply NS_src; exact Hl|].
    destruct (image_list raw_erh nil_erh r Hr) as [(e & He & Ne)|[pr ->]]; [left; eapply NS_rhs; eassumption|].
    destruct (image_attrs a) as [H|[b ->]]; [left; apply NS_edge_attrs; exact H|right; exists (SEdge pl pr b); reflexivity].
  - intros a. destruct (image_attrs a) as [H|[b ->]]; [left; constructor; exact H|right; exists (SEdgeAttrs b); reflexivity].
  - intros a. destruct (image_attrs a) as [H|[b ->]]; [left; constructor; exact H|right; exists (SNodeAttrs b); reflexivity].
  - intros a. destruct (image_attrs a) as [H|[b ->]]; [left; constructor; exact H|right; exists (SGraphAttrs b); reflexivity].
  - intros g [H|[p ->]]; [left; constructor; exact H|right; exists (SSub p); reflexivity].
  - intros [a|]; [right; exists (SAttr a); reflexivity|left; constructor].
  - left. constructor.
  - intros [n|]; [right; exists (LNode n); reflexivity|left; constructor].
  - intros g [H|[p ->]]; [left; constructor; exact H|right; exists (LSub p); reflexivity].
  - left. constructor.
  - intros op d [H|[p ->]]; [left; constructor; exact H|right; exists (EdgeRH op p); reflexivity].
  - left. constructor.
  - intros i b Hb. destruct (image_list raw_stmt nil_stmt b Hb) as [(x & Hx & Nx)|[pb ->]];
      [left; econstructor; eassumption|right; exists (SubGraph i pb); reflexivity].
Qed.
Lemma image_graph g : nil_graph g \/ exists p, g = raw_graph p.
Proof.
  destruct g as [[t st i b]|]; [|left; exact I].
  destruct (image_list raw_stmt nil_stmt b) as [H|[pb ->]].
  - apply Forall_forall. intros x _. apply image_all.
  - left. exact H.
  - right. exists (Graph t st i pb). reflexivity.
Qed.

(** ** Printing *)
Lemma oeach_map {A B C} (f : B -> option C) (r : A -> B) (g : A -> C) l : Forall (fun x => f (r x) = Some (g x)) l ->
  oeach f (map r l) = Some (map g l).
Proof. unfold oeach. induction 1 as [|x l Hx Hl IH]; [reflexivity|]. cbn [map]. rewrite Hx. cbn [obind]. rewrite IH. reflexivity. Qed.
Lemma oeach_none {A B} (f : A -> option B) l x : In x l -> f x = None -> oeach f l = None.
Proof.
  unfold oeach. induction l as [|y l IH]; intros Hx E; [contradiction Hx|]. destruct Hx as [->|Hx].
  - rewrite E. reflexivity.
  - destruct (f y); cbn [obind]; [|reflexivity]. rewrite (IH Hx E). reflexivity.
Qed.
Lemma fold_map {A B C} (f : C -> B -> C) (g : A -> B) l : forall c, fold_left f (map g l) c = fold_left (fun c x => f c (g x)) l c.
Proof. induction l as [|x l IH]; intros c; [reflexivity|]. exact (IH (f c (g x))). Qed.

Lemma ralist_plain l : ralist_str (map Some l) = Some (alist_str l).
Proof.
  destruct l as [|a l]; [reflexivity|]. cbn [map ralist_str rattr_str obind].
  rewrite (oeach_map (rattr_str []) Some (attr_str []) l) by (apply Forall_forall; reflexivity). cbn [obind].
  rewrite fold_map. reflexivity.
Qed.
Lemma ralist_nil l : In None l -> ralist_str l = None.
Proof.
  intros H. destruct l as [|a l]; [contradiction H|]. cbn [ralist_str]. destruct H as [->|H]; [reflexivity|].
  destruct (rattr_str [] a); cbn [obind]; [|reflexivity]. rewrite (oeach_none _ _ _ H eq_refl). reflexivity.
Qed.
Lemma rattrs_plain a : rattr_list_str (raw_attrs a) = Some (attr_list_str a).
Proof.
  unfold rattr_list_str, raw_attrs. rewrite (oeach_map ralist_str (map Some) alist_str a) by (apply Forall_forall; intros l _; apply ralist_plain).
  cbn [obind]. rewrite fold_map. unfold attr_list_str. f_equal. generalize (@nil Ascii.ascii).
  induction a as [|l a IH]; intros c; [reflexivity|]. cbn [fold_left]. rewrite <- IH. destruct (alist_str l); reflexivity.
Qed.
Lemma rattrs_nil a : nil_attrs a -> rattr_list_str a = None.
Proof. intros (l & H1 & H2). unfold rattr_list_str. rewrite (oeach_none _ _ _ H1 (ralist_nil l H2)). reflexivity. Qed.
Lemma rattrs_stmt_plain kw i a : rattrs_stmt_str kw i (raw_attrs a) = Some (attrs_stmt_str kw i a).
Proof. unfold rattrs_stmt_str, attrs_stmt_str. rewrite rattrs_plain. cbn [obind]. destruct (attr_list_str a); reflexivity. Qed.
Lemma rattrs_stmt_nil kw i a : nil_attrs a -> rattrs_stmt_str kw i a = None.
Proof. intros H. unfold rattrs_stmt_str. rewrite rattrs_nil by exact H. reflexivity. Qed.

Lemma str_plain :
  (forall x i, rstmt_str i (raw_stmt x) = Some (stmt_str i x)) /\ (forall l, rloc_str (raw_loc l) = Some (location_str l)) /\
  (forall g i, rsub_str i (raw_sub g) = Some (subgraph_str i g)).
Proof.
  apply (stmt_all_ind (fun x => forall i, rstmt_str i (raw_stmt x) = Some (stmt_str i x)) (fun l => rloc_str (raw_loc l) = Some (location_str l))
    (fun g => forall i, rsub_str i (raw_sub g) = Some (subgraph_str i g))).
  - intros n a i. cbn [raw_stmt rstmt_str stmt_str rnode_id_str obind]. rewrite rattrs_plain. reflexivity.
  - intros l r a Hl Hr i. cbn [raw_stmt rstmt_str stmt_str]. rewrite Hl. cbn [obind].
    rewrite (oeach_map rerh_str raw_erh edge_rh_str r).
    2: { eapply Forall_impl; [|exact Hr]. intros [op d] H. cbn [raw_erh rerh_str edge_rh_str]. rewrite H. reflexivity. }
    cbn [obind]. rewrite rattrs_plain. reflexivity.
  - intros a i. exact (rattrs_stmt_plain _ i a).
  - intros a i. exact (rattrs_stmt_plain _ i a).
  - intros a i. exact (rattrs_stmt_plain _ i a).
  - intros g H i. exact (H i).
  - reflexivity.
  - reflexivity.
  - intros g H. exact (H []).
  - intros id b Hb i. cbn [raw_sub rsub_str subgraph_str].
    rewrite (oeach_map (rstmt_str (i ++ [tab])) raw_stmt (stmt_str (i ++ [tab])) b); [reflexivity|].
    eapply Forall_impl; [|exact Hb]. intros x H. exact (H _).
Qed.
Lemma str_nil :
  (forall x, nil_stmt x -> forall i, rstmt_str i x = None) /\ (forall l, nil_loc l -> rloc_str l = None) /\
  (forall e, nil_erh e -> rerh_str e = None) /\ (forall g, nil_sub g -> forall i, rsub_str i g = None).
Proof.
  apply (nil_all (fun x => forall i, rstmt_str i x = None) (fun l => rloc_str l = None) (fun e => rerh_str e = None) (fun g => forall i, rsub_str i g = None)).
  - reflexivity.
  - reflexivity.
  - intros n a H i. cbn [rstmt_str]. destruct (rnode_id_str n); cbn [obind]; [|reflexivity]. rewrite rattrs_nil by exact H. reflexivity.
  - intros src rhs a H E i. cbn [rstmt_str]. rewrite E. reflexivity.
  - intros src rhs a e He H E i. cbn [rstmt_str]. destruct (rloc_str src); cbn [obind]; [|reflexivity]. rewrite (oeach_none _ _ _ He E). reflexivity.
  - intros src rhs a H i. cbn [rstmt_str]. destruct (rloc_str src); cbn [obind]; [|reflexivity].
    destruct (oeach rerh_str rhs); cbn [obind]; [|reflexivity]. rewrite rattrs_nil by exact H. reflexivity.
  - intros a H i. apply rattrs_stmt_nil. exact H.
  - intros a H i. apply rattrs_stmt_nil. exact H.
  - intros a H i. apply rattrs_stmt_nil. exact H.
  - intros g H E i. exact (E i).
  - reflexivity.
  - reflexivity.
  - reflexivity.
  - intros g H E. exact (E []).
  - reflexivity.
  - intros op d H E. cbn [rerh_str]. rewrite E. reflexivity.
  - reflexivity.
  - intros id b x Hx H E i. cbn [rsub_str]. rewrite (oeach_none _ _ _ Hx (E _)). reflexivity.
Qed.
Lemma graph_str_plain p : rgraph_str (raw_graph p) = Some (graph_str p).
Proof.
  destruct p as [t st i b]. unfold raw_graph, rgraph_str. cbn [rg_type rg_strict rg_id rg_stmts g_type g_strict g_id g_stmts].
  rewrite (oeach_map (rstmt_str [tab]) raw_stmt (stmt_str [tab]) b); [reflexivity|]. apply Forall_forall. intros x _. apply str_plain.
Qed.
Lemma graph_str_nil g : nil_graph g -> rgraph_str g = None.
Proof.
  destruct g as [g|]; [|reflexivity]. intros (x & Hx & N). unfold rgraph_str.
  rewrite (oeach_none _ _ _ Hx (proj1 str_nil x N _)). reflexivity.
Qed.

(** ** Walking *)
Section RTInd.
  Variable P : rtree -> Prop.
  Hypotheses (HT : forall e ps, Forall P ps -> P (RT e ps)) (HN : forall e, P (Null e)) (HH : P Hole).
  Fixpoint rtree_ind' (t : rtree) : P t :=
    match t with
    | RT e ps => HT e ps ((fix go ps : Forall P ps := match ps with [] => Forall_nil _ | t :: ps => Forall_cons t (rtree_ind' t) (go ps) end) ps)
    | Null e => HN e
    | Hole => HH
    end.
End RTInd.
Definition is_ralist (e : relem) : bool := match e with REAList _ => true | _ => false end.

Section RW.
  Variables St V : Type.
  Variable visit : St -> V -> relem -> ending St (option V).
  Notation enter := (enter St V visit).
  Notation each := (rw_each St V).

  (** A walk through a tree of elements. *)
  Fixpoint go (t : rtree) (v : option V) (s : St) {struct t} : ending St unit :=
    match t with
    | Hole => Panics s
    | Null e => enter e v s (fun _ s1 => Panics s1)
    | RT e ps =>
        match v with
        | None => if is_ralist e then Panics s else Returns s tt
        | Some _ => enter e v s (each go ps)
        end
    end.

  Lemma go_rt e ps v s : is_ralist e = false -> go (RT e ps) v s = enter e v s (each go ps).
  Proof. intros H. cbn [go]. destruct v; [reflexivity|]. rewrite H. reflexivity. Qed.
  Lemma enter_ext e v s f g : (forall v s, f v s = g v s) -> enter e v s f = enter e v s g.
  Proof. intros H. unfold RawTree.enter. destruct v as [v|]; [|reflexivity]. destruct (visit s v e); [apply H|reflexivity]. Qed.
  Lemma after_ext {A} (x : ending St unit) (f g : St -> ending St A) : (forall s, f s = g s) -> after x f = after x g.
  Proof. intros H. destruct x; [apply H|reflexivity]. Qed.
  Lemma after_ret (x : ending St unit) : after x (fun s => Returns s tt) = x.
  Proof. destruct x as [s []|s]; reflexivity. Qed.
  Lemma after_assoc {A} x (f : St -> ending St unit) (g : St -> ending St A) : after (after x f) g = after x (fun s => after (f s) g).
  Proof. destruct x; reflexivity. Qed.
  Lemma each_map {A} (w : A -> option V -> St -> ending St unit) (r : A -> rtree) l :
    Forall (fun x => forall v s, w x v s = go (r x) v s) l -> forall v s, each w l v s = each go (map r l) v s.
  Proof.
    unfold RawTree.rw_each. induction 1 as [|x l Hx Hl IH]; intros v s; [reflexivity|]. cbn [map]. rewrite Hx. apply after_ext. intros s1. apply IH.
  Qed.
  Lemma each_one t v s : each go [t] v s = go t v s.
  Proof. unfold RawTree.rw_each. apply after_ret. Qed.
  Lemma each_cons t ts v s : each go (t :: ts) v s = after (go t v s) (each go ts v).
  Proof. reflexivity. Qed.

  Lemma leaf_go e v s : is_ralist e = false -> rw_leaf St V visit e v s = go (RT e []) v s.
  Proof. intros H. rewrite go_rt by exact H. reflexivity. Qed.
  Lemma port_go p v s : rw_port St V visit p v s = go (rt_port p) v s.
  Proof.
    unfold rw_port, rt_port. rewrite go_rt by reflexivity. apply enter_ext. intros v1 s1. rewrite each_cons.
    rewrite leaf_go by reflexivity. apply after_ext. intros s2. rewrite each_one. apply leaf_go. reflexivity.
  Qed.
  Lemma node_id_go n v s : rw_node_id St V visit n v s = go (rt_node_id n) v s.
  Proof.
    destruct n as [n|]; [|reflexivity]. unfold rw_node_id, rt_node_id. rewrite go_rt by reflexivity. apply enter_ext. intros v1 s1. rewrite each_cons.
    rewrite leaf_go by reflexivity. apply after_ext. intros s2. rewrite each_one. apply port_go.
  Qed.
  Lemma attr_go a v s : rw_attr St V visit a v s = go (rt_attr a) v s.
  Proof.
    destruct a as [a|]; [|reflexivity]. unfold rw_attr, rt_attr. rewrite go_rt by reflexivity. apply enter_ext. intros v1 s1. rewrite each_cons.
    rewrite leaf_go by reflexivity. apply after_ext. intros s2. rewrite each_one. apply leaf_go. reflexivity.
  Qed.
  Lemma alist_go l v s : rw_alist St V visit l v s = go (rt_alist l) v s.
  Proof.
    unfold rw_alist, rt_alist. cbn [go]. destruct v as [v|]; [|reflexivity]. apply enter_ext. intros v1 s1.
    apply each_map. apply Forall_forall. intros a _ v2 s2. apply attr_go.
  Qed.
  Lemma alists_go e l v s : is_ralist e = false -> rw_alists St V visit e l v s = go (RT e (map rt_alist l)) v s.
  Proof.
    intros H. rewrite go_rt by exact H. unfold rw_alists. apply enter_ext. intros v1 s1.
    apply each_map. apply Forall_forall. intros a _ v2 s2. apply alist_go.
  Qed.

  Lemma rw_go :
    (forall x v s, rw_stmt St V visit x v s = go (rt_stmt x) v s) /\ (forall l v s, rw_loc St V visit l v s = go (rt_loc l) v s) /\
    (forall e v s, rw_erh St V visit e v s = go (rt_erh e) v s) /\ (forall g v s, rw_sub St V visit g v s = go (rt_sub g) v s).
  Proof.
    apply raw_all_ind.
    - reflexivity.
    - intros n a v s. cbn [rw_stmt rt_stmt]. rewrite go_rt by reflexivity. apply enter_ext. intros v1 s1. rewrite each_cons, node_id_go.
      apply after_ext. intros s2. rewrite each_one. apply alists_go. reflexivity.
    - intros l r a Hl Hr v s. cbn [rw_stmt rt_stmt]. rewrite go_rt by reflexivity. apply enter_ext. intros v1 s1. rewrite each_cons, Hl.
      apply after_ext. intros s2. rewrite each_cons, go_rt by reflexivity. rewrite (enter_ext _ _ _ _ (each go (map rt_erh r))).
      2: { intros v3 s3. apply each_map. exact Hr. }
      apply after_ext. intros s4. rewrite each_one. apply alists_go. reflexivity.
    - intros a v s. cbn [rw_stmt rt_stmt]. apply alists_go. reflexivity.
    - intros a v s. cbn [rw_stmt rt_stmt]. apply alists_go. reflexivity.
    - intros a v s. cbn [rw_stmt rt_stmt]. apply alists_go. reflexivity.
    - intros g H v s. exact (H v s).
    - intros a v s. cbn [rw_stmt rt_stmt]. apply attr_go.
    - reflexivity.
    - intros n v s. exact (node_id_go n v s).
    - intros g H v s. exact (H v s).
    - reflexivity.
    - intros op d H v s. cbn [rw_erh rt_erh]. rewrite go_rt by reflexivity. apply enter_ext. intros v1 s1. rewrite each_cons, leaf_go by reflexivity.
      apply after_ext. intros s2. rewrite each_one. apply H.
    - reflexivity.
    - intros i b Hb v s. cbn [rw_sub rt_sub]. rewrite go_rt by reflexivity. apply enter_ext. intros v1 s1. rewrite each_cons, leaf_go by reflexivity.
      apply after_ext. intros s2. rewrite each_one, go_rt by reflexivity. apply enter_ext. intros v3 s3. apply each_map. exact Hb.
  Qed.
  Lemma graph_go g v s : rw_graph St V visit g v s = go (rt_graph g) v s.
  Proof.
    destruct g as [g|]; [|reflexivity]. unfold rw_graph, rt_graph. rewrite go_rt by reflexivity. apply enter_ext. intros v1 s1.
    rewrite each_cons, leaf_go by reflexivity. apply after_ext. intros s2. rewrite each_cons, leaf_go by reflexivity. apply after_ext. intros s3.
    rewrite each_one, go_rt by reflexivity. apply enter_ext. intros v4 s4. apply each_map. apply Forall_forall. intros x _. apply rw_go.
  Qed.

  (** *** It is the tour of the specification *)
  Definition ends (x : ending St unit) (s : St) (b : bool) : Prop := x = if b then Returns s tt else Panics s.
  Lemma go_tour t : forall v s, exists l s' b, rtour St V visit v t s l s' b /\ ends (go t v s) s' b.
  Proof.
    induction t as [e ps IH|e|] using rtree_ind'; intros v s.
    - destruct v as [v|].
      + cbn [go RawTree.enter]. destruct (visit s v e) as [s1 v1|s1] eqn:E.
        * assert (H : forall v s, exists l s' b, rtours St V visit v ps s l s' b /\ ends (each go ps v s) s' b).
          { clear E. induction IH as [|t ps Ht Hps IH2]; intros w x.
            - exists [], x, true. split; [constructor|reflexivity].
            - destruct (Ht w x) as (l1 & x1 & b1 & T1 & E1). rewrite each_cons. destruct b1; rewrite E1; cbn [after].
              + destruct (IH2 w x1) as (l2 & x2 & b2 & T2 & E2). exists (l1 ++ l2), x2, b2. split; [econstructor; eassumption|exact E2].
              + exists l1, x1, false. split; [apply RTours_stop; exact T1|reflexivity]. }
          destruct (H v1 s1) as (l & s2 & b & T & E2). exists ((v, e) :: l), s2, b. split; [econstructor; eassumption|exact E2].
        * exists [(v, e)], s1, false. split; [apply RTour_thrown; exact E|reflexivity].
      + cbn [go]. exists [], s. destruct (is_ralist e) eqn:Ea.
        * exists false. split; [|reflexivity]. destruct e; try discriminate Ea. constructor.
        * exists true. split; [|reflexivity]. constructor. intros l ->. discriminate Ea.
    - destruct v as [v|]; cbn [go RawTree.enter].
      + destruct (visit s v e) as [s1 v1|s1] eqn:E; exists [(v, e)], s1, false; (split; [|reflexivity]);
          [eapply RTour_null|eapply RTour_null_thrown]; exact E.
      + exists [], s, true. split; [constructor|reflexivity].
    - exists [], s, false. split; [constructor|reflexivity].
  Qed.
End RW.

Scheme rtour_i := Minimality for rtour Sort Prop
with rtours_i := Minimality for rtours Sort Prop.
Combined Scheme rtour_rtours from rtour_i, rtours_i.

Section RW2.
  Variables St V : Type.
  Variable visit : St -> V -> relem -> ending St (option V).
  Notation go := (go St V visit).
  Notation each := (rw_each St V).
  Lemma tour_go :
    (forall v t s l s' b, rtour St V visit v t s l s' b -> ends St (go t v s) s' b) /\
    (forall v ts s l s' b, rtours St V visit v ts s l s' b -> ends St (each go ts v s) s' b).
  Proof.
    apply (rtour_rtours St V visit (fun v t s l s' b => ends St (go t v s) s' b) (fun v ts s l s' b => ends St (each go ts v s) s' b)).
    - intros v e ps s s1 v1 l s2 b E T IH. cbn [RawProofs.go RawTree.enter]. rewrite E. exact IH.
    - intros v e ps s s1 E. cbn [RawProofs.go RawTree.enter]. rewrite E. reflexivity.
    - intros v e s s1 v1 E. cbn [RawProofs.go RawTree.enter]. rewrite E. reflexivity.
    - intros v e s s1 E. cbn [RawProofs.go RawTree.enter]. rewrite E. reflexivity.
    - reflexivity.
    - intros e ps s H. cbn [RawProofs.go]. destruct e; try reflexivity. destruct (H l eq_refl).
    - reflexivity.
    - reflexivity.
    - reflexivity.
    - intros v t ts s l1 s1 l2 s2 b T1 E1 T2 E2. rewrite each_cons. rewrite E1. exact E2.
    - intros v t ts s l s1 T E. rewrite each_cons. rewrite E. reflexivity.
  Qed.

  (** *** Invariants of a walk: [G s v], the visitor [v] may be used in the state [s], and [R s s']: what a walk
      may change *)
  Section Inv.
    Variable G : St -> V -> Prop.
    Variable R : St -> St -> Prop.
    Hypotheses (Rrefl : forall s, R s s) (Rtrans : forall a b c, R a b -> R b c -> R a c)
      (GR : forall s s' v, R s s' -> G s v -> G s' v)
      (Hret : forall s v e s' r, G s v -> visit s v e = Returns s' r -> R s s' /\ exists v', r = Some v' /\ G s' v')
      (Hpan : forall s v e s', G s v -> visit s v e = Panics s' -> R s s').
    Definition fin (x : ending St unit) : St := match x with Returns s _ => s | Panics s => s end.
    Lemma go_inv t : forall v s, G s v -> R s (fin (go t (Some v) s)).
    Proof.
      induction t as [e ps IH|e|] using rtree_ind'; intros v s Hg; cbn [RawProofs.go RawTree.enter].
      - destruct (visit s v e) as [s1 r|s1] eqn:E; [|exact (Hpan _ _ _ _ Hg E)].
        destruct (Hret _ _ _ _ _ Hg E) as (R1 & v1 & -> & G1). eapply Rtrans; [exact R1|]. clear E R1 Hg. revert s1 G1.
        induction IH as [|t ps Ht Hps IH2]; intros s1 G1; [apply Rrefl|]. rewrite each_cons.
        pose proof (Ht v1 s1 G1) as R1. destruct (go t (Some v1) s1) as [s2 u|s2]; cbn [fin after] in *; [|exact R1].
        eapply Rtrans; [exact R1|]. apply IH2. eapply GR; eassumption.
      - destruct (visit s v e) as [s1 r|s1] eqn:E; [exact (proj1 (Hret _ _ _ _ _ Hg E))|exact (Hpan _ _ _ _ Hg E)].
      - apply Rrefl.
    Qed.
    (** A tree with a hole or a nil pointer in it. *)
    Inductive broken : rtree -> Prop :=
    | B_hole : broken Hole
    | B_null e : broken (Null e)
    | B_part e ps t : In t ps -> broken t -> broken (RT e ps).
    Lemma go_broken t : broken t -> forall v s, G s v -> exists s', go t (Some v) s = Panics s'.
    Proof.
      induction 1 as [|e|e ps t Ht Hb IH]; intros v s Hg; cbn [RawProofs.go RawTree.enter].
      - eauto.
      - destruct (visit s v e) as [s1 r|s1]; eauto.
      - destruct (visit s v e) as [s1 r|s1] eqn:E; [|eauto]. destruct (Hret _ _ _ _ _ Hg E) as (R1 & v1 & -> & G1). clear E R1 Hg.
        revert s1 G1. induction ps as [|t0 ps IH2]; intros s1 G1; [contradiction Ht|]. rewrite each_cons.
        destruct Ht as [->|Ht].
        + destruct (IH v1 s1 G1) as [s2 E]. rewrite E. cbn [after]. eauto.
        + pose proof (go_inv t0 v1 s1 G1) as R1. destruct (go t0 (Some v1) s1) as [s2 u|s2]; cbn [fin after] in *; [|eauto].
          apply IH2; [exact Ht|]. eapply GR; eassumption.
    Qed.
  End Inv.
End RW2.

Lemma broken_attrs a : nil_attrs a -> exists t, In t (map rt_alist a) /\ broken t.
Proof.
  intros (l & H1 & H2). exists (rt_alist l). split; [apply in_map; exact H1|]. unfold rt_alist.
  apply B_part with (t := rt_attr None); [apply in_map; exact H2|constructor].
Qed.
Lemma nil_broken :
  (forall x, nil_stmt x -> broken (rt_stmt x)) /\ (forall l, nil_loc l -> broken (rt_loc l)) /\
  (forall e, nil_erh e -> broken (rt_erh e)) /\ (forall g, nil_sub g -> broken (rt_sub g)).
Proof.
  assert (A : forall a, nil_attrs a -> broken (rt_attr_list a)) by (intros a H; destruct (broken_attrs a H) as (t & H1 & H2); eapply B_part; eassumption).
  assert (B : forall e a, nil_attrs a -> broken (RT e (map rt_alist a))) by (intros e a H; destruct (broken_attrs a H) as (t & H1 & H2); eapply B_part; eassumption).
  apply nil_all.
  - constructor.
  - intros a. cbn [rt_stmt]. eapply B_part; [left; reflexivity|constructor].
  - intros n a H. cbn [rt_stmt]. eapply B_part; [right; left; reflexivity|]. apply A. exact H.
  - intros src rhs a _ H. cbn [rt_stmt]. eapply B_part; [left; reflexivity|exact H].
  - intros src rhs a e He _ H. cbn [rt_stmt]. eapply B_part; [right; left; reflexivity|]. eapply B_part; [apply in_map; exact He|exact H].
  - intros src rhs a H. cbn [rt_stmt]. eapply B_part; [right; right; left; reflexivity|]. apply A. exact H.
  - intros a H. apply B. exact H.
  - intros a H. apply B. exact H.
  - intros a H. apply B. exact H.
  - intros g _ H. exact H.
  - constructor.
  - constructor.
  - constructor.
  - intros g _ H. exact H.
  - constructor.
  - intros op d _ H. cbn [rt_erh]. eapply B_part; [right; left; reflexivity|exact H].
  - constructor.
  - intros id b x Hx _ H. cbn [rt_sub]. eapply B_part; [right; left; reflexivity|]. eapply B_part; [apply in_map; exact Hx|exact H].
Qed.
Lemma nil_broken_graph g : nil_graph g -> broken (rt_graph g).
Proof.
  destruct g as [g|]; [|constructor]. intros (x & Hx & N). eapply B_part; [right; right; left; reflexivity|].
  eapply B_part; [apply in_map; exact Hx|apply nil_broken; exact N].
Qed.

(** ** Without nils it is the walk of Walk.v *)
Fixpoint conv (t : tree) : rtree := match t with T e ps => RT (raw_elem e) (map conv ps) end.
Lemma conv_alists a : map rt_alist (raw_attrs a) = map conv (map t_alist a).
Proof.
  unfold raw_attrs. rewrite !map_map. apply map_ext. intros l. unfold rt_alist, t_alist. cbn [conv raw_elem]. rewrite !map_map. reflexivity.
Qed.
Lemma conv_all :
  (forall x, rt_stmt (raw_stmt x) = conv (t_stmt x)) /\ (forall l, rt_loc (raw_loc l) = conv (t_loc l)) /\ (forall g, rt_sub (raw_sub g) = conv (t_sub g)).
Proof.
  apply stmt_all_ind.
  - intros n a. cbn [raw_stmt rt_stmt t_stmt conv raw_elem map]. unfold rt_attr_list, t_attr_list. cbn [conv raw_elem]. rewrite conv_alists. reflexivity.
  - intros l r a Hl Hr. cbn [raw_stmt rt_stmt t_stmt conv raw_elem map]. unfold rt_attr_list, t_attr_list. cbn [conv raw_elem]. rewrite conv_alists, Hl.
    f_equal. f_equal. f_equal. f_equal. rewrite !map_map.
    induction Hr as [|[op d] r He Hr IH]; [reflexivity|]. cbn [map]. f_equal; [|exact IH].
    cbn [raw_erh rt_erh t_rh conv raw_elem map]. rewrite He. reflexivity.
  - intros a. cbn [raw_stmt rt_stmt t_stmt conv raw_elem]. rewrite conv_alists. reflexivity.
  - intros a. cbn [raw_stmt rt_stmt t_stmt conv raw_elem]. rewrite conv_alists. reflexivity.
  - intros a. cbn [raw_stmt rt_stmt t_stmt conv raw_elem]. rewrite conv_alists. reflexivity.
  - intros g H. exact H.
  - reflexivity.
  - reflexivity.
  - intros g H. exact H.
  - intros i b Hb. cbn [raw_sub rt_sub t_sub conv raw_elem map]. f_equal. f_equal. f_equal. f_equal. rewrite !map_map.
    apply map_ext_in. intros x Hx. rewrite Forall_forall in Hb. exact (Hb x Hx).
Qed.
Lemma conv_graph g : rt_graph (raw_graph g) = conv (t_graph g).
Proof.
  unfold rt_graph, raw_graph, t_graph. cbn [conv raw_elem map rg_type rg_strict rg_id rg_stmts g_type g_strict g_id g_stmts]. f_equal. f_equal. f_equal. f_equal. f_equal. rewrite !map_map.
  apply map_ext. intros x. apply conv_all.
Qed.

Section Sim.
  Variables St V : Type.
  Variable visit : St -> V -> elem -> St * option V.
  Variable rvisit : St -> V -> relem -> ending St (option V).
  Hypothesis Hv : forall s v e, rvisit s v (raw_elem e) = Returns (fst (visit s v e)) (snd (visit s v e)).
  Lemma sim_tour :
    (forall v t s l s', tour St V visit v t s l s' -> go St V rvisit (conv t) v s = Returns s' tt) /\
    (forall v ts s l s', tours St V visit v ts s l s' -> rw_each St V (go St V rvisit) (map conv ts) v s = Returns s' tt).
  Proof.
    apply (tour_tours St V visit (fun v t s l s' => go St V rvisit (conv t) v s = Returns s' tt)
      (fun v ts s l s' => rw_each St V (go St V rvisit) (map conv ts) v s = Returns s' tt)).
    - intros v e ps s s1 v1 l s2 E T IH. cbn [conv go enter]. rewrite Hv, E. exact IH.
    - intros e ps s H. cbn [conv go]. destruct e; try reflexivity. destruct (H l eq_refl).
    - reflexivity.
    - intros v t ts s l1 s1 l2 s2 T1 E1 T2 E2. cbn [map]. rewrite each_cons, E1. exact E2.
  Qed.
  Lemma sim_crash :
    (forall v t s, crash St V visit v t s -> exists s', go St V rvisit (conv t) v s = Panics s') /\
    (forall v ts s, crashes St V visit v ts s -> exists s', rw_each St V (go St V rvisit) (map conv ts) v s = Panics s').
  Proof.
    apply (crash_crashes St V visit (fun v t s => exists s', go St V rvisit (conv t) v s = Panics s')
      (fun v ts s => exists s', rw_each St V (go St V rvisit) (map conv ts) v s = Panics s')).
    - intros al ps s. cbn. eauto.
    - intros v e ps s s1 v1 E T IH. cbn [conv go enter]. rewrite Hv, E. exact IH.
    - intros v t ts s T [s' E]. cbn [map]. rewrite each_cons, E. cbn. eauto.
    - intros v t ts s l s1 T C [s' E]. cbn [map]. rewrite each_cons, (proj1 sim_tour _ _ _ _ _ T). cbn [after]. eauto.
  Qed.
  Lemma sim_graph g v s :
    match w_graph St V visit g v s with
    | Some s' => rw_graph St V rvisit (raw_graph g) v s = Returns s' tt
    | None => exists s', rw_graph St V rvisit (raw_graph g) v s = Panics s'
    end.
  Proof.
    pose proof (does_graph St V visit g v s) as H. rewrite graph_go, conv_graph. destruct (w_graph St V visit g v s) as [s'|].
    - destruct H as [l H]. exact (proj1 sim_tour _ _ _ _ _ H).
    - exact (proj1 sim_crash _ _ _ H).
  Qed.
End Sim.
