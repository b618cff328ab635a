(** The visitors of /repo/analyse.go, run by the Walk methods of /repo/ast/ast.go, make the calls of Analyse.v. *)
From Verif Require Import Base Parser Maps Graph AttrMap Analyse Walk SpecWalk WalkProofs AstProofs.
From Verif Require Ast.

(** graphVisitor (analyse.go:44-46), a pointer to a stmtVisitor (66-73), nilVisitor (38-39) *)
Inductive visitor_value := VGraph | VStmt (p : nat) | VNil.

Section Visitors.
  Variable S : Type.
  Variable step : S -> call -> S * option err.
  Variable ord : order.

  (** The error catcher and the heap of stmtVisitors. *)
  Record vstate := VState { vs_st : istate S; vs_heap : list visitor }.
  (** A new stmtVisitor. *)
  Definition alloc (x : visitor * istate S) (h : list visitor) : vstate * option visitor_value :=
    (VState (snd x) (h ++ [fst x]), Some (VStmt (length h))).
  (** A changed stmtVisitor; [r] is what Visit returns. *)
  Definition store (p : nat) (x : visitor * istate S) (h : list visitor) (r : visitor_value) : vstate * option visitor_value :=
    (VState (snd x) (<[p := fst x]> h), Some r).

  (** analyse.go:41-43 (nilVisitor.Visit), 48-58 (graphVisitor.Visit), 75-97 (stmtVisitor.Visit) with the methods it
      calls, of which Analyse.v has the bodies. *)
  Definition visit (s : vstate) (v : visitor_value) (e : elem) : vstate * option visitor_value :=
    let st := vs_st s in let h := vs_heap s in
    match v with
    | VNil => (s, Some VNil)
    | VGraph =>
        match e with
        | EGraph g =>
            let st1 := emit S step st (CSetStrict (Ast.g_strict g)) in
            let st2 := emit S step st1 (CSetDir (Ast.g_type g)) in
            let st3 := emit S step st2 (CSetName (Ast.g_id g)) in
            alloc (new_stmt_visitor S ord st3 (Ast.g_id g) ∅ ∅) h
        | _ => (s, Some VGraph)
        end
    | VStmt p =>
        match h !! p with
        | None => (s, None)                                             (* no such pointer: cannot happen *)
        | Some w =>
            match e with
            | ENodeStmt n a => store p (node_stmt S step ord w st n a) h VNil                        (* 122-133 *)
            | EEdgeStmt src rhs a => store p (edge_stmt S step ord w st src rhs a) h (VStmt p)       (* 135-158 *)
            | ENodeAttrs a => store p (node_attrs_stmt S ord w st a) h VNil                          (* 160-163 *)
            | EEdgeAttrs a => store p (edge_attrs_stmt S ord w st a) h VNil                          (* 165-168 *)
            | EGraphAttrs a => store p (graph_attrs_stmt S step ord w st a) h VNil                   (* 170-177 *)
            | ESub (Ast.SubGraph id _) =>                                                            (* 179-183 *)
                alloc (new_stmt_visitor S ord (emit S step st (CAddSubGraph (v_graph w) id (v_gattrs w))) id (v_nattrs w) (v_eattrs w)) h
            | EAttr a => (VState (emit S step st (CAddAttr (v_graph w) (Ast.at_field a) (Ast.at_value a))) h, Some (VStmt p))  (* 185-188 *)
            | EAttrList _ => (s, Some VNil)                                                          (* 91-92 *)
            | _ => (s, Some (VStmt p))                                                               (* 93-96 *)
            end
        end
    end.

  (** analyse.go:31-36 (Analyse) *)
  Definition analyse_walk (g : Ast.graph) (s0 : S) : option (S * option err) :=
    obind (w_graph vstate visitor_value visit g (Some VGraph) (VState (IState s0 [] 0) []))
      (fun s => Some (i_impl (vs_st s), get_error (i_errs (vs_st s)))).

  (** ** It is the walk of Analyse.v *)
  Notation W := (w_stmt vstate visitor_value visit).
  (** Under nilVisitor nothing happens. *)
  Lemma nil_tour :
    (forall v t s l s', tour vstate visitor_value visit v t s l s' -> v = Some VNil -> s' = s) /\
    (forall v ts s l s', tours vstate visitor_value visit v ts s l s' -> v = Some VNil -> s' = s).
  Proof.
    apply (tour_tours vstate visitor_value visit (fun v t s l s' => v = Some VNil -> s' = s) (fun v ts s l s' => v = Some VNil -> s' = s)).
    - intros v e ps s s1 v1 l s' E H IH [= ->]. cbn in E. injection E as <- <-. apply IH. reflexivity.
    - discriminate.
    - reflexivity.
    - intros v t ts s l1 s1 l2 s2 H1 IH1 H2 IH2 Hv. rewrite IH2, IH1 by exact Hv. reflexivity.
  Qed.
  Lemma nil_crash :
    (forall v t s, crash vstate visitor_value visit v t s -> v <> Some VNil) /\
    (forall v ts s, crashes vstate visitor_value visit v ts s -> v <> Some VNil).
  Proof.
    apply (crash_crashes vstate visitor_value visit (fun v t s => v <> Some VNil) (fun v ts s => v <> Some VNil)).
    - discriminate.
    - intros v e ps s s1 v1 E H IH [= ->]. cbn in E. injection E as <- <-. exact (IH eq_refl).
    - intros v t ts s H IH. exact IH.
    - intros v t ts s l s1 H1 H2 IH. exact IH.
  Qed.
  Lemma does_nil w t : does vstate visitor_value visit w t -> forall s, w (Some VNil) s = Some s.
  Proof.
    intros H s. specialize (H (Some VNil) s). destruct (w (Some VNil) s) as [s'|].
    - destruct H as [l H]. f_equal. eapply (proj1 nil_tour); [exact H|reflexivity].
    - destruct (proj1 nil_crash _ _ _ H eq_refl).
  Qed.
  Lemma nil_alists e l s : (forall al, e <> EAList al) -> w_alists vstate visitor_value visit e l (Some VNil) s = Some s.
  Proof. intros He. exact (does_nil _ _ (does_alists _ _ _ e l He) s). Qed.

  (** Elements that a stmtVisitor ignores. *)
  Definition ignored (e : elem) : Prop := match e with EType _ | EStmts _ | EAList _ | EEdgeRHS _ | EEdgeRH _ | EEdgeOp _ | ENodeID _ | EPort _ | EID _ | EGraph _ => True | _ => False end.
  Lemma visit_ignored p h st e : p < length h -> ignored e -> visit (VState st h) (VStmt p) e = (VState st h, Some (VStmt p)).
  Proof.
    intros Hp He. unfold visit. cbn [vs_heap vs_st]. destruct (lookup_lt_is_Some_2 h p Hp) as [w E]. rewrite E. destruct e; try contradiction He; reflexivity.
  Qed.
  Lemma leaf_ignored p h st e : p < length h -> ignored e -> w_leaf vstate visitor_value visit e (Some (VStmt p)) (VState st h) = Some (VState st h).
  Proof. intros Hp He. unfold w_leaf. rewrite visit_ignored by assumption. reflexivity. Qed.
  Lemma id_ignored p h st i : p < length h -> w_id vstate visitor_value visit i (Some (VStmt p)) (VState st h) = Some (VState st h).
  Proof. intros Hp. apply leaf_ignored; [exact Hp|exact I]. Qed.
  Lemma port_ignored p h st x : p < length h -> w_port vstate visitor_value visit x (Some (VStmt p)) (VState st h) = Some (VState st h).
  Proof. intros Hp. unfold w_port. rewrite visit_ignored by (assumption || exact I). cbn [obind]. rewrite id_ignored by exact Hp. cbn [obind]. apply id_ignored. exact Hp. Qed.
  Lemma node_id_ignored p h st n : p < length h -> w_node_id vstate visitor_value visit n (Some (VStmt p)) (VState st h) = Some (VState st h).
  Proof. intros Hp. unfold w_node_id. rewrite visit_ignored by (assumption || exact I). cbn [obind]. rewrite id_ignored by exact Hp. cbn [obind]. apply port_ignored. exact Hp. Qed.
  Lemma attr_list_ignored p h st a : p < length h ->
    w_alists vstate visitor_value visit (EAttrList a) a (Some (VStmt p)) (VState st h) = Some (VState st h).
  Proof.
    intros Hp. pose proof (nil_alists (EAttrList a) a (VState st h)) as H. unfold w_alists in *. cbn [visit] in H.
    unfold visit at 1. cbn [vs_heap vs_st]. destruct (lookup_lt_is_Some_2 h p Hp) as [w E]. rewrite E. apply H. discriminate.
  Qed.

  Definition Q_stmt (x : Ast.stmt) : Prop := forall p h w st, h !! p = Some w -> exists ext,
    W x (Some (VStmt p)) (VState st h) =
    Some (VState (snd (walk_stmt S step ord x w st)) (<[p := fst (walk_stmt S step ord x w st)]> h ++ ext)).
  Definition Q_loc (x : Ast.location) : Prop := forall p h w st, h !! p = Some w -> exists ext,
    w_loc vstate visitor_value visit x (Some (VStmt p)) (VState st h) = Some (VState (walk_loc S step ord x w st) (h ++ ext)).
  Definition Q_sub (x : Ast.subgraph) : Prop := forall p h w st, h !! p = Some w -> exists ext,
    w_sub vstate visitor_value visit x (Some (VStmt p)) (VState st h) = Some (VState (walk_sub S step ord x w st) (h ++ ext)).
  Definition Q_rh (e : Ast.edge_rh) : Prop := match e with Ast.EdgeRH _ d => Q_loc d end.

  (** Unfolding equations. *)
  Lemma w_rh_eq op d v s : w_rh vstate visitor_value visit (Ast.EdgeRH op d) (Some v) s =
    let '(s1, v1) := visit s v (EEdgeRH (Ast.EdgeRH op d)) in
    obind (w_leaf vstate visitor_value visit (EEdgeOp op) v1 s1) (w_loc vstate visitor_value visit d v1).
  Proof. reflexivity. Qed.
  Lemma w_edge_eq src rhs a v s : W (Ast.SEdge src rhs a) (Some v) s =
    let '(s1, v1) := visit s v (EEdgeStmt src rhs a) in
    obind (w_loc vstate visitor_value visit src v1 s1) (fun s2 =>
    obind (w_rhs vstate visitor_value visit rhs v1 s2) (w_alists vstate visitor_value visit (EAttrList a) a v1)).
  Proof. reflexivity. Qed.
  Lemma w_sub_eq id body v s : w_sub vstate visitor_value visit (Ast.SubGraph id body) (Some v) s =
    let '(s1, v1) := visit s v (ESub (Ast.SubGraph id body)) in
    obind (w_id vstate visitor_value visit id v1 s1) (w_stmts vstate visitor_value visit body v1).
  Proof. reflexivity. Qed.
  Lemma walk_edge_eq src rhs a w st : walk_stmt S step ord (Ast.SEdge src rhs a) w st =
    let '(w1, st1) := edge_stmt S step ord w st src rhs a in
    (w1, fold_left (fun st e => walk_rh S step ord e w1 st) rhs (walk_loc S step ord src w1 st1)).
  Proof. reflexivity. Qed.
  Lemma walk_rh_eq op d w st : walk_rh S step ord (Ast.EdgeRH op d) w st = walk_loc S step ord d w st.
  Proof. reflexivity. Qed.
  Lemma walk_sub_eq id body w st : walk_sub S step ord (Ast.SubGraph id body) w st =
    let '(w2, st2) := new_stmt_visitor S ord (emit S step st (CAddSubGraph (v_graph w) id (v_gattrs w))) id (v_nattrs w) (v_eattrs w) in
    snd (fold_left (fun x s => walk_stmt S step ord s (fst x) (snd x)) body (w2, st2)).
  Proof. reflexivity. Qed.

  Lemma each_stmt body : Forall Q_stmt body -> forall p h w st, h !! p = Some w -> exists ext,
    w_each vstate visitor_value W body (Some (VStmt p)) (VState st h) =
    Some (VState (snd (fold_left (fun x s => walk_stmt S step ord s (fst x) (snd x)) body (w, st)))
           (<[p := fst (fold_left (fun x s => walk_stmt S step ord s (fst x) (snd x)) body (w, st))]> h ++ ext)).
  Proof.
    induction 1 as [|x body Hx Hb IH]; intros p h w st Hp.
    - exists []. cbn. rewrite app_nil_r, list_insert_id by exact Hp. reflexivity.
    - destruct (Hx p h w st Hp) as [ext E]. cbn [w_each fold_left fst snd]. rewrite E. cbn [obind].
      destruct (walk_stmt S step ord x w st) as [w1 st1] eqn:E1. cbn [fst snd].
      assert (Hl : p < length h) by (eapply lookup_lt_Some; exact Hp).
      destruct (IH p (<[p := w1]> h ++ ext) w1 st1) as [ext' E'].
      { rewrite lookup_app_l by (rewrite insert_length; exact Hl). apply list_lookup_insert. exact Hl. }
      exists (ext ++ ext'). etransitivity; [exact E'|]. rewrite insert_app_l by (rewrite insert_length; exact Hl).
      rewrite list_insert_insert, <- app_assoc. reflexivity.
  Qed.
  Lemma each_rh rhs : Forall Q_rh rhs -> forall p h w st, h !! p = Some w -> exists ext,
    w_each vstate visitor_value (w_rh vstate visitor_value visit) rhs (Some (VStmt p)) (VState st h) =
    Some (VState (fold_left (fun st e => walk_rh S step ord e w st) rhs st) (h ++ ext)).
  Proof.
    induction 1 as [|[op d] rhs Hx Hb IH]; intros p h w st Hp.
    - exists []. cbn. rewrite app_nil_r. reflexivity.
    - assert (Hl : p < length h) by (eapply lookup_lt_Some; exact Hp).
      destruct (Hx p h w st Hp) as [ext E]. cbn [w_each fold_left]. rewrite w_rh_eq, walk_rh_eq.
      rewrite visit_ignored by (assumption || exact I). rewrite leaf_ignored by (assumption || exact I). cbn [obind].
      rewrite E. cbn [obind].
      destruct (IH p (h ++ ext) w (walk_loc S step ord d w st)) as [ext' E'].
      { rewrite lookup_app_l by exact Hl. exact Hp. }
      exists (ext ++ ext'). etransitivity; [exact E'|]. rewrite <- app_assoc. reflexivity.
  Qed.

  Lemma visit_stmt p h w st e x r : h !! p = Some w -> visit (VState st h) (VStmt p) e = store p x h r ->
    visit (VState st h) (VStmt p) e = (VState (snd x) (<[p := fst x]> h), Some r).
  Proof. intros _ ->. reflexivity. Qed.

  Lemma walk_same : (forall x, Q_stmt x) /\ (forall l, Q_loc l) /\ (forall g, Q_sub g).
  Proof.
    apply stmt_all_ind.
    - intros n a p h w st Hp. exists []. rewrite app_nil_r. cbn [w_stmt walk_stmt]. unfold visit at 1. cbn [vs_heap vs_st]. rewrite Hp. unfold store.
      destruct (node_stmt S step ord w st n a) as [w1 st1]. cbn [fst snd].
      rewrite (does_nil _ _ (does_node_id _ _ _ n)). cbn [obind]. apply nil_alists. discriminate.
    - intros src rhs a Hs Hr p h w st Hp.
      assert (Hl : p < length h) by (eapply lookup_lt_Some; exact Hp).
      rewrite w_edge_eq, walk_edge_eq. unfold visit at 1. cbn [vs_heap vs_st]. rewrite Hp. unfold store.
      destruct (edge_stmt S step ord w st src rhs a) as [w1 st1]. cbn [fst snd].
      assert (Hp1 : <[p := w1]> h !! p = Some w1) by (apply list_lookup_insert; exact Hl).
      destruct (Hs p (<[p := w1]> h) w1 st1 Hp1) as [ext E]. rewrite E. cbn [obind]. unfold w_rhs at 1.
      rewrite visit_ignored by (exact I || (rewrite app_length, insert_length; lia)).
      destruct (each_rh rhs Hr p (<[p := w1]> h ++ ext) w1 (walk_loc S step ord src w1 st1)) as [ext' E'].
      { rewrite lookup_app_l by (rewrite insert_length; exact Hl). exact Hp1. }
      rewrite E'. cbn [obind]. rewrite attr_list_ignored by (rewrite !app_length, insert_length; lia).
      exists (ext ++ ext'). rewrite <- app_assoc. reflexivity.
    - intros a p h w st Hp. exists []. rewrite app_nil_r. cbn [w_stmt walk_stmt]. unfold w_alists, visit at 1. cbn [vs_heap vs_st]. rewrite Hp. unfold store.
      destruct (edge_attrs_stmt S ord w st a) as [w1 st1]. cbn [fst snd].
      exact (nil_alists (EAttrList a) a _ ltac:(discriminate)).
    - intros a p h w st Hp. exists []. rewrite app_nil_r. cbn [w_stmt walk_stmt]. unfold w_alists, visit at 1. cbn [vs_heap vs_st]. rewrite Hp. unfold store.
      destruct (node_attrs_stmt S ord w st a) as [w1 st1]. cbn [fst snd].
      exact (nil_alists (EAttrList a) a _ ltac:(discriminate)).
    - intros a p h w st Hp. exists []. rewrite app_nil_r. cbn [w_stmt walk_stmt]. unfold w_alists, visit at 1. cbn [vs_heap vs_st]. rewrite Hp. unfold store.
      destruct (graph_attrs_stmt S step ord w st a) as [w1 st1]. cbn [fst snd].
      exact (nil_alists (EAttrList a) a _ ltac:(discriminate)).
    - intros g H p h w st Hp. cbn [w_stmt walk_stmt fst snd]. rewrite list_insert_id by exact Hp. exact (H p h w st Hp).
    - intros a p h w st Hp. exists []. rewrite app_nil_r. cbn [w_stmt walk_stmt fst snd]. rewrite list_insert_id by exact Hp.
      assert (Hl : p < length h) by (eapply lookup_lt_Some; exact Hp).
      unfold w_attr. unfold visit at 1. cbn [vs_heap vs_st]. rewrite Hp. rewrite id_ignored by exact Hl. cbn [obind]. apply id_ignored. exact Hl.
    - intros n p h w st Hp. exists []. rewrite app_nil_r. apply node_id_ignored. eapply lookup_lt_Some; exact Hp.
    - intros g H. exact H.
    - intros id body Hb p h w st Hp. rewrite w_sub_eq, walk_sub_eq. unfold visit at 1. cbn [vs_heap vs_st]. rewrite Hp. unfold alloc.
      destruct (new_stmt_visitor S ord (emit S step st (CAddSubGraph (v_graph w) id (v_gattrs w))) id (v_nattrs w) (v_eattrs w)) as [w2 st2].
      cbn [fst snd].
      assert (Hl : length h < length (h ++ [w2])) by (rewrite app_length; cbn; lia).
      rewrite id_ignored by exact Hl. cbn [obind]. unfold w_stmts. rewrite visit_ignored by (exact Hl || exact I).
      destruct (each_stmt body Hb (length h) (h ++ [w2]) w2 st2) as [ext E].
      { apply list_lookup_middle. reflexivity. }
      rewrite E. eexists. rewrite insert_app_r_alt by reflexivity. rewrite <- app_assoc. reflexivity.
  Qed.

  Lemma analyse_walk_eq g s0 : analyse_walk g s0 = Some (analyse S step ord g s0).
  Proof.
    unfold analyse_walk, analyse, walk_graph, w_graph. unfold visit at 1. unfold alloc. cbn [vs_heap vs_st app length].
    set (st3 := emit S step (emit S step (emit S step (IState s0 [] 0) (CSetStrict (Ast.g_strict g))) (CSetDir (Ast.g_type g))) (CSetName (Ast.g_id g))).
    destruct (new_stmt_visitor S ord st3 (Ast.g_id g) ∅ ∅) as [w st4]. cbn [fst snd].
    assert (Hl : 0 < length [w]) by (cbn; lia).
    rewrite leaf_ignored by (exact Hl || exact I). cbn [obind]. rewrite id_ignored by exact Hl. cbn [obind].
    unfold w_stmts. rewrite visit_ignored by (exact Hl || exact I).
    destruct (each_stmt (Ast.g_stmts g)) with (p := 0) (h := [w]) (w := w) (st := st4) as [ext E].
    { apply Forall_forall. intros x _. apply walk_same. }
    { reflexivity. }
    rewrite E. reflexivity.
  Qed.
End Visitors.
