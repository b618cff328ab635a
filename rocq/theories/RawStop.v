(** Which calls Analyse makes before it panics. *)
From Verif Require Import Base Parser Maps Graph AttrMap Analyse Walk RawTree SpecRaw WalkAnalyse RawAnalyse WalkProofs AstProofs RawProofs RawRun.
From Verif Require Ast.

Section Stop.
  Variable S : Type.
  Variable step : S -> call -> S * option err.
  Variable ord : order.
  Notation vst := (vstate S).
  Notation rvisit := (rvisit S step ord).
  Notation RW := (rw_stmt vst visitor_value rvisit).
  Notation walks l := (fold_left (fun x s => walk_stmt S step ord s (fst x) (snd x)) l) (only parsing).

  Lemma rw_plain (x : Ast.stmt) p h w st : h !! p = Some w -> exists ext,
    RW (raw_stmt x) (Some (VStmt p)) (VState S st h) =
    Returns (VState S (snd (walk_stmt S step ord x w st)) (<[p := fst (walk_stmt S step ord x w st)]> h ++ ext)) tt.
  Proof.
    intros Hp. destruct (proj1 (walk_same S step ord) x p h w st Hp) as [ext E]. exists ext.
    pose proof (proj1 (does_all vst visitor_value (visit S step ord)) x (Some (VStmt p)) (VState S st h)) as D. rewrite E in D. destruct D as [l T].
    rewrite (proj1 (rw_go vst visitor_value rvisit)), (proj1 conv_all x).
    exact (proj1 (sim_tour vst visitor_value (visit S step ord) rvisit (rvisit_plain S step ord)) _ _ _ _ _ T).
  Qed.
  Lemma each_plain (pre : list Ast.stmt) : forall p h w st post, h !! p = Some w -> exists ext,
    rw_each vst visitor_value RW (map raw_stmt pre ++ post) (Some (VStmt p)) (VState S st h) =
    rw_each vst visitor_value RW post (Some (VStmt p))
      (VState S (snd (walks pre (w, st))) (<[p := fst (walks pre (w, st))]> h ++ ext)).
  Proof.
    induction pre as [|x pre IH]; intros p h w st post Hp.
    - exists []. cbn [map app fold_left fst snd]. rewrite app_nil_r, list_insert_id by exact Hp. reflexivity.
    - assert (Hl : p < length h) by (eapply lookup_lt_Some; exact Hp). destruct (rw_plain x p h w st Hp) as [ext E].
      destruct (walk_stmt S step ord x w st) as [w1 st1] eqn:E1. cbn [fst snd] in E.
      destruct (IH p (<[p := w1]> h ++ ext) w1 st1 post) as [ext' E'].
      { rewrite lookup_app_l by (rewrite insert_length; exact Hl). apply list_lookup_insert. exact Hl. }
      exists (ext ++ ext'). cbn [map app fold_left fst snd]. rewrite E1.
      change (rw_each vst visitor_value RW (raw_stmt x :: map raw_stmt pre ++ post) (Some (VStmt p)) (VState S st h))
        with (after (RW (raw_stmt x) (Some (VStmt p)) (VState S st h)) (rw_each vst visitor_value RW (map raw_stmt pre ++ post) (Some (VStmt p)))).
      rewrite E. cbn [after]. rewrite E'. f_equal. f_equal. rewrite insert_app_l by (rewrite insert_length; exact Hl). rewrite list_insert_insert, <- app_assoc. reflexivity.
  Qed.

  Lemma nil_map (a : list (list (option Ast.attr))) : nil_attrs a -> oeach (oeach (fun x => x)) a = None.
  Proof. intros (l & Hl & Hn). apply (oeach_none _ _ l Hl). exact (oeach_none _ _ None Hn eq_refl). Qed.
  Lemma loop_stop rhs bad more : Forall node_end rhs -> arrow_nil bad -> forall w st a src q,
    redge_loop S step w st a src q (map raw_erh rhs ++ bad :: more) = (edge_loop S step w st a src q rhs, true).
  Proof.
    intros N B. induction N as [|[op d] rhs Hd N IH]; intros w st a src q.
    - cbn [map app redge_loop edge_loop]. destruct bad as [|op d]; [reflexivity|]. cbn [arrow_nil] in B. destruct B as [->|[->| ->]]; reflexivity.
    - destruct d as [n|g]; [|destruct Hd]. cbn [map app]. change (raw_erh (Ast.EdgeRH op (Ast.LNode n))) with (RH op (RLNode (Some n))). cbn [redge_loop edge_loop rloc_get].
      cbn [Ast.loc_is_node Ast.loc_id Ast.loc_port]. destruct (add_node_from_edge S step w st (Ast.nid_id n)) as [w1 st1]. apply IH.
  Qed.
  Lemma nodes_walk rhs : Forall node_end rhs -> forall w st, fold_left (fun st e => walk_rh S step ord e w st) rhs st = st.
  Proof. induction 1 as [|[op d] rhs Hd N IH]; intros w st; [reflexivity|]. destruct d as [n|g]; [|destruct Hd]. cbn [fold_left]. rewrite walk_rh_eq. cbn [walk_loc]. apply IH. Qed.

  Lemma stop_here x dn : stops x dn -> forall p h w st post, h !! p = Some w -> exists s,
    rw_each vst visitor_value RW (x :: post) (Some (VStmt p)) (VState S st h) = Panics s /\
    i_impl (vs_st S s) = i_impl (snd (walks dn (w, st))).
  Proof.
    intros Hx p h w st post Hp.
    assert (C : forall s, RW x (Some (VStmt p)) (VState S st h) = Panics s -> rw_each vst visitor_value RW (x :: post) (Some (VStmt p)) (VState S st h) = Panics s).
    { intros s E. change (after (RW x (Some (VStmt p)) (VState S st h)) (rw_each vst visitor_value RW post (Some (VStmt p))) = Panics s). rewrite E. reflexivity. }
    destruct Hx as [x F|n rhs bad more a N B].
    - cbn [fold_left snd]. destruct F as [|a|n a Na|src rhs a Ns|src rhs a Na|a Na|a Na|a Na| |].
      + eexists. split; [apply C; reflexivity|reflexivity].
      + eexists. split; [apply C; cbn [rw_stmt enter]; unfold RawAnalyse.rvisit; cbn [vs_heap]; rewrite Hp; reflexivity|reflexivity].
      + eexists. split; [apply C; cbn [rw_stmt enter]; unfold RawAnalyse.rvisit; cbn [vs_heap]; rewrite Hp; destruct n; [unfold with_map; rewrite (nil_map a Na)|]; reflexivity|reflexivity].
      + eexists. split; [apply C; cbn [rw_stmt enter]; unfold RawAnalyse.rvisit; cbn [vs_heap vs_st]; rewrite Hp|].
        * unfold rstore. assert (Q : snd (redge_stmt S step ord w st src rhs a) = true).
          { unfold redge_stmt. destruct (rget_map a); [|reflexivity]. destruct (range S ord st (v_eattrs w)). destruct Ns as [->|[->| ->]]; reflexivity. }
          rewrite Q. reflexivity.
        * cbn [vs_st]. unfold redge_stmt. destruct (rget_map a); [|reflexivity]. destruct (range S ord st (v_eattrs w)) as [l0 st0] eqn:Er. unfold range in Er. injection Er as _ <-.
          destruct Ns as [->|[->| ->]]; reflexivity.
      + eexists. split; [apply C; cbn [rw_stmt enter]; unfold RawAnalyse.rvisit; cbn [vs_heap vs_st]; rewrite Hp; unfold redge_stmt, rget_map; rewrite (nil_map a Na); reflexivity|reflexivity].
      + eexists. split; [apply C; cbn [rw_stmt]; unfold rw_alists; cbn [enter]; unfold RawAnalyse.rvisit; cbn [vs_heap vs_st]; rewrite Hp; unfold with_map; rewrite (nil_map a Na); reflexivity|reflexivity].
      + eexists. split; [apply C; cbn [rw_stmt]; unfold rw_alists; cbn [enter]; unfold RawAnalyse.rvisit; cbn [vs_heap vs_st]; rewrite Hp; unfold with_map; rewrite (nil_map a Na); reflexivity|reflexivity].
      + eexists. split; [apply C; cbn [rw_stmt]; unfold rw_alists; cbn [enter]; unfold RawAnalyse.rvisit; cbn [vs_heap vs_st]; rewrite Hp; unfold with_map; rewrite (nil_map a Na); reflexivity|reflexivity].
      + eexists. split; [apply C; cbn [rw_stmt rw_sub enter]; unfold RawAnalyse.rvisit; cbn [vs_heap vs_st]; rewrite Hp; reflexivity|reflexivity].
      + eexists. split; [apply C; cbn [rw_stmt]; unfold rw_attr; cbn [enter]; unfold RawAnalyse.rvisit; cbn [vs_heap vs_st]; rewrite Hp; reflexivity|reflexivity].
    - eexists. split; [apply C; cbn [rw_stmt enter]; unfold RawAnalyse.rvisit; cbn [vs_heap vs_st]; rewrite Hp|].
      + assert (Q : redge_stmt S step ord w st (RLNode (Some n)) (map raw_erh rhs ++ bad :: more) (raw_attrs a) = (edge_stmt S step ord w st (Ast.LNode n) rhs a, true)).
        { unfold redge_stmt, edge_stmt, rget_map. rewrite unmap. cbn [option_map rloc_get Ast.loc_is_node Ast.loc_id Ast.loc_port]. destruct (range S ord st (v_eattrs w)) as [l0 st0].
          destruct (add_node_from_edge S step w st0 (Ast.nid_id n)) as [w2 st2]. apply loop_stop; assumption. }
        rewrite Q. unfold rstore. cbn [fst snd]. reflexivity.
      + cbn [vs_st fold_left fst snd]. rewrite walk_edge_eq. destruct (edge_stmt S step ord w st (Ast.LNode n) rhs a) as [w1 st1]. cbn [snd walk_loc]. rewrite (nodes_walk rhs N). reflexivity.
  Qed.

  Lemma walks_app l1 l2 x : walks (l1 ++ l2) x = walks l2 (walks l1 x). Proof. apply fold_left_app. Qed.
  Lemma stop_open x dn : stops x dn -> forall k pre p h w st post, h !! p = Some w -> exists s,
    rw_each vst visitor_value RW (ropened pre k (x :: post)) (Some (VStmt p)) (VState S st h) = Panics s /\
    i_impl (vs_st S s) = i_impl (snd (walks (opened pre k dn) (w, st))).
  Proof.
    intros Hx. induction k as [|[[id pre2] post2] k IH]; intros pre p h w st post Hp; cbn [ropened opened].
    - assert (Hl : p < length h) by (eapply lookup_lt_Some; exact Hp). destruct (each_plain pre p h w st (x :: post) Hp) as [ext E]. rewrite E, walks_app.
      destruct (walks pre (w, st)) as [w1 st1]. cbn [fst snd]. apply (stop_here x dn Hx).
      rewrite lookup_app_l by (rewrite insert_length; exact Hl). apply list_lookup_insert. exact Hl.
    - assert (Hl : p < length h) by (eapply lookup_lt_Some; exact Hp).
      destruct (each_plain pre p h w st (RSub (RSubGraph id (ropened pre2 k (x :: post))) :: post2) Hp) as [ext E]. rewrite E, walks_app. clear E.
      destruct (walks pre (w, st)) as [w1 st1]. cbn [fst snd fold_left].
      change (walk_stmt S step ord (Ast.SSub (Ast.SubGraph id (opened pre2 k dn))) w1 st1) with (w1, walk_sub S step ord (Ast.SubGraph id (opened pre2 k dn)) w1 st1). cbn [snd]. rewrite walk_sub_eq. set (h1 := <[p := w1]> h ++ ext).
      assert (Hp1 : h1 !! p = Some w1) by (unfold h1; rewrite lookup_app_l by (rewrite insert_length; exact Hl); apply list_lookup_insert; exact Hl).
      destruct (new_stmt_visitor S ord (emit S step st1 (CAddSubGraph (v_graph w1) id (v_gattrs w1))) id (v_nattrs w1) (v_eattrs w1)) as [w2 st2] eqn:En.
      assert (Hh : (h1 ++ [w2]) !! length h1 = Some w2) by (apply list_lookup_middle; reflexivity).
      destruct (IH pre2 (length h1) (h1 ++ [w2]) w2 st2 post Hh) as (s & E & Es). exists s. split; [|exact Es].
      change (after (rw_sub vst visitor_value rvisit (RSubGraph id (ropened pre2 k (x :: post))) (Some (VStmt p)) (VState S st1 h1))
        (rw_each vst visitor_value RW post2 (Some (VStmt p))) = Panics s).
      assert (Q : rw_sub vst visitor_value rvisit (RSubGraph id (ropened pre2 k (x :: post))) (Some (VStmt p)) (VState S st1 h1) = Panics s); [|rewrite Q; reflexivity].
      cbn [rw_sub enter]. unfold RawAnalyse.rvisit at 1. cbn [vs_heap vs_st]. rewrite Hp1, En. unfold ralloc. cbn [fst snd].
      unfold rw_leaf. cbn [enter]. unfold RawAnalyse.rvisit at 1. cbn [vs_heap vs_st]. rewrite Hh. cbn [after].
      unfold RawAnalyse.rvisit at 1. cbn [vs_heap vs_st]. rewrite Hh. exact E.
  Qed.
  Lemma ranalyse_stop t str i pre k x dn post s0 : stops x dn ->
    ranalyse S step ord (Some (RGraph t str i (ropened pre k (x :: post)))) s0 = Panics (fst (analyse S step ord (Ast.Graph t str i (opened pre k dn)) s0)).
  Proof.
    intros Hx. rewrite ranalyse_each. unfold at_stmts. cbn [RawAnalyse.rvisit vs_heap vs_st rg_strict rg_type rg_id]. unfold ralloc. cbn [app length].
    unfold analyse, walk_graph. cbn [Ast.g_type Ast.g_strict Ast.g_id Ast.g_stmts].
    set (st3 := emit S step (emit S step (emit S step (IState s0 [] 0) (CSetStrict str)) (CSetDir t)) (CSetName i)).
    destruct (new_stmt_visitor S ord st3 i ∅ ∅) as [w st4]. cbn [fst snd].
    destruct (stop_open x dn Hx k pre 0 [w] w st4 post eq_refl) as (s & E & Es). rewrite E, Es. reflexivity.
  Qed.
End Stop.
