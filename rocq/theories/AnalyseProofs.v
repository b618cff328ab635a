(** The analysis makes the calls of SpecAnalyse.v, on every implementation of Interface. *)
From Verif Require Import Base Parser Maps Graph AttrMap MapFacts Analyse SpecAnalyse.
From Verif Require AstProofs.
From Verif Require Ast.

(** Induction on AST statements. *)
Notation stmt_all_ind := AstProofs.stmt_all_ind.

(** The functions of the code against those of the specification *)
Lemma get_map_given a : get_map a = given a.
Proof.
  unfold get_map, given. assert (X : forall a (acc : attrs), fold_left (fun acc al => fold_left (fun acc x => <[Ast.at_field x := Ast.at_value x]> acc) al acc) a acc =
    list_to_map (rev (map (fun x => (Ast.at_field x, Ast.at_value x)) (concat a))) ∪ acc :> attrs).
  { clear a. induction a as [|al a IH]; intros acc; cbn [fold_left concat]; [cbn; by rewrite (left_id_L ∅ (∪))|].
    rewrite IH, map_app, rev_app_distr, list_to_map_app, <- (assoc_L (∪)). f_equal. clear IH. revert acc.
    induction al as [|x al IH]; intros acc; cbn [fold_left map rev]; [cbn; by rewrite (left_id_L ∅ (∪))|].
    rewrite IH, list_to_map_app, <- (assoc_L (∪)). f_equal. cbn. by rewrite insert_empty, insert_union_singleton_l. }
  rewrite X. apply (right_id_L ∅ (∪)).
Qed.
Lemma loc_id_end l : Ast.loc_id l = end_name l.
Proof. by destruct l as [n|[id b]]. Qed.
Lemma port_str_text p : Ast.port_str p = port_text p.
Proof. unfold Ast.port_str. destruct p as [[|c i] [|d j]]; cbn; rewrite ?app_nil_r; done. Qed.
Lemma port_str_end l : Ast.port_str (Ast.loc_port l) = end_port l.
Proof. rewrite port_str_text. by destruct l. Qed.
Lemma node_id_text n : Ast.node_id_str n = node_text n.
Proof. unfold Ast.node_id_str, node_text. by rewrite port_str_text. Qed.

Lemma nd_app pre : forall d pre', node_defaults d (pre ++ pre') = node_defaults (node_defaults d pre) pre'.
Proof. induction pre as [|[] pre IH]; intros d pre'; cbn; auto. Qed.
Lemma ed_app pre : forall d pre', edge_defaults d (pre ++ pre') = edge_defaults (edge_defaults d pre) pre'.
Proof. induction pre as [|[] pre IH]; intros d pre'; cbn; auto. Qed.
Lemma gd_app pre : forall d pre', graph_defaults d (pre ++ pre') = graph_defaults (graph_defaults d pre) pre'.
Proof. induction pre as [|[] pre IH]; intros d pre'; cbn; auto. Qed.
Lemma mentioned_app pre pre' : mentioned (pre ++ pre') = mentioned pre ++ mentioned pre'.
Proof. apply flat_map_app. Qed.

Record matches (w : visitor) (name : gostr) (nd ed : attrs) (pre : list Ast.stmt) : Prop := Matches {
  m_graph : v_graph w = name;
  m_nattrs : v_nattrs w = node_defaults nd pre;
  m_eattrs : v_eattrs w = edge_defaults ed pre;
  m_gattrs : v_gattrs w = graph_defaults ∅ pre;
  m_created : forall n, n ∈ v_created w <-> n ∈ mentioned pre }.

Section Emits.
  Variable S : Type.
  Variable step : S -> call -> S * option err.
  Definition emits (l : list call) (t : nat) (st : istate S) : istate S :=
    let st' := fold_left (emit S step) l st in IState (i_impl st') (i_errs st') t.
  Lemma emit_tick st c : i_tick (emit S step st c) = i_tick st.
  Proof. unfold emit. destruct (step (i_impl st) c) as [s [e|]]; reflexivity. Qed.
  Lemma fold_emit_tick l : forall st, i_tick (fold_left (emit S step) l st) = i_tick st.
  Proof. induction l as [|c l IH]; intros st; cbn [fold_left]; [reflexivity|]. rewrite IH. apply emit_tick. Qed.
  Lemma emits_nil st : emits [] (i_tick st) st = st.
  Proof. destruct st; reflexivity. Qed.
  Lemma emit_set_tick st c t : IState (i_impl (emit S step st c)) (i_errs (emit S step st c)) t = emit S step (IState (i_impl st) (i_errs st) t) c.
  Proof. unfold emit. cbn. destruct (step (i_impl st) c) as [s [e|]]; reflexivity. Qed.
  Lemma emits_emit l t t1 st c : emits l t (emits [c] t1 st) = emits (c :: l) t st.
  Proof.
    unfold emits at 1 3. cbn [fold_left].
    assert (H : forall l (st st' : istate S), i_impl st = i_impl st' -> i_errs st = i_errs st' ->
       i_impl (fold_left (emit S step) l st) = i_impl (fold_left (emit S step) l st') /\
       i_errs (fold_left (emit S step) l st) = i_errs (fold_left (emit S step) l st')).
    { clear. induction l as [|c l IH]; intros st st' H1 H2; cbn [fold_left]; [split; assumption|]. apply IH; unfold emit; rewrite H1, ?H2;
        destruct (step (i_impl st') c) as [s [e|]]; cbn; congruence. }
    cbv zeta. destruct (H l (emits [c] t1 st) (emit S step st c)) as [E1 E2]; [reflexivity|reflexivity|]. rewrite E1, E2. reflexivity.
  Qed.
  Lemma emits_emits l1 l2 t1 t2 st : emits l2 t2 (emits l1 t1 st) = emits (l1 ++ l2) t2 st.
  Proof.
    assert (H : forall l (st st' : istate S), i_impl st = i_impl st' -> i_errs st = i_errs st' ->
       i_impl (fold_left (emit S step) l st) = i_impl (fold_left (emit S step) l st') /\
       i_errs (fold_left (emit S step) l st) = i_errs (fold_left (emit S step) l st')).
    { clear. induction l as [|c l IH]; intros st st' H1 H2; cbn [fold_left]; [split; assumption|]. apply IH; unfold emit; rewrite H1, ?H2;
        destruct (step (i_impl st') c) as [s [e|]]; cbn; congruence. }
    unfold emits at 1 3. rewrite fold_left_app. cbv zeta.
    destruct (H l2 (emits l1 t1 st) (fold_left (emit S step) l1 st)) as [E1 E2]; [reflexivity|reflexivity|]. rewrite E1, E2. reflexivity.
  Qed.
  Lemma emits_one c st : emit S step st c = emits [c] (i_tick st) st.
  Proof. unfold emits. cbn [fold_left]. cbv zeta. rewrite <- (emit_tick st c). destruct (emit S step st c); reflexivity. Qed.
  Lemma emits_tick l t st : i_tick (emits l t st) = t.
  Proof. reflexivity. Qed.
  Lemma range_emits ord st m : range S ord st m = (ord (i_tick st) m, emits [] (Datatypes.S (i_tick st)) st).
  Proof. reflexivity. Qed.
  Lemma fold_emits (f : gostr * gostr -> call) l st : fold_left (fun st kv => emit S step st (f kv)) l st = emits (map f l) (i_tick st) st.
  Proof.
    assert (H : fold_left (fun st kv => emit S step st (f kv)) l st = fold_left (emit S step) (map f l) st).
    { revert st. induction l as [|x l IH]; intros st; cbn; [reflexivity|apply IH]. }
    rewrite H. unfold emits. cbv zeta. rewrite <- (fold_emit_tick (map f l) st) at 1. destruct (fold_left (emit S step) (map f l) st); reflexivity.
  Qed.
End Emits.

Section Walk.
  Variable ord : order.
  Hypothesis Hord : fair_order ord.

  Lemma ammend_ord (a m : attrs) t : ammend a (ord t m) = a ∪ m.
  Proof. apply (ammend_enum a m). apply Hord. Qed.
  Lemma overwrite_ord (a m : attrs) t : overwrite a (ord t m) = m ∪ a.
  Proof. apply (extend_enum a m). apply Hord. Qed.

  (** [acts w t f w' l t']: on every implementation, [f] makes the calls [l]; starting with the visitor
      [w] at tick [t] it ends with [w'] at tick [t']. *)
  Definition P_stmt (s : Ast.stmt) : Prop := forall name nd ed pre w t, matches w name nd ed pre ->
    exists l w' t', stmt_calls name nd ed pre s l /\ matches w' name nd ed (pre ++ [s]) /\
      forall S step (st : istate S), i_tick st = t -> walk_stmt S step ord s w st = (w', emits S step l t' st).
  Definition P_loc (lo : Ast.location) : Prop := forall name nd ed pre w t, matches w name nd ed pre ->
    exists l t', (forall ls l', locs_calls name nd ed pre ls l' -> locs_calls name nd ed pre (lo :: ls) (l ++ l')) /\
      forall S step (st : istate S), i_tick st = t -> walk_loc S step ord lo w st = emits S step l t' st.
  Definition P_sub (g : Ast.subgraph) : Prop := forall name nd ed pre w t, matches w name nd ed pre ->
    exists l t', sub_calls name nd ed pre g l /\
      forall S step (st : istate S), i_tick st = t -> walk_sub S step ord g w st = emits S step l t' st.
  (* note: inside an edge statement the visitor has already created the endpoints, but locations and
     subgraphs do not depend on v_created *)
  Definition same_defaults (w w' : visitor) : Prop :=
    v_graph w = v_graph w' /\ v_nattrs w = v_nattrs w' /\ v_eattrs w = v_eattrs w' /\ v_gattrs w = v_gattrs w'.
  Lemma walk_sub_eq S step id body w st : walk_sub S step ord (Ast.SubGraph id body) w st =
    let st1 := emit S step st (CAddSubGraph (v_graph w) id (v_gattrs w)) in
    let '(w2, st2) := new_stmt_visitor S ord st1 id (v_nattrs w) (v_eattrs w) in
    snd (fold_left (fun x s => walk_stmt S step ord s (fst x) (snd x)) body (w2, st2)).
  Proof. reflexivity. Qed.
  Lemma walk_sub_ext S step g w w' st : same_defaults w w' -> walk_sub S step ord g w st = walk_sub S step ord g w' st.
  Proof. intros (H1 & H2 & H3 & H4). destruct g as [id body]. cbn [walk_sub]. rewrite H1, H2, H3, H4. reflexivity. Qed.
  Lemma walk_loc_ext S step lo w w' st : same_defaults w w' -> walk_loc S step ord lo w st = walk_loc S step ord lo w' st.
  Proof. intros H. destruct lo as [n|g]; cbn [walk_loc]; [reflexivity|apply walk_sub_ext; exact H]. Qed.

  Lemma body_ok body : Forall P_stmt body -> forall name nd ed pre w t, matches w name nd ed pre ->
    exists l w' t', body_calls name nd ed pre body l /\ matches w' name nd ed (pre ++ body) /\
      forall S step (st : istate S), i_tick st = t ->
        fold_left (fun x s => walk_stmt S step ord s (fst x) (snd x)) body (w, st) = (w', emits S step l t' st).
  Proof.
    induction 1 as [|s body Hs Hb IH]; intros name nd ed pre w t Hm.
    - exists [], w, t. split; [constructor|]. split; [rewrite app_nil_r; exact Hm|]. intros S step st <-. cbn. rewrite emits_nil. reflexivity.
    - destruct (Hs name nd ed pre w t Hm) as (l & w1 & t1 & H1 & H2 & H3).
      destruct (IH name nd ed _ w1 t1 H2) as (l' & w2 & t2 & H4 & H5 & H6).
      exists (l ++ l'), w2, t2. split; [econstructor; eassumption|]. split; [rewrite <- app_assoc in H5; exact H5|].
      intros S step st Hst. cbn [fold_left fst snd]. rewrite (H3 S step st Hst), H6 by reflexivity. rewrite emits_emits. reflexivity.
  Qed.

  Lemma new_visitor_ok (S : Type) (st : istate S) (name : gostr) (nd ed : attrs) :
    new_stmt_visitor S ord st name nd ed = (Visitor name nd ed ∅ ∅, IState (i_impl st) (i_errs st) (2 + i_tick st)).
  Proof. unfold new_stmt_visitor. cbn. rewrite !ammend_ord, !(left_id_L ∅ (∪)). reflexivity. Qed.
  Lemma matches_new (name : gostr) (nd ed : attrs) : matches (Visitor name nd ed ∅ ∅) name nd ed [].
  Proof. split; try reflexivity. cbn. intros n. set_solver. Qed.

  (** The calls and the visitor of an edge statement, before its subgraphs. *)
  Definition with_created (w : visitor) (c : names) : visitor := Visitor (v_graph w) (v_nattrs w) (v_eattrs w) (v_gattrs w) c.
  Lemma add_node_ok w (seen : list gostr) lo : (forall n, n ∈ v_created w <-> n ∈ seen) ->
    exists c, (forall n, n ∈ c <-> n ∈ seen ++ plain lo) /\
      forall S step (st : istate S),
        (if Ast.loc_is_node lo then add_node_from_edge S step w st (Ast.loc_id lo) else (w, st)) =
        (with_created w c, emits S step (endpoint_call (v_graph w) (v_nattrs w) seen lo) (i_tick st) st).
  Proof.
    intros Hc. destruct lo as [n|g]; cbn [Ast.loc_is_node Ast.loc_id plain endpoint_call].
    - unfold add_node_from_edge. destruct (decide (Ast.nid_id n ∈ v_created w)) as [D|D].
      + exists (v_created w). split; [intros n'; rewrite elem_of_app, elem_of_list_singleton, <- Hc; split; [tauto|intros [?| ->]; assumption]|].
        intros S step st. rewrite decide_True by (apply Hc; exact D). rewrite emits_nil. destruct w; reflexivity.
      + exists ({[Ast.nid_id n]} ∪ v_created w). split; [intros n'; rewrite elem_of_app, elem_of_list_singleton, <- Hc; set_solver|].
        intros S step st. rewrite decide_False by (rewrite <- Hc; exact D). rewrite emits_one. reflexivity.
    - exists (v_created w). split; [intros n'; rewrite app_nil_r; apply Hc|]. intros S step st. rewrite emits_nil. destruct w; reflexivity.
  Qed.
  Lemma edge_loop_ok m rhs : forall src w (seen : list gostr), (forall n, n ∈ v_created w <-> n ∈ seen) ->
    exists c, (forall n, n ∈ c <-> n ∈ seen ++ flat_map (fun e => plain (dst_of e)) rhs) /\
      forall S step (st : istate S),
        edge_loop S step w st m (Ast.loc_id src) (Ast.loc_port src) rhs =
        (with_created w c, emits S step (arrow_calls (v_graph w) (v_nattrs w) m seen src rhs) (i_tick st) st).
  Proof.
    induction rhs as [|[op dst] rhs IH]; intros src w seen Hc; cbn [edge_loop arrow_calls flat_map dst_of].
    - exists (v_created w). split; [intros n; rewrite app_nil_r; apply Hc|]. intros S step st. rewrite emits_nil. destruct w; reflexivity.
    - destruct (add_node_ok w seen dst Hc) as (c1 & H1 & H2).
      destruct (IH dst (with_created w c1) (seen ++ plain dst) H1) as (c2 & H3 & H4).
      exists c2. split; [intros n; rewrite H3, <- app_assoc; reflexivity|].
      intros S step st. rewrite H2. rewrite H4. cbn [v_graph v_nattrs with_created].
      rewrite emits_one, !emits_tick, !emits_emits, !port_str_end, !loc_id_end.
      reflexivity.
  Qed.

  Lemma all_ok : (forall s, P_stmt s) /\ (forall l, P_loc l) /\ (forall g, P_sub g).
  Proof.
    apply stmt_all_ind.
    - (* node *)
      intros n a name nd ed pre w t [M1 M2 M3 M4 M5]. cbn [walk_stmt]. unfold node_stmt. rewrite node_id_text, get_map_given.
      set (i := node_text n). destruct (decide (i ∈ v_created w)) as [D|D].
      + eexists _, w, (Datatypes.S t). split; [apply Sc_node|]. split.
        { split; rewrite ?nd_app, ?ed_app, ?gd_app; try assumption. intros n'. rewrite mentioned_app, elem_of_app. cbn. rewrite elem_of_list_singleton, <- M5.
          split; [tauto|intros [?| ->]; assumption]. }
        intros S step st <-. rewrite (range_emits S step), emits_one, emits_tick, emits_emits, ammend_ord.
        fold i. rewrite decide_True by (apply M5; exact D). rewrite M1. reflexivity.
      + eexists _, (with_created w ({[i]} ∪ v_created w)), (Datatypes.S t). split; [apply Sc_node|]. split.
        { split; rewrite ?nd_app, ?ed_app, ?gd_app; try assumption. cbn. intros n'. rewrite mentioned_app, elem_of_app. cbn. rewrite elem_of_list_singleton, <- M5. set_solver. }
        intros S step st <-. rewrite (range_emits S step), emits_one, emits_tick, emits_emits, ammend_ord.
        fold i. rewrite decide_False by (rewrite <- M5; exact D). unfold with_created; rewrite M1, M2. reflexivity.
    - (* edge *)
      intros src rhs a Hsrc Hrhs name nd ed pre w t M. pose proof M as [M1 M2 M3 M4 M5].
      destruct (add_node_ok w (mentioned pre) src M5) as (c1 & C1 & C2).
      destruct (edge_loop_ok (given a ∪ edge_defaults ed pre) rhs src (with_created w c1) _ C1) as (c2 & C3 & C4).
      set (lE := endpoint_call name (node_defaults nd pre) (mentioned pre) src ++
        arrow_calls name (node_defaults nd pre) (given a ∪ edge_defaults ed pre) (mentioned pre ++ plain src) src rhs).
      assert (HE : forall S step (st : istate S), edge_stmt S step ord w st src rhs a =
          (with_created w c2, emits S step lE (Datatypes.S (i_tick st)) st)).
      { intros S step st. unfold edge_stmt. rewrite get_map_given, (range_emits S step), ammend_ord, M3, C2, C4. rewrite !emits_tick, !emits_emits.
        unfold lE. rewrite M1, M2. cbn [v_graph v_nattrs with_created]. rewrite M1, M2. reflexivity. }
      assert (HL : forall ls, Forall P_loc ls -> forall t, exists l t', locs_calls name nd ed pre ls l /\
          forall S step (st : istate S), i_tick st = t ->
            fold_left (fun st lo => walk_loc S step ord lo w st) ls st = emits S step l t' st).
      { induction 1 as [|lo ls Hlo _ IH]; intros t0.
        - exists [], t0. split; [constructor|]. intros S step st <-. cbn. rewrite emits_nil. reflexivity.
        - destruct (Hlo name nd ed pre w t0 M) as (l1 & t1 & L1 & L2). destruct (IH t1) as (l2 & t2 & L3 & L4).
          exists (l1 ++ l2), t2. split; [apply L1; exact L3|]. intros S step st Hst. cbn [fold_left]. rewrite (L2 S step st Hst), L4 by reflexivity.
          rewrite emits_emits. reflexivity. }
      assert (HF : Forall P_loc (src :: map dst_of rhs)).
      { constructor; [exact Hsrc|]. clear -Hrhs. induction Hrhs as [|[op d] r H _ IH]; cbn; constructor; assumption. }
      destruct (HL _ HF (Datatypes.S t)) as (l & t' & L1 & L2).
      exists (lE ++ l), (with_created w c2), t'. split; [apply Sc_edge; exact L1|]. split.
      { split; rewrite ?nd_app, ?ed_app, ?gd_app; try assumption. cbn. intros n. rewrite C3, mentioned_app. cbn.
        rewrite app_nil_r, <- app_assoc. reflexivity. }
      intros S step st Hst. cbn [walk_stmt]. rewrite HE.
      f_equal. rewrite (walk_loc_ext S step src (with_created w c2) w) by (repeat split).
      assert (HR : forall (r : list Ast.edge_rh) st0, fold_left (fun st e => walk_rh S step ord e (with_created w c2) st) r st0 =
                   fold_left (fun st lo => walk_loc S step ord lo w st) (map dst_of r) st0).
      { induction r as [|[op d] r IH]; intros st0; cbn [fold_left map dst_of]; [reflexivity|]. rewrite IH. cbn [walk_rh].
        rewrite (walk_loc_ext S step d (with_created w c2) w) by (repeat split). reflexivity. }
      rewrite HR. change (fold_left (fun st lo => walk_loc S step ord lo w st) (src :: map dst_of rhs) (emits S step lE (Datatypes.S (i_tick st)) st) = emits S step (lE ++ l) t' st).
      rewrite L2 by (cbn; congruence). apply emits_emits.
    - (* edge attrs *)
      intros a name nd ed pre w t [M1 M2 M3 M4 M5]. eexists [], _, (Datatypes.S t). split; [constructor|]. split; cycle 1.
      + intros S step st <-. cbn [walk_stmt]. unfold edge_attrs_stmt. rewrite get_map_given, (range_emits S step), overwrite_ord. reflexivity.
      + split; cbn; rewrite ?nd_app, ?ed_app, ?gd_app; try assumption; [rewrite M3; reflexivity|].
        intros n. rewrite M5, mentioned_app. cbn. rewrite app_nil_r. reflexivity.
    - (* node attrs *)
      intros a name nd ed pre w t [M1 M2 M3 M4 M5]. eexists [], _, (Datatypes.S t). split; [constructor|]. split; cycle 1.
      + intros S step st <-. cbn [walk_stmt]. unfold node_attrs_stmt. rewrite get_map_given, (range_emits S step), overwrite_ord. reflexivity.
      + split; cbn; rewrite ?nd_app, ?ed_app, ?gd_app; try assumption; [rewrite M2; reflexivity|].
        intros n. rewrite M5, mentioned_app. cbn. rewrite app_nil_r. reflexivity.
    - (* graph attrs *)
      intros a name nd ed pre w t [M1 M2 M3 M4 M5].
      exists (map (fun kv => CAddAttr name kv.1 kv.2) (ord t (given a))), (Visitor (v_graph w) (v_nattrs w) (v_eattrs w) (given a ∪ v_gattrs w) (v_created w)), (2 + t).
      split; [constructor; apply Hord|]. split.
      + split; cbn; rewrite ?nd_app, ?ed_app, ?gd_app; try assumption; [rewrite M4; reflexivity|].
        intros n. rewrite M5, mentioned_app. cbn. rewrite app_nil_r. reflexivity.
      + intros S step st <-. cbn [walk_stmt]. unfold graph_attrs_stmt. rewrite get_map_given, !(range_emits S step).
        rewrite (fold_emits S step (fun kv => CAddAttr (v_graph w) kv.1 kv.2)). rewrite overwrite_ord, !emits_tick, !emits_emits. rewrite M1.
        cbn [app]. rewrite app_nil_r. reflexivity.
    - (* subgraph statement *)
      intros g Hg name nd ed pre w t M. destruct (Hg name nd ed pre w t M) as (l & t' & H1 & H2).
      exists l, w, t'. split; [constructor; exact H1|]. split.
      + destruct M as [M1 M2 M3 M4 M5]. split; rewrite ?nd_app, ?ed_app, ?gd_app; try assumption. intros n. rewrite M5, mentioned_app. cbn. rewrite app_nil_r. reflexivity.
      + intros S step st Hst. change (walk_stmt S step ord (Ast.SSub g) w st) with (w, walk_sub S step ord g w st). rewrite H2 by exact Hst. reflexivity.
    - (* attr *)
      intros a name nd ed pre w t [M1 M2 M3 M4 M5]. eexists _, w, t. split; [apply Sc_attr|]. split.
      + split; rewrite ?nd_app, ?ed_app, ?gd_app; try assumption. intros n. rewrite M5, mentioned_app. cbn. rewrite app_nil_r. reflexivity.
      + intros S step st <-. cbn [walk_stmt]. rewrite emits_one, M1. reflexivity.
    - intros n name nd ed pre w t M. exists [], t. split; [intros ls l' H; apply Lc_node; exact H|].
      intros S step st <-. cbn [walk_loc]. rewrite emits_nil. reflexivity.
    - intros g Hg name nd ed pre w t M. destruct (Hg name nd ed pre w t M) as (l & t' & H1 & H2).
      exists l, t'. split; [intros ls l' H; apply Lc_sub; assumption|]. intros S step st Hst. cbn [walk_loc]. apply H2. exact Hst.
    - intros id body Hb name nd ed pre w t [M1 M2 M3 M4 M5].
      destruct (body_ok body Hb id (node_defaults nd pre) (edge_defaults ed pre) [] _ (2 + t) (matches_new _ _ _)) as (l & w' & t' & H1 & H2 & H3).
      exists (CAddSubGraph name id (graph_defaults ∅ pre) :: l), t'. split; [constructor; exact H1|].
      intros S step st <-. rewrite walk_sub_eq. cbv zeta. rewrite new_visitor_ok, M1, M2, M3, M4.
      rewrite H3.
      2:{ cbn [i_tick]. rewrite emit_tick. reflexivity. }
      cbn [snd]. rewrite emits_one, !emits_tick. apply (emits_emits S step [CAddSubGraph name id (graph_defaults ∅ pre)] l (2 + i_tick st) t').
  Qed.

  Lemma walk_graph_ok (a : Ast.graph) : exists l t', graph_calls a l /\
    forall S step (s0 : S), walk_graph S step ord a (IState s0 [] 0) = emits S step l t' (IState s0 [] 0).
  Proof.
    destruct (body_ok (Ast.g_stmts a)) with (name := Ast.g_id a) (nd := ∅ : attrs) (ed := ∅ : attrs) (pre := @nil Ast.stmt) (w := Visitor (Ast.g_id a) ∅ ∅ ∅ ∅) (t := 2)
      as (l & w' & t' & H1 & H2 & H3).
    { apply Forall_forall. intros s _. apply all_ok. } { apply matches_new. }
    eexists _, t'. split; [exists l; split; [exact H1|reflexivity]|].
    intros S step s0. unfold walk_graph. rewrite new_visitor_ok, H3.
    2:{ cbn [i_tick]. rewrite !emit_tick. reflexivity. }
    cbn [snd]. rewrite (emits_one S step (CSetStrict _)), (emits_one S step (CSetDir _)), (emits_one S step (CSetName _)), !emits_tick.
    rewrite !emits_emits.
    match goal with |- emits S step l t' (IState (i_impl ?x) (i_errs ?x) ?k) = _ => change (emits S step l t' (emits S step [] k x) = emits S step ([CSetStrict (Ast.g_strict a); CSetDir (Ast.g_type a); CSetName (Ast.g_id a)] ++ l) t' (IState s0 [] 0)) end.
    rewrite !emits_emits. reflexivity.
  Qed.
End Walk.

(** The results of the calls. *)
Lemma make_calls_fold {S} step cs : forall (s0 : S) es t,
  fold_left (emit S step) cs (IState s0 es t) = IState (make_calls step cs s0).1 (es ++ errors (make_calls step cs s0).2) t.
Proof.
  induction cs as [|c cs IH]; intros s0 es t; cbn [fold_left make_calls]; [rewrite app_nil_r; reflexivity|].
  unfold emit at 2. cbn. destruct (step s0 c) as [s1 [e|]] eqn:E.
  - rewrite IH. destruct (make_calls step cs s1) as [s2 rs]. cbn. rewrite <- app_assoc. reflexivity.
  - rewrite IH. destruct (make_calls step cs s1) as [s2 rs]. reflexivity.
Qed.

(** C24: the calls do not depend on the implementation. *)
Theorem analyse_calls (ord : order) (a : Ast.graph) : fair_order ord -> exists cs, graph_calls a cs /\
  forall S step (s0 : S), analyse S step ord a s0 = ((make_calls step cs s0).1, get_error (errors (make_calls step cs s0).2)).
Proof.
  intros F. destruct (walk_graph_ok ord F a) as (l & t' & H1 & H2). exists l. split; [exact H1|].
  intros S step s0. unfold analyse. rewrite H2. unfold emits. rewrite make_calls_fold. reflexivity.
Qed.
