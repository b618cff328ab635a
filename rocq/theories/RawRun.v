(** Analyse on trees made by hand. *)
From Verif Require Import Base Parser Maps Graph AttrMap Analyse Walk RawTree SpecRaw WalkAnalyse RawAnalyse WalkProofs AstProofs RawProofs.
From Verif Require Ast.

Section Run.
  Variable S : Type.
  Variable step : S -> call -> S * option err.
  Variable ord : order.
  Notation vst := (vstate S).
  Notation rvisit := (rvisit S step ord).

  (** ** Without nils *)
  Lemma unmap (a : list (list Ast.attr)) : oeach (oeach (fun x => x)) (raw_attrs a) = Some a.
  Proof.
    unfold raw_attrs. rewrite (oeach_map (oeach (fun x => x)) (map Some) (fun l => l) a).
    - rewrite map_id. reflexivity.
    - apply List.Forall_forall. intros l _. rewrite (oeach_map (fun x => x) Some (fun x => x) l); [rewrite map_id; reflexivity|].
      apply List.Forall_forall. reflexivity.
  Qed.
  Lemma rloc_get_plain l : rloc_get (raw_loc l) = Some (Ast.loc_id l, Ast.loc_port l, Ast.loc_is_node l).
  Proof. destruct l as [n|[id b]]; reflexivity. Qed.
  Lemma redge_loop_plain rhs : forall w st a src p,
    redge_loop S step w st a src p (map raw_erh rhs) = (edge_loop S step w st a src p rhs, false).
  Proof.
    induction rhs as [|[op d] rhs IH]; intros w st a src p; [reflexivity|].
    cbn [map]. change (raw_erh (Ast.EdgeRH op d)) with (RH op (raw_loc d)). cbn [redge_loop edge_loop]. rewrite rloc_get_plain.
    destruct (if Ast.loc_is_node d then _ else _) as [w1 st1]. apply IH.
  Qed.
  Lemma redge_stmt_plain w st src rhs a :
    redge_stmt S step ord w st (raw_loc src) (map raw_erh rhs) (raw_attrs a) = (edge_stmt S step ord w st src rhs a, false).
  Proof.
    unfold redge_stmt, edge_stmt, rget_map. rewrite unmap. cbn [option_map]. destruct (range S ord st (v_eattrs w)) as [l st1].
    rewrite rloc_get_plain. destruct (if Ast.loc_is_node src then _ else _) as [w2 st2]. apply redge_loop_plain.
  Qed.
  Lemma rvisit_plain s v e : rvisit s v (raw_elem e) = Returns (fst (visit S step ord s v e)) (snd (visit S step ord s v e)).
  Proof.
    destruct v as [|p|]; [destruct e; reflexivity| |reflexivity].
    unfold RawAnalyse.rvisit, visit. destruct (vs_heap S s !! p) as [w|] eqn:E; [|reflexivity].
    destruct e; cbn [raw_elem]; try reflexivity.
    - destruct g as [id b]. reflexivity.
    - unfold with_map. rewrite unmap. reflexivity.
    - unfold with_map. rewrite unmap. reflexivity.
    - unfold with_map. rewrite unmap. reflexivity.
    - rewrite redge_stmt_plain. reflexivity.
    - unfold with_map. rewrite unmap. reflexivity.
  Qed.
  Lemma ranalyse_plain g s0 : ranalyse S step ord (raw_graph g) s0 =
    Returns (fst (analyse S step ord g s0)) (snd (analyse S step ord g s0)).
  Proof.
    pose proof (analyse_walk_eq S step ord g s0) as A. unfold analyse_walk in A.
    pose proof (sim_graph vst visitor_value (visit S step ord) rvisit rvisit_plain g (Some VGraph) (VState S (IState s0 [] 0) [])) as H.
    unfold ranalyse. destruct (w_graph vst visitor_value (visit S step ord) g (Some VGraph) (VState S (IState s0 [] 0) [])) as [s|].
    - rewrite H. cbn [obind] in A. apply (f_equal (default (s0, None))) in A. cbn [from_option] in A; unfold id in A. rewrite <- A. reflexivity.
    - discriminate A.
  Qed.

  (** ** What a walk changes: visitors stay, calls are made *)
  Definition run_calls (cs : list call) (s : S) : S := fold_left (fun s c => fst (step s c)) cs s.
  Definition called (s s' : S) : Prop := exists cs, s' = run_calls cs s.
  Lemma called_refl s : called s s. Proof. exists []. reflexivity. Qed.
  Lemma called_trans a b c : called a b -> called b c -> called a c.
  Proof. intros [x ->] [y ->]. exists (x ++ y). unfold run_calls. rewrite fold_left_app. reflexivity. Qed.
  Definition icalled (a b : istate S) : Prop := called (i_impl a) (i_impl b).
  Lemma icalled_refl a : icalled a a. Proof. apply called_refl. Qed.
  Lemma icalled_trans a b c : icalled a b -> icalled b c -> icalled a c. Proof. apply called_trans. Qed.
  Lemma emit_called st c : icalled st (emit S step st c).
  Proof. exists [c]. unfold run_calls, emit. cbn [fold_left]. destruct (step (i_impl st) c) as [s' [e|]]; reflexivity. Qed.
  Lemma range_called st m : icalled st (snd (range S ord st m)). Proof. apply called_refl. Qed.
  Lemma new_visitor_called st n a b : icalled st (snd (new_stmt_visitor S ord st n a b)). Proof. apply called_refl. Qed.
  Lemma add_node_called w st n : icalled st (snd (add_node_from_edge S step w st n)).
  Proof. unfold add_node_from_edge. destruct (decide _); [apply icalled_refl|apply emit_called]. Qed.
  Lemma maybe_add_called (b : bool) w st n : icalled st (snd (if b then add_node_from_edge S step w st n else (w, st))).
  Proof. destruct b; [apply add_node_called|apply icalled_refl]. Qed.
  Lemma redge_loop_called rhs : forall w st a src p, icalled st (snd (fst (redge_loop S step w st a src p rhs))).
  Proof.
    induction rhs as [|[|op d] rhs IH]; intros w st a src p; cbn [redge_loop]; [apply icalled_refl|apply icalled_refl|].
    destruct (rloc_get d) as [[[id q] b]|]; [|apply icalled_refl].
    pose proof (maybe_add_called b w st id) as H. destruct (if b then _ else _) as [w1 st1]. cbn [snd] in H.
    eapply icalled_trans; [exact H|]. eapply icalled_trans; [apply emit_called|]. apply IH.
  Qed.
  Lemma redge_stmt_called w st src rhs a : icalled st (snd (fst (redge_stmt S step ord w st src rhs a))).
  Proof.
    unfold redge_stmt. destruct (rget_map a) as [m0|]; [|apply icalled_refl].
    pose proof (range_called st (v_eattrs w)) as H. destruct (range S ord st (v_eattrs w)) as [l st1]. cbn [snd] in H.
    destruct (rloc_get src) as [[[id q] b]|]; [|exact H].
    pose proof (maybe_add_called b w st1 id) as H1. destruct (if b then _ else _) as [w1 st2]. cbn [snd] in H1.
    eapply icalled_trans; [exact H|]. eapply icalled_trans; [exact H1|]. apply redge_loop_called.
  Qed.
  Lemma node_stmt_called w st n a : icalled st (snd (node_stmt S step ord w st n a)).
  Proof.
    unfold node_stmt. destruct (if decide _ then _ else _) as [d w1]. 
    pose proof (range_called st d) as H. destruct (range S ord st d) as [l st1]. cbn [snd] in *.
    eapply icalled_trans; [exact H|]. apply emit_called.
  Qed.
  Lemma graph_attrs_called w st a : icalled st (snd (graph_attrs_stmt S step ord w st a)).
  Proof.
    unfold graph_attrs_stmt. pose proof (range_called st (get_map a)) as H. destruct (range S ord st (get_map a)) as [l st1]. cbn [snd] in H.
    assert (F : icalled st1 (fold_left (fun st kv => emit S step st (CAddAttr (v_graph w) kv.1 kv.2)) l st1)).
    { clear H. revert st1. induction l as [|kv l IH]; intros st1; [apply icalled_refl|]. cbn [fold_left]. eapply icalled_trans; [apply emit_called|]. apply IH. }
    match goal with |- context [range S ord ?x (get_map a)] => pose proof (range_called x (get_map a)) as H2; destruct (range S ord x (get_map a)) as [l2 st3] end.
    cbn [snd] in *. eapply icalled_trans; [exact H|]. eapply icalled_trans; [exact F|exact H2].
  Qed.

  Definition usable (s : vst) (v : visitor_value) : Prop := match v with VStmt p => p < length (vs_heap S s) | _ => True end.
  Definition grown (s s' : vst) : Prop := length (vs_heap S s) <= length (vs_heap S s') /\ icalled (vs_st S s) (vs_st S s').
  Lemma grown_refl s : grown s s. Proof. split; [lia|apply icalled_refl]. Qed.
  Lemma grown_trans a b c : grown a b -> grown b c -> grown a c.
  Proof. intros [H1 H2] [H3 H4]. split; [lia|eapply icalled_trans; eassumption]. Qed.
  Lemma grown_usable s s' v : grown s s' -> usable s v -> usable s' v.
  Proof. intros [H1 _] H. destruct v; cbn in *; try exact I. lia. Qed.
  Definition fine (s : vst) (x : ending vst (option visitor_value)) : Prop :=
    match x with
    | Returns s' r => grown s s' /\ exists v', r = Some v' /\ usable s' v'
    | Panics s' => grown s s'
    end.
  Lemma fine_stay s v : usable s v -> fine s (Returns s (Some v)).
  Proof. intros H. split; [apply grown_refl|]. eauto. Qed.
  Lemma fine_alloc s x : icalled (vs_st S s) (snd x) -> fine s (ralloc S x (vs_heap S s)).
  Proof.
    intros H. unfold ralloc, fine. split; [split; [cbn; rewrite app_length; lia|exact H]|].
    eexists. split; [reflexivity|]. cbn. rewrite app_length. cbn. lia.
  Qed.
  Lemma fine_store s p x r : icalled (vs_st S s) (snd (fst x)) -> usable s r -> fine s (rstore S p x (vs_heap S s) r).
  Proof.
    intros H U. unfold rstore, fine.
    assert (G : grown s (VState S (snd (fst x)) (<[p := fst (fst x)]> (vs_heap S s)))) by (split; [cbn; rewrite insert_length; lia|exact H]).
    destruct (snd x); [exact G|]. split; [exact G|]. exists r. split; [reflexivity|]. eapply grown_usable; eassumption.
  Qed.
  Lemma fine_map s a f : (forall b, fine s (f b)) -> fine s (with_map S s a f).
  Proof. intros H. unfold with_map. destruct (oeach _ a); [apply H|apply grown_refl]. Qed.
  Lemma rvisit_fine s v e : usable s v -> fine s (rvisit s v e).
  Proof.
    intros U. destruct v as [|p|].
    - destruct e; try (apply fine_stay; exact I). destruct g as [g|]; [|apply grown_refl]. cbn [RawAnalyse.rvisit].
      apply fine_alloc. eapply icalled_trans; [|apply new_visitor_called].
      eapply icalled_trans; [apply emit_called|]. eapply icalled_trans; [apply emit_called|apply emit_called].
    - unfold RawAnalyse.rvisit. destruct (lookup_lt_is_Some_2 _ _ U) as [w E]. rewrite E.
      destruct e; try (apply fine_stay; first [exact U|exact I]).
      + destruct g as [|id b]; [apply grown_refl|]. apply fine_alloc. eapply icalled_trans; [|apply new_visitor_called]. apply emit_called.
      + apply fine_map. intros b. apply fine_store; [apply called_refl|exact I].
      + apply fine_map. intros b. apply fine_store; [apply called_refl|exact I].
      + apply fine_map. intros b. apply fine_store; [apply graph_attrs_called|exact I].
      + destruct a as [a|]; [|apply grown_refl]. split; [split; [cbn; lia|apply emit_called]|]. exists (VStmt p). split; [reflexivity|exact U].
      + apply fine_store; [apply redge_stmt_called|exact U].
      + destruct n as [n|]; [|apply grown_refl]. apply fine_map. intros b. apply fine_store; [apply node_stmt_called|exact I].
    - apply fine_stay. exact I.
  Qed.
  Lemma rvisit_ret s v e s' r : usable s v -> rvisit s v e = Returns s' r -> grown s s' /\ exists v', r = Some v' /\ usable s' v'.
  Proof. intros U E. pose proof (rvisit_fine s v e U) as F. rewrite E in F. exact F. Qed.
  Lemma rvisit_pan s v e s' : usable s v -> rvisit s v e = Panics s' -> grown s s'.
  Proof. intros U E. pose proof (rvisit_fine s v e U) as F. rewrite E in F. exact F. Qed.

  Lemma ranalyse_nil g s0 : nil_graph g -> exists s, ranalyse S step ord g s0 = Panics s.
  Proof.
    intros N. unfold ranalyse. rewrite graph_go.
    destruct (go_broken vst visitor_value rvisit usable grown grown_refl grown_trans grown_usable rvisit_ret rvisit_pan _
      (nil_broken_graph g N) VGraph (VState S (IState s0 [] 0) []) I) as [s' E].
    rewrite E. eauto.
  Qed.

  (** ** Up to the first nil *)
  (** Where Analyse is when it starts on the statements. *)
  Definition at_stmts (t st : bool) (i : gostr) (s0 : S) : vst :=
    match rvisit (VState S (IState s0 [] 0) []) VGraph (REGraph (Some (RGraph t st i []))) with Returns s _ => s | Panics s => s end.
  Lemma ranalyse_each t st i l s0 : ranalyse S step ord (Some (RGraph t st i l)) s0 =
    match rw_each vst visitor_value (rw_stmt vst visitor_value rvisit) l (Some (VStmt 0)) (at_stmts t st i s0) with
    | Returns s _ => Returns (i_impl (vs_st S s)) (get_error (i_errs (vs_st S s)))
    | Panics s => Panics (i_impl (vs_st S s))
    end.
  Proof.
    unfold ranalyse, rw_graph, enter at 1, at_stmts. cbn [RawAnalyse.rvisit vs_heap rg_strict rg_type rg_id rg_stmts].
    unfold ralloc. cbn [length app]. unfold rw_leaf, enter. 
    set (x := new_stmt_visitor _ _ _ _ _ _). cbn [RawAnalyse.rvisit vs_heap vs_st]. 
    change ([fst x] !! 0) with (Some (fst x)). cbn [after RawAnalyse.rvisit vs_heap vs_st]. reflexivity.
  Qed.
  Lemma at_stmts_usable t st i s0 : usable (at_stmts t st i s0) (VStmt 0).
  Proof. unfold at_stmts. cbn [RawAnalyse.rvisit vs_heap rg_strict rg_type rg_id]. unfold ralloc, usable. cbn [vs_heap app length]. lia. Qed.
  Lemma each_app {A} (w : A -> option visitor_value -> vst -> ending vst unit) l l2 v s :
    rw_each vst visitor_value w (l ++ l2) v s = after (rw_each vst visitor_value w l v s) (rw_each vst visitor_value w l2 v).
  Proof.
    unfold rw_each. revert s. induction l as [|x l IH]; intros s; [reflexivity|]. cbn [app]. rewrite after_assoc.
    apply after_ext. intros s1. apply IH.
  Qed.
  Lemma each_grown l s v : usable s v -> grown s (fin vst (rw_each vst visitor_value (rw_stmt vst visitor_value rvisit) l (Some v) s)).
  Proof.
    unfold rw_each. revert s. induction l as [|x l IH]; intros s U; [apply grown_refl|].
    pose proof (go_inv vst visitor_value rvisit usable grown grown_refl grown_trans grown_usable rvisit_ret rvisit_pan (rt_stmt x) v s U) as H.
    rewrite <- (proj1 (rw_go vst visitor_value rvisit)) in H.
    destruct (rw_stmt vst visitor_value rvisit x (Some v) s) as [s1 u|s1]; cbn [fin after] in *; [|exact H].
    eapply grown_trans; [exact H|]. apply IH. eapply grown_usable; eassumption.
  Qed.
  Lemma ranalyse_before t st i pre post s0 s : ranalyse S step ord (Some (RGraph t st i (map raw_stmt pre ++ post))) s0 = Panics s ->
    called (fst (analyse S step ord (Ast.Graph t st i pre) s0)) s.
  Proof.
    intros H. pose proof (ranalyse_plain (Ast.Graph t st i pre) s0) as P. unfold raw_graph in P. cbn [Ast.g_type Ast.g_strict Ast.g_id Ast.g_stmts] in P.
    rewrite ranalyse_each in P, H. rewrite each_app in H.
    pose proof (each_grown (map raw_stmt pre) (at_stmts t st i s0) (VStmt 0) (at_stmts_usable t st i s0)) as G1.
    destruct (rw_each vst visitor_value (rw_stmt vst visitor_value rvisit) (map raw_stmt pre) (Some (VStmt 0)) (at_stmts t st i s0)) as [s1 u|s1]; [|discriminate P].
    cbn [after fin] in *. pose proof (each_grown post s1 (VStmt 0) (grown_usable _ _ _ G1 (at_stmts_usable t st i s0))) as G2.
    destruct (rw_each vst visitor_value (rw_stmt vst visitor_value rvisit) post (Some (VStmt 0)) s1) as [s2 u2|s2]; [discriminate H|].
    cbn [fin] in G2. apply (f_equal (fun x : ending S (option err) => match x with Returns s _ => s | Panics s => s end)) in P. cbv beta iota in P.
    injection H as <-. rewrite <- P. exact (proj2 G2).
  Qed.
  Lemma ranalyse_rest t st i pre x post post2 s0 : nil_stmt x ->
    ranalyse S step ord (Some (RGraph t st i (pre ++ x :: post))) s0 = ranalyse S step ord (Some (RGraph t st i (pre ++ x :: post2))) s0.
  Proof.
    intros N. rewrite !ranalyse_each, !each_app.
    pose proof (each_grown pre (at_stmts t st i s0) (VStmt 0) (at_stmts_usable t st i s0)) as G1.
    destruct (rw_each vst visitor_value (rw_stmt vst visitor_value rvisit) pre (Some (VStmt 0)) (at_stmts t st i s0)) as [s1 u|s1]; [|reflexivity].
    cbn [after fin] in *.
    destruct (go_broken vst visitor_value rvisit usable grown grown_refl grown_trans grown_usable rvisit_ret rvisit_pan _
      (proj1 nil_broken x N) (VStmt 0) s1 (grown_usable _ _ _ G1 (at_stmts_usable t st i s0))) as [s2 E].
    rewrite <- (proj1 (rw_go vst visitor_value rvisit)) in E.
    assert (A : forall p, rw_each vst visitor_value (rw_stmt vst visitor_value rvisit) (x :: p) (Some (VStmt 0)) s1 = Panics s2).
    { intros p. change (after (rw_stmt vst visitor_value rvisit x (Some (VStmt 0)) s1) (rw_each vst visitor_value (rw_stmt vst visitor_value rvisit) p (Some (VStmt 0))) = Panics s2). rewrite E. reflexivity. }
    rewrite !A. reflexivity.
  Qed.
End Run.

Lemma rnew_plain os ord g : rnew_analysed_graph os ord (raw_graph g) = Some (new_analysed_graph os ord g).
Proof.
  unfold rnew_analysed_graph, new_analysed_graph. rewrite ranalyse_plain.
  destruct (analyse _ _ _ _ _) as [[a n] [e|]]; reflexivity.
Qed.
Lemma rnew_nil os ord g : nil_graph g -> rnew_analysed_graph os ord g = None.
Proof. intros N. unfold rnew_analysed_graph. destruct (ranalyse_nil _ (graph_step os) ord g (new_graph, 0) N) as [s E]. rewrite E. reflexivity. Qed.
