(** Analysis with maps by reference (HeapAnalyse.v) and by value (Analyse.v). *)
From Verif Require Import Base Parser Maps Graph AttrMap Analyse HeapGraph SpecHeap SpecHeapAnalyse HeapProofs HeapAnalyse AstProofs.
From Verif Require Ast.
From Coq Require Import Lia.

Section Sim.
  Context {S S' : Type} (new : S -> attrs -> S * nat) (get : S -> nat -> attrs) (set : S -> nat -> gostr -> gostr -> S)
    (step : S -> hcall -> S * option err) (step' : S' -> call -> S' * option err) (rel : S -> S' -> gmap nat attrs -> Prop) (ord : order).
  Hypothesis CA : careful new get set step step' rel.

  Definition srel (st : istate S) (st' : istate S') (env : gmap nat attrs) : Prop :=
    rel (i_impl st) (i_impl st') env /\ i_errs st = i_errs st' /\ i_tick st = i_tick st'.
  (** The maps outside [F] are as they were. *)
  Definition keeps (F : nat -> Prop) (env env1 : gmap nat attrs) : Prop := forall l m, env !! l = Some m -> ~ F l -> env1 !! l = Some m.
  Definition none : nat -> Prop := fun _ => False.
  Lemma keeps_refl F env : keeps F env env.
  Proof. intros l m E _. exact E. Qed.
  Lemma keeps_trans (F : nat -> Prop) env e1 e2 : keeps F env e1 -> keeps F e1 e2 -> keeps F env e2.
  Proof. intros A B l m E N. apply B; [apply A|]; done. Qed.
  Lemma keeps_none (F : nat -> Prop) env e1 : keeps none env e1 -> keeps F env e1.
  Proof. intros A l m E _. apply A; [done|]. intros []. Qed.
  Lemma keeps_fresh F env l m : env !! l = None -> keeps F env (<[l := m]> env).
  Proof. intros N l' m' E _. rewrite lookup_insert_ne; [done|]. intros ->. congruence. Qed.
  Lemma keeps_set (F : nat -> Prop) env l m : F l -> keeps F env (<[l := m]> env).
  Proof. intros N l' m' E E'. rewrite lookup_insert_ne; [done|]. intros ->. done. Qed.

  Lemma emit_sim st st' env c : srel st st' env -> (forall l, arg_of c = Some l -> is_Some (env !! l)) ->
    srel (h_emit S step st c) (emit S' step' st' (with_contents (content env) c)) env.
  Proof.
    intros (R & E & T) H. unfold h_emit, emit. destruct (ca_step _ _ _ _ _ _ CA _ _ _ c R H) as [R1 R2].
    destruct (step (i_impl st) c) as [s1 r1]. destruct (step' (i_impl st') (with_contents (content env) c)) as [s1' r1']. cbn in *. subst r1'.
    destruct r1 as [e|]; split; cbn; try done. by rewrite E.
  Qed.
  Lemma new_sim st st' env m : srel st st' env ->
    let r := h_new S new st m in env !! r.2 = None /\ srel r.1 st' (<[r.2 := m]> env).
  Proof.
    intros (R & E & T). unfold h_new. destruct (ca_new _ _ _ _ _ _ CA _ _ _ m R) as [N R1]. destruct (new (i_impl st) m) as [s l]. cbn in *.
    split; [done|]. split; done.
  Qed.
  Lemma range_sim st st' env l : srel st st' env -> (forall x, l = Some x -> is_Some (env !! x)) ->
    let r := h_range S get ord st l in let r' := range S' ord st' (content env l) in r.1 = r'.1 /\ srel r.2 r'.2 env.
  Proof.
    intros (R & E & T) H. unfold h_range, range. cbn [fst snd].
    assert (EQ : match l with Some l => get (i_impl st) l | None => ∅ end = content env l).
    { destruct l as [x|]; [|done]. destruct (H x eq_refl) as [m M]. cbn. rewrite M. cbn. by eapply (ca_get _ _ _ _ _ _ CA). }
    rewrite EQ, T. split; [done|]. split; [done|]. split; [done|]. cbn. congruence.
  Qed.
  Lemma ammend_sim es : forall st st' env l m, srel st st' env -> env !! l = Some m ->
    srel (h_ammend S get set st l es) st' (<[l := ammend m es]> env).
  Proof.
    unfold h_ammend, ammend, on_impl. intros st st' env l m (R & E & T) M. revert env m R M.
    enough (X : forall s env m, rel s (i_impl st') env -> env !! l = Some m ->
      rel (fold_left (fun s kv => match get s l !! kv.1 with Some _ => s | None => set s l kv.1 kv.2 end) es s) (i_impl st')
        (<[l := fold_left (fun a kv => match a !! kv.1 with Some _ => a | None => <[kv.1 := kv.2]> a end) es m]> env)).
    { intros env m R M. split; [by apply X|]. split; [exact E|exact T]. }
    induction es as [|[k v] es IH]; intros s env m R M; cbn; [by rewrite insert_id|].
    rewrite (ca_get _ _ _ _ _ _ CA _ _ _ _ _ R M). destruct (m !! k); [by apply IH|].
    pose proof (ca_set _ _ _ _ _ _ CA _ _ _ _ _ k v R M) as R1. specialize (IH _ _ (<[k:=v]> m) R1). rewrite lookup_insert in IH. specialize (IH eq_refl).
    by rewrite insert_insert in IH.
  Qed.
  Lemma overwrite_sim es : forall st st' env l m, srel st st' env -> env !! l = Some m ->
    srel (h_overwrite S set st l es) st' (<[l := overwrite m es]> env).
  Proof.
    unfold h_overwrite, overwrite, on_impl. intros st st' env l m (R & E & T) M. revert env m R M.
    enough (X : forall s env m, rel s (i_impl st') env -> env !! l = Some m ->
      rel (fold_left (fun s kv => set s l kv.1 kv.2) es s) (i_impl st') (<[l := fold_left (fun a kv => <[kv.1 := kv.2]> a) es m]> env)).
    { intros env m R M. split; [by apply X|]. split; [exact E|exact T]. }
    induction es as [|[k v] es IH]; intros s env m R M; cbn; [by rewrite insert_id|].
    pose proof (ca_set _ _ _ _ _ _ CA _ _ _ _ _ k v R M) as R1. specialize (IH _ _ (<[k:=v]> m) R1). rewrite lookup_insert in IH. specialize (IH eq_refl).
    by rewrite insert_insert in IH.
  Qed.

  (** Visitors *)
  Record vrel (env : gmap nat attrs) (w : hvisitor) (w' : visitor) : Prop := {
    vr_graph : hv_graph w = v_graph w'; vr_created : hv_created w = v_created w';
    vr_n : env !! hv_nattrs w = Some (v_nattrs w'); vr_e : env !! hv_eattrs w = Some (v_eattrs w'); vr_g : env !! hv_gattrs w = Some (v_gattrs w');
    vr_ne : hv_nattrs w <> hv_eattrs w; vr_ng : hv_nattrs w <> hv_gattrs w; vr_eg : hv_eattrs w <> hv_gattrs w }.
  Definition mine (w : hvisitor) : nat -> Prop := fun l => l = hv_nattrs w \/ l = hv_eattrs w \/ l = hv_gattrs w.
  Definition same_maps (w w1 : hvisitor) : Prop := hv_nattrs w1 = hv_nattrs w /\ hv_eattrs w1 = hv_eattrs w /\ hv_gattrs w1 = hv_gattrs w.
  Lemma vrel_keeps env e1 w w' : keeps none env e1 -> vrel env w w' -> vrel e1 w w'.
  Proof. intros K [V1 V2 V3 V4 V5 V6 V7 V8]. constructor; auto; apply K; auto. Qed.
  Lemma content_some env l m : env !! l = Some m -> content env (Some l) = m.
  Proof. intros E. cbn. by rewrite E. Qed.

  (** A step of a visitor: its maps may change, those of others not. *)
  Definition stmt_sim (F : nat -> Prop) (env : gmap nat attrs) (w : hvisitor) (r : hvisitor * istate S) (r' : visitor * istate S') : Prop :=
    exists env1, srel r.2 r'.2 env1 /\ vrel env1 r.1 r'.1 /\ keeps F env env1 /\ same_maps w r.1.
  Lemma new_stmt_visitor_sim st st' env name nl el : srel st st' env ->
    (forall x, nl = Some x -> is_Some (env !! x)) -> (forall x, el = Some x -> is_Some (env !! x)) ->
    exists env1, let r := h_new_stmt_visitor S new get set ord st name nl el in
      let r' := new_stmt_visitor S' ord st' name (content env nl) (content env el) in
      srel r.2 r'.2 env1 /\ vrel env1 r.1 r'.1 /\ keeps none env env1 /\ (forall l, mine r.1 l -> env !! l = None).
  Proof.
    intros R Hn He. unfold h_new_stmt_visitor, new_stmt_visitor.
    assert (C : forall (e1 : gmap nat attrs) x, keeps none env e1 -> (forall y, x = Some y -> is_Some (env !! y)) ->
      content e1 x = content env x /\ (forall y, x = Some y -> is_Some (e1 !! y))).
    { intros e1 [y|] K H; [|done]. destruct (H y eq_refl) as [m M]. pose proof (K _ _ M (fun f => f)) as M1. split; [cbn; by rewrite M, M1|]. intros ? [= <-]. eauto. }
    destruct (new_sim st st' env ∅ R) as [N1 R1]. destruct (h_new S new st ∅) as [st1 ln]. cbn [fst snd] in *.
    set (env1 := <[ln := ∅]> env) in *. assert (K1 : keeps none env env1) by (by apply keeps_fresh).
    destruct (C env1 nl K1 Hn) as [C1 D1]. pose proof (range_sim st1 st' env1 nl R1 D1) as [E1 R2]. rewrite C1 in E1, R2.
    destruct (h_range S get ord st1 nl) as [es1 st2]. destruct (range S' ord st' (content env nl)) as [l1 st1']. cbn [fst snd] in *. subst l1.
    pose proof (ammend_sim es1 st2 st1' env1 ln ∅ R2 (lookup_insert _ _ _)) as R3. unfold env1 in R3. rewrite insert_insert in R3.
    set (env3 := <[ln := ammend ∅ es1]> env) in *. assert (K3 : keeps none env env3) by (by apply keeps_fresh).
    destruct (new_sim _ _ _ ∅ R3) as [N4 R4]. destruct (h_new S new (h_ammend S get set st2 ln es1) ∅) as [st4 le]. cbn [fst snd] in *.
    set (env4 := <[le := ∅]> env3) in *. assert (K4 : keeps none env env4) by (eapply keeps_trans; [exact K3|by apply keeps_fresh]).
    destruct (C env4 el K4 He) as [C2 D2]. pose proof (range_sim st4 st1' env4 el R4 D2) as [E2 R5]. rewrite C2 in E2, R5.
    destruct (h_range S get ord st4 el) as [es2 st5]. destruct (range S' ord st1' (content env el)) as [l2 st2']. cbn [fst snd] in *. subst l2.
    pose proof (ammend_sim es2 st5 st2' env4 le ∅ R5 (lookup_insert _ _ _)) as R6. unfold env4 in R6. rewrite insert_insert in R6.
    set (env6 := <[le := ammend ∅ es2]> env3) in *. assert (K6 : keeps none env3 env6) by (by apply keeps_fresh).
    destruct (new_sim _ _ _ ∅ R6) as [N7 R7]. destruct (h_new S new (h_ammend S get set st5 le es2) ∅) as [st7 lg]. cbn [fst snd] in *.
    set (env7 := <[lg := ∅]> env6) in *. assert (K7 : keeps none env6 env7) by (by apply keeps_fresh).
    exists env7. split; [exact R7|]. split; [|split].
    - assert (Mn : env3 !! ln = Some (ammend ∅ es1)) by apply lookup_insert. assert (Me : env6 !! le = Some (ammend ∅ es2)) by apply lookup_insert.
      constructor; cbn; try done.
      + apply K7; [apply K6; [exact Mn|intros []]|intros []].
      + apply K7; [exact Me|intros []].
      + apply lookup_insert.
      + intros <-. congruence.
      + intros <-. rewrite (K6 _ _ Mn (fun f => f)) in N7. congruence.
      + intros <-. congruence.
    - eapply keeps_trans; [exact K3|]. by eapply keeps_trans.
    - assert (Z : forall e1 l, keeps none env e1 -> e1 !! l = None -> env !! l = None).
      { intros e1 l K N. destruct (env !! l) as [m|] eqn:M; [|done]. rewrite (K _ _ M (fun f => f)) in N. done. }
      intros l [->|[->| ->]]; cbn [hv_nattrs hv_eattrs hv_gattrs]; [exact N1|by apply (Z env3)|]. apply (Z env6); [eapply keeps_trans; [exact K3|exact K6]|done].
  Qed.
  Lemma add_node_from_edge_sim w w' st st' env n : srel st st' env -> vrel env w w' ->
    let r := h_add_node_from_edge S step w st n in let r' := add_node_from_edge S' step' w' st' n in
    srel r.2 r'.2 env /\ vrel env r.1 r'.1 /\ same_maps w r.1.
  Proof.
    intros R V. unfold h_add_node_from_edge, add_node_from_edge. rewrite (vr_created _ _ _ V). destruct (decide (n ∈ v_created w')); cbn [fst snd].
    - split; [done|]. split; [done|]. done.
    - split; [|split; [|done]].
      + pose proof (emit_sim st st' env (HAddNode (hv_graph w) n (Some (hv_nattrs w))) R) as E. cbn [with_contents arg_of] in E.
        rewrite (content_some _ _ _ (vr_n _ _ _ V)), (vr_graph _ _ _ V) in E. rewrite (vr_graph _ _ _ V). apply E. intros l [= <-]. rewrite (vr_n _ _ _ V). eauto.
      + destruct V; constructor; cbn; auto. by rewrite vr_created0.
  Qed.
  Lemma node_stmt_sim w w' st st' env n a : srel st st' env -> vrel env w w' ->
    stmt_sim none env w (h_node_stmt S new get set step ord w st n a) (node_stmt S' step' ord w' st' n a).
  Proof.
    intros R V. unfold h_node_stmt, node_stmt. rewrite (vr_created _ _ _ V). set (id := Ast.node_id_str n).
    assert (V1 : vrel env (h_create w id) (Visitor (v_graph w') (v_nattrs w') (v_eattrs w') (v_gattrs w') ({[id]} ∪ v_created w'))).
    { destruct V; constructor; cbn; auto. by rewrite vr_created0. }
    assert (X : exists d d' w1 w1', (if decide (id ∈ v_created w') then (None, w) else (Some (hv_nattrs w), h_create w id)) = (d, w1) /\
      (if decide (id ∈ v_created w') then (∅, w') else (v_nattrs w', Visitor (v_graph w') (v_nattrs w') (v_eattrs w') (v_gattrs w') ({[id]} ∪ v_created w'))) = (d', w1') /\
      content env d = d' /\ (forall x, d = Some x -> is_Some (env !! x)) /\ vrel env w1 w1' /\ same_maps w w1).
    { destruct (decide (id ∈ v_created w')).
      - exists None, ∅, w, w'. done.
      - eexists _, _, _, _. split; [reflexivity|]. split; [reflexivity|]. split; [apply content_some, V|]. split; [|done].
        intros x [= <-]. rewrite (vr_n _ _ _ V). eauto. }
    destruct X as (d & d' & w1 & w1' & -> & -> & Cd & Hd & Vw & Sw). clear V1. cbn [fst snd].
    unfold h_get_map. destruct (new_sim st st' env (get_map a) R) as [N1 R1]. destruct (h_new S new st (get_map a)) as [st1 l]. cbn [fst snd] in *.
    set (env1 := <[l := get_map a]> env) in *. assert (K1 : keeps none env env1) by (by apply keeps_fresh).
    assert (Hd1 : forall x, d = Some x -> is_Some (env1 !! x)).
    { intros x ->. destruct (Hd x eq_refl) as [m M]. exists m. apply K1; [done|intros []]. }
    assert (Cd1 : content env1 d = d').
    { rewrite <- Cd. destruct d as [x|]; [|done]. destruct (Hd x eq_refl) as [m M]. cbn. rewrite M. by rewrite (K1 _ _ M (fun f => f)). }
    pose proof (range_sim st1 st' env1 d R1 Hd1) as [E2 R2]. rewrite Cd1 in E2, R2.
    destruct (h_range S get ord st1 d) as [es st2]. destruct (range S' ord st' d') as [l' st2']. cbn [fst snd] in *. subst l'.
    pose proof (ammend_sim es st2 st2' env1 l (get_map a) R2 (lookup_insert _ _ _)) as R3. unfold env1 in R3. rewrite insert_insert in R3.
    set (env3 := <[l := ammend (get_map a) es]> env) in *. assert (K3 : keeps none env env3) by (by apply keeps_fresh).
    exists env3. split; [|split; [by eapply vrel_keeps|split; [done|exact Sw]]]. cbn [fst snd].
    pose proof (emit_sim _ _ _ (HAddNode (hv_graph w) id (Some l)) R3) as E. cbn [with_contents arg_of] in E.
    rewrite (content_some env3 l _ (lookup_insert _ _ _)), (vr_graph _ _ _ V) in E. rewrite (vr_graph _ _ _ V). apply E.
    intros x [= <-]. exists (ammend (get_map a) es). apply lookup_insert.
  Qed.
  Lemma edge_loop_sim env l m rhs : env !! l = Some m -> forall w w' st st' src port, srel st st' env -> vrel env w w' ->
    let r := h_edge_loop S step w st l src port rhs in let r' := edge_loop S' step' w' st' m src port rhs in
    srel r.2 r'.2 env /\ vrel env r.1 r'.1 /\ same_maps w r.1.
  Proof.
    intros M. induction rhs as [|[op dst] rhs IH]; intros w w' st st' src port R V; cbn [h_edge_loop edge_loop]; [done|].
    assert (X : exists w1 st1 w1' st1', (if Ast.loc_is_node dst then h_add_node_from_edge S step w st (Ast.loc_id dst) else (w, st)) = (w1, st1) /\
      (if Ast.loc_is_node dst then add_node_from_edge S' step' w' st' (Ast.loc_id dst) else (w', st')) = (w1', st1') /\
      srel st1 st1' env /\ vrel env w1 w1' /\ same_maps w w1).
    { destruct (Ast.loc_is_node dst).
      - pose proof (add_node_from_edge_sim w w' st st' env (Ast.loc_id dst) R V) as X.
        destruct (h_add_node_from_edge S step w st (Ast.loc_id dst)) as [w1 st1]. destruct (add_node_from_edge S' step' w' st' (Ast.loc_id dst)) as [w1' st1'].
        exists w1, st1, w1', st1'. done.
      - exists w, st, w', st'. done. }
    destruct X as (w1 & st1 & w1' & st1' & -> & -> & R1 & V1 & S1).
    pose proof (emit_sim st1 st1' env (HAddPortEdge src (Ast.port_str port) (Ast.loc_id dst) (Ast.port_str (Ast.loc_port dst)) op (Some l)) R1) as E.
    cbn [with_contents arg_of] in E. rewrite (content_some _ _ _ M) in E.
    destruct (IH w1 w1' _ _ (Ast.loc_id dst) (Ast.loc_port dst) (E ltac:(intros x [= <-]; eauto)) V1) as (A1 & A2 & A3).
    split; [exact A1|]. split; [exact A2|]. destruct A3 as (B1 & B2 & B3), S1 as (C1 & C2 & C3). split; [|split]; congruence.
  Qed.
  Lemma edge_stmt_sim w w' st st' env src rhs a : srel st st' env -> vrel env w w' ->
    stmt_sim none env w (h_edge_stmt S new get set step ord w st src rhs a) (edge_stmt S' step' ord w' st' src rhs a).
  Proof.
    intros R V. unfold h_edge_stmt, edge_stmt, h_get_map.
    destruct (new_sim st st' env (get_map a) R) as [N1 R1]. destruct (h_new S new st (get_map a)) as [st1 l]. cbn [fst snd] in *.
    set (env1 := <[l := get_map a]> env) in *. assert (K1 : keeps none env env1) by (by apply keeps_fresh).
    assert (V1 : vrel env1 w w') by (by eapply vrel_keeps).
    pose proof (range_sim st1 st' env1 (Some (hv_eattrs w)) R1) as [E2 R2]; [intros x [= <-]; rewrite (vr_e _ _ _ V1); eauto|].
    rewrite (content_some _ _ _ (vr_e _ _ _ V1)) in E2, R2.
    destruct (h_range S get ord st1 (Some (hv_eattrs w))) as [es st2]. destruct (range S' ord st' (v_eattrs w')) as [l' st2']. cbn [fst snd] in *. subst l'.
    pose proof (ammend_sim es st2 st2' env1 l (get_map a) R2 (lookup_insert _ _ _)) as R3. unfold env1 in R3. rewrite insert_insert in R3.
    set (env3 := <[l := ammend (get_map a) es]> env) in *. assert (K3 : keeps none env env3) by (by apply keeps_fresh).
    assert (V3 : vrel env3 w w') by (by eapply vrel_keeps).
    assert (M3 : env3 !! l = Some (ammend (get_map a) es)) by apply lookup_insert.
    assert (X : exists w1 st4 w1' st4', (if Ast.loc_is_node src then h_add_node_from_edge S step w (h_ammend S get set st2 l es) (Ast.loc_id src) else (w, h_ammend S get set st2 l es)) = (w1, st4) /\
      (if Ast.loc_is_node src then add_node_from_edge S' step' w' st2' (Ast.loc_id src) else (w', st2')) = (w1', st4') /\
      srel st4 st4' env3 /\ vrel env3 w1 w1' /\ same_maps w w1).
    { destruct (Ast.loc_is_node src).
      - pose proof (add_node_from_edge_sim w w' _ _ env3 (Ast.loc_id src) R3 V3) as X.
        destruct (h_add_node_from_edge S step w _ (Ast.loc_id src)) as [w1 st4]. destruct (add_node_from_edge S' step' w' st2' (Ast.loc_id src)) as [w1' st4'].
        exists w1, st4, w1', st4'. done.
      - eexists _, _, _, _. done. }
    destruct X as (w1 & st4 & w1' & st4' & -> & -> & R4 & V4 & S4).
    destruct (edge_loop_sim env3 l _ rhs M3 w1 w1' st4 st4' (Ast.loc_id src) (Ast.loc_port src) R4 V4) as (A1 & A2 & A3).
    exists env3. split; [exact A1|]. split; [exact A2|]. split; [exact K3|]. destruct A3 as (B1 & B2 & B3), S4 as (C1 & C2 & C3). split; [|split]; congruence.
  Qed.
  Lemma attrs_stmt_sim w w' st st' env a : srel st st' env -> vrel env w w' ->
    stmt_sim (mine w) env w (h_node_attrs_stmt S new get set ord w st a) (node_attrs_stmt S' ord w' st' a) /\
    stmt_sim (mine w) env w (h_edge_attrs_stmt S new get set ord w st a) (edge_attrs_stmt S' ord w' st' a).
  Proof.
    intros R V. unfold h_node_attrs_stmt, node_attrs_stmt, h_edge_attrs_stmt, edge_attrs_stmt, h_get_map.
    destruct (new_sim st st' env (get_map a) R) as [N1 R1]. destruct (h_new S new st (get_map a)) as [st1 l]. cbn [fst snd] in *.
    set (env1 := <[l := get_map a]> env) in *. assert (K1 : keeps none env env1) by (by apply keeps_fresh).
    pose proof (vrel_keeps _ _ _ _ K1 V) as V1.
    pose proof (range_sim st1 st' env1 (Some l) R1) as [E2 R2]; [intros x [= <-]; exists (get_map a); apply lookup_insert|].
    rewrite (content_some env1 l _ (lookup_insert _ _ _)) in E2, R2.
    destruct (h_range S get ord st1 (Some l)) as [es st2]. destruct (range S' ord st' (get_map a)) as [l' st2']. cbn [fst snd] in *. subst l'.
    split.
    - exists (<[hv_nattrs w := overwrite (v_nattrs w') es]> env1). split; [apply overwrite_sim; [done|apply V1]|]. cbn [fst snd]. split; [|split; [|done]].
      + destruct V1; constructor; cbn; auto; rewrite ?lookup_insert_ne by congruence; auto. by rewrite lookup_insert.
      + eapply keeps_trans; [apply keeps_none, K1|]. apply keeps_set. by left.
    - exists (<[hv_eattrs w := overwrite (v_eattrs w') es]> env1). split; [apply overwrite_sim; [done|apply V1]|]. cbn [fst snd]. split; [|split; [|done]].
      + destruct V1; constructor; cbn; auto; rewrite ?lookup_insert_ne by congruence; auto. by rewrite lookup_insert.
      + eapply keeps_trans; [apply keeps_none, K1|]. apply keeps_set. right; by left.
  Qed.
  Lemma graph_attrs_stmt_sim w w' st st' env a : srel st st' env -> vrel env w w' ->
    stmt_sim (mine w) env w (h_graph_attrs_stmt S new get set step ord w st a) (graph_attrs_stmt S' step' ord w' st' a).
  Proof.
    intros R V. unfold h_graph_attrs_stmt, graph_attrs_stmt, h_get_map.
    destruct (new_sim st st' env (get_map a) R) as [N1 R1]. destruct (h_new S new st (get_map a)) as [st1 l]. cbn [fst snd] in *.
    set (env1 := <[l := get_map a]> env) in *. assert (K1 : keeps none env env1) by (by apply keeps_fresh).
    pose proof (vrel_keeps _ _ _ _ K1 V) as V1. assert (Ml : env1 !! l = Some (get_map a)) by apply lookup_insert.
    pose proof (range_sim st1 st' env1 (Some l) R1) as [E2 R2]; [intros x [= <-]; eauto|]. rewrite (content_some _ _ _ Ml) in E2, R2.
    destruct (h_range S get ord st1 (Some l)) as [es st2]. destruct (range S' ord st' (get_map a)) as [l' st2']. cbn [fst snd] in *. subst l'.
    assert (R3 : srel (fold_left (fun st kv => h_emit S step st (HAddAttr (hv_graph w) kv.1 kv.2)) es st2)
      (fold_left (fun st kv => emit S' step' st (CAddAttr (v_graph w') kv.1 kv.2)) es st2') env1).
    { rewrite (vr_graph _ _ _ V). clear -R2 CA. revert st2 st2' R2. induction es as [|kv es IH]; intros st2 st2' R2; cbn; [done|].
      apply IH. apply (emit_sim _ _ _ (HAddAttr (v_graph w') kv.1 kv.2) R2). done. }
    set (st3 := fold_left _ es st2) in *. set (st3' := fold_left _ es st2') in *.
    pose proof (range_sim st3 st3' env1 (Some l) R3) as [E4 R4]; [intros x [= <-]; eauto|]. rewrite (content_some _ _ _ Ml) in E4, R4.
    destruct (h_range S get ord st3 (Some l)) as [es' st4]. destruct (range S' ord st3' (get_map a)) as [l' st4']. cbn [fst snd] in *. subst l'.
    exists (<[hv_gattrs w := overwrite (v_gattrs w') es']> env1). split; [apply overwrite_sim; [done|apply V1]|]. cbn [fst snd]. split; [|split; [|done]].
    - destruct V1; constructor; cbn; auto; rewrite ?lookup_insert_ne by congruence; auto. by rewrite lookup_insert.
    - eapply keeps_trans; [apply keeps_none, K1|]. apply keeps_set. right; by right.
  Qed.

  Definition P_stmt (x : Ast.stmt) : Prop := forall w w' st st' env, srel st st' env -> vrel env w w' ->
    stmt_sim (mine w) env w (h_walk_stmt S new get set step ord x w st) (walk_stmt S' step' ord x w' st').
  Definition P_loc (x : Ast.location) : Prop := forall w w' st st' env, srel st st' env -> vrel env w w' ->
    exists env1, srel (h_walk_loc S new get set step ord x w st) (walk_loc S' step' ord x w' st') env1 /\ keeps none env env1.
  Definition P_sub (x : Ast.subgraph) : Prop := forall w w' st st' env, srel st st' env -> vrel env w w' ->
    exists env1, srel (h_walk_sub S new get set step ord x w st) (walk_sub S' step' ord x w' st') env1 /\ keeps none env env1.
  Definition P_rh (e : Ast.edge_rh) : Prop := match e with Ast.EdgeRH _ d => P_loc d end.
  (** Unfolding equations *)
  Lemma h_edge_eq src rhs a w st : h_walk_stmt S new get set step ord (Ast.SEdge src rhs a) w st =
    let '(w1, st1) := h_edge_stmt S new get set step ord w st src rhs a in
    (w1, fold_left (fun st e => h_walk_rh S new get set step ord e w1 st) rhs (h_walk_loc S new get set step ord src w1 st1)).
  Proof. reflexivity. Qed.
  Lemma h_sub_eq id body w st : h_walk_sub S new get set step ord (Ast.SubGraph id body) w st =
    let '(w2, st2) := h_new_stmt_visitor S new get set ord (h_emit S step st (HAddSubGraph (hv_graph w) id (Some (hv_gattrs w)))) id (Some (hv_nattrs w)) (Some (hv_eattrs w)) in
    snd (fold_left (fun x s => h_walk_stmt S new get set step ord s (fst x) (snd x)) body (w2, st2)).
  Proof. reflexivity. Qed.
  Lemma v_edge_eq src rhs a w st : walk_stmt S' step' ord (Ast.SEdge src rhs a) w st =
    let '(w1, st1) := edge_stmt S' step' ord w st src rhs a in
    (w1, fold_left (fun st e => walk_rh S' step' ord e w1 st) rhs (walk_loc S' step' ord src w1 st1)).
  Proof. reflexivity. Qed.
  Lemma v_sub_eq id body w st : walk_sub S' step' ord (Ast.SubGraph id body) w st =
    let '(w2, st2) := new_stmt_visitor S' ord (emit S' step' st (CAddSubGraph (v_graph w) id (v_gattrs w))) id (v_nattrs w) (v_eattrs w) in
    snd (fold_left (fun x s => walk_stmt S' step' ord s (fst x) (snd x)) body (w2, st2)).
  Proof. reflexivity. Qed.

  Lemma body_sim body : Forall P_stmt body -> forall w w' st st' env, srel st st' env -> vrel env w w' ->
    stmt_sim (mine w) env w (fold_left (fun x s => h_walk_stmt S new get set step ord s (fst x) (snd x)) body (w, st))
      (fold_left (fun x s => walk_stmt S' step' ord s (fst x) (snd x)) body (w', st')).
  Proof.
    induction 1 as [|x body Hx Hb IH]; intros w w' st st' env R V; cbn [fold_left fst snd].
    - exists env. split; [done|]. split; [done|]. split; [apply keeps_refl|done].
    - destruct (Hx w w' st st' env R V) as (e1 & R1 & V1 & K1 & S1).
      destruct (h_walk_stmt S new get set step ord x w st) as [w1 st1]. destruct (walk_stmt S' step' ord x w' st') as [w1' st1']. cbn [fst snd] in *.
      destruct (IH w1 w1' st1 st1' e1 R1 V1) as (e2 & R2 & V2 & K2 & S2). exists e2. split; [done|]. split; [done|].
      destruct S1 as (C1 & C2 & C3), S2 as (B1 & B2 & B3). split; [|split; [|split]; congruence].
      eapply keeps_trans; [exact K1|]. unfold mine in *. rewrite C1, C2, C3 in K2. exact K2.
  Qed.
  Lemma rhs_sim rhs : Forall P_rh rhs -> forall w w' st st' env, srel st st' env -> vrel env w w' -> exists env1,
    srel (fold_left (fun st e => h_walk_rh S new get set step ord e w st) rhs st) (fold_left (fun st e => walk_rh S' step' ord e w' st) rhs st') env1 /\ keeps none env env1.
  Proof.
    induction 1 as [|[op d] rhs Hx Hb IH]; intros w w' st st' env R V; cbn [fold_left]; [exists env; split; [done|apply keeps_refl]|].
    destruct (Hx w w' st st' env R V) as (e1 & R1 & K1). destruct (IH w w' _ _ e1 R1 (vrel_keeps _ _ _ _ K1 V)) as (e2 & R2 & K2).
    exists e2. split; [exact R2|by eapply keeps_trans].
  Qed.
  Lemma weaken F env w r r' : stmt_sim none env w r r' -> stmt_sim F env w r r'.
  Proof. intros (e & A & B & C & D). exists e. split; [done|]. split; [done|]. split; [by apply keeps_none|done]. Qed.
  Lemma walk_sim : (forall x, P_stmt x) /\ (forall l, P_loc l) /\ (forall g, P_sub g).
  Proof.
    apply stmt_all_ind.
    - intros n a w w' st st' env R V. apply weaken. by apply node_stmt_sim.
    - intros src rhs a Hs Hr w w' st st' env R V. rewrite h_edge_eq, v_edge_eq.
      destruct (edge_stmt_sim w w' st st' env src rhs a R V) as (e1 & R1 & V1 & K1 & S1).
      destruct (h_edge_stmt S new get set step ord w st src rhs a) as [w1 st1]. destruct (edge_stmt S' step' ord w' st' src rhs a) as [w1' st1']. cbn [fst snd] in *.
      destruct (Hs w1 w1' st1 st1' e1 R1 V1) as (e2 & R2 & K2).
      destruct (rhs_sim rhs Hr w1 w1' _ _ e2 R2 (vrel_keeps _ _ _ _ K2 V1)) as (e3 & R3 & K3).
      exists e3. split; [exact R3|]. cbn [fst snd]. split; [eapply vrel_keeps; [exact K3|by eapply vrel_keeps]|]. split; [|done].
      apply keeps_none. eapply keeps_trans; [exact K1|]. by eapply keeps_trans.
    - intros a w w' st st' env R V. by apply attrs_stmt_sim.
    - intros a w w' st st' env R V. by apply attrs_stmt_sim.
    - intros a w w' st st' env R V. by apply graph_attrs_stmt_sim.
    - intros g Hg w w' st st' env R V. destruct (Hg w w' st st' env R V) as (e1 & R1 & K1). exists e1. split; [exact R1|]. split; [by eapply vrel_keeps|].
      split; [by apply keeps_none|done].
    - intros a w w' st st' env R V. exists env. cbn [h_walk_stmt walk_stmt fst snd]. split; [|split; [done|split; [apply keeps_refl|done]]].
      rewrite (vr_graph _ _ _ V). apply (emit_sim _ _ _ (HAddAttr (v_graph w') (Ast.at_field a) (Ast.at_value a)) R). done.
    - intros n w w' st st' env R V. exists env. split; [exact R|apply keeps_refl].
    - intros g Hg. exact Hg.
    - intros id body Hb w w' st st' env R V. rewrite h_sub_eq, v_sub_eq.
      pose proof (emit_sim st st' env (HAddSubGraph (hv_graph w) id (Some (hv_gattrs w))) R) as E. cbn [with_contents arg_of] in E.
      rewrite (content_some _ _ _ (vr_g _ _ _ V)), (vr_graph _ _ _ V) in E. rewrite (vr_graph _ _ _ V).
      assert (E' : srel (h_emit S step st (HAddSubGraph (v_graph w') id (Some (hv_gattrs w)))) (emit S' step' st' (CAddSubGraph (v_graph w') id (v_gattrs w'))) env).
      { apply E. intros x [= <-]. rewrite (vr_g _ _ _ V). eauto. }
      destruct (new_stmt_visitor_sim _ _ env id (Some (hv_nattrs w)) (Some (hv_eattrs w)) E') as (e1 & R1 & V1 & K1 & Fr).
      { intros x [= <-]. rewrite (vr_n _ _ _ V). eauto. }
      { intros x [= <-]. rewrite (vr_e _ _ _ V). eauto. }
      rewrite (content_some _ _ _ (vr_n _ _ _ V)), (content_some _ _ _ (vr_e _ _ _ V)) in R1, V1.
      destruct (h_new_stmt_visitor S new get set ord _ id _ _) as [w2 st2]. destruct (new_stmt_visitor S' ord _ id _ _) as [w2' st2']. cbn [fst snd] in *.
      destruct (body_sim body Hb w2 w2' st2 st2' e1 R1 V1) as (e2 & R2 & V2 & K2 & _). exists e2. split; [exact R2|].
      intros l m M _. apply K2; [apply K1; [exact M|intros []]|]. intros Hl. rewrite (Fr l Hl) in M. done.
  Qed.

  (** The whole of Analyse: the same error, and corresponding states. *)
  Lemma walk_graph_sim a st st' env : srel st st' env -> exists env1,
    srel (h_walk_graph S new get set step ord a st) (walk_graph S' step' ord a st') env1 /\ keeps none env env1.
  Proof.
    intros R. unfold h_walk_graph, walk_graph.
    pose proof (emit_sim _ _ _ (HSetStrict (Ast.g_strict a)) R ltac:(done)) as R1. cbn [with_contents] in R1.
    pose proof (emit_sim _ _ _ (HSetDir (Ast.g_type a)) R1 ltac:(done)) as R2. cbn [with_contents] in R2.
    pose proof (emit_sim _ _ _ (HSetName (Ast.g_id a)) R2 ltac:(done)) as R3. cbn [with_contents] in R3.
    destruct (new_stmt_visitor_sim _ _ env (Ast.g_id a) None None R3 ltac:(done) ltac:(done)) as (e1 & R4 & V1 & K1 & Fr). cbn [content] in R4, V1.
    destruct (h_new_stmt_visitor S new get set ord _ (Ast.g_id a) _ _) as [w2 st2]. destruct (new_stmt_visitor S' ord _ (Ast.g_id a) _ _) as [w2' st2']. cbn [fst snd] in *.
    destruct (body_sim (Ast.g_stmts a)) with (w := w2) (w' := w2') (st := st2) (st' := st2') (env := e1) as (e2 & R5 & V2 & K2 & _); [|done..|].
    { apply Forall_forall. intros x _. apply walk_sim. }
    exists e2. split; [exact R5|]. intros l m M _. apply K2; [apply K1; [exact M|intros []]|]. intros Hl. rewrite (Fr l Hl) in M. done.
  Qed.
  Lemma analyse_sim a s s' : rel s s' ∅ -> exists env,
    rel (h_analyse S new get set step ord a s).1 (analyse S' step' ord a s').1 env /\
    (h_analyse S new get set step ord a s).2 = (analyse S' step' ord a s').2.
  Proof.
    intros R. destruct (walk_graph_sim a (IState s [] 0) (IState s' [] 0) ∅) as (env & (R1 & E1 & _) & _); [split; done|].
    exists env. split; [exact R1|]. unfold h_analyse, analyse. cbn [snd]. by rewrite E1.
  Qed.
End Sim.

(** Graph is such an implementation. *)
Definition graph_rel (s : world * nat) (s' : agraph * nat) (env : gmap nat attrs) : Prop :=
  s.2 = s'.2 /\ inv s.1 /\ abs s.1 = s'.1 /\
  forall l m, env !! l = Some m -> l < next (maps s.1.1) /\ (forall a, ref s.1.1 s.1.2 a <> Some l) /\ at_map s.1.1 l = m.
Lemma graph_careful grow os : careful hgraph_new hgraph_get hgraph_set (hgraph_step grow os) (graph_step os) graph_rel.
Proof.
  constructor.
  - intros [[h g] i] [g' i'] env m (Ei & I & A & M). cbn [fst snd] in *. subst i'.
    unfold hgraph_new, new_map. change (alloc (maps h) m) with ((alloc (maps h) m).1, next (maps h)). cbn [fst snd]. fold (fresh_map h m).
    destruct (fresh_ok h m g I) as (J & A1 & V). split.
    + destruct (env !! next (maps h)) as [x|] eqn:X; [|done]. apply M in X as (L & _). lia.
    + split; [done|]. cbn [fst snd]. split; [done|]. split; [by rewrite A1|]. intros l x.
      destruct (decide (l = next (maps h))) as [->|N].
      * rewrite lookup_insert. intros [= <-]. split; [cbn; lia|]. split; [|apply at_map_fresh].
        intros a. unfold fresh_map. rewrite ref_maps. intros Ra. apply (i_bound _ I) in Ra. cbn in Ra. lia.
      * rewrite lookup_insert_ne by done. intros X. destruct (M _ _ X) as (L & R & E). split; [cbn; lia|]. split; [|by rewrite at_map_fresh_ne].
        intros a. unfold fresh_map. rewrite ref_maps. apply R.
  - intros [[h g] i] [g' i'] env l m (Ei & I & A & M) E. apply M in E. apply E.
  - intros [[h g] i] [g' i'] env l m k v (Ei & I & A & M) E. cbn [fst snd] in *. destruct (M _ _ E) as (L & R & C).
    unfold hgraph_set. rewrite set_key_upd, C. split; [done|]. cbn [fst snd]. split; [|split].
    + apply inv_maps; [done|apply swf_put; [apply (i_heap _ I)|done]|done].
    + rewrite <- A. apply abs_maps; [done|]. intros a l' Ra. apply at_map_upd_ne. intros ->. by eapply R.
    + intros l' x. destruct (decide (l' = l)) as [->|N].
      * rewrite lookup_insert. intros [= <-]. split; [done|]. split; [|apply at_map_upd]. intros a. unfold upd. rewrite ref_maps. apply R.
      * rewrite lookup_insert_ne by done. intros X. destruct (M _ _ X) as (L' & R' & E'). split; [done|]. split; [|by rewrite at_map_upd_ne].
        intros a. unfold upd. rewrite ref_maps. apply R'.
  - intros [w i] [g' i'] env c (Ei & I & A & M) H. cbn [fst snd] in *. subst i'. unfold hgraph_step, graph_step.
    destruct (hexec_sim grow (os i) c w I) as (J & B & V).
    { intros l Hl. destruct (H l Hl) as [m E]. by apply M in E as (? & _). }
    assert (EQ : with_contents (arg w.1) c = with_contents (content env) c).
    { assert (Z : forall m, arg_of c = m -> arg w.1 m = content env m).
      { intros [l|] Hl; [|done]. destruct (H l Hl) as [m E]. cbn. rewrite E. cbn. by apply M in E as (_ & _ & E). }
      destruct c; cbn in *; rewrite ?Z; done. }
    rewrite EQ, A in B. destruct (hexec grow (os i) c w) as [w1 r]. cbn [fst snd] in *. rewrite <- B. cbn [fst snd].
    split; [|done]. split; [done|]. cbn [fst snd]. split; [done|]. split; [done|]. intros l m E. destruct (M _ _ E) as (L & R & C).
    split; [pose proof (ev_maps _ _ V); lia|]. split.
    + intros a Ra. destruct (ev_refs _ _ V a l Ra) as [Ra'|Ra']; [by eapply R|lia].
    + rewrite <- C. apply (ev_at _ _ V); [done|]. intros a Ra. by apply R in Ra.
Qed.
Lemma graph_rel_new : graph_rel (h_new_graph, 0) (new_graph, 0) ∅.
Proof.
  split; [done|]. split; [exact inv_new|]. split; [exact abs_new|]. intros l m E. by rewrite lookup_empty in E.
Qed.
Lemma h_new_analysed_graph_sim grow os ord a :
  match h_new_analysed_graph grow os ord a with
  | inl w => inv w /\ new_analysed_graph os ord a = inl (abs w)
  | inr e => new_analysed_graph os ord a = inr e
  end.
Proof.
  destruct (analyse_sim _ _ _ _ _ _ ord (graph_careful grow os) a _ _ graph_rel_new) as (env & (_ & I & A & _) & R).
  unfold h_new_analysed_graph, new_analysed_graph. destruct (h_analyse _ _ _ _ _ _ a _) as [[w i] r]. destruct (analyse _ _ _ a _) as [[g i'] r'].
  cbn [fst snd] in *. subst r'. destruct r; [done|]. split; [done|]. by rewrite A.
Qed.
