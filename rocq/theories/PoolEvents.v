(** Proofs for Pool.v: what each event does to what is seen. *)
From Coq Require Import Lia.
From Verif Require Import Base Maps Graph SpecGraph MapFacts GraphProofs HeapGraph SpecHeap HeapProofs HeapSnap HeapRange HeapEditProofs.
From Verif Require Import Direct SpecDirect DirectProofs Pool SpecPool PoolFrame PoolIndex PoolProofs PoolSteps.

Lemma shown_at st i g : p_graphs st !! i = Some g -> shown st i = view (abs (p_heap st, g)).
Proof. intros E. unfold shown. by rewrite E. Qed.
Lemma has_node_at st i g n p : p_graphs st !! i = Some g -> has_node st i n p <-> hn_lookup (hg_nodes g) !! n = Some p.
Proof. intros E. split; [|intros L; by exists g]. intros (g' & E' & L). rewrite E in E'. by injection E' as <-. Qed.
Lemma edge_ptrs_at st i g : p_graphs st !! i = Some g -> edge_ptrs st i = ptrs (p_heap st) (hg_edges g).
Proof. intros E. unfold edge_ptrs. by rewrite E. Qed.
Lemma shown_none st i : p_graphs st !! i = None -> shown st i = s_empty.
Proof. intros E. unfold shown. by rewrite E. Qed.
(** The node that a graph has under a name has that name. *)
Lemma has_node_facts st i n p : psound st -> has_node st i n p -> is_node_ptr st p /\ node_name (node_shown st p) = n /\ s_nodes (shown st i) !! n = Some (node_attrs (node_shown st p)).
Proof.
  intros [P O] (g & G & L). pose proof (inv_of _ i g P G) as I. pose proof (wn_lookup _ _ (i_nodes _ I) n p L) as B. cbn [fst] in B.
  apply (wh_nobjs _ (i_heap _ I)) in B as [nd B]. cbn [fst] in B. split; [by eexists|].
  destruct (no_lookup _ (go_nodes _ (O i g G)) n p L) as [_ [a A]]. cbn in A. rewrite lookup_fmap, B in A. cbn in A. injection A as A1 A2.
  unfold node_shown, node_seen, at_node. rewrite B. split; [done|]. rewrite (shown_at st i g G). change (nview (abs_nodes (p_heap st) (hg_nodes g)) !! n = Some (node_attrs (abs_node (p_heap st) nd))).
  rewrite nview_abs; [|apply (i_heap _ I)|apply (i_nodes _ I)]. rewrite lookup_fmap, L. cbn. unfold node_attrs_at, node_seen, at_node. by rewrite B.
Qed.
Lemma has_node_some st i n a : psound st -> s_nodes (shown st i) !! n = Some a -> exists p, has_node st i n p.
Proof.
  intros [P O] E. unfold shown in E. destruct (p_graphs st !! i) as [g|] eqn:G; [|cbn in E; by rewrite lookup_empty in E].
  cbn in E. rewrite lookup_fmap in E. destruct (hn_lookup (hg_nodes g) !! n) as [p|] eqn:L; [|done]. exists p, g. done.
Qed.
Lemma has_node_none st i n : psound st -> s_nodes (shown st i) !! n = None -> forall p, ~ has_node st i n p.
Proof. intros S E p H. destruct (has_node_facts st i n p S H) as (_ & _ & E'). congruence. Qed.
Lemma has_node_same st i n p q : has_node st i n p -> has_node st i n q -> p = q.
Proof. intros (g & G & L) (g' & G' & L'). rewrite G in G'. injection G' as <-. congruence. Qed.
Lemma s_nodes_at st i g : psound st -> p_graphs st !! i = Some g -> s_nodes (shown st i) = node_attrs_at (p_heap st) <$> hn_lookup (hg_nodes g).
Proof.
  intros [P O] G. pose proof (inv_of _ i g P G) as I. rewrite (shown_at st i g G). change (nview (abs_nodes (p_heap st) (hg_nodes g)) = node_attrs_at (p_heap st) <$> hn_lookup (hg_nodes g)).
  apply nview_abs; [apply (i_heap _ I)|apply (i_nodes _ I)].
Qed.
(** Two graphs show the same of a node that they share. *)
Lemma shares_equal st i j n : psound st -> shares_node st i j n -> s_nodes (shown st i) !! n = s_nodes (shown st j) !! n.
Proof. intros S (p & A & B). destruct (has_node_facts st i n p S A) as (_ & _ & ->). by destruct (has_node_facts st j n p S B) as (_ & _ & ->). Qed.

(** ** A call *)
Lemma call_world h gs mine i g grow o c : psound (Pool h gs mine) -> gs !! i = Some g -> fair o ->
  let R := hexec grow o (with_refs (ref_of mine) c) (h, g) in let C := with_contents (content_of (map (at_map h) mine)) c in
  inv R.1 /\ (abs R.1, R.2) = exec o C (abs (h, g)) /\ evolves (h, g) R.1 /\ frame (h, g) R.1 /\ cix R.1.1 (hg_edges R.1.2) /\ any_ok (abs R.1).
Proof.
  intros [P O] G Fo R C. pose proof (inv_of _ i g P G) as I. cbn [p_heap] in I.
  assert (B : forall l, arg_of (with_refs (ref_of mine) c) = Some l -> l < next (maps h)) by (intros l Hl; by apply (pi_mine _ P), (arg_of_refs mine c)).
  destruct (hexec_sim grow o (with_refs (ref_of mine) c) (h, g) I B) as (J & A & V). fold R in J, A, V. cbn [fst] in A.
  rewrite (with_contents_refs _ _ (content_of (map (at_map h) mine))) in A by (intros; apply arg_content). fold C in A.
  split; [done|]. split; [done|]. split; [done|]. split; [by apply hexec_frame|]. split.
  - apply hexec_cix; [|exact B]. split; [done|]. apply (gw_cix _ _ (pi_graph _ P i g G)).
  - assert (E : abs R.1 = (exec o C (abs (h, g))).1) by (by rewrite <- A). rewrite E. apply (@exec_ok _ accepts_any o C); [done|]. apply (O i g G).
Qed.
Record call_facts (st st' : pool) (i : nat) (C : call) (e : option err) : Prop := {
  cf_sound : psound st';
  cf_count : length (p_graphs st') = length (p_graphs st);
  cf_spec : spec_call C (shown st i) (shown st' i) e;
  cf_others : forall j, j <> i -> shown st' j = from_afar C e (shares_node st i j) (shown st j);
  cf_maps : maps_shown st' = maps_shown st;
  cf_node : forall p, is_node_ptr st p -> is_node_ptr st' p /\ node_shown st' p = node_from_afar C e (fun n => has_node st i n p) (node_shown st p);
  cf_edge : forall p, is_edge_ptr st p -> is_edge_ptr st' p /\ edge_shown st' p = edge_shown st p;
  cf_has : forall j n p, has_node st j n p -> has_node st' j n p \/ (j = i /\ s_nodes (shown st' i) !! n = None);
  cf_has_other : forall j n p, j <> i -> has_node st' j n p <-> has_node st j n p;
  cf_ptrs : forall j, j <> i -> edge_ptrs st' j = edge_ptrs st j }.
Lemma insert_graph {A} (gs : list A) i j g g' : gs !! i = Some g -> <[i := g']> gs !! j = if decide (j = i) then Some g' else gs !! j.
Proof.
  intros G. destruct (decide (j = i)) as [->|N]; [apply list_lookup_insert; by eapply lookup_lt_Some|by apply list_lookup_insert_ne].
Qed.
Lemma call_step st i g grow o c : psound st -> p_graphs st !! i = Some g -> fair o ->
  let R := pstep (PCall i grow o c) st in
  exists e, R.2 = [e] /\ call_facts st R.1 i (with_contents (content_of (maps_shown st)) c) e.
Proof.
  destruct st as [h gs mine]. cbn [p_graphs]. intros S G Fo. cbn [pstep]. rewrite G. unfold maps_shown. cbn [p_heap p_mine].
  pose proof (call_world h gs mine i g grow o c S G Fo) as (J & E & V & F & X & OK). set (C := with_contents (content_of (map (at_map h) mine)) c) in *.
  destruct (hexec grow o (with_refs (ref_of mine) c) (h, g)) as [w' r]. cbn [fst snd] in *. exists r. split; [done|].
  pose proof (ws_sound h gs mine i g w' S G J V F X OK) as S'. set (st' := Pool w'.1 (<[i := w'.2]> gs) mine) in *. set (st := Pool h gs mine) in *.
  assert (GI : p_graphs st' !! i = Some w'.2) by (cbn; rewrite (insert_graph gs i i g w'.2 G); by rewrite decide_True).
  assert (GO : forall j, j <> i -> p_graphs st' !! j = p_graphs st !! j) by (intros j N; cbn; rewrite (insert_graph gs i j g w'.2 G); by rewrite decide_False).
  assert (Sh : shown st' i = view (exec o C (abs (h, g))).1) by (rewrite (shown_at st' i w'.2 GI), <- E; by destruct w').
  assert (Er : r = (exec o C (abs (h, g))).2) by (by rewrite <- E).
  destruct S as [P O]. pose proof (O i g G) as OG. cbn [p_heap] in OG.
  assert (HO : forall j n p, j <> i -> has_node st' j n p <-> has_node st j n p) by (intros j n p N; unfold has_node; by rewrite GO).
  assert (ND : forall p, is_node_ptr st p -> is_node_ptr st' p /\ node_shown st' p = node_from_afar C r (fun n => has_node st i n p) (node_shown st p)).
  { intros p Hp. destruct (ws_node h g w' J V F X OK p Hp) as (N1 & N2 & N3 & N4). split; [exact N3|]. unfold node_shown. cbn [p_heap st st'].
    pose proof (exec_heap o C (abs (h, g)) p _ Fo (go_nodes _ OG) N2) as Q. rewrite <- E in Q. cbn [fst snd] in Q. rewrite N1 in Q. apply (inj Some) in Q.
    rewrite Q. assert (Eta : forall nd : node, Node (node_name nd) (node_attrs nd) = nd) by (by intros []).
    unfold node_after, node_from_afar. destruct C; try apply Eta. destruct r; [apply Eta|]. change (nodes_lookup (g_nodes (abs (h, g)))) with (hn_lookup (hg_nodes g)).
    pose proof (has_node_at st i g name p G) as HN. destruct (decide (has_node st i name p)) as [Y|Y].
    - rewrite decide_True; [done|by apply HN].
    - rewrite decide_False; [apply Eta|]. by rewrite <- HN. }
  constructor; try done.
  - cbn. by rewrite insert_length.
  - rewrite (shown_at st i g G), Sh, Er. cbn [p_heap st]. apply (@exec_ok _ accepts_any o C); done.
  - intros j N. destruct (gs !! j) as [k|] eqn:K.
    + destruct (ws_other h gs mine i g w' (conj P O) G J V F X OK j k K N) as (_ & E2 & _).
      rewrite (shown_at st' j k) by (by rewrite GO). cbn [p_heap st']. rewrite E2. change (view (abs (h, k))) with (view (abs (p_heap st, k))). rewrite <- (shown_at st j k K).
      pose proof (s_nodes_at st j k (conj P O) K) as SN. cbn [p_heap st] in SN.
      assert (Q : forall n q, hn_lookup (hg_nodes k) !! n = Some q -> node_attrs_at w'.1 q = node_attrs (node_from_afar C r (fun n => has_node st i n q) (node_seen h q))).
      { intros n q L. destruct (has_node_facts st j n q (conj P O)) as (Hq & _); [by exists k|]. destruct (ND q Hq) as [_ N2]. unfold node_shown in N2. cbn [p_heap st st'] in N2.
        unfold node_attrs_at. by rewrite N2. }
      assert (Same : (forall n q, hn_lookup (hg_nodes k) !! n = Some q -> node_attrs_at w'.1 q = node_attrs_at h q) -> s_with_nodes (shown st j) (node_attrs_at w'.1 <$> hn_lookup (hg_nodes k)) = shown st j).
      { intros Y. assert (Z : node_attrs_at w'.1 <$> hn_lookup (hg_nodes k) = s_nodes (shown st j)) by (rewrite SN; apply map_fmap_ext; intros n q L; by eapply Y).
        rewrite Z. by destruct (shown st j). }
      unfold from_afar. destruct C as [| | | | |p0 n m| | | |]; try (apply Same; intros n0 q L; rewrite (Q n0 q L); done).
      destruct r as [e|]; [apply Same; intros n0 q L; rewrite (Q n0 q L); done|].
      destruct (decide (shares_node st i j n)) as [Y|Y].
      * destruct Y as (p & A & B). unfold s_extend_node, s_set_node, s_with_nodes. f_equal.
        destruct (has_node_facts st j n p (conj P O) B) as (_ & B2 & B3). rewrite B3. apply map_eq. intros n0. rewrite lookup_fmap.
        destruct (decide (n = n0)) as [<-|Nn].
        -- rewrite lookup_insert. rewrite (proj1 (has_node_at st j k n p K) B). cbn [fmap option_fmap option_map]. rewrite (Q n p) by (by apply (has_node_at st j k n p K)). cbn [node_from_afar]. by rewrite decide_True.
        -- rewrite lookup_insert_ne by done. rewrite SN, lookup_fmap. destruct (hn_lookup (hg_nodes k) !! n0) as [q|] eqn:L; [|done]. cbn [fmap option_fmap option_map]. f_equal. rewrite (Q n0 q L). cbn [node_from_afar].
           rewrite decide_False; [done|]. intros H. apply Nn. destruct (has_node_facts st i n q (conj P O) H) as (_ & Y & _). destruct (has_node_facts st j n0 q (conj P O)) as (_ & Z & _); [by exists k|]. congruence.
      * apply Same. intros n0 q L. rewrite (Q n0 q L). cbn [node_from_afar]. rewrite decide_False; [done|]. intros H. apply Y.
        destruct (has_node_facts st i n q (conj P O) H) as (_ & Y1 & _). destruct (has_node_facts st j n0 q (conj P O)) as (_ & Z & _); [by exists k|].
        assert (n0 = n) as -> by congruence. exists q. split; [done|by exists k].
    + rewrite (shown_none st' j) by (by rewrite GO). rewrite (shown_none st j K). unfold from_afar. destruct C as [| | | | |p0 n m| | | |]; try done. destruct r; [done|].
      rewrite decide_False; [done|]. intros (p & _ & (k & K' & _)). cbn in K'; by rewrite K in K'.
  - apply (ws_maps h gs mine i g w' (conj P O) G V).
  - intros p [e Hp]. destruct (ws_edge h gs mine i g w' (conj P O) G V p) as [A B]; [|by split]. apply (wh_eobjs _ (pi_heap _ P)). by eexists.
  - intros j n p H. destruct (decide (j = i)) as [->|N]; [|left; by apply HO]. pose proof (proj1 (has_node_at st i g n p G) H) as L.
    destruct (exec_lookup o C (abs (h, g)) n p L) as [L'|L'].
    + left. exists w'.2. split; [done|]. rewrite <- E in L'. by destruct w'.
    + right. split; [done|]. rewrite Sh. unfold view; cbn [s_nodes]. by rewrite lookup_fmap, L'.
  - intros j N. destruct (gs !! j) as [k|] eqn:K.
    + destruct (ws_other h gs mine i g w' (conj P O) G J V F X OK j k K N) as (_ & _ & E3). rewrite (edge_ptrs_at st' j k) by (by rewrite GO). by rewrite (edge_ptrs_at st j k K).
    + unfold edge_ptrs. rewrite GO by done. change (p_graphs st !! j) with (gs !! j). by rewrite K.
Qed.

(** ** One node gets other attributes *)
Lemma set_view (st : pool) (j : nat) (k : hgraph) (n0 : gostr) (q0 : nat) (a' : attrs) (f : nat -> attrs) : psound st -> p_graphs st !! j = Some k -> node_name (node_shown st q0) = n0 ->
  (forall q, is_node_ptr st q -> f q = if decide (q = q0) then a' else node_attrs (node_shown st q)) ->
  s_with_nodes (shown st j) (f <$> hn_lookup (hg_nodes k)) = if decide (has_node st j n0 q0) then s_set_node (shown st j) n0 a' else shown st j.
Proof.
  intros S K N Hf. pose proof (s_nodes_at st j k S K) as SN.
  assert (Q : forall n q, hn_lookup (hg_nodes k) !! n = Some q -> f q = if decide (q = q0) then a' else node_attrs (node_shown st q)).
  { intros n q L. apply Hf. apply (has_node_facts st j n q S). by exists k. }
  destruct (decide (has_node st j n0 q0)) as [Y|Y].
  - unfold s_set_node, s_with_nodes. f_equal. apply map_eq. intros n. rewrite lookup_fmap. pose proof (proj1 (has_node_at st j k n0 q0 K) Y) as L0.
    destruct (decide (n0 = n)) as [<-|Ne].
    + rewrite lookup_insert, L0. cbn [fmap option_fmap option_map]. rewrite (Q n0 q0 L0). by rewrite decide_True.
    + rewrite lookup_insert_ne by done. rewrite SN, lookup_fmap. destruct (hn_lookup (hg_nodes k) !! n) as [q|] eqn:L; [|done]. cbn [fmap option_fmap option_map]. f_equal.
      rewrite (Q n q L). rewrite decide_False; [done|]. intros ->. destruct (has_node_facts st j n q0 S) as (_ & Z & _); [by exists k|]. congruence.
  - assert (Z : f <$> hn_lookup (hg_nodes k) = s_nodes (shown st j)).
    { rewrite SN. apply map_fmap_ext. intros n q L. rewrite (Q n q L). rewrite decide_False; [done|]. intros ->. apply Y.
      destruct (has_node_facts st j n q0 S) as (_ & Z & _); [by exists k|]. rewrite N in Z. subst n. by exists k. }
    rewrite Z. by destruct (shown st j).
Qed.
Lemma set_view_none (st : pool) (j q0 : nat) (n0 : gostr) (s : sgraph) : p_graphs st !! j = None -> shown st j = (if decide (has_node st j n0 q0) then s else shown st j).
Proof. intros K. rewrite decide_False; [done|]. intros (k & K' & _). congruence. Qed.

(** ** Nodes.Add with a pointer *)
Record give_facts (st st' : pool) (i : nat) : Prop := {
  gf_sound : psound st';
  gf_count : length (p_graphs st') = length (p_graphs st);
  gf_maps : maps_shown st' = maps_shown st;
  gf_nodep : forall p, is_node_ptr st p -> is_node_ptr st' p;
  gf_edgep : forall p, is_edge_ptr st p -> is_edge_ptr st' p;
  gf_edge : forall p, is_edge_ptr st p -> edge_shown st' p = edge_shown st p;
  gf_has : forall j n p, has_node st j n p -> has_node st' j n p;
  gf_has_other : forall j n p, j <> i -> has_node st' j n p -> has_node st j n p }.
Lemma world_facts h gs mine i g w' : psound (Pool h gs mine) -> gs !! i = Some g -> inv w' -> evolves (h, g) w' -> frame (h, g) w' -> cix w'.1 (hg_edges w'.2) -> any_ok (abs w') ->
  (forall n p, hn_lookup (hg_nodes g) !! n = Some p -> hn_lookup (hg_nodes w'.2) !! n = Some p) ->
  give_facts (Pool h gs mine) (Pool w'.1 (<[i := w'.2]> gs) mine) i.
Proof.
  intros S G J V F X OK LK. pose proof (ws_sound h gs mine i g w' S G J V F X OK) as S'. set (st' := Pool w'.1 (<[i := w'.2]> gs) mine) in *. set (st := Pool h gs mine) in *.
  assert (GI : p_graphs st' !! i = Some w'.2) by (cbn; rewrite (insert_graph gs i i g w'.2 G); by rewrite decide_True).
  assert (GO : forall j, j <> i -> p_graphs st' !! j = p_graphs st !! j) by (intros j N; cbn; rewrite (insert_graph gs i j g w'.2 G); by rewrite decide_False).
  constructor; try done.
  - cbn. by rewrite insert_length.
  - apply (ws_maps h gs mine i g w' S G V).
  - intros p Hp. by destruct (ws_node h g w' J V F X OK p Hp) as (N1 & N2 & N3 & N4).
  - intros p [e Hp]. eexists. exact (ev_edges _ _ V p e Hp).
  - intros p [e Hp]. destruct (ws_edge h gs mine i g w' S G V p) as [A B]; [|done]. apply (wh_eobjs _ (pi_heap _ (proj1 S))). by eexists.
  - intros j n p H. destruct (decide (j = i)) as [->|N].
    + exists w'.2. split; [done|]. apply LK. by apply (has_node_at st i g n p G).
    + unfold has_node. by rewrite GO.
  - intros j n p N. unfold has_node. by rewrite GO.
Qed.
Lemma any_direct o d g : fair o -> possible g d -> any_ok g ->
  any_ok (exec_direct o d g).1 /\ spec_direct (fun p => nodes_heap (g_nodes g) !! p) (fun n => nodes_lookup (g_nodes g) !! n) d (view g) (view (exec_direct o d g).1) (exec_direct o d g).2.
Proof.
  intros Fo Po OK. apply (@direct_ok _ accepts_any o d g Fo Po); [|done|done]. apply Forall_forall. intros m _. apply any_in.
Qed.
Lemma add_old_view (look : nat -> option node) (cur : gostr -> option nat) (p : nat) (s s' : sgraph) (r : option err) (n : gostr) (a : attrs) : spec_direct look cur (DNodesAddOld p) s s' r -> look p = Some (Node n a) -> s' = s_add_node s n a.
Proof. intros H E. inversion H; subst. congruence. Qed.
Lemma give_node_step st i g grow o p : psound st -> p_graphs st !! i = Some g -> fair o -> is_node_ptr st p ->
  let R := pstep (PGiveNode i grow o p) st in let n := node_name (node_shown st p) in let a := node_attrs (node_shown st p) in
  R.2 = [None] /\ give_facts st R.1 i /\ (forall j, edge_ptrs R.1 j = edge_ptrs st j) /\
  match hn_lookup (hg_nodes g) !! n with
  | None => shown R.1 i = s_new_node (shown st i) n a /\ has_node R.1 i n p /\ (forall j, j <> i -> shown R.1 j = shown st j) /\ forall q, is_node_ptr st q -> node_shown R.1 q = node_shown st q
  | Some q => (forall j, shown R.1 j = if decide (has_node st j n q) then s_extend_node (shown st j) n a else shown st j) /\ (forall j m s, has_node R.1 j m s <-> has_node st j m s) /\
      (forall s, is_node_ptr st s -> node_shown R.1 s = if decide (s = q) then Node n (a ∪ node_attrs (node_shown st q)) else node_shown st s)
  end.
Proof.
  destruct st as [h gs mine]. cbn [p_graphs]. intros S G Fo [nd N]. cbn [p_heap] in N. cbn [pstep]. rewrite G, N. pose proof S as [P O].
  pose proof (inv_of _ i g P G) as I. pose proof (O i g G) as OG. pose proof (pi_graph _ P i g G) as W. cbn [p_heap] in *.
  pose proof (nodes_give_sim grow (o_attrs o 0) h g p nd I N) as Q. pose proof (nodes_give_frame grow (o_attrs o 0) h g p I (mk_is_Some _ _ N)) as F.
  assert (CL : exists q', (h_nodes_give grow (o_attrs o 0) h (hg_nodes g) p).2 = q') by eauto.
  destruct (h_nodes_give grow (o_attrs o 0) h (hg_nodes g) p) as [h1 ns]. cbn [fst snd] in *. cbv zeta in Q. destruct Q as (J & E & V & X1 & X2 & X3).
  assert (D : node_seen h p = abs_node h nd) by (unfold node_seen, at_node; by rewrite N).
  assert (DD : deref (g_nodes (abs (h, g))) p = abs_node h nd) by exact (deref_abs h _ p nd N).
  assert (EX : (abs (h1, h_with_nodes g ns), None) = exec_direct o (DNodesAddOld p) (abs (h, g))) by (cbn [exec_direct]; by rewrite E).
  assert (PO : possible (abs (h, g)) (DNodesAddOld p)) by (cbn; rewrite lookup_fmap, N; by eexists).
  destruct (any_direct o (DNodesAddOld p) (abs (h, g)) Fo PO OG) as [OK SP]. rewrite <- EX in OK, SP. cbn [fst snd] in OK, SP.
  assert (X : cix h1 (hg_edges (h_with_nodes g ns))) by (apply (cix_evolves (h, g) (h1, h_with_nodes g ns) I V X2 X1); apply W).
  set (w' := (h1, h_with_nodes g ns)) in *. change h1 with w'.1. change (h_with_nodes g ns) with w'.2.
  set (st := Pool h gs mine) in *. set (st' := Pool w'.1 (<[i := w'.2]> gs) mine).
  assert (GI : p_graphs st' !! i = Some w'.2) by (cbn [p_graphs st']; rewrite (insert_graph gs i i g w'.2 G); by rewrite decide_True).
  assert (GO : forall j, j <> i -> p_graphs st' !! j = p_graphs st !! j) by (intros j Nj; cbn [p_graphs st']; rewrite (insert_graph gs i j g w'.2 G); by rewrite decide_False).
  assert (LKE : nodes_lookup (g_nodes (abs w')) = hn_lookup ns) by done.
  assert (NH : forall q, is_node_ptr st q -> nodes_heap (g_nodes (abs w')) !! q = Some (node_seen w'.1 q)) by (intros q Hq; by destruct (ws_node h g w' J V F X OK q Hq)).
  assert (NH0 : forall q, is_node_ptr st q -> nodes_heap (g_nodes (abs (h, g))) !! q = Some (node_seen h q)) by (intros q Hq; by destruct (ws_node h g w' J V F X OK q Hq) as (_ & ? & _)).
  rewrite E in LKE, NH. cbn [with_nodes g_nodes] in LKE, NH.
  unfold nodes_add_old in LKE, NH. rewrite DD in LKE, NH. cbn [abs_node node_name node_attrs] in LKE, NH. change (nodes_lookup (g_nodes (abs (h, g)))) with (hn_lookup (hg_nodes g)) in LKE, NH.
  assert (EP : forall j, edge_ptrs st' j = edge_ptrs st j).
  { intros j. destruct (decide (j = i)) as [->|Nj].
    - rewrite (edge_ptrs_at st' i w'.2 GI), (edge_ptrs_at st i g G). unfold ptrs. cbn [p_heap st' st]. change (hg_edges w'.2) with (hg_edges g). change (earrs w'.1) with (earrs h1). by rewrite X2.
    - destruct (gs !! j) as [k|] eqn:K.
      + rewrite (edge_ptrs_at st' j k) by (by rewrite GO). rewrite (edge_ptrs_at st j k K). by destruct (ws_other h gs mine i g w' S G J V F X OK j k K Nj) as (_ & _ & ?).
      + unfold edge_ptrs. rewrite GO by done. change (p_graphs st !! j) with (gs !! j). by rewrite K. }
  assert (ND : node_shown st p = Node (no_name nd) (at_map h (no_attrs nd))) by exact D. rewrite ND. cbn [node_name node_attrs].
  set (n := no_name nd) in *. set (a := at_map h (no_attrs nd)) in *.
  assert (SV : view (abs w') = s_add_node (view (abs (h, g))) n a).
  { apply (add_old_view _ _ p _ _ _ n a SP). rewrite (NH0 p (mk_is_Some _ _ N)). by rewrite D. }
  destruct (hn_lookup (hg_nodes g) !! n) as [q|] eqn:L; cbn [nodes_lookup nodes_heap] in LKE, NH.
  - split; [done|]. split; [apply (world_facts h gs mine i g w'); try done; intros m s Hm; cbn; by rewrite <- LKE|]. split; [done|].
    assert (HQ : has_node st i n q) by (by exists g). destruct (has_node_facts st i n q S HQ) as (Q1 & Q2 & Q3).
    assert (NS : forall s, is_node_ptr st s -> node_shown st' s = if decide (s = q) then Node n (a ∪ node_attrs (node_shown st q)) else node_shown st s).
    { intros s Hs. specialize (NH s Hs). unfold node_shown. cbn [p_heap st st']. destruct (decide (s = q)) as [->|Ne].
      - rewrite lookup_insert in NH. apply (inj Some) in NH. rewrite <- NH. pose proof (NH0 q Hs) as Hq. unfold deref. rewrite Hq. cbn. f_equal; [exact Q2|].
        rewrite (extend_enum _ a) by apply Fo. done.
      - rewrite lookup_insert_ne in NH by done. rewrite (NH0 s Hs) in NH. by apply (inj Some) in NH. }
    split; [|split; [|exact NS]].
    + intros j. destruct (gs !! j) as [k|] eqn:K; [|rewrite (shown_none st' j), <- (shown_none st j K)]; cycle 1.
      { by apply set_view_none. }
      { cbn [p_graphs st']. rewrite (insert_graph gs i j g w'.2 G). rewrite decide_False; [done|]. intros ->. congruence. }
      assert (VJ : shown st' j = s_with_nodes (shown st j) (node_attrs_at w'.1 <$> hn_lookup (hg_nodes k))).
      { destruct (decide (j = i)) as [->|Nj].
        - assert (k = g) as -> by congruence. rewrite (shown_at st' i w'.2 GI). change (p_heap st', w'.2) with w'. rewrite SV.
          change (view (abs (h, g))) with (view (abs (p_heap st, g))). rewrite <- (shown_at st i g G).
          unfold s_add_node, s_with_nodes. rewrite Q3. f_equal.
          pose proof (set_view st i g n q (a ∪ node_attrs (node_shown st q)) (node_attrs_at w'.1) S G Q2) as SS. rewrite decide_True in SS by done.
          assert (SN : s_nodes (s_with_nodes (shown st i) (node_attrs_at w'.1 <$> hn_lookup (hg_nodes g))) = s_nodes (s_set_node (shown st i) n (a ∪ node_attrs (node_shown st q)))).
          { rewrite SS; [done|]. intros s Hs. specialize (NS s Hs). unfold node_shown in NS. cbn [p_heap st'] in NS. unfold node_attrs_at. rewrite NS. by destruct (decide (s = q)). }
          exact (eq_sym SN).
        - destruct (ws_other h gs mine i g w' S G J V F X OK j k K Nj) as (_ & V2 & _). rewrite (shown_at st' j k) by (by rewrite GO). cbn [p_heap st']. rewrite V2.
          change (view (abs (h, k))) with (view (abs (p_heap st, k))). by rewrite <- (shown_at st j k K). }
      rewrite VJ. rewrite (set_view st j k n q (a ∪ node_attrs (node_shown st q)) (node_attrs_at w'.1) S K Q2).
      * destruct (decide (has_node st j n q)) as [Y|Y]; [|done]. destruct (has_node_facts st j n q S Y) as (_ & _ & Y3). unfold s_extend_node. by rewrite Y3.
      * intros s Hs. specialize (NS s Hs). unfold node_shown in NS. cbn [p_heap st'] in NS. unfold node_attrs_at. rewrite NS. by destruct (decide (s = q)).
    + intros j m s. destruct (decide (j = i)) as [->|Nj]; [|unfold has_node; by rewrite GO].
      rewrite (has_node_at st' i w'.2 m s GI), (has_node_at st i g m s G). cbn. by rewrite <- LKE.
  - split; [done|]. split.
    { apply (world_facts h gs mine i g w'); try done. intros m s Hm. cbn. rewrite <- LKE. rewrite lookup_insert_ne; [done|]. intros <-. congruence. }
    split; [done|].
    assert (NS : forall s, is_node_ptr st s -> node_shown st' s = node_shown st s).
    { intros s Hs. specialize (NH s Hs). rewrite (NH0 s Hs) in NH. by apply (inj Some) in NH. }
    split; [|split; [|split; [|exact NS]]].
    + rewrite (shown_at st' i w'.2 GI). change (p_heap st', w'.2) with w'. rewrite SV. change (view (abs (h, g))) with (view (abs (p_heap st, g))). rewrite <- (shown_at st i g G).
      unfold s_add_node, s_new_node. pose proof (s_nodes_at st i g S G) as SN.
      assert (Z : s_nodes (shown st i) !! n = None) by (by rewrite SN, lookup_fmap, L). rewrite Z. cbn [default from_option id]. by rewrite (right_id_L ∅ (∪)).
    + exists w'.2. split; [done|]. cbn. rewrite <- LKE. apply lookup_insert.
    + intros j Nj. destruct (gs !! j) as [k|] eqn:K.
      * destruct (ws_other h gs mine i g w' S G J V F X OK j k K Nj) as (_ & V2 & _). rewrite (shown_at st' j k) by (by rewrite GO). cbn [p_heap st']. rewrite V2.
        change (view (abs (h, k))) with (view (abs (p_heap st, k))). rewrite <- (shown_at st j k K).
        assert (Z : node_attrs_at w'.1 <$> hn_lookup (hg_nodes k) = s_nodes (shown st j)).
        { rewrite (s_nodes_at st j k S K). apply map_fmap_ext. intros m s Hm. destruct (has_node_facts st j m s S) as (Hs & _); [by exists k|]. specialize (NS s Hs).
          unfold node_shown in NS. cbn [p_heap st st'] in NS. unfold node_attrs_at. by rewrite NS. }
        rewrite Z. by destruct (shown st j).
      * rewrite (shown_none st' j) by (by rewrite GO). by rewrite (shown_none st j K).
Qed.
