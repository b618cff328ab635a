(** Proofs for Pool.v: graphs of which no pointers are given away do not influence each other. *)
From Coq Require Import Lia.
From Verif Require Import Base Maps Graph SpecGraph MapFacts GraphProofs HeapGraph SpecHeap HeapProofs HeapSnap HeapRange HeapEditProofs.
From Verif Require Import Direct SpecDirect DirectProofs Pool SpecPool PoolFrame PoolIndex PoolProofs PoolSteps PoolEvents PoolEvents2.

(** ** Two graphs that differ in where their nodes are kept *)
Definition like (g g' : agraph) : Prop :=
  g' = with_nodes g (g_nodes g') /\ nodes_ok (g_nodes g) /\ nodes_ok (g_nodes g') /\ nview (g_nodes g') = nview (g_nodes g) /\ oview (g_nodes g') = oview (g_nodes g).
Lemma like_view g g' : like g g' -> view g' = view g.
Proof. intros (E & _ & _ & N & O). rewrite E. apply sgraph_eq; try reflexivity; [exact N|exact O]. Qed.
Lemma like_refl g : nodes_ok (g_nodes g) -> like g g.
Proof. intros K. split; [by destruct g|done]. Qed.
Lemma like_trans g1 g2 g3 : like g1 g2 -> like g2 g3 -> like g1 g3.
Proof. intros (E1 & K1 & K2 & N1 & O1) (E2 & _ & K3 & N2 & O2). split; [rewrite E2, E1; by destruct g1|]. split; [done|]. split; [done|]. by rewrite N2, O2. Qed.
Lemma like_nodes g g' ns ns' : like g g' -> nodes_ok ns -> nodes_ok ns' -> nview ns' = nview ns -> oview ns' = oview ns -> like (with_nodes g ns) (with_nodes g' ns').
Proof. intros (E & _) K K' N O. split; [rewrite E; by destruct g|]. cbn. done. Qed.
Lemma like_rest g ns' (F : agraph -> agraph) : nodes_ok (g_nodes g) -> nodes_ok ns' -> nview ns' = nview (g_nodes g) -> oview ns' = oview (g_nodes g) ->
  F (with_nodes g ns') = with_nodes (F g) ns' -> g_nodes (F g) = g_nodes g -> like (F g) (F (with_nodes g ns')).
Proof. intros K K' N O E1 E2. rewrite E1. split; [by destruct (F g)|]. cbn. by rewrite E2. Qed.
Lemma add_attr_with g ns n f v : add_attr (with_nodes g ns) n f v = (with_nodes (add_attr g n f v).1 ns, (add_attr g n f v).2).
Proof.
  unfold add_attr. cbn [with_nodes g_name g_attrs g_subs]. destruct (str_eqb (g_name g) n); [by destruct (attrs_add _ _ _)|].
  destruct (g_subs g !! n) as [s|]; [|done]. by destruct (attrs_add _ _ _).
Qed.
Lemma add_attrs_with n l : forall g ns, add_attrs_loop (with_nodes g ns) n l = (with_nodes (add_attrs_loop g n l).1 ns, (add_attrs_loop g n l).2).
Proof.
  induction l as [|[k v] l IH]; intros g ns; cbn [add_attrs_loop]; [done|]. rewrite add_attr_with. destruct (add_attr g n k v) as [g1 [e|]]; cbn [fst snd]; [done|]. apply IH.
Qed.
Lemma like_remove g g' p n : like g g' -> like (remove_node g p n).1 (remove_node g' p n).1 /\ (remove_node g' p n).2 = (remove_node g p n).2.
Proof.
  intros L. pose proof L as (E & K & K' & N & O). unfold remove_node.
  assert (LK : is_Some (nodes_lookup (g_nodes g') !! n) <-> is_Some (nodes_lookup (g_nodes g) !! n)) by (rewrite <- !nview_lookup; by rewrite N).
  destruct (nodes_remove_spec _ n K) as [[A ->]|(A & ns & -> & B & C & D)]; destruct (nodes_remove_spec _ n K') as [[A' ->]|(A' & ns' & -> & B' & C' & D')].
  - done.
  - exfalso. apply LK in A'. rewrite A in A'. by destruct A'.
  - exfalso. apply LK in A. rewrite A' in A. by destruct A.
  - split; [|done]. assert (R : g_rels g' = g_rels g /\ g_edges g' = g_edges g) by (by rewrite E). destruct R as [R1 R2]. cbn [with_nodes with_rels with_edges g_rels g_edges fst].
    split; [rewrite R1, R2; rewrite E; by destruct g|]. cbn. split; [done|]. split; [done|]. rewrite C, C', D, D', N, O. done.
Qed.
Lemma like_remove_loop p l : forall g g', like g g' -> like (remove_nodes_loop g p l).1 (remove_nodes_loop g' p l).1 /\ (remove_nodes_loop g' p l).2 = (remove_nodes_loop g p l).2.
Proof.
  induction l as [|c l IH]; intros g g' L; cbn [remove_nodes_loop]; [done|]. destruct (like_remove g g' p c L) as [L1 R].
  destruct (remove_node g p c) as [g1 r1], (remove_node g' p c) as [g2 r2]. cbn [fst snd] in *. subst r2. destruct r1; [done|]. by apply IH.
Qed.
Lemma exec_like o c g g' : fair o -> like g g' -> like (exec o c g).1 (exec o c g').1 /\ (exec o c g').2 = (exec o c g).2.
Proof.
  intros [Fo _] L. pose proof L as (E & K & K' & N & O). destruct c as [b|b|n|s sp d dp dir m|s d dir m|p n m|p f v|p n m|p n|p n]; cbn [exec].
  - rewrite E. split; [|done]. by split.
  - rewrite E. split; [|done]. by split.
  - rewrite E. split; [|done]. by split.
  - unfold add_port_edge. rewrite E. destruct (new_attrs _); (split; [|done]); by split.
  - unfold add_edge, add_port_edge. rewrite E. destruct (new_attrs _); (split; [|done]); by split.
  - unfold add_node. destruct (new_attrs (o_attrs o 0 m)) as [a|e] eqn:A; [|done]. split; [|done]. cbn [fst with_nodes with_rels g_rels g_nodes].
    assert (R : g_rels g' = g_rels g) by (by rewrite E). split; [rewrite R, E; by destruct g|]. cbn [with_rels g_nodes].
    split; [by apply nodes_add_ok|]. split; [by apply nodes_add_ok|]. cbn [with_nodes g_nodes]. rewrite !nodes_add_nview, !nodes_add_oview by (done || apply Fo). by rewrite N, O.
  - rewrite E, add_attr_with. cbn [fst snd]. split; [|done]. split; [by destruct (add_attr g p f v).1|]. cbn [with_nodes g_nodes]. by rewrite add_attr_nodes.
  - unfold add_subgraph. rewrite E. set (g1 := with_subs (with_rels g (relations_add (g_rels g) p n)) (subs_add (g_subs (with_rels g (relations_add (g_rels g) p n))) n)).
    change (with_subs (with_rels (with_nodes g (g_nodes g')) (relations_add (g_rels (with_nodes g (g_nodes g'))) p n)) _) with (with_nodes g1 (g_nodes g')).
    rewrite add_attrs_with. cbn [fst snd]. split; [|done].
    split; [by destruct (add_attrs_loop g1 n _).1|]. cbn [with_nodes g_nodes]. by rewrite add_attrs_nodes.
  - by apply like_remove.
  - unfold remove_subgraph. assert (R : g_rels g' = g_rels g) by (by rewrite E). rewrite R. destruct (like_remove_loop p (o_names o 0 (children (g_rels g) n)) g g' L) as [L1 R1].
    destruct (remove_nodes_loop g p _) as [g1 r1], (remove_nodes_loop g' p _) as [g2 r2]. cbn [fst snd] in *. subst r2. destruct r1; [done|]. split; [|done].
    destruct L1 as (E1 & ?). rewrite E1. by split.
Qed.

(** ** A call gives a graph no pointers that were there *)
Lemma exec_lookup_back o c g x q : nodes_lookup (g_nodes (exec o c g).1) !! x = Some q -> nodes_lookup (g_nodes g) !! x = Some q \/ q = nodes_next (g_nodes g).
Proof.
  destruct c as [b|b|n|s sp d dp dir m|s d dir m|p n m|p f v|p n m|p n|p n]; cbn [exec].
  1-3: by left.
  - unfold add_port_edge. destruct (new_attrs _); by left.
  - unfold add_edge, add_port_edge. destruct (new_attrs _); by left.
  - unfold add_node. destruct (new_attrs _) as [a|e]; [|by left]. cbn. unfold nodes_add. destruct (nodes_lookup (g_nodes g) !! n) as [q'|] eqn:L; cbn; [by left|].
    intros H. apply lookup_insert_Some in H. destruct H as [[<- <-]|[_ H]]; [by right|by left].
  - rewrite add_attr_nodes. by left.
  - unfold add_subgraph. rewrite add_attrs_nodes. by left.
  - intros Q. left. destruct (remove_node_lookup g p n x) as [H|H]; congruence.
  - intros Q. left. revert Q. unfold remove_subgraph. pose proof (remove_loop_lookup p (o_names o 0 (children (g_rels g) n)) x g) as R.
    destruct (remove_nodes_loop _ _ _) as [g1 [e|]]; cbn in *; intros Q; destruct R as [R|R]; congruence.
Qed.
Lemma call_back st i g grow o c n p : psound st -> p_graphs st !! i = Some g -> fair o -> has_node (pstep (PCall i grow o c) st).1 i n p -> has_node st i n p \/ ~ is_node_ptr st p.
Proof.
  destruct st as [h gs mine]. cbn [p_graphs]. intros S G Fo. cbn [pstep]. rewrite G.
  pose proof (call_world h gs mine i g grow o c S G Fo) as (J & E & V & F & X & OK). set (C := with_contents (content_of (map (at_map h) mine)) c) in *.
  destruct (hexec grow o (with_refs (ref_of mine) c) (h, g)) as [w' r]. cbn [fst snd] in *.
  intros (k & K & L). cbn [p_graphs] in K. rewrite (insert_graph gs i i g w'.2 G), decide_True in K by done. injection K as <-.
  assert (Q : nodes_lookup (g_nodes (exec o C (abs (h, g))).1) !! n = Some p) by (rewrite <- E; by destruct w').
  apply exec_lookup_back in Q. destruct Q as [Q| ->]; [left; by exists g|right]. intros [nd N]. cbn [p_heap] in N. cbn in N.
  assert (next (nobjs h) < next (nobjs h)); [|lia]. apply (wh_nobjs _ (pi_heap _ (proj1 S))). by eexists.
Qed.

(** ** Histories of calls *)
Definition separated (st : pool) : Prop := forall i j n, i <> j -> ~ shares_node st i j n.
Lemma separated_step e st : psound st -> fair_pevent e -> only_calls e -> separated st -> separated (pstep e st).1.
Proof.
  intros S F O D. assert (Same : forall st', (forall j n p, has_node st' j n p <-> has_node st j n p) -> separated st').
  { intros st' H i j n Ne (p & A & B). apply (D i j n Ne). exists p. split; by apply H. }
  destruct e as [|m|i k v|i k|i grow o c| | | |]; try done.
  - apply Same. apply (new_step st S).
  - apply Same. apply (mf_has _ _ _ (proj2 (maps_step st (PMake m) S Logic.I))).
  - apply Same. apply (mf_has _ _ _ (proj2 (maps_step st (PSet i k v) S Logic.I))).
  - apply Same. apply (mf_has _ _ _ (proj2 (maps_step st (PDel i k) S Logic.I))).
  - destruct (p_graphs st !! i) as [g|] eqn:G; [|destruct st as [h gs mine]; cbn in *; by rewrite G].
    destruct (call_step st i g grow o c S G F) as (r & _ & CF).
    assert (K : forall j n p, j <> i -> has_node (pstep (PCall i grow o c) st).1 i n p -> has_node (pstep (PCall i grow o c) st).1 j n p -> False).
    { intros j n p Ne A B. apply (cf_has_other _ _ _ _ _ CF j n p Ne) in B. apply (call_back st i g grow o c n p S G F) in A. destruct A as [A|A].
      - apply (D i j n); [congruence|]. by exists p.
      - apply A. by destruct (has_node_facts st j n p S B) as (? & _). }
    intros a b n Ne (p & A & B). destruct (decide (a = i)) as [->|Na]; [by apply (K b n p)|]. destruct (decide (b = i)) as [->|Nb]; [by apply (K a n p)|].
    apply (D a b n Ne). exists p. split; by apply (cf_has_other _ _ _ _ _ CF).
Qed.
Lemma from_afar_none c r (s : gostr -> Prop) `{!forall n, Decision (s n)} v : (forall n, ~ s n) -> from_afar c r s v = v.
Proof. intros N. destruct c; try done. destruct r; [done|]. cbn. by rewrite decide_False. Qed.

(** What graph [i] of the pool is, and what it is without the others *)
Definition stands (st : pool) (i : nat) (g' : agraph) : Prop :=
  match p_graphs st !! i with Some g => like (abs (p_heap st, g)) g' | None => g' = new_graph end.
Lemma stands_shown st i g' : stands st i g' -> shown st i = view g'.
Proof.
  unfold stands. destruct (p_graphs st !! i) as [g|] eqn:G; [rewrite (shown_at st i g G); intros L; by rewrite (like_view _ _ L)|]. intros ->. rewrite (shown_none st i G). by rewrite view_new.
Qed.
Lemma stands_like st st' i g g1 g' : p_graphs st !! i = Some g -> p_graphs st' !! i = Some g1 -> like (abs (p_heap st', g1)) (abs (p_heap st, g)) -> stands st i g' -> stands st' i g'.
Proof. intros G G1 L. unfold stands. rewrite G, G1. by apply like_trans. Qed.
Lemma run_alone es : forall st i g', psound st -> Forall fair_pevent es -> Forall only_calls es -> separated st -> stands st i g' ->
  let R := vrun (events_of i (length (p_graphs st)) es) (g', maps_shown st) in
  stands (prun es st).1 i R.1.1 /\ R.1.2 = maps_shown (prun es st).1 /\ R.2 = results_of i es st.
Proof.
  induction es as [|e es IH]; intros st i g' S F O D L; cbn [events_of prun vrun results_of]; [done|].
  inversion F as [|? ? F1 F2]; subst. inversion O as [|? ? O1 O2]; subst. pose proof (pstep_sound e st S F1) as S1. pose proof (separated_step e st S F1 O1 D) as D1.
  assert (Maps : match e with PMake _ | PSet _ _ _ | PDel _ _ => True | _ => False end -> forall ev, (forall env, (vstep ev (g', env)) = ((g', maps_after e env), [])) ->
    let R := vrun (ev :: events_of i (length (p_graphs st)) es) (g', maps_shown st) in
    stands (prun es (pstep e st).1).1 i R.1.1 /\ R.1.2 = maps_shown (prun es (pstep e st).1).1 /\ R.2 = results_of i es (pstep e st).1).
  { intros He ev V. destruct (maps_step st e S He) as [_ MF]. cbn [vrun]. rewrite V. rewrite <- (mf_maps _ _ _ MF), <- (mf_count _ _ _ MF). destruct (mf_abs _ _ _ MF) as [GE AE].
    assert (L1 : stands (pstep e st).1 i g').
    { revert L. unfold stands. rewrite GE. destruct (p_graphs st !! i) as [g|] eqn:G; [|done]. by rewrite (AE i g G). }
    specialize (IH (pstep e st).1 i g' S1 F2 O2 D1 L1). by destruct (vrun _ _) as [? ?]. }
  destruct e as [|m|j k v|j k|j grow o c| | | |]; try done.
  - destruct (new_step st S) as (_ & _ & CN & _ & _ & _ & M & _). rewrite <- CN, <- M. cbn [app].
    assert (L1 : stands (pstep PNew st).1 i g').
    { destruct st as [h gs mine]. pose proof (pinv_new h gs mine (proj1 S)) as (P' & A & B & _). cbn [pstep] in *. destruct (h_new_graph_in h) as [h1 g1]. cbn [fst snd] in *.
      revert L. unfold stands. cbn [p_graphs p_heap]. destruct (decide (i < length gs)) as [Y|Y].
      - rewrite lookup_app_l by done. destruct (gs !! i) as [g|] eqn:G; [|done]. by rewrite (B i g G).
      - rewrite (lookup_ge_None_2 gs) by lia. intros ->. rewrite lookup_app_r by lia. destruct (decide (i = length gs)) as [->|Ne].
        + rewrite Nat.sub_diag. change (like (abs (h1, g1)) new_graph). assert (GN : (gs ++ [g1]) !! length gs = Some g1) by (rewrite lookup_app_r by lia; by rewrite Nat.sub_diag).
          pose proof (proj2 S1 (length gs) g1 GN) as OK. cbn [p_heap] in OK. split; [rewrite A; by destruct new_graph|]. split; [apply (go_nodes _ OK)|]. split; [apply (go_nodes _ (@graph_ok_new (fun _ => True)))|].
          rewrite A. split; [|reflexivity]. unfold nview. cbn [g_nodes with_nodes new_graph new_nodes nodes_lookup]. by rewrite !fmap_empty.
        + replace ([g1] !! (i - length gs)) with (@None hgraph); [done|]. symmetry. apply lookup_ge_None_2. cbn. lia. }
    specialize (IH (pstep PNew st).1 i g' S1 F2 O2 D1 L1). destruct (pstep PNew st) as [st1 r]. cbn [fst] in *. by destruct (prun es st1).
  - specialize (Maps Logic.I (EMake m) (fun _ => eq_refl)). destruct (pstep (PMake m) st) as [st1 r]. cbn [fst] in *. by destruct (prun es st1).
  - specialize (Maps Logic.I (ESet j k v) (fun _ => eq_refl)). destruct (pstep (PSet j k v) st) as [st1 r]. cbn [fst] in *. by destruct (prun es st1).
  - specialize (Maps Logic.I (EDel j k) (fun _ => eq_refl)). destruct (pstep (PDel j k) st) as [st1 r]. cbn [fst] in *. by destruct (prun es st1).
  - clear Maps. destruct (p_graphs st !! j) as [g|] eqn:G.
    + pose proof (lookup_lt_Some _ _ _ G) as Lt. destruct (call_step st j g grow o c S G F1) as (r & Er & CF).
      assert (Cm : length (p_graphs (pstep (PCall j grow o c) st).1) = length (p_graphs st)) by apply (cf_count _ _ _ _ _ CF).
      pose proof (cf_maps _ _ _ _ _ CF) as CM. cbn in F1.
      destruct st as [h gs mine]. cbn [p_graphs] in G.
      pose proof (call_world h gs mine j g grow o c S G F1) as (J & E & V & Fr & X & OK).
      destruct (decide (j = i)) as [->|Ne].
      * rewrite decide_True by done. cbn [vrun vstep].
        set (C := with_contents (content_of (map (at_map h) mine)) c) in *. change (maps_shown (Pool h gs mine)) with (map (at_map h) mine) in *. fold C.
        assert (L0 : like (abs (h, g)) g') by (unfold stands in L; cbn [p_graphs p_heap] in L; by rewrite G in L).
        destruct (exec_like o C (abs (h, g)) g' F1 L0) as [L1 R1]. rewrite <- E in L1, R1. cbn [fst snd] in L1, R1.
        cbn [pstep] in S1, D1, Er, Cm, CM |- *. rewrite G in S1, D1, Er, Cm, CM |- *. destruct (hexec grow o (with_refs (ref_of mine) c) (h, g)) as [w' r']. cbn [fst snd] in *.
        destruct (exec o C g') as [g2 r2]. cbn [fst snd] in *. subst r2.
        assert (L2 : stands (Pool w'.1 (<[i := w'.2]> gs) mine) i g2).
        { unfold stands. cbn [p_graphs p_heap]. rewrite (insert_graph gs i i g w'.2 G), decide_True by done. by destruct w'. }
        specialize (IH _ i g2 S1 F2 O2 D1 L2). rewrite Cm, CM in IH. cbn [p_graphs] in IH. change (length (p_graphs (Pool h gs mine))) with (length gs).
        destruct (vrun (events_of i (length gs) es) (g2, map (at_map h) mine)) as [? rs]. destruct (prun es (Pool w'.1 (<[i := w'.2]> gs) mine)). cbn [fst snd] in *.
        destruct IH as (? & ? & ->). done.
      * rewrite decide_False by (by intros [? _]).
        assert (L1 : stands (pstep (PCall j grow o c) (Pool h gs mine)).1 i g').
        { pose proof (cf_others _ _ _ _ _ CF i (fun H => Ne (eq_sym H))) as SO. rewrite from_afar_none in SO by (intros n; by apply D).
          cbn [pstep] in *. rewrite G in *. destruct (hexec grow o (with_refs (ref_of mine) c) (h, g)) as [w' r']. cbn [fst snd] in *.
          destruct (gs !! i) as [k|] eqn:K.
          - assert (KI : p_graphs (Pool w'.1 (<[j := w'.2]> gs) mine) !! i = Some k) by (cbn [p_graphs]; rewrite (insert_graph gs j i g w'.2 G), decide_False by congruence; done).
            eapply (stands_like (Pool h gs mine)); [exact K|exact KI| |exact L]. cbn [p_heap].
            rewrite (shown_at _ i k KI), (shown_at (Pool h gs mine) i k K) in SO. cbn [p_heap] in SO.
            pose proof (inv_of _ j g (proj1 S) G) as IG. pose proof (inv_of _ i k (proj1 S) K) as IK. cbn [p_heap] in *.
            assert (A : apart g k) by (pose proof (pi_apart _ (proj1 S) j i g k) as PA; cbn [p_graphs] in PA; by apply PA).
            pose proof (other_abs h g w' k IG IK V Fr A) as EO.
            split; [rewrite EO; by destruct (abs (h, k))|]. split; [apply (go_nodes _ (proj2 S1 i k KI))|]. split; [apply (go_nodes _ (proj2 S i k K))|].
            split; symmetry; [exact (f_equal s_nodes SO)|exact (f_equal s_order SO)].
          - unfold stands in *. cbn [p_graphs] in *. rewrite K in L. rewrite (insert_graph gs j i g w'.2 G), decide_False by congruence. by rewrite K. }
        specialize (IH _ i g' S1 F2 O2 D1 L1). rewrite Cm, CM in IH. cbn [app]. destruct (pstep (PCall j grow o c) (Pool h gs mine)) as [st1 r1]. cbn [fst snd] in *. by destruct (prun es st1).
    + assert (Sg : pstep (PCall j grow o c) st = (st, [])) by (destruct st as [h gs mine]; cbn in *; by rewrite G). rewrite Sg. cbn [fst snd].
      apply lookup_ge_None_1 in G.
      rewrite decide_False by (intros [-> ?]; lia). specialize (IH st i g' S F2 O2 D L). replace (if decide (j = i) then [] else []) with (@nil (option err)) by (by destruct (decide (j = i))).
      cbn [app]. by destruct (prun es st).
Qed.
