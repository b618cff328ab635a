(** Proofs for Pool.v: what a graph on a shared heap can look like, a graph of its own can look like. *)
From Coq Require Import Lia.
From Verif Require Import Base Maps Graph SpecGraph MapFacts GraphProofs HeapGraph SpecHeap HeapProofs HeapSnap HeapRange HeapEditProofs.
From Verif Require Import Direct SpecDirect DirectProofs Pool SpecPool PoolSteps PropsGraph.

Lemma built_step o d g s : built g -> fair o -> possible g d -> view (exec_direct o d g).1 = s -> exists g', built g' /\ view g' = s.
Proof. intros B F P V. exists (exec_direct o d g).1. split; [by apply built_direct|done]. Qed.
Lemma built_start nm d st a : exists g, built g /\ view g = SGraph nm d st a ∅ [] [] ∅ ∅.
Proof.
  pose proof (built_call _ o_id (CSetStrict st) (built_call _ o_id (CSetDir d) (built_call _ o_id (CSetName nm) built_new fair_id) fair_id) fair_id) as B. cbn [exec fst] in B.
  eapply (built_step o_id (DAttrs TGraph (AAssign a)) _ _ B fair_id Logic.I). apply sgraph_eq; try reflexivity; cbn; by rewrite ?fmap_empty.
Qed.
Lemma built_nodes (nm : gostr) (d st : bool) (a : attrs) (m : gmap gostr attrs) (l : list gostr) : NoDup l -> exists (g : agraph) (mm : gmap gostr attrs), built g /\ view g = SGraph nm d st a mm l [] ∅ ∅ /\
  forall k, mm !! k = if decide (k ∈ l) then Some (default ∅ (m !! k)) else None.
Proof.
  induction l as [|n l IH] using rev_ind; intros ND.
  - destruct (built_start nm d st a) as (g & B & V). exists g, ∅. split; [done|]. split; [done|]. intros k. rewrite lookup_empty. by rewrite decide_False by apply not_elem_of_nil.
  - apply NoDup_app in ND as (ND & N1 & _). assert (Nl : n ∉ l) by (intros H; apply (N1 n H); by left). destruct (IH ND) as (g & mm & B & V & M).
    assert (OK : nodes_ok (g_nodes g)) by apply (built_ok _ B).
    assert (E : nview (g_nodes g) = mm /\ oview (g_nodes g) = l) by (split; [exact (f_equal s_nodes V)|exact (f_equal s_order V)]). destruct E as [E1 E2].
    assert (L : mm !! n = None) by (rewrite M; by rewrite decide_False).
    set (x := default ∅ (m !! n)). destruct (built_step o_id (DNodesAdd n x) g (SGraph nm d st a (<[n := x]> mm) (l ++ [n]) [] ∅ ∅) B fair_id Logic.I) as (g' & B' & V').
    + cbn [exec_direct fst]. apply sgraph_eq; [exact (f_equal s_name V)|exact (f_equal s_directed V)|exact (f_equal s_strict V)|exact (f_equal s_attrs V)| | |
        exact (f_equal s_edges V)|exact (f_equal s_subs V)|exact (f_equal s_rels V)].
      * change (nview (nodes_add (g_nodes g) n x (o_attrs o_id 0 x)) = <[n := x]> mm). rewrite nodes_add_nview by (done || apply fair_id). rewrite E1, L. cbn. by rewrite (right_id_L ∅ (∪)).
      * change (oview (nodes_add (g_nodes g) n x (o_attrs o_id 0 x)) = l ++ [n]). rewrite nodes_add_oview by done. by rewrite E1, L, E2.
    + exists g', (<[n := x]> mm). split; [done|]. split; [done|]. intros k. destruct (decide (n = k)) as [<-|Nk].
      * rewrite lookup_insert, decide_True; [done|]. apply elem_of_app. right. by left.
      * rewrite lookup_insert_ne by done. rewrite M. destruct (decide (k ∈ l)) as [Y|Y].
        -- rewrite decide_True; [done|]. apply elem_of_app. by left.
        -- rewrite decide_False; [done|]. intros H. apply elem_of_app in H as [H|H]; [done|]. by apply elem_of_list_singleton in H.
Qed.
Lemma built_edges g es : built g -> exists g', built g' /\ view g' = s_with_edges (view g) (s_edges (view g) ++ es).
Proof.
  revert g. induction es as [|e es IH]; intros g B.
  - exists g. split; [done|]. rewrite app_nil_r. by destruct (view g).
  - destruct (IH _ (built_direct g o_id (DEdgesAdd e) B fair_id Logic.I)) as (g' & B' & V'). exists g'. split; [done|]. rewrite V'. apply sgraph_eq; try reflexivity. cbn. by rewrite <- app_assoc.
Qed.
Lemma built_subs (g : agraph) (m : gmap gostr attrs) : built g -> s_subs (view g) = ∅ -> exists g', built g' /\ view g' = s_with_subs (view g) m.
Proof.
  intros B E. induction m as [|n x m Nn IH] using map_ind.
  - exists g. split; [done|]. rewrite <- E. by destruct (view g).
  - destruct IH as (g' & B' & V'). assert (L : g_subs g' !! n = None).
    { pose proof (f_equal s_subs V') as Q. cbn in Q. assert (sub_attrs <$> g_subs g' !! n = None) by (rewrite <- lookup_fmap, Q; done). by destruct (g_subs g' !! n). }
    pose proof (built_direct g' o_id (DSubGraphsAdd n) B' fair_id Logic.I) as B2. cbn [exec_direct fst] in B2.
    assert (L2 : g_subs (with_subs g' (subs_add (g_subs g') n)) !! n = Some (Sub ∅ n)) by (cbn; unfold subs_add; rewrite L; by rewrite lookup_insert).
    eapply (built_step o_id (DAttrs (TSub n) (AAssign x)) _ _ B2 fair_id); [cbn [possible]; by rewrite L2|].
    cbn [exec_direct]. rewrite L2. cbn [exec_attr fst sub_name]. pose proof (f_equal s_subs V') as Q.
    apply sgraph_eq; [exact (f_equal s_name V')|exact (f_equal s_directed V')|exact (f_equal s_strict V')|exact (f_equal s_attrs V')|exact (f_equal s_nodes V')|
      exact (f_equal s_order V')|exact (f_equal s_edges V')| |exact (f_equal s_rels V')].
    cbn in Q |- *. unfold subs_add. rewrite L, insert_insert, fmap_insert. cbn. by rewrite Q.
Qed.
Lemma built_rels (g : agraph) (r : gset (gostr * gostr)) : built g -> s_rels (view g) = ∅ -> exists g', built g' /\ view g' = s_with_rels (view g) r.
Proof.
  intros B E. induction r as [|[p c] r Nr IH] using set_ind_L.
  - exists g. split; [done|]. rewrite <- E. by destruct (view g).
  - destruct IH as (g' & B' & V'). eapply (built_step o_id (DRelationsAdd p c) _ _ B' fair_id Logic.I). cbn [exec_direct fst].
    apply sgraph_eq; [exact (f_equal s_name V')|exact (f_equal s_directed V')|exact (f_equal s_strict V')|exact (f_equal s_attrs V')|exact (f_equal s_nodes V')|
      exact (f_equal s_order V')|exact (f_equal s_edges V')|exact (f_equal s_subs V')|].
    pose proof (f_equal s_rels V') as Q. cbn in Q |- *. apply set_eq. intros [p' c']. rewrite elem_of_union, elem_of_singleton, <- Q, !elem_of_rel_pairs, rel_insert_elem. split; intros [H|H]; auto.
    + left. destruct H. by subst.
    + left. injection H as -> ->. done.
Qed.
Lemma any_built g : any_ok g -> exists g', built g' /\ view g' = view g.
Proof.
  intros OK. set (s := view g). pose proof (go_nodes _ OK) as NK.
  destruct (built_nodes (s_name s) (s_directed s) (s_strict s) (s_attrs s) (s_nodes s) (s_order s) (oview_nodup _ NK)) as (g1 & mm & B1 & V1 & M).
  assert (EM : mm = s_nodes s).
  { apply map_eq. intros k. rewrite M. pose proof (oview_in _ NK k) as OI. change (oview (g_nodes g)) with (s_order s) in OI. rewrite <- (nview_lookup _ k) in OI. change (nview (g_nodes g)) with (s_nodes s) in OI.
    destruct (decide (k ∈ s_order s)) as [Y|Y].
    - apply OI in Y as [x Hx]. by rewrite Hx.
    - destruct (s_nodes s !! k) as [x|] eqn:Hx; [|done]. exfalso. apply Y, OI. by eexists. }
  destruct (built_edges g1 (s_edges s) B1) as (g2 & B2 & V2). destruct (built_subs g2 (s_subs s) B2) as (g3 & B3 & V3); [by rewrite V2, V1|].
  destruct (built_rels g3 (s_rels s) B3) as (g4 & B4 & V4); [by rewrite V3, V2, V1|]. exists g4. split; [done|]. rewrite V4, V3, V2, V1, EM. by destruct s.
Qed.
