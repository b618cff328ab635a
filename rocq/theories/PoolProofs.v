(** Proofs for Pool.v: the invariant of a heap with several graphs. *)
From Coq Require Import Lia.
From Verif Require Import Base Maps Graph SpecGraph MapFacts GraphProofs HeapGraph SpecHeap HeapProofs HeapSnap HeapRange HeapEditProofs.
From Verif Require Import Direct SpecDirect DirectProofs Pool SpecPool PoolFrame PoolIndex.

(** The map of a node, edge or subgraph *)
Definition oref (h : heap) (a : owner) : option nat :=
  match a with
  | OGraph => None
  | ONode p => no_attrs <$> cells (nobjs h) !! p
  | OEdge p => eo_attrs <$> cells (eobjs h) !! p
  | OSub p => so_attrs <$> cells (sobjs h) !! p
  end.
Lemma ref_oref h g a : ref h g a = if decide (a = OGraph) then Some (hg_attrs g) else oref h a.
Proof. by destruct a. Qed.
Lemma oref_ref h g a l : oref h a = Some l -> ref h g a = Some l.
Proof. by destruct a. Qed.
Record apart (g k : hgraph) : Prop := {
  ap_attrs : hg_attrs g <> hg_attrs k;
  ap_narr : sl_arr (hn_nodes (hg_nodes g)) <> sl_arr (hn_nodes (hg_nodes k));
  ap_earr : sl_arr (he_edges (hg_edges g)) <> sl_arr (he_edges (hg_edges k));
  ap_subs : forall n m p, hg_subs g !! n = Some p -> hg_subs k !! m <> Some p }.
Lemma apart_sym g k : apart g k -> apart k g.
Proof. intros [A B C D]. constructor; auto. intros n m p E F. by eapply D. Qed.
Record gwf (h : heap) (g : hgraph) : Prop := {
  gw_nodes : wf_nodes h (hg_nodes g);
  gw_edges : wf_edges h (hg_edges g);
  gw_subs : wf_subs h (hg_subs g);
  gw_cix : cix h (hg_edges g);
  gw_attrs : hg_attrs g < next (maps h);
  gw_own : forall a, oref h a <> Some (hg_attrs g) }.
Record pinv (st : pool) : Prop := {
  pi_heap : wf_heap (p_heap st);
  pi_bound : forall a l, oref (p_heap st) a = Some l -> l < next (maps (p_heap st));
  pi_inj : forall a b l, oref (p_heap st) a = Some l -> oref (p_heap st) b = Some l -> a = b;
  pi_graph : forall i g, p_graphs st !! i = Some g -> gwf (p_heap st) g;
  pi_apart : forall i j g k, p_graphs st !! i = Some g -> p_graphs st !! j = Some k -> i <> j -> apart g k;
  pi_nodup : NoDup (p_mine st);
  pi_mine : forall l, l ∈ p_mine st -> l < next (maps (p_heap st)) /\ (forall a, oref (p_heap st) a <> Some l) /\
    forall i g, p_graphs st !! i = Some g -> hg_attrs g <> l }.

Lemma inv_of st i g : pinv st -> p_graphs st !! i = Some g -> inv (p_heap st, g).
Proof.
  intros P G. destruct (pi_graph _ P i g G) as [W1 W2 W3 W4 W5 W6]. constructor; cbn [fst snd]; try done.
  - apply P.
  - intros a l. rewrite ref_oref. destruct (decide (a = OGraph)); [by intros [= <-]|apply (pi_bound _ P)].
  - intros a b l. rewrite !ref_oref. destruct (decide (a = OGraph)) as [->|], (decide (b = OGraph)) as [->|]; intros A B; try done.
    + injection A as <-. by apply W6 in B.
    + injection B as <-. by apply W6 in A.
    + by eapply (pi_inj _ P).
Qed.
Lemma gwf_of h g : inv (h, g) -> cix h (hg_edges g) -> gwf h g.
Proof.
  intros I C. constructor; [apply (i_nodes _ I)|apply (i_edges _ I)|apply (i_subs _ I)|done|by apply (i_bound _ I OGraph)|]. intros a A.
  assert (a = OGraph) by (by apply (i_inj _ I a OGraph (hg_attrs g)); [apply (oref_ref h g)|]). by subst.
Qed.

(** *** A step of graph [i] *)
Lemma next_mono {T} (s s' : store T) : swf s -> swf s' -> (forall p x, cells s !! p = Some x -> cells s' !! p = Some x) -> next s <= next s'.
Proof.
  intros S S' E. destruct (le_lt_dec (next s) (next s')) as [L|L]; [done|]. exfalso. apply S in L as [x X]. apply E in X.
  assert (next s' < next s') by (apply S'; eauto). lia.
Qed.
Lemma arr_kept s x s' x' y : arr_frame s x s' x' -> wf_slice s y -> sl_arr x <> sl_arr y -> array s' (sl_arr y) = array s (sl_arr y).
Proof. intros (A1 & A2 & _) [L _] N. unfold array. by rewrite A2 by congruence. Qed.
Lemma frame_apart h g w' k : inv (h, g) -> frame (h, g) w' -> gwf h k -> apart g k -> apart w'.2 k.
Proof.
  intros I F [W1 W2 W3 W4 W5 W6] [A B C D]. destruct F as [F1 F2 F3 F4 F5 F6 F7]. cbn [fst snd] in *. constructor.
  - by rewrite F1.
  - destruct F2 as (_ & _ & [->|L]); [done|]. destruct (wn_slice _ _ W1). lia.
  - destruct F3 as (_ & _ & [->|L]); [done|]. destruct (we_slice _ _ W2). lia.
  - intros n m p E. apply F7 in E as [E|E]; [by eapply D|]. intros Q. apply W3 in Q as [l Q].
    assert (p < next (sobjs h)) by (apply (wh_sobjs _ (i_heap _ I)); cbn; eauto). lia.
Qed.
Lemma frame_gwf h g w' k : inv (h, g) -> inv w' -> evolves (h, g) w' -> frame (h, g) w' -> apart g k -> gwf h k -> gwf w'.1 k.
Proof.
  intros I I' V F A [W1 W2 W3 W4 W5 W6]. pose proof (i_heap _ I) as H. pose proof (i_heap _ I') as H'. cbn [fst] in H.
  pose proof (next_mono _ _ (wh_nobjs _ H) (wh_nobjs _ H') (ev_nodes _ _ V)) as LN.
  pose proof (next_mono _ _ (wh_eobjs _ H) (wh_eobjs _ H') (ev_edges _ _ V)) as LE.
  pose proof (arr_kept _ _ _ _ _ (f_narr _ _ F) (wn_slice _ _ W1) (ap_narr _ _ A)) as EN. cbn [fst] in EN.
  pose proof (arr_kept _ _ _ _ _ (f_earr _ _ F) (we_slice _ _ W2) (ap_earr _ _ A)) as EE. cbn [fst] in EE.
  constructor.
  - destruct W1 as [[X1 X2] X3 X4]. constructor.
    + split; [destruct (f_narr _ _ F); cbn [fst] in *; lia|by rewrite EN].
    + unfold elems in *. rewrite EN. eapply Forall_impl; [exact X3|]. cbn. intros p. lia.
    + intros n p E. apply X4 in E. cbn in *. lia.
  - destruct W2 as [[X1 X2] X3 X4 X5]. constructor.
    + split; [destruct (f_earr _ _ F); cbn [fst] in *; lia|by rewrite EE].
    + unfold elems in *. rewrite EE. eapply Forall_impl; [exact X3|]. cbn. intros p. lia.
    + intros a inner b l Ha Hb. eapply Forall_impl; [by eapply X4|]. cbn. intros p. lia.
    + intros a inner b l Ha Hb. eapply Forall_impl; [by eapply X5|]. cbn. intros p. lia.
  - intros n p E. destruct (W3 n p E) as [l L]. exists l. by apply (f_sobj _ _ F).
  - pose proof (proj1 (Forall_forall _ _) (we_elems _ _ W2)) as B. cbn beta in B. destruct W4 as [C1 C2].
    assert (P : ptrs w'.1 (hg_edges k) = ptrs h (hg_edges k)) by (unfold ptrs, elems; by rewrite EE).
    assert (Q : forall p, p ∈ ptrs h (hg_edges k) -> at_edge w'.1 p = at_edge h p).
    { intros p Hp. apply B, (wh_eobjs _ H) in Hp as [e E]. unfold at_edge. by rewrite E, (ev_edges _ _ V p e E). }
    constructor; rewrite P; (eapply coherent_ext; [|eassumption]); intros p Hp; unfold srcs, dsts; by rewrite Q.
  - pose proof (ev_maps _ _ V). cbn [fst] in *. lia.
  - intros a R. pose proof (ev_refs _ _ V a _ (oref_ref _ w'.2 _ _ R)) as [R'|R']; cbn [fst snd] in R'; [|lia].
    rewrite ref_oref in R'. destruct (decide (a = OGraph)) as [->|_]; [done|]. by apply W6 in R'.
Qed.
Lemma pinv_step h gs mine i g w' : pinv (Pool h gs mine) -> gs !! i = Some g -> inv w' -> evolves (h, g) w' -> frame (h, g) w' -> cix w'.1 (hg_edges w'.2) ->
  pinv (Pool w'.1 (<[i := w'.2]> gs) mine).
Proof.
  intros P G I' V F C. pose proof (inv_of _ i g P G) as I. cbn [p_heap] in I.
  assert (GS : forall j k, <[i := w'.2]> gs !! j = Some k -> (j = i /\ k = w'.2) \/ (j <> i /\ gs !! j = Some k)).
  { intros j k E. destruct (decide (j = i)) as [->|N].
    - rewrite list_lookup_insert in E by (by eapply lookup_lt_Some). injection E as <-. by left.
    - rewrite list_lookup_insert_ne in E by congruence. by right. }
  assert (R : forall a l, oref w'.1 a = Some l -> oref h a = Some l \/ next (maps h) <= l).
  { intros a l E. destruct (ev_refs _ _ V a l (oref_ref _ w'.2 _ _ E)) as [E'|E']; [|by right]. left. cbn [fst snd] in E'. rewrite ref_oref in E'.
    destruct (decide (a = OGraph)) as [->|]; done. }
  destruct P as [P1 P2 P3 P4 P5 P6 P7]. cbn [p_heap p_graphs p_mine] in *. constructor; cbn [p_heap p_graphs p_mine].
  - apply I'.
  - intros a l E. by apply (i_bound _ I' a l), (oref_ref _ _ _ _ E).
  - intros a b l E E'. apply (i_inj _ I' a b l); by apply oref_ref.
  - intros j k E. apply GS in E as [[-> ->]|[N E]].
    + destruct w' as [h' g']. by apply gwf_of.
    + apply (frame_gwf h g); try done; [|by apply (P4 j)]. by apply (P5 i j).
  - intros j1 j2 k1 k2 E1 E2 N. apply GS in E1 as [[-> ->]|[N1 E1]], E2 as [[-> ->]|[N2 E2]]; [done| | |by apply (P5 j1 j2)].
    + apply (frame_apart h g); try done; [by apply (P4 j2)|by apply (P5 i j2)].
    + apply apart_sym, (frame_apart h g); try done; [by apply (P4 j1)|by apply (P5 i j1)].
  - done.
  - intros l L. destruct (P7 l L) as (B & A & N). split; [pose proof (ev_maps _ _ V); cbn [fst] in *; lia|]. split.
    + intros a E. apply R in E as [E|E]; [by apply A in E|lia].
    + intros j k E. apply GS in E as [[-> ->]|[_ E]]; [|by apply (N j)]. rewrite (f_attrs _ _ F). by apply (N i).
Qed.
(** What the other graphs look like after that *)
Lemma other_abs h g w' k : inv (h, g) -> inv (h, k) -> evolves (h, g) w' -> frame (h, g) w' -> apart g k ->
  abs (w'.1, k) = with_nodes (abs (h, k)) (Nodes (hn_lookup (hg_nodes k)) (elems (narrs h) (hn_nodes (hg_nodes k))) (nodes_heap (g_nodes (abs w'))) (nodes_next (g_nodes (abs w')))).
Proof.
  intros I K V F A. destruct w' as [h' g']. cbn [fst]. pose proof (arr_kept _ _ _ _ _ (f_narr _ _ F) (wn_slice _ _ (i_nodes _ K)) (ap_narr _ _ A)) as EN.
  pose proof (arr_kept _ _ _ _ _ (f_earr _ _ F) (we_slice _ _ (i_edges _ K)) (ap_earr _ _ A)) as EE. cbn [fst snd] in *.
  unfold abs, with_nodes. cbn [g_attrs g_name g_directed g_strict g_nodes g_edges g_subs g_rels]. f_equal.
  - apply (ev_at _ _ V); [by apply (i_bound _ K OGraph)|]. intros a R. cbn [fst snd] in R. rewrite ref_oref in R. destruct (decide (a = OGraph)) as [->|N].
    + injection R as R. by apply ap_attrs in A.
    + apply (oref_ref h k) in R. apply (i_inj _ K a OGraph) in R; done.
  - unfold abs_nodes. cbn. f_equal. unfold elems. by rewrite EN.
  - assert (E : forall p, p < next (eobjs h) -> abs_edge h' p = abs_edge h p).
    { intros p Hp. apply (wh_eobjs _ (i_heap _ I)) in Hp as [e E]. cbn in E. apply abs_edge_ext; [rewrite E; exact (ev_edges _ _ V p e E)|].
      unfold at_edge. rewrite E. cbn. assert (R : ref h g (OEdge p) = Some (eo_attrs e)) by (cbn; by rewrite E).
      apply (ev_at _ _ V); [by apply (i_bound _ I (OEdge p))|]. intros a R'. exists p. by apply (i_inj _ I _ _ _ R' R). }
    destruct (i_edges _ K) as [W1 W2 W3 W4]. cbn [fst snd] in *. unfold abs_edges. f_equal; [by apply abs_index_ext|by apply abs_index_ext|].
    assert (X : elems (earrs h') (he_edges (hg_edges k)) = elems (earrs h) (he_edges (hg_edges k))) by (unfold elems; by rewrite EE). rewrite X. apply map_ext_Forall.
    eapply Forall_impl; [exact W2|]. exact E.
  - apply abs_subs_ext; [apply (i_subs _ K)|]. intros n p l Hn Hp. split; [by apply (f_sobj _ _ F)|].
    apply (f_subs _ _ F p (SObj l n) Hp). intros m Hm. cbn in Hm. by eapply (ap_subs _ _ A).
Qed.
(** *** Only maps change *)
Lemma gwf_maps h s k : gwf h k -> next (maps h) <= next s -> gwf (with_maps h s) k.
Proof.
  intros [W1 W2 W3 W4 W5 W6] L. constructor.
  - by destruct W1; constructor.
  - by destruct W2; constructor.
  - exact W3.
  - by destruct W4; constructor.
  - cbn. lia.
  - intros a. assert (E : oref (with_maps h s) a = oref h a) by (by destruct a). rewrite E. apply W6.
Qed.
Lemma pinv_maps h s gs mine : pinv (Pool h gs mine) -> swf s -> next (maps h) <= next s -> pinv (Pool (with_maps h s) gs mine).
Proof.
  intros [P1 P2 P3 P4 P5 P6 P7] S L. cbn [p_heap p_graphs p_mine] in *. assert (E : forall a, oref (with_maps h s) a = oref h a) by (by intros []).
  constructor; cbn [p_heap p_graphs p_mine]; try done.
  - destruct P1. by constructor.
  - intros a l. rewrite E. intros R. apply P2 in R. cbn. lia.
  - intros i g G. apply gwf_maps; [by apply (P4 i)|done].
  - intros l Hl. destruct (P7 l Hl) as (A & B & C). split; [cbn; lia|]. split; [|done]. intros a. rewrite E. apply B.
Qed.
Lemma pinv_upd h l m gs mine : pinv (Pool h gs mine) -> l < next (maps h) -> pinv (Pool (upd h l m) gs mine).
Proof. intros P L. apply pinv_maps; [done|apply swf_put; [apply (pi_heap _ P)|done]|done]. Qed.
Lemma pinv_make h m gs mine : pinv (Pool h gs mine) -> pinv (Pool (fresh_map h m) gs (mine ++ [next (maps h)])).
Proof.
  intros P. pose proof (pinv_maps h (alloc (maps h) m).1 gs mine P) as [Q1 Q2 Q3 Q4 Q5 Q6 Q7]; [apply swf_alloc, (pi_heap _ P)|cbn; lia|]. cbn [p_heap p_graphs p_mine] in *.
  constructor; cbn [p_heap p_graphs p_mine]; try done.
  - apply NoDup_app. split; [done|]. split; [|by apply NoDup_singleton]. intros l Hl Hl'. apply elem_of_list_singleton in Hl'. apply (pi_mine _ P) in Hl as [Hl _]. cbn in Hl. lia.
  - intros l Hl. apply elem_of_app in Hl as [Hl|Hl]; [by apply Q7|]. apply elem_of_list_singleton in Hl as ->. split; [cbn; lia|]. split.
    + intros a R. assert (E : oref (fresh_map h m) a = oref h a) by (by destruct a). rewrite E in R. apply (pi_bound _ P) in R. cbn in R. lia.
    + intros i g G. pose proof (gw_attrs _ _ (pi_graph _ P i g G)) as L. cbn in L. lia.
Qed.
(** *** A new graph *)
Lemma pinv_new h gs mine : pinv (Pool h gs mine) -> let r := h_new_graph_in h in pinv (Pool r.1 (gs ++ [r.2]) mine) /\ abs r = with_nodes new_graph (Nodes ∅ [] (nodes_heap (g_nodes (abs r))) (nodes_next (g_nodes (abs r)))) /\
  (forall i k, gs !! i = Some k -> abs (r.1, k) = abs (h, k)) /\ (forall l, l < next (maps h) -> at_map r.1 l = at_map h l) /\
  nobjs r.1 = nobjs h /\ eobjs r.1 = eobjs h /\ (forall i k, gs !! i = Some k -> ptrs r.1 (hg_edges k) = ptrs h (hg_edges k)).
Proof.
  intros P. unfold h_new_graph_in, new_map, h_new_edges. cbv zeta. cbn [fst snd alloc].
  set (h' := with_earrs _ _). set (g' := HGraph _ _ _ _ _ _ _ _).
  assert (MM : forall l, l < next (maps h) -> at_map h' l = at_map h l) by (intros l L; unfold at_map; cbn; rewrite lookup_insert_ne; [done|lia]).
  assert (OO : forall a, oref h' a = oref h a) by (by intros []).
  assert (AN : forall y, wf_slice (narrs h) y -> array (narrs h') (sl_arr y) = array (narrs h) (sl_arr y)) by (intros y [L _]; unfold array; cbn; rewrite lookup_insert_ne; [done|lia]).
  assert (AE : forall y, wf_slice (earrs h) y -> array (earrs h') (sl_arr y) = array (earrs h) (sl_arr y)) by (intros y [L _]; unfold array; cbn; rewrite lookup_insert_ne; [done|lia]).
  destruct P as [P1 P2 P3 P4 P5 P6 P7]. cbn [p_heap p_graphs p_mine] in *.
  assert (GS : forall j k, (gs ++ [g']) !! j = Some k -> (j = length gs /\ k = g') \/ (j < length gs /\ gs !! j = Some k)).
  { intros j k E. apply lookup_app_Some in E as [E|[L E]]; [right; split; [by eapply lookup_lt_Some|done]|]. left.
    destruct (j - length gs) as [|d] eqn:D; [|done]. injection E as <-. split; [lia|done]. }
  assert (AP : forall j k, gs !! j = Some k -> apart g' k).
  { intros j k E. destruct (P4 j k E) as [W1 W2 W3 W4 W5 W6]. destruct (wn_slice _ _ W1) as [L1 _], (we_slice _ _ W2) as [L2 _]. constructor; cbn.
    - lia.
    - lia.
    - lia.
    - intros n m p X. by rewrite lookup_empty in X. }
  split; [|split; [|split; [|split; [exact MM|split; [done|split; [done|]]]]]].
  - constructor; cbn [p_heap p_graphs p_mine]; try done.
    + destruct P1. constructor; try done.
      * by apply (swf_alloc (maps h)).
      * by apply (swf_alloc (narrs h)).
      * by apply (swf_alloc (earrs h)).
    + intros a l. rewrite OO. intros R. apply P2 in R. cbn. lia.
    + intros j k E. apply GS in E as [[-> ->]|[L E]].
      * constructor; cbn.
        -- constructor; cbn; [split; cbn; [lia|apply Nat.le_0_l]|constructor|intros n p X; by rewrite lookup_empty in X].
        -- constructor; cbn; [split; cbn; [lia|apply Nat.le_0_l]|constructor| |]; intros a inner b l X; by rewrite lookup_empty in X.
        -- intros n p X. by rewrite lookup_empty in X.
        -- constructor; unfold ptrs; cbn; intros a b; by rewrite lookup_empty.
        -- lia.
        -- intros a. rewrite OO. intros R. apply P2 in R. lia.
      * destruct (P4 j k E) as [W1 W2 W3 W4 W5 W6]. constructor.
        -- pose proof (AN _ (wn_slice _ _ W1)) as EN. destruct W1 as [[X1 X2] X3 X4]. constructor; [split; [cbn; lia|by rewrite EN]| |exact X4]. unfold elems. rewrite EN. exact X3.
        -- pose proof (AE _ (we_slice _ _ W2)) as EN. destruct W2 as [[X1 X2] X3 X4 X5]. constructor; [split; [cbn; lia|by rewrite EN]| |exact X4|exact X5]. unfold elems. rewrite EN. exact X3.
        -- exact W3.
        -- assert (X : ptrs h' (hg_edges k) = ptrs h (hg_edges k)) by (unfold ptrs, elems; rewrite AE; [done|apply W2]). destruct W4 as [C1 C2]. constructor; rewrite X; [exact C1|exact C2].
        -- cbn. lia.
        -- intros a. rewrite OO. apply W6.
    + intros j1 j2 k1 k2 E1 E2 N. apply GS in E1 as [[-> ->]|[L1 E1]], E2 as [[-> ->]|[L2 E2]]; [done|by eapply AP|apply apart_sym; by eapply AP|by apply (P5 j1 j2)].
    + intros l L. destruct (P7 l L) as (B & A & N). split; [cbn; lia|]. split; [intros a; rewrite OO; apply A|].
      intros j k E. apply GS in E as [[-> ->]|[_ E]]; [cbn; lia|by apply (N j)].
  - unfold abs, with_nodes, abs_nodes, abs_edges, abs_index, abs_subs, new_graph. cbn. rewrite !fmap_empty. unfold at_map. cbn. by rewrite lookup_insert.
  - intros j k E. destruct (P4 j k E) as [W1 W2 W3 W4 W5 W6]. unfold abs. f_equal.
    + by apply MM.
    + unfold abs_nodes. cbn [nobjs h' with_earrs with_narrs with_maps]. f_equal.
      * unfold elems. by rewrite AN by apply W1.
      * apply map_fmap_ext. intros p n Hp. unfold abs_node. rewrite MM; [done|]. apply (P2 (ONode p)). cbn. by rewrite Hp.
    + assert (E' : forall p, p < next (eobjs h) -> abs_edge h' p = abs_edge h p).
      { intros p Hp. apply (wh_eobjs _ P1) in Hp as [e He]. apply abs_edge_ext; [done|]. apply MM. unfold at_edge. rewrite He. cbn. apply (P2 (OEdge p)). cbn. by rewrite He. }
      assert (X : elems (earrs h') (he_edges (hg_edges k)) = elems (earrs h) (he_edges (hg_edges k))) by (unfold elems; rewrite AE; [done|apply W2]).
      destruct W2 as [X1 X2 X3 X4]. unfold abs_edges. rewrite X. f_equal; [by apply abs_index_ext|by apply abs_index_ext|]. apply map_ext_Forall. eapply Forall_impl; [exact X2|]. exact E'.
    + apply abs_subs_ext; [exact W3|]. intros n p l Hn Hp. split; [exact Hp|]. apply MM, (P2 (OSub p)). cbn. by rewrite Hp.
  - intros j k E. destruct (P4 j k E) as [W1 W2 W3 W4 W5 W6]. unfold ptrs, elems. rewrite AE; [done|apply W2].
Qed.
Lemma pinv_nothing : pinv nothing.
Proof.
  constructor; cbn.
  - constructor; apply swf_empty.
  - intros [|p|p|p] l; cbn; rewrite ?lookup_empty; done.
  - intros [|p|p|p] b l; cbn; rewrite ?lookup_empty; done.
  - intros i g E. by rewrite lookup_nil in E.
  - intros i j g k E. by rewrite lookup_nil in E.
  - constructor.
  - intros l L. by apply elem_of_nil in L.
Qed.
