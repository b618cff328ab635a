(** Proofs for C74, continued: RemoveSubGraph, graphs without nil, what a panic leaves. *)
From Verif Require Import Base Parser Maps MapFacts Graph SpecGraph GraphProofs AttrMap Direct Zero SpecZero ZeroProofs ZeroProofs2.

(** What removing a node leaves alone *)
Definition keeps (z z' : zgraph) : Prop :=
  z_name z' = z_name z /\ z_directed z' = z_directed z /\ z_strict z' = z_strict z /\ z_attrs z' = z_attrs z.
Lemma znodes_remove_loop_shape ns n post : forall pre,
  (znodes_remove_loop ns n pre post).2 = None ->
  exists a p b, post = a ++ p :: b /\ zn_name (zderef ns p) = n /\
    (znodes_remove_loop ns n pre post).1 = ZNodes (delete n <$> zn_lookup ns) (pre ++ a ++ b) (zn_heap ns) (zn_next ns).
Proof.
  induction post as [|q post IH]; intros pre; cbn [znodes_remove_loop]; [discriminate|].
  destruct (str_eqb (zn_name (zderef ns q)) n) eqn:E.
  - intros _. apply str_eqb_eq in E. exists [], q, post. auto.
  - intros H. destruct (IH _ H) as (a & p & b & -> & N & R). exists (q :: a), p, b. split; [reflexivity|]. split; [exact N|]. rewrite R. by rewrite <- app_assoc.
Qed.
Lemma zremove_node_result z p c z' r : zremove_node z p c = (z', r) ->
  keeps z z' /\ z_subs z' = z_subs z /\
  ((r <> Done None -> (z_rels z' = None <-> z_rels z = None) /\ (z_edges z' = None <-> z_edges z = None)) /\
   (forall x nd, x <> c -> node_at z' x nd <-> node_at z x nd) /\
   (forall x, x <> c -> listed z' x <-> listed z x)) /\
  (r = Done None -> listed z c /\ z_rels z' <> None /\ z_edges z' <> None /\ z_nodes z' <> None) /\
  (forall e, r = Done (Some e) -> z' = z /\ ~ listed z c).
Proof.
  unfold zremove_node, keeps. destruct (z_nodes z) as [ns|] eqn:Z.
  2:{ cbn [znodes_remove]. intros [= <- <-]. replace (zw_nodes z None) with z by (destruct z; cbn in Z; subst; reflexivity).
      repeat split; auto; try discriminate; intros; try congruence. }
  cbn [znodes_remove]. pose proof (znodes_remove_loop_found ns c (zn_list ns) []) as F. pose proof (znodes_remove_loop_shape ns c (zn_list ns) []) as Sh.
  destruct (znodes_remove_loop ns c [] (zn_list ns)) as [ns' [e|]]; cbn [fst snd] in F, Sh.
  { intros [= <- <-]. split; [auto|]. split; [reflexivity|]. split; [split; [intros _; split; reflexivity|split; intros; reflexivity]|]. split; [discriminate|]. intros e' _. split; [reflexivity|].
    intros (ns0 & q & Z0 & H1 & H2). rewrite Z in Z0. injection Z0 as <-. assert (X : Some e = None) by (apply F; eauto). discriminate. }
  destruct (Sh eq_refl) as (a & q & b & Hl & Hn & Hs). clear Sh F. cbn [app] in Hs.
  assert (Li : listed z c) by (exists ns, q; rewrite Hl; split; [exact Z|split; [set_solver|exact Hn]]).
  assert (NA : forall y : zgraph, z_nodes y = Some ns' -> forall x nd, x <> c -> node_at y x nd <-> node_at z x nd).
  { intros y Y x nd N. unfold node_at. rewrite Y, Z, Hs. split.
    - intros (n0 & lk & p0 & [= <-] & K & L & D). cbn [zn_lookup] in K. destruct (zn_lookup ns) as [l0|] eqn:K0; [|discriminate]. cbn in K. injection K as <-.
      rewrite lookup_delete_ne in L by congruence. exists ns, l0, p0. auto.
    - intros (n0 & lk & p0 & [= <-] & K & L & D). exists (ZNodes (delete c <$> zn_lookup ns) (a ++ b) (zn_heap ns) (zn_next ns)), (delete c lk), p0.
      cbn [zn_lookup]. rewrite K. rewrite lookup_delete_ne by congruence. auto. }
  assert (NL : forall y : zgraph, z_nodes y = Some ns' -> forall x, x <> c -> listed y x <-> listed z x).
  { intros y Y x N. unfold listed. rewrite Y, Z, Hs. split.
    - intros (n0 & p0 & [= <-] & H1 & H2). exists ns, p0. split; [reflexivity|]. cbn [zn_list] in H1. rewrite Hl. split; [set_solver|exact H2].
    - intros (n0 & p0 & [= <-] & H1 & H2). exists (ZNodes (delete c <$> zn_lookup ns) (a ++ b) (zn_heap ns) (zn_next ns)), p0. split; [reflexivity|]. split; [|exact H2].
      cbn [zn_list]. rewrite Hl in H1. apply elem_of_app in H1. destruct H1 as [H1|H1]; [set_solver|]. apply elem_of_cons in H1. destruct H1 as [->|H1]; [|set_solver].
      congruence. }
  cbn [zw_nodes z_rels]. destruct (z_rels z) as [rl|] eqn:R; cbn [zrels_remove].
  2:{ intros [= <- <-]. cbn [zw_rels zw_nodes z_name z_directed z_strict z_attrs z_subs z_rels z_edges]. split; [auto|]. split; [reflexivity|].
      split; [split; [intros _; split; reflexivity|split; [apply NA; reflexivity|apply NL; reflexivity]]|]. split; discriminate. }
  cbn [zw_rels zw_nodes z_edges].
  match goal with |- context [zedges_filter ?k (z_edges z)] => pose proof (zedges_filter_panics k (z_edges z)) as PE; destruct (zedges_filter k (z_edges z)) as [es r'] eqn:FE end.
  intros [= <- <-]. cbn [zw_rels zw_edges zw_nodes z_name z_directed z_strict z_attrs z_subs z_rels z_edges z_nodes]. split; [auto|]. split; [reflexivity|].
  split; [split; [|split; [apply NA; reflexivity|apply NL; reflexivity]]|].
  - intros N. split; [split; discriminate|]. destruct r' as [r'|].
    + exfalso. apply (zedges_filter_agrees _ (fun e => negb (str_eqb (e_dst e) c || str_eqb (e_src e) c))) in FE; [|intros e'; reflexivity]. destruct FE as [-> _]. apply N. reflexivity.
    + cbn [snd] in PE. pose proof (proj1 PE eq_refl) as X. rewrite X in FE |- *. cbn [zedges_filter] in FE. injection FE as <-. tauto.
  - split.
    + intros ->. split; [exact Li|]. split; [discriminate|]. split; [|discriminate]. destruct (z_edges z) as [ez|]; [|discriminate]. unfold zedges_filter in FE.
      destruct (zfilter _ _ _) as [x [y|]]; [injection FE as <- _; discriminate|discriminate].
    + intros e ->. exfalso. apply (zedges_filter_agrees _ (fun e => negb (str_eqb (e_dst e) c || str_eqb (e_src e) c))) in FE; [|intros e'; reflexivity].
      destruct FE as [X _]. discriminate.
Qed.

Lemma zremove_nodes_loop_rest l : forall z p, z_nodes z <> None -> z_rels z <> None -> z_edges z <> None -> (zremove_nodes_loop z p l).2 <> Panicked.
Proof.
  induction l as [|c l IH]; intros z p A B C; cbn [zremove_nodes_loop]; [discriminate|].
  destruct (zremove_node z p c) as [z1 [[e|]|]] eqn:E; [discriminate| |].
  - destruct (zremove_node_result _ _ _ _ _ E) as (_ & _ & _ & H & _). destruct (H eq_refl) as (_ & H1 & H2 & H3). apply IH; assumption.
  - exfalso. pose proof (proj1 (zremove_node_panics z p c)) as P. rewrite E in P. specialize (P eq_refl). tauto.
Qed.
Lemma zremove_nodes_loop_result l : forall z p z' r, NoDup l -> zremove_nodes_loop z p l = (z', r) ->
  keeps z z' /\ z_subs z' = z_subs z /\
  (forall x nd, x ∉ l -> node_at z' x nd <-> node_at z x nd) /\
  (r = Done None -> (forall x, x ∈ l -> listed z x) /\ (z_rels z <> None -> z_rels z' <> None) /\
                    (z_edges z' = None <-> (l = [] /\ z_edges z = None))) /\
  (forall e, r = Done (Some e) -> exists x, x ∈ l /\ ~ listed z x).
Proof.
  induction l as [|c l IH]; intros z p z' r N; cbn [zremove_nodes_loop].
  - intros [= <- <-]. split; [repeat split|]. split; [reflexivity|]. split; [reflexivity|]. split; [|discriminate].
    intros _. split; [intros x Hx; apply elem_of_nil in Hx; contradiction|]. tauto.
  - inversion N as [|? ? Nc Nl]; subst. destruct (zremove_node z p c) as [z1 [[e|]|]] eqn:E.
    + intros [= <- <-]. destruct (zremove_node_result _ _ _ _ _ E) as (K & S0 & (_ & NA & NL) & _ & He). destruct (He _ eq_refl) as [-> Hc].
      split; [exact K|]. split; [reflexivity|]. split; [reflexivity|]. split; [discriminate|]. intros e' _. exists c. split; [left|exact Hc].
    + intros H. destruct (zremove_node_result _ _ _ _ _ E) as (K & S0 & (_ & NA & NL) & H0 & _). destruct (H0 eq_refl) as (Lc & H1 & H2 & H3).
      destruct (IH _ _ _ _ Nl H) as (K' & S1 & NA' & D & He). split; [unfold keeps in *; intuition congruence|]. split; [congruence|].
      split; [|split].
      * intros x nd Hx. apply not_elem_of_cons in Hx. destruct Hx as [Hx1 Hx2]. rewrite (NA' _ _ Hx2). apply NA, Hx1.
      * intros ->. destruct (D eq_refl) as (D1 & D2 & D3). split; [|split].
        -- intros x Hx. apply elem_of_cons in Hx. destruct Hx as [->|Hx]; [exact Lc|]. apply NL; [intros ->; contradiction|]. apply D1, Hx.
        -- auto.
        -- split; [intros X; apply D3 in X; destruct X; contradiction|intros [X _]; discriminate].
      * intros e ->. destruct (He e eq_refl) as (x & Hx & Nx). exists x. split; [by right|]. intros Lx. apply Nx. apply NL; [intros ->; contradiction|exact Lx].
    + intros [= <- <-]. destruct (zremove_node_result _ _ _ _ _ E) as (K & S0 & (_ & NA & NL) & _ & _).
      split; [exact K|]. split; [exact S0|]. split; [intros x nd Hx; apply not_elem_of_cons in Hx; destruct Hx as [Hx _]; apply NA, Hx|]. split; discriminate.
Qed.
Lemma zremove_nodes_loop_panics l z p : z_rels z <> None ->
  (zremove_nodes_loop z p l).2 = Panicked <-> match l with [] => False | c :: _ => z_nodes z = None \/ (listed z c /\ z_edges z = None) end.
Proof.
  intros R. destruct l as [|c l]; cbn [zremove_nodes_loop]; [split; [discriminate|contradiction]|].
  pose proof (zremove_node_panics z p c) as P. destruct (zremove_node z p c) as [z1 [[e|]|]] eqn:E; cbn [snd] in *.
  - split; [discriminate|]. intros H. assert (X : Done (Some e) = Panicked) by (apply P; tauto). discriminate.
  - destruct (zremove_node_result _ _ _ _ _ E) as (_ & _ & _ & H & _). destruct (H eq_refl) as (Lc & H1 & H2 & H3). split.
    + intros X. exfalso. exact (zremove_nodes_loop_rest l z1 p H3 H1 H2 X).
    + intros X. assert (Y : Done None = Panicked) by (apply P; tauto). discriminate.
  - rewrite P. tauto.
Qed.
Lemma order_nodup (o : oracle) (i : nat) (s : names) : fair o -> NoDup (o_names o i s).
Proof. intros [_ F]. rewrite (F i s). apply NoDup_elements. Qed.
Lemma order_elem (o : oracle) (i : nat) (s : names) x : fair o -> x ∈ o_names o i s <-> x ∈ s.
Proof. intros [_ F]. rewrite (F i s). apply elem_of_elements. Qed.

Lemma zremove_subgraph_panics o z p n : fair o -> (zremove_subgraph o z p n).2 = Panicked <-> panics o (CRemoveSubGraph p n) z.
Proof.
  intros Fo. unfold zremove_subgraph, panics. destruct (z_rels z) as [r0|] eqn:R0; [|cbn [snd]; split; [discriminate|reflexivity]].
  rewrite (forall_proper _ (fun r => Some r0 = Some r -> match o_names o 0 (zchildren r n) with
      | [] => z_subs z = None \/ z_edges z = None
      | c :: l => z_nodes z = None \/ (listed z c /\ z_edges z = None) \/ ((forall x, x ∈ c :: l -> listed z x) /\ z_subs z = None) end)) by reflexivity.
  set (l := o_names o 0 (zchildren r0 n)).
  assert (Nd : NoDup l) by (apply order_nodup; exact Fo).
  assert (HQ : forall Q : zrels -> Prop, (forall r, Some r0 = Some r -> Q r) <-> Q r0) by (intros Q; split; [auto|intros X r [= <-]; exact X]).
  rewrite HQ. fold l.
  assert (PL := zremove_nodes_loop_panics l z p). rewrite R0 in PL. specialize (PL ltac:(discriminate)).
  destruct (zremove_nodes_loop z p l) as [z1 [[e|]|]] eqn:E; cbn [snd] in PL.
  - cbn [snd]. destruct (zremove_nodes_loop_result _ _ _ _ _ Nd E) as (_ & _ & _ & _ & He). destruct (He e eq_refl) as (x & Hx & Nx).
    split; [discriminate|]. destruct l as [|c l']; [apply elem_of_nil in Hx; contradiction|].
    intros [X|[X|[X _]]]; [apply PL; auto|apply PL; auto|]. exfalso. exact (Nx (X x Hx)).
  - destruct (zremove_nodes_loop_result _ _ _ _ _ Nd E) as (_ & S1 & _ & D & _). destruct (D eq_refl) as (D1 & D2 & D3).
    rewrite R0 in D2. specialize (D2 ltac:(discriminate)). destruct (z_rels z1) as [r1|]; [|contradiction]. cbn [zrels_remove zw_rels z_subs].
    rewrite S1. destruct (z_subs z) as [ss|]; cbn [zsubs_remove].
    + cbn [zw_subs zw_rels z_edges].
      match goal with |- context [zedges_filter ?k (z_edges z1)] => pose proof (zedges_filter_panics k (z_edges z1)) as PE; destruct (zedges_filter k (z_edges z1)) as [es r'] eqn:FE end.
      cbn [snd] in *. rewrite PE, D3. destruct l as [|c l'].
      * split; [intros [_ X]; auto|]. intros [X|X]; [discriminate|auto].
      * split; [intros [X _]; discriminate|]. intros [X|[X|[_ X]]]; [exfalso; assert (Y : Done None = Panicked) by (apply PL; auto); discriminate..|discriminate].
    + cbn [snd]. split; [|reflexivity]. intros _. destruct l as [|c l']; [auto|]. right. right. auto.
  - cbn [snd]. split; [|reflexivity]. intros _. destruct l as [|c l']; [exfalso; apply PL; reflexivity|]. pose proof (proj1 PL eq_refl). tauto.
Qed.

Lemma zadd_port_edge_panics o z s sp d dp dir m : fair o -> (zadd_port_edge o z s sp d dp dir m).2 = Panicked <-> all_valid m /\ edges_nil z.
Proof.
  intros Fo. unfold zadd_port_edge. destruct (new_attrs_enum m (o_attrs o 0 m) (proj1 Fo 0 m)) as [[V ->]|[V (k & v & _ & _ & ->)]].
  - pose proof (zedges_add_panics z (ZEdge s sp d dp dir (Some m))) as H. destruct (zedges_add _ _). cbn [snd] in *. tauto.
  - cbn [snd]. split; [discriminate|tauto].
Qed.
Lemma zadd_node_panics o z p n m : fair o -> (zadd_node o z p n m).2 = Panicked <-> all_valid m /\ (nodes_nil z \/ (nil_node z n /\ m <> ∅) \/ rels_nil z).
Proof.
  intros Fo. unfold zadd_node. destruct (new_attrs_enum m (o_attrs o 0 m) (proj1 Fo 0 m)) as [[V ->]|[V (k & v & _ & _ & ->)]].
  - pose proof (znodes_add_panics z n (Some m) o 1 m Fo) as H. destruct (znodes_add _ _ _ _) as [ns [r|]]; cbn [snd] in *.
    + pose proof (zrels_add_panics z p n) as PR. cbn [zw_nodes z_rels]. destruct (zrels_add (z_rels z) p n) as [rs r']. cbn [snd] in *. rewrite PR. split; [auto|].
      intros [_ [X|[X|X]]]; [exfalso; assert (Y : Done r = Panicked) by (apply H; auto); discriminate..|exact X].
    + split; [|reflexivity]. intros _. split; [exact V|]. pose proof (proj1 H eq_refl). tauto.
  - cbn [snd]. split; [discriminate|tauto].
Qed.
Lemma zexec_panics o c z : fair o -> (zexec o c z).2 = Panicked <-> panics o c z.
Proof.
  intros Fo. destruct c; cbn [zexec].
  - cbn. split; [discriminate|contradiction].
  - cbn. split; [discriminate|contradiction].
  - cbn. split; [discriminate|contradiction].
  - apply zadd_port_edge_panics, Fo.
  - apply zadd_port_edge_panics, Fo.
  - apply zadd_node_panics, Fo.
  - apply zadd_attr_panics.
  - apply zadd_subgraph_panics, Fo.
  - apply zremove_node_panics.
  - apply zremove_subgraph_panics, Fo.
Qed.
