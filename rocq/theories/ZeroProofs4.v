(** Proofs for C74, continued: graphs without nil, what a panic leaves. *)
From Verif Require Import Base Parser Maps MapFacts Graph SpecGraph GraphProofs AttrMap Direct Zero SpecZero ZeroProofs ZeroProofs2 ZeroProofs3.

(** ** Graphs without nil *)
Lemma made_parts z : made z -> ~ nodes_nil z /\ ~ edges_nil z /\ ~ subs_nil z /\ ~ rels_nil z /\ (forall n, ~ nil_node z n) /\ (forall n, ~ nil_owner z n) /\
  z_nodes z <> None /\ z_edges z <> None /\ z_subs z <> None /\ z_rels z <> None.
Proof.
  intros ((a & A) & (ns & lk & N & K & HP & HA) & (es & m & m' & E & M & M' & HE) & (ss & sm & S0 & SM & HS) & (r & rm & rm' & R & RM & RM')).
  unfold nodes_nil, edges_nil, subs_nil, rels_nil, nil_node, nil_owner, nil_sub, node_at, sub_at. rewrite A, N, E, S0, R.
  split; [intros X; specialize (X _ eq_refl); congruence|]. split; [intros X; specialize (X _ eq_refl); destruct X; congruence|].
  split; [intros X; specialize (X _ eq_refl); congruence|]. split; [intros X; specialize (X _ eq_refl); destruct X; congruence|].
  split; [|split].
  - intros n (nd & (ns' & lk' & p & [= <-] & K' & L & D) & X). rewrite K in K'. injection K' as <-. destruct (HP _ _ L) as [nd' Hnd].
    unfold zderef in D. rewrite Hnd in D. cbn in D. subst nd'. destruct (HA _ _ Hnd). congruence.
  - intros n [[_ X]|[_ (s & (ss' & m0 & [= <-] & M0 & L) & X)]]; [discriminate|]. rewrite SM in M0. injection M0 as <-. destruct (HS _ _ L). congruence.
  - repeat split; discriminate.
Qed.
Lemma made_no_panic o c z : fair o -> made z -> (zexec o c z).2 <> Panicked.
Proof.
  intros Fo M X. apply (zexec_panics o c z Fo) in X. destruct (made_parts z M) as (H1 & H2 & H3 & H4 & H5 & H6 & H7 & H8 & H9 & H10).
  destruct c; cbn [panics] in X; try (exfalso; exact X).
  - tauto.
  - tauto.
  - destruct X as [_ [X|[[X _]|X]]]; [tauto|exact (H5 _ X)|tauto].
  - destruct X as [[_ X]|[X _]]; [tauto|exact (H6 _ X)].
  - destruct X as [X|[X|[X _]]]; [tauto|tauto|exact (H6 _ X)].
  - tauto.
  - destruct (z_rels z) as [r|]; [|contradiction]. specialize (X r eq_refl). destruct (o_names o 0 (zchildren r name)); tauto.
Qed.
Lemma made_target z t a : made z -> target_attrs z t a -> a <> None.
Proof.
  intros M. destruct (made_parts z M) as (_ & _ & _ & _ & H5 & H6 & _).
  destruct M as ((b & A) & (ns & lk & N & K & HP & HA) & (es & m & m' & E & M1 & M2 & HE) & (ss & sm & S0 & SM & HS) & _).
  destruct t as [|n|n|i|p]; cbn [target_attrs].
  - intros ->. congruence.
  - intros (s & (ss' & m0 & S' & M0 & L) & ->). rewrite S0 in S'. injection S' as <-. rewrite SM in M0. injection M0 as <-. destruct (HS _ _ L). congruence.
  - intros (nd & D & ->) X. apply (H5 n). exists nd. auto.
  - intros (e & (es' & E' & L & _) & ->). rewrite E in E'. injection E' as <-. destruct (HE e); [apply elem_of_list_lookup; eauto|congruence].
  - intros (nd & (ns' & N' & L) & ->). rewrite N in N'. injection N' as <-. destruct (HA _ _ L). congruence.
Qed.
Lemma made_no_panic_direct o d z : fair o -> made z -> zpossible z d -> (zexec_direct o d z).2 <> Panicked.
Proof.
  intros Fo M Ps X. apply (zexec_direct_panics o d z Fo Ps) in X. destruct (made_parts z M) as (H1 & H2 & H3 & H4 & H5 & H6 & H7 & H8 & H9 & H10).
  destruct d; cbn [panics_direct] in X; try tauto.
  - destruct X as [X|[X _]]; [tauto|exact (H5 _ X)].
  - destruct X as (nd & _ & [X|[X _]]); [tauto|exact (H5 _ X)].
  - destruct X as [X _]. exact (made_target z t None M X eq_refl).
Qed.

Lemma made_attrs_some o op a b r : zexec_attr o op a = (b, r) -> is_Some a -> match op with ZAssign m => is_Some m | _ => True end -> is_Some b.
Proof.
  intros H [m ->] W. destruct op as [f v|x|x|f v|f|x]; cbn [zexec_attr] in H.
  - unfold zattrs_add in H. destruct (new_attr f); cbn [zadd] in H; injection H as <- _; eauto.
  - rewrite zextend_spec in H. destruct (o_attrs _ _ _); injection H as <- _; eauto.
  - rewrite zammend_spec in H. destruct (o_attrs _ _ _); injection H as <- _; eauto.
  - injection H as <- _. eauto.
  - injection H as <- _. cbn. eauto.
  - injection H as <- _. exact W.
Qed.

Definition made_nodes (x : option znodes) : Prop :=
  exists ns lk, x = Some ns /\ zn_lookup ns = Some lk /\ (forall n p, lk !! n = Some p -> is_Some (zn_heap ns !! p)) /\
     (forall p nd, zn_heap ns !! p = Some nd -> is_Some (zn_attrs nd)).
Definition made_edges (x : option zedges) : Prop :=
  exists es m m', x = Some es /\ z_s2d es = Some m /\ z_d2s es = Some m' /\ (forall e, e ∈ ze_list es -> is_Some (ze_attrs e)).
Definition made_subs (x : option zsubs) : Prop :=
  exists ss m, x = Some ss /\ zs_map ss = Some m /\ (forall n s, m !! n = Some s -> is_Some (zs_attrs s)).
Definition made_rels (x : option zrels) : Prop := exists r m m', x = Some r /\ z_p2c r = Some m /\ z_c2p r = Some m'.
Lemma made_all z : made z <-> is_Some (z_attrs z) /\ made_nodes (z_nodes z) /\ made_edges (z_edges z) /\ made_subs (z_subs z) /\ made_rels (z_rels z).
Proof. reflexivity. Qed.

Lemma made_nodes_set ns lk p nm a : zn_lookup ns = Some lk -> (forall n q, lk !! n = Some q -> is_Some (zn_heap ns !! q)) ->
  (forall q nd, zn_heap ns !! q = Some nd -> is_Some (zn_attrs nd)) -> is_Some a ->
  made_nodes (Some (ZNodes (zn_lookup ns) (zn_list ns) (<[p := ZNode nm a]> (zn_heap ns)) (zn_next ns))).
Proof.
  intros K HP HA Ha. exists (ZNodes (zn_lookup ns) (zn_list ns) (<[p := ZNode nm a]> (zn_heap ns)) (zn_next ns)), lk. cbn [zn_lookup zn_heap]. split; [reflexivity|]. split; [exact K|]. split.
  - intros n q L. destruct (decide (q = p)) as [->|N]; [rewrite lookup_insert; eauto|rewrite lookup_insert_ne by congruence; eauto].
  - intros q nd L. destruct (decide (q = p)) as [->|N]; [rewrite lookup_insert in L; injection L as <-; exact Ha|rewrite lookup_insert_ne in L by congruence; eauto].
Qed.
Lemma znodes_add_made x n a l y r : znodes_add x n a l = (y, r) -> made_nodes x -> is_Some a -> made_nodes y.
Proof.
  intros H (ns & lk & -> & K & HP & HA) Ha. unfold znodes_add in H. rewrite K in H. cbn [default from_option id] in H. unfold id in H. destruct (lk !! n) as [p|] eqn:L.
  - rewrite zextend_spec in H. destruct (HP _ _ L) as [nd Hnd]. assert (D : zderef ns p = nd) by (unfold zderef; by rewrite Hnd). rewrite D in H. destruct (HA _ _ Hnd) as [b Hb]. rewrite Hb in H.
    rewrite <- K in H. destruct l; injection H as <- _; (eapply made_nodes_set; eauto).
  - injection H as <- _. exists (ZNodes (Some (<[n := zn_next ns]> lk)) (zn_list ns ++ [zn_next ns]) (<[zn_next ns := ZNode n a]> (zn_heap ns)) (S (zn_next ns))), (<[n := zn_next ns]> lk).
    cbn [zn_lookup zn_heap]. split; [reflexivity|]. split; [reflexivity|]. split.
    + intros n' q L'. destruct (decide (q = zn_next ns)) as [->|N]; [rewrite lookup_insert; eauto|]. rewrite lookup_insert_ne by congruence.
      destruct (decide (n' = n)) as [->|N']; [rewrite lookup_insert in L'; congruence|]. rewrite lookup_insert_ne in L' by congruence. eauto.
    + intros q nd L'. destruct (decide (q = zn_next ns)) as [->|N]; [rewrite lookup_insert in L'; injection L' as <-; exact Ha|]. rewrite lookup_insert_ne in L' by congruence. eauto.
Qed.
Lemma znodes_add_old_made ns p l y r : znodes_add_old (Some ns) p l = (y, r) -> is_Some (zn_heap ns !! p) -> made_nodes (Some ns) -> made_nodes y.
Proof.
  intros H [nd0 Hp] (ns0 & lk & [= <-] & K & HP & HA). unfold znodes_add_old in H. rewrite K in H. cbn [default from_option id] in H. unfold id in H.
  destruct (lk !! zn_name (zderef ns p)) as [q|] eqn:L.
  - rewrite zextend_spec in H. destruct (HP _ _ L) as [nd Hnd]. assert (D : zderef ns q = nd) by (unfold zderef; by rewrite Hnd). rewrite D in H. destruct (HA _ _ Hnd) as [b Hb]. rewrite Hb in H.
    rewrite <- K in H. destruct l; injection H as <- _; (eapply made_nodes_set; eauto).
  - injection H as <- _. eexists _, _. cbn [zn_lookup zn_heap]. split; [reflexivity|]. split; [reflexivity|]. split; [|exact HA].
    intros n' q L'. destruct (decide (n' = zn_name (zderef ns p))) as [->|N']; [rewrite lookup_insert in L'; injection L' as <-; eauto|]. rewrite lookup_insert_ne in L' by congruence. eauto.
Qed.
Lemma znodes_remove_made x n y r : znodes_remove x n = (y, r) -> made_nodes x -> made_nodes y.
Proof.
  intros H (ns & lk & -> & K & HP & HA). unfold znodes_remove in H.
  pose proof (znodes_remove_loop_shape ns n (zn_list ns) []) as Sh. pose proof (znodes_remove_loop_err ns n (zn_list ns) []) as Er.
  destruct (znodes_remove_loop ns n [] (zn_list ns)) as [ns' [e|]]; cbn [fst snd] in *; injection H as <- _.
  - destruct (Er _ eq_refl) as [-> _]. exists ns, lk. auto.
  - destruct (Sh eq_refl) as (a & p & b & _ & _ & ->). eexists _, (delete n lk). cbn [zn_lookup zn_heap]. split; [reflexivity|]. rewrite K. split; [reflexivity|]. split; [|exact HA].
    intros n' q L. apply lookup_delete_Some in L. destruct L as [_ L]. eauto.
Qed.
Lemma zedges_add_made x e y r : zedges_add x e = (y, r) -> made_edges x -> is_Some (ze_attrs e) -> made_edges y.
Proof.
  intros H (es & m & m' & -> & A & B & HE) He. unfold zedges_add in H. rewrite (zedges_put_ok es e m m' A B) in H. injection H as <- _.
  eexists _, _, _. cbn [z_s2d z_d2s ze_list]. split; [reflexivity|]. split; [reflexivity|]. split; [reflexivity|].
  intros x Hx. apply elem_of_app in Hx. destruct Hx as [Hx|Hx]; [eauto|]. apply elem_of_list_singleton in Hx. subst x. exact He.
Qed.
Lemma zedges_filter_made keep x y r : zedges_filter keep x = (y, r) -> made_edges x -> made_edges y.
Proof.
  intros H (es & m & m' & -> & A & B & HE). unfold zedges_filter in H.
  destruct (zfilter_ok keep (ze_list es) z_new_edges _ _ eq_refl eq_refl) as (es' & m1 & m1' & F & F1 & F2 & F3). rewrite F in H. injection H as <- _.
  exists es', m1, m1'. split; [reflexivity|]. split; [exact F1|]. split; [exact F2|]. rewrite F3. cbn [z_new_edges ze_list app]. intros e He.
  apply elem_of_list_In, filter_In in He. destruct He as [He _]. apply elem_of_list_In in He. eauto.
Qed.
Lemma zedges_set_made es i e : made_edges (Some es) -> is_Some (ze_attrs e) -> made_edges (Some (zedges_set es i e)).
Proof.
  intros (es0 & m & m' & [= <-] & A & B & HE) He. unfold zedges_set. rewrite A, B. eexists _, _, _. cbn [z_s2d z_d2s ze_list fmap option_fmap option_map]. split; [reflexivity|]. split; [reflexivity|]. split; [reflexivity|].
  intros x Hx. apply elem_of_list_lookup in Hx. destruct Hx as [j Hx]. apply list_lookup_insert_Some in Hx. destruct Hx as [(_ & <- & _)|[_ Hx]]; [exact He|].
  apply HE. apply elem_of_list_lookup. eauto.
Qed.
Lemma zsubs_add_made x n y r : zsubs_add x n = (y, r) -> made_subs x -> made_subs y.
Proof.
  intros H (ss & m & -> & M & HS). unfold zsubs_add in H. rewrite M in H. cbn [default from_option id] in H. unfold id in H. destruct (m !! n) eqn:L; injection H as <- _.
  - exists ss, m. auto.
  - eexists _, _. cbn [zs_map]. split; [reflexivity|]. split; [reflexivity|]. intros n' s L'. destruct (decide (n' = n)) as [->|N].
    + rewrite lookup_insert in L'. injection L' as <-. cbn. eauto.
    + rewrite lookup_insert_ne in L' by congruence. eauto.
Qed.
Lemma made_subs_set ss m n nm a : zs_map ss = Some m -> (forall n s, m !! n = Some s -> is_Some (zs_attrs s)) -> is_Some a ->
  made_subs (Some (ZSubs (insert n (ZSub a nm) <$> zs_map ss))).
Proof.
  intros M HS Ha. eexists _, _. cbn [zs_map]. rewrite M. split; [reflexivity|]. split; [reflexivity|]. intros n' s L'. destruct (decide (n' = n)) as [->|N].
  + rewrite lookup_insert in L'. injection L' as <-. exact Ha.
  + rewrite lookup_insert_ne in L' by congruence. eauto.
Qed.
Lemma zsubs_remove_made x n y r : zsubs_remove x n = (y, r) -> made_subs x -> made_subs y.
Proof.
  intros H (ss & m & -> & M & HS). unfold zsubs_remove in H. injection H as <- _. eexists _, _. cbn [zs_map]. rewrite M. split; [reflexivity|]. split; [reflexivity|].
  intros n' s L'. apply lookup_delete_Some in L'. destruct L' as [_ L']. eauto.
Qed.
Lemma zrels_add_made x p c y r : zrels_add x p c = (y, r) -> made_rels x -> made_rels y.
Proof. intros H (rs & m & m' & -> & A & B). unfold zrels_add in H. rewrite A in H. cbn [z_c2p z_p2c] in H. rewrite B in H. injection H as <- _. eexists _, _, _. cbn [z_p2c z_c2p]. auto. Qed.
Lemma zrels_remove_made x p c y r : zrels_remove x p c = (y, r) -> made_rels x -> made_rels y.
Proof. intros H (rs & m & m' & -> & A & B). unfold zrels_remove in H. injection H as <- _. eexists _, _, _. cbn [z_p2c z_c2p]. rewrite A, B. auto. Qed.

Lemma zremove_node_made z p c z' r : zremove_node z p c = (z', r) -> made z -> made z'.
Proof.
  rewrite !made_all. intros H (MA & MN & ME & MS & MR). unfold zremove_node in H.
  destruct (znodes_remove (z_nodes z) c) as [ns [[e|]|]] eqn:E; pose proof (znodes_remove_made _ _ _ _ E MN) as MN'.
  - injection H as <- _. auto.
  - cbn [zw_nodes z_rels] in H. destruct (zrels_remove (z_rels z) p c) as [rs [r1|]] eqn:R; pose proof (zrels_remove_made _ _ _ _ _ R MR) as MR'.
    + cbn [zw_rels z_edges zw_nodes] in H. match type of H with context [zedges_filter ?k (z_edges z)] => destruct (zedges_filter k (z_edges z)) as [es r'] eqn:F end.
      pose proof (zedges_filter_made _ _ _ _ F ME) as ME'. injection H as <- _. cbn. auto.
    + injection H as <- _. cbn. auto.
  - injection H as <- _. cbn. auto.
Qed.
Lemma zremove_nodes_loop_made l : forall z p z' r, zremove_nodes_loop z p l = (z', r) -> made z -> made z'.
Proof.
  induction l as [|c l IH]; intros z p z' r; cbn [zremove_nodes_loop]; [intros [= <- _]; auto|].
  destruct (zremove_node z p c) as [z1 [[e|]|]] eqn:E; intros H M; pose proof (zremove_node_made _ _ _ _ _ E M) as M'; [injection H as <- _; exact M'|eauto|injection H as <- _; exact M'].
Qed.
Lemma zattrs_add_some a f v b r : zattrs_add a f v = (b, r) -> is_Some a -> is_Some b.
Proof. intros H [m ->]. unfold zattrs_add in H. destruct (new_attr f); cbn [zadd] in H; injection H as <- _; eauto. Qed.
Lemma zadd_attr_made z p f v z' r : zadd_attr z p f v = (z', r) -> made z -> made z'.
Proof.
  rewrite !made_all. intros H (MA & MN & ME & MS & MR). unfold zadd_attr in H. destruct (str_eqb (z_name z) p).
  - destruct (zattrs_add (z_attrs z) f v) as [a r'] eqn:E. injection H as <- _. pose proof (zattrs_add_some _ _ _ _ _ E MA). cbn. auto.
  - destruct MS as (ss & m & S0 & SM & HS). rewrite S0 in H. rewrite SM in H. cbn [default from_option id] in H. unfold id in H. destruct (m !! p) as [s|] eqn:L.
    + destruct (zattrs_add (zs_attrs s) f v) as [a r'] eqn:E. injection H as <- _. pose proof (zattrs_add_some _ _ _ _ _ E (HS _ _ L)) as Ha. cbn [zw_subs z_attrs z_nodes z_edges z_subs z_rels].
      split; [exact MA|]. split; [exact MN|]. split; [exact ME|]. split; [|exact MR]. pose proof (made_subs_set ss m) as Q. rewrite SM in Q. apply Q; auto.
    + injection H as <- _. split; [exact MA|]. split; [exact MN|]. split; [exact ME|]. split; [|exact MR]. exists ss, m. auto.
Qed.
Lemma zadd_attrs_loop_made l : forall z n z' r, zadd_attrs_loop z n l = (z', r) -> made z -> made z'.
Proof.
  induction l as [|[k v] l IH]; intros z n z' r; cbn [zadd_attrs_loop]; [intros [= <- _]; auto|].
  destruct (zadd_attr z n k v) as [z1 [[e|]|]] eqn:E; intros H M; pose proof (zadd_attr_made _ _ _ _ _ _ E M) as M'; [injection H as <- _; exact M'|eauto|injection H as <- _; exact M'].
Qed.
Lemma zexec_made o c z z' r : zexec o c z = (z', r) -> made z -> made z'.
Proof.
  intros H M. pose proof M as M0. rewrite made_all in M0. destruct M0 as (MA & MN & ME & MS & MR).
  destruct c as [b|b|n|s sp d dp dir m|s d dir m|p n m|p f v|p n m|p n|p n]; cbn [zexec] in H.
  - injection H as <- _. exact M.
  - injection H as <- _. exact M.
  - injection H as <- _. exact M.
  - unfold zadd_port_edge in H. destruct (new_attrs _) as [a|e]; [|injection H as <- _; exact M].
    destruct (zedges_add _ _) as [es r'] eqn:E. injection H as <- _. pose proof (zedges_add_made _ _ _ _ E ME ltac:(cbn; eauto)). rewrite made_all. cbn. auto.
  - unfold zadd_port_edge in H. destruct (new_attrs _) as [a|e]; [|injection H as <- _; exact M].
    destruct (zedges_add _ _) as [es r'] eqn:E. injection H as <- _. pose proof (zedges_add_made _ _ _ _ E ME ltac:(cbn; eauto)). rewrite made_all. cbn. auto.
  - unfold zadd_node in H. destruct (new_attrs _) as [a|e]; [|injection H as <- _; exact M].
    destruct (znodes_add _ _ _ _) as [ns [r1|]] eqn:E; pose proof (znodes_add_made _ _ _ _ _ _ E MN ltac:(eauto)) as MN'.
    + cbn [zw_nodes z_rels] in H. destruct (zrels_add _ _ _) as [rs r2] eqn:R. pose proof (zrels_add_made _ _ _ _ _ R MR). injection H as <- _. rewrite made_all. cbn. auto.
    + injection H as <- _. rewrite made_all. cbn. auto.
  - eapply zadd_attr_made; eauto.
  - unfold zadd_subgraph in H. destruct (zrels_add _ _ _) as [rs [r1|]] eqn:R; pose proof (zrels_add_made _ _ _ _ _ R MR) as MR'.
    + cbn [zw_rels z_subs] in H. destruct (zsubs_add _ _) as [ss [r2|]] eqn:E; pose proof (zsubs_add_made _ _ _ _ E MS) as MS'.
      * apply zadd_attrs_loop_made in H; [exact H|]. rewrite made_all. cbn. auto.
      * injection H as <- _. rewrite made_all. cbn. auto.
    + injection H as <- _. rewrite made_all. cbn. auto.
  - eapply zremove_node_made; eauto.
  - unfold zremove_subgraph in H. destruct (z_rels z) as [r0|] eqn:R0; [|injection H as <- _; exact M].
    destruct (zremove_nodes_loop _ _ _) as [z1 [[e|]|]] eqn:E; pose proof (zremove_nodes_loop_made _ _ _ _ _ E M) as M1.
    + injection H as <- _. exact M1.
    + pose proof M1 as M2. rewrite made_all in M2. destruct M2 as (MA1 & MN1 & ME1 & MS1 & MR1).
      destruct (zrels_remove _ _ _) as [rs [r1|]] eqn:R; pose proof (zrels_remove_made _ _ _ _ _ R MR1) as MR'.
      * cbn [zw_rels z_subs] in H. destruct (zsubs_remove _ _) as [ss [r2|]] eqn:F; pose proof (zsubs_remove_made _ _ _ _ F MS1) as MS'.
        -- cbn [zw_rels zw_subs z_edges] in H. match type of H with context [zedges_filter ?k (z_edges z1)] => destruct (zedges_filter k (z_edges z1)) as [es r'] eqn:G end.
           pose proof (zedges_filter_made _ _ _ _ G ME1) as ME'. injection H as <- _. rewrite made_all. cbn. auto.
        -- injection H as <- _. rewrite made_all. cbn. auto.
      * injection H as <- _. rewrite made_all. cbn. auto.
    + injection H as <- _. exact M1.
Qed.
Lemma zexec_direct_made o d z z' r : zexec_direct o d z = (z', r) -> zpossible z d -> made_direct d -> made z -> made z'.
Proof.
  intros H Ps W M. pose proof M as M0. rewrite made_all in M0. destruct M0 as (MA & MN & ME & MS & MR).
  destruct d as [n a|p|n|e|n|n|pa ch|pa ch|t op|i sp dp dir]; cbn [zexec_direct] in H.
  - destruct (znodes_add _ _ _ _) as [x r'] eqn:E. injection H as <- _. pose proof (znodes_add_made _ _ _ _ _ _ E MN W). rewrite made_all. cbn. auto.
  - destruct Ps as (nd & ns & Z & Hp). rewrite Z in H. destruct (znodes_add_old _ _ _) as [x r'] eqn:E. injection H as <- _. rewrite Z in MN.
    pose proof (znodes_add_old_made _ _ _ _ _ E ltac:(eauto) MN). rewrite made_all. cbn. auto.
  - destruct (znodes_remove _ _) as [x r'] eqn:E. injection H as <- _. pose proof (znodes_remove_made _ _ _ _ E MN). rewrite made_all. cbn. auto.
  - destruct (zedges_add _ _) as [x r'] eqn:E. injection H as <- _. pose proof (zedges_add_made _ _ _ _ E ME W). rewrite made_all. cbn. auto.
  - destruct (zsubs_add _ _) as [x r'] eqn:E. injection H as <- _. pose proof (zsubs_add_made _ _ _ _ E MS). rewrite made_all. cbn. auto.
  - destruct (zsubs_remove _ _) as [x r'] eqn:E. injection H as <- _. pose proof (zsubs_remove_made _ _ _ _ E MS). rewrite made_all. cbn. auto.
  - destruct (zrels_add _ _ _) as [x r'] eqn:E. injection H as <- _. pose proof (zrels_add_made _ _ _ _ _ E MR). rewrite made_all. cbn. auto.
  - destruct (zrels_remove _ _ _) as [x r'] eqn:E. injection H as <- _. pose proof (zrels_remove_made _ _ _ _ _ E MR). rewrite made_all. cbn. auto.
  - assert (Wop : match op with ZAssign m => is_Some m | _ => True end) by exact W.
    destruct t as [|n|n|i|p].
    + destruct (zexec_attr o op (z_attrs z)) as [a r'] eqn:E. injection H as <- _. pose proof (made_attrs_some _ _ _ _ _ E MA Wop). rewrite made_all. cbn. auto.
    + destruct MS as (ss & m & S0 & SM & HS). destruct Ps as (a0 & s & (ss' & m' & S' & M' & L) & _). rewrite S0 in S'. injection S' as <-. rewrite SM in M'. injection M' as <-.
      rewrite S0, SM in H. cbn [default from_option id] in H. unfold id in H. rewrite L in H. destruct (zexec_attr o op (zs_attrs s)) as [a r'] eqn:E.
      pose proof (made_attrs_some _ _ _ _ _ E (HS _ _ L) Wop) as Ha. injection H as <- _. rewrite made_all. cbn [zw_subs z_attrs z_nodes z_edges z_subs z_rels].
      split; [exact MA|]. split; [exact MN|]. split; [exact ME|]. split; [|exact MR]. pose proof (made_subs_set ss m) as Q. rewrite SM in Q. apply Q; auto.
    + destruct MN as (ns & lk & N & K & HP & HA). destruct Ps as (a0 & nd & (ns' & lk' & p & N' & K' & L & D) & _). rewrite N in N'. injection N' as <-. rewrite K in K'. injection K' as <-.
      rewrite N, K in H. cbn [default from_option id] in H. unfold id in H. rewrite L in H. destruct (zexec_attr o op (zn_attrs (zderef ns p))) as [a r'] eqn:E.
      destruct (HP _ _ L) as [nd' Hnd]. assert (D' : zderef ns p = nd') by (unfold zderef; by rewrite Hnd). rewrite D' in E.
      pose proof (made_attrs_some _ _ _ _ _ E (HA _ _ Hnd) Wop) as Ha. injection H as <- _. rewrite made_all. cbn [zw_nodes z_attrs z_nodes z_edges z_subs z_rels].
      split; [exact MA|]. split; [|auto]. pose proof (made_nodes_set ns lk) as Q. rewrite K in Q. apply Q; auto.
    + pose proof ME as ME0. destruct ME as (es & m & m' & E0 & A & B & HE). destruct Ps as (a0 & e & (es' & E' & L & _) & _). rewrite E0 in E'. injection E' as <-.
      rewrite E0, L in H. destruct (zexec_attr o op (ze_attrs e)) as [a [r'|]] eqn:E; [|injection H as <- _; exact M].
      assert (He : is_Some (ze_attrs e)) by (apply HE; apply elem_of_list_lookup; eauto).
      pose proof (made_attrs_some _ _ _ _ _ E He Wop) as Ha. injection H as <- _. rewrite made_all. cbn [zw_edges z_attrs z_nodes z_edges z_subs z_rels].
      split; [exact MA|]. split; [exact MN|]. split; [|auto]. rewrite E0 in ME0. apply zedges_set_made; [exact ME0|exact Ha].
    + destruct MN as (ns & lk & N & K & HP & HA). destruct Ps as (a0 & nd & (ns' & N' & L) & _). rewrite N in N'. injection N' as <-.
      rewrite N in H. destruct (zexec_attr o op (zn_attrs (zderef ns p))) as [a r'] eqn:E. assert (D' : zderef ns p = nd) by (unfold zderef; by rewrite L). rewrite D' in E.
      pose proof (made_attrs_some _ _ _ _ _ E (HA _ _ L) Wop) as Ha. injection H as <- _. rewrite made_all. cbn [zw_nodes z_attrs z_nodes z_edges z_subs z_rels].
      split; [exact MA|]. split; [|auto]. eapply made_nodes_set; eauto.
  - destruct Ps as (e & es & E0 & L & _). rewrite E0, L in H. injection H as <- _. rewrite made_all. cbn [zw_edges z_attrs z_nodes z_edges z_subs z_rels]. split; [exact MA|]. split; [exact MN|]. split; [|auto].
    rewrite E0 in ME. apply zedges_set_made; [exact ME|]. destruct ME as (es0 & m & m' & [= <-] & _ & _ & HE). cbn [ze_attrs]. apply HE. apply elem_of_list_lookup. eauto.
Qed.
Lemma made_new : made z_new_graph.
Proof.
  split; [eexists; reflexivity|]. split.
  - exists z_new_nodes, ∅. split; [reflexivity|]. split; [reflexivity|]. split; intros ? ? X; cbn in X; rewrite lookup_empty in X; discriminate.
  - split.
    + exists z_new_edges, ∅, ∅. repeat split. intros e X. apply elem_of_nil in X. contradiction.
    + split; [|exists z_new_rels, ∅, ∅; auto]. exists z_new_subs, ∅. repeat split. intros ? ? X. rewrite lookup_empty in X. discriminate.
Qed.
Lemma fill_new : fill z_new_graph = new_graph.
Proof.
  unfold fill, new_graph. f_equal.
  - unfold z_new_graph, z_nodes, plain_nodes, z_new_nodes. cbn [zn_heap zn_lookup zn_list zn_next]. by rewrite fmap_empty.
  - apply plain_new_edges.
  - unfold z_new_graph, z_subs, plain_subs, z_new_subs. cbn [zs_map default from_option id]. unfold id. by rewrite fmap_empty.
Qed.
Lemma zbuilt_made z : zbuilt z -> made z /\ built (fill z).
Proof.
  induction 1 as [|z o c _ [M B] Fo|z o d _ [M B] Fo Ps W].
  - split; [apply made_new|]. rewrite fill_new. constructor.
  - pose proof (made_no_panic o c z Fo M) as N. destruct (zexec o c z) as [z' [r|]] eqn:E; [|contradiction]. cbn [fst]. split; [eapply zexec_made; eauto|].
    apply zexec_agrees in E. replace (fill z') with (exec o c (fill z)).1 by (by rewrite E). constructor; assumption.
  - pose proof (made_no_panic_direct o d z Fo M Ps) as N. destruct (zexec_direct o d z) as [z' [r|]] eqn:E; [|contradiction]. cbn [fst]. split; [eapply zexec_direct_made; eauto|].
    apply zexec_direct_agrees in E; [|exact Ps]. replace (fill z') with (exec_direct o (plain_direct d) (fill z)).1 by (by rewrite E). constructor; [assumption..|]. apply zpossible_possible, Ps.
Qed.
