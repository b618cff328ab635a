(** Proofs about Shared.v *)
From Verif Require Import Maps Graph SpecGraph GraphProofs Direct DirectProofs Shared SpecShared.

Lemma the_graph_some w i r : m_graphs w !! i = Some r -> the_graph w i = r.
Proof. intros H. unfold the_graph. rewrite H. reflexivity. Qed.
Lemma in_range w i : i < length (m_graphs w) -> m_graphs w !! i = Some (the_graph w i).
Proof. intros L. unfold the_graph. destruct (lookup_lt_is_Some_2 _ _ L) as [r H]. rewrite H. reflexivity. Qed.
Lemma sound_at w i : sound w -> i < length (m_graphs w) -> let r := the_graph w i in
  r_attrs r < length (m_attrs w) /\ r_nodes r < length (m_nodes w) /\ r_edges r < length (m_edges w) /\
  r_subs r < length (m_subs w) /\ r_rels r < length (m_rels w).
Proof. intros W L. apply (W i), in_range, L. Qed.

(** What a call on [i] may change. *)
Record chg (rem : bool) (w : many) (i : nat) (w' : many) : Prop := Chg {
  c_len : length (m_graphs w') = length (m_graphs w);
  c_gr : forall j, j <> i -> m_graphs w' !! j = m_graphs w !! j;
  c_ra : r_attrs (the_graph w' i) = r_attrs (the_graph w i);
  c_rn : r_nodes (the_graph w' i) = r_nodes (the_graph w i);
  c_rs : r_subs (the_graph w' i) = r_subs (the_graph w i);
  c_rr : r_rels (the_graph w' i) = r_rels (the_graph w i);
  c_a : forall r, r <> r_attrs (the_graph w i) -> m_attrs w' !! r = m_attrs w !! r;
  c_n : forall r, r <> r_nodes (the_graph w i) -> m_nodes w' !! r = m_nodes w !! r;
  c_s : forall r, r <> r_subs (the_graph w i) -> m_subs w' !! r = m_subs w !! r;
  c_r : forall r, r <> r_rels (the_graph w i) -> m_rels w' !! r = m_rels w !! r;
  c_e : if rem then (forall r, r < length (m_edges w) -> m_edges w' !! r = m_edges w !! r) /\ length (m_edges w) <= length (m_edges w') /\
             (r_edges (the_graph w' i) = r_edges (the_graph w i) \/ length (m_edges w) <= r_edges (the_graph w' i))
        else (forall r, r <> r_edges (the_graph w i) -> m_edges w' !! r = m_edges w !! r) /\ length (m_edges w') = length (m_edges w) /\
             r_edges (the_graph w' i) = r_edges (the_graph w i);
  c_la : length (m_attrs w') = length (m_attrs w); c_ln : length (m_nodes w') = length (m_nodes w);
  c_ls : length (m_subs w') = length (m_subs w); c_lr : length (m_rels w') = length (m_rels w);
  c_sound : sound w -> sound w' }.

Lemma chg_refl rem w i : chg rem w i w.
Proof. constructor; try reflexivity; try tauto. destruct rem; repeat split; auto. Qed.
Lemma chg_trans rem w i w1 w2 : chg rem w i w1 -> chg rem w1 i w2 -> chg rem w i w2.
Proof.
  intros A B. constructor.
  - rewrite (c_len _ _ _ _ B). apply A.
  - intros j D. rewrite (c_gr _ _ _ _ B) by exact D. apply A, D.
  - rewrite (c_ra _ _ _ _ B). apply A.
  - rewrite (c_rn _ _ _ _ B). apply A.
  - rewrite (c_rs _ _ _ _ B). apply A.
  - rewrite (c_rr _ _ _ _ B). apply A.
  - intros r D. rewrite (c_a _ _ _ _ B) by (rewrite (c_ra _ _ _ _ A); exact D). apply A, D.
  - intros r D. rewrite (c_n _ _ _ _ B) by (rewrite (c_rn _ _ _ _ A); exact D). apply A, D.
  - intros r D. rewrite (c_s _ _ _ _ B) by (rewrite (c_rs _ _ _ _ A); exact D). apply A, D.
  - intros r D. rewrite (c_r _ _ _ _ B) by (rewrite (c_rr _ _ _ _ A); exact D). apply A, D.
  - pose proof (c_e _ _ _ _ A) as Ea. pose proof (c_e _ _ _ _ B) as Eb. destruct rem.
    + destruct Ea as (E1 & E2 & E3), Eb as (F1 & F2 & F3). split; [|split; [lia|]].
      * intros r L. rewrite F1 by lia. apply E1, L.
      * destruct F3 as [F3|F3]; [rewrite F3; exact E3|right; lia].
    + destruct Ea as (E1 & E2 & E3), Eb as (F1 & F2 & F3). split; [|split; congruence].
      intros r D. rewrite F1 by (rewrite E3; exact D). apply E1, D.
  - rewrite (c_la _ _ _ _ B). apply A.
  - rewrite (c_ln _ _ _ _ B). apply A.
  - rewrite (c_ls _ _ _ _ B). apply A.
  - rewrite (c_lr _ _ _ _ B). apply A.
  - intros W. apply B, A, W.
Qed.

(** The primitive steps *)
Lemma put_attrs_chg rem w i x : chg rem w i (put_attrs w i x).
Proof.
  constructor; try reflexivity; cbn [put_attrs m_attrs m_nodes m_edges m_subs m_rels m_graphs].
  - intros r D. apply list_lookup_insert_ne. congruence.
  - destruct rem; repeat split; auto.
  - apply insert_length.
  - intros W j r H. cbn [put_attrs m_attrs m_nodes m_edges m_subs m_rels m_graphs] in *. rewrite insert_length. apply (W j r H).
Qed.
Lemma put_nodes_chg rem w i x : chg rem w i (put_nodes w i x).
Proof.
  constructor; try reflexivity; cbn [put_nodes m_attrs m_nodes m_edges m_subs m_rels m_graphs].
  - intros r D. apply list_lookup_insert_ne. congruence.
  - destruct rem; repeat split; auto.
  - apply insert_length.
  - intros W j r H. cbn [put_nodes m_attrs m_nodes m_edges m_subs m_rels m_graphs] in *. rewrite insert_length. apply (W j r H).
Qed.
Lemma put_subs_chg rem w i x : chg rem w i (put_subs w i x).
Proof.
  constructor; try reflexivity; cbn [put_subs m_attrs m_nodes m_edges m_subs m_rels m_graphs].
  - intros r D. apply list_lookup_insert_ne. congruence.
  - destruct rem; repeat split; auto.
  - apply insert_length.
  - intros W j r H. cbn [put_subs m_attrs m_nodes m_edges m_subs m_rels m_graphs] in *. rewrite insert_length. apply (W j r H).
Qed.
Lemma put_rels_chg rem w i x : chg rem w i (put_rels w i x).
Proof.
  constructor; try reflexivity; cbn [put_rels m_attrs m_nodes m_edges m_subs m_rels m_graphs].
  - intros r D. apply list_lookup_insert_ne. congruence.
  - destruct rem; repeat split; auto.
  - apply insert_length.
  - intros W j r H. cbn [put_rels m_attrs m_nodes m_edges m_subs m_rels m_graphs] in *. rewrite insert_length. apply (W j r H).
Qed.
Lemma put_edges_chg w i x : chg false w i (put_edges w i x).
Proof.
  constructor; try reflexivity; cbn [put_edges m_attrs m_nodes m_edges m_subs m_rels m_graphs].
  - split; [|split; [apply insert_length|reflexivity]]. intros r D. apply list_lookup_insert_ne. congruence.
  - intros W j r H. cbn [put_edges m_attrs m_nodes m_edges m_subs m_rels m_graphs] in *. rewrite insert_length. apply (W j r H).
Qed.
Lemma the_put_graph w i r : i < length (m_graphs w) -> the_graph (put_graph w i r) i = r.
Proof. intros L. apply the_graph_some. cbn [put_graph m_graphs]. apply list_lookup_insert, L. Qed.
Lemma put_graph_chg rem w i r : i < length (m_graphs w) ->
  r_attrs r = r_attrs (the_graph w i) -> r_nodes r = r_nodes (the_graph w i) -> r_edges r = r_edges (the_graph w i) ->
  r_subs r = r_subs (the_graph w i) -> r_rels r = r_rels (the_graph w i) -> chg rem w i (put_graph w i r).
Proof.
  intros L Ea En Ee Es Er. constructor; rewrite ?(the_put_graph w i r L); try assumption; try reflexivity; cbn [put_graph m_attrs m_nodes m_edges m_subs m_rels m_graphs].
  - apply insert_length.
  - intros j D. apply list_lookup_insert_ne. congruence.
  - destruct rem; repeat split; auto.
  - intros W j s H. cbn [put_graph m_attrs m_nodes m_edges m_subs m_rels m_graphs] in *. destruct (decide (j = i)) as [->|D].
    + rewrite list_lookup_insert in H by exact L. injection H as <-. rewrite Ea, En, Ee, Es, Er. apply (sound_at w i W L).
    + rewrite list_lookup_insert_ne in H by congruence. apply (W j s H).
Qed.
Lemma renew_edges_chg w i x : i < length (m_graphs w) -> chg true w i (renew_edges w i x).
Proof.
  intros L. unfold renew_edges. set (r := Gref _ _ _ _ _ _ _ _). set (w1 := Many _ _ _ _ _ _).
  assert (T : the_graph (put_graph w1 i r) i = r) by (apply the_put_graph; exact L).
  constructor; rewrite ?T; try reflexivity; cbn [put_graph m_attrs m_nodes m_edges m_subs m_rels m_graphs w1].
  - apply insert_length.
  - intros j D. apply list_lookup_insert_ne. congruence.
  - split; [|split].
    + intros s Ls. apply lookup_app_l, Ls.
    + rewrite app_length. lia.
    + right. cbn. lia.
  - intros W j s H. cbn [put_graph m_attrs m_nodes m_edges m_subs m_rels m_graphs w1] in *. rewrite app_length. destruct (decide (j = i)) as [->|D].
    + rewrite list_lookup_insert in H by exact L. injection H as <-. destruct (sound_at w i W L) as (A1 & A2 & A3 & A4 & A5). cbn. repeat split; try assumption; lia.
    + rewrite list_lookup_insert_ne in H by congruence. destruct (W j s H) as (A1 & A2 & A3 & A4 & A5). repeat split; try assumption; cbn; lia.
Qed.

(** What [i] shows after them *)
Section see.
  Context (w : many) (i : nat) (W : sound w) (L : i < length (m_graphs w)).
  Lemma see_attrs x : see (put_attrs w i x) i = with_attrs (see w i) x.
  Proof. destruct (sound_at w i W L) as (A1 & _). unfold see, with_attrs. f_equal. unfold the_attrs. cbn [put_attrs m_attrs]. change (the_graph (put_attrs w i x) i) with (the_graph w i). rewrite list_lookup_insert by exact A1. reflexivity. Qed.
  Lemma see_nodes x : see (put_nodes w i x) i = with_nodes (see w i) x.
  Proof. destruct (sound_at w i W L) as (_ & A1 & _). unfold see, with_nodes. f_equal. unfold the_nodes. cbn [put_nodes m_nodes]. change (the_graph (put_nodes w i x) i) with (the_graph w i). rewrite list_lookup_insert by exact A1. reflexivity. Qed.
  Lemma see_edges x : see (put_edges w i x) i = with_edges (see w i) x.
  Proof. destruct (sound_at w i W L) as (_ & _ & A1 & _). unfold see, with_edges. f_equal. unfold the_edges. cbn [put_edges m_edges]. change (the_graph (put_edges w i x) i) with (the_graph w i). rewrite list_lookup_insert by exact A1. reflexivity. Qed.
  Lemma see_subs x : see (put_subs w i x) i = with_subs (see w i) x.
  Proof. destruct (sound_at w i W L) as (_ & _ & _ & A1 & _). unfold see, with_subs. f_equal. unfold the_subs. cbn [put_subs m_subs]. change (the_graph (put_subs w i x) i) with (the_graph w i). rewrite list_lookup_insert by exact A1. reflexivity. Qed.
  Lemma see_rels x : see (put_rels w i x) i = with_rels (see w i) x.
  Proof. destruct (sound_at w i W L) as (_ & _ & _ & _ & A1). unfold see, with_rels. f_equal. unfold the_rels. cbn [put_rels m_rels]. change (the_graph (put_rels w i x) i) with (the_graph w i). rewrite list_lookup_insert by exact A1. reflexivity. Qed.
  Lemma see_renew x : see (renew_edges w i x) i = with_edges (see w i) x.
  Proof.
    unfold renew_edges. set (r := Gref _ _ _ _ _ _ _ _). set (w1 := Many _ _ _ _ _ _).
    assert (T : the_graph (put_graph w1 i r) i = r) by (apply the_put_graph; exact L).
    unfold see, with_edges, the_attrs, the_nodes, the_edges, the_subs, the_rels. rewrite T. cbn. f_equal.
    rewrite lookup_app_r by lia. rewrite Nat.sub_diag. reflexivity.
  Qed.
  Lemma see_put_graph r : r_attrs r = r_attrs (the_graph w i) -> r_nodes r = r_nodes (the_graph w i) -> r_edges r = r_edges (the_graph w i) ->
    r_subs r = r_subs (the_graph w i) -> r_rels r = r_rels (the_graph w i) ->
    see (put_graph w i r) i = AGraph (the_attrs w i) (r_name r) (r_directed r) (r_strict r) (the_nodes w i) (the_edges w i) (the_subs w i) (the_rels w i).
  Proof. intros E1 E2 E3 E4 E5. unfold see, the_attrs, the_nodes, the_edges, the_subs, the_rels. rewrite (the_put_graph w i r L). rewrite E1, E2, E3, E4, E5. reflexivity. Qed.
End see.

(** ** The calls: the change is bounded, and [i] shows what the call does by value *)
Definition good (rem : bool) (w : many) (i : nat) (x : many * option err) (y : agraph * option err) : Prop :=
  chg rem w i x.1 /\ see x.1 i = y.1 /\ x.2 = y.2.
Lemma good_len rem w i x : chg rem w i x -> i < length (m_graphs w) -> i < length (m_graphs x).
Proof. intros C L. rewrite (c_len _ _ _ _ C). exact L. Qed.

Lemma add_port_edge_good o w i s sp d dp dir m : sound w -> i < length (m_graphs w) ->
  good false w i (w_add_port_edge o w i s sp d dp dir m) (add_port_edge o (see w i) s sp d dp dir m).
Proof.
  intros W L. unfold w_add_port_edge, add_port_edge. destruct (new_attrs _) as [a|e]; split; cbn [fst snd].
  - apply put_edges_chg.
  - split; [apply see_edges; assumption|reflexivity].
  - apply chg_refl.
  - split; reflexivity.
Qed.
Lemma add_node_good o w i p n m : sound w -> i < length (m_graphs w) -> good false w i (w_add_node o w i p n m) (add_node o (see w i) p n m).
Proof.
  intros W L. unfold w_add_node, add_node. destruct (new_attrs _) as [a|e]; [|split; [apply chg_refl|split; reflexivity]].
  set (w1 := put_nodes w i _). assert (C : chg false w i w1) by apply put_nodes_chg. split; cbn [fst snd].
  - eapply chg_trans; [exact C|]. apply put_rels_chg.
  - split; [|reflexivity]. rewrite see_rels; [|apply C, W|eapply good_len; eassumption].
    assert (E : see w1 i = with_nodes (see w i) (nodes_add (g_nodes (see w i)) n a (o_attrs o 1 a))) by (apply see_nodes; assumption).
    change (the_rels w1 i) with (g_rels (see w1 i)). rewrite E. reflexivity.
Qed.
Lemma remove_node_good w i p n : sound w -> i < length (m_graphs w) -> good true w i (w_remove_node w i p n) (remove_node (see w i) p n).
Proof.
  intros W L. unfold w_remove_node, remove_node. change (g_nodes (see w i)) with (the_nodes w i).
  destruct (nodes_remove _ _) as [ns [e|]]; [split; [apply chg_refl|split; reflexivity]|].
  set (w1 := put_nodes w i ns). assert (C1 : chg true w i w1) by apply put_nodes_chg.
  assert (E1 : see w1 i = with_nodes (see w i) ns) by (apply see_nodes; assumption).
  change (the_rels w1 i) with (g_rels (see w1 i)).
  set (w2 := put_rels w1 i _). assert (C2 : chg true w i w2) by (eapply chg_trans; [exact C1|apply put_rels_chg]).
  assert (E2 : see w2 i = with_rels (with_nodes (see w i) ns) (relations_remove (g_rels (with_nodes (see w i) ns)) p n)).
  { unfold w2. rewrite see_rels; [|apply C1, W|eapply good_len; eassumption]. rewrite E1. reflexivity. }
  change (the_edges w2 i) with (g_edges (see w2 i)). split; cbn [fst snd].
  - eapply chg_trans; [exact C2|]. apply renew_edges_chg. eapply good_len; eassumption.
  - split; [|reflexivity]. rewrite see_renew by (eapply good_len; eassumption). rewrite E2. reflexivity.
Qed.
Lemma add_attr_good rem w i p f v : sound w -> i < length (m_graphs w) -> good rem w i (w_add_attr w i p f v) (add_attr (see w i) p f v).
Proof.
  intros W L. unfold w_add_attr, add_attr. change (g_name (see w i)) with (r_name (the_graph w i)). change (g_subs (see w i)) with (the_subs w i).
  change (g_attrs (see w i)) with (the_attrs w i).
  destruct (str_eqb _ _).
  - destruct (attrs_add _ _ _) as [a e]. split; cbn [fst snd]; [apply put_attrs_chg|]. split; [apply see_attrs; assumption|reflexivity].
  - destruct (the_subs w i !! p) as [sb|]; [|split; [apply chg_refl|split; reflexivity]].
    destruct (attrs_add _ _ _) as [a e]. split; cbn [fst snd]; [apply put_subs_chg|]. split; [apply see_subs; assumption|reflexivity].
Qed.
Lemma add_attrs_loop_good rem i n l : forall w, sound w -> i < length (m_graphs w) -> good rem w i (w_add_attrs_loop w i n l) (add_attrs_loop (see w i) n l).
Proof.
  induction l as [|[k v] l IH]; intros w W L; cbn [w_add_attrs_loop add_attrs_loop]; [split; [apply chg_refl|split; reflexivity]|].
  destruct (add_attr_good rem w i n k v W L) as (C & E & R). destruct (w_add_attr w i n k v) as [w1 e], (add_attr (see w i) n k v) as [g1 e']. cbn [fst snd] in *. subst e' g1.
  destruct e as [e|]; [split; [exact C|split; reflexivity]|].
  destruct (IH w1) as (C' & E' & R'); [apply C, W|eapply good_len; eassumption|]. split; [eapply chg_trans; eassumption|]. split; assumption.
Qed.
Lemma add_subgraph_good o w i p n m : sound w -> i < length (m_graphs w) -> good false w i (w_add_subgraph o w i p n m) (add_subgraph o (see w i) p n m).
Proof.
  intros W L. unfold w_add_subgraph, add_subgraph. change (the_rels w i) with (g_rels (see w i)).
  set (w1 := put_rels w i _). assert (C1 : chg false w i w1) by apply put_rels_chg.
  assert (E1 : see w1 i = with_rels (see w i) (relations_add (g_rels (see w i)) p n)) by (apply see_rels; assumption).
  change (the_subs w1 i) with (g_subs (see w1 i)).
  set (w2 := put_subs w1 i _). assert (C2 : chg false w i w2) by (eapply chg_trans; [exact C1|apply put_subs_chg]).
  assert (E2 : see w2 i = with_subs (see w1 i) (subs_add (g_subs (see w1 i)) n)).
  { unfold w2. apply see_subs; [apply C1, W|eapply good_len; eassumption]. }
  rewrite E1 in E2. rewrite <- E2.
  destruct (add_attrs_loop_good false i n (o_attrs o 0 m) w2) as (C3 & E3); [apply C2, W|eapply good_len; eassumption|]. split; [eapply chg_trans; eassumption|exact E3].
Qed.
Lemma remove_nodes_loop_good i p l : forall w, sound w -> i < length (m_graphs w) -> good true w i (w_remove_nodes_loop w i p l) (remove_nodes_loop (see w i) p l).
Proof.
  induction l as [|c l IH]; intros w W L; cbn [w_remove_nodes_loop remove_nodes_loop]; [split; [apply chg_refl|split; reflexivity]|].
  destruct (remove_node_good w i p c W L) as (C & E & R). destruct (w_remove_node w i p c) as [w1 e], (remove_node (see w i) p c) as [g1 e']. cbn [fst snd] in *. subst e' g1.
  destruct e as [e|]; [split; [exact C|split; reflexivity]|].
  destruct (IH w1) as (C' & E' & R'); [apply C, W|eapply good_len; eassumption|]. split; [eapply chg_trans; eassumption|]. split; assumption.
Qed.
Lemma remove_subgraph_good o w i p n : sound w -> i < length (m_graphs w) -> good true w i (w_remove_subgraph o w i p n) (remove_subgraph o (see w i) p n).
Proof.
  intros W L. unfold w_remove_subgraph, remove_subgraph. change (the_rels w i) with (g_rels (see w i)).
  destruct (remove_nodes_loop_good i p (o_names o 0 (children (g_rels (see w i)) n)) w W L) as (C & E & R).
  destruct (w_remove_nodes_loop _ _ _ _) as [w1 e], (remove_nodes_loop _ _ _) as [g1 e']. cbn [fst snd] in *. subst e' g1.
  destruct e as [e|]; [split; [exact C|split; reflexivity]|]. change (the_rels w1 i) with (g_rels (see w1 i)).
  pose proof (c_sound _ _ _ _ C W) as W1. pose proof (good_len _ _ _ _ C L) as L1.
  set (w2 := put_rels w1 i _). assert (C2 : chg true w1 i w2) by apply put_rels_chg.
  assert (E2 : see w2 i = with_rels (see w1 i) (relations_remove (g_rels (see w1 i)) p n)) by (apply see_rels; assumption).
  change (the_subs w2 i) with (g_subs (see w2 i)).
  set (w3 := put_subs w2 i _). assert (C3 : chg true w1 i w3) by (eapply chg_trans; [exact C2|apply put_subs_chg]).
  assert (E3 : see w3 i = with_subs (see w2 i) (delete n (g_subs (see w2 i)))).
  { unfold w3. apply see_subs; [apply C2, W1|eapply good_len; eassumption]. }
  change (the_edges w3 i) with (g_edges (see w3 i)). split; cbn [fst snd].
  - eapply chg_trans; [exact C|]. eapply chg_trans; [exact C3|]. apply renew_edges_chg. eapply good_len; eassumption.
  - split; [|reflexivity]. rewrite see_renew by (eapply good_len; eassumption). rewrite E3, E2. reflexivity.
Qed.
Lemma exec_good o c w i : sound w -> i < length (m_graphs w) -> good (removal c) w i (w_exec o c w i) (exec o c (see w i)).
Proof.
  intros W L. destruct c; cbn [w_exec exec removal].
  - split; cbn [fst snd]; [apply put_graph_chg; auto|]. split; [|reflexivity]. unfold w_set_strict. rewrite see_put_graph by auto. reflexivity.
  - split; cbn [fst snd]; [apply put_graph_chg; auto|]. split; [|reflexivity]. unfold w_set_dir. rewrite see_put_graph by auto. reflexivity.
  - split; cbn [fst snd]; [apply put_graph_chg; auto|]. split; [|reflexivity]. unfold w_set_name. rewrite see_put_graph by auto. reflexivity.
  - apply add_port_edge_good; assumption.
  - apply add_port_edge_good; assumption.
  - apply add_node_good; assumption.
  - apply add_attr_good; assumption.
  - apply add_subgraph_good; assumption.
  - apply remove_node_good; assumption.
  - apply remove_subgraph_good; assumption.
Qed.

(** ** Other graphs *)
Lemma the_other rem w i w' j : chg rem w i w' -> j <> i -> the_graph w' j = the_graph w j.
Proof. intros C D. unfold the_graph. rewrite (c_gr _ _ _ _ C j D). reflexivity. Qed.
Lemma chg_mixed rem w i w' j : sound w -> i < length (m_graphs w) -> j < length (m_graphs w) -> j <> i -> chg rem w i w' ->
  see w' j = mixed w i j rem (see w j) (see w' i).
Proof.
  intros W L Lj D C. unfold mixed, see. cbn [g_attrs g_name g_directed g_strict g_nodes g_edges g_subs g_rels].
  unfold the_attrs, the_nodes, the_edges, the_subs, the_rels. rewrite (the_other _ _ _ _ _ C D).
  destruct (sound_at w j W Lj) as (_ & _ & A3 & _). f_equal.
  - destruct (decide _) as [S1|S1]; unfold shares in S1; cbn [ref_of] in S1.
    + rewrite (c_ra _ _ _ _ C), S1. reflexivity.
    + rewrite (c_a _ _ _ _ C) by congruence. reflexivity.
  - destruct (decide _) as [S1|S1]; unfold shares in S1; cbn [ref_of] in S1.
    + rewrite (c_rn _ _ _ _ C), S1. reflexivity.
    + rewrite (c_n _ _ _ _ C) by congruence. reflexivity.
  - pose proof (c_e _ _ _ _ C) as E. destruct (decide _) as [S1|S1]; unfold shares in S1; cbn [ref_of] in S1; destruct rem; destruct E as (E1 & E2 & E3).
    + rewrite E1 by exact A3. reflexivity.
    + rewrite E3, S1. reflexivity.
    + rewrite E1 by exact A3. reflexivity.
    + rewrite E1 by congruence. reflexivity.
  - destruct (decide _) as [S1|S1]; unfold shares in S1; cbn [ref_of] in S1.
    + rewrite (c_rs _ _ _ _ C), S1. reflexivity.
    + rewrite (c_s _ _ _ _ C) by congruence. reflexivity.
  - destruct (decide _) as [S1|S1]; unfold shares in S1; cbn [ref_of] in S1.
    + rewrite (c_rr _ _ _ _ C), S1. reflexivity.
    + rewrite (c_r _ _ _ _ C) by congruence. reflexivity.
Qed.
(** Sharing after a call *)
Lemma chg_shares rem w i w' p j k : sound w -> j < length (m_graphs w) -> k < length (m_graphs w) -> chg rem w i w' -> (p = PEdges -> rem = false) ->
  (shares p w' j k <-> shares p w j k).
Proof.
  intros W Lj Lk C N. assert (R : forall x, x < length (m_graphs w) -> ref_of p (the_graph w' x) = ref_of p (the_graph w x)).
  { intros x Lx. destruct (decide (x = i)) as [->|D]; [|rewrite (the_other _ _ _ _ _ C D); reflexivity].
    destruct p; cbn [ref_of]; try apply C. pose proof (c_e _ _ _ _ C) as E. rewrite (N eq_refl) in E. apply E. }
  unfold shares. rewrite !R by assumption. reflexivity.
Qed.
Lemma chg_shares_edges w i w' j k : sound w -> j < length (m_graphs w) -> k < length (m_graphs w) -> chg true w i w' ->
  shares PEdges w' j k -> shares PEdges w j k.
Proof.
  intros W Lj Lk C H. unfold shares in *. cbn [ref_of] in *. pose proof (c_e _ _ _ _ C) as (E1 & E2 & E3).
  destruct (sound_at w j W Lj) as (_ & _ & Aj & _). destruct (sound_at w k W Lk) as (_ & _ & Ak & _).
  destruct (decide (j = i)) as [->|Dj], (decide (k = i)) as [->|Dk]; rewrite ?(the_other _ _ _ _ j C Dj), ?(the_other _ _ _ _ k C Dk) in H; try congruence.
  - destruct E3 as [E3|E3]; [congruence|lia].
  - destruct E3 as [E3|E3]; [congruence|lia].
Qed.

(** A removal that succeeds leaves [i] with edges of its own. *)
Lemma renew_ref w i x : i < length (m_graphs w) -> r_edges (the_graph (renew_edges w i x) i) = length (m_edges w).
Proof. intros L. unfold renew_edges. rewrite the_put_graph by exact L. reflexivity. Qed.
Lemma removed_own o c w i : sound w -> i < length (m_graphs w) -> removal c = true -> (w_exec o c w i).2 = None ->
  length (m_edges w) <= r_edges (the_graph (w_exec o c w i).1 i).
Proof.
  intros W L R H. destruct c; try discriminate R; cbn [w_exec] in *.
  - unfold w_remove_node in *. destruct (nodes_remove _ _) as [ns [e|]]; [discriminate H|]. cbn [fst]. rewrite renew_ref by exact L. reflexivity.
  - unfold w_remove_subgraph in *. destruct (remove_nodes_loop_good i parent (o_names o 0 (children (the_rels w i) name)) w W L) as (C & _).
    destruct (w_remove_nodes_loop _ _ _ _) as [w1 [e|]]; [discriminate H|]. cbn [fst] in *. rewrite renew_ref; [|exact (good_len _ _ _ _ C L)].
    cbn [put_subs put_rels m_edges]. apply (c_e _ _ _ _ C).
Qed.

(** ** New graphs, copies, assignments *)
Definition grown (w w' : many) : Prop :=
  (forall i, i < length (m_graphs w) -> m_graphs w' !! i = m_graphs w !! i) /\
  (forall r, r < length (m_attrs w) -> m_attrs w' !! r = m_attrs w !! r) /\ (forall r, r < length (m_nodes w) -> m_nodes w' !! r = m_nodes w !! r) /\
  (forall r, r < length (m_edges w) -> m_edges w' !! r = m_edges w !! r) /\ (forall r, r < length (m_subs w) -> m_subs w' !! r = m_subs w !! r) /\
  (forall r, r < length (m_rels w) -> m_rels w' !! r = m_rels w !! r).
Lemma grown_see w w' i : sound w -> grown w w' -> i < length (m_graphs w) -> the_graph w' i = the_graph w i /\ see w' i = see w i.
Proof.
  intros W (G0 & G1 & G2 & G3 & G4 & G5) L. assert (T : the_graph w' i = the_graph w i) by (unfold the_graph; rewrite G0 by exact L; reflexivity).
  split; [exact T|]. destruct (sound_at w i W L) as (A1 & A2 & A3 & A4 & A5). unfold see, the_attrs, the_nodes, the_edges, the_subs, the_rels. rewrite T.
  rewrite G1, G2, G3, G4, G5 by assumption. reflexivity.
Qed.
Lemma grown_new w : grown w (w_new w).
Proof. repeat split; intros r L; apply lookup_app_l, L. Qed.
Lemma grown_copy w i : grown w (w_copy w i).
Proof. repeat split; intros r L; try reflexivity. apply lookup_app_l, L. Qed.

Lemma sound_new w : sound w -> sound (w_new w).
Proof.
  intros W j r H. cbn [w_new m_graphs m_attrs m_nodes m_edges m_subs m_rels] in *. rewrite !app_length. cbn [length]. apply lookup_app_Some in H. destruct H as [H|[L H]].
  - destruct (W j r H) as (A1 & A2 & A3 & A4 & A5). repeat split; lia.
  - apply list_lookup_singleton_Some in H. destruct H as [_ <-]. cbn. repeat split; lia.
Qed.
Lemma sound_copy w i : sound w -> i < length (m_graphs w) -> sound (w_copy w i).
Proof.
  intros W L j r H. cbn [w_copy m_graphs m_attrs m_nodes m_edges m_subs m_rels] in *. apply lookup_app_Some in H. destruct H as [H|[Lj H]].
  - apply (W j r H).
  - apply list_lookup_singleton_Some in H. destruct H as [_ <-]. apply (sound_at w i W L).
Qed.
Lemma the_new w : the_graph (w_new w) (length (m_graphs w)) =
  Gref [] false false (length (m_attrs w)) (length (m_nodes w)) (length (m_edges w)) (length (m_subs w)) (length (m_rels w)).
Proof. apply the_graph_some. cbn [w_new m_graphs]. rewrite lookup_app_r by lia. rewrite Nat.sub_diag. reflexivity. Qed.
Lemma see_new w : see (w_new w) (length (m_graphs w)) = new_graph.
Proof.
  unfold see, the_attrs, the_nodes, the_edges, the_subs, the_rels. rewrite the_new. cbn [w_new m_attrs m_nodes m_edges m_subs m_rels r_name r_directed r_strict r_attrs r_nodes r_edges r_subs r_rels].
  rewrite !lookup_app_r by lia. rewrite !Nat.sub_diag. reflexivity.
Qed.
Lemma the_copy w i : the_graph (w_copy w i) (length (m_graphs w)) = the_graph w i.
Proof. apply the_graph_some. cbn [w_copy m_graphs]. rewrite lookup_app_r by lia. rewrite Nat.sub_diag. reflexivity. Qed.
Lemma see_copy w i : see (w_copy w i) (length (m_graphs w)) = see w i.
Proof. unfold see, the_attrs, the_nodes, the_edges, the_subs, the_rels. rewrite the_copy. reflexivity. Qed.

Lemma see_assign w p i j : i < length (m_graphs w) -> see (w_assign w p i j) i = take_part p (see w i) (see w j).
Proof. intros L. unfold see, the_attrs, the_nodes, the_edges, the_subs, the_rels, w_assign. rewrite the_put_graph by exact L. destruct p; reflexivity. Qed.
Lemma the_assign_other w p i j k : k <> i -> the_graph (w_assign w p i j) k = the_graph w k.
Proof. intros D. unfold the_graph, w_assign. cbn [put_graph m_graphs]. rewrite list_lookup_insert_ne by congruence. reflexivity. Qed.
Lemma see_assign_other w p i j k : k <> i -> see (w_assign w p i j) k = see w k.
Proof. intros D. unfold see, the_attrs, the_nodes, the_edges, the_subs, the_rels. rewrite (the_assign_other w p i j k D). reflexivity. Qed.
Lemma ref_assign w p i j q : i < length (m_graphs w) ->
  ref_of q (the_graph (w_assign w p i j) i) = if decide (p = q) then ref_of q (the_graph w j) else ref_of q (the_graph w i).
Proof. intros L. unfold w_assign. rewrite the_put_graph by exact L. destruct p, q; reflexivity. Qed.
Lemma sound_assign w p i j : sound w -> i < length (m_graphs w) -> j < length (m_graphs w) -> sound (w_assign w p i j).
Proof.
  intros W Li Lj k r H. pose proof (the_graph_some _ _ _ H) as T. unfold w_assign in H. cbn [put_graph m_graphs m_attrs m_nodes m_edges m_subs m_rels] in H.
  destruct (decide (k = i)) as [->|D].
  - destruct (sound_at w i W Li) as (A1 & A2 & A3 & A4 & A5). destruct (sound_at w j W Lj) as (B1 & B2 & B3 & B4 & B5).
    rewrite list_lookup_insert in H by exact Li. injection H as <-. destruct p; cbn; repeat split; assumption.
  - rewrite list_lookup_insert_ne in H by congruence. apply (W k r H).
Qed.

(** ** Histories *)
Lemma sound_none : sound none_yet.
Proof. intros i r H. cbn in H. discriminate. Qed.
Lemma happen_sound e w : sound w -> exists_in w e -> sound (happen e w).1.
Proof.
  intros W X. destruct e as [|i|p i j|i o c]; cbn [happen exists_in] in *.
  - apply sound_new, W.
  - apply sound_copy; assumption.
  - destruct X. apply sound_assign; assumption.
  - destruct (exec_good o c w i W X) as (C & _). destruct (w_exec o c w i) as [w' r]. apply C, W.
Qed.
Lemma happen_len e w : sound w -> exists_in w e -> length (m_graphs w) <= length (m_graphs (happen e w).1).
Proof.
  intros W X. destruct e as [|i|p i j|i o c]; cbn [happen exists_in] in *.
  - cbn. rewrite app_length. lia.
  - cbn. rewrite app_length. lia.
  - cbn. rewrite insert_length. lia.
  - destruct (exec_good o c w i W X) as (C & _). destruct (w_exec o c w i) as [w' r]. cbn [fst] in *. rewrite (c_len _ _ _ _ C). lia.
Qed.
Lemma happens_fst e es w : (happens (e :: es) w).1 = (happens es (happen e w).1).1.
Proof. cbn [happens]. destruct (happen e w) as [w1 r]. cbn [fst]. destruct (happens es w1). reflexivity. Qed.
Lemma happens_sound es : forall w, sound w -> all_exist es w -> sound (happens es w).1 /\ length (m_graphs w) <= length (m_graphs (happens es w).1).
Proof.
  induction es as [|e es IH]; intros w W X; [split; [exact W|reflexivity]|]. destruct X as [X1 X2]. rewrite happens_fst.
  pose proof (happen_sound e w W X1) as W1. pose proof (happen_len e w W X1). destruct (IH _ W1 X2). split; [assumption|lia].
Qed.

Lemma alone_happen e w i : sound w -> exists_in w e -> leaves_alone i e -> i < length (m_graphs w) -> alone w i -> alone (happen e w).1 i.
Proof.
  intros W X LA L A. destruct e as [|k|p k l|k o c]; cbn [happen exists_in leaves_alone fst] in *.
  - intros j p Lj D. destruct (grown_see w _ i W (grown_new w) L) as [Ti _]. unfold shares. rewrite Ti.
    destruct (decide (j < length (m_graphs w))) as [Lj'|N].
    + destruct (grown_see w _ j W (grown_new w) Lj') as [Tj _]. rewrite Tj. apply A; assumption.
    + cbn [w_new m_graphs] in Lj. rewrite app_length in Lj. cbn in Lj. assert (j = length (m_graphs w)) as -> by lia. rewrite the_new.
      destruct (sound_at w i W L) as (A1 & A2 & A3 & A4 & A5). destruct p; cbn [ref_of r_attrs r_nodes r_edges r_subs r_rels]; lia.
  - intros j p Lj D. destruct (grown_see w _ i W (grown_copy w k) L) as [Ti _]. unfold shares. rewrite Ti.
    destruct (decide (j < length (m_graphs w))) as [Lj'|N].
    + destruct (grown_see w _ j W (grown_copy w k) Lj') as [Tj _]. rewrite Tj. apply A; assumption.
    + cbn [w_copy m_graphs] in Lj. rewrite app_length in Lj. cbn in Lj. assert (j = length (m_graphs w)) as -> by lia. rewrite the_copy. apply A; assumption.
  - destruct LA as [D1 D2]. destruct X as [Lk Ll]. intros j q Lj D. unfold shares. rewrite (the_assign_other w p k l i) by congruence.
    cbn in Lj. rewrite insert_length in Lj. destruct (decide (j = k)) as [->|Dj].
    + rewrite ref_assign by exact Lk. destruct (decide _); apply A; congruence.
    + rewrite (the_assign_other w p k l j Dj). apply A; assumption.
  - destruct (exec_good o c w k W X) as (C & _). destruct (w_exec o c w k) as [w' r]. cbn [fst] in *. intros j p Lj D Sh.
    rewrite (c_len _ _ _ _ C) in Lj. apply (A j p Lj D). destruct (removal c) eqn:R.
    + destruct (decide (p = PEdges)) as [->|Np]; [eapply chg_shares_edges; eassumption|]. apply (proj1 (chg_shares _ _ _ _ p i j W L Lj C ltac:(intros; congruence))), Sh.
    + apply (proj1 (chg_shares _ _ _ _ p i j W L Lj C ltac:(intros; reflexivity))), Sh.
Qed.
Lemma mixed_alone w i j rem old mine : (forall p, ~ shares p w i j) -> mixed w i j rem old mine = old.
Proof. intros N. unfold mixed. rewrite !decide_False by apply N. destruct old; reflexivity. Qed.
Lemma happen_alone e w i : sound w -> exists_in w e -> leaves_alone i e -> i < length (m_graphs w) -> alone w i ->
  match e with
  | HCall j o c => if decide (j = i) then see (happen e w).1 i = (exec o c (see w i)).1 /\ (happen e w).2 = [(exec o c (see w i)).2]
                   else see (happen e w).1 i = see w i
  | _ => see (happen e w).1 i = see w i
  end.
Proof.
  intros W X LA L A. destruct e as [|k|p k l|k o c]; cbn [happen exists_in leaves_alone fst] in *.
  - apply grown_see; auto using grown_new.
  - apply grown_see; auto using grown_copy.
  - apply see_assign_other. destruct LA. congruence.
  - destruct (exec_good o c w k W X) as (C & E & R). destruct (w_exec o c w k) as [w' r]. cbn [fst snd] in *. destruct (decide (k = i)) as [->|D].
    + split; [exact E|]. rewrite R. reflexivity.
    + rewrite (chg_mixed _ _ _ _ i W X L (not_eq_sym D) C). apply mixed_alone. intros p Sh. apply (A k p X D). unfold shares in *. congruence.
Qed.
Lemma run_cons o c h g : run ((o, c) :: h) g = ((run h (exec o c g).1).1, (exec o c g).2 :: (run h (exec o c g).1).2).
Proof. cbn [run]. destruct (exec o c g) as [g1 r]. cbn [fst snd]. destruct (run h g1). reflexivity. Qed.
Lemma happens_alone es : forall w i, sound w -> all_exist es w -> Forall (leaves_alone i) es -> i < length (m_graphs w) -> alone w i ->
  see (happens es w).1 i = (run (calls_on i es) (see w i)).1 /\ results_on i es w = (run (calls_on i es) (see w i)).2.
Proof.
  induction es as [|e es IH]; intros w i W X LA L A; [split; reflexivity|]. destruct X as [X1 X2]. inversion LA as [|? ? L1 L2]; subst. rewrite happens_fst. cbn [results_on].
  pose proof (happen_sound e w W X1) as W1. pose proof (happen_len e w W X1) as Ln. pose proof (alone_happen e w i W X1 L1 L A) as A1.
  pose proof (happen_alone e w i W X1 L1 L A) as H. destruct (IH _ i W1 X2 L2) as [I1 I2]; [lia|exact A1|].
  destruct e as [|k|p k l|k o c]; cbn [calls_on omap list_omap] in *; try (rewrite H in I1, I2; split; [exact I1|exact I2]).
  destruct (decide (k = i)) as [->|D].
  - destruct H as [H1 H2]. rewrite H1 in I1, I2. fold (calls_on i es). rewrite run_cons. cbn [fst snd]. split; [exact I1|]. rewrite H2, I2. reflexivity.
  - rewrite H in I1, I2. split; [exact I1|exact I2].
Qed.
Lemma alone_new w : sound w -> alone (w_new w) (length (m_graphs w)).
Proof.
  intros W j p Lj D. cbn [w_new m_graphs] in Lj. rewrite app_length in Lj. cbn in Lj. assert (L : j < length (m_graphs w)) by lia. unfold shares. rewrite the_new.
  destruct (grown_see w _ j W (grown_new w) L) as [-> _]. destruct (sound_at w j W L) as (A1 & A2 & A3 & A4 & A5).
  destruct p; cbn [ref_of r_attrs r_nodes r_edges r_subs r_rels]; lia.
Qed.

(** ** Two graphs that share everything *)
Lemma same_refl g : same_content g g.
Proof. repeat split. Qed.
Lemma same_sym g h : same_content g h -> same_content h g.
Proof. intros (A & B & C & D & E & F). repeat split; congruence. Qed.
Lemma same_trans g h k : same_content g h -> same_content h k -> same_content g k.
Proof. intros (A & B & C & D & E & F) (A' & B' & C' & D' & E' & F'). repeat split; congruence. Qed.
Definition same2 (x y : agraph * option err) : Prop := same_content x.1 y.1 /\ x.2 = y.2.
Lemma same_flags g h : same_content g h -> exists d s, h = set_strict (set_dir g d) s.
Proof. destruct g, h. intros (A & B & C & D & E & F). cbn in *. subst. eexists _, _. reflexivity. Qed.
Lemma add_attr_same g d s p f v : same2 (add_attr g p f v) (add_attr (set_strict (set_dir g d) s) p f v).
Proof.
  unfold add_attr. cbn [set_strict set_dir g_name g_attrs g_subs]. destruct (str_eqb _ _).
  - destruct (attrs_add _ _ _). split; repeat split.
  - destruct (g_subs g !! p) as [sb|]; [|split; repeat split]. destruct (attrs_add _ _ _). split; repeat split.
Qed.
Lemma add_attrs_loop_same n l : forall g h, same_content g h -> same2 (add_attrs_loop g n l) (add_attrs_loop h n l).
Proof.
  induction l as [|[k v] l IH]; intros g h E; cbn [add_attrs_loop]; [split; [exact E|reflexivity]|]. destruct (same_flags g h E) as (d & s & ->).
  destruct (add_attr_same g d s n k v) as [A B]. destruct (add_attr g n k v) as [g1 e], (add_attr _ n k v) as [h1 e']. cbn [fst snd] in *. subst e'.
  destruct e as [e|]; [split; [exact A|reflexivity]|]. apply IH, A.
Qed.
Lemma exec_same o c g h : removal c = false -> same_content g h -> same2 (exec o c g) (exec o c h).
Proof.
  intros R E. destruct (same_flags g h E) as (d & s & ->). destruct c; try discriminate R; cbn [exec].
  - split; repeat split.
  - split; repeat split.
  - split; repeat split.
  - unfold add_port_edge. destruct (new_attrs _); split; repeat split.
  - unfold add_edge, add_port_edge. destruct (new_attrs _); split; repeat split.
  - unfold add_node. destruct (new_attrs _); split; repeat split.
  - apply add_attr_same.
  - unfold add_subgraph. apply add_attrs_loop_same. repeat split.
Qed.
Lemma add_attr_name g p f v : g_name (add_attr g p f v).1 = g_name g.
Proof. unfold add_attr. destruct (str_eqb _ _); [destruct (attrs_add _ _ _); reflexivity|]. destruct (g_subs g !! p); [destruct (attrs_add _ _ _)|]; reflexivity. Qed.
Lemma add_attrs_loop_name n l : forall g, g_name (add_attrs_loop g n l).1 = g_name g.
Proof.
  induction l as [|[k v] l IH]; intros g; cbn [add_attrs_loop]; [reflexivity|]. pose proof (add_attr_name g n k v) as N. destruct (add_attr g n k v) as [g1 [e|]]; [exact N|].
  rewrite IH. exact N.
Qed.
Lemma exec_name o c g : removal c = false -> (forall n, c <> CSetName n) -> g_name (exec o c g).1 = g_name g.
Proof.
  intros R N. destruct c; try discriminate R; cbn [exec]; try reflexivity.
  - destruct (N n). reflexivity.
  - unfold add_port_edge. destruct (new_attrs _); reflexivity.
  - unfold add_edge, add_port_edge. destruct (new_attrs _); reflexivity.
  - unfold add_node. destruct (new_attrs _); reflexivity.
  - apply add_attr_name.
  - unfold add_subgraph. rewrite add_attrs_loop_name. reflexivity.
Qed.
Lemma mixed_twins w i j old mine : twins w i j -> g_name old = g_name mine -> same_content (mixed w i j false old mine) mine.
Proof. intros T N. unfold mixed. rewrite !decide_True by apply T. repeat split. exact N. Qed.
Lemma twins_sym w i j : twins w i j -> twins w j i.
Proof. intros T p. specialize (T p). unfold shares in *. congruence. Qed.

Lemma twins_step w i j o c : sound w -> i < length (m_graphs w) -> j < length (m_graphs w) -> i <> j -> twins w i j ->
  r_name (the_graph w i) = r_name (the_graph w j) -> removal c = false -> (forall n, c <> CSetName n) ->
  let w' := (w_exec o c w i).1 in
  twins w' i j /\ r_name (the_graph w' i) = r_name (the_graph w' j) /\ see w' i = (exec o c (see w i)).1 /\ same_content (see w' j) (see w' i) /\
  (w_exec o c w i).2 = (exec o c (see w i)).2.
Proof.
  intros W Li Lj D T N R NS w'. destruct (exec_good o c w i W Li) as (C & E & X). fold w' in C, E. rewrite R in C.
  assert (M : see w' j = mixed w i j false (see w j) (see w' i)) by (apply chg_mixed; auto).
  assert (Nm : g_name (see w j) = g_name (see w' i)). { rewrite E, exec_name by assumption. symmetry. exact N. }
  split; [intros p; eapply chg_shares; try eassumption; [reflexivity|apply T]|].
  split; [|split; [exact E|split; [|exact X]]].
  - change (g_name (see w' i) = g_name (see w' j)). rewrite M. cbn [mixed g_name]. congruence.
  - rewrite M. apply mixed_twins; assumption.
Qed.
Lemma happens_twins es : forall w i j g, sound w -> i < length (m_graphs w) -> j < length (m_graphs w) -> i <> j -> twins w i j ->
  r_name (the_graph w i) = r_name (the_graph w j) -> Forall (adding i j) es -> same_content (see w i) g -> same_content (see w j) g ->
  let w' := (happens es w).1 in
  twins w' i j /\ same_content (see w' i) (run (all_calls es) g).1 /\ same_content (see w' j) (run (all_calls es) g).1 /\
  (happens es w).2 = (run (all_calls es) g).2.
Proof.
  induction es as [|e es IH]; intros w i j g W Li Lj D T N F Ei Ej; [split; [exact T|split; [exact Ei|split; [exact Ej|reflexivity]]]|].
  inversion F as [|? ? F1 F2]; subst. cbn zeta. rewrite happens_fst. destruct e as [|k|p k l|k o c]; cbn [adding] in F1; try contradiction. destruct F1 as (K & R & NS).
  cbn [happens happen]. cbn [all_calls omap list_omap]. fold (all_calls es). rewrite run_cons. cbn [fst snd].
  assert (K' : exists a b, k = a /\ a <> b /\ ((a = i /\ b = j) \/ (a = j /\ b = i))) by (destruct K as [->| ->]; [exists i, j|exists j, i]; auto).
  clear K. destruct K' as (a & b & -> & Dab & K).
  assert (La : a < length (m_graphs w)) by (destruct K as [[-> ->]|[-> ->]]; assumption).
  assert (Lb : b < length (m_graphs w)) by (destruct K as [[-> ->]|[-> ->]]; assumption).
  assert (Tab : twins w a b) by (destruct K as [[-> ->]|[-> ->]]; [|apply twins_sym]; assumption).
  assert (Nab : r_name (the_graph w a) = r_name (the_graph w b)) by (destruct K as [[-> ->]|[-> ->]]; [|symmetry]; assumption).
  assert (Ea : same_content (see w a) g) by (destruct K as [[-> ->]|[-> ->]]; assumption).
  destruct (twins_step w a b o c W La Lb Dab Tab Nab R NS) as (T' & N' & E' & S' & X').
  destruct (exec_good o c w a W La) as (C & _ & _). destruct (w_exec o c w a) as [w1 r]. cbn [fst snd] in *.
  destruct (exec_same o c _ _ R Ea) as [Sg Xg].
  assert (Sa : same_content (see w1 a) (exec o c g).1) by (rewrite E'; exact Sg).
  assert (Sb : same_content (see w1 b) (exec o c g).1) by (eapply same_trans; eassumption).
  assert (W1 : sound w1) by (apply C, W). rewrite <- (c_len _ _ _ _ C) in Li, Lj.
  destruct (IH w1 i j (exec o c g).1) as (I1 & I2 & I3 & I4); try assumption.
  - destruct K as [[-> ->]|[-> ->]]; [|apply twins_sym]; assumption.
  - destruct K as [[-> ->]|[-> ->]]; [|symmetry]; assumption.
  - destruct K as [[-> ->]|[-> ->]]; assumption.
  - destruct K as [[-> ->]|[-> ->]]; assumption.
  - destruct (happens es w1) as [w2 rs]. cbn [fst snd] in *. split; [exact I1|split; [exact I2|split; [exact I3|]]]. rewrite I4. cbn [app]. f_equal. congruence.
Qed.

(** ** Graphs put together from containers of built graphs are built *)
Lemma other_oracle o i : fair o -> exists o', fair o' /\ forall m, o_attrs o' 0 m = o_attrs o i m.
Proof. intros [F1 F2]. exists (Oracle (fun _ => o_attrs o i) (o_names o)). split; [|reflexivity]. split; [intros j m; apply F1|exact F2]. Qed.
(** Containers of graphs: what is reached by changing this container alone. *)
Inductive nbuilt : nodes -> Prop :=
| NB_new : nbuilt new_nodes
| NB_add ns n a o : nbuilt ns -> fair o -> nbuilt (nodes_add ns n a (o_attrs o 0 a))
| NB_old ns p o : nbuilt ns -> fair o -> is_Some (nodes_heap ns !! p) -> nbuilt (nodes_add_old ns p (o_attrs o 0 (node_attrs (deref ns p))))
| NB_remove ns n : nbuilt ns -> nbuilt (nodes_remove ns n).1
| NB_set ns p a : nbuilt ns -> is_Some (nodes_heap ns !! p) -> nbuilt (nodes_set_attrs ns p a).
Inductive ebuilt : edges -> Prop :=
| EB_new : ebuilt new_edges
| EB_add es e : ebuilt es -> ebuilt (edges_add es e)
| EB_attrs es i e a : ebuilt es -> edges_list es !! i = Some e -> ebuilt (edges_set es i (Edge (e_src e) (e_src_port e) (e_dst e) (e_dst_port e) (e_dir e) a))
| EB_fields es i e sp dp dir : ebuilt es -> edges_list es !! i = Some e -> ebuilt (edges_set es i (Edge (e_src e) sp (e_dst e) dp dir (e_attrs e))).
Inductive sbuilt : gmap gostr sub -> Prop :=
| SB_new : sbuilt ∅
| SB_add m n : sbuilt m -> sbuilt (subs_add m n)
| SB_remove m n : sbuilt m -> sbuilt (delete n m)
| SB_set m n x a : sbuilt m -> m !! n = Some x -> sbuilt (<[n := Sub a (sub_name x)]> m).
Inductive rbuilt : relations -> Prop :=
| RB_new : rbuilt new_relations
| RB_add r p c : rbuilt r -> rbuilt (relations_add r p c)
| RB_remove r p c : rbuilt r -> rbuilt (relations_remove r p c).
Definition all_built (g : agraph) : Prop := nbuilt (g_nodes g) /\ ebuilt (g_edges g) /\ sbuilt (g_subs g) /\ rbuilt (g_rels g).

Lemma filter_edges_built keep es : ebuilt (filter_edges keep es).
Proof.
  unfold filter_edges. assert (G : forall l acc, ebuilt acc -> ebuilt (fold_left (fun a e => if keep e then edges_add a e else a) l acc)).
  { induction l as [|e l IH]; intros acc B; [exact B|]. cbn [fold_left]. apply IH. destruct (keep e); [apply EB_add|]; exact B. }
  apply G. constructor.
Qed.
Lemma add_attr_built g p f v : all_built g -> all_built (add_attr g p f v).1.
Proof.
  intros (A & B & C & D). unfold add_attr. destruct (str_eqb _ _).
  - destruct (attrs_add _ _ _). repeat split; assumption.
  - destruct (g_subs g !! p) as [x|] eqn:E; [|repeat split; assumption]. destruct (attrs_add _ _ _). repeat split; try assumption. cbn [fst with_subs g_subs]. apply SB_set; assumption.
Qed.
Lemma add_attrs_loop_built n l : forall g, all_built g -> all_built (add_attrs_loop g n l).1.
Proof.
  induction l as [|[k v] l IH]; intros g B; cbn [add_attrs_loop]; [exact B|]. pose proof (add_attr_built g n k v B) as B1.
  destruct (add_attr g n k v) as [g1 [e|]]; [exact B1|]. apply IH, B1.
Qed.
Lemma remove_node_built g p n : all_built g -> all_built (remove_node g p n).1.
Proof.
  intros (A & B & C & D). unfold remove_node. pose proof (NB_remove (g_nodes g) n A) as A1. destruct (nodes_remove _ _) as [ns [e|]]; [repeat split; assumption|].
  split; [exact A1|]. split; [apply filter_edges_built|]. split; [exact C|]. apply RB_remove, D.
Qed.
Lemma remove_nodes_loop_built p l : forall g, all_built g -> all_built (remove_nodes_loop g p l).1.
Proof.
  induction l as [|c l IH]; intros g B; cbn [remove_nodes_loop]; [exact B|]. pose proof (remove_node_built g p c B) as B1.
  destruct (remove_node g p c) as [g1 [e|]]; [exact B1|]. apply IH, B1.
Qed.
Lemma exec_built o c g : fair o -> all_built g -> all_built (exec o c g).1.
Proof.
  intros Fo Bg. pose proof Bg as (A & B & C & D). destruct c; cbn [exec]; try (repeat split; assumption).
  - unfold add_port_edge. destruct (new_attrs _); [|exact Bg]. repeat split; try assumption. apply EB_add, B.
  - unfold add_edge, add_port_edge. destruct (new_attrs _); [|exact Bg]. repeat split; try assumption. apply EB_add, B.
  - unfold add_node. destruct (new_attrs _) as [a|e]; [|exact Bg]. destruct (other_oracle o 1 Fo) as (o' & Fo' & Eo). split; [|split; [exact B|split; [exact C|apply RB_add, D]]].
    cbn [fst with_rels with_nodes g_nodes]. rewrite <- Eo. apply NB_add; assumption.
  - apply add_attr_built, Bg.
  - unfold add_subgraph. apply add_attrs_loop_built. split; [exact A|split; [exact B|split; [apply SB_add, C|apply RB_add, D]]].
  - apply remove_node_built, Bg.
  - unfold remove_subgraph. pose proof (remove_nodes_loop_built parent (o_names o 0 (children (g_rels g) name)) g Bg) as B1.
    destruct (remove_nodes_loop _ _ _) as [g1 [e|]]; [exact B1|]. destruct B1 as (A1 & B1 & C1 & D1).
    split; [exact A1|split; [apply filter_edges_built|split; [apply SB_remove, C1|apply RB_remove, D1]]].
Qed.
Lemma exec_direct_built o d g : fair o -> possible g d -> nodes_ok (g_nodes g) -> all_built g -> all_built (exec_direct o d g).1.
Proof.
  intros Fo P OK Bg. pose proof Bg as (A & B & C & D). destruct d as [n a|p|n|e|n|n|p c|p c|t op|i sp dp dir]; cbn [exec_direct].
  - repeat split; try assumption. apply NB_add; assumption.
  - repeat split; try assumption. apply NB_old; assumption.
  - pose proof (NB_remove (g_nodes g) n A) as A1. destruct (nodes_remove _ _). repeat split; assumption.
  - repeat split; try assumption. apply EB_add, B.
  - repeat split; try assumption. apply SB_add, C.
  - repeat split; try assumption. apply SB_remove, C.
  - repeat split; try assumption. apply RB_add, D.
  - repeat split; try assumption. apply RB_remove, D.
  - destruct t as [|n|n|i|p].
    + destruct (exec_attr _ _ _). repeat split; assumption.
    + destruct (g_subs g !! n) as [x|] eqn:E; [|exact Bg]. destruct (exec_attr _ _ _). repeat split; try assumption. apply SB_set; assumption.
    + destruct (nodes_lookup (g_nodes g) !! n) as [p|] eqn:E; [|exact Bg]. destruct (exec_attr _ _ _) as [a r]. repeat split; try assumption. cbn [fst with_nodes g_nodes].
      apply NB_set; [assumption|]. destruct (no_lookup _ OK n p E) as [_ [x Hx]]. eauto.
    + destruct (edges_list (g_edges g) !! i) as [e|] eqn:E; [|exact Bg]. destruct (exec_attr _ _ _). repeat split; try assumption. apply EB_attrs; assumption.
    + destruct (exec_attr _ _ _). repeat split; try assumption. apply NB_set; assumption.
  - destruct (edges_list (g_edges g) !! i) as [e|] eqn:E; [|exact Bg]. repeat split; try assumption. apply EB_fields; assumption.
Qed.
Lemma built_all g : built g -> all_built g.
Proof.
  induction 1 as [|g o c B IH Fo|g o d B IH Fo P].
  - repeat split; constructor.
  - apply exec_built; assumption.
  - apply exec_direct_built; try assumption. apply (go_nodes g (built_ok g B)).
Qed.
Definition o_any : oracle := Oracle (fun _ m => map_to_list m) (fun _ s => elements s).
Lemma fair_any : fair o_any.
Proof. split; reflexivity. Qed.
Lemma put_nbuilt ns : nbuilt ns -> forall g, built g -> g_nodes g = new_nodes -> built (with_nodes g ns).
Proof.
  induction 1 as [|ns n a o N IH Fo|ns p o N IH Fo P|ns n N IH|ns p a N IH P]; intros g B E.
  - assert (X : with_nodes g new_nodes = g) by (rewrite <- E; destruct g; reflexivity). rewrite X. exact B.
  - apply (built_direct _ o (DNodesAdd n a) (IH g B E) Fo I).
  - apply (built_direct _ o (DNodesAddOld p) (IH g B E) Fo P).
  - pose proof (built_direct _ o_any (DNodesRemove n) (IH g B E) fair_any I) as H. cbn [exec_direct] in H. change (g_nodes (with_nodes g ns)) with ns in H.
    destruct (nodes_remove ns n) as [ns' r]. exact H.
  - apply (built_direct _ o_any (DAttrs (TPtr p) (AAssign a)) (IH g B E) fair_any P).
Qed.
Lemma put_ebuilt es : ebuilt es -> forall g, built g -> g_edges g = new_edges -> built (with_edges g es).
Proof.
  induction 1 as [|es e N IH|es i e a N IH P|es i e sp dp dir N IH P]; intros g B E.
  - assert (X : with_edges g new_edges = g) by (rewrite <- E; destruct g; reflexivity). rewrite X. exact B.
  - apply (built_direct _ o_any (DEdgesAdd e) (IH g B E) fair_any I).
  - assert (Q : possible (with_edges g es) (DAttrs (TEdge i) (AAssign a))) by (cbn; eauto). pose proof (built_direct _ o_any _ (IH g B E) fair_any Q) as H.
    cbn [exec_direct with_edges g_edges] in H. rewrite P in H. exact H.
  - assert (Q : possible (with_edges g es) (DEdgeFields i sp dp dir)) by (cbn; eauto). pose proof (built_direct _ o_any _ (IH g B E) fair_any Q) as H.
    cbn [exec_direct with_edges g_edges] in H. rewrite P in H. exact H.
Qed.
Lemma put_sbuilt m : sbuilt m -> forall g, built g -> g_subs g = ∅ -> built (with_subs g m).
Proof.
  induction 1 as [|m n N IH|m n N IH|m n x a N IH P]; intros g B E.
  - assert (X : with_subs g ∅ = g) by (rewrite <- E; destruct g; reflexivity). rewrite X. exact B.
  - apply (built_direct _ o_any (DSubGraphsAdd n) (IH g B E) fair_any I).
  - apply (built_direct _ o_any (DSubGraphsRemove n) (IH g B E) fair_any I).
  - assert (Q : possible (with_subs g m) (DAttrs (TSub n) (AAssign a))) by (cbn; eauto). pose proof (built_direct _ o_any _ (IH g B E) fair_any Q) as H.
    cbn [exec_direct with_subs g_subs] in H. rewrite P in H. exact H.
Qed.
Lemma put_rbuilt r : rbuilt r -> forall g, built g -> g_rels g = new_relations -> built (with_rels g r).
Proof.
  induction 1 as [|r p c N IH|r p c N IH]; intros g B E.
  - assert (X : with_rels g new_relations = g) by (rewrite <- E; destruct g; reflexivity). rewrite X. exact B.
  - apply (built_direct _ o_any (DRelationsAdd p c) (IH g B E) fair_any I).
  - apply (built_direct _ o_any (DRelationsRemove p c) (IH g B E) fair_any I).
Qed.
Lemma all_is_built g : all_built g -> built g.
Proof.
  intros (A & B & C & D).
  pose proof (built_call _ o_any (CSetStrict (g_strict g)) (built_call _ o_any (CSetDir (g_directed g)) (built_call _ o_any (CSetName (g_name g)) built_new fair_any) fair_any) fair_any) as H0.
  pose proof (built_direct _ o_any (DAttrs TGraph (AAssign (g_attrs g))) H0 fair_any I) as H1.
  pose proof (put_nbuilt _ A _ H1 eq_refl) as H2. pose proof (put_ebuilt _ B _ H2 eq_refl) as H3. pose proof (put_sbuilt _ C _ H3 eq_refl) as H4. pose proof (put_rbuilt _ D _ H4 eq_refl) as H5.
  destruct g. exact H5.
Qed.
Lemma mixed_built w i j rem old mine : built old -> built mine -> built (mixed w i j rem old mine).
Proof.
  intros B1 B2. apply all_is_built. apply built_all in B1, B2. destruct B1 as (A & B & C & D), B2 as (A' & B' & C' & D').
  repeat split; cbn [mixed g_nodes g_edges g_subs g_rels]; destruct (decide _); try assumption. destruct rem; assumption.
Qed.
Lemma take_part_built p h g : built h -> built g -> built (take_part p h g).
Proof.
  intros B1 B2. apply all_is_built. apply built_all in B1, B2. destruct B1 as (A & B & C & D), B2 as (A' & B' & C' & D'). destruct p; repeat split; assumption.
Qed.
Definition world_built (w : many) : Prop := forall i, i < length (m_graphs w) -> built (see w i).
Lemma happen_built e w : sound w -> exists_in w e -> fair_happening e -> world_built w -> world_built (happen e w).1.
Proof.
  intros W X Fe B k Lk. destruct e as [|i|p i j|i o c]; cbn [happen exists_in fair_happening fst] in *.
  - destruct (decide (k < length (m_graphs w))) as [L|N].
    + destruct (grown_see w _ k W (grown_new w) L) as [_ ->]. apply B, L.
    + cbn [w_new m_graphs] in Lk. rewrite app_length in Lk. cbn in Lk. assert (k = length (m_graphs w)) as -> by lia. rewrite see_new. apply built_new.
  - destruct (decide (k < length (m_graphs w))) as [L|N].
    + destruct (grown_see w _ k W (grown_copy w i) L) as [_ ->]. apply B, L.
    + cbn [w_copy m_graphs] in Lk. rewrite app_length in Lk. cbn in Lk. assert (k = length (m_graphs w)) as -> by lia. rewrite see_copy. apply B, X.
  - destruct X as [X1 X2]. cbn in Lk. rewrite insert_length in Lk. destruct (decide (k = i)) as [->|D].
    + rewrite see_assign by exact X1. apply take_part_built; apply B; assumption.
    + rewrite see_assign_other by exact D. apply B, Lk.
  - destruct (exec_good o c w i W X) as (C & E & R). destruct (w_exec o c w i) as [w' r]. cbn [fst snd] in *. rewrite (c_len _ _ _ _ C) in Lk.
    assert (Bi : built (see w' i)) by (rewrite E; apply built_call; [apply B, X|exact Fe]). destruct (decide (k = i)) as [->|D]; [exact Bi|].
    rewrite (chg_mixed _ _ _ _ k W X Lk D C). apply mixed_built; [apply B, Lk|exact Bi].
Qed.
Lemma happens_built es : forall w, sound w -> all_exist es w -> Forall fair_happening es -> world_built w -> world_built (happens es w).1.
Proof.
  induction es as [|e es IH]; intros w W X F B; [exact B|]. destruct X as [X1 X2]. inversion F; subst. rewrite happens_fst.
  apply IH; [apply happen_sound; assumption|exact X2|assumption|apply happen_built; assumption].
Qed.
