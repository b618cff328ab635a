(** Invariants of API histories and their refinement of the abstract graph of SpecGraph. *)
From Verif Require Import Maps Graph SpecGraph MapFacts.

(** ** Nodes *)
Record nodes_ok (ns : nodes) : Prop := {
  no_lookup : forall n p, nodes_lookup ns !! n = Some p -> p ∈ nodes_list ns /\ exists a, nodes_heap ns !! p = Some (Node n a);
  no_list : forall p, p ∈ nodes_list ns -> exists nd, nodes_heap ns !! p = Some nd /\ nodes_lookup ns !! node_name nd = Some p;
  no_nodup : NoDup (nodes_list ns);
  no_heap : forall p nd, nodes_heap ns !! p = Some nd -> p < nodes_next ns }.

Definition nview (ns : nodes) : gmap gostr attrs := (fun p => node_attrs (deref ns p)) <$> nodes_lookup ns.
Definition oview (ns : nodes) : list gostr := map (fun p => node_name (deref ns p)) (nodes_list ns).

Lemma nodes_ok_new : nodes_ok new_nodes.
Proof.
  split; cbn; intros *; rewrite ?lookup_empty; try discriminate; try constructor.
  intros H. apply elem_of_nil in H. contradiction.
Qed.

Section Nodes.
  Context (ns : nodes) (OK : nodes_ok ns).
  Lemma deref_lookup n p : nodes_lookup ns !! n = Some p -> node_name (deref ns p) = n.
  Proof. intros H. destruct (no_lookup ns OK n p H) as [_ [a Ha]]. unfold deref. rewrite Ha. reflexivity. Qed.
  Lemma lookup_deref p : p ∈ nodes_list ns -> nodes_lookup ns !! node_name (deref ns p) = Some p.
  Proof. intros H. destruct (no_list ns OK p H) as (nd & H1 & H2). unfold deref. rewrite H1. exact H2. Qed.
  Lemma oview_in n : n ∈ oview ns <-> is_Some (nodes_lookup ns !! n).
  Proof.
    unfold oview. rewrite elem_of_list_fmap. split.
    - intros (p & -> & Hp). rewrite (lookup_deref p Hp). eauto.
    - intros [p Hp]. exists p. split; [symmetry; apply deref_lookup; exact Hp|]. apply (no_lookup ns OK n p Hp).
  Qed.
  Lemma oview_nodup : NoDup (oview ns).
  Proof.
    unfold oview. apply NoDup_fmap_2_strong; [|apply (no_nodup ns OK)].
    intros p q Hp Hq E. apply lookup_deref in Hp. apply lookup_deref in Hq. congruence.
  Qed.
  Lemma nview_lookup n : is_Some (nview ns !! n) <-> is_Some (nodes_lookup ns !! n).
  Proof. unfold nview. rewrite lookup_fmap. apply fmap_is_Some. Qed.
End Nodes.

Lemma nodes_add_ok ns n a l : nodes_ok ns -> nodes_ok (nodes_add ns n a l).
Proof.
  intros OK. unfold nodes_add. destruct (nodes_lookup ns !! n) as [p|] eqn:E.
  - destruct (no_lookup ns OK n p E) as [Hp [a0 Ha]].
    assert (D : deref ns p = Node n a0) by (unfold deref; rewrite Ha; reflexivity). rewrite D. cbn [node_name node_attrs].
    split; cbn [nodes_lookup nodes_list nodes_heap nodes_next].
    + intros n' p' H. destruct (no_lookup ns OK n' p' H) as [Hp' [a' Ha']]. split; [exact Hp'|].
      destruct (decide (p = p')) as [<-|Hn].
      * rewrite lookup_insert. rewrite Ha in Ha'. injection Ha' as -> _. eauto.
      * rewrite lookup_insert_ne by exact Hn. eauto.
    + intros p' H. destruct (no_list ns OK p' H) as (nd & H1 & H2). destruct (decide (p = p')) as [<-|Hn].
      * rewrite lookup_insert. eexists. split; [reflexivity|exact E].
      * rewrite lookup_insert_ne by exact Hn. eauto.
    + apply (no_nodup ns OK).
    + intros p' nd. destruct (decide (p = p')) as [<-|Hn].
      * intros _. eapply (no_heap ns OK); exact Ha.
      * rewrite lookup_insert_ne by exact Hn. apply (no_heap ns OK).
  - assert (F : nodes_next ns ∉ nodes_list ns).
    { intros H. destruct (no_list ns OK _ H) as (nd & H1 & _). apply (no_heap ns OK) in H1. lia. }
    split; cbn [nodes_lookup nodes_list nodes_heap nodes_next].
    + intros n' p' H. destruct (decide (n = n')) as [<-|Hn].
      * rewrite lookup_insert in H. injection H as <-. split; [apply elem_of_app; right; left|]. rewrite lookup_insert. eauto.
      * rewrite lookup_insert_ne in H by exact Hn. destruct (no_lookup ns OK n' p' H) as [H1 [a1 H2]].
        split; [apply elem_of_app; left; exact H1|]. rewrite lookup_insert_ne; eauto. intros <-. contradiction.
    + intros p' H. apply elem_of_app in H. destruct H as [H|H].
      * destruct (no_list ns OK p' H) as (nd & H1 & H2). exists nd. split; [rewrite lookup_insert_ne; [exact H1|intros <-; contradiction]|].
        rewrite lookup_insert_ne; [exact H2|]. intros Hn. rewrite <- Hn in H2. congruence.
      * apply elem_of_list_singleton in H. subst p'. eexists. rewrite lookup_insert. split; [reflexivity|]. cbn. apply lookup_insert.
    + apply NoDup_app. split; [apply (no_nodup ns OK)|]. split; [|apply NoDup_singleton].
      intros x H Hx. apply elem_of_list_singleton in Hx. subst x. contradiction.
    + intros p' nd. destruct (decide (nodes_next ns = p')) as [<-|Hn]; [lia|].
      rewrite lookup_insert_ne by exact Hn. intros H. apply (no_heap ns OK) in H. lia.
Qed.

Lemma nodes_add_nview (ns : nodes) (n : gostr) (a : attrs) (l : list (gostr * gostr)) : nodes_ok ns -> l ≡ₚ map_to_list a ->
  nview (nodes_add ns n a l) = <[n := a ∪ default ∅ (nview ns !! n)]> (nview ns).
Proof.
  intros OK Hl. apply map_eq. intros k. unfold nodes_add. destruct (nodes_lookup ns !! n) as [p|] eqn:E.
  - unfold nview. cbn [nodes_lookup]. rewrite !lookup_fmap, E. cbn [default fmap option_fmap option_map].
    destruct (decide (n = k)) as [<-|Hn].
    + rewrite lookup_insert, E. cbn. f_equal. unfold deref at 1. cbn [nodes_heap]. rewrite lookup_insert. cbn.
      apply extend_enum. exact Hl.
    + rewrite lookup_insert_ne, lookup_fmap by exact Hn. destruct (nodes_lookup ns !! k) as [q|] eqn:Eq; [|reflexivity].
      cbn. f_equal. unfold deref. cbn [nodes_heap]. rewrite lookup_insert_ne; [reflexivity|].
      intros <-. apply Hn. rewrite <- (deref_lookup ns OK n p E). apply (deref_lookup ns OK k p Eq).
  - unfold nview. cbn [nodes_lookup]. rewrite !lookup_fmap, E. cbn [default fmap option_fmap option_map].
    destruct (decide (n = k)) as [<-|Hn].
    + rewrite !lookup_insert. cbn. unfold deref. cbn [nodes_heap]. rewrite lookup_insert. cbn. rewrite (right_id_L ∅ (∪)). reflexivity.
    + rewrite !lookup_insert_ne, lookup_fmap by exact Hn. destruct (nodes_lookup ns !! k) as [q|] eqn:Eq; [|reflexivity].
      cbn. f_equal. unfold deref. cbn [nodes_heap]. rewrite lookup_insert_ne; [reflexivity|].
      intros <-. destruct (no_lookup ns OK _ _ Eq) as [_ [a' H]]. apply (no_heap ns OK) in H. lia.
Qed.

Lemma nodes_add_oview (ns : nodes) (n : gostr) (a : attrs) (l : list (gostr * gostr)) : nodes_ok ns ->
  oview (nodes_add ns n a l) = match nview ns !! n with Some _ => oview ns | None => oview ns ++ [n] end.
Proof.
  intros OK. unfold nview. rewrite lookup_fmap. unfold nodes_add. destruct (nodes_lookup ns !! n) as [p|] eqn:E; cbn.
  - unfold oview. cbn [nodes_list]. apply map_ext. intros q. unfold deref. cbn [nodes_heap].
    destruct (decide (p = q)) as [<-|Hn]; [rewrite lookup_insert|rewrite lookup_insert_ne by exact Hn; reflexivity].
    reflexivity.
  - unfold oview. cbn [nodes_list]. rewrite map_app. f_equal.
    + apply map_ext_in. intros q Hq. apply elem_of_list_In in Hq. unfold deref. cbn [nodes_heap]. rewrite lookup_insert_ne; [reflexivity|].
      intros <-. destruct (no_list ns OK _ Hq) as (nd & H & _). apply (no_heap ns OK) in H. lia.
    + cbn. unfold deref. cbn [nodes_heap]. rewrite lookup_insert. reflexivity.
Qed.

(** *** Removal *)
Lemma nodes_remove_loop_spec ns n post : forall pre,
  (n ∉ map (fun p => node_name (deref ns p)) post /\
   nodes_remove_loop ns n pre post = (ns, Some (lit "node " ++ n ++ lit " not found"))) \/
  (exists a p b, post = a ++ p :: b /\ n ∉ map (fun p => node_name (deref ns p)) a /\ node_name (deref ns p) = n /\
   nodes_remove_loop ns n pre post = (Nodes (delete n (nodes_lookup ns)) (pre ++ a ++ b) (nodes_heap ns) (nodes_next ns), None)).
Proof.
  induction post as [|q post IH]; intros pre; cbn [nodes_remove_loop map].
  - left. split; [apply not_elem_of_nil|reflexivity].
  - destruct (str_eqb (node_name (deref ns q)) n) eqn:E.
    + apply str_eqb_eq in E. right. exists [], q, post. split; [reflexivity|]. split; [apply not_elem_of_nil|]. auto.
    + apply str_eqb_neq in E. destruct (IH (pre ++ [q])) as [[H1 H2]|(a & p & b & -> & H1 & H2 & H3)].
      * left. split; [|exact H2]. apply not_elem_of_cons. auto.
      * right. exists (q :: a), p, b. split; [reflexivity|]. split; [cbn; apply not_elem_of_cons; auto|]. split; [exact H2|].
        rewrite H3, <- app_assoc. reflexivity.
Qed.

Lemma nodes_remove_spec ns n : nodes_ok ns ->
  (nodes_lookup ns !! n = None /\ nodes_remove ns n = (ns, Some (lit "node " ++ n ++ lit " not found"))) \/
  (is_Some (nodes_lookup ns !! n) /\ exists ns', nodes_remove ns n = (ns', None) /\ nodes_ok ns' /\
    nview ns' = delete n (nview ns) /\ oview ns' = filter (fun x => x <> n) (oview ns)).
Proof.
  intros OK. unfold nodes_remove. destruct (nodes_remove_loop_spec ns n (nodes_list ns) []) as [[H1 H2]|(a & p & b & E & H1 & H2 & H3)].
  - left. split; [|exact H2]. apply eq_None_not_Some. intros H. apply H1. apply (oview_in ns OK). exact H.
  - right. assert (Hp : p ∈ nodes_list ns) by (rewrite E; apply elem_of_app; right; left).
    pose proof (lookup_deref ns OK p Hp) as Hl. rewrite H2 in Hl. split; [eauto|]. eexists. split; [exact H3|].
    cbn [app]. pose proof (no_nodup ns OK) as N. rewrite E in N. apply NoDup_app in N. destruct N as (N1 & N2 & N3).
    apply NoDup_cons in N3. destruct N3 as [N3 N4].
    assert (I : forall q, q ∈ a ++ b <-> q ∈ nodes_list ns /\ q <> p).
    { intros q. rewrite E, !elem_of_app, elem_of_cons. split.
      - intros [H|H]; (split; [auto|]); intros ->; [apply (N2 p H); left|contradiction].
      - intros [[H|[->|H]] Hn]; auto. contradiction. }
    split; [split; cbn [nodes_lookup nodes_list nodes_heap nodes_next]|split].
    + intros n' p' H. apply lookup_delete_Some in H. destruct H as [Hn H]. destruct (no_lookup ns OK _ _ H) as [H4 H5].
      split; [|exact H5]. apply I. split; [exact H4|]. intros ->. rewrite (deref_lookup ns OK _ _ H) in H2. congruence.
    + intros q Hq. apply I in Hq. destruct Hq as [Hq Hn]. destruct (no_list ns OK q Hq) as (nd & H4 & H5). exists nd. split; [exact H4|].
      apply lookup_delete_Some. split; [|exact H5]. intros ->. rewrite Hl in H5. congruence.
    + apply NoDup_app. split; [exact N1|]. split; [|exact N4]. intros x Hx Hb. apply (N2 x Hx). right. exact Hb.
    + apply (no_heap ns OK).
    + unfold nview. cbn [nodes_lookup]. change (fun p0 : nat => node_attrs (deref _ p0)) with (fun p0 : nat => node_attrs (deref ns p0)).
      apply fmap_delete.
    + unfold oview. cbn [nodes_list]. change (fun p0 : nat => node_name (deref _ p0)) with (fun p0 : nat => node_name (deref ns p0)).
      rewrite E, !map_app. cbn [map]. rewrite filter_app, filter_cons_False by (intros H; contradiction).
      f_equal; symmetry.
      * clear -H1. induction a as [|x a IH]; [reflexivity|]. cbn [map] in *. apply not_elem_of_cons in H1. destruct H1 as [H1 H2].
        rewrite filter_cons_True by congruence. rewrite IH by exact H2. reflexivity.
      * assert (H4 : n ∉ map (fun p0 : nat => node_name (deref ns p0)) b).
        { intros H. apply elem_of_list_fmap in H. destruct H as (q & Hq & Hb). assert (q ∈ nodes_list ns) as Hq2 by (rewrite E; apply elem_of_app; right; right; exact Hb).
          apply (lookup_deref ns OK) in Hq2. rewrite <- Hq, Hl in Hq2. injection Hq2 as <-. contradiction. }
        clear -H4. induction b as [|x a IH]; [reflexivity|]. cbn [map] in *. apply not_elem_of_cons in H4. destruct H4 as [H1 H2].
        rewrite filter_cons_True by congruence. rewrite IH by exact H2. reflexivity.
Qed.

(** ** Edges *)
Definition lookup2 (m : gmap gostr (gmap gostr (list edge))) (a b : gostr) : option (list edge) :=
  match m !! a with Some inner => inner !! b | None => None end.
Lemma lookup2_add2 m a b e a' b' : lookup2 (add2 m a b e) a' b' =
  if decide (a = a' /\ b = b') then Some (default [] (lookup2 m a b) ++ [e]) else lookup2 m a' b'.
Proof.
  unfold lookup2, add2. destruct (decide (a = a')) as [<-|Ha].
  - rewrite lookup_insert. destruct (decide (b = b')) as [<-|Hb].
    + rewrite lookup_insert. rewrite decide_True by auto. destruct (m !! a); reflexivity.
    + rewrite lookup_insert_ne by exact Hb. rewrite decide_False by (intros [_ ?]; contradiction).
      destruct (m !! a); [reflexivity|apply lookup_empty].
  - rewrite lookup_insert_ne by exact Ha. rewrite decide_False by (intros [? _]; contradiction). reflexivity.
Qed.

(** [l] if it is not empty *)
Definition nonempty (l : list edge) : option (list edge) := match l with [] => None | _ :: _ => Some l end.
Definition between (s d : gostr) (e : edge) : Prop := e_src e = s /\ e_dst e = d.
Global Instance between_dec s d e : Decision (between s d e).
Proof. unfold between. apply _. Defined.

Record edges_ok (es : edges) : Prop := {
  eo_src : forall s d, lookup2 (src_to_dsts es) s d = nonempty (filter (between s d) (edges_list es));
  eo_dst : forall s d, lookup2 (dst_to_srcs es) d s = nonempty (filter (between s d) (edges_list es));
  eo_src_ne : forall s, src_to_dsts es !! s <> Some ∅;
  eo_dst_ne : forall d, dst_to_srcs es !! d <> Some ∅ }.

Lemma edges_ok_new : edges_ok new_edges.
Proof. split; cbn; intros; unfold lookup2; rewrite ?lookup_empty; try reflexivity; discriminate. Qed.

Lemma nonempty_snoc l e : nonempty (l ++ [e]) = Some (l ++ [e]).
Proof. destruct l; reflexivity. Qed.
Lemma nonempty_default l : default [] (nonempty l) = l.
Proof. destruct l; reflexivity. Qed.

Lemma edges_add_ok es e : edges_ok es -> edges_ok (edges_add es e).
Proof.
  intros OK. split; cbn [edges_add src_to_dsts dst_to_srcs edges_list].
  - intros s d. rewrite lookup2_add2, filter_app, filter_cons, filter_nil.
    destruct (decide (e_src e = s /\ e_dst e = d)) as [H|H].
    + rewrite decide_True by exact H. destruct H as [<- <-]. rewrite nonempty_snoc, (eo_src _ OK), nonempty_default. reflexivity.
    + rewrite decide_False by exact H. rewrite app_nil_r. apply (eo_src _ OK).
  - intros s d. rewrite lookup2_add2, filter_app, filter_cons, filter_nil.
    destruct (decide (e_dst e = d /\ e_src e = s)) as [[H1 H2]|H].
    + rewrite decide_True by (split; assumption). subst. rewrite nonempty_snoc, (eo_dst _ OK), nonempty_default. reflexivity.
    + rewrite decide_False by (intros [? ?]; apply H; split; assumption). rewrite app_nil_r. apply (eo_dst _ OK).
  - intros s. unfold add2. destruct (decide (e_src e = s)) as [<-|Hn].
    + rewrite lookup_insert. intros [= H]. exact (insert_non_empty _ _ _ H).
    + rewrite lookup_insert_ne by exact Hn. apply (eo_src_ne _ OK).
  - intros s. unfold add2. destruct (decide (e_dst e = s)) as [<-|Hn].
    + rewrite lookup_insert. intros [= H]. exact (insert_non_empty _ _ _ H).
    + rewrite lookup_insert_ne by exact Hn. apply (eo_dst_ne _ OK).
Qed.

Lemma filter_edges_spec (keep : edge -> bool) es :
  edges_ok (filter_edges keep es) /\ edges_list (filter_edges keep es) = List.filter keep (edges_list es).
Proof.
  unfold filter_edges. assert (H : forall l acc, edges_ok acc ->
    edges_ok (fold_left (fun acc e => if keep e then edges_add acc e else acc) l acc) /\
    edges_list (fold_left (fun acc e => if keep e then edges_add acc e else acc) l acc) = edges_list acc ++ List.filter keep l).
  { induction l as [|e l IH]; intros acc OK; cbn [fold_left List.filter]; [rewrite app_nil_r; auto|].
    destruct (keep e); [|apply IH; exact OK]. destruct (IH (edges_add acc e) (edges_add_ok _ _ OK)) as [H1 H2].
    split; [exact H1|]. rewrite H2. cbn [edges_add edges_list]. rewrite <- app_assoc. reflexivity. }
  apply (H _ new_edges). apply edges_ok_new.
Qed.
Lemma list_filter_bool {A} (f : A -> bool) (P : A -> Prop) `{HD : forall x, Decision (P x)} l :
  (forall x, f x = true <-> P x) -> List.filter f l = filter P l.
Proof.
  intros H. induction l as [|x l IH]; [reflexivity|]. cbn [List.filter]. rewrite filter_cons, IH.
  destruct (f x) eqn:E; [rewrite decide_True by (apply H; exact E)|rewrite decide_False by (rewrite <- H; congruence)]; reflexivity.
Qed.

(** ** Relations *)
Definition parents (r : relations) (child : gostr) : names := default ∅ (child_to_parents r !! child).
Definition rels_ok (r : relations) : Prop := forall p c, c ∈ children r p <-> p ∈ parents r c.

Lemma elem_of_rel_pairs m p c : (p, c) ∈ rel_pairs m <-> c ∈ default ∅ (m !! p).
Proof.
  unfold rel_pairs. rewrite elem_of_list_to_set, elem_of_list_In, in_flat_map. split.
  - intros ([p' s] & H1 & H2). apply elem_of_list_In, elem_of_map_to_list in H1. apply elem_of_list_In, elem_of_list_fmap in H2.
    cbn in H2. destruct H2 as (c' & [= -> ->] & H2). rewrite H1. cbn. apply elem_of_elements. exact H2.
  - intros H. destruct (m !! p) as [s|] eqn:E; [|cbn in H; apply elem_of_empty in H; contradiction].
    exists (p, s). split; [apply elem_of_list_In, elem_of_map_to_list; exact E|]. apply elem_of_list_In, elem_of_list_fmap.
    exists c. split; [reflexivity|]. apply elem_of_elements. exact H.
Qed.
Lemma rel_insert_elem m a b a' b' : b' ∈ default ∅ (rel_insert m a b !! a') <-> (a' = a /\ b' = b) \/ b' ∈ default ∅ (m !! a').
Proof.
  unfold rel_insert. destruct (decide (a = a')) as [<-|Hn].
  - rewrite lookup_insert. cbn. rewrite elem_of_union, elem_of_singleton. tauto.
  - rewrite lookup_insert_ne by exact Hn. split; [auto|]. intros [[-> _]|H]; [contradiction|exact H].
Qed.
Lemma rel_delete_elem m a b a' b' : b' ∈ default ∅ (rel_delete m a b !! a') <-> ~ (a' = a /\ b' = b) /\ b' ∈ default ∅ (m !! a').
Proof.
  unfold rel_delete. destruct (m !! a) as [s|] eqn:E.
  - destruct (decide (a = a')) as [<-|Hn].
    + rewrite lookup_insert, E. cbn. rewrite elem_of_difference, elem_of_singleton. tauto.
    + rewrite lookup_insert_ne by exact Hn. split; [intros H; split; [|exact H]; intros [-> _]; contradiction|intros [_ H]; exact H].
  - split; [|intros [_ H]; exact H]. intros H. split; [|exact H]. intros [-> ->]. rewrite E in H. cbn in H.
    apply elem_of_empty in H. exact H.
Qed.
Lemma rels_ok_new : rels_ok new_relations.
Proof. intros p c. unfold children, parents. cbn. rewrite !lookup_empty. cbn. rewrite !elem_of_empty. reflexivity. Qed.
Lemma relations_add_ok r p c : rels_ok r -> rels_ok (relations_add r p c).
Proof. intros OK p' c'. unfold children, parents. cbn. rewrite !rel_insert_elem. specialize (OK p' c'). unfold children, parents in OK. tauto. Qed.
Lemma relations_remove_ok r p c : rels_ok r -> rels_ok (relations_remove r p c).
Proof. intros OK p' c'. unfold children, parents. cbn. rewrite !rel_delete_elem. specialize (OK p' c'). unfold children, parents in OK. tauto. Qed.

(** ** The graph *)
(** Names of attributes: [P] holds of all of them. *)
Definition all_in (P : gostr -> Prop) (m : attrs) : Prop := forall k v, m !! k = Some v -> P k.
Class accepts (P : gostr -> Prop) : Prop := accepts_valid : forall k, valid_attr k -> P k.
Global Instance accepts_valid_attr : accepts valid_attr := fun _ H => H.
Lemma accepts_any : accepts (fun _ => True).
Proof. intros k _. exact I. Qed.
Record graph_okP (P : gostr -> Prop) (g : agraph) : Prop := {
  go_nodes : nodes_ok (g_nodes g);
  go_edges : edges_ok (g_edges g);
  go_rels : rels_ok (g_rels g);
  go_subs : forall n s, g_subs g !! n = Some s -> sub_name s = n;
  go_attrs : all_in P (g_attrs g);
  go_nattrs : forall n a, nview (g_nodes g) !! n = Some a -> all_in P a;
  go_eattrs : forall e, e ∈ edges_list (g_edges g) -> all_in P (e_attrs e);
  go_sattrs : forall n s, g_subs g !! n = Some s -> all_in P (sub_attrs s) }.
Arguments go_nodes {P} g _. Arguments go_edges {P} g _. Arguments go_rels {P} g _. Arguments go_subs {P} g _.
Arguments go_attrs {P} g _. Arguments go_nattrs {P} g _. Arguments go_eattrs {P} g _. Arguments go_sattrs {P} g _.
Notation graph_ok := (graph_okP valid_attr).

Lemma all_in_empty (P : gostr -> Prop) : all_in P ∅.
Proof. intros k v H. rewrite lookup_empty in H. discriminate. Qed.
Lemma all_in_union (P : gostr -> Prop) (a b : attrs) : all_in P a -> all_in P b -> all_in P (a ∪ b).
Proof. intros Ha Hb k v H. apply lookup_union_Some_raw in H. destruct H as [H|[_ H]]; eauto. Qed.
Lemma all_in_insert (P : gostr -> Prop) (k v : gostr) (a : attrs) : P k -> all_in P a -> all_in P (<[k := v]> a).
Proof. intros Hk Ha k' v' H. apply lookup_insert_Some in H. destruct H as [[<- _]|[_ H]]; [exact Hk|eauto]. Qed.
Lemma all_in_default (P : gostr -> Prop) (m : gmap gostr attrs) (k : gostr) : (forall a, m !! k = Some a -> all_in P a) -> all_in P (default ∅ (m !! k)).
Proof. intros H. destruct (m !! k); cbn; [apply H; reflexivity|apply all_in_empty]. Qed.
Lemma valid_in (P : gostr -> Prop) `{!accepts P} (m : attrs) : all_valid m -> all_in P m.
Proof. intros H k v E. apply accepts_valid, (H k v E). Qed.


Lemma graph_ok_new {P} : graph_okP P new_graph.
Proof.
  split.
  - apply nodes_ok_new.
  - apply edges_ok_new.
  - apply rels_ok_new.
  - intros n s. cbn [g_subs new_graph]. rewrite lookup_empty. discriminate.
  - apply all_in_empty.
  - intros n a. unfold nview. cbn. rewrite fmap_empty, lookup_empty. discriminate.
  - intros e H. apply elem_of_nil in H. contradiction.
  - intros n s. cbn [g_subs new_graph]. rewrite lookup_empty. discriminate.
Qed.

Lemma sgraph_eq s s' : s_name s = s_name s' -> s_directed s = s_directed s' -> s_strict s = s_strict s' -> s_attrs s = s_attrs s' ->
  s_nodes s = s_nodes s' -> s_order s = s_order s' -> s_edges s = s_edges s' -> s_subs s = s_subs s' -> s_rels s = s_rels s' -> s = s'.
Proof. destruct s, s'; cbn. intros; subst; reflexivity. Qed.

Lemma view_new : view new_graph = s_empty.
Proof. apply sgraph_eq; try reflexivity; cbn; rewrite ?fmap_empty; reflexivity. Qed.

Lemma view_is_node g n : s_is_node (view g) n <-> is_Some (nodes_lookup (g_nodes g) !! n).
Proof. unfold s_is_node. apply (nview_lookup (g_nodes g)). Qed.
Lemma view_is_sub g n : s_is_sub (view g) n <-> is_Some (g_subs g !! n).
Proof. unfold s_is_sub. cbn. rewrite lookup_fmap. apply fmap_is_Some. Qed.
Lemma view_child g p c : is_child (view g) p c <-> c ∈ children (g_rels g) p.
Proof. unfold is_child. cbn. apply elem_of_rel_pairs. Qed.

(** *** Each call *)
Lemma spec_eq c s s1 s2 r : spec_call c s s1 r -> s1 = s2 -> spec_call c s s2 r.
Proof. intros H <-. exact H. Qed.
Lemma ok_port_edge `{!accepts P} o g a pa b pb dir m : fair o -> graph_okP P g ->
  let '(g', r) := add_port_edge o g a pa b pb dir m in
  graph_okP P g' /\ spec_call (CAddPortEdge a pa b pb dir m) (view g) (view g') r.
Proof.
  intros [Fo _] OK. unfold add_port_edge. destruct (new_attrs_enum m (o_attrs o 0 m) (Fo 0 m)) as [[V ->]|(V & k & v & H1 & H2 & ->)].
  - split.
    + destruct OK. split; cbn; try assumption. { apply edges_add_ok. assumption. }
      intros e He. apply elem_of_app in He. destruct He as [He|He]; [auto|]. apply elem_of_list_singleton in He. subst e. apply valid_in; [exact _|exact V].
    + apply Sp_port_edge. exact V.
  - split; [exact OK|]. apply Sp_port_edge_bad. exists k, v. auto.
Qed.
Lemma ok_edge `{!accepts P} o g a b dir m : fair o -> graph_okP P g ->
  let '(g', r) := add_edge o g a b dir m in graph_okP P g' /\ spec_call (CAddEdge a b dir m) (view g) (view g') r.
Proof.
  intros Fo OK. unfold add_edge. pose proof (ok_port_edge o g a [] b [] dir m Fo OK) as H. revert H.
  destruct Fo as [Fo _]. unfold add_port_edge.
  destruct (new_attrs_enum m (o_attrs o 0 m) (Fo 0 m)) as [[V ->]|(V & k & v & H1 & H2 & ->)]; intros [H _]; (split; [exact H|]).
  - apply Sp_edge. exact V.
  - apply Sp_edge_bad. exists k, v. auto.
Qed.
Lemma ok_node `{!accepts P} o g p n m : fair o -> graph_okP P g ->
  let '(g', r) := add_node o g p n m in graph_okP P g' /\ spec_call (CAddNode p n m) (view g) (view g') r.
Proof.
  intros [Fo _] OK. unfold add_node. destruct (new_attrs_enum m (o_attrs o 0 m) (Fo 0 m)) as [[V ->]|(V & k & v & H1 & H2 & ->)].
  - pose proof (nodes_add_nview (g_nodes g) n m (o_attrs o 1 m) (go_nodes g OK) (Fo 1 m)) as Hn. split.
    + destruct OK. split; cbn; try assumption.
      * apply nodes_add_ok. assumption.
      * apply relations_add_ok. assumption.
      * intros n' a H. rewrite Hn in H. apply lookup_insert_Some in H. destruct H as [[<- <-]|[_ H]]; [|eauto].
        apply all_in_union; [apply valid_in; [exact _|exact V]|]. apply all_in_default. eauto.
    + eapply spec_eq; [apply Sp_node; exact V|].
      apply sgraph_eq; try reflexivity.
      * symmetry. exact Hn.
      * symmetry. apply (nodes_add_oview (g_nodes g) n m _ (go_nodes g OK)).
      * apply set_eq. intros [p' c]. cbn. rewrite elem_of_union, elem_of_singleton, !elem_of_rel_pairs, rel_insert_elem.
        rewrite pair_equal_spec. reflexivity.
  - split; [exact OK|]. apply Sp_node_bad. exists k, v. auto.
Qed.

Lemma remove_node_spec `{!accepts P} g p n : graph_okP P g ->
  (~ s_is_node (view g) n /\ remove_node g p n = (g, Some (lit "node " ++ n ++ lit " not found"))) \/
  (s_is_node (view g) n /\ exists g', remove_node g p n = (g', None) /\ graph_okP P g' /\ view g' = s_drop_nodes (view g) p {[n]}).
Proof.
  intros OK. unfold remove_node. destruct (nodes_remove_spec (g_nodes g) n (go_nodes g OK)) as [[H1 ->]|(H1 & ns' & -> & H2 & H3 & H4)].
  - left. split; [|reflexivity]. rewrite view_is_node, H1. apply is_Some_None.
  - right. split; [apply view_is_node; exact H1|]. eexists. split; [reflexivity|].
    set (keep := fun e => negb (str_eqb (e_dst e) n || str_eqb (e_src e) n)).
    assert (K : forall e, keep e = true <-> avoids {[n]} e).
    { intros e. unfold keep, avoids. rewrite negb_true_iff, orb_false_iff, !str_eqb_neq, !not_elem_of_singleton. tauto. }
    destruct (filter_edges_spec keep (g_edges g)) as [E1 E2]. rewrite (list_filter_bool keep (avoids {[n]}) _ K) in E2.
    split.
    + destruct OK. split; cbn; try assumption.
      * apply relations_remove_ok. assumption.
      * intros n' a H. rewrite H3 in H. apply lookup_delete_Some in H. destruct H as [_ H]. eauto.
      * intros e He. change (e ∈ edges_list (filter_edges keep (g_edges g))) in He.
        rewrite E2 in He. apply elem_of_list_filter in He. destruct He. auto.
    + apply sgraph_eq; try reflexivity.
      * transitivity (delete n (nview (g_nodes g))); [exact H3|]. cbn. apply map_eq. intros k. symmetry.
        destruct (decide (n = k)) as [<-|Hn].
        -- rewrite lookup_delete. apply map_filter_lookup_None. right. intros x _. cbn. intros H. apply H. apply elem_of_singleton. reflexivity.
        -- rewrite lookup_delete_ne by exact Hn. fold (nview (g_nodes g)). destruct (nview (g_nodes g) !! k) as [x|] eqn:E.
           ++ apply map_filter_lookup_Some. split; [exact E|]. cbn. rewrite elem_of_singleton. congruence.
           ++ apply map_filter_lookup_None. left. exact E.
      * transitivity (filter (fun x => x <> n) (oview (g_nodes g))); [exact H4|]. cbn.
        apply list_filter_iff. intros x. rewrite elem_of_singleton. reflexivity.
      * exact E2.
      * apply set_eq. intros [p' c]. cbn. rewrite elem_of_filter, !elem_of_rel_pairs, rel_delete_elem. cbn. rewrite elem_of_singleton. tauto.
Qed.

Definition has_attrs (s : sgraph) (n : gostr) : Prop := s_name s = n \/ s_is_sub s n.

Lemma add_attr_spec `{!accepts P} g n f v : graph_okP P g ->
  (~ has_attrs (view g) n /\ add_attr g n f v = (g, Some (lit "graph or subgraph " ++ n ++ lit " does not exist"))) \/
  (has_attrs (view g) n /\ ~ valid_attr f /\ exists g', add_attr g n f v = (g', Some (f ++ lit " is not a valid attribute")) /\ graph_okP P g' /\ g' = g) \/
  (has_attrs (view g) n /\ valid_attr f /\ exists g', add_attr g n f v = (g', None) /\ graph_okP P g' /\ view g' = s_put_attrs (view g) n {[f := v]}).
Proof.
  intros OK. unfold add_attr, has_attrs. cbn [view s_name]. destruct (str_eqb (g_name g) n) eqn:E.
  - apply str_eqb_eq in E. rewrite attrs_add_spec. destruct (decide (valid_attr f)) as [V|V].
    + right; right. split; [auto|]. split; [exact V|]. eexists. split; [reflexivity|]. split.
      * destruct OK. split; cbn; try assumption. apply all_in_insert; [apply accepts_valid; assumption|assumption].
      * unfold s_put_attrs. rewrite decide_True by exact E. apply sgraph_eq; try reflexivity. cbn.
        rewrite insert_union_singleton_l. reflexivity.
    + right; left. split; [auto|]. split; [exact V|]. eexists. split; [reflexivity|]. destruct g; split; [exact OK|reflexivity].
  - apply str_eqb_neq in E. destruct (g_subs g !! n) as [sg|] eqn:Es.
    + assert (S : s_is_sub (view g) n) by (apply view_is_sub; eauto). rewrite attrs_add_spec. destruct (decide (valid_attr f)) as [V|V].
      * right; right. split; [auto|]. split; [exact V|]. eexists. split; [reflexivity|]. split.
        -- destruct OK. split; cbn; try assumption.
           ++ intros n' s' H. apply lookup_insert_Some in H. destruct H as [[<- <-]|[_ H]]; [exact (go_subs0 n sg Es)|eauto].
           ++ intros n' s' H. apply lookup_insert_Some in H. destruct H as [[<- <-]|[_ H]]; [|eauto]. cbn. apply all_in_insert; [apply accepts_valid; assumption|eauto].
        -- unfold s_put_attrs. rewrite decide_False by exact E. apply sgraph_eq; try reflexivity. cbn.
           rewrite fmap_insert. cbn. rewrite lookup_fmap, Es. cbn. f_equal. apply insert_union_singleton_l.
      * right; left. split; [auto|]. split; [exact V|]. eexists. split; [reflexivity|].
        assert (<[n := Sub (sub_attrs sg) (sub_name sg)]> (g_subs g) = g_subs g) as ->.
        { rewrite insert_id; [reflexivity|]. rewrite Es. destruct sg; reflexivity. }
        destruct g; split; [exact OK|reflexivity].
    + left. split; [|reflexivity]. intros [H|H]; [contradiction|]. apply view_is_sub in H. rewrite Es in H. destruct H; discriminate.
Qed.

Lemma ok_attr `{!accepts P} g n f v : graph_okP P g ->
  let '(g', r) := add_attr g n f v in graph_okP P g' /\ spec_call (CAddAttr n f v) (view g) (view g') r.
Proof.
  intros OK. destruct (add_attr_spec g n f v OK) as [[H ->]|[(H & V & g' & -> & OK' & ->)|(H & V & g' & -> & OK' & ->)]].
  - split; [exact OK|]. unfold has_attrs in H. apply Sp_attr_unknown; tauto.
  - split; [exact OK|]. apply Sp_attr_bad; assumption.
  - split; [exact OK'|]. apply Sp_attr; assumption.
Qed.

Lemma put_attrs_empty s n : has_attrs s n -> s_put_attrs s n ∅ = s.
Proof.
  intros H. unfold s_put_attrs. destruct (decide (s_name s = n)) as [E|E].
  - apply sgraph_eq; try reflexivity. cbn. apply (left_id_L ∅ (∪)).
  - destruct H as [H|[a H]]; [contradiction|]. apply sgraph_eq; try reflexivity. cbn. rewrite H. cbn.
    rewrite (left_id_L ∅ (∪)). apply insert_id. exact H.
Qed.
Lemma put_attrs_name s n m : s_name (s_put_attrs s n m) = s_name s.
Proof. unfold s_put_attrs. destruct (decide (s_name s = n)); reflexivity. Qed.
Lemma put_attrs_put s n m m' : s_put_attrs (s_put_attrs s n m) n m' = s_put_attrs s n (m' ∪ m).
Proof.
  unfold s_put_attrs at 1. rewrite put_attrs_name. unfold s_put_attrs. destruct (decide (s_name s = n)) as [E|E].
  - apply sgraph_eq; try reflexivity. cbn. apply (assoc_L (∪)).
  - apply sgraph_eq; try reflexivity. cbn. rewrite lookup_insert. cbn. rewrite insert_insert, (assoc_L (∪)). reflexivity.
Qed.
Lemma put_attrs_has s n m n' : has_attrs s n' -> has_attrs (s_put_attrs s n m) n'.
Proof.
  unfold has_attrs. rewrite put_attrs_name. intros [H|H]; [auto|]. right. unfold s_put_attrs.
  destruct (decide (s_name s = n)) as [E|E]; [exact H|]. unfold s_is_sub. cbn. apply lookup_insert_is_Some'. auto.
Qed.

Lemma add_attrs_loop_spec `{!accepts P} n l : forall g, graph_okP P g -> has_attrs (view g) n -> NoDup l.*1 ->
  exists l1 l2, l = l1 ++ l2 /\ Forall (fun kv => valid_attr kv.1) l1 /\
    graph_okP P (add_attrs_loop g n l).1 /\
    view (add_attrs_loop g n l).1 = s_put_attrs (view g) n (list_to_map l1) /\
    match l2 with
    | [] => (add_attrs_loop g n l).2 = None
    | kv :: _ => ~ valid_attr kv.1 /\ (add_attrs_loop g n l).2 = Some (kv.1 ++ lit " is not a valid attribute")
    end.
Proof.
  induction l as [|[k v] l IH]; intros g OK Ha N; cbn [add_attrs_loop].
  - exists [], []. split; [reflexivity|]. split; [constructor|]. split; [exact OK|]. split; [|reflexivity].
    cbn. symmetry. apply put_attrs_empty. exact Ha.
  - cbn in N. apply NoDup_cons in N. destruct N as [N1 N2].
    destruct (add_attr_spec g n k v OK) as [[H _]|[(H & V & g' & -> & OK' & ->)|(H & V & g' & -> & OK' & E)]]; [contradiction| |].
    + exists [], ((k, v) :: l). split; [reflexivity|]. split; [constructor|]. split; [exact OK|]. split; [|auto].
      cbn. symmetry. apply put_attrs_empty. exact Ha.
    + destruct (IH g' OK') as (l1 & l2 & -> & F & O & Ev & R); [rewrite E; apply put_attrs_has; exact Ha|exact N2|].
      exists ((k, v) :: l1), l2. split; [reflexivity|]. split; [constructor; assumption|]. split; [exact O|]. split; [|exact R].
      rewrite Ev, E, put_attrs_put. f_equal. change (list_to_map ((k, v) :: l1)) with (<[k := v]> (list_to_map l1 : attrs)).
      rewrite insert_union_singleton_r; [reflexivity|]. apply not_elem_of_list_to_map.
      rewrite fmap_app in N1. apply not_elem_of_app in N1. apply N1.
Qed.

Lemma ok_sub `{!accepts P} o g p n m : fair o -> graph_okP P g ->
  let '(g', r) := add_subgraph o g p n m in graph_okP P g' /\ spec_call (CAddSubGraph p n m) (view g) (view g') r.
Proof.
  intros [Fo _] OK. unfold add_subgraph.
  set (g2 := with_subs _ _).
  assert (E2 : view g2 = s_open_sub (view g) p n).
  { apply sgraph_eq; try reflexivity.
    - cbn. unfold subs_add. apply map_eq. intros k. rewrite !lookup_fmap. destruct (g_subs g !! n) as [sg|] eqn:E; cbn.
      + destruct (decide (n = k)) as [<-|Hn]; [rewrite lookup_insert, E; reflexivity|].
        rewrite lookup_insert_ne, lookup_fmap by exact Hn. reflexivity.
      + destruct (decide (n = k)) as [<-|Hn]; [rewrite !lookup_insert; reflexivity|].
        rewrite !lookup_insert_ne, lookup_fmap by exact Hn. reflexivity.
    - apply set_eq. intros [p' c]. cbn. rewrite elem_of_union, elem_of_singleton, !elem_of_rel_pairs, rel_insert_elem.
      rewrite pair_equal_spec. reflexivity. }
  assert (OK2 : graph_okP P g2).
  { destruct OK. split; cbn; try assumption.
    - apply relations_add_ok. assumption.
    - intros n' s'. unfold subs_add. destruct (g_subs g !! n); [apply go_subs0|]. intros H. apply lookup_insert_Some in H.
      destruct H as [[<- <-]|[_ H]]; [reflexivity|eauto].
    - intros n' s'. unfold subs_add. destruct (g_subs g !! n); [apply go_sattrs0|]. intros H. apply lookup_insert_Some in H.
      destruct H as [[<- <-]|[_ H]]; [apply all_in_empty|eauto]. }
  assert (Ha : has_attrs (view g2) n).
  { rewrite E2. right. unfold s_is_sub. cbn. rewrite lookup_insert. eauto. }
  pose proof (Fo 0 m) as Pm. pose proof (iter_nodup m _ Pm) as N.
  destruct (add_attrs_loop_spec n (o_attrs o 0 m) g2 OK2 Ha N) as (l1 & l2 & E & F & O & Ev & R).
  destruct (add_attrs_loop g2 n (o_attrs o 0 m)) as [g' r]. cbn [fst snd] in *. split; [exact O|]. rewrite Ev, E2.
  assert (Hm : forall k v, (list_to_map l1 : attrs) !! k = Some v -> m !! k = Some v).
  { intros k v H. apply elem_of_list_to_map_2 in H. apply (iter_elem m _ Pm). rewrite E. apply elem_of_app. auto. }
  assert (V1 : all_valid (list_to_map l1)).
  { intros k v H. apply elem_of_list_to_map_2 in H. rewrite Forall_forall in F. apply (F (k, v) H). }
  destruct l2 as [|[k v] l2].
  - rewrite app_nil_r in E. rewrite <- E in *. rewrite (iter_map m _ Pm) in *. subst r. apply Sp_sub. exact V1.
  - destruct R as [R1 ->]. apply Sp_sub_bad; [|apply map_subseteq_spec; exact Hm|exact V1].
    exists k, v. split; [|auto]. apply (iter_elem m _ Pm). rewrite E. apply elem_of_app. right. left.
Qed.

Lemma filter_all {A} (P : A -> Prop) `{HD : forall x, Decision (P x)} (l : list A) : (forall x, P x) -> filter P l = l.
Proof. intros H. induction l as [|x l IH]; [reflexivity|]. rewrite filter_cons_True by apply H. rewrite IH. reflexivity. Qed.
Lemma drop_nodes_nil s p : s_drop_nodes s p ∅ = s.
Proof.
  apply sgraph_eq; try reflexivity; cbn.
  - apply map_filter_id. intros. apply not_elem_of_empty.
  - apply filter_all. intros. apply not_elem_of_empty.
  - apply filter_all. intros. split; apply not_elem_of_empty.
  - apply set_eq. intros x. rewrite elem_of_filter. split; [intros [_ H]; exact H|]. intros H. split; [|exact H].
    intros [_ H']. apply elem_of_empty in H'. exact H'.
Qed.
Lemma drop_nodes_drop s p N N' : s_drop_nodes (s_drop_nodes s p N) p N' = s_drop_nodes s p (N ∪ N').
Proof.
  apply sgraph_eq; try reflexivity; cbn.
  - rewrite map_filter_filter. apply map_filter_ext. intros k x _. cbn. rewrite not_elem_of_union. tauto.
  - rewrite list_filter_filter. apply list_filter_iff. intros x. rewrite not_elem_of_union. tauto.
  - rewrite list_filter_filter. apply list_filter_iff. intros x. unfold avoids. rewrite !not_elem_of_union. tauto.
  - apply set_eq. intros x. rewrite !elem_of_filter, elem_of_union. tauto.
Qed.
Lemma drop_nodes_is_node s p N c : s_is_node (s_drop_nodes s p N) c <-> s_is_node s c /\ c ∉ N.
Proof.
  unfold s_is_node. cbn. split.
  - intros [a H]. apply map_filter_lookup_Some in H. destruct H as [H1 H2]. split; [eauto|exact H2].
  - intros [[a H1] H2]. exists a. apply map_filter_lookup_Some. auto.
Qed.

Lemma remove_nodes_loop_spec `{!accepts P} p l : forall g, graph_okP P g -> NoDup l ->
  exists l1 l2, l = l1 ++ l2 /\ (forall c, c ∈ l1 -> s_is_node (view g) c) /\
    graph_okP P (remove_nodes_loop g p l).1 /\
    view (remove_nodes_loop g p l).1 = s_drop_nodes (view g) p (list_to_set l1) /\
    match l2 with
    | [] => (remove_nodes_loop g p l).2 = None
    | c :: _ => ~ s_is_node (view g) c /\ (remove_nodes_loop g p l).2 = Some (lit "node " ++ c ++ lit " not found")
    end.
Proof.
  induction l as [|c l IH]; intros g OK N; cbn [remove_nodes_loop].
  - exists [], []. split; [reflexivity|]. split; [intros c H; apply elem_of_nil in H; contradiction|].
    split; [exact OK|]. split; [|reflexivity]. cbn. symmetry. apply drop_nodes_nil.
  - apply NoDup_cons in N. destruct N as [N1 N2].
    destruct (remove_node_spec g p c OK) as [[H ->]|(H & g' & -> & OK' & E)].
    + exists [], (c :: l). split; [reflexivity|]. split; [intros c' H'; apply elem_of_nil in H'; contradiction|].
      split; [exact OK|]. split; [|auto]. cbn. symmetry. apply drop_nodes_nil.
    + destruct (IH g' OK' N2) as (l1 & l2 & -> & F & O & Ev & R). exists (c :: l1), l2. split; [reflexivity|].
      rewrite E in *. split; [|split; [exact O|split]].
      * intros c' Hc. apply elem_of_cons in Hc. destruct Hc as [->|Hc]; [exact H|]. apply F, drop_nodes_is_node in Hc. apply Hc.
      * rewrite Ev, drop_nodes_drop. reflexivity.
      * destruct l2 as [|c' l2]; [exact R|]. destruct R as [R1 R2]. split; [|exact R2]. intros H'. apply R1. apply drop_nodes_is_node.
        split; [exact H'|]. apply not_elem_of_singleton. intros ->. apply N1. apply elem_of_app. right. left.
Qed.

Lemma ok_remove_sub `{!accepts P} o g p n : fair o -> graph_okP P g ->
  let '(g', r) := remove_subgraph o g p n in graph_okP P g' /\ spec_call (CRemoveSubGraph p n) (view g) (view g') r.
Proof.
  intros [_ Fo] OK. unfold remove_subgraph. pose proof (Fo 0 (children (g_rels g) n)) as Pm.
  assert (N : NoDup (o_names o 0 (children (g_rels g) n))) by (rewrite Pm; apply NoDup_elements).
  assert (In : forall c, c ∈ o_names o 0 (children (g_rels g) n) <-> is_child (view g) n c).
  { intros c. rewrite Pm, elem_of_elements, view_child. reflexivity. }
  destruct (remove_nodes_loop_spec p _ g OK N) as (l1 & l2 & E & F & O & Ev & R).
  destruct (remove_nodes_loop g p (o_names o 0 (children (g_rels g) n))) as [g1 r]. cbn [fst snd] in *.
  destruct l2 as [|c l2].
  - subst r. rewrite app_nil_r in E. rewrite E in In. clear E Pm N.
    set (keep := fun e => negb (str_eqb (e_dst e) n || str_eqb (e_dst_port e) n || str_eqb (e_src e) n || str_eqb (e_src_port e) n)).
    assert (K : forall e, keep e = true <-> avoids_sub n e).
    { intros e. unfold keep, avoids_sub. rewrite negb_true_iff, !orb_false_iff, !str_eqb_neq. tauto. }
    destruct (filter_edges_spec keep (g_edges g1)) as [E1 E2]. rewrite (list_filter_bool keep (avoids_sub n) _ K) in E2.
    split.
    + destruct O. split; cbn; try assumption.
      * apply relations_remove_ok. assumption.
      * intros n' s' H. apply lookup_delete_Some in H. destruct H as [_ H]. eauto.
      * intros e He. change (e ∈ edges_list (filter_edges keep (g_edges g1))) in He. rewrite E2 in He. apply elem_of_list_filter in He. destruct He. auto.
      * intros n' s' H. apply lookup_delete_Some in H. destruct H as [_ H]. eauto.
    + eapply spec_eq; [apply (Sp_remove_sub p n (view g) (list_to_set l1))|].
      * intros c. rewrite elem_of_list_to_set. apply In.
      * intros c Hc. apply elem_of_list_to_set in Hc. auto.
      * cbn zeta. rewrite <- Ev. apply sgraph_eq; try reflexivity.
        -- symmetry. exact E2.
        -- cbn. symmetry. apply fmap_delete.
        -- apply set_eq. intros [p' c]. cbn. rewrite elem_of_difference, elem_of_singleton, !elem_of_rel_pairs, rel_delete_elem.
           rewrite pair_equal_spec. tauto.
  - destruct R as [R1 ->]. split; [exact O|]. rewrite Ev. apply Sp_remove_sub_bad.
    + apply In. rewrite E. apply elem_of_app. right. left.
    + exact R1.
    + intros c' Hc. apply elem_of_list_to_set in Hc. split; [|auto]. apply In. rewrite E. apply elem_of_app. auto.
Qed.

Theorem exec_ok `{!accepts P} o c g : fair o -> graph_okP P g -> graph_okP P (exec o c g).1 /\ spec_call c (view g) (view (exec o c g).1) (exec o c g).2.
Proof.
  intros Fo OK. destruct c; cbn [exec].
  - split; [destruct OK; split; assumption|apply Sp_strict].
  - split; [destruct OK; split; assumption|apply Sp_dir].
  - split; [destruct OK; split; assumption|apply Sp_name].
  - pose proof (ok_port_edge o g src src_port dst dst_port dir m Fo OK) as H. destruct (add_port_edge _ _ _ _ _ _ _ _). exact H.
  - pose proof (ok_edge o g src dst dir m Fo OK) as H. destruct (add_edge _ _ _ _ _ _). exact H.
  - pose proof (ok_node o g parent name m Fo OK) as H. destruct (add_node _ _ _ _ _). exact H.
  - pose proof (ok_attr g parent field value OK) as H. destruct (add_attr _ _ _ _). exact H.
  - pose proof (ok_sub o g parent name m Fo OK) as H. destruct (add_subgraph _ _ _ _ _). exact H.
  - destruct (remove_node_spec g parent name OK) as [[H ->]|(H & g' & -> & OK' & E)].
    + split; [exact OK|]. apply Sp_remove_node_bad. exact H.
    + split; [exact OK'|]. cbn [fst]. rewrite E. apply Sp_remove_node. exact H.
  - pose proof (ok_remove_sub o g parent name Fo OK) as H. destruct (remove_subgraph _ _ _ _). exact H.
Qed.

Lemma reachable_ok g : reachable g -> graph_ok g.
Proof. induction 1 as [|g o c R IH Fo]; [apply graph_ok_new|]. apply exec_ok; assumption. Qed.

Lemma run_ok `{!accepts P} h : forall g, Forall (fun oc => fair oc.1) h -> graph_okP P g ->
  graph_okP P (run h g).1 /\ spec_run (map snd h) (view g) (view (run h g).1) (run h g).2.
Proof.
  induction h as [|[o c] h IH]; intros g F OK; cbn [run map snd]; [split; [exact OK|constructor]|].
  inversion F as [|? ? F1 F2]; subst. cbn in F1. destruct (exec_ok o c g F1 OK) as [O1 S1].
  destruct (exec o c g) as [g1 r]. cbn [fst snd] in *. destruct (IH g1 F2 O1) as [O2 S2]. destruct (run h g1) as [g2 rs].
  cbn [fst snd] in *. split; [exact O2|]. econstructor; eassumption.
Qed.
Lemma run_reachable h : forall g, Forall (fun oc => fair oc.1) h -> reachable g -> reachable (run h g).1.
Proof.
  induction h as [|[o c] h IH]; intros g F R; cbn [run]; [exact R|]. inversion F as [|? ? F1 F2]; subst.
  pose proof (reach_call g o c R F1) as R1. destruct (exec o c g) as [g1 r]. cbn in R1. specialize (IH g1 F2 R1).
  destruct (run h g1). exact IH.
Qed.
