(** The writer on a graph in which several names were assigned, compared with the writer on the graph itself. *)
From Verif Require Import Maps MapFacts Parser Graph GraphProofs AttrMap Write Direct DirectProofs SpecGraph SpecCount Rename SpecRename RenameProofs.
From Verif Require Ast AstProofs.

Lemma node_now_snoc (l : list naming) (c : naming) (x : gostr) : node_now (l ++ [c]) x = match c with NameNode a n => if decide (a = x) then n else node_now l x | _ => node_now l x end.
Proof. unfold node_now. rewrite fold_left_app. reflexivity. Qed.
Lemma sub_now_snoc (l : list naming) (c : naming) (x : gostr) : sub_now (l ++ [c]) x = match c with NameSub a n => if decide (a = x) then n else sub_now l x | _ => sub_now l x end.
Proof. unfold sub_now. rewrite fold_left_app. reflexivity. Qed.
Lemma node_now_in (l : list naming) (x : gostr) : node_now l x <> x -> exists n, NameNode x n ∈ l.
Proof.
  induction l as [|c l IH] using rev_ind; [intros H; exfalso; apply H; reflexivity|]. rewrite node_now_snoc. intros H. destruct c as [a n|s t].
  - destruct (decide (a = x)) as [->|N]; [exists n; apply elem_of_app; right; left|]. destruct (IH H) as [m Hm]. exists m. apply elem_of_app. auto.
  - destruct (IH H) as [m Hm]. exists m. apply elem_of_app. auto.
Qed.
Lemma sub_now_in (l : list naming) (x : gostr) : sub_now l x <> x -> exists n, NameSub x n ∈ l.
Proof.
  induction l as [|c l IH] using rev_ind; [intros H; exfalso; apply H; reflexivity|]. rewrite sub_now_snoc. intros H. destruct c as [a n|s t].
  - destruct (IH H) as [m Hm]. exists m. apply elem_of_app. auto.
  - destruct (decide (s = x)) as [->|N]; [exists t; apply elem_of_app; right; left|]. destruct (IH H) as [m Hm]. exists m. apply elem_of_app. auto.
Qed.

(** Everything but the names is as before. *)
Lemma assigned_shape (g : agraph) (l : list naming) : graph_okP (fun _ => True) g ->
  let g' := assign_names g l in
  nodes_lookup (g_nodes g') = nodes_lookup (g_nodes g) /\
  (forall k p, nodes_lookup (g_nodes g) !! k = Some p -> deref (g_nodes g') p = Node (node_now l k) (node_attrs (deref (g_nodes g) p))) /\
  g_subs g' = (fun s => Sub (sub_attrs s) (sub_now l (sub_name s))) <$> g_subs g /\
  g_rels g' = g_rels g /\ g_name g' = g_name g /\ g_attrs g' = g_attrs g /\ g_directed g' = g_directed g /\ g_strict g' = g_strict g /\ g_edges g' = g_edges g.
Proof.
  intros G. cbv zeta. induction l as [|c l IH] using rev_ind.
  - change (assign_names g []) with g. split; [reflexivity|]. split; [|split; [|auto 10]].
    + intros k p E. destruct (no_lookup _ (go_nodes _ G) k p E) as [_ [x Hx]]. unfold deref. rewrite Hx. reflexivity.
    + apply map_eq. intros i. rewrite lookup_fmap. destruct (g_subs g !! i) as [[]|]; reflexivity.
  - assert (E : assign_names g (l ++ [c]) = assign_name (assign_names g l) c) by (unfold assign_names; rewrite fold_left_app; reflexivity).
    rewrite E. set (g1 := assign_names g l) in *. destruct IH as (I1 & I2 & I3 & I4 & I5 & I6 & I7 & I8 & I9).
    destruct c as [a n|s t]; cbn [assign_name].
    + unfold assign_node_name. destruct (nodes_lookup (g_nodes g1) !! a) as [p|] eqn:Ea.
      * cbn [g_nodes with_nodes nodes_lookup g_subs g_rels g_name g_attrs g_directed g_strict g_edges]. split; [exact I1|]. split; [|split; [|auto 10]].
        -- intros k q Ek. rewrite node_now_snoc. unfold deref at 1. cbn [nodes_heap]. rewrite I1 in Ea.
           destruct (no_lookup _ (go_nodes _ G) k q Ek) as [_ [x Hx]]. destruct (no_lookup _ (go_nodes _ G) a p Ea) as [_ [y Hy]].
           destruct (decide (a = k)) as [->|N].
           ++ rewrite Ea in Ek. injection Ek as ->. rewrite lookup_insert. cbn [default from_option id]. rewrite (I2 k q Ea). reflexivity.
           ++ rewrite lookup_insert_ne by (intros ->; rewrite Hx in Hy; congruence). exact (I2 k q Ek).
        -- rewrite I3. apply map_eq. intros i. rewrite !lookup_fmap. destruct (g_subs g !! i) as [b|]; [|reflexivity]. cbn. rewrite sub_now_snoc. reflexivity.
      * split; [exact I1|]. split; [|split; [|auto 10]].
        -- intros k q Ek. rewrite node_now_snoc. destruct (decide (a = k)) as [->|N]; [rewrite I1 in Ea; congruence|exact (I2 k q Ek)].
        -- rewrite I3. apply map_eq. intros i. rewrite !lookup_fmap. destruct (g_subs g !! i) as [b|]; [|reflexivity]. cbn. rewrite sub_now_snoc. reflexivity.
    + unfold assign_sub_name. destruct (g_subs g1 !! s) as [sb|] eqn:Es.
      * cbn [g_nodes with_subs g_subs g_rels g_name g_attrs g_directed g_strict g_edges]. split; [exact I1|]. split; [|split; [|auto 10]].
        -- intros k q Ek. rewrite node_now_snoc. exact (I2 k q Ek).
        -- rewrite I3 in Es |- *. rewrite lookup_fmap in Es. apply map_eq. intros i. rewrite lookup_fmap. destruct (decide (i = s)) as [->|N].
           ++ rewrite lookup_insert. destruct (g_subs g !! s) as [b|] eqn:Eb; [|discriminate]. injection Es as <-. cbn. rewrite sub_now_snoc, (go_subs _ G s b Eb).
              rewrite decide_True by reflexivity. reflexivity.
           ++ rewrite lookup_insert_ne by congruence. rewrite lookup_fmap. destruct (g_subs g !! i) as [b|] eqn:Eb; [|reflexivity]. cbn. rewrite sub_now_snoc, (go_subs _ G i b Eb).
              rewrite decide_False by congruence. reflexivity.
      * split; [exact I1|]. split; [|split; [|auto 10]].
        -- intros k q Ek. rewrite node_now_snoc. exact (I2 k q Ek).
        -- rewrite I3. rewrite I3, lookup_fmap in Es. apply map_eq. intros i. rewrite !lookup_fmap. destruct (g_subs g !! i) as [b|] eqn:Eb; [|reflexivity]. cbn. rewrite sub_now_snoc, (go_subs _ G i b Eb).
           rewrite decide_False; [reflexivity|]. intros ->. rewrite Eb in Es. discriminate.
Qed.

(** The relations without those to the renamed subgraphs *)
Lemma children_remove (r : relations) (p c k : gostr) : children (relations_remove r p c) k = if decide (k = p) then children r k ∖ {[c]} else children r k.
Proof.
  unfold children, relations_remove, rel_delete. cbn [parent_to_children]. destruct (parent_to_children r !! p) as [x|] eqn:E.
  - destruct (decide (k = p)) as [->|N]; [rewrite lookup_insert, E; reflexivity|]. rewrite lookup_insert_ne by congruence. reflexivity.
  - destruct (decide (k = p)) as [->|N]; [|reflexivity]. rewrite E. cbn. set_solver.
Qed.
Lemma children_without (g : agraph) (l : list naming) (k : gostr) :
  (k <> g_name g -> children (g_rels (without_renamed g l)) k = children (g_rels g) k) /\
  (forall x, x ∈ children (g_rels (without_renamed g l)) (g_name g) <-> x ∈ children (g_rels g) (g_name g) /\ sub_now l x = x).
Proof.
  unfold without_renamed. cbn [g_rels with_rels].
  assert (H : forall m r, (forall c, c ∈ m -> c ∈ l) -> let r' := fold_left (fun r c => match c with NameSub s _ => if decide (sub_now l s = s) then r else relations_remove r (g_name g) s | _ => r end) m r in
    (k <> g_name g -> children r' k = children r k) /\
    (forall x, x ∈ children r' (g_name g) <-> x ∈ children r (g_name g) /\ (sub_now l x = x \/ forall t, NameSub x t ∉ m))).
  { induction m as [|c m IH]; intros r Hm; cbv zeta; cbn [fold_left].
    - split; [auto|]. intros x. split; [|tauto]. intros X. split; [exact X|]. right. intros t. apply not_elem_of_nil.
    - destruct (IH (match c with NameSub s _ => if decide (sub_now l s = s) then r else relations_remove r (g_name g) s | _ => r end)) as [I1 I2]; [intros d Hd; apply Hm; right; exact Hd|].
      split.
      + intros N. rewrite (I1 N). destruct c as [a n|s t]; [reflexivity|]. destruct (decide _); [reflexivity|]. rewrite children_remove, decide_False by exact N. reflexivity.
      + intros x. rewrite (I2 x). destruct c as [a n|s t].
        * assert (Q : (forall t, NameSub x t ∉ NameNode a n :: m) <-> (forall t, NameSub x t ∉ m)).
          { split; intros H t X; apply (H t); [right; exact X|]. apply elem_of_cons in X. destruct X as [X|X]; [discriminate|exact X]. }
          rewrite Q. reflexivity.
        * destruct (decide (sub_now l s = s)) as [Es|Es].
          -- assert (Q : (sub_now l x = x \/ forall t0, NameSub x t0 ∉ NameSub s t :: m) <-> (sub_now l x = x \/ forall t, NameSub x t ∉ m)).
             { split; (intros [H|H]; [left; exact H|]).
               - right. intros t0 X. apply (H t0). right. exact X.
               - destruct (decide (x = s)) as [->|N]; [left; exact Es|]. right. intros t0 X. apply elem_of_cons in X. destruct X as [X|X]; [congruence|exact (H t0 X)]. }
             rewrite Q. reflexivity.
          -- rewrite children_remove, decide_True by reflexivity. rewrite elem_of_difference, elem_of_singleton. destruct (decide (x = s)) as [->|N].
             ++ split; [intros [[_ X] _]; congruence|]. intros [_ [X|X]]; [congruence|]. exfalso. apply (X t). left.
             ++ assert (Q : (forall t0, NameSub x t0 ∉ NameSub s t :: m) <-> (forall t, NameSub x t ∉ m)).
                { split; intros H t0 X; apply (H t0); [right; exact X|]. apply elem_of_cons in X. destruct X as [X|X]; [congruence|exact X]. }
                rewrite Q. tauto. }
  destruct (H l (g_rels g) (fun c Hc => Hc)) as [H1 H2]. split; [exact H1|]. intros x. rewrite (H2 x). split; [|tauto]. intros [X [Y|Y]]; [auto|]. split; [exact X|].
  destruct (decide (sub_now l x = x)) as [E|E]; [exact E|]. destruct (sub_now_in l x E) as [t Ht]. exfalso. exact (Y t Ht).
Qed.

Section Many.
  Variables (o : oracle) (g : agraph) (l : list naming).
  Hypothesis Fo : fair o.
  Hypothesis G : graph_okP (fun _ => True) g.
  Hypothesis NN : new_names g l.
  Hypothesis Sg : is_subgraph g (g_name g) = false.
  Let g' := assign_names g l.
  Let gc := without_renamed g l.
  Let f := node_now l.
  Let h := sub_now l.
  Definition many_r (x : gostr) : gostr := if is_node g x then f x else h x.
  Definition many_new (y : gostr) : Prop := exists x, (node_now l x <> x /\ y = node_now l x) \/ (sub_now l x <> x /\ y = sub_now l x).
  Lemma f_node x : f x <> x -> is_node g x = true.
  Proof. intros H. destruct (node_now_in l x H) as [n Hn]. exact (nn_there _ _ NN _ Hn). Qed.
  Lemma h_sub x : h x <> x -> is_subgraph g x = true.
  Proof. intros H. destruct (sub_now_in l x H) as [n Hn]. exact (nn_there _ _ NN _ Hn). Qed.
  Lemma new_free y : many_new y -> free_name g y.
  Proof. intros (x & [[N ->]|[N ->]]); [apply (nn_node _ _ NN x N)|apply (nn_sub _ _ NN x N)]. Qed.
  Lemma r_node x : is_node g x = true -> f x = many_r x.
  Proof. intros E. unfold many_r. rewrite E. reflexivity. Qed.
  Lemma r_sub x : is_subgraph g x = true -> h x = many_r x.
  Proof.
    intros E. unfold many_r. destruct (is_node g x) eqn:N; [|reflexivity].
    assert (Hx : h x = x). { destruct (decide (h x = x)) as [Q|Q]; [exact Q|]. destruct (nn_sub _ _ NN x Q) as (_ & _ & X). congruence. }
    assert (Fx : f x = x). { destruct (decide (f x = x)) as [Q|Q]; [exact Q|]. destruct (nn_node _ _ NN x Q) as [_ X]. congruence. }
    congruence.
  Qed.
  Lemma r_cases x : many_r x = x \/ (f x <> x /\ many_r x = f x) \/ (h x <> x /\ many_r x = h x).
  Proof. unfold many_r. destruct (is_node g x); [destruct (decide (f x = x))|destruct (decide (h x = x))]; auto. Qed.
  Lemma minj : forall x y, ~ many_new x -> ~ many_new y -> many_r x = many_r y -> x = y.
  Proof.
    intros x y Nx Ny E. destruct (r_cases x) as [X|[[X1 X]|[X1 X]]], (r_cases y) as [Y|[[Y1 Y]|[Y1 Y]]]; rewrite X, Y in E.
    - exact E.
    - exfalso. apply Nx. exists y. left. auto.
    - exfalso. apply Nx. exists y. right. auto.
    - exfalso. apply Ny. exists x. left. auto.
    - exact (nn_nodes _ _ NN x y X1 Y1 E).
    - exfalso. exact (nn_both _ _ NN x y X1 Y1 E).
    - exfalso. apply Ny. exists x. right. auto.
    - exfalso. exact (nn_both _ _ NN y x Y1 X1 (eq_sym E)).
    - exact (nn_subs _ _ NN x y X1 Y1 E).
  Qed.
  Lemma mHl : nodes_lookup (g_nodes g') = nodes_lookup (g_nodes gc). Proof. exact (proj1 (assigned_shape g l G)). Qed.
  Lemma mHn : forall k p, nodes_lookup (g_nodes gc) !! k = Some p ->
    deref (g_nodes g') p = Node (f k) (node_attrs (deref (g_nodes gc) p)) /\ node_name (deref (g_nodes gc) p) = k /\ f k = many_r k /\ ~ many_new k.
  Proof.
    intros k p E. change (g_nodes gc) with (g_nodes g) in *. assert (Nk : is_node g k = true) by (unfold is_node; rewrite E; reflexivity).
    split; [exact (proj1 (proj2 (assigned_shape g l G)) k p E)|]. split; [|split].
    - destruct (no_lookup _ (go_nodes _ G) k p E) as [_ [x Hx]]. unfold deref. rewrite Hx. reflexivity.
    - apply r_node. exact Nk.
    - intros X. destruct (new_free k X) as [Y _]. congruence.
  Qed.
  Lemma mHs : g_subs g' = (fun s => Sub (sub_attrs s) (h (sub_name s))) <$> g_subs gc.
  Proof. exact (proj1 (proj2 (proj2 (assigned_shape g l G)))). Qed.
  Lemma mHs2 : forall k s, g_subs gc !! k = Some s -> sub_name s = k /\ h k = many_r k /\ ~ many_new k /\ (is_node gc k = false -> f k = k).
  Proof.
    intros k s E. change (g_subs gc) with (g_subs g) in E. assert (Sk : is_subgraph g k = true) by (unfold is_subgraph; rewrite E; reflexivity).
    split; [exact (go_subs _ G k s E)|]. split; [apply r_sub; exact Sk|]. split; [intros X; destruct (new_free k X) as [_ Y]; congruence|].
    intros Nk. destruct (decide (f k = k)) as [Q|Q]; [exact Q|]. apply f_node in Q. change (is_node gc k) with (is_node g k) in Nk. congruence.
  Qed.
  Lemma mrels : g_rels g' = g_rels g. Proof. apply (assigned_shape g l G). Qed.
  Lemma mname : g_name g' = g_name gc. Proof. exact (proj1 (proj2 (proj2 (proj2 (proj2 (assigned_shape g l G)))))). Qed.
  Lemma mHr : forall k s, g_subs gc !! k = Some s -> children (g_rels g') k = children (g_rels gc) k.
  Proof.
    intros k s E. rewrite mrels. symmetry. apply (children_without g l k). intros ->. change (g_subs gc) with (g_subs g) in E. unfold is_subgraph in Sg. rewrite E in Sg. discriminate.
  Qed.
  Lemma mHc : forall k s, g_subs gc !! k = Some s ->
    (h k ∈ children (g_rels g') (g_name gc) <-> k ∈ children (g_rels gc) (g_name gc)) /\ (k ∈ children (g_rels gc) (g_name gc) -> h k = k).
  Proof.
    intros k s E. rewrite mrels. change (g_name gc) with (g_name g). destruct (children_without g l k) as [_ C]. change (without_renamed g l) with gc in C. rewrite (C k).
    change (sub_now l k) with (h k). destruct (decide (h k = k)) as [Q|Q]; [rewrite Q; tauto|]. split; [|tauto]. split; [|tauto].
    intros X. exfalso. exact (proj1 (proj2 (nn_sub _ _ NN k Q)) X).
  Qed.
  Lemma mfresh k : f k = k \/ nodes_lookup (g_nodes gc) !! f k = None.
  Proof.
    destruct (decide (f k = k)) as [Q|Q]; [auto|right]. destruct (nn_node _ _ NN k Q) as [[X _] _]. unfold is_node in X. change (g_nodes gc) with (g_nodes g).
    change (node_now l k) with (f k) in X. destruct (nodes_lookup (g_nodes g) !! f k); [discriminate|reflexivity].
  Qed.

  Theorem many_text srt fuel : write_ast srt o g' fuel =
    match write_ast srt o gc fuel with
    | Ok t => if decide (Exists (fun a => f a <> a) (top_nodes t)) then Panic else Ok (ren_graph f h t)
    | x => x
    end.
  Proof.
    unfold write_ast. assert (Z : sim many_r many_new (WState ∅ 0) (WState ∅ 0)).
    { split; [reflexivity|]. intros x _. cbn. split; intros H; apply elem_of_empty in H; contradiction. }
    assert (Eg : g_attrs g' = g_attrs gc /\ g_directed g' = g_directed gc /\ g_strict g' = g_strict gc /\ g_edges g' = g_edges gc) by (repeat split; apply (assigned_shape g l G)).
    destruct Eg as (Ea & Ed & Est & Ee). rewrite Ea, Ed, Est, Ee, mname.
    pose proof (append_sim o f h many_r many_new (g_attrs gc) _ _ Z) as [A1 A2].
    destruct (attrs_tops o (g_attrs gc) (WState ∅ 0)) as [T1 _].
    destruct (append_attrs o (g_attrs gc) (WState ∅ 0)) as [sa st1]. cbn [fst snd] in *.
    pose proof (edges_sim o gc g' f h _ many_new minj mHl mHn mHs mHs2 mHr fuel (srt (edges_list (g_edges gc))) sa st1 st1 A2) as Q. rewrite <- A1 in Q.
    destruct (edges_loop o gc fuel _ sa st1) as [[l2 st2]| | |] eqn:E2, (edges_loop o g' fuel _ _ st1) as [[l2' st2']| | |]; try contradiction; try (cbn in Q; subst; reflexivity).
    destruct Q as [Q1 Q2]. cbn [fst snd] in Q1, Q2. subst l2'. apply edges_tops in E2. destruct E2 as [T2 _]. rewrite T1 in T2.
    pose proof Q2 as [Tk _]. rewrite Tk. unfold subs_sorted. change (fun k => default (Sub ∅ []) (g_subs gc !! k)) with (sub_of (g_subs gc)).
    change (fun k => default (Sub ∅ []) (g_subs g' !! k)) with (sub_of (g_subs g')).
    replace (keys (g_subs g')) with (keys (g_subs gc)) by (rewrite mHs; unfold keys; rewrite dom_fmap_L; reflexivity).
    assert (KS : forall k, k ∈ sorted_keys (o_names o (w_tick st2) (keys (g_subs gc))) -> is_Some (g_subs gc !! k)).
    { intros k. rewrite (sorted_in o Fo). apply elem_of_dom. }
    pose proof (subs_sim o gc g' f h _ many_new minj mHl mHn mHs mHs2 mHr mname mHc fuel _ KS l2 _ _ (sim_tick _ _ 1 _ _ Q2)) as Q.
    destruct (subs_loop o gc fuel _ l2 _) as [[l3 st3]| | |] eqn:E3, (subs_loop o g' fuel _ _ _) as [[l3' st3']| | |]; try contradiction; try (cbn in Q; subst; reflexivity).
    destruct Q as [Q1 Q3]. cbn [fst snd] in Q1, Q3. subst l3'. apply subs_tops in E3. rewrite T2 in E3.
    pose proof Q3 as [Tk3 W3]. rewrite Tk3. unfold nodes_sorted.
    change (fun k => deref (g_nodes gc) (default 0 (nodes_lookup (g_nodes gc) !! k))) with (node_of (g_nodes gc)).
    change (fun k => deref (g_nodes g') (default 0 (nodes_lookup (g_nodes g') !! k))) with (node_of (g_nodes g')).
    replace (keys (nodes_lookup (g_nodes g'))) with (keys (nodes_lookup (g_nodes gc))) by (rewrite mHl; reflexivity).
    set (ks := sorted_keys (o_names o (w_tick st3) (keys (nodes_lookup (g_nodes gc))))).
    assert (KN : forall k, k ∈ ks <-> is_Some (nodes_lookup (g_nodes gc) !! k)).
    { intros k. unfold ks. rewrite (sorted_in o Fo). apply elem_of_dom. }
    assert (HN : forall k p, nodes_lookup (g_nodes gc) !! k = Some p -> node_name (deref (g_nodes gc) p) = k) by (intros k p E; apply (mHn k p E)).
    destruct (nodes_tops o gc HN ks (fun k => proj1 (KN k)) l3 (tick 1 st3)) as (l4 & st4 & E4 & T4). rewrite E4.
    assert (Top : forall a, a ∈ top_names l4 <-> a ∈ ks /\ a ∉ w_written st3). { intros a. rewrite (T4 a), E3. cbn [w_written tick]. split; [intros [X|X]; [inversion X|exact X]|auto]. }
    unfold top_nodes. cbn [Ast.g_stmts]. fold (top_names l4).
    destruct (decide (Exists (fun a => f a <> a) (top_names l4))) as [D|D].
    - apply Exists_exists in D. destruct D as (a & Ha & Fa). apply Top in Ha. destruct Ha as [Ak Wa]. pose proof (proj1 (KN a) Ak) as [p Ep]. destruct (mHn a p Ep) as (_ & _ & Fr & Na).
      rewrite (nodes_panic o gc g' f many_r many_new mHl mHn a); [reflexivity| |exact mfresh|apply KN|exact Ak|].
      + destruct (mfresh a) as [X|X]; [contradiction|exact X].
      + cbn [w_written tick]. rewrite Fr, (W3 a Na). exact Wa.
    - pose proof (nodes_sim o gc g' f h many_r many_new minj mHl mHn ks (fun k => proj1 (KN k)) l3 _ _ (sim_tick _ _ 1 _ _ Q3)) as Q.
      rewrite E4 in Q. assert (FK : forall k, k ∈ ks -> f k = k \/ k ∈ w_written (tick 1 st3)).
      { intros k Hk. destruct (decide (f k = k)) as [K|K]; [left; exact K|right]. cbn [w_written tick]. destruct (decide (k ∈ w_written st3)) as [W|W]; [exact W|].
        exfalso. apply D. apply Exists_exists. exists k. split; [apply Top; auto|exact K]. }
      specialize (Q FK). destruct (nodes_loop o g' _ _ _) as [[l4' st4']| | |]; try contradiction. destruct Q as [Q1 _]. cbn [fst] in Q1. subst l4'. reflexivity.
  Qed.
End Many.

(** ** Which subgraphs are lost *)
Section Cut.
  Variables (o : oracle) (g : agraph) (r : relations) (lost : gostr -> Prop).
  Hypothesis Fo : fair o.
  Hypothesis G : graph_okP (fun _ => True) g.
  Hypothesis Sg : is_subgraph g (g_name g) = false.
  Hypothesis C1 : forall k, k <> g_name g -> children r k = children (g_rels g) k.
  Hypothesis C2 : forall x, x ∈ children r (g_name g) <-> x ∈ children (g_rels g) (g_name g) /\ ~ lost x.
  Let gr := with_rels g r.
  Lemma new_sub_less fuel : forall k st, k <> g_name g -> new_sub o gr fuel k st = new_sub o g fuel k st.
  Proof.
    induction fuel as [|fuel IH]; intros k st N; cbn [new_sub]; [reflexivity|]. change (g_subs gr) with (g_subs g). destruct (g_subs g !! k) as [sb|]; [|reflexivity].
    destruct (append_attrs o (sub_attrs sb) _) as [sa st1]. unfold sorted_children. change (g_rels gr) with r. rewrite (C1 k N).
    assert (C : forall cs acc st, children_loop o gr (new_sub o gr fuel) cs acc st = children_loop o g (new_sub o g fuel) cs acc st).
    { clear -IH Sg. induction cs as [|c cs IHc]; intros acc st; cbn [children_loop]; [reflexivity|].
      change (is_node gr c) with (is_node g c). change (is_subgraph gr c) with (is_subgraph g c). change (new_node_stmt o gr c st) with (new_node_stmt o g c st).
      destruct (is_node g c); [destruct (new_node_stmt o g c st) as [[x y]| | |]; auto|]. destruct (is_subgraph g c) eqn:Ec; [|reflexivity].
      rewrite IH by congruence. destruct (new_sub o g fuel c st) as [[x y]| | |]; auto. }
    rewrite C. reflexivity.
  Qed.
  Lemma edges_less fuel : forall es acc st, edges_loop o gr fuel es acc st = edges_loop o g fuel es acc st.
  Proof.
    assert (L : forall k port st, new_location o gr fuel k port st = new_location o g fuel k port st).
    { intros k port st. unfold new_location. change (is_node gr k) with (is_node g k). change (is_cluster gr k) with (is_cluster g k). change (is_subgraph gr k) with (is_subgraph g k).
      change (new_node_id gr k port) with (new_node_id g k port). destruct (is_node g k); [reflexivity|]. destruct (is_cluster g k); [reflexivity|]. destruct (is_subgraph g k) eqn:E; [|reflexivity].
      rewrite new_sub_less by congruence. reflexivity. }
    induction es as [|e es IH]; intros acc st; cbn [edges_loop]; [reflexivity|].
    assert (E : new_edge_stmt o gr fuel e st = new_edge_stmt o g fuel e st).
    { unfold new_edge_stmt. rewrite L. destruct (new_location o g fuel _ _ st) as [[l1 t1]| | |]; [|reflexivity..]. rewrite L. reflexivity. }
    rewrite E. destruct (new_edge_stmt o g fuel e st) as [[x y]| | |]; auto.
  Qed.
  Lemma subs_less fuel : forall ss, (forall b, b ∈ ss -> g_subs g !! sub_name b = Some b) -> forall acc st l st1,
    subs_loop o g fuel ss acc st = Ok (l, st1) -> (forall x, x ∈ top_trees l -> ~ lost x) -> subs_loop o gr fuel ss acc st = Ok (l, st1).
  Proof.
    induction ss as [|b ss IH]; intros K acc st l st1; cbn [subs_loop]; [intros [= <- <-]; auto|].
    assert (K' : forall b, b ∈ ss -> g_subs g !! sub_name b = Some b) by (intros b' Hb; apply K; right; exact Hb).
    pose proof (K b (elem_of_list_here _ _)) as Kb.
    destruct (decide (sub_name b ∈ w_written st)); [apply IH; exact K'|].
    change (g_rels gr) with r. change (g_name gr) with (g_name g).
    assert (Nb : sub_name b <> g_name g) by (intros X; unfold is_subgraph in Sg; rewrite <- X, Kb in Sg; discriminate).
    destruct (decide (sub_name b ∈ children (g_rels g) (g_name g))) as [C|C].
    - destruct (new_sub o g fuel (sub_name b) st) as [[tr t1]| | |] eqn:E; try discriminate. intros H T.
      destruct (new_sub_id o g _ _ _ _ _ E) as (b' & Eb & Id). rewrite Kb in Eb. injection Eb as <-.
      assert (Nl : ~ lost (sub_name b)).
      { apply T. apply (subs_grow o g _ _ _ _ _ _ H). rewrite top_trees_app. apply elem_of_app. right. destruct tr as [id body]. cbn in Id |- *. rewrite Id. left. }
      rewrite decide_True by (apply C2; auto). rewrite new_sub_less by exact Nb. rewrite E. apply IH; assumption.
    - intros H T. rewrite decide_False by (rewrite C2; tauto). apply IH; assumption.
  Qed.
  Lemma subs_keys i b : b ∈ subs_sorted o i (g_subs g) -> g_subs g !! sub_name b = Some b.
  Proof.
    intros Hb. unfold subs_sorted in Hb. apply elem_of_list_fmap in Hb. destruct Hb as (k & -> & Hk). rewrite (sorted_in o Fo) in Hk. apply elem_of_dom in Hk. destruct Hk as [b Eb].
    rewrite Eb. cbn [default from_option id]. rewrite (go_subs _ G k b Eb). exact Eb.
  Qed.
  Theorem less_text srt fuel a : write_ast srt o g fuel = Ok a -> (forall x, x ∈ top_subs a -> ~ lost x) -> write_ast srt o gr fuel = Ok a.
  Proof.
    unfold write_ast. change (g_attrs gr) with (g_attrs g). destruct (append_attrs o (g_attrs g) (WState ∅ 0)) as [sa st1].
    change (g_edges gr) with (g_edges g). rewrite edges_less. destruct (edges_loop o g fuel _ sa st1) as [[l2 st2]| | |]; try discriminate.
    change (g_subs gr) with (g_subs g). destruct (subs_loop o g fuel _ l2 _) as [[l3 st3]| | |] eqn:E3; try discriminate.
    assert (NC : forall ns acc st, nodes_loop o gr ns acc st = nodes_loop o g ns acc st) by reflexivity.
    destruct (nodes_loop o g _ l3 _) as [[l4 st4]| | |] eqn:E4; try discriminate. intros [= <-]. unfold top_subs. cbn [Ast.g_stmts]. fold (top_trees l4).
    rewrite (nodes_trees _ _ _ _ _ _ _ E4). intros T. erewrite subs_less; [|..|exact E3|exact T].
    - change (g_nodes gr) with (g_nodes g). rewrite NC, E4. reflexivity.
    - intros b. apply subs_keys.
  Qed.
  Lemma subs_left fuel : forall ss, (forall b, b ∈ ss -> g_subs g !! sub_name b = Some b) -> forall acc st l st1,
    subs_loop o gr fuel ss acc st = Ok (l, st1) -> forall x, x ∈ top_trees l -> x ∈ top_trees acc \/ (~ lost x /\ is_subgraph g x = true).
  Proof.
    induction ss as [|b ss IH]; intros K acc st l st1; cbn [subs_loop]; [intros [= <- <-]; auto|].
    assert (K' : forall b, b ∈ ss -> g_subs g !! sub_name b = Some b) by (intros b' Hb; apply K; right; exact Hb).
    pose proof (K b (elem_of_list_here _ _)) as Kb.
    destruct (decide (sub_name b ∈ w_written st)); [apply IH; exact K'|].
    change (g_rels gr) with r. change (g_name gr) with (g_name g).
    destruct (decide (sub_name b ∈ children r (g_name g))) as [C|C]; [|apply IH; exact K'].
    destruct (new_sub o gr fuel (sub_name b) st) as [[tr t1]| | |] eqn:E; try discriminate. intros H x Hx. destruct (IH K' _ _ _ _ H x Hx) as [X|X]; [|auto].
    destruct (new_sub_id o gr _ _ _ _ _ E) as (b' & Eb & Id). change (g_subs gr) with (g_subs g) in Eb. rewrite Kb in Eb. injection Eb as <-.
    rewrite top_trees_app, elem_of_app in X. destruct X as [X|X]; [auto|]. destruct tr as [id body]. cbn in Id, X. subst id. apply elem_of_list_singleton in X. subst x.
    right. split; [apply C2; exact C|]. unfold is_subgraph. rewrite Kb. reflexivity.
  Qed.
  Theorem left_text srt fuel a : write_ast srt o gr fuel = Ok a -> forall x, x ∈ top_subs a -> ~ lost x /\ is_subgraph g x = true.
  Proof.
    unfold write_ast. destruct (attrs_tops o (g_attrs gr) (WState ∅ 0)) as [_ T1]. destruct (append_attrs o (g_attrs gr) (WState ∅ 0)) as [sa st1].
    destruct (edges_loop o gr fuel _ sa st1) as [[l2 st2]| | |] eqn:E2; try discriminate.
    destruct (subs_loop o gr fuel _ l2 _) as [[l3 st3]| | |] eqn:E3; try discriminate.
    destruct (nodes_loop o gr _ l3 _) as [[l4 st4]| | |] eqn:E4; try discriminate. intros [= <-] x. unfold top_subs. cbn [Ast.g_stmts]. fold (top_trees l4).
    rewrite (nodes_trees _ _ _ _ _ _ _ E4). intros X. destruct (edges_tops _ _ _ _ _ _ _ _ E2) as [_ T2]. cbn [fst] in T1. rewrite T1 in T2.
    destruct (subs_left _ _ (subs_keys (w_tick st2)) _ _ _ _ E3 x X) as [Y|Y]; [|exact Y]. rewrite T2 in Y. inversion Y.
  Qed.
End Cut.
Lemma top_ren (f h : gostr -> gostr) (a : Ast.graph) : top_subs (ren_graph f h a) = map h (top_subs a).
Proof.
  unfold top_subs, ren_graph. cbn [Ast.g_stmts]. induction (Ast.g_stmts a) as [|st l IH]; [reflexivity|]. cbn [map flat_map]. rewrite map_app, <- IH. f_equal.
  destruct st as [| | | | |[]|]; reflexivity.
Qed.
Lemma without_lost (g : agraph) (l : list naming) (x : gostr) :
  x ∈ children (g_rels (without_renamed g l)) (g_name g) <-> x ∈ children (g_rels g) (g_name g) /\ ~ sub_now l x <> x.
Proof. rewrite (proj2 (children_without g l x) x). split; intros [H1 H2]; (split; [exact H1|]); [auto|]. destruct (decide (sub_now l x = x)); [assumption|contradiction]. Qed.
Lemma ren_ext (f h f2 h2 : gostr -> gostr) : (forall x, f x = f2 x) -> (forall x, h x = h2 x) ->
  (forall s, ren_stmt f h s = ren_stmt f2 h2 s) /\ (forall c, ren_loc f h c = ren_loc f2 h2 c) /\ (forall t, ren_tree f h t = ren_tree f2 h2 t).
Proof.
  intros Hf Hh. assert (Hi : forall n, ren_id f n = ren_id f2 n) by (intros n; unfold ren_id; rewrite Hf; reflexivity).
  apply AstProofs.stmt_all_ind; intros; cbn [ren_stmt ren_loc ren_tree]; try reflexivity; rewrite ?Hi, ?Hh; try congruence.
  - f_equal; [assumption|]. apply map_ext_in. intros [op d] Hd. cbn [ren_rh]. f_equal.
    match goal with H : Forall _ r |- _ => exact (proj1 (List.Forall_forall _ _) H _ Hd) end.
  - f_equal. apply map_ext_in. intros s Hs. match goal with H : Forall _ b |- _ => exact (proj1 (List.Forall_forall _ _) H _ Hs) end.
Qed.
Lemma ren_graph_ext (f h f2 h2 : gostr -> gostr) (t : Ast.graph) : (forall x, f x = f2 x) -> (forall x, h x = h2 x) -> ren_graph f h t = ren_graph f2 h2 t.
Proof. intros Hf Hh. unfold ren_graph. f_equal. apply map_ext. apply (ren_ext f h f2 h2 Hf Hh). Qed.
(** The nodes with a statement at the top level are nodes of the graph. *)
Lemma top_is_node (srt : list edge -> list edge) (o : oracle) (g : agraph) (fuel : nat) (t : Ast.graph) : fair o -> graph_okP (fun _ => True) g ->
  write_ast srt o g fuel = Ok t -> forall a, a ∈ top_nodes t -> is_node g a = true.
Proof.
  intros Fo G. unfold write_ast. destruct (attrs_tops o (g_attrs g) (WState ∅ 0)) as [T1 _].
  destruct (append_attrs o (g_attrs g) (WState ∅ 0)) as [sa st1]. cbn [fst] in T1.
  destruct (edges_loop o g fuel _ sa st1) as [[l2 st2]| | |] eqn:E2; try discriminate. apply edges_tops in E2. destruct E2 as [T2 _]. rewrite T1 in T2.
  destruct (subs_loop o g fuel _ l2 _) as [[l3 st3]| | |] eqn:E3; try discriminate. apply subs_tops in E3. rewrite T2 in E3. unfold nodes_sorted.
  change (fun k => deref (g_nodes g) (default 0 (nodes_lookup (g_nodes g) !! k))) with (node_of (g_nodes g)).
  set (ks := sorted_keys (o_names o (w_tick st3) (keys (nodes_lookup (g_nodes g))))).
  assert (KN : forall k, k ∈ ks <-> is_Some (nodes_lookup (g_nodes g) !! k)).
  { intros k. unfold ks. rewrite (sorted_in o Fo). apply elem_of_dom. }
  assert (HN : forall k p, nodes_lookup (g_nodes g) !! k = Some p -> node_name (deref (g_nodes g) p) = k).
  { intros k p E. destruct (no_lookup _ (go_nodes _ G) k p E) as [_ [x Hx]]. unfold deref. rewrite Hx. reflexivity. }
  destruct (nodes_tops o g HN ks (fun k => proj1 (KN k)) l3 (tick 1 st3)) as (l4 & st4 & E4 & T4). rewrite E4.
  intros [= <-] a. unfold top_nodes. cbn [Ast.g_stmts]. fold (top_names l4). rewrite (T4 a), E3. intros [X|[X _]]; [inversion X|].
  apply KN in X. unfold is_node. destruct X as [p ->]. reflexivity.
Qed.
