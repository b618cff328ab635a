(** The writer as a function of the abstract graph: termination, errors, content. *)
From stdpp Require Import sorting.
From Verif Require Import Base Parser Maps Graph AttrMap SpecGraph MapFacts GraphProofs Write SpecWrite EdgeOrder.
From Verif Require Ast.

Definition bind {E A B} (r : res E A) (f : A -> res E B) : res E B :=
  match r with Ok a => f a | Err e => Err e | Panic => Panic | OutOfFuel => OutOfFuel end.
Fixpoint map_res {E A B} (f : A -> res E B) (l : list A) : res E (list B) :=
  match l with [] => Ok [] | x :: l' => bind (f x) (fun y => bind (map_res f l') (fun ys => Ok (y :: ys))) end.

(** ** The canonical writer *)
Definition kids (s : sgraph) (p : gostr) : names := list_to_set (map snd (filter (fun pc => pc.1 = p) (elements (s_rels s)))).
Lemma elem_of_kids s p c : c ∈ kids s p <-> is_child s p c.
Proof.
  unfold kids, is_child. rewrite elem_of_list_to_set, elem_of_list_fmap. split.
  - intros ([p' c'] & -> & H). apply elem_of_list_filter in H. destruct H as [H1 H2]. apply elem_of_elements in H2. cbn in *. subst. exact H2.
  - intros H. exists (p, c). split; [reflexivity|]. apply elem_of_list_filter. rewrite elem_of_elements. auto.
Qed.
Definition in_order (m : attrs) : list Ast.attr := map (fun k => Ast.Attr k (default [] (m !! k))) (sorted (keys m)).
Lemma in_order_spec m : lists_attrs m (in_order m).
Proof.
  unfold in_order. split.
  - pose proof (sorted_strict (keys m)) as H. induction H as [|x l H IH F]; cbn; constructor; [exact IH|].
    apply Forall_fmap. eapply Forall_impl; [exact F|]. intros y Hy. exact Hy.
  - intros k v. rewrite elem_of_list_fmap. split.
    + intros (k' & [= -> ->] & H). apply elem_of_sorted, elem_of_dom in H. destruct H as [w H]. rewrite H. reflexivity.
    + intros H. exists k. rewrite H. split; [reflexivity|]. apply elem_of_sorted. apply elem_of_dom. eauto.
Qed.
Lemma lists_attrs_fields l : StronglySorted (fun a b => before (Ast.at_field a) (Ast.at_field b)) l -> StronglySorted before (map Ast.at_field l).
Proof. induction 1 as [|x l H IH F]; cbn; constructor; [exact IH|]. apply Forall_fmap. exact F. Qed.
Lemma lists_attrs_unique m l : lists_attrs m l -> l = in_order m.
Proof.
  intros [S I]. unfold in_order.
  assert (K : map Ast.at_field l = sorted (keys m)).
  { apply strict_sorted_unique; [apply lists_attrs_fields; exact S|apply sorted_strict|]. intros k. rewrite elem_of_sorted.
    unfold keys. rewrite elem_of_dom, elem_of_list_fmap. split.
    - intros ([k' v] & -> & H). apply I in H. cbn. eauto.
    - intros [v H]. exists (Ast.Attr k v). split; [reflexivity|]. apply I. exact H. }
  rewrite <- K, map_map. rewrite <- (map_id l) at 1. apply map_ext_in. intros [k v] H. cbn. apply elem_of_list_In, I in H. rewrite H. reflexivity.
Qed.

Section Canon.
  Variable s : sgraph.
  Definition c_node (n : gostr) (a : attrs) : Ast.stmt := Ast.SNode (Ast.NodeID n (Ast.Port [] [])) [in_order a].
  Definition c_child (rec : gostr -> res err Ast.subgraph) (c : gostr) : res err Ast.stmt :=
    match s_nodes s !! c with
    | Some a => Ok (c_node c a)
    | None =>
        match s_subs s !! c with
        | Some _ => bind (rec c) (fun t => Ok (Ast.SSub t))
        | None => Err (c ++ lit " is not a node or a subgraph")
        end
    end.
  Fixpoint c_sub (fuel : nat) (n : gostr) : res err Ast.subgraph :=
    match fuel with
    | O => OutOfFuel
    | S fuel' =>
        match s_subs s !! n with
        | None => Panic
        | Some a => bind (map_res (c_child (c_sub fuel')) (sorted (kids s n)))
                         (fun body => Ok (Ast.SubGraph n (map Ast.SAttr (in_order a) ++ body)))
        end
    end.
  Definition c_end (fuel : nat) (n port : gostr) : res err Ast.location :=
    match s_nodes s !! n with
    | Some _ => Ok (Ast.LNode (Ast.make_node_id n port))
    | None =>
        match s_subs s !! n with
        | None => Err (n ++ lit " is not a node or a subgraph")
        | Some _ =>
            match port with
            | [] => if has_prefix n (lit "cluster") then Ok (Ast.LNode (Ast.NodeID n (Ast.Port [] [])))
                    else bind (c_sub fuel n) (fun t => Ok (Ast.LSub t))
            | _ => Err (lit "subgraph cannot have a port: " ++ port)
            end
        end
    end.
  Definition c_edge (fuel : nat) (e : edge) : res err Ast.stmt :=
    bind (c_end fuel (e_src e) (e_src_port e)) (fun l1 =>
    bind (c_end fuel (e_dst e) (e_dst_port e)) (fun l2 =>
    Ok (Ast.SEdge l1 [Ast.EdgeRH (e_dir e) l2] [in_order (e_attrs e)]))).
End Canon.

(** The names that the writer marks while it writes a tree. *)
Fixpoint st_names (st : Ast.stmt) : names :=
  match st with
  | Ast.SNode n _ => {[Ast.nid_id n]}
  | Ast.SSub t => sub_names t
  | Ast.SEdge l rhs _ => loc_names l ∪ foldr (fun r acc => rh_names r ∪ acc) ∅ rhs
  | _ => ∅
  end
with loc_names (l : Ast.location) : names :=
  match l with Ast.LNode _ => ∅ | Ast.LSub t => sub_names t end
with rh_names (r : Ast.edge_rh) : names := match r with Ast.EdgeRH _ l => loc_names l end
with sub_names (t : Ast.subgraph) : names :=
  match t with Ast.SubGraph id body => {[id]} ∪ foldr (fun st acc => st_names st ∪ acc) ∅ body end.
Definition marks (l : list Ast.stmt) : names := foldr (fun st acc => st_names st ∪ acc) ∅ l.
Lemma marks_cons st l : marks (st :: l) = st_names st ∪ marks l.
Proof. reflexivity. Qed.
Lemma marks_app l l' : marks (l ++ l') = marks l ∪ marks l'.
Proof. induction l as [|x l IH]; [cbn; set_solver|]. cbn [app]. rewrite !marks_cons, IH. set_solver. Qed.
Lemma sub_names_eq id body : sub_names (Ast.SubGraph id body) = {[id]} ∪ marks body.
Proof. reflexivity. Qed.
Lemma marks_attrs l : marks (map Ast.SAttr l) = ∅.
Proof. induction l as [|x l IH]; [reflexivity|]. cbn [map]. rewrite marks_cons, IH. set_solver. Qed.
Lemma elem_of_marks n l : n ∈ marks l <-> exists st, st ∈ l /\ n ∈ st_names st.
Proof.
  induction l as [|x l IH]; [split; [set_solver|intros (st & H & _); apply elem_of_nil in H; contradiction]|].
  rewrite marks_cons, elem_of_union, IH. split.
  - intros [H|(st & H1 & H2)]; [exists x|exists st]; split; auto; [left|right; exact H1].
  - intros (st & H1 & H2). apply elem_of_cons in H1. destruct H1 as [->|H1]; [auto|right; eauto].
Qed.

Section Canon2.
  Variable s : sgraph.
  Fixpoint c_tops (fuel : nat) (ns : list gostr) (acc : list Ast.stmt) : res err (list Ast.stmt) :=
    match ns with
    | [] => Ok acc
    | n :: ns' =>
        if decide (n ∈ marks acc) then c_tops fuel ns' acc
        else if decide (n ∈ kids s (s_name s)) then bind (c_sub s fuel n) (fun t => c_tops fuel ns' (acc ++ [Ast.SSub t]))
        else c_tops fuel ns' acc
    end.
  Fixpoint c_nodes (ns : list gostr) (acc : list Ast.stmt) : list Ast.stmt :=
    match ns with
    | [] => acc
    | n :: ns' => if decide (n ∈ marks acc) then c_nodes ns' acc else c_nodes ns' (acc ++ [c_node n (default ∅ (s_nodes s !! n))])
    end.
  Definition c_write (fuel : nat) (es : list edge) : res err Ast.graph :=
    bind (map_res (c_edge s fuel) es) (fun el =>
    bind (c_tops fuel (sorted (dom (s_subs s))) (map Ast.SAttr (in_order (s_attrs s)) ++ el)) (fun l =>
    Ok (Ast.Graph (s_directed s) (s_strict s) (s_name s) (c_nodes (sorted (dom (s_nodes s))) l)))).
End Canon2.

(** ** The writer computes the canonical function *)
Section Refine.
  Variables (o : oracle) (g : agraph).
  Context {PA : gostr -> Prop}.
  Hypotheses (Fo : fair o) (OK : graph_okP PA g).
  Notation s := (view g).

  Lemma nodes_view n : s_nodes s !! n = (fun p => node_attrs (deref (g_nodes g) p)) <$> nodes_lookup (g_nodes g) !! n.
  Proof. cbn. apply lookup_fmap. Qed.
  Lemma subs_view n : s_subs s !! n = sub_attrs <$> g_subs g !! n.
  Proof. cbn. apply lookup_fmap. Qed.
  Lemma children_view i n : sorted_children o i (g_rels g) n = sorted (kids s n).
  Proof.
    unfold sorted_children, sorted_keys. rewrite (sorted_enum (children (g_rels g) n)) by apply Fo. f_equal.
    apply set_eq. intros c. rewrite elem_of_kids, view_child. reflexivity.
  Qed.
  Lemma append_attrs_view m st : append_attrs o m st = (map Ast.SAttr (in_order m), tick 1 st).
  Proof.
    unfold append_attrs, in_order, sorted_keys. rewrite (sorted_enum (keys m)) by apply Fo. rewrite map_map. reflexivity.
  Qed.
  Lemma attr_list_view m st : attr_list o m st = ([in_order m], tick 2 st).
  Proof.
    unfold attr_list, put_map. rewrite (copy_enum m) by apply Fo. unfold in_order, sorted_keys. rewrite (sorted_enum (keys m)) by apply Fo. reflexivity.
  Qed.

  (** The writer returns what the canonical function returns, and marks the names [f] of it. *)
  Definition agrees {A} (f : A -> names) (r : wstate -> res err (A * wstate)) (c : res err A) : Prop :=
    forall st, match c with
    | Ok a => exists t, r st = Ok (a, WState (f a ∪ w_written st) t)
    | Err e => r st = Err e | Panic => r st = Panic | OutOfFuel => r st = OutOfFuel
    end.

  Lemma node_agrees n a : s_nodes s !! n = Some a -> agrees st_names (new_node_stmt o g n) (Ok (c_node n a)).
  Proof.
    intros H st. rewrite nodes_view in H. unfold new_node_stmt. destruct (nodes_lookup (g_nodes g) !! n) as [p|] eqn:E; [|discriminate].
    cbn in H. injection H as <-. rewrite (deref_lookup _ (go_nodes g OK) n p E). rewrite attr_list_view. eexists. reflexivity.
  Qed.

  Lemma children_agrees rec crec cs : (forall n, agrees sub_names (rec n) (crec n)) ->
    forall acc st, match map_res (c_child s crec) cs with
    | Ok b => exists t, children_loop o g rec cs acc st = Ok (acc ++ b, WState (marks b ∪ w_written st) t)
    | Err e => children_loop o g rec cs acc st = Err e
    | Panic => children_loop o g rec cs acc st = Panic | OutOfFuel => children_loop o g rec cs acc st = OutOfFuel
    end.
  Proof.
    intros R. induction cs as [|c cs IH]; intros acc st; cbn [map_res children_loop].
    - exists (w_tick st). rewrite app_nil_r. destruct st as [w t]. cbn. rewrite union_empty_l_L. reflexivity.
    - unfold c_child at 1. unfold is_node, is_subgraph.
      destruct (s_nodes s !! c) as [a|] eqn:En.
      + destruct (node_agrees c a En st) as [t Ht]. rewrite nodes_view in En.
        destruct (nodes_lookup (g_nodes g) !! c) eqn:E; [|discriminate]. rewrite Ht.
        cbn [bind]. specialize (IH (acc ++ [c_node c a]) (WState (st_names (c_node c a) ∪ w_written st) t)).
        destruct (map_res _ cs); cbn [bind]; try exact IH. destruct IH as [t' IH]. exists t'. rewrite IH.
        rewrite <- app_assoc. cbn [app w_written]. rewrite marks_cons. do 3 f_equal. set_solver.
      + rewrite nodes_view in En. destruct (nodes_lookup (g_nodes g) !! c) eqn:E; [discriminate|].
        destruct (s_subs s !! c) as [a|] eqn:Es; rewrite subs_view in Es; destruct (g_subs g !! c) eqn:E2; try discriminate; [|reflexivity].
        specialize (R c st). destruct (crec c) as [t|e| |]; cbn [bind]; try (rewrite R; reflexivity).
        destruct R as [tk R]. rewrite R. specialize (IH (acc ++ [Ast.SSub t]) (WState (sub_names t ∪ w_written st) tk)).
        destruct (map_res _ cs); cbn [bind]; try exact IH. destruct IH as [t' IH]. exists t'. rewrite IH.
        rewrite <- app_assoc. cbn [app w_written]. rewrite marks_cons. do 3 f_equal. cbn [st_names]. set_solver.
  Qed.

  Lemma sub_agrees fuel : forall n, agrees sub_names (new_sub o g fuel n) (c_sub s fuel n).
  Proof.
    induction fuel as [|fuel IH]; intros n st; cbn [new_sub c_sub]; [reflexivity|].
    rewrite subs_view. destruct (g_subs g !! n) as [sb|] eqn:E; cbn [fmap option_fmap option_map]; [|reflexivity].
    rewrite (go_subs g OK n sb E). rewrite append_attrs_view, children_view.
    set (st1 := tick 1 (tick 1 (mark n st))).
    pose proof (children_agrees _ _ (sorted (kids s n)) IH (map Ast.SAttr (in_order (sub_attrs sb))) st1) as C.
    destruct (map_res _ _) as [b|e| |]; cbn [bind]; try (rewrite C; reflexivity).
    destruct C as [t C]. exists t. rewrite C. do 3 f_equal. cbn [st1 tick mark w_written]. rewrite sub_names_eq, marks_app, marks_attrs. set_solver.
  Qed.

  Lemma end_agrees fuel n port : agrees loc_names (new_location o g fuel n port) (c_end s fuel n port).
  Proof.
    intros st. unfold new_location, c_end, new_node_id, is_cluster, is_node, is_subgraph.
    assert (N : forall l : Ast.location, match l with Ast.LNode _ => True | _ => False end ->
       exists t, @Ok err _ (l, st) = Ok (l, WState (loc_names l ∪ w_written st) t)).
    { intros [x|x] H; [|contradiction]. exists (w_tick st). destruct st. cbn. rewrite union_empty_l_L. reflexivity. }
    rewrite nodes_view, subs_view. destruct (nodes_lookup (g_nodes g) !! n) as [p|] eqn:E; cbn.
    - rewrite (deref_lookup _ (go_nodes g OK) n p E). apply N. exact I.
    - destruct (g_subs g !! n) as [sb|] eqn:E2; cbn; [|reflexivity].
      destruct (has_prefix n (lit "cluster")) eqn:P; destruct port as [|c port]; try reflexivity.
      + cbn. apply (N (Ast.LNode (Ast.NodeID n (Ast.Port [] [])))). exact I.
      + pose proof (sub_agrees fuel n st) as R. destruct (c_sub _ fuel n) as [t|e| |]; cbn [bind]; try (rewrite R; reflexivity).
        destruct R as [tk R]. exists tk. rewrite R. reflexivity.
  Qed.

  Lemma edge_agrees fuel e : agrees st_names (new_edge_stmt o g fuel e) (c_edge s fuel e).
  Proof.
    intros st. unfold new_edge_stmt, c_edge.
    pose proof (end_agrees fuel (e_src e) (e_src_port e) st) as R1.
    destruct (c_end _ fuel (e_src e) (e_src_port e)) as [l1|x| |]; cbn [bind]; try (rewrite R1; reflexivity).
    destruct R1 as [t1 R1]. rewrite R1.
    pose proof (end_agrees fuel (e_dst e) (e_dst_port e) (WState (loc_names l1 ∪ w_written st) t1)) as R2.
    destruct (c_end _ fuel (e_dst e) (e_dst_port e)) as [l2|x| |]; cbn [bind]; try (rewrite R2; reflexivity).
    destruct R2 as [t2 R2]. rewrite R2, attr_list_view. eexists. do 2 f_equal. unfold tick. cbn [w_written w_tick]. f_equal. cbn. set_solver.
  Qed.

  Lemma edges_agrees fuel es : forall acc st, match map_res (c_edge s fuel) es with
    | Ok b => exists t, edges_loop o g fuel es acc st = Ok (acc ++ b, WState (marks b ∪ w_written st) t)
    | Err e => edges_loop o g fuel es acc st = Err e
    | Panic => edges_loop o g fuel es acc st = Panic | OutOfFuel => edges_loop o g fuel es acc st = OutOfFuel
    end.
  Proof.
    induction es as [|e es IH]; intros acc st; cbn [map_res edges_loop].
    - exists (w_tick st). rewrite app_nil_r. destruct st. cbn. rewrite union_empty_l_L. reflexivity.
    - pose proof (edge_agrees fuel e st) as R. destruct (c_edge s fuel e) as [x|x| |]; cbn [bind]; try (rewrite R; reflexivity).
      destruct R as [t R]. rewrite R. specialize (IH (acc ++ [x]) (WState (st_names x ∪ w_written st) t)).
      destruct (map_res _ es); cbn [bind]; try exact IH. destruct IH as [t' IH]. exists t'. rewrite IH.
      rewrite <- app_assoc. cbn [app w_written]. rewrite marks_cons. do 3 f_equal. set_solver.
  Qed.

  Lemma kids_root n : n ∈ children (g_rels g) (g_name g) <-> n ∈ kids s (s_name s).
  Proof. rewrite elem_of_kids, view_child. reflexivity. Qed.

  Lemma tops_agrees fuel ns : (forall n, n ∈ ns -> is_Some (g_subs g !! n)) -> forall acc st, w_written st = marks acc ->
    match c_tops s fuel ns acc with
    | Ok b => exists t, subs_loop o g fuel (map (fun k => default (Sub ∅ []) (g_subs g !! k)) ns) acc st = Ok (b, WState (marks b) t)
    | Err e => subs_loop o g fuel (map (fun k => default (Sub ∅ []) (g_subs g !! k)) ns) acc st = Err e
    | Panic => subs_loop o g fuel (map (fun k => default (Sub ∅ []) (g_subs g !! k)) ns) acc st = Panic
    | OutOfFuel => subs_loop o g fuel (map (fun k => default (Sub ∅ []) (g_subs g !! k)) ns) acc st = OutOfFuel
    end.
  Proof.
    induction ns as [|n ns IH]; intros Hns acc st W; cbn [c_tops map subs_loop].
    - exists (w_tick st). rewrite <- W. destruct st. reflexivity.
    - destruct (Hns n (elem_of_list_here _ _)) as [sb Hsb]. rewrite Hsb. cbn [from_option id]. rewrite (go_subs g OK n sb Hsb).
      assert (Hns' : forall m, m ∈ ns -> is_Some (g_subs g !! m)) by (intros m Hm; apply Hns; right; exact Hm).
      rewrite W. destruct (decide (n ∈ marks acc)) as [D|D]; [apply IH; assumption|].
      destruct (decide (n ∈ kids s (s_name s))) as [D2|D2]; (destruct (decide (n ∈ children (g_rels g) (g_name g))) as [D3|D3];
        [|try (destruct D3; apply kids_root; exact D2)]); try (destruct D2; apply kids_root; exact D3).
      + pose proof (sub_agrees fuel n st) as R. destruct (c_sub s fuel n) as [t|e| |]; cbn [bind]; try (rewrite R; reflexivity).
        destruct R as [tk R]. rewrite R. apply IH; [exact Hns'|]. cbn [w_written]. rewrite W, marks_app. cbn. set_solver.
      + apply IH; assumption.
  Qed.

  Lemma nodes_agrees ns : (forall n, n ∈ ns -> is_Some (nodes_lookup (g_nodes g) !! n)) -> forall acc st, w_written st = marks acc ->
    exists st', nodes_loop o g (map (fun k => deref (g_nodes g) (default 0 (nodes_lookup (g_nodes g) !! k))) ns) acc st = Ok (c_nodes s ns acc, st').
  Proof.
    induction ns as [|n ns IH]; intros Hns acc st W; cbn [c_nodes map nodes_loop]; [eauto|].
    destruct (Hns n (elem_of_list_here _ _)) as [p Hp]. rewrite Hp. cbn [from_option id]. rewrite (deref_lookup _ (go_nodes g OK) n p Hp).
    assert (Hns' : forall m, m ∈ ns -> is_Some (nodes_lookup (g_nodes g) !! m)) by (intros m Hm; apply Hns; right; exact Hm).
    rewrite W. destruct (decide (n ∈ marks acc)) as [D|D]; [apply IH; assumption|].
    assert (E : s_nodes s !! n = Some (node_attrs (deref (g_nodes g) p))) by (rewrite nodes_view, Hp; reflexivity).
    destruct (node_agrees n _ E st) as [t Ht]. rewrite Ht. rewrite E. apply IH; [exact Hns'|]. cbn [w_written]. rewrite W, marks_app. cbn. set_solver.
  Qed.

  Theorem write_canon srt fuel : write_ast srt o g fuel = c_write s fuel (srt (s_edges s)).
  Proof.
    unfold write_ast, c_write. rewrite append_attrs_view.
    change (s_edges s) with (edges_list (g_edges g)). set (es := srt (edges_list (g_edges g))).
    pose proof (edges_agrees fuel es (map Ast.SAttr (in_order (g_attrs g))) (tick 1 (WState ∅ 0))) as R.
    change (s_attrs s) with (g_attrs g).
    destruct (map_res (c_edge s fuel) es) as [el|e| |]; cbn [bind]; try (rewrite R; reflexivity).
    destruct R as [t R]. rewrite R. cbn [tick w_written w_tick]. unfold subs_sorted, sorted_keys.
    rewrite (sorted_enum (keys (g_subs g))) by apply Fo.
    replace (sorted (keys (g_subs g))) with (sorted (dom (s_subs s))) by (unfold keys; cbn [s_subs view]; rewrite dom_fmap_L; reflexivity).
    assert (H1 : forall n, n ∈ sorted (dom (s_subs s)) -> is_Some (g_subs g !! n)).
    { intros n Hn. apply elem_of_sorted, elem_of_dom in Hn. rewrite subs_view in Hn. destruct (g_subs g !! n); [eauto|]. destruct Hn as [? Hn]. discriminate. }
    pose proof (tops_agrees fuel (sorted (dom (s_subs s))) H1 (map Ast.SAttr (in_order (g_attrs g)) ++ el) (tick 1 (WState (marks el ∪ ∅) t))) as R2.
    assert (W : w_written (tick 1 (WState (marks el ∪ ∅) t)) = marks (map Ast.SAttr (in_order (g_attrs g)) ++ el)).
    { cbn [tick w_written]. rewrite marks_app, marks_attrs. set_solver. }
    specialize (R2 W). destruct (c_tops _ _ _ _) as [l3|e| |]; cbn [bind]; try (rewrite R2; reflexivity).
    destruct R2 as [t3 R2]. change (WState (marks el ∪ ∅) (1 + t)) with (tick 1 (WState (marks el ∪ ∅) t)). rewrite R2. cbn [w_written w_tick]. unfold nodes_sorted, sorted_keys.
    rewrite (sorted_enum (keys (nodes_lookup (g_nodes g)))) by apply Fo.
    replace (sorted (keys (nodes_lookup (g_nodes g)))) with (sorted (dom (s_nodes s))) by (unfold keys; cbn [s_nodes view]; rewrite dom_fmap_L; reflexivity).
    assert (H2 : forall n, n ∈ sorted (dom (s_nodes s)) -> is_Some (nodes_lookup (g_nodes g) !! n)).
    { intros n Hn. apply elem_of_sorted, elem_of_dom in Hn. rewrite nodes_view in Hn. destruct (nodes_lookup (g_nodes g) !! n); [eauto|]. destruct Hn as [? Hn]. discriminate. }
    destruct (nodes_agrees _ H2 l3 (tick 1 (WState (marks l3) t3)) eq_refl) as [st' R3]. rewrite R3. reflexivity.
  Qed.
End Refine.
