(** Properties C24-C29: the analysis of an AST, and Read. *)
From Verif Require Import Base Parser ParseFacts Maps Graph AttrMap MapFacts SpecGraph GraphProofs Analyse SpecAnalyse AnalyseProofs ReadProofs.
From Verif Require Ast PropsParse PropsGraph.
Notation rnd0 := PropsParse.rnd0.
Notation o_id := PropsGraph.o_id.

(** The iteration orders used in the examples. *)
Definition ord_id : order := fun _ m => map_to_list m.
Definition ord_rev : order := fun _ m => rev (map_to_list m).
Lemma fair_ord_id : fair_order ord_id.
Proof. intros t m. reflexivity. Qed.
Lemma fair_ord_rev : fair_order ord_rev.
Proof. intros t m. symmetry. apply Permutation_rev. Qed.
Definition os_id : nat -> oracle := fun _ => o_id.
Lemma fair_os_id : forall i, fair (os_id i).
Proof. intros i. apply PropsGraph.fair_id. Qed.

(** A source with nested scopes, used in the examples. *)
Definition src1 : gostr :=
  lit "digraph G { graph [rank=same]; node [color=red]; edge [style=bold]; a -> b:p -> {c [color=blue]} [label=x]; subgraph S { node [shape=box]; d; a }; e }".
Definition ast1 : Ast.graph :=
  match parse_bytes rnd0 0 src1 with Ok (a, _) => a | _ => Ast.Graph false false [] [] end.
Lemma parse1 : parse_bytes rnd0 0 src1 = Ok (ast1, 1).
Proof. vm_compute. reflexivity. Qed.

(** ** C24 Analyse makes a sequence of calls [cs] that is a function of the AST (up to the order of the
    attributes of a graph [...] statement), on every implementation of Interface, whatever the calls
    return; it returns nil iff all of them do, and otherwise an error that lists all the errors in order *)
Theorem C24_analyse : forall ord a, fair_order ord -> exists cs, graph_calls a cs /\
  forall S (step : S -> call -> S * option err) (s0 : S),
    let '(s', rs) := make_calls step cs s0 in
    (analyse S step ord a s0).1 = s' /\ length rs = length cs /\
    ((analyse S step ord a s0).2 = None <-> Forall (fun r => r = None) rs) /\
    (forall e, (analyse S step ord a s0).2 = Some e -> e = lit "errors: [" ++ join (lit ",") (errors rs) ++ lit "]").
Proof.
  intros ord a F. destruct (analyse_calls ord a F) as (cs & H1 & H2). exists cs. split; [exact H1|].
  intros S step s0. rewrite H2. assert (HL : forall cs s0, length (make_calls step cs s0).2 = length cs).
  { clear. induction cs as [|c cs IH]; intros s0; cbn; [reflexivity|]. destruct (step s0 c) as [s1 r]. specialize (IH s1).
    destruct (make_calls step cs s1) as [s2 rs]. cbn in *. rewrite IH. reflexivity. }
  specialize (HL cs s0). destruct (make_calls step cs s0) as [s' rs]. cbn [fst snd] in *. split; [reflexivity|]. split; [exact HL|].
  split; [apply errors_nil|]. intros e. unfold get_error. destruct (errors rs) as [|e0 es]; [discriminate|]. intros E. injection E as <-. reflexivity.
Qed.
Print Assumptions C24_analyse.
(** Two sequences for the same AST are permutations of each other and agree on all calls but AddAttr. *)
Definition not_add_attr (c : call) : Prop := match c with CAddAttr _ _ _ => False | _ => True end.
Global Instance not_add_attr_dec c : Decision (not_add_attr c).
Proof. destruct c; cbn; apply _. Defined.
Theorem C24_calls_unique : forall a cs cs', graph_calls a cs -> graph_calls a cs' -> cs ≡ₚ cs' /\
  filter not_add_attr cs = filter not_add_attr cs'.
Proof.
  intros a cs cs' (l & H1 & ->) (l' & H2 & ->). pose proof (body_det _ _ _ _ _ _ H1 _ H2) as T. clear H1 H2.
  assert (G : l ≡ₚ l' /\ filter not_add_attr l = filter not_add_attr l').
  { induction T as [|c l l' _ [IH1 IH2]|n l1 l2 l l' _ P _ [IH1 IH2]].
    - split; reflexivity.
    - split; [constructor; exact IH1|]. rewrite !filter_cons, IH2. reflexivity.
    - split; [rewrite P, IH1; reflexivity|]. rewrite !filter_app, IH2.
      assert (E : forall l : list (gostr * gostr), filter not_add_attr (map (fun kv => CAddAttr n kv.1 kv.2) l) = []).
      { clear. induction l as [|kv l IH]; [reflexivity|]. cbn [map]. rewrite filter_cons_False by auto. exact IH. }
      rewrite !E. reflexivity. }
  destruct G as [G1 G2]. split; [rewrite G1; reflexivity|]. rewrite !filter_app, G2. reflexivity.
Qed.
Print Assumptions C24_calls_unique.
(** An implementation of Interface that records the calls and fails at each AddNode. *)
Definition recorder (s : list call) (c : call) : list call * option err :=
  (s ++ [c], match c with CAddNode _ _ _ => Some (lit "no") | _ => None end).
Example C24_example : length (analyse _ recorder ord_id ast1 []).1 = 14 /\
  (analyse _ recorder ord_id ast1 []).2 = Some (lit "errors: [no,no,no,no,no,no]").
Proof. split; [vm_compute; reflexivity|vm_compute; reflexivity]. Qed.

(** ** C25 When Read fails *)
Theorem C25_read_total : forall rnd os ord k src,
  (exists g k', read rnd os ord k src = Ok (g, k')) \/ (exists e, read rnd os ord k src = Err e).
Proof.
  intros rnd os ord k src. unfold read. destruct (parse_total rnd k src) as [(a & k' & ->)|(e & ->)]; [|eauto].
  destruct (new_analysed_graph os ord a); eauto.
Qed.
Print Assumptions C25_read_total.

Lemma call_ok_dec c : call_ok c \/ exists key, uses c key /\ ~ valid_attr key.
Proof.
  assert (HM : forall m : attrs, (forall k, is_Some (m !! k) -> valid_attr k) \/ exists k, is_Some (m !! k) /\ ~ valid_attr k).
  { intros m. destruct (decide (map_Forall (fun k _ => valid_attr k) m)) as [D|D].
    - left. intros k [v Hk]. exact (D k v Hk).
    - apply map_not_Forall in D; [|apply _]. destruct D as (k & v & H1 & H2). right. eauto. }
  unfold call_ok. destruct c; cbn; try (left; intros; contradiction); try apply HM.
  destruct (decide (valid_attr field)) as [D|D]; [left; intros k ->; exact D|right; eauto].
Qed.
Lemma not_all_ok l : ~ Forall call_ok l <-> exists c key, c ∈ l /\ uses c key /\ ~ valid_attr key.
Proof.
  split.
  - induction l as [|c l IH]; intros H; [destruct H; constructor|]. destruct (call_ok_dec c) as [D|(key & H1 & H2)].
    + destruct IH as (c' & key & H1 & H2); [intros F; apply H; constructor; assumption|]. exists c', key. split; [apply elem_of_cons; auto|exact H2].
    + exists c, key. split; [apply elem_of_cons; auto|auto].
  - intros (c & key & H1 & H2 & H3) F. rewrite Forall_forall in F. apply H3. eapply F; eassumption.
Qed.

Theorem C25_when_read_fails : forall rnd os ord k src, (forall i, fair (os i)) -> fair_order ord ->
  (exists e, read rnd os ord k src = Err e) <->
  (exists e, parse_bytes rnd k src = Err e) \/
  (exists a k' cs c key, parse_bytes rnd k src = Ok (a, k') /\ graph_calls a cs /\ c ∈ cs /\ uses c key /\ ~ valid_attr key).
Proof.
  intros rnd os ord k src Fo Ford. unfold read. destruct (parse_total rnd k src) as [(a & k' & E)|(e & E)]; rewrite E.
  2:{ split; [eauto|]. intros _. eauto. }
  destruct (analysed_graph os ord a Fo Ford) as (l & HB & HA).
  assert (HX : ~ Forall call_ok l <-> exists cs c key, graph_calls a cs /\ c ∈ cs /\ uses c key /\ ~ valid_attr key).
  { split.
    - intros H. apply not_all_ok in H. destruct H as (c & key & H1 & H2 & H3). eexists _, c, key. split; [exists l; split; [exact HB|reflexivity]|].
      split; [apply elem_of_app; right; exact H1|auto].
    - intros (cs & c & key & (l' & HB' & ->) & H1 & H2 & H3) F. apply (trace_eq_ok l l') in F; [|eapply body_det; eassumption].
      apply elem_of_app in H1. destruct H1 as [H1|H1]; [|rewrite Forall_forall in F; apply H3; eapply F; eassumption].
      clear -H1 H2. repeat (apply elem_of_cons in H1; destruct H1 as [->|H1]; [exact H2|]). inversion H1. }
  destruct (new_analysed_graph os ord a) as [g|e].
  - split; [intros [e HE]; discriminate|]. intros [[e HE]|(a' & k'' & cs & c & key & HE & H)]; [discriminate|].
    injection HE as <- <-. exfalso. apply HX; [|apply HA]. eauto.
  - split; [|eauto]. intros _. right. apply HX in HA. destruct HA as (cs & c & key & H). exists a, k', cs, c, key. auto.
Qed.
Print Assumptions C25_when_read_fails.
(** Used in the examples. *)
Lemma read_ok rnd os ord k src : match read rnd os ord k src with Ok _ => true | _ => false end = true -> exists g k', read rnd os ord k src = Ok (g, k').
Proof. intros H. destruct (read rnd os ord k src) as [[g k']|e| |]; try discriminate. eauto. Qed.
(** Unused defaults are not checked. *)
Example C25_example :
  (exists g k', read rnd0 os_id ord_id 0 (lit "graph { node [foo=1] }") = Ok (g, k')) /\
  (exists e, read rnd0 os_id ord_id 0 (lit "graph { node [foo=1] a }") = Err (AnalyseFailed e)) /\
  (exists e, read rnd0 os_id ord_id 0 (lit "graph { node [foo=1 a }") = Err (ParseFailed e)).
Proof.
  split; [|split].
  - eexists _, _. vm_compute. reflexivity.
  - eexists. vm_compute. reflexivity.
  - eexists. vm_compute. reflexivity.
Qed.

(** ** C26 Scoping: the graph that Read returns is the one the calls [cs] of its AST build; which defaults
    reach which node, edge and subgraph is what [graph_calls] (SpecAnalyse.v) says *)
Theorem C26_read_content : forall rnd os ord k src g k', (forall i, fair (os i)) -> fair_order ord ->
  read rnd os ord k src = Ok (g, k') ->
  exists a cs, parse_bytes rnd k src = Ok (a, k') /\ graph_calls a cs /\
    g_name g = Ast.g_id a /\ g_directed g = Ast.g_type a /\ g_strict g = Ast.g_strict a /\
    (forall n, s_nodes (view g) !! n = node_result cs n) /\
    s_order (view g) = order_result cs /\
    s_edges (view g) = edges_result cs /\
    (forall n, is_subgraph g n = true <-> exists c, c ∈ cs /\ opens n c) /\
    g_attrs g = attrs_result cs (g_name g) /\
    (forall n, n <> g_name g -> default ∅ (s_subs (view g) !! n) = attrs_result cs n) /\
    default ∅ (s_subs (view g) !! g_name g) = ∅ /\
    (forall p n, is_child (view g) p n <-> exists c, c ∈ cs /\ relates p n c).
Proof.
  intros rnd os ord k src g k' Fo Ford H. unfold read in H. destruct (parse_bytes rnd k src) as [[a k1]|e| |] eqn:E; try discriminate.
  destruct (analysed_graph os ord a Fo Ford) as (l & HB & HA). destruct (new_analysed_graph os ord a) as [g1|e]; [|discriminate]. injection H as -> ->.
  destruct HA as (HO & HR & HV). exists a. eexists. split; [reflexivity|]. split; [exists l; split; [exact HB|reflexivity]|].
  pose proof (builds_content l (s_start a) (start_listed a) eq_refl) as HC. rewrite <- HV in HC. cbv zeta in HC.
  destruct HC as (C1 & C2 & C3 & C4 & C5 & C6 & C7 & C8).
  assert (HN : g_name g = Ast.g_id a) by (change (s_name (view g) = s_name (s_start a)); rewrite HV; apply builds_name).
  assert (HK : forall n, n ∈ [Ast.g_id a] -> has_attrs (s_start a) n) by (intros n Hn; apply elem_of_list_singleton in Hn; subst; left; reflexivity).
  split; [exact HN|]. split; [exact C1|]. split; [exact C2|]. split; [exact C3|]. split; [exact C4|]. split.
  { rewrite HV, builds_edges by (eapply body_builds; exact HB). reflexivity. }
  split.
  { intros n. etransitivity; [apply PropsGraph.C23_queries|]. rewrite HV.
    rewrite (builds_subs l (s_start a) [Ast.g_id a]); [|eapply body_wp; [exact HB|apply elem_of_list_singleton; reflexivity]|exact HK].
    split.
    - intros [[x Hx]|(c & H1 & H2)]; [discriminate|]. exists c. split; [apply elem_of_app; auto|exact H2].
    - intros (c & H1 & H2). right. exists c. split; [|exact H2]. apply elem_of_app in H1. destruct H1 as [H1|H1]; [|exact H1].
      destruct H2 as (p & m & ->). exfalso. repeat (apply elem_of_cons in H1; destruct H1 as [H1|H1]; [discriminate|]). inversion H1. }
  rewrite HN. split; [exact C5|]. split; [exact C6|]. split; [exact C7|].
  intros p n. rewrite C8. split.
  - intros [H|(c & H1 & H2)]; [unfold is_child, s_start in H; cbn in H; apply elem_of_empty in H; contradiction|]. exists c. split; [apply elem_of_app; auto|exact H2].
  - intros (c & H1 & H2). right. exists c. split; [|exact H2]. apply elem_of_app in H1. destruct H1 as [H1|H1]; [|exact H1].
    destruct H2 as (m & [-> | ->]); exfalso; repeat (apply elem_of_cons in H1; destruct H1 as [H1|H1]; [discriminate|]); inversion H1.
Qed.
Print Assumptions C26_read_content.

(** The last call that gives a node an attribute decides its value. *)
Theorem C26_last_writer : forall l1 p n m l2 k, (forall p' m', CAddNode p' n m' ∈ l2 -> m' !! k = None) ->
  exists a, node_result (l1 ++ CAddNode p n m :: l2) n = Some a /\
    a !! k = match m !! k with Some v => Some v | None => match node_result l1 n with Some a' => a' !! k | None => None end end.
Proof.
  intros l1 p n m l2 k H. unfold node_result. rewrite fold_left_app. cbn [fold_left].
  set (acc := fold_left _ l1 None). rewrite decide_True by reflexivity.
  assert (G : forall l a, (forall p' m', CAddNode p' n m' ∈ l -> m' !! k = None) ->
    exists a', fold_left (fun acc c => match c with CAddNode _ n' m => if decide (n' = n) then Some (m ∪ default ∅ acc) else acc | _ => acc end) l (Some a) = Some a' /\ a' !! k = a !! k).
  { clear. induction l as [|c l IH]; intros a H; cbn [fold_left]; [eauto|].
    assert (HI : forall p' m', CAddNode p' n m' ∈ l -> m' !! k = None) by (intros p' m' HE; apply (H p'); apply elem_of_cons; auto).
    destruct c; try (apply IH; exact HI). destruct (decide (name = n)) as [->|D]; [|apply IH; exact HI].
    destruct (IH (m ∪ default ∅ (Some a)) HI) as (a' & E1 & E2). exists a'. split; [exact E1|]. rewrite E2. cbn.
    apply lookup_union_r. apply (H parent). apply elem_of_cons. auto. }
  destruct (G l2 (m ∪ default ∅ acc) H) as (a & E1 & E2). exists a. split; [exact E1|]. rewrite E2, lookup_union.
  destruct (m !! k) as [v|]; destruct acc as [x|]; cbn; rewrite ?lookup_empty; try reflexivity; destruct (x !! k); reflexivity.
Qed.
Print Assumptions C26_last_writer.

(** Which defaults are used: a node statement, somewhere in a body, adds the node to that body's
    (sub)graph with its explicit attributes and, if it is the node's first mention in that body, with the
    node defaults in force there; explicit attributes win ([∪] is left-biased). *)
Theorem C26_node_statement : forall a cs name nd ed pre n at_ post,
  graph_calls a cs -> within (Ast.g_id a) ∅ ∅ (Ast.g_stmts a) name nd ed (pre ++ Ast.SNode n at_ :: post) ->
  (node_text n ∉ mentioned pre -> CAddNode name (node_text n) (given at_ ∪ node_defaults nd pre) ∈ cs) /\
  (node_text n ∈ mentioned pre -> CAddNode name (node_text n) (given at_) ∈ cs).
Proof.
  intros a cs name nd ed pre n at_ post (l & HB & ->) HW. destruct (within_calls _ _ _ _ _ _ _ _ HW l HB) as (l1 & l' & l2 & -> & HB').
  apply body_split in HB'. destruct HB' as (m1 & m2 & m3 & -> & _ & HS & _). cbn [app] in HS. inversion HS; subst.
  split; intros D; rewrite !elem_of_app; right; right; left; right; left; apply elem_of_list_singleton.
  - rewrite decide_False by exact D. reflexivity.
  - rewrite decide_True by exact D. rewrite (right_id_L ∅ (∪)). reflexivity.
Qed.
Print Assumptions C26_node_statement.
(** A subgraph gets the graph defaults of the body it is opened in; its own body starts with the node and
    edge defaults in force there ([within]). *)
Theorem C26_subgraph : forall a cs name nd ed pre s post id inner,
  graph_calls a cs -> within (Ast.g_id a) ∅ ∅ (Ast.g_stmts a) name nd ed (pre ++ s :: post) ->
  s = Ast.SSub (Ast.SubGraph id inner) \/
  (exists src rhs at_, s = Ast.SEdge src rhs at_ /\ Ast.LSub (Ast.SubGraph id inner) ∈ src :: map dst_of rhs) ->
  CAddSubGraph name id (graph_defaults ∅ pre) ∈ cs.
Proof.
  intros a cs name nd ed pre s post id inner (l & HB & ->) HW Hs. destruct (within_calls _ _ _ _ _ _ _ _ HW l HB) as (l1 & l' & l2 & -> & HB').
  apply body_split in HB'. destruct HB' as (m1 & m2 & m3 & -> & _ & HS & _). cbn [app] in HS.
  rewrite !elem_of_app; right; right; left; right; left.
  destruct Hs as [->|(src & rhs & a' & -> & E)]; inversion HS; subst.
  - match goal with X : sub_calls _ _ _ _ _ _ |- _ => inversion X; subst end. apply elem_of_cons. auto.
  - match goal with X : locs_calls _ _ _ _ _ _ |- _ => destruct (locs_sub _ _ _ _ _ _ _ X E) as (k1 & k2 & k3 & -> & HG) end.
    inversion HG; subst. rewrite !elem_of_app. right. right. left. apply elem_of_cons. auto.
Qed.
Print Assumptions C26_subgraph.
(** Nothing leaks out of a subgraph: what follows it in the body stands for the same calls whatever the
    subgraph contains. *)
Theorem C26_no_leak : forall name nd ed pre g g' post l,
  body_calls name nd ed (pre ++ [Ast.SSub g]) post l -> body_calls name nd ed (pre ++ [Ast.SSub g']) post l.
Proof.
  assert (G : (forall name nd ed pre s l, stmt_calls name nd ed pre s l -> forall p q g g', pre = p ++ Ast.SSub g :: q -> stmt_calls name nd ed (p ++ Ast.SSub g' :: q) s l) /\
    (forall name nd ed pre ls l, locs_calls name nd ed pre ls l -> forall p q g g', pre = p ++ Ast.SSub g :: q -> locs_calls name nd ed (p ++ Ast.SSub g' :: q) ls l) /\
    (forall name nd ed pre sg l, sub_calls name nd ed pre sg l -> forall p q g g', pre = p ++ Ast.SSub g :: q -> sub_calls name nd ed (p ++ Ast.SSub g' :: q) sg l) /\
    (forall name nd ed pre body l, body_calls name nd ed pre body l -> forall p q g g', pre = p ++ Ast.SSub g :: q -> body_calls name nd ed (p ++ Ast.SSub g' :: q) body l)).
  { apply (calls_ind (fun name nd ed pre s l => forall p q g g', pre = p ++ Ast.SSub g :: q -> stmt_calls name nd ed (p ++ Ast.SSub g' :: q) s l)
      (fun name nd ed pre ls l => forall p q g g', pre = p ++ Ast.SSub g :: q -> locs_calls name nd ed (p ++ Ast.SSub g' :: q) ls l)
      (fun name nd ed pre sg l => forall p q g g', pre = p ++ Ast.SSub g :: q -> sub_calls name nd ed (p ++ Ast.SSub g' :: q) sg l)
      (fun name nd ed pre body l => forall p q g g', pre = p ++ Ast.SSub g :: q -> body_calls name nd ed (p ++ Ast.SSub g' :: q) body l)).
    - intros name nd ed pre n a p q g g' ->.
      replace (mentioned (p ++ Ast.SSub g :: q)) with (mentioned (p ++ Ast.SSub g' :: q)) by (rewrite !mentioned_app; reflexivity).
      replace (node_defaults nd (p ++ Ast.SSub g :: q)) with (node_defaults nd (p ++ Ast.SSub g' :: q)) by (rewrite !nd_app; reflexivity). constructor.
    - intros name nd ed pre src rhs a l _ IH p q g g' ->.
      replace (mentioned (p ++ Ast.SSub g :: q)) with (mentioned (p ++ Ast.SSub g' :: q)) by (rewrite !mentioned_app; reflexivity).
      replace (node_defaults nd (p ++ Ast.SSub g :: q)) with (node_defaults nd (p ++ Ast.SSub g' :: q)) by (rewrite !nd_app; reflexivity).
      replace (edge_defaults ed (p ++ Ast.SSub g :: q)) with (edge_defaults ed (p ++ Ast.SSub g' :: q)) by (rewrite !ed_app; reflexivity). constructor. eapply IH. reflexivity.
    - intros. constructor.
    - intros. constructor.
    - intros. constructor. assumption.
    - intros name nd ed pre sg l _ IH p q g g' ->. constructor. eapply IH. reflexivity.
    - intros. constructor.
    - intros. constructor.
    - intros name nd ed pre n ls l _ IH p q g g' ->. constructor. eapply IH. reflexivity.
    - intros name nd ed pre sg ls l l' _ IH1 _ IH2 p q g g' ->. constructor; [eapply IH1|eapply IH2]; reflexivity.
    - intros name nd ed pre id body l HB _ p q g g' ->.
      replace (graph_defaults ∅ (p ++ Ast.SSub g :: q)) with (graph_defaults ∅ (p ++ Ast.SSub g' :: q)) by (rewrite !gd_app; reflexivity). constructor.
      rewrite nd_app, ed_app in *. exact HB.
    - intros. constructor.
    - intros name nd ed pre s body l l' _ IH1 _ IH2 p q g g' ->. econstructor; [eapply IH1; reflexivity|].
      specialize (IH2 p (q ++ [s]) g g'). rewrite <- app_assoc in *. apply IH2. reflexivity. }
  intros name nd ed pre g g' post l H. eapply (proj2 (proj2 (proj2 G))); [exact H|reflexivity].
Qed.
Print Assumptions C26_no_leak.
(** The body of S lies within the graph, after four statements; its defaults contain color=red. *)
Example C26_within_example : exists pre, length pre = 4 /\ node_defaults ∅ pre !! lit "color" = Some (lit "red") /\
  within (Ast.g_id ast1) ∅ ∅ (Ast.g_stmts ast1) (lit "S") (node_defaults ∅ pre) (edge_defaults ∅ pre)
    ([Ast.SNodeAttrs [[Ast.Attr (lit "shape") (lit "box")]]] ++ Ast.SNode (Ast.NodeID (lit "d") (Ast.Port [] [])) [] ::
     [Ast.SNode (Ast.NodeID (lit "a") (Ast.Port [] [])) []]).
Proof.
  exists (firstn 4 (Ast.g_stmts ast1)). split; [vm_compute; reflexivity|]. split; [vm_compute; reflexivity|].
  assert (E : exists post, Ast.g_stmts ast1 = firstn 4 (Ast.g_stmts ast1) ++ Ast.SSub (Ast.SubGraph (lit "S")
     ([Ast.SNodeAttrs [[Ast.Attr (lit "shape") (lit "box")]]] ++ Ast.SNode (Ast.NodeID (lit "d") (Ast.Port [] [])) [] ::
     [Ast.SNode (Ast.NodeID (lit "a") (Ast.Port [] [])) []])) :: post) by (eexists; vm_compute; reflexivity).
  destruct E as [post E]. rewrite E at 1. eapply Wi_sub; [left; reflexivity|]. apply Wi_here.
Qed.
Example C26_example : match read rnd0 os_id ord_id 0 src1 with Ok (g, _) =>
  map_to_list <$> s_nodes (view g) !! lit "c" = Some [(lit "color", lit "blue")] /\      (* explicit wins *)
  map_to_list <$> s_nodes (view g) !! lit "e" = Some [(lit "color", lit "red")] /\       (* shape=box stays inside S *)
  (default ∅ (s_nodes (view g) !! lit "d")) !! lit "shape" = Some (lit "box") /\
  (default ∅ (s_nodes (view g) !! lit "a")) !! lit "shape" = Some (lit "box") /\         (* mentioned again inside S *)
  map_to_list <$> s_subs (view g) !! lit "S" = Some [(lit "rank", lit "same")]
  | _ => False end.
Proof. vm_compute. repeat split. Qed.

(** ** C27 One edge per arrow *)
(** The edges of the graph, in order: [body_edges] (SpecAnalyse.v) lists the arrows. *)
Theorem C27_edges : forall rnd os ord k src g k' a, (forall i, fair (os i)) -> fair_order ord ->
  read rnd os ord k src = Ok (g, k') -> parse_bytes rnd k src = Ok (a, k') ->
  edges_list (g_edges g) = body_edges ∅ (Ast.g_stmts a).
Proof.
  intros rnd os ord k src g k' a Fo Ford H E. destruct (C26_read_content _ _ _ _ _ _ _ Fo Ford H) as (a' & cs & E' & (l & HB & ->) & _ & _ & _ & _ & _ & HE & _).
  rewrite E in E'. injection E' as <-. change (s_edges (view g) = body_edges ∅ (Ast.g_stmts a)). rewrite HE.
  rewrite edges_result_app. cbn [edges_result flat_map call_edges app]. exact (body_edges_ok _ _ _ _ _ _ HB).
Qed.
Print Assumptions C27_edges.
(** The arrows of a statement connect consecutive endpoints, one per operator, with its direction. *)
Theorem C27_arrows : forall src rhs i, 
  arrows src rhs !! i = match rhs !! i with
    | Some (Ast.EdgeRH op dst) => match (src :: map dst_of rhs) !! i with Some s => Some (s, op, dst) | None => None end
    | None => None end.
Proof.
  intros src rhs i. revert src i. induction rhs as [|[op dst] rhs IH]; intros src i; [reflexivity|].
  destruct i as [|i]; [reflexivity|]. cbn [arrows map dst_of]. cbn. rewrite IH. reflexivity.
Qed.
Print Assumptions C27_arrows.
(** Every edge statement contributes the block of its arrows, all with the same attributes (its own, then
    the edge defaults in force); every plain endpoint is a node and a child of the enclosing (sub)graph. *)
Theorem C27_edge_statement : forall rnd os ord k src g k' a name nd ed pre s rhs at_ post, (forall i, fair (os i)) -> fair_order ord ->
  read rnd os ord k src = Ok (g, k') -> parse_bytes rnd k src = Ok (a, k') ->
  within (Ast.g_id a) ∅ ∅ (Ast.g_stmts a) name nd ed (pre ++ Ast.SEdge s rhs at_ :: post) ->
  (exists e1 e2, edges_list (g_edges g) = e1 ++ map (arrow_edge (given at_ ∪ edge_defaults ed pre)) (arrows s rhs) ++ e2) /\
  (forall n, Ast.LNode n ∈ s :: map dst_of rhs -> is_node g (Ast.nid_id n) = true /\ is_child (view g) name (Ast.nid_id n)).
Proof.
  intros rnd os ord k src g k' a name nd ed pre s rhs at_ post Fo Ford H E HW.
  destruct (C26_read_content _ _ _ _ _ _ _ Fo Ford H) as (a' & cs & E' & (l & HB & ->) & _ & _ & _ & HN & _ & HE & _ & _ & _ & _ & HR).
  rewrite E in E'. injection E' as <-. destruct (within_calls _ _ _ _ _ _ _ _ HW l HB) as (l1 & l' & l2 & -> & HB').
  split.
  - apply body_split in HB'. destruct HB' as (m1 & m2 & m3 & -> & _ & HS & _). cbn [app] in HS. inversion HS; subst.
    change (edges_list (g_edges g)) with (s_edges (view g)). rewrite HE, !edges_result_app, endpoint_edges, arrow_edges. cbn [app edges_result flat_map call_edges].
    eexists (edges_result l1 ++ edges_result m1), _. rewrite <- !app_assoc. reflexivity.
  - intros n Hn. assert (HM : Ast.nid_id n ∈ mentioned (pre ++ Ast.SEdge s rhs at_ :: post)).
    { rewrite mentioned_app. apply elem_of_app. right. cbn. apply elem_of_app. left. apply elem_of_app.
      apply elem_of_cons in Hn. destruct Hn as [<-|Hn]; [left; apply elem_of_list_singleton; reflexivity|right].
      apply elem_of_list_In, in_flat_map. apply elem_of_list_fmap in Hn. destruct Hn as (e0 & E0 & Hn). exists e0.
      split; [apply elem_of_list_In; exact Hn|]. rewrite <- E0. left. reflexivity. }
    destruct (body_adds _ _ _ _ _ _ _ HB' HM) as [D|[m D]]; [inversion D|].
    assert (HI : CAddNode name (Ast.nid_id n) m ∈ [CSetStrict (Ast.g_strict a); CSetDir (Ast.g_type a); CSetName (Ast.g_id a)] ++ l1 ++ l' ++ l2) by (rewrite !elem_of_app; auto).
    split.
    + apply PropsGraph.C23_queries. unfold s_is_node. rewrite HN. apply elem_of_list_split in HI. destruct HI as (c1 & c2 & ->).
      unfold node_result. rewrite fold_left_app. cbn [fold_left]. rewrite decide_True by reflexivity.
      generalize (m ∪ default ∅ (fold_left (fun acc c => match c with CAddNode _ n' m => if decide (n' = Ast.nid_id n) then Some (m ∪ default ∅ acc) else acc | _ => acc end) c1 None)).
      clear. induction c2 as [|c c2 IH]; intros x; cbn [fold_left]; [eauto|]. destruct c; try apply IH. destruct (decide _); apply IH.
    + apply HR. eexists. split; [exact HI|]. exists m. auto.
Qed.
Print Assumptions C27_edge_statement.
Example C27_example : match read rnd0 os_id ord_id 0 src1 with Ok (g, _) =>
  map (fun e => (e_src e, e_src_port e, e_dst e, e_dst_port e, e_dir e, map_to_list (e_attrs e))) (edges_list (g_edges g)) =
  [(lit "a", [], lit "b", lit ":p", true, [(lit "label", lit "x"); (lit "style", lit "bold")]);
   (lit "b", lit ":p", lit "anon41", [], true, [(lit "label", lit "x"); (lit "style", lit "bold")])]
  | _ => False end.
Proof. vm_compute. reflexivity. Qed.

(** ** C28 for Read: the graph does not depend on the iteration orders *)
Theorem C28_read : forall rnd os1 os2 ord1 ord2 k src g1 k1, (forall i, fair (os1 i)) -> (forall i, fair (os2 i)) ->
  fair_order ord1 -> fair_order ord2 -> read rnd os1 ord1 k src = Ok (g1, k1) ->
  exists g2, read rnd os2 ord2 k src = Ok (g2, k1) /\ view g2 = view g1.
Proof.
  intros rnd os1 os2 ord1 ord2 k src g1 k1 F1 F2 O1 O2 H. unfold read in *. destruct (parse_bytes rnd k src) as [[a k']|e| |]; try discriminate.
  destruct (analysed_graph os1 ord1 a F1 O1) as (l1 & B1 & A1). destruct (analysed_graph os2 ord2 a F2 O2) as (l2 & B2 & A2).
  destruct (new_analysed_graph os1 ord1 a) as [g|e]; [|discriminate]. injection H as -> ->. destruct A1 as (C1 & _ & V1).
  pose proof (body_det _ _ _ _ _ _ B1 _ B2) as T. apply (trace_eq_ok _ _ T) in C1.
  destruct (new_analysed_graph os2 ord2 a) as [g2|e]; [|contradiction]. exists g2. split; [reflexivity|]. destruct A2 as (_ & _ & V2).
  rewrite V1, V2. symmetry. apply (trace_eq_build l1 l2 T [Ast.g_id a]).
  - eapply body_wp; [exact B1|apply elem_of_list_singleton; reflexivity].
  - intros n Hn. apply elem_of_list_singleton in Hn. subst. left. reflexivity.
Qed.
Print Assumptions C28_read.
Example C28_read_example : (exists g k', read rnd0 os_id ord_id 0 src1 = Ok (g, k')) /\ fair_order ord_rev /\
  ord_rev 0 {[lit "a" := lit "1"; lit "b" := lit "2"]} <> ord_id 0 {[lit "a" := lit "1"; lit "b" := lit "2"]}.
Proof. split; [apply read_ok; vm_compute; reflexivity|]. split; [apply fair_ord_rev|]. vm_compute. discriminate. Qed.

(** ** C29 Edges of a read graph have endpoints; relations relate *)
Theorem C29_endpoints : forall rnd os ord k src g k', (forall i, fair (os i)) -> fair_order ord ->
  read rnd os ord k src = Ok (g, k') ->
  (forall e x, e ∈ edges_list (g_edges g) -> x = e_src e \/ x = e_dst e -> is_node g x = true \/ is_subgraph g x = true) /\
  (forall p c, is_child (view g) p c -> (is_node g c = true \/ is_subgraph g c = true) /\ (p = g_name g \/ is_subgraph g p = true)).
Proof.
  intros rnd os ord k src g k' Fo Ford H.
  destruct (C26_read_content _ _ _ _ _ _ _ Fo Ford H) as (a & cs & E & (l & HB & ->) & HNm & _ & _ & HN & _ & HE & HS & _ & _ & _ & HR).
  set (cs := [CSetStrict (Ast.g_strict a); CSetDir (Ast.g_type a); CSetName (Ast.g_id a)] ++ l) in *.
  assert (HA : forall p n m, CAddNode p n m ∈ cs -> is_node g n = true).
  { intros p n m HI. apply PropsGraph.C23_queries. unfold s_is_node. rewrite HN. clearbody cs. apply elem_of_list_split in HI. destruct HI as (c1 & c2 & ->).
    unfold node_result. rewrite fold_left_app. cbn [fold_left]. rewrite decide_True by reflexivity.
    match goal with |- is_Some (fold_left _ _ (Some ?y)) => generalize y end.
    clear. induction c2 as [|c c2 IH]; intros x; cbn [fold_left]; [eauto|]. destruct c; try apply IH. destruct (decide _); apply IH. }
  split.
  - intros e x He Hx. change (e ∈ s_edges (view g)) in He. rewrite HE in He. unfold cs in He. rewrite edges_result_app in He. cbn [edges_result flat_map call_edges app] in He.
    destruct (body_covered _ _ _ _ _ _ HB e x He) as [[(p & m & D)|(c & D1 & D2)]|D]; [destruct Hx as [->| ->]; [left|right]; reflexivity| | |inversion D].
    + left. apply (HA p x m). unfold cs. apply elem_of_app. auto.
    + right. apply HS. exists c. split; [unfold cs; apply elem_of_app; auto|exact D2].
  - intros p c Hc. apply HR in Hc. destruct Hc as (cl & HI & m & Hm). split.
    + destruct Hm as [-> | ->]; [left; apply (HA p c m); exact HI|right; apply HS]. eexists. split; [exact HI|]. eexists _, _. reflexivity.
    + assert (HL : cl ∈ l). { unfold cs in HI. apply elem_of_app in HI. destruct HI as [HI|HI]; [|exact HI]. destruct Hm as [-> | ->]; exfalso; repeat (apply elem_of_cons in HI; destruct HI as [HI|HI]; [discriminate|]); inversion HI. }
      destruct (calls_parents_body _ _ _ _ _ _ HB cl p c HL) as [->|(c' & D1 & D2)]; [exists m; exact Hm|left; symmetry; exact HNm|right].
      apply HS. exists c'. split; [unfold cs; apply elem_of_app; auto|exact D2].
Qed.
Print Assumptions C29_endpoints.
Example C29_example : match read rnd0 os_id ord_id 0 src1 with Ok (g, _) =>
    length (edges_list (g_edges g)) = 2 /\ is_subgraph g (lit "anon41") = true | _ => False end.
Proof. vm_compute. split; reflexivity. Qed.
