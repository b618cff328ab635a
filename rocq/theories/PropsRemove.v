(** Property C89: which graphs can be written after removals. *)
From Verif Require Import Base Parser Maps Graph SpecGraph MapFacts GraphProofs Direct SpecDirect DirectProofs.
From Verif Require Import Write SpecWrite EdgeOrder WriteProofs WriteFacts WriteFacts2 TidyCheck SpecRemove.
From Verif Require PropsGraph PropsWrite PropsOrder PropsUndo.
Local Existing Instance accepts_any.
Notation srt0 := PropsWrite.srt0.
Notation build := PropsWrite.build.
Notation o_id := PropsGraph.o_id.

Global Instance s_is_node_dec s n : Decision (s_is_node s n).
Proof. unfold s_is_node. apply _. Defined.
Global Instance s_is_sub_dec s n : Decision (s_is_sub s n).
Proof. unfold s_is_sub. apply _. Defined.

(** *** Taking things away *)
Record less (s s' : sgraph) : Prop := Less {
  less_name : s_name s' = s_name s;
  less_node : forall x, s_is_node s' x -> s_is_node s x;
  less_sub : forall x, s_is_sub s' x -> s_is_sub s x;
  less_child : forall p c, is_child s' p c -> is_child s p c;
  less_edge : forall e, e ∈ s_edges s' -> e ∈ s_edges s;
  less_ends : forall n port, endpoint s' n port -> (s_is_node s n -> s_is_node s' n) /\ (s_is_sub s n -> s_is_sub s' n);
  less_names : disjoint_names s }.
Section Less.
  Variables s s' : sgraph.
  Hypothesis L : less s s'.
  Lemma less_disjoint : disjoint_names s'.
  Proof. intros x H1 H2. apply (less_names _ _ L x); [apply (less_node _ _ L), H1|apply (less_sub _ _ L), H2]. Qed.
  Lemma less_no_clash : no_clash s'.
  Proof. intros n H1 H2 _. apply (less_disjoint n); assumption. Qed.
  Lemma less_sub_not_node x : s_is_sub s' x -> ~ s_is_node s x.
  Proof. intros H1 H2. apply (less_names _ _ L x); [exact H2|apply (less_sub _ _ L), H1]. Qed.
  Lemma less_nested p c : nested s' p c -> nested s p c.
  Proof.
    intros (H1 & H2 & _). split; [apply (less_child _ _ L), H1|]. split; [apply (less_sub _ _ L), H2|]. apply less_sub_not_node, H2.
  Qed.
  Lemma less_endpoint n port : endpoint s' n port -> endpoint s n port.
  Proof. intros (e & He & H). exists e. split; [apply (less_edge _ _ L), He|exact H]. Qed.
  Lemma less_starts n : starts s' n -> starts s n.
  Proof.
    intros [H1 H2|port H1 H2 H3 H4].
    - apply Starts_top; [rewrite <- (less_name _ _ L); apply (less_child _ _ L), H1|apply (less_sub _ _ L), H2].
    - apply (Starts_end _ _ port); [apply less_endpoint, H1|apply (less_sub _ _ L), H2|apply less_sub_not_node, H2|].
      intros [_ C]. apply H4. split; assumption.
  Qed.
  Lemma less_written n : written s' n -> written s n.
  Proof.
    intros (r & H1 & H2). exists r. split; [apply less_starts, H1|]. clear H1. induction H2 as [x|x y z H _ IH]; [reflexivity|].
    econstructor; [apply less_nested, H|exact IH].
  Qed.
  Lemma less_acyclic : acyclic s -> acyclic s'.
  Proof.
    intros Ac n W C. apply (Ac n); [apply less_written, W|].
    assert (X : forall x y, tc (nested s') x y -> tc (nested s) x y).
    { induction 1 as [x y H|x y z H _ IH]; [apply tc_once, less_nested, H|]. eapply tc_l; [apply less_nested, H|exact IH]. }
    apply X, C.
  Qed.
  Lemma less_bad_end n port : ~ unwritable s -> endpoint s' n port -> ~ bad_end s' n port.
  Proof.
    intros U E B. apply U. apply (Bad_edge s n port); [apply less_endpoint, E|]. destruct (less_ends _ _ L n port E) as [E1 E2].
    destruct B as [N1 N2|N1 N2 N3].
    - apply Bad_unknown; tauto.
    - apply Bad_port; [tauto|apply (less_sub _ _ L), N2|exact N3].
  Qed.
  (** Only children that are gone can be missed. *)
  Lemma less_missed e : ~ unwritable s -> complaint s' e ->
    exists q x, written s' q /\ is_child s' q x /\ ~ s_is_node s' x /\ ~ s_is_sub s' x /\ e = x ++ lit " is not a node or a subgraph".
  Proof.
    intros U [(n & N1 & N2 & -> & [[port E]|(p & W & C)])|(n & port & E & N1 & N2 & N3 & ->)].
    - exfalso. apply (less_bad_end n port U E). apply Bad_unknown; assumption.
    - eauto 10.
    - exfalso. apply (less_bad_end n port U E). apply Bad_port; assumption.
  Qed.
End Less.

Definition removal (c : call) : Prop := match c with CRemoveNode _ _ | CRemoveSubGraph _ _ => True | _ => False end.
Lemma drop_less s p N : disjoint_names s -> less s (s_drop_nodes s p N).
Proof.
  intros D. split; cbn; try done.
  - intros x [a H]. apply map_filter_lookup_Some in H. exists a. apply H.
  - intros p' c H. unfold is_child in *. cbn in H. apply elem_of_filter in H. apply H.
  - intros e H. apply elem_of_list_filter in H. apply H.
  - intros n port (e & He & H). cbn in He. apply elem_of_list_filter in He. destruct He as [[A1 A2] He]. split; [|done].
    intros [a Ha]. exists a. cbn. apply map_filter_lookup_Some. split; [exact Ha|]. cbn. destruct H as [[-> _]|[-> _]]; assumption.
Qed.
Lemma removal_less c s s' r : removal c -> disjoint_names s -> spec_call c s s' r -> less s s'.
Proof.
  intros Rm D H. destruct H as [| | | | | | | | | | | | | |p n s Hn|p n s Hn|p n s N HN1 HN2|p n s N c Hc1 Hc2 HN]; try destruct Rm.
  - apply drop_less, D.
  - split; auto.
  - pose proof (drop_less s p N D) as [L1 L2 L3 L4 L5 L6 _]. split; cbn; try done.
    + intros x [a Ha]. cbn in Ha. apply lookup_delete_Some in Ha. exists a. apply Ha.
    + intros p' c H. apply L4. unfold is_child in *. cbn in *. set_solver.
    + intros e H. apply elem_of_list_filter in H. apply L5, H.
    + intros x port (e & He & H). cbn in He. apply elem_of_list_filter in He. destruct He as [(A1 & A2 & _) He].
      destruct (L6 x port) as [K1 K2]; [exists e; auto|]. split; [exact K1|]. intros [a Ha]. exists a. cbn. rewrite lookup_delete_ne; [exact Ha|].
      destruct H as [[-> _]|[-> _]]; congruence.
  - apply drop_less, D.
Qed.

(** ** After any removal *)
Lemma write_after srt o g' fuel s : fair o -> sorts (edge_less o) srt -> built g' -> less s (view g') -> writable s -> size (g_subs g') < fuel ->
  (exists a, write_ast srt o g' fuel = Ok a) \/
  (exists q x, written (view g') q /\ is_child (view g') q x /\ ~ s_is_node (view g') x /\ ~ s_is_sub (view g') x /\
     write_ast srt o g' fuel = Err (x ++ lit " is not a node or a subgraph")).
Proof.
  intros Fo So B L [U Ac] F. destruct (PropsWrite.C34_terminates srt o g' Fo So B (less_acyclic _ _ L Ac) fuel F) as [T _].
  destruct (write_ast srt o g' fuel) as [a|e| |] eqn:E; [left; eauto| | |congruence].
  - right. destruct (PropsWrite.C33_errors srt o g' fuel e Fo So B E) as [C _]. destruct (less_missed _ _ L e U C) as (q & x & H1 & H2 & H3 & H4 & ->). eauto 10.
  - exfalso. exact (proj1 (PropsWrite.C33_no_panic srt o g' fuel Fo B) E).
Qed.
Lemma written_missing g' q x : written (view g') q -> is_child (view g') q x -> ~ s_is_node (view g') x -> ~ s_is_sub (view g') x -> unwritable (view g').
Proof. intros H1 H2 H3 H4. exact (Bad_child _ q x H1 H2 H3 H4). Qed.
Lemma ok_writable srt o g fuel a : fair o -> sorts (edge_less o) srt -> built g -> no_clash (view g) -> write_ast srt o g fuel = Ok a -> ~ unwritable (view g).
Proof.
  intros Fo So B NC E. assert (T : write_ast srt o g fuel <> OutOfFuel) by congruence.
  destruct (PropsWrite.C33_iff srt o g fuel Fo So B NC T) as [_ [K _]]. apply K. eauto.
Qed.

(** ** C89.  Take a graph that can be written, with no name for a node and a subgraph.  After RemoveNode or RemoveSubGraph, with any
    arguments and whether it succeeds or not, it can be written exactly if no subgraph that is still written has a child that is gone;
    otherwise the error names such a child.  (Edges are never in the way.) *)
Theorem C89_removal : forall srt o o' g c fuel, fair o -> fair o' -> sorts (edge_less o') srt -> built g -> disjoint_names (view g) -> writable (view g) ->
  removal c -> let g' := (exec o c g).1 in size (g_subs g') < fuel ->
  ((exists a, write_ast srt o' g' fuel = Ok a) <->
     forall q x, written (view g') q -> is_child (view g') q x -> s_is_node (view g') x \/ s_is_sub (view g') x) /\
  ((exists a, write_ast srt o' g' fuel = Ok a) \/
   exists q x, written (view g') q /\ is_child (view g') q x /\ ~ s_is_node (view g') x /\ ~ s_is_sub (view g') x /\
     (s_is_node (view g) x \/ s_is_sub (view g) x) /\ write_ast srt o' g' fuel = Err (x ++ lit " is not a node or a subgraph")).
Proof.
  intros srt o o' g c fuel Fo Fo' So B D W Rm g' F. assert (B' : built g') by (apply built_call; assumption).
  assert (L : less (view g) (view g')).
  { apply (removal_less c _ _ (exec o c g).2 Rm D). apply PropsGraph.C23_refinement_step; assumption. }
  destruct (write_after srt o' g' fuel (view g) Fo' So B' L W F) as [[a Ha]|(q & x & H1 & H2 & H3 & H4 & H5)].
  - split; [|left; eauto]. split; [|intros _; eauto]. intros _ q x H1 H2.
    destruct (decide (s_is_node (view g') x)) as [N|N]; [left; exact N|]. destruct (decide (s_is_sub (view g') x)) as [N2|N2]; [right; exact N2|].
    exfalso. apply (ok_writable srt o' g' fuel a Fo' So B' (less_no_clash _ _ L) Ha). exact (Bad_child _ q x H1 H2 N N2).
  - split.
    + split; [intros [a Ha]; congruence|]. intros H. destruct (H q x H1 H2); tauto.
    + right. exists q, x. do 4 (split; [assumption|]). split; [|exact H5].
      destruct (decide (s_is_node (view g) x)) as [N|N]; [left; exact N|]. destruct (decide (s_is_sub (view g) x)) as [N2|N2]; [right; exact N2|].
      exfalso. destruct W as [U _]. apply U. apply (Bad_child _ q x (less_written _ _ L q H1) (less_child _ _ L q x H2) N N2).
Qed.
Print Assumptions C89_removal.

(** *** RemoveNode *)
Lemma drop_written s p n q : disjoint_names s -> s_is_node s n -> (written (s_drop_nodes s p {[n]}) q <-> reached s (not_at n) q).
Proof.
  intros D Hn. pose proof (drop_less s p {[n]} D) as L.
  assert (NS : forall x, s_is_sub s x -> x <> n) by (intros x Hx ->; apply (D n); assumption).
  assert (NN : forall x, s_is_sub s x -> ~ s_is_node s x) by (intros x H1 H2; apply (D x); assumption).
  assert (K : forall a b, is_child s a b -> b <> n -> is_child (s_drop_nodes s p {[n]}) a b).
  { intros a b H N. unfold is_child. cbn. apply elem_of_filter. split; [|exact H]. cbn. intros [_ C]. apply N. set_solver. }
  assert (ND : forall a b, nested s a b -> nested (s_drop_nodes s p {[n]}) a b).
  { intros a b (H1 & H2 & H3). split; [apply K; auto|]. split; [exact H2|]. intros C. apply H3, (less_node _ _ L), C. }
  split.
  - intros (r & St & H). exists r. split; [|].
    { clear St. induction H as [x|x y z H _ IH]; [reflexivity|]. econstructor; [apply (less_nested _ _ L), H|exact IH]. }
    destruct St as [H1 H2|port (e & He & H1) H2 H3 H4].
    + split; [exact H2|]. left. apply (less_child _ _ L) in H1. exact H1.
    + split; [exact H2|]. right. split; [apply NN, H2|]. split; [intros [_ C]; apply H4; split; assumption|].
      cbn in He. apply elem_of_list_filter in He. destruct He as [[A1 A2] He]. exists e. split; [exact He|]. split; [split; set_solver|].
      destruct H1 as [[-> _]|[-> _]]; auto.
  - intros (r & H & Hr & St). exists r. split.
    + destruct St as [H1|(N1 & N2 & e & He & [P1 P2] & H1)].
      * apply Starts_top; [apply K; auto|exact Hr].
      * assert (He' : e ∈ s_edges (s_drop_nodes s p {[n]})) by (cbn; apply elem_of_list_filter; split; [split; set_solver|exact He]).
        destruct H1 as [H1|H1].
        -- apply (Starts_end _ _ (e_src_port e)); [exists e; auto|exact Hr|intros C; apply N1, (less_node _ _ L), C|intros [_ C]; apply N2; split; assumption].
        -- apply (Starts_end _ _ (e_dst_port e)); [exists e; auto|exact Hr|intros C; apply N1, (less_node _ _ L), C|intros [_ C]; apply N2; split; assumption].
    + clear St. induction H as [x|x y z H _ IH]; [reflexivity|]. econstructor; [apply ND, H|]. apply IH. destruct H as (_ & H & _). exact H.
Qed.
(** After RemoveNode(p, n) the graph can be written exactly if no subgraph other than p has n as a child, of those that are reached from
    the main graph or from an edge that does not end at n.  Otherwise the error is "n is not a node or a subgraph". *)
Theorem C89_remove_node : forall srt o g p n g' fuel, fair o -> sorts (edge_less o) srt -> built g -> disjoint_names (view g) -> writable (view g) ->
  remove_node g p n = (g', None) -> size (g_subs g) < fuel ->
  ((exists a, write_ast srt o g' fuel = Ok a) <-> forall q, reached (view g) (not_at n) q -> is_child (view g) q n -> q = p) /\
  ((exists a, write_ast srt o g' fuel = Ok a) \/ write_ast srt o g' fuel = Err (n ++ lit " is not a node or a subgraph")).
Proof.
  intros srt o g p n g' fuel Fo So B D W E F.
  destruct (remove_node_spec g p n (built_ok g B)) as [[_ H]|(Hn & g2 & H1 & _ & H2)]; [congruence|]. rewrite E in H1. injection H1 as <-.
  assert (Sz : size (g_subs g') = size (g_subs g)).
  { apply (f_equal s_subs) in H2. cbn in H2. apply (f_equal size) in H2. rewrite !map_size_fmap in H2. exact H2. }
  assert (EX : g' = (exec o (CRemoveNode p n) g).1) by (cbn; rewrite E; reflexivity).
  destruct (C89_removal srt o o g (CRemoveNode p n) fuel Fo Fo So B D W I) as [K1 K2]; [rewrite <- EX, Sz; exact F|]. rewrite <- EX in K1, K2.
  assert (Nn : ~ s_is_node (view g') n).
  { rewrite H2. intros [a Ha]. cbn in Ha. apply map_filter_lookup_Some in Ha. destruct Ha as [_ Ha]. cbn in Ha. set_solver. }
  assert (Ns : ~ s_is_sub (view g') n) by (rewrite H2; intros C; apply (D n); assumption).
  assert (Only : forall x, s_is_node (view g) x \/ s_is_sub (view g) x -> ~ s_is_node (view g') x -> ~ s_is_sub (view g') x -> x = n).
  { intros x Hx M1 M2. rewrite H2 in M1, M2. destruct Hx as [[a Hx]|Hx]; [|contradiction]. destruct (decide (x = n)) as [->|Nx]; [reflexivity|].
    exfalso. apply M1. exists a. cbn. apply map_filter_lookup_Some. split; [exact Hx|]. cbn. set_solver. }
  split.
  - rewrite K1. split.
    + intros H q Rq Cq. destruct (decide (q = p)) as [->|Nq]; [reflexivity|]. exfalso.
      assert (Wq : written (view g') q) by (rewrite H2; apply drop_written; assumption).
      assert (Cq' : is_child (view g') q n).
      { rewrite H2. unfold is_child. cbn. apply elem_of_filter. split; [|exact Cq]. cbn. tauto. }
      destruct (H q n Wq Cq'); contradiction.
    + intros H q x Wq Cx. destruct (decide (s_is_node (view g') x)) as [N|N]; [left; exact N|]. destruct (decide (s_is_sub (view g') x)) as [N2|N2]; [right; exact N2|].
      exfalso. rewrite H2 in Wq, Cx. pose proof (proj1 (drop_written (view g) p n q D Hn) Wq) as Rq.
      pose proof (drop_less (view g) p {[n]} D) as L. destruct (decide (x = n)) as [->|Nx].
      * assert (Cn : is_child (view g) q n) by (apply (less_child _ _ L), Cx). specialize (H q Rq Cn). subst q.
        unfold is_child in Cx. cbn in Cx. apply elem_of_filter in Cx. destruct Cx as [Cx _]. cbn in Cx. apply Cx. set_solver.
      * destruct W as [U _]. apply U. apply (Bad_child _ q x (less_written _ _ L q Wq) (less_child _ _ L q x Cx)).
        -- intros [a Ha]. apply N. rewrite H2. exists a. cbn. apply map_filter_lookup_Some. split; [exact Ha|]. cbn. set_solver.
        -- intros C. apply N2. rewrite H2. exact C.
  - destruct K2 as [K2|(q & x & _ & _ & M1 & M2 & Mx & K2)]; [left; exact K2|]. right. rewrite K2. rewrite (Only x Mx M1 M2). reflexivity.
Qed.
Print Assumptions C89_remove_node.
(** A node that is in no subgraph may be removed with any name for the parent. *)
Corollary C89_top_node : forall srt o g p n g' fuel, fair o -> sorts (edge_less o) srt -> built g -> disjoint_names (view g) -> writable (view g) ->
  (forall q, s_is_sub (view g) q -> ~ is_child (view g) q n) ->
  remove_node g p n = (g', None) -> size (g_subs g) < fuel -> exists a, write_ast srt o g' fuel = Ok a.
Proof.
  intros srt o g p n g' fuel Fo So B D W H E F. apply (C89_remove_node srt o g p n g' fuel Fo So B D W E F).
  intros q (r & Hr & Sr & _) C. exfalso. apply (H q); [|exact C]. clear -Hr Sr. induction Hr as [x|x y z (_ & Hy & _) _ IH]; [exact Sr|]. apply IH, Hy.
Qed.
Print Assumptions C89_top_node.

(** *** RemoveSubGraph *)
(** When RemoveSubGraph(p, n) succeeds: exactly if no subgraph that is still written, other than p, has n or a child of n as a child. *)
Theorem C89_remove_sub : forall srt o o' g p n g' fuel, fair o -> fair o' -> sorts (edge_less o') srt -> built g -> disjoint_names (view g) -> writable (view g) ->
  s_is_sub (view g) n -> remove_subgraph o g p n = (g', None) -> size (g_subs g) < fuel ->
  ((exists a, write_ast srt o' g' fuel = Ok a) <->
     forall q x, written (view g') q -> is_child (view g) q x -> x = n \/ is_child (view g) n x -> q = p) /\
  ((exists a, write_ast srt o' g' fuel = Ok a) \/
   exists x, (x = n \/ is_child (view g) n x) /\ write_ast srt o' g' fuel = Err (x ++ lit " is not a node or a subgraph")).
Proof.
  intros srt o o' g p n g' fuel Fo Fo' So B D W Sn E F.
  assert (Hall : forall c, is_child (view g) n c -> is_node g c = true).
  { intros c0 Hc0. destruct (is_node g c0) eqn:En; [reflexivity|]. destruct (PropsGraph.C21_remove_subgraph_failure o g p n c0 Fo B Hc0 En) as (x & c2 & N' & H & _). congruence. }
  destruct (PropsGraph.C21_remove_subgraph o g p n Fo B Hall) as (g1 & E1 & Hnode & _ & Hsub & Hrel & _).
  rewrite E in E1. injection E1 as <-.
  assert (EX : g' = (exec o (CRemoveSubGraph p n) g).1) by (cbn; rewrite E; reflexivity).
  assert (Sz : size (g_subs g') <= size (g_subs g)).
  { apply (f_equal size) in Hsub. cbn in Hsub. destruct Sn as [sa Hsa]. cbn in Hsa. rewrite map_size_delete, Hsa, !map_size_fmap in Hsub. lia. }
  destruct (C89_removal srt o o' g (CRemoveSubGraph p n) fuel Fo Fo' So B D W I) as [K1 K2]; [rewrite <- EX; lia|]. rewrite <- EX in K1, K2.
  assert (L : less (view g) (view g')).
  { rewrite EX. apply (removal_less (CRemoveSubGraph p n) _ _ (exec o (CRemoveSubGraph p n) g).2 I D). apply PropsGraph.C23_refinement_step; assumption. }
  assert (HN : forall c, is_child (view g) n c -> s_is_node (view g) c).
  { intros c Hc. apply view_is_node. specialize (Hall c Hc). unfold is_node in Hall. destruct (nodes_lookup _ !! c); [eauto|discriminate]. }
  assert (Gone : forall x, x = n \/ is_child (view g) n x -> ~ s_is_node (view g') x /\ ~ s_is_sub (view g') x).
  { intros x [->|Hx]; split.
    - intros C. apply (D n); [apply (less_node _ _ L), C|exact Sn].
    - intros [y Hy]. rewrite Hsub in Hy. rewrite lookup_delete in Hy. discriminate.
    - intros [y Hy]. apply Hnode in Hy. tauto.
    - intros C. apply (D x); [apply HN, Hx|apply (less_sub _ _ L), C]. }
  assert (Only : forall x, s_is_node (view g) x \/ s_is_sub (view g) x -> ~ s_is_node (view g') x -> ~ s_is_sub (view g') x ->
    (x = n \/ is_child (view g) n x \/ ~ ~ is_child (view g) n x)).
  { intros x [[y Hy]|[y Hy]] M1 M2.
    - right. right. intros C. apply M1. exists y. apply Hnode. split; assumption.
    - destruct (decide (x = n)) as [->|Nx]; [left; reflexivity|]. exfalso. apply M2. exists y. rewrite Hsub, lookup_delete_ne by congruence. exact Hy. }
  assert (Dc : forall x, ~ ~ is_child (view g) n x -> is_child (view g) n x).
  { intros x. unfold is_child. destruct (decide ((n, x) ∈ s_rels (view g))); tauto. }
  split.
  - rewrite K1. split.
    + intros H q x Wq Cq Hx. destruct (decide (q = p)) as [->|Nq]; [reflexivity|]. exfalso.
      assert (Cq' : is_child (view g') q x) by (apply Hrel; split; [exact Cq|tauto]).
      destruct (Gone x Hx). destruct (H q x Wq Cq'); contradiction.
    + intros H q x Wq Cx. destruct (decide (s_is_node (view g') x)) as [N|N]; [left; exact N|]. destruct (decide (s_is_sub (view g') x)) as [N2|N2]; [right; exact N2|].
      exfalso. apply Hrel in Cx. destruct Cx as [Cx Nx].
      assert (Hx : s_is_node (view g) x \/ s_is_sub (view g) x).
      { destruct (decide (s_is_node (view g) x)) as [M|M]; [left; exact M|]. destruct (decide (s_is_sub (view g) x)) as [M2|M2]; [right; exact M2|].
        exfalso. destruct W as [U _]. apply U. exact (Bad_child _ q x (less_written _ _ L q Wq) Cx M M2). }
      assert (Gx : x = n \/ is_child (view g) n x) by (destruct (Only x Hx N N2) as [X|[X|X]]; auto). apply Nx. split; [|exact Gx].
      exact (H q x Wq Cx Gx).
  - destruct K2 as [K2|(q & x & _ & _ & M1 & M2 & Mx & K2)]; [left; exact K2|]. right. exists x. split; [|exact K2].
    destruct (Only x Mx M1 M2) as [X|[X|X]]; auto.
Qed.
Print Assumptions C89_remove_sub.

(** *** Trees *)
(** In a graph in which every name has one parent, removals that name that parent keep the graph fit to be written, however many. *)
Lemma right_is_removal s c : right_removal s c -> removal c.
Proof. intros []; exact I. Qed.
Lemma tree_step s c s' r : tree s -> right_removal s c -> spec_call c s s' r -> r = None /\ tree s'.
Proof.
  intros [T1 T2 T3] Rr H. pose proof (removal_less c s s' r (right_is_removal s c Rr) T3 H) as L.
  assert (Sg : forall q q' c, is_child s' q c -> is_child s' q' c -> q = q').
  { intros q q' x H1 H2. apply (T1 q q' x); apply (less_child _ _ L); assumption. }
  assert (Dj : disjoint_names s') by apply (less_disjoint _ _ L).
  destruct Rr as [p n Hn Hc|p n Hn Hc HN].
  - inversion H as [| | | | | | | | | | | | | |p' n' s1 Hn1|p' n' s1 Hn1| |]; subst; [|contradiction]. split; [reflexivity|]. split; [exact Sg| |exact Dj].
    intros q x Hq Hx. pose proof (less_child _ _ L q x Hx) as Cx. destruct (T2 q x (less_sub _ _ L q Hq) Cx) as [[a Ha]|Hs]; [|right; exact Hs].
    left. destruct (decide (x = n)) as [->|Nx].
    + exfalso. rewrite (T1 q p n Cx Hc) in Hx. unfold is_child in Hx. cbn in Hx. apply elem_of_filter in Hx. destruct Hx as [Hx _]. cbn in Hx. apply Hx. set_solver.
    + exists a. cbn. apply map_filter_lookup_Some. split; [exact Ha|]. cbn. set_solver.
  - remember s' as s2 eqn:E2. inversion H as [| | | | | | | | | | | | | | | |p' n' s1 N HN1 HN2|p' n' s1 N c Hc1 Hc2]; subst; [|destruct (Hc2 (HN c Hc1))].
    split; [reflexivity|]. split; [exact Sg| |exact Dj].
    intros q x Hq Hx. pose proof (less_child _ _ L q x Hx) as Cx.
    assert (Nq : q <> n) by (intros ->; destruct Hq as [y Hy]; cbn in Hy; rewrite lookup_delete in Hy; discriminate).
    destruct (T2 q x (less_sub _ _ L q Hq) Cx) as [[a Ha]|[a Ha]].
    + left. exists a. cbn. apply map_filter_lookup_Some. split; [exact Ha|]. cbn. intros C. apply HN1 in C. apply Nq. exact (T1 q n x Cx C).
    + right. exists a. cbn. rewrite lookup_delete_ne; [exact Ha|]. intros <-. rewrite (T1 q p n Cx Hc) in Hx. unfold is_child in Hx. cbn in Hx. set_solver.
Qed.
Lemma tree_unmissed s q x : tree s -> written s q -> is_child s q x -> s_is_node s x \/ s_is_sub s x.
Proof.
  intros T W. apply (tree_known _ T). destruct W as (r & St & H). destruct St as [_ Sr|port _ Sr _ _]; clear -H Sr;
  (induction H as [y|y z w (_ & Hz & _) _ IH]; [exact Sr|apply IH, Hz]).
Qed.
Lemma tree_writable s c s' r : tree s -> writable s -> right_removal s c -> spec_call c s s' r -> writable s'.
Proof.
  intros T [U Ac] Rr H. pose proof (removal_less c s s' r (right_is_removal s c Rr) (tree_names _ T) H) as L.
  split; [|apply (less_acyclic _ _ L Ac)]. destruct (tree_step s c s' r T Rr H) as [_ T']. intros [n port E Bd|q x Wq Cx N1 N2].
  - exact (less_bad_end _ _ L n port U E Bd).
  - destruct (tree_unmissed s' q x T' Wq Cx); contradiction.
Qed.
Theorem C89_tree : forall g0 g, built g0 -> tree (view g0) -> writable (view g0) -> pruned g0 g ->
  built g /\ tree (view g) /\ writable (view g) /\
  forall srt o fuel, fair o -> sorts (edge_less o) srt -> size (g_subs g) < fuel -> exists a, write_ast srt o g fuel = Ok a /\ graph_string srt o g fuel = Ok (Ast.graph_str a).
Proof.
  intros g0 g B T W P. assert (X : built g /\ tree (view g) /\ writable (view g)).
  { induction P as [|g o c P IH Fo Rr]; [auto|]. destruct IH as (B1 & T1 & W1).
    pose proof (PropsGraph.C23_refinement_step o c g Fo B1) as H. split; [apply built_call; assumption|].
    split; [apply (tree_step _ _ _ _ T1 Rr H)|apply (tree_writable _ _ _ _ T1 W1 Rr H)]. }
  destruct X as (B1 & T1 & U & Ac). split; [exact B1|]. split; [exact T1|]. split; [split; assumption|]. intros srt o fuel Fo So F.
  destruct (PropsWrite.C34_terminates srt o g Fo So B1 Ac fuel F) as [N _].
  assert (NC : no_clash (view g)) by (intros n H1 H2 _; exact (tree_names _ T1 n H2 H1)).
  destruct (PropsWrite.C33_iff srt o g fuel Fo So B1 NC N) as [_ [_ K]]. destruct (K U) as [a Ha]. exists a. split; [exact Ha|].
  apply (PropsWrite.C33_string srt o g fuel). exact Ha.
Qed.
Print Assumptions C89_tree.
(** And each of these calls succeeds. *)
Theorem C89_tree_succeeds : forall g o c, built g -> fair o -> tree (view g) -> right_removal (view g) c -> (exec o c g).2 = None.
Proof.
  intros g o c B Fo T Rr. apply (tree_step _ _ _ _ T Rr (PropsGraph.C23_refinement_step o c g Fo B)).
Qed.
Print Assumptions C89_tree_succeeds.

(** *** Mending *)
Lemma less_trans s1 s2 s3 : less s1 s2 -> less s2 s3 -> less s1 s3.
Proof.
  intros L M. split.
  - rewrite (less_name _ _ M). apply L.
  - intros x H. apply (less_node _ _ L), (less_node _ _ M), H.
  - intros x H. apply (less_sub _ _ L), (less_sub _ _ M), H.
  - intros p c H. apply (less_child _ _ L), (less_child _ _ M), H.
  - intros e H. apply (less_edge _ _ L), (less_edge _ _ M), H.
  - intros n port H. destruct (less_ends _ _ M n port H) as [A1 A2]. destruct (less_ends _ _ L n port (less_endpoint _ _ M n port H)). auto.
  - apply L.
Qed.
Lemma unrelated_less s n qs : disjoint_names s -> less s (unrelated s n qs).
Proof. intros D. split; cbn; auto. intros p c H. unfold is_child in *. cbn in H. apply elem_of_filter in H. apply H. Qed.
Lemma mend_one s s1 s2 n q r1 r2 : ~ s_is_node s n -> (forall e, e ∈ s_edges s -> not_at n e) -> (forall x, x ∈ s_order s -> s_is_node s x) ->
  spec_call (CAddNode q n ∅) s s1 r1 -> spec_call (CRemoveNode q n) s1 s2 r2 -> r1 = None /\ r2 = None /\ s2 = unrelated s n [q].
Proof.
  intros Nn Ne O S1 S2.
  inversion S1 as [| | | | | | |? ? ? ? V1|? ? ? ? e Bad| | | | | | | | |]; subst; [|destruct Bad as (k & v & K1 & _); rewrite lookup_empty in K1; discriminate].
  split; [reflexivity|].
  inversion S2 as [| | | | | | | | | | | | | |? ? ? In1|? ? ? In1| |]; subst; [|destruct In1; unfold s_is_node; cbn; rewrite lookup_insert; eauto].
  split; [reflexivity|]. assert (E : s_nodes s !! n = None) by (destruct (s_nodes s !! n) eqn:E; [exfalso; apply Nn; unfold s_is_node; rewrite E; eauto|reflexivity]).
  unfold s_drop_nodes, unrelated, s_put_node. cbn. f_equal.
  - apply map_eq. intros x. destruct (decide (x = n)) as [->|Nx].
    + rewrite E. apply map_filter_lookup_None. right. intros a _. cbn. set_solver.
    + destruct (s_nodes s !! x) as [a|] eqn:Ex.
      * apply map_filter_lookup_Some. rewrite lookup_insert_ne by congruence. split; [exact Ex|]. cbn. set_solver.
      * apply map_filter_lookup_None. left. rewrite lookup_insert_ne by congruence. exact Ex.
  - rewrite E, filter_app. assert (FO : forall l : list gostr, (forall x, x ∈ l -> s_is_node s x) -> filter (fun x => x ∉ ({[n]} : names)) l = l).
    { clear O. induction l as [|x l IH]; intros O; [reflexivity|]. rewrite filter_cons_True; [f_equal; apply IH; intros y Hy; apply O; right; exact Hy|].
      intros C. apply elem_of_singleton in C. subst x. apply Nn, O. left. }
    rewrite FO by exact O. rewrite filter_cons_False by set_solver. apply app_nil_r.
  - revert Ne. generalize (s_edges s). induction l as [|e l IH]; intros Ne; [reflexivity|]. rewrite filter_cons_True.
    + f_equal. apply IH. intros y Hy. apply Ne. right. exact Hy.
    + destruct (Ne e (elem_of_list_here _ _)) as [A1 A2]. split; set_solver.
  - apply leibniz_equiv. intros [a b]. rewrite !elem_of_filter, elem_of_union, elem_of_singleton. cbn. rewrite elem_of_singleton, elem_of_list_singleton. split.
    + intros [H1 [H2|H2]]; [injection H2 as -> ->; tauto|]. tauto.
    + tauto.
Qed.
Lemma unrelated_nil s n : unrelated s n [] = s.
Proof.
  destruct s. unfold unrelated. cbn. f_equal. apply leibniz_equiv. intros [a b]. rewrite elem_of_filter. cbn. split; [tauto|]. intros H. split; [|exact H].
  intros [C _]. inversion C.
Qed.
Lemma unrelated_cons s n q qs : unrelated (unrelated s n [q]) n qs = unrelated s n (q :: qs).
Proof.
  unfold unrelated. cbn. f_equal. apply leibniz_equiv. intros [a b]. rewrite !elem_of_filter. cbn. rewrite elem_of_list_singleton, elem_of_cons. tauto.
Qed.
Lemma mend_run n qs : forall s s' rs, ~ s_is_node s n -> (forall e, e ∈ s_edges s -> not_at n e) -> (forall x, x ∈ s_order s -> s_is_node s x) ->
  spec_run (add_and_remove n qs) s s' rs -> Forall (fun r => r = None) rs /\ s' = unrelated s n qs.
Proof.
  induction qs as [|q qs IH]; intros s s' rs Nn Ne O H; cbn [add_and_remove flat_map app] in H.
  - inversion H; subst. split; [constructor|]. symmetry. apply unrelated_nil.
  - inversion H as [|? ? ? s1 ? r1 rs1 C1 R1]; subst. inversion R1 as [|? ? ? s2 ? r2 rs2 C2 R2]; subst.
    destruct (mend_one _ _ _ _ _ _ _ Nn Ne O C1 C2) as (-> & -> & ->). destruct (IH (unrelated s n [q]) _ _ Nn Ne O R2) as [F ->].
    split; [constructor; [reflexivity|constructor; [reflexivity|exact F]]|]. apply unrelated_cons.
Qed.
(** If n is not a node and no edge ends at n, then adding n to a subgraph and removing it from there, for some subgraphs, only takes
    the relations away that say that n is in one of these. *)
Theorem C89_unrelate : forall g n qs h, built g -> Forall (fun oc => fair oc.1) h -> map snd h = add_and_remove n qs ->
  ~ s_is_node (view g) n -> (forall e, e ∈ s_edges (view g) -> not_at n e) ->
  Forall (fun r => r = None) (run h g).2 /\ view (run h g).1 = unrelated (view g) n qs.
Proof.
  intros g n qs h B F E Nn Ne. destruct (PropsOrder.run_built h g B F) as [_ R]. rewrite E in R. exact (mend_run n qs _ _ _ Nn Ne (PropsUndo.built_order g B) R).
Qed.
Print Assumptions C89_unrelate.
(** So a graph that cannot be written because a node was removed from one of its subgraphs only can be mended. *)
Theorem C89_mended : forall srt o o' g p n g' qs h fuel, fair o -> fair o' -> sorts (edge_less o') srt -> built g -> disjoint_names (view g) -> writable (view g) ->
  remove_node g p n = (g', None) -> size (g_subs g) < fuel ->
  Forall (fun oc => fair oc.1) h -> map snd h = add_and_remove n qs ->
  (forall q, reached (view g) (not_at n) q -> is_child (view g) q n -> q = p \/ q ∈ qs) ->
  Forall (fun r => r = None) (run h g').2 /\ exists a, write_ast srt o' (run h g').1 fuel = Ok a.
Proof.
  intros srt o o' g p n g' qs h fuel Fo Fo' So B D W E F Fh Eh Q.
  assert (B' : built g') by (replace g' with (exec o (CRemoveNode p n) g).1 by (cbn; rewrite E; reflexivity); apply built_call; assumption).
  destruct (remove_node_spec g p n (built_ok g B)) as [[_ H]|(Hn & g2 & H1 & _ & H2)]; [congruence|]. rewrite E in H1. injection H1 as <-.
  assert (Nn : ~ s_is_node (view g') n).
  { rewrite H2. intros [a Ha]. cbn in Ha. apply map_filter_lookup_Some in Ha. destruct Ha as [_ Ha]. cbn in Ha. set_solver. }
  assert (Ne : forall e, e ∈ s_edges (view g') -> not_at n e).
  { intros e. rewrite H2. cbn. intros He. apply elem_of_list_filter in He. destruct He as [[A1 A2] _]. split; set_solver. }
  destruct (C89_unrelate g' n qs h B' Fh Eh Nn Ne) as [R1 R2]. split; [exact R1|].
  destruct (PropsOrder.run_built h g' B' Fh) as [B2 _].
  pose proof (drop_less (view g) p {[n]} D) as L1. rewrite <- H2 in L1. pose proof (unrelated_less (view g') n qs (less_disjoint _ _ L1)) as L2. rewrite <- R2 in L2.
  assert (Sz : size (g_subs (run h g').1) = size (g_subs g)).
  { apply (f_equal s_subs) in R2. rewrite H2 in R2. cbn in R2. apply (f_equal size) in R2. rewrite !map_size_fmap in R2. exact R2. }
  destruct (write_after srt o' (run h g').1 fuel (view g) Fo' So B2 (less_trans _ _ _ L1 L2) W ltac:(lia)) as [X|(q & x & M1 & M2 & M3 & M4 & _)]; [exact X|]. exfalso.
  pose proof (less_written _ _ L2 q M1) as M1'. rewrite H2 in M1'. pose proof (proj1 (drop_written (view g) p n q D Hn) M1') as Rq.
  pose proof (less_child _ _ (less_trans _ _ _ L1 L2) q x M2) as Cx.
  assert (M3' : ~ s_is_node (view g') x) by (intros C; apply M3; rewrite R2; exact C).
  assert (M4' : ~ s_is_sub (view g) x) by (intros C; apply M4; rewrite R2, H2; exact C).
  destruct (decide (x = n)) as [->|Nx].
  - destruct (Q q Rq Cx) as [->|Hq].
    + apply (less_child _ _ L2) in M2. rewrite H2 in M2. unfold is_child in M2. cbn in M2. apply elem_of_filter in M2. destruct M2 as [M2 _]. apply M2. cbn. set_solver.
    + rewrite R2 in M2. unfold is_child in M2. cbn in M2. apply elem_of_filter in M2. destruct M2 as [M2 _]. apply M2. cbn. tauto.
  - destruct W as [U _]. apply U. apply (Bad_child _ q x (less_written _ _ (less_trans _ _ _ L1 L2) q M1) Cx); [|exact M4'].
    intros [a Ha]. apply M3'. rewrite H2. exists a. cbn. apply map_filter_lookup_Some. split; [exact Ha|]. cbn. set_solver.
Qed.
Print Assumptions C89_mended.

(** *** Examples *)
Local Instance is_child_dec s p c : Decision (is_child s p c).
Proof. unfold is_child. apply _. Defined.
Lemma disjoint_ok s : bool_decide (dom (s_nodes s) ∩ dom (s_subs s) = (∅ : gset gostr)) = true -> disjoint_names s.
Proof. intros H x H1 H2. apply bool_decide_eq_true in H. apply elem_of_dom in H1, H2. set_solver. Qed.
Lemma writable_ok g fuel a : built g -> no_clash (view g) -> write_ast srt0 o_id g fuel = Ok a -> writable (view g).
Proof.
  intros B NC H. split; [exact (ok_writable srt0 o_id g fuel a PropsGraph.fair_id PropsWrite.sorts0 B NC H)|].
  rewrite (write_canon o_id g PropsGraph.fair_id (built_ok g B)) in H. eapply c_write_cyclic; [exact NC|apply PropsWrite.sorts0|exact H].
Qed.
(** The node a is in the subgraphs S and T.  Removed from S only, it is missed in T; added to T and removed from there, it no longer is.
    Removed from no subgraph it is missed too; the node c, which is in no subgraph, can be removed from anything. *)
Definition gR : agraph := build [CSetName (lit "G"); CSetDir true; CAddSubGraph (lit "G") (lit "S") ∅; CAddSubGraph (lit "G") (lit "T") ∅;
  CAddNode (lit "S") (lit "a") ∅; CAddNode (lit "S") (lit "b") ∅; CAddNode (lit "T") (lit "a") ∅; CAddNode (lit "G") (lit "c") ∅; CAddEdge (lit "a") (lit "c") true ∅].
Lemma gR_ok : disjoint_names (view gR) /\ writable (view gR).
Proof.
  split; [apply disjoint_ok; vm_compute; reflexivity|]. destruct (write_ast srt0 o_id gR 9) as [a| | |] eqn:E; try (vm_compute in E; discriminate).
  apply (writable_ok gR 9 a); [apply reachable_built, PropsWrite.build_reachable|apply PropsWrite.clash_free_ok; vm_compute; reflexivity|exact E].
Qed.
Example C89_example : let g' := (remove_node gR (lit "S") (lit "a")).1 in
  write_ast srt0 o_id g' 9 = Err (lit "a is not a node or a subgraph") /\
  reached (view gR) (not_at (lit "a")) (lit "T") /\ is_child (view gR) (lit "T") (lit "a") /\
  (exists a, write_ast srt0 o_id (run (map (pair o_id) (add_and_remove (lit "a") [lit "T"])) g').1 9 = Ok a) /\
  exists a, write_ast srt0 o_id (remove_node gR (lit "nowhere") (lit "c")).1 9 = Ok a.
Proof.
  cbv zeta. split; [vm_compute; reflexivity|]. split; [|split; [apply (proj1 (bool_decide_eq_true _)); vm_compute; reflexivity|split; eexists; vm_compute; reflexivity]].
  exists (lit "T"). split; [reflexivity|]. split; [vm_compute; eauto|]. left. apply (proj1 (bool_decide_eq_true _)). vm_compute. reflexivity.
Qed.
(** RemoveSubGraph(G, S) takes a with it, which is missed in T. *)
Example C89_sub_example : (remove_subgraph o_id gR (lit "G") (lit "S")).2 = None /\
  write_ast srt0 o_id (remove_subgraph o_id gR (lit "G") (lit "S")).1 9 = Err (lit "a is not a node or a subgraph") /\
  s_is_sub (view gR) (lit "S") /\ is_child (view gR) (lit "S") (lit "a").
Proof.
  split; [vm_compute; reflexivity|]. split; [vm_compute; reflexivity|]. split; [vm_compute; eauto|]. apply (proj1 (bool_decide_eq_true _)); vm_compute; reflexivity.
Qed.
(** A tree, and removals in it. *)
Definition gT : agraph := build [CSetName (lit "G"); CSetDir true; CAddSubGraph (lit "G") (lit "S") ∅; CAddSubGraph (lit "S") (lit "T") ∅;
  CAddNode (lit "S") (lit "a") ∅; CAddNode (lit "T") (lit "b") ∅; CAddNode (lit "G") (lit "c") ∅; CAddEdge (lit "a") (lit "b") true ∅; CAddEdge (lit "T") (lit "c") true ∅].
Lemma single_ok s : forallb (fun pc => forallb (fun qd => bool_decide (pc.2 = qd.2 -> pc.1 = qd.1)) (elements (s_rels s))) (elements (s_rels s)) = true ->
  forall q q' c, is_child s q c -> is_child s q' c -> q = q'.
Proof.
  intros H q q' c H1 H2. rewrite forallb_forall in H. unfold is_child in *. apply elem_of_elements, elem_of_list_In in H1, H2.
  specialize (H _ H1). rewrite forallb_forall in H. specialize (H _ H2). apply bool_decide_eq_true in H. apply H. reflexivity.
Qed.
Lemma known_ok s : forallb (fun pc => bool_decide (s_is_node s pc.2 \/ s_is_sub s pc.2)) (elements (s_rels s)) = true ->
  forall q c, s_is_sub s q -> is_child s q c -> s_is_node s c \/ s_is_sub s c.
Proof.
  intros H q c _ H2. rewrite forallb_forall in H. unfold is_child in *. apply elem_of_elements, elem_of_list_In in H2.
  specialize (H _ H2). apply bool_decide_eq_true in H. exact H.
Qed.
Definition gT1 : agraph := (exec o_id (CRemoveNode (lit "S") (lit "a")) gT).1.
Definition gT2 : agraph := (exec o_id (CRemoveSubGraph (lit "S") (lit "T")) gT1).1.
Example C89_tree_example : tree (view gT) /\ writable (view gT) /\
  exists g, pruned gT g /\ (forall x, s_is_sub (view g) x -> x = lit "S") /\ exists a, write_ast srt0 o_id g 9 = Ok a.
Proof.
  assert (T : tree (view gT)).
  { split; [apply single_ok; vm_compute; reflexivity|apply known_ok; vm_compute; reflexivity|apply disjoint_ok; vm_compute; reflexivity]. }
  assert (W : writable (view gT)).
  { destruct (write_ast srt0 o_id gT 9) as [a| | |] eqn:E; try (vm_compute in E; discriminate).
    apply (writable_ok gT 9 a); [apply reachable_built, PropsWrite.build_reachable|apply PropsWrite.clash_free_ok; vm_compute; reflexivity|exact E]. }
  split; [exact T|]. split; [exact W|].
  exists gT2.
  split; [|split].
  - unfold gT2. apply Pruned_call; [unfold gT1; apply Pruned_call; [apply Pruned_none|apply PropsGraph.fair_id|]|apply PropsGraph.fair_id|].
    + apply Right_node; [vm_compute; eauto|apply (proj1 (bool_decide_eq_true _)); vm_compute; reflexivity].
    + apply Right_sub; [vm_compute; eauto|apply (proj1 (bool_decide_eq_true _)); vm_compute; reflexivity|].
      intros c Hc. apply view_child, elem_of_elements in Hc. assert (E : elements (children (g_rels gT1) (lit "T")) = [lit "b"]) by (vm_compute; reflexivity).
      rewrite E in Hc. apply elem_of_list_singleton in Hc. subst c. vm_compute. eauto.
  - intros x Hx. apply elem_of_dom in Hx. assert (E : dom (s_subs (view gT2)) = {[lit "S"]}) by (apply (proj1 (bool_decide_eq_true _)); vm_compute; reflexivity).
    rewrite E in Hx. apply elem_of_singleton in Hx. exact Hx.
  - eexists; vm_compute; reflexivity.
Qed.
