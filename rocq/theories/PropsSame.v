(** Property C88: graphs with the same text. *)
From stdpp Require Import sorting.
From Verif Require Import Base Parser Maps Graph AttrMap SpecGraph MapFacts GraphProofs.
From Verif Require Import Write SpecWrite EdgeOrder WriteProofs WriteFacts WriteFacts2 SpecRound RoundCalls RoundCalls2 RoundProofs RoundWrite RoundFinal TidyCheck Prune.
From Verif Require Import Analyse SpecAnalyse AnalyseProofs ReadProofs ReadFacts NormCalls SpecAst LexPrint AstProofs AstFacts.
From Verif Require Import SpecCluster ClusterText PropsText SpecTop TopProofs TopProofs2 SpecSame Direct SpecDirect DirectProofs.
From Verif Require Ast PropsGraph PropsWrite PropsAnalyse PropsReread PropsRound PropsTop.
Notation srt0 := PropsWrite.srt0.
Notation build := PropsWrite.build.
Notation o_id := PropsGraph.o_id.

(** ** The top level of a tree *)
Definition top_ids (l : list Ast.stmt) : list gostr :=
  flat_map (fun st => match st with Ast.SSub (Ast.SubGraph i _) => [i] | _ => [] end) l.
Lemma top_ids_app l l' : top_ids (l ++ l') = top_ids l ++ top_ids l'.
Proof. apply flat_map_app. Qed.
Lemma top_ids_norm l : top_ids (norm_stmts l) = top_ids l.
Proof.
  induction l as [|x l IH]; [reflexivity|]. unfold norm_stmts in *. cbn [flat_map]. rewrite top_ids_app, IH. cbn [top_ids flat_map]. f_equal.
  destruct x as [| | | | |[i b]|]; cbn [keep norm_stmt]; try reflexivity; destruct (norm_attrs _); reflexivity.
Qed.
Lemma top_ids_dp l : top_ids (map dp l) = top_ids l.
Proof. induction l as [|x l IH]; [reflexivity|]. cbn [map top_ids flat_map]. fold (top_ids l). unfold top_ids in IH at 1. rewrite IH. destruct x; reflexivity. Qed.
Lemma top_ids_none l : Forall (fun st => top_ids [st] = []) l -> top_ids l = [].
Proof. induction 1 as [|x l H _ IH]; [reflexivity|]. change (x :: l) with ([x] ++ l). rewrite top_ids_app, H, IH. reflexivity. Qed.
Lemma top_ids_shape s f es a T : top_subgraphs s T -> es ≡ₚ s_edges s -> c_write s f es = Ok a -> top_ids (Ast.g_stmts a) = T.
Proof.
  intros HT P H. destruct (write_ok_shape s T es HT P f a H) as (el & ts & ns & nl & -> & H1 & H2 & [_ H3] & H4). cbn [Ast.g_stmts].
  rewrite !top_ids_app.
  rewrite (top_ids_none (map Ast.SAttr _)), (top_ids_none el), (top_ids_none nl), app_nil_r.
  - cbn [app]. clear -H2. induction H2 as [|n t T ts H _ IH]; [reflexivity|]. inversion H; subst. cbn. f_equal; exact IH.
  - assert (N : forall n, n ∈ ns -> s_is_node s n) by (intros n Hn; apply H3; exact Hn). clear -N H4.
    induction H4 as [|n st ns nl H _ IH]; constructor.
    + inversion H; subst; [reflexivity|]. exfalso. match goal with K : ~ _ |- _ => apply K end. apply N. left.
    + apply IH. intros x Hx. apply N. right. exact Hx.
  - clear -H1. induction H1 as [|e st es el H _ IH]; constructor; [|exact IH]. inversion H; subst. reflexivity.
  - apply Forall_fmap, Forall_forall. intros x _. reflexivity.
Qed.

Definition top_node_ids (l : list Ast.stmt) : list gostr :=
  flat_map (fun st => match st with Ast.SNode i _ => [Ast.nid_id i] | _ => [] end) l.
Lemma top_node_ids_app l l' : top_node_ids (l ++ l') = top_node_ids l ++ top_node_ids l'.
Proof. apply flat_map_app. Qed.
Lemma top_node_ids_norm l : top_node_ids (norm_stmts l) = top_node_ids l.
Proof.
  induction l as [|x l IH]; [reflexivity|]. unfold norm_stmts in *. cbn [flat_map]. rewrite top_node_ids_app, IH. cbn [top_node_ids flat_map]. f_equal.
  destruct x as [| | | | |[i b]|]; cbn [keep norm_stmt]; try reflexivity; destruct (norm_attrs _); reflexivity.
Qed.
Lemma top_node_ids_dp l : top_node_ids (map dp l) = top_node_ids l.
Proof. induction l as [|x l IH]; [reflexivity|]. cbn [map top_node_ids flat_map]. fold (top_node_ids l). unfold top_node_ids in IH at 1. rewrite IH. destruct x; reflexivity. Qed.
Lemma top_node_ids_none l : Forall (fun st => top_node_ids [st] = []) l -> top_node_ids l = [].
Proof. induction 1 as [|x l H _ IH]; [reflexivity|]. change (x :: l) with ([x] ++ l). rewrite top_node_ids_app, H, IH. reflexivity. Qed.
Lemma top_nodes_shape s f es a T : top_subgraphs s T -> es ≡ₚ s_edges s -> c_write s f es = Ok a -> top_nodes s T (top_node_ids (Ast.g_stmts a)).
Proof.
  intros HT P H. destruct (write_ok_shape s T es HT P f a H) as (el & ts & ns & nl & -> & H1 & H2 & HN & H4). cbn [Ast.g_stmts].
  rewrite !top_node_ids_app.
  rewrite (top_node_ids_none (map Ast.SAttr _)), (top_node_ids_none el), (top_node_ids_none (map Ast.SSub ts)).
  - cbn [app]. enough (top_node_ids nl = ns) as -> by exact HN.
    assert (N : forall n, n ∈ ns -> s_is_node s n) by (intros n Hn; apply HN; exact Hn). clear -N H4.
    induction H4 as [|n st ns nl H _ IH]; [reflexivity|]. change (st :: nl) with ([st] ++ nl). rewrite top_node_ids_app, IH by (intros x Hx; apply N; right; exact Hx).
    inversion H; subst; [reflexivity|]. exfalso. match goal with K : ~ _ |- _ => apply K end. apply N. left.
  - apply Forall_fmap, Forall_forall. intros x _. reflexivity.
  - clear -H1. induction H1 as [|e st es el H _ IH]; constructor; [|exact IH]. inversion H; subst. reflexivity.
  - apply Forall_fmap, Forall_forall. intros x _. reflexivity.
Qed.

(** ** Nodes *)
Lemma written_no_node s n : no_clash s -> written s n -> ~ s_is_node s n.
Proof.
  intros NC (r & St & R) N. apply rtc_inv_r in R. destruct R as [->|(p & _ & (_ & _ & K))]; [|contradiction].
  destruct St as [C S|port E S K _]; [exact (NC n S N C)|contradiction].
Qed.
Lemma is_written_written s T n : top_subgraphs s T -> is_written s T n -> written s n.
Proof.
  intros HT (r & [(port & E & S & N & C)|H] & R); exists r; (split; [|exact R]); [eapply Starts_end; eassumption|].
  apply HT in H. destruct H as (S & C & _). apply Starts_top; assumption.
Qed.
Lemma written_step_same s p c : written s p -> nested s p c -> written s c.
Proof. intros (r & St & R) H. exists r. split; [exact St|]. eapply rtc_r; eassumption. Qed.
(** A node that the text shows is a node of the other graph. *)
Lemma node_there s s' T N n : no_clash s -> no_clash s' -> ~ unwritable s' -> top_subgraphs s T -> top_nodes s T N -> top_nodes s' T N ->
  (forall p, written s p <-> written s' p) -> (forall p c, written s p -> is_child s p c <-> is_child s' p c) ->
  s_is_node s n -> s_is_node s' n.
Proof.
  intros NC NC' U HT HN HN' W C Nn. apply (bool_decide_eq_true (s_is_node s' n)). apply dec_stable. intros K. rewrite bool_decide_eq_true in K.
  assert (X : n ∉ N) by (intros X; apply HN' in X; apply K, X).
  apply X. apply HN. split; [exact Nn|]. intros (r & Sr & p & Rp & [->|Cp]).
  - apply (written_no_node s p NC); [|exact Nn]. apply (is_written_written s T p HT). exists r. auto.
  - assert (Wp : written s p) by (apply (is_written_written s T p HT); exists r; auto).
    assert (Cp' : is_child s' p n) by (apply C; assumption). assert (Wp' : written s' p) by (apply W; exact Wp).
    apply U. eapply Bad_child; [exact Wp'|exact Cp'|exact K|]. intros Sb.
    apply (written_no_node s n NC); [|exact Nn]. apply W. apply (written_step_same s' p n Wp'). split; [exact Cp'|]. split; assumption.
Qed.

(** ** The other way: what the writer uses *)
Section Congruence.
  Variables s s' : sgraph.
  Hypothesis I : same_inside s s'.
  Lemma inside_kids n : s_is_sub s n -> sorted (kids s n) = sorted (kids s' n).
  Proof. intros Hn. f_equal. apply set_eq. intros c. rewrite !elem_of_kids. apply (si_children _ _ I), Hn. Qed.
  Lemma inside_sub f : forall n, c_sub s f n = c_sub s' f n.
  Proof.
    induction f as [|f IH]; intros n; [reflexivity|]. cbn [c_sub]. destruct (s_subs s !! n) as [m|] eqn:E; rewrite (si_subs _ _ I) in E; rewrite E; [|reflexivity].
    rewrite inside_kids by (unfold s_is_sub; rewrite (si_subs _ _ I), E; eauto). f_equal.
    apply map_res_ext. intros c _. unfold c_child. rewrite (si_nodes _ _ I), (si_subs _ _ I), IH. reflexivity.
  Qed.
  Lemma inside_edge f e : c_edge s f e = c_edge s' f e.
  Proof. unfold c_edge, c_end. rewrite (si_nodes _ _ I), (si_subs _ _ I), !inside_sub. reflexivity. Qed.
  Lemma inside_write f es T : es ≡ₚ s_edges s -> top_subgraphs s T -> top_subgraphs s' T -> c_write s f es = c_write s' f es.
  Proof.
    intros P HT HT'. rewrite (c_write_eq s f es T P HT), (c_write_eq s' f es T) by (try assumption; rewrite P; apply (si_edges _ _ I)).
    rewrite (map_res_ext (c_edge s f) (c_edge s' f)) by (intros e _; apply inside_edge).
    rewrite (map_res_ext (c_sub s f) (c_sub s' f)) by (intros n _; apply inside_sub).
    rewrite (si_name _ _ I), (si_directed _ _ I), (si_strict _ _ I), (si_attrs _ _ I), (si_nodes _ _ I). reflexivity.
  Qed.
End Congruence.

Lemma Forall2_perm_right {A B} (Q : A -> B -> Prop) l k k' : k ≡ₚ k' -> Forall2 Q l k -> exists l', l' ≡ₚ l /\ Forall2 Q l' k'.
Proof.
  intros P. revert l. induction P as [|x k k' P IH|x y k|k1 k2 k3 P1 IH1 P2 IH2]; intros l F.
  - inversion F; subst. exists []. split; [reflexivity|constructor].
  - inversion F as [|a ? l0 ? H1 H2]; subst. destruct (IH l0 H2) as (l' & P' & F'). exists (a :: l'). split; [rewrite P'; reflexivity|constructor; assumption].
  - inversion F as [|a ? l0 ? H1 H2]; subst. inversion H2 as [|b ? l1 ? H3 H4]; subst. exists (b :: a :: l1). split; [apply Permutation_swap|]. repeat constructor; assumption.
  - destruct (IH1 l F) as (l1 & Q1 & F1). destruct (IH2 l1 F1) as (l2 & Q2 & F2). exists l2. split; [etransitivity; eassumption|exact F2].
Qed.

(** ** C88 *)
(** Graphs with the same content, the same children of subgraphs, and the same subgraphs at the top level have the same text and
    the same tree, and fail with the same error; all graphs, with or without a readable text. *)
Theorem C88_equal : forall srt srt' o o' g g' fuel, fair o -> fair o' -> sorts (edge_less o) srt -> sorts (edge_less o') srt' ->
  built g -> built g' -> same_inside (view g) (view g') -> same_tops (view g) (view g') ->
  (forall e k, e ∈ edges_list (g_edges g) -> e_attrs e !! k <> Some []) ->
  write_ast srt o g fuel = write_ast srt' o' g' fuel /\ graph_string srt o g fuel = graph_string srt' o' g' fuel.
Proof.
  intros srt srt' o o' g g' fuel Fo Fo' S S' R R' I (T & HT & HT') F.
  assert (W : write_ast srt o g fuel = write_ast srt' o' g' fuel).
  { rewrite (write_canon o g Fo (built_ok g R)), (write_canon o' g' Fo' (built_ok g' R')).
    rewrite <- (sorts_unique o o' srt srt' (s_edges (view g)) (s_edges (view g')) Fo Fo' S S' (si_edges _ _ I)).
    - apply (inside_write _ _ I) with T; [apply S|exact HT|exact HT'].
    - apply Forall_forall. intros e He k. apply F. exact He. }
  split; [exact W|]. unfold graph_string. rewrite W. reflexivity.
Qed.
Print Assumptions C88_equal.

Lemma string_ok srt o g fuel a : graph_string srt o g fuel = Ok (Ast.graph_str a) -> exists a', write_ast srt o g fuel = Ok a'.
Proof.
  unfold graph_string. destruct (write_ast srt o g fuel) as [a'|e| |]; intros H; try discriminate; [eauto|]. exfalso.
  injection H as H. unfold Ast.graph_str in H. destruct (Ast.g_strict a), (Ast.g_type a); discriminate.
Qed.

(** Legible graphs with the same text show the same. *)
Theorem C88_shown : forall srt srt' o o' g g' fuel fuel' a txt, fair o -> fair o' -> sorts (edge_less o) srt -> sorts (edge_less o') srt' ->
  proper g -> proper g' -> legible (view g) -> legible (view g') -> no_clash (view g) -> no_clash (view g') ->
  ~ s_is_sub (view g) (s_name (view g)) -> ~ s_is_sub (view g') (s_name (view g')) ->
  write_ast srt o g fuel = Ok a -> graph_string srt o g fuel = Ok txt -> graph_string srt' o' g' fuel' = Ok txt -> same_shown (view g) (view g').
Proof.
  intros srt srt' o o' g g' fuel fuel' a txt Fo Fo' So So' R R' L L' NC NC' Rt Rt' Ha H H'.
  destruct (string_written _ _ _ _ _ Fo R Ha) as (Wr & HS). assert (txt = Ast.graph_str a) as -> by congruence.
  destruct (string_ok _ _ _ _ _ H') as [a' Ha']. destruct (string_written _ _ _ _ _ Fo' R' Ha') as (Wr' & HS').
  assert (E : Ast.graph_str a = Ast.graph_str a') by congruence. clear H H' HS HS'.
  pose proof (proj1 (So (s_edges (view g)))) as P. pose proof (proj1 (So' (s_edges (view g')))) as P'.
  destruct (shown_core (view g) fuel _ a L (reachable_valid g R) NC Rt P Wr) as [Wf K].
  destruct (shown_core (view g') fuel' _ a' L' (reachable_valid g' R') NC' Rt' P' Wr') as [Wf' K'].
  assert (EN : norm_graph (dp_graph a) = norm_graph (dp_graph a')).
  { pose proof (ast_roundtrip PropsAnalyse.rnd0 0 _ Wf) as X. rewrite dp_graph_str, E, <- dp_graph_str, (ast_roundtrip PropsAnalyse.rnd0 0 _ Wf') in X. congruence. }
  destruct (K PropsAnalyse.os_id PropsAnalyse.ord_id PropsAnalyse.fair_os_id PropsAnalyse.fair_ord_id) as (r & Er & _ & SG & _).
  destruct (K' PropsAnalyse.os_id PropsAnalyse.ord_id PropsAnalyse.fair_os_id PropsAnalyse.fair_ord_id) as (r' & Er' & _ & SG' & _).
  rewrite EN in Er. assert (r' = r) as -> by congruence.
  assert (W1 : forall p, written (view g) p <-> written (view g') p).
  { intros p. split; intros Hp; destruct (written_sub _ p Hp) as [m X].
    - apply (sh_subs _ _ SG' p m), (sh_subs _ _ SG p m). auto.
    - apply (sh_subs _ _ SG p m), (sh_subs _ _ SG' p m). auto. }
  assert (C1 : forall p c, written (view g) p -> is_child (view g) p c <-> is_child (view g') p c).
  { intros p c Hp. rewrite <- (sh_children _ _ SG p c Hp), <- (sh_children _ _ SG' p c (proj1 (W1 p) Hp)). reflexivity. }
  destruct (PropsTop.C73_top_level (view g)) as (T & HT & _). destruct (PropsTop.C73_top_level (view g')) as (T' & HT' & _).
  assert (ET : T = T').
  { rewrite <- (top_ids_shape _ _ _ _ _ HT P Wr), <- (top_ids_shape _ _ _ _ _ HT' P' Wr').
    pose proof (f_equal (fun x => top_ids (Ast.g_stmts x)) EN) as X. cbn [Ast.g_stmts norm_graph dp_graph] in X.
    rewrite !top_ids_norm, !top_ids_dp in X. exact X. }
  subst T'. pose proof (top_nodes_shape _ _ _ _ _ HT P Wr) as HN. pose proof (top_nodes_shape _ _ _ _ _ HT' P' Wr') as HN'.
  assert (E1 : top_node_ids (Ast.g_stmts a) = top_node_ids (Ast.g_stmts a')).
  { pose proof (f_equal (fun x => top_node_ids (Ast.g_stmts x)) EN) as X. cbn [Ast.g_stmts norm_graph dp_graph] in X.
    rewrite !top_node_ids_norm, !top_node_ids_dp in X. exact X. }
  rewrite <- E1 in HN'. clear E1.
  assert (U : ~ unwritable (view g)) by exact (c_write_unwritable _ _ _ _ NC P Wr). assert (U' : ~ unwritable (view g')) by exact (c_write_unwritable _ _ _ _ NC' P' Wr').
  assert (N1 : forall n, s_is_node (view g) n -> s_is_node (view g') n).
  { intros n. apply (node_there _ _ T (top_node_ids (Ast.g_stmts a))); assumption. }
  assert (N2 : forall n, s_is_node (view g') n -> s_is_node (view g) n).
  { intros n. apply (node_there _ _ T (top_node_ids (Ast.g_stmts a))); try assumption; [intros p; symmetry; apply W1|].
    intros p c Hp. symmetry. apply C1. apply W1. exact Hp. }
  split.
  - rewrite <- (sh_name _ _ SG). apply (sh_name _ _ SG').
  - rewrite <- (sh_directed _ _ SG). apply (sh_directed _ _ SG').
  - rewrite <- (sh_strict _ _ SG). apply (sh_strict _ _ SG').
  - rewrite <- (sh_attrs _ _ SG). apply (sh_attrs _ _ SG').
  - apply map_eq. intros n. apply option_eq. intros m. split; intros H.
    + destruct (proj1 (sh_nodes _ _ SG' n m) (proj2 (sh_nodes _ _ SG n m) (or_introl H))) as [Q|[(_ & Q & _) _]]; [exact Q|]. destruct Q. apply N1. eexists; exact H.
    + destruct (proj1 (sh_nodes _ _ SG n m) (proj2 (sh_nodes _ _ SG' n m) (or_introl H))) as [Q|[(_ & Q & _) _]]; [exact Q|]. destruct Q. apply N2. eexists; exact H.
  - intros n m. rewrite <- (sh_subs _ _ SG), <- (sh_subs _ _ SG'). reflexivity.
  - destruct (sh_edges _ _ SG) as (es & P1 & F1). destruct (sh_edges _ _ SG') as (es' & P2 & F2).
    rewrite P1 in P2. destruct (Forall2_perm_right _ _ _ _ (symmetry P2) F2) as (es2 & P3 & F3).
    exists es2. split; [exact P3|]. clear -F1 F3. revert es2 F3. induction F1 as [|e t l tl H _ IH]; intros es2 F3; inversion F3; subst; constructor; [|auto].
    exists t. split; assumption.
  - exact C1.
  - exists T. split; assumption.
Qed.
Print Assumptions C88_shown.

(** *** The same, as far as the text goes *)
Section Shown.
  Variables s s' : sgraph.
  Hypotheses (SS : same_shown s s') (PE : s_edges s ≡ₚ s_edges s').
  Lemma shown_written n : written s n <-> written s' n.
  Proof.
    split; intros Hn; destruct (written_sub _ n Hn) as [m X].
    - apply (ss_subs _ _ SS n m). auto.
    - apply (ss_subs _ _ SS n m). auto.
  Qed.
  Lemma shown_sub_at n : written s n -> s_subs s !! n = s_subs s' !! n.
  Proof. intros Hn. destruct (written_sub _ n Hn) as [m X]. rewrite X. symmetry. apply (ss_subs _ _ SS n m). auto. Qed.
  Lemma shown_kids n : written s n -> sorted (kids s n) = sorted (kids s' n).
  Proof. intros Hn. f_equal. apply set_eq. intros c. rewrite !elem_of_kids. apply (ss_children _ _ SS), Hn. Qed.
  Lemma shown_sub f : forall n, written s n -> c_sub s f n = c_sub s' f n.
  Proof.
    induction f as [|f IH]; intros n Hn; [reflexivity|]. cbn [c_sub]. rewrite <- (shown_sub_at n Hn), <- (shown_kids n Hn). destruct (s_subs s !! n) as [m|]; [|reflexivity]. f_equal.
    apply map_res_ext. intros c Hc. apply elem_of_sorted, elem_of_kids in Hc. unfold c_child. rewrite <- (ss_nodes _ _ SS).
    destruct (s_nodes s !! c) as [b|] eqn:En; [reflexivity|].
    assert (Nn : ~ s_is_node s c) by (intros [b Hb]; congruence).
    assert (Nn' : ~ s_is_node s' c) by (intros [b Hb]; rewrite <- (ss_nodes _ _ SS) in Hb; congruence).
    destruct (s_subs s !! c) as [b|] eqn:Es.
    - assert (Wc : written s c) by (apply (written_step_same s n c Hn); split; [exact Hc|]; split; [eexists; exact Es|exact Nn]).
      rewrite <- (shown_sub_at c Wc), Es. f_equal. apply IH, Wc.
    - destruct (s_subs s' !! c) as [b|] eqn:Es'; [|reflexivity]. exfalso.
      assert (Wc : written s' c). { apply (written_step_same s' n c (proj1 (shown_written n) Hn)). split; [apply (ss_children _ _ SS); assumption|]. split; [eexists; exact Es'|exact Nn']. }
      apply shown_written in Wc. destruct (written_sub _ c Wc) as [x X]. congruence.
  Qed.
  Lemma shown_end f n port l l' : endpoint s n port -> c_end s f n port = Ok l -> c_end s' f n port = Ok l' -> l = l'.
  Proof.
    intros En. unfold c_end. rewrite <- (ss_nodes _ _ SS). destruct (s_nodes s !! n) as [b|] eqn:Eb; [congruence|].
    destruct (s_subs s !! n) as [m|] eqn:Es; [|discriminate]. destruct (s_subs s' !! n) as [m'|] eqn:Es'; [|discriminate].
    destruct port; [|discriminate]. destruct (has_prefix n (lit "cluster")) eqn:Ec; [congruence|].
    rewrite <- shown_sub; [destruct (c_sub s f n); cbn; congruence|]. exists n. split; [|apply rtc_refl]. eapply Starts_end; [exact En|eexists; exact Es|intros [b Hb]; congruence|].
    intros [_ K]. apply prefix_spec in K. congruence.
  Qed.
  Lemma shown_edge f e st st' : e ∈ s_edges s -> c_edge s f e = Ok st -> c_edge s' f e = Ok st' -> st = st'.
  Proof.
    intros He. unfold c_edge. destruct (c_end s f (e_src e) _) as [l1|x| |] eqn:E1; cbn [bind]; try discriminate. destruct (c_end s f (e_dst e) _) as [l2|x| |] eqn:E2; cbn [bind]; try discriminate.
    destruct (c_end s' f (e_src e) _) as [l1'|x| |] eqn:E3; cbn [bind]; try discriminate. destruct (c_end s' f (e_dst e) _) as [l2'|x| |] eqn:E4; cbn [bind]; try discriminate.
    assert (l1 = l1') by (apply (shown_end f (e_src e) (e_src_port e)); try assumption; exists e; auto).
    assert (l2 = l2') by (apply (shown_end f (e_dst e) (e_dst_port e)); try assumption; exists e; auto). congruence.
  Qed.
  Lemma shown_write f f' es a a' : es ≡ₚ s_edges s -> c_write s f es = Ok a -> c_write s' f' es = Ok a' -> a = a'.
  Proof.
    intros P H H'. destruct (ss_tops _ _ SS) as (T & HT & HT'). assert (P' : es ≡ₚ s_edges s') by (rewrite P; exact PE).
    rewrite (c_write_eq s f es T P HT) in H. rewrite (c_write_eq s' f' es T P' HT') in H'.
    destruct (map_res (c_edge s f) es) as [el|x| |] eqn:E1; cbn [bind] in H; try discriminate. destruct (map_res (c_sub s f) T) as [ts|x| |] eqn:E2; cbn [bind] in H; try discriminate.
    destruct (map_res (c_edge s' f') es) as [el'|x| |] eqn:E3; cbn [bind] in H'; try discriminate. destruct (map_res (c_sub s' f') T) as [ts'|x| |] eqn:E4; cbn [bind] in H'; try discriminate.
    apply map_res_ok in E1, E2, E3, E4.
    assert (el = el') as <-.
    { assert (I : forall e, e ∈ es -> e ∈ s_edges s) by (intros e He; rewrite <- P; exact He). clear -E1 E3 SS I. revert el' E3. induction E1 as [|e st l el H _ IH]; intros el' E3; inversion E3; subst; [reflexivity|].
      f_equal; [|apply IH; [intros x Hx; apply I; right; exact Hx|assumption]].
      match goal with K : c_edge s' f' e = Ok ?y |- _ => destruct (shows_edge_run s' e y (proj1 (c_edge_shows s' f' e y K))) as [f2 F2] end.
      destruct (shows_edge_run s e st (proj1 (c_edge_shows s f e st H))) as [f1 F1].
      apply (shown_edge (Nat.max f1 f2) e); [apply I; left|apply F1; lia|apply F2; lia]. }
    assert (ts = ts') as <-.
    { assert (I : forall n, n ∈ T -> written s n).
      { intros n Hn. apply (is_written_written s T n HT). exists n. split; [right; exact Hn|apply rtc_refl]. }
      clear -E2 E4 SS I. revert ts' E4. induction E2 as [|n t l ts H _ IH]; intros ts' E4; inversion E4; subst; [reflexivity|].
      f_equal; [|apply IH; [intros x Hx; apply I; right; exact Hx|assumption]].
      match goal with K : c_sub s' f' n = Ok ?y |- _ => destruct (shows_sub_run s' n y (c_sub_shows s' f' n y K)) as [f2 F2] end.
      destruct (shows_sub_run s n t (c_sub_shows s f n t H)) as [f1 F1].
      specialize (F1 (Nat.max f1 f2) ltac:(lia)). specialize (F2 (Nat.max f1 f2) ltac:(lia)). rewrite (shown_sub _ n (I n (elem_of_list_here _ _))) in F1. congruence. }
    rewrite <- (ss_name _ _ SS), <- (ss_directed _ _ SS), <- (ss_strict _ _ SS), <- (ss_attrs _ _ SS), <- (ss_nodes _ _ SS) in H'. congruence.
  Qed.
End Shown.
(** With the same ports, graphs that show the same have the same text, if both have one. *)
Theorem C88_back : forall srt srt' o o' g g' fuel fuel' a a', fair o -> fair o' -> sorts (edge_less o) srt -> sorts (edge_less o') srt' ->
  built g -> built g' -> same_shown (view g) (view g') -> s_edges (view g) ≡ₚ s_edges (view g') ->
  (forall e k, e ∈ edges_list (g_edges g) -> e_attrs e !! k <> Some []) ->
  write_ast srt o g fuel = Ok a -> write_ast srt' o' g' fuel' = Ok a' ->
  a = a' /\ graph_string srt o g fuel = graph_string srt' o' g' fuel'.
Proof.
  intros srt srt' o o' g g' fuel fuel' a a' Fo Fo' So So' R R' SS PE NE H H'.
  assert (E : a = a').
  { rewrite (write_canon o g Fo (built_ok g R)) in H. rewrite (write_canon o' g' Fo' (built_ok g' R')) in H'.
    rewrite <- (sorts_unique o o' srt srt' (s_edges (view g)) (s_edges (view g')) Fo Fo' So So' PE) in H'.
    - eapply (shown_write _ _ SS PE); [apply (So (s_edges (view g)))|exact H|exact H'].
    - apply Forall_forall. intros e He k. apply NE. exact He. }
  split; [exact E|]. unfold graph_string. rewrite H, H', E. reflexivity.
Qed.
Print Assumptions C88_back.

(** *** Graphs that survive writing *)
Lemma good_prints p t : good_port p -> prints_port p t -> t = read_port p.
Proof.
  intros G H. destruct (good_port_made [] p G) as [E _]. rewrite <- E. exact (PropsReread.C37_printed_unique p t _ H (port_back_printed [] p)).
Qed.
Lemma read_port_inj p q : read_port p = read_port q -> p = q.
Proof. destruct p, q; cbn; congruence. Qed.
Lemma tidy_port s n port : tidy s -> endpoint s n port -> good_port port.
Proof. intros T H. destruct (t_ends s T n port H) as [[_ G]|(_ & _ & ->)]; [exact G|left; reflexivity]. Qed.
Lemma tidy_legible_same s : tidy s -> legible s.
Proof.
  intros T. split; [apply (t_name s T)|apply (t_names s T)|apply (t_values s T)|]. intros n port t H _ P.
  exists port. split; [eapply tidy_port; eassumption|]. apply good_prints; [eapply tidy_port; eassumption|exact P].
Qed.
Lemma alike_eq e e' : good_port (e_src_port e) -> good_port (e_dst_port e) -> good_port (e_src_port e') -> good_port (e_dst_port e') -> print_alike e e' -> e = e'.
Proof.
  intros G1 G2 G3 G4 (t & (A1 & A2 & A3 & A4 & A5 & A6) & (B1 & B2 & B3 & B4 & B5 & B6)).
  apply good_prints in A5, A6, B5, B6; try assumption. rewrite A5 in B5. rewrite A6 in B6. apply read_port_inj in B5, B6.
  destruct e, e'. cbn in *. congruence.
Qed.
Lemma tidy_full s : tidy s -> Forall full (s_edges s).
Proof. intros T. apply full_edges, tidy_legible_same, T. Qed.

(** Legible graphs whose ports have one spelling: the texts are the same exactly if the graphs show the same. *)
Lemma plain_edge s e : plain_ports s -> e ∈ s_edges s -> good_port (e_src_port e) /\ good_port (e_dst_port e).
Proof. intros H He. split; [apply (H (e_src e))|apply (H (e_dst e))]; exists e; auto. Qed.
Lemma alike_same s s' : plain_ports s -> plain_ports s' -> (exists es, es ≡ₚ s_edges s' /\ Forall2 print_alike (s_edges s) es) -> s_edges s ≡ₚ s_edges s'.
Proof.
  intros G G' (es & P & F). rewrite <- P.
  assert (G1 : forall e, e ∈ s_edges s -> good_port (e_src_port e) /\ good_port (e_dst_port e)) by (intros e; apply plain_edge, G).
  assert (G2 : forall e, e ∈ es -> good_port (e_src_port e) /\ good_port (e_dst_port e)) by (intros e He; apply (plain_edge s'); [exact G'|rewrite <- P; exact He]).
  clear -F G1 G2. enough (s_edges s = es) as -> by reflexivity. induction F as [|e e' l l' A _ IH]; [reflexivity|]. f_equal.
  - destruct (G1 e (elem_of_list_here _ _)), (G2 e' (elem_of_list_here _ _)). apply alike_eq; assumption.
  - apply IH; intros x Hx; [apply G1|apply G2]; right; exact Hx.
Qed.
Theorem C88_exact : forall srt srt' o o' g g' fuel fuel' a a', fair o -> fair o' -> sorts (edge_less o) srt -> sorts (edge_less o') srt' ->
  proper g -> proper g' -> legible (view g) -> legible (view g') -> no_clash (view g) -> no_clash (view g') ->
  ~ s_is_sub (view g) (s_name (view g)) -> ~ s_is_sub (view g') (s_name (view g')) -> plain_ports (view g) -> plain_ports (view g') ->
  write_ast srt o g fuel = Ok a -> write_ast srt' o' g' fuel' = Ok a' ->
  graph_string srt o g fuel = graph_string srt' o' g' fuel' <-> same_shown (view g) (view g').
Proof.
  intros srt srt' o o' g g' fuel fuel' a a' Fo Fo' So So' R R' L L' NC NC' Rt Rt' PP PP' H H'. split.
  - intros E. destruct (string_written _ _ _ _ _ Fo R H) as (_ & HS). apply (C88_shown srt srt' o o' g g' fuel fuel' a (Ast.graph_str a)); try assumption. congruence.
  - intros SS. eapply C88_back; try eassumption; [apply proper_built; assumption..| |].
    + apply alike_same; [exact PP|exact PP'|apply SS].
    + intros e k He. exact (proj1 (List.Forall_forall _ _) (full_edges _ L) e (proj1 (elem_of_list_In _ _) He) k).
Qed.
Print Assumptions C88_exact.
(** Of graphs that survive writing everything is shown: their texts are the same exactly if they have the same content and the same
    subgraphs at the top level. *)
Theorem C88_tidy : forall srt srt' o o' g g' fuel fuel', fair o -> fair o' -> sorts (edge_less o) srt -> sorts (edge_less o') srt' ->
  proper g -> proper g' -> tidy (view g) -> tidy (view g') -> size (g_subs g) < fuel -> size (g_subs g') < fuel' ->
  graph_string srt o g fuel = graph_string srt' o' g' fuel' <-> same_inside (view g) (view g') /\ same_tops (view g) (view g').
Proof.
  intros srt srt' o o' g g' fuel fuel' Fo Fo' So So' R R' T T' Lf Lf'.
  destruct (PropsRound.C35_round_trip srt o g Fo So R T) as (txt & H & _). destruct (H fuel Lf) as [H1 [a Ha]].
  split.
  - intros E.
    assert (SS : same_shown (view g) (view g')).
    { apply (C88_shown srt srt' o o' g g' fuel fuel' a txt); try assumption; try (apply tidy_legible_same; assumption); try (apply tidy_no_clash; assumption); try apply t_root; try assumption.
      rewrite <- E. exact H1. }
    split; [|apply (ss_tops _ _ SS)]. split; [apply SS..| | |].
    + apply map_eq. intros n. destruct (s_subs (view g) !! n) as [m|] eqn:E1.
      * symmetry. apply (ss_subs _ _ SS n m). split; [exact E1|]. apply (t_written _ T). unfold s_is_sub. rewrite E1. eauto.
      * destruct (s_subs (view g') !! n) as [m|] eqn:E2; [|reflexivity]. rewrite <- E1. apply (ss_subs _ _ SS n m).
        split; [exact E2|]. apply (t_written _ T'). unfold s_is_sub. rewrite E2. eauto.
    + apply alike_same; [intros n port K; exact (tidy_port _ n port T K)|intros n port K; exact (tidy_port _ n port T' K)|apply SS].
    + intros p c Hp. apply (ss_children _ _ SS). apply (t_written _ T), Hp.
  - intros [I (T0 & HT & HT')]. rewrite H1. symmetry.
    assert (Lg : size (g_subs g) = size (g_subs g')).
    { assert (X : size (s_subs (view g)) = size (s_subs (view g'))) by (f_equal; apply (si_subs _ _ I)). cbn in X. rewrite !map_size_fmap in X. exact X. }
    assert (E : graph_string srt o g fuel' = graph_string srt' o' g' fuel').
    { apply (C88_equal srt srt' o o' g g' fuel' Fo Fo' So So'); try assumption; try (exists T0; split; assumption).
      1, 2: apply proper_built; assumption. intros e k He. exact (proj1 (List.Forall_forall _ _) (tidy_full _ T) e (proj1 (elem_of_list_In _ _) He) k). }
    rewrite <- E. apply (H fuel'). lia.
Qed.
Print Assumptions C88_tidy.

(** *** Where a text says less *)
(** A node whose name is not an ID can have the text of two nodes. *)
Definition g_one : agraph := build [CSetName (lit "G"); CAddNode (lit "G") (lit "a;
	b") ∅].
Definition g_pair : agraph := build [CSetName (lit "G"); CAddNode (lit "G") (lit "a") ∅; CAddNode (lit "G") (lit "b") ∅].
Theorem C88_names_refuted : exists g g' txt, reachable g /\ reachable g' /\ tidy (view g') /\
  graph_string srt0 o_id g 9 = Ok txt /\ graph_string srt0 o_id g' 9 = Ok txt /\ ~ same_shown (view g) (view g').
Proof.
  exists g_one, g_pair. eexists. split; [apply PropsWrite.build_reachable|]. split; [apply PropsWrite.build_reachable|]. split; [apply tidyb_ok; vm_compute; reflexivity|].
  split; [vm_compute; reflexivity|]. split; [vm_compute; reflexivity|]. intros SS.
  pose proof (f_equal (fun x => x !! lit "a") (ss_nodes _ _ SS)) as K. vm_compute in K. discriminate.
Qed.
Print Assumptions C88_names_refuted.
(** The ports p and p: are printed alike: C88_shown allows for that, C88_tidy excludes p:. *)
Definition g_port (p : gostr) : agraph := build [CSetName (lit "G"); CAddNode (lit "G") (lit "a") ∅; CAddPortEdge (lit "a") p (lit "a") [] false ∅].
Theorem C88_ports_refuted : exists g g' txt, reachable g /\ reachable g' /\ tidy (view g) /\ legible (view g') /\
  graph_string srt0 o_id g 9 = Ok txt /\ graph_string srt0 o_id g' 9 = Ok txt /\ ~ same_inside (view g) (view g').
Proof.
  exists (g_port (lit "p")), (g_port (lit "p:")). eexists. split; [apply PropsWrite.build_reachable|]. split; [apply PropsWrite.build_reachable|]. split; [apply tidyb_ok; vm_compute; reflexivity|].
  split; [apply legibleb_ok; vm_compute; reflexivity|].
  split; [vm_compute; reflexivity|]. split; [vm_compute; reflexivity|]. intros SI. pose proof (si_edges _ _ SI) as P.
  apply Permutation_singleton_inj in P. discriminate.
Qed.
Print Assumptions C88_ports_refuted.
(** A subgraph that is in no other graph is not shown at all. *)
Definition g_sub (p : gostr) : agraph := build [CSetName (lit "G"); CAddNode (lit "G") (lit "a") ∅; CAddSubGraph p (lit "S") ∅].
Theorem C88_written_refuted : exists g g' txt, reachable g /\ reachable g' /\ tidy (view g) /\ legible (view g') /\ plain_graph (view g') /\
  graph_string srt0 o_id g 9 = Ok txt /\ graph_string srt0 o_id g' 9 = Ok txt /\ ~ same_inside (view g) (view g').
Proof.
  exists (build [CSetName (lit "G"); CAddNode (lit "G") (lit "a") ∅]), (g_sub (lit "H")). eexists.
  split; [apply PropsWrite.build_reachable|]. split; [apply PropsWrite.build_reachable|]. split; [apply tidyb_ok; vm_compute; reflexivity|].
  split; [apply legibleb_ok; vm_compute; reflexivity|]. split.
  { apply plainb_ok. vm_compute. reflexivity. }
  split; [vm_compute; reflexivity|]. split; [vm_compute; reflexivity|]. intros SI. pose proof (si_subs _ _ SI) as P.
  apply (f_equal (fun x => x !! lit "S")) in P. vm_compute in P. discriminate.
Qed.
Print Assumptions C88_written_refuted.
(** In what the main graph contains graphs with the same text may differ: the subgraph S stands in the edge already.  (Only the
    subgraphs at the top level count, not the children of the main graph.) *)
Definition g_in (p : gostr) : agraph := build [CSetName (lit "G"); CAddNode (lit "G") (lit "a") (PropsGraph.A [(lit "color", lit "red")]); CAddSubGraph p (lit "S") ∅;
  CAddNode (lit "S") (lit "b") ∅; CAddPortEdge (lit "a") (lit "p:n") (lit "S") [] true ∅].
Example C88_example : proper (g_in (lit "G")) /\ proper (g_in (lit "H")) /\ tidy (view (g_in (lit "G"))) /\ tidy (view (g_in (lit "H"))) /\
  graph_string srt0 o_id (g_in (lit "G")) 9 = graph_string srt0 o_id (g_in (lit "H")) 9 /\
  same_inside (view (g_in (lit "G"))) (view (g_in (lit "H"))) /\ same_tops (view (g_in (lit "G"))) (view (g_in (lit "H"))) /\
  is_child (view (g_in (lit "G"))) (lit "G") (lit "S") /\ ~ is_child (view (g_in (lit "H"))) (lit "G") (lit "S").
Proof.
  assert (P1 : proper (g_in (lit "G"))) by apply reachable_proper, PropsWrite.build_reachable. assert (P2 : proper (g_in (lit "H"))) by apply reachable_proper, PropsWrite.build_reachable.
  assert (T1 : tidy (view (g_in (lit "G")))) by (apply tidyb_ok; vm_compute; reflexivity). assert (T2 : tidy (view (g_in (lit "H")))) by (apply tidyb_ok; vm_compute; reflexivity).
  assert (E : graph_string srt0 o_id (g_in (lit "G")) 9 = graph_string srt0 o_id (g_in (lit "H")) 9) by (vm_compute; reflexivity).
  assert (F1 : size (g_subs (g_in (lit "G"))) < 9) by (apply (bool_decide_unpack _); vm_compute; exact I). assert (F2 : size (g_subs (g_in (lit "H"))) < 9) by (apply (bool_decide_unpack _); vm_compute; exact I).
  destruct (proj1 (C88_tidy srt0 srt0 o_id o_id _ _ 9 9 PropsGraph.fair_id PropsGraph.fair_id PropsWrite.sorts0 PropsWrite.sorts0 P1 P2 T1 T2 F1 F2) E) as [SI ST].
  do 7 (split; [assumption|]). split.
  - unfold is_child. apply (proj1 (bool_decide_eq_true _)). vm_compute. reflexivity.
  - unfold is_child. apply (proj1 (bool_decide_eq_false _)). vm_compute. reflexivity.
Qed.
(** C88_exact for two graphs that show the same and differ: one has a subgraph that is not written. *)
Example C88_exact_example : exists a, proper (g_sub (lit "H")) /\ legible (view (g_sub (lit "H"))) /\ no_clash (view (g_sub (lit "H"))) /\
  ~ s_is_sub (view (g_sub (lit "H"))) (s_name (view (g_sub (lit "H")))) /\ plain_ports (view (g_sub (lit "H"))) /\ write_ast srt0 o_id (g_sub (lit "H")) 9 = Ok a /\
  same_shown (view (build [CSetName (lit "G"); CAddNode (lit "G") (lit "a") ∅])) (view (g_sub (lit "H"))) /\ s_is_sub (view (g_sub (lit "H"))) (lit "S").
Proof.
  set (g1 := build [CSetName (lit "G"); CAddNode (lit "G") (lit "a") ∅]).
  assert (T1 : tidy (view g1)) by (apply tidyb_ok; vm_compute; reflexivity).
  assert (L2 : legible (view (g_sub (lit "H")))) by (apply legibleb_ok; vm_compute; reflexivity).
  assert (P2 : plain_graph (view (g_sub (lit "H")))) by (apply plainb_ok; vm_compute; reflexivity).
  assert (NC : no_clash (view (g_sub (lit "H")))) by (intros n Hs Hn _; exact (p_apart _ P2 n Hn Hs)).
  assert (PP : plain_ports (view (g_sub (lit "H")))) by (intros n port (e & He & _); exfalso; vm_compute in He; inversion He).
  assert (B1 : proper g1) by apply reachable_proper, PropsWrite.build_reachable. assert (B2 : proper (g_sub (lit "H"))) by apply reachable_proper, PropsWrite.build_reachable.
  assert (W1 : exists a, write_ast srt0 o_id g1 9 = Ok a) by (eexists; vm_compute; reflexivity). destruct W1 as [a1 W1].
  assert (W2 : exists a, write_ast srt0 o_id (g_sub (lit "H")) 9 = Ok a) by (eexists; vm_compute; reflexivity). destruct W2 as [a2 W2].
  exists a2. do 6 (split; [first [assumption|apply (p_root _ P2)]|]). split.
  - assert (PP1 : plain_ports (view g1)) by (intros n port K; exact (tidy_port _ n port T1 K)).
    refine (proj1 (C88_exact srt0 srt0 o_id o_id g1 (g_sub (lit "H")) 9 9 a1 a2 PropsGraph.fair_id PropsGraph.fair_id PropsWrite.sorts0 PropsWrite.sorts0 B1 B2
      (tidy_legible_same _ T1) L2 (tidy_no_clash _ T1) NC (t_root _ T1) (p_root _ P2) PP1 PP W1 W2) _). vm_compute. reflexivity.
  - apply (proj1 (bool_decide_eq_true _)). vm_compute. reflexivity.
Qed.
(** The hypotheses of C88_shown. *)
Example C88_shown_example : exists txt, graph_string srt0 o_id (g_in (lit "G")) 9 = Ok txt /\ legible (view (g_in (lit "G"))) /\ no_clash (view (g_in (lit "G"))) /\
  exists a, write_ast srt0 o_id (g_in (lit "G")) 9 = Ok a.
Proof.
  assert (T1 : tidy (view (g_in (lit "G")))) by (apply tidyb_ok; vm_compute; reflexivity).
  eexists. split; [vm_compute; reflexivity|]. split; [apply tidy_legible_same, T1|]. split; [apply tidy_no_clash, T1|]. eexists. vm_compute. reflexivity.
Qed.
