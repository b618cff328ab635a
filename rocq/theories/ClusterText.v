(** The text of a graph in which clusters may end edges, and nodes may have names of subgraphs. *)
From stdpp Require Import sorting.
From Verif Require Import Base Parser Maps Graph AttrMap SpecGraph MapFacts GraphProofs.
From Verif Require Import Write SpecWrite EdgeOrder WriteProofs WriteFacts WriteFacts2 SpecRound RoundCalls RoundCalls2 RoundProofs RoundWrite RoundFinal.
From Verif Require Import Analyse SpecAnalyse AnalyseProofs ReadProofs NormCalls SpecAst LexPrint AstProofs Prune SpecCluster.
From Verif Require Ast.

Section Exact.
  Variable s : sgraph.
  Hypothesis NC : no_clash s.
  Hypothesis Rt : ~ s_is_sub s (s_name s).
  Variables (f : nat) (es : list edge) (a : Ast.graph) (l : list call).
  Hypothesis P : es ≡ₚ s_edges s.
  Variables (el : list Ast.stmt) (tops ns : list gostr) (ts : list Ast.subgraph).
  Hypothesis Ea : a = Ast.Graph (s_directed s) (s_strict s) (s_name s)
    (map Ast.SAttr (in_order (s_attrs s)) ++ el ++ map Ast.SSub ts ++ map (fun n => c_node n (default ∅ (s_nodes s !! n))) ns).
  Hypothesis Fe : Forall2 (fun e st => c_edge s f e = Ok st) es el.
  Hypothesis Ft : Forall2 (fun n t => c_sub s f n = Ok t) tops ts.
  Hypothesis Ht : forall n, n ∈ tops -> is_child s (s_name s) n /\ s_is_sub s n /\ n ∉ marks el.
  Hypothesis Hm : forall n, s_is_sub s n -> is_child s (s_name s) n -> n ∈ marks (el ++ map Ast.SSub ts).
  Hypothesis Hn : ns = filter (fun n => n ∉ marks (el ++ map Ast.SSub ts)) (sorted (dom (s_nodes s))).
  Hypothesis B : body_calls (Ast.g_id a) ∅ ∅ [] (Ast.g_stmts a) l.
  Notation root := (s_name s).
  Notation s' := (fold_left s_build l (s_start a)).
  Notation beg := (begins s es tops).
  Notation says' := (says s es tops ns).

  Lemma x_calls : (forall x, x ∈ l -> says' x) /\
    (forall x, says' x -> x ∈ l \/ exists e n port, e ∈ es /\ end_of e n port /\ plain_end s n /\ x = CAddNode root n ∅) /\
    (forall e n port, e ∈ es -> end_of e n port -> plain_end s n -> adds root n l).
  Proof. eapply calls_all; eassumption. Qed.
  Lemma x_sub n : written s n -> s_is_sub s n.
  Proof. intros (r & St & R). eapply rtc_sub; [|exact R]. destruct St; assumption. Qed.
  Lemma x_node n : written s n -> ~ s_is_node s n.
  Proof.
    intros (r & St & R) N. apply rtc_inv_r in R. destruct R as [->|(p & _ & (_ & _ & K))]; [|contradiction].
    destruct St as [C S|port E S K _]; [exact (NC n S N C)|contradiction].
  Qed.
  Lemma x_beg n : beg n -> written s n.
  Proof. intros H. exists n. split; [|apply rtc_refl]. eapply begins_starts; eassumption. Qed.
  Lemma x_reach n : written s n -> exists r, beg r /\ rtc (nested s) r n.
  Proof.
    intros (r & St & R). destruct (starts_reached s f es P el tops ts Fe Ft Hm r NC St) as (r0 & Br & R0). exists r0. split; [exact Br|]. etransitivity; eassumption.
  Qed.
  Lemma x_step n m : written s n -> rtc (nested s) n m -> written s m.
  Proof. intros (r & St & R) R'. exists r. split; [exact St|]. etransitivity; eassumption. Qed.
  Lemma x_local m x : written s m -> local s m x -> x ∈ l.
  Proof.
    intros W L. destruct (x_reach m W) as (r & Br & R). destruct x_calls as (_ & A & _).
    destruct (A x) as [K|(e & n' & port & _ & _ & _ & ->)]; [eapply begun; [exact Br|right; eauto]|exact K|].
    exfalso. destruct L as [(b & k & v & _ & _ & [=])|[(c & b & Hc & Hb & [= E _ _])|(c & _ & [=])]]. apply Rt. rewrite E. apply x_sub. exact W.
  Qed.
  Lemma x_open n : beg n -> CAddSubGraph root n ∅ ∈ l.
  Proof.
    intros Bn. destruct x_calls as (_ & A & _). destruct (A (CAddSubGraph root n ∅)) as [K|(e & n' & port & _ & _ & _ & [=])]; [|exact K].
    eapply begun; [exact Bn|left; reflexivity].
  Qed.
  Lemma x_opened n : written s n -> exists p, CAddSubGraph p n ∅ ∈ l.
  Proof.
    intros W. destruct (x_reach n W) as (r & Br & R). apply rtc_inv_r in R. destruct R as [->|(p & R & N)]; [eauto using x_open|].
    exists p. apply (x_local p); [eapply x_step; [apply x_beg; exact Br|exact R]|]. right. right. eauto.
  Qed.
  Lemma x_says n x : beg n -> sub_says s root n x -> x = CAddSubGraph root n ∅ \/ exists m, written s m /\ local s m x.
  Proof. intros Bn [->|(m & R & L)]; [auto|]. right. exists m. split; [eapply x_step; [apply x_beg; exact Bn|exact R]|exact L]. Qed.
  Lemma x_cases x : x ∈ l ->
    (exists k v, s_attrs s !! k = Some v /\ x = CAddAttr root k v) \/
    (exists e, e ∈ es /\ x = edge_back e) \/
    (exists n port, endpoint s n port /\ plain_end s n /\ x = CAddNode root n ∅) \/
    (exists n, beg n /\ x = CAddSubGraph root n ∅) \/
    (exists m, written s m /\ local s m x) \/
    (exists n b, n ∉ marks (el ++ map Ast.SSub ts) /\ s_nodes s !! n = Some b /\ x = CAddNode root n b).
  Proof.
    intros X. apply x_calls in X. destruct X as [k v X ->|e X ->|e n port X Y Z ->|e n port X Y Z W|n X Y|n X ->].
    - eauto.
    - eauto.
    - right. right. left. exists n, port. split; [exists e; rewrite <- P; split; [exact X|exact Y]|]. split; [exact Z|reflexivity].
    - assert (Bn : beg n) by (right; eauto). destruct (x_says n x Bn W) as [->|(m & K)]; [|eauto 8]. eauto 8.
    - assert (Bn : beg n) by (left; exact X). destruct (x_says n x Bn Y) as [->|(m & K)]; eauto 8.
    - rewrite Hn in X. apply elem_of_list_filter in X. destruct X as [X1 X2]. apply elem_of_sorted, elem_of_dom in X2. destruct X2 as [b Hb].
      do 5 right. exists n, b. rewrite Hb. auto.
  Qed.
  Lemma x_node_call p n m : CAddNode p n m ∈ l ->
    (s_is_node s n /\ (m = ∅ \/ s_nodes s !! n = Some m) /\
      ((p = root /\ ((exists port, endpoint s n port) \/ n ∉ marks (el ++ map Ast.SSub ts))) \/ (written s p /\ is_child s p n))) \/
    (cluster_end s n /\ m = ∅ /\ p = root).
  Proof.
    intros X. apply x_cases in X. destruct X as [(k & v & _ & [=])|[(e & _ & [=])|[(n' & port & X & Y & [= -> -> ->])|[(n' & _ & [=])|[(q & W & L)|(n' & b & X & Y & [= -> -> ->])]]]]].
    - destruct (s_nodes s !! n') as [b|] eqn:En.
      + left. split; [exists b; exact En|]. split; [auto|]. left. eauto.
      + right. assert (N : ~ s_is_node s n') by (intros [b K]; congruence). destruct Y as [Y|Y]; [contradiction|].
        split; [|auto]. split; [exact Y|]. split; [exact N|]. eauto.
    - left. destruct L as [(b & k & v & _ & _ & [=])|[(c & b & Hc & Hb & [= -> -> ->])|(c & _ & [=])]].
      split; [exists b; exact Hb|]. split; [auto|]. right. auto.
    - left. split; [exists b; exact Y|]. split; [auto|]. left. auto.
  Qed.
  Lemma x_sub_call p n m : CAddSubGraph p n m ∈ l -> written s n /\ m = ∅ /\ ((p = root /\ beg n) \/ (written s p /\ is_child s p n)).
  Proof.
    intros X. apply x_cases in X. destruct X as [(k & v & _ & [=])|[(e & _ & [=])|[(n' & port & X & Y & [=])|[(n' & Bn & [= -> -> ->])|[(q & W & L)|(n' & b & X & Y & [=])]]]]].
    - split; [apply x_beg; exact Bn|]. auto.
    - destruct L as [(b & k & v & _ & _ & [=])|[(c & b & Hc & Hb & [=])|(c & N & [= -> -> ->])]].
      split; [eapply x_step; [exact W|apply rtc_once; exact N]|]. split; [reflexivity|]. right. split; [exact W|apply N].
  Qed.
  Lemma x_attr_call n k v : CAddAttr n k v ∈ l <-> (n = root /\ s_attrs s !! k = Some v) \/ (written s n /\ exists b, s_subs s !! n = Some b /\ b !! k = Some v).
  Proof.
    split.
    - intros X. apply x_cases in X. destruct X as [(k' & v' & X & [= -> -> ->])|[(e & _ & [=])|[(n' & port & X & Y & [=])|[(n' & Bn & [=])|[(q & W & L)|(n' & b & X & Y & [=])]]]]]; [auto|].
      destruct L as [(b & k' & v' & X & Y & [= -> -> ->])|[(c & b & Hc & Hb & [=])|(c & _ & [=])]]. right. eauto.
    - intros [(-> & X)|(W & b & X & Y)].
      + destruct x_calls as (_ & A & _). destruct (A (CAddAttr root k v)) as [K|(e & n' & port & _ & _ & _ & [=])]; [eapply Says_attr; eauto|exact K].
      + apply (x_local n _ W). left. eauto 6.
  Qed.
  Lemma x_marked p n : written s p -> is_child s p n -> n ∈ marks (el ++ map Ast.SSub ts).
  Proof.
    intros W C. destruct (x_reach p W) as (r & Br & R). destruct (begins_marks s f es el tops ts Fe Ft r Br) as (t & Ht' & M). apply M.
    exact (proj2 (sub_marks_complete s f r t Ht' p R) n C).
  Qed.
  Lemma x_marks n : s_is_node s n -> n ∈ marks (el ++ map Ast.SSub ts) -> exists p, written s p /\ is_child s p n.
  Proof.
    intros N M. destruct (marks_begins s f es el tops ts Fe Ft n M) as (r & Br & [R|(p & R & K & _)]).
    - destruct (x_node n); [|exact N]. eapply x_step; [apply x_beg; exact Br|exact R].
    - exists p. split; [eapply x_step; [apply x_beg; exact Br|exact R]|exact K].
  Qed.
  Lemma x_listed n b : s_nodes s !! n = Some b -> exists p, CAddNode p n b ∈ l /\ (p = root \/ written s p).
  Proof.
    intros Hb. assert (N : s_is_node s n) by (exists b; exact Hb).
    destruct (decide (n ∈ marks (el ++ map Ast.SSub ts))) as [M|M].
    - destruct (x_marks n N M) as (p & W & C). exists p. split; [|auto]. apply (x_local p _ W). right. left. eauto.
    - exists root. split; [|auto]. destruct x_calls as (_ & A & _). 
      assert (In : n ∈ ns) by (rewrite Hn; apply elem_of_list_filter; split; [exact M|apply elem_of_sorted, elem_of_dom; exact N]).
      pose proof B as B'. rewrite Ea in B'. cbn in B'. rewrite !app_assoc in B'. apply body_app in B'. destruct B' as (la & lb & -> & _ & B4).
      apply elem_of_app. right. eapply nodes_calls; [|exact B4|].
      + rewrite !app_assoc. apply Forall_app. split; [apply Forall_app; split; [apply quiet_attrs|eapply edges_quiet; exact Fe]|apply quiet_map_sub].
      + exists n. split; [exact In|]. rewrite Hb. reflexivity.
  Qed.
  Lemma x_ended n : plain_end s n -> (exists port, endpoint s n port) -> exists m, CAddNode root n m ∈ l.
  Proof. intros Pl (port & e & He & E). rewrite <- P in He. destruct x_calls as (_ & _ & A). exact (A e n port He E Pl). Qed.

  (** The record, but for the ports. *)
  Lemma exact_parts : s_name s' = root /\ s_directed s' = s_directed s /\ s_strict s' = s_strict s /\ s_attrs s' = s_attrs s /\
    (forall n m, s_nodes s' !! n = Some m <-> s_nodes s !! n = Some m \/ (cluster_end s n /\ m = ∅)) /\
    (forall n m, s_subs s' !! n = Some m <-> s_subs s !! n = Some m /\ written s n) /\
    s_edges s' = map back es /\
    (forall p c, written s p -> is_child s' p c <-> is_child s p c) /\
    (forall p c, is_child s' p c -> p = root \/ written s p) /\
    (forall n, s_is_node s n -> is_child s' root n <-> (exists port, endpoint s n port) \/ forall p, written s p -> ~ is_child s p n) /\
    (forall n, s_is_sub s n -> ~ s_is_node s n ->
      ((exists port, endpoint s n port) -> is_child s' root n) /\
      (is_child s' root n -> is_child s root n \/ exists port, endpoint s n port) /\
      (is_child s root n -> is_child s' root n \/ exists p, written s p /\ is_child s p n)) /\
    (forall n, written s n -> is_child s' root n -> n ∈ tops \/ n ∈ marks el \/ (cluster_end s n)) /\
    (forall n, n ∈ tops -> is_child s' root n).
  Proof.
    pose proof (builds_content l (s_start a) (start_listed a)) as C. cbn in C. specialize (C eq_refl).
    destruct C as (C1 & C2 & C3 & C4 & C5 & C6 & C7 & C8).
    assert (ER : Ast.g_id a = root) by (rewrite Ea; reflexivity).
    assert (CH : forall p n, is_child s' p n <-> exists c, c ∈ l /\ relates p n c).
    { intros p n. rewrite C8. split; [intros [K|K]; [unfold is_child in K; cbn in K; set_solver|exact K]|auto]. }
    assert (SI : forall n, s_is_sub s' n <-> written s n).
    { intros n. rewrite (text_sub s a l el ns ts Ea Hn B n). split.
      - intros (p & m & K). apply x_sub_call in K. tauto.
      - intros K. destruct (x_opened n K) as [p K']. eauto. }
    split; [rewrite builds_name; exact ER|]. split; [rewrite C1, Ea; reflexivity|]. split; [rewrite C2, Ea; reflexivity|]. split; [|split; [|split; [|split; [|split; [|split; [|split; [|split; [|split]]]]]]]].
    - rewrite C5, ER. apply (attrs_result_is l root (s_attrs s)).
      + intros p m K. apply x_sub_call in K. tauto.
      + intros k v. rewrite x_attr_call. split; [|auto]. intros [[_ K]|(W & _)]; [exact K|]. destruct Rt. apply x_sub. exact W.
    - intros n m. rewrite C3. cbn. rewrite lookup_empty. change (node_result l n = Some m <-> s_nodes s !! n = Some m \/ (cluster_end s n /\ m = ∅)). destruct (s_nodes s !! n) as [b|] eqn:En.
      + rewrite (node_result_some l n b).
        * split; [auto|]. intros [K|((_ & K & _) & _)]; [exact K|]. destruct K. exists b. exact En.
        * intros p m' K. apply x_node_call in K. destruct K as [(_ & [->|K] & _)|(_ & -> & _)]; [auto|right; congruence|auto].
        * destruct (x_listed n b En) as (p & K & _). eauto.
      + assert (N : ~ s_is_node s n) by (intros [b K]; congruence). split.
        * intros K. assert (X : exists p m', CAddNode p n m' ∈ l).
          { apply (text_node a l n). exists m. rewrite C3. cbn. rewrite lookup_empty. exact K. }
          destruct X as (p & m' & X). apply x_node_call in X. destruct X as [(X & _)|(X & _)]; [contradiction|]. right. split; [exact X|].
          assert (Em : node_result l n = Some ∅); [|congruence].
          apply node_result_some; [|]. { intros p' m'' K'. apply x_node_call in K'. destruct K' as [(K' & _)|(_ & -> & _)]; [contradiction|auto]. }
          destruct (x_ended n) as [m'' K']; [right; apply X|apply X|]. pose proof K' as K2. apply x_node_call in K2. destruct K2 as [(K2 & _)|(_ & -> & _)]; [contradiction|eauto].
        * intros [K|(X & ->)]; [discriminate|]. apply node_result_some; [intros p' m'' K'; apply x_node_call in K'; destruct K' as [(K' & _)|(_ & -> & _)]; [contradiction|auto]|].
          destruct (x_ended n) as [m'' K']; [right; apply X|apply X|]. pose proof K' as K2. apply x_node_call in K2. destruct K2 as [(K2 & _)|(_ & -> & _)]; [contradiction|eauto].
    - intros n m. assert (AT : forall b, s_subs s !! n = Some b -> written s n -> s_subs s' !! n = Some b).
      { intros b Hb W. assert (D : n <> root) by (intros ->; apply Rt, x_sub, W). pose proof (proj2 (SI n) W) as [b' Hb']. rewrite Hb'.
        rewrite <- ER in D. specialize (C6 n D). rewrite Hb' in C6. cbn in C6. rewrite lookup_empty in C6. cbn in C6. f_equal. rewrite C6. apply (attrs_result_is l n b).
        - intros p m' K. apply x_sub_call in K. tauto.
        - intros k v. rewrite x_attr_call. rewrite ER in D. split; [|eauto]. intros [[K _]|(_ & b'' & K & K')]; congruence. }
      split.
      + intros K. assert (W : written s n) by (apply SI; exists m; exact K). split; [|exact W]. destruct (x_sub n W) as [b Hb]. rewrite (AT b Hb W) in K. congruence.
      + intros [K W]. apply AT; assumption.
    - eapply text_edges; eassumption.
    - intros p c W. assert (D : p <> root) by (intros ->; apply Rt, x_sub, W). rewrite CH. split.
      + intros (x & K & m & [->| ->]); [apply x_node_call in K; destruct K as [(_ & _ & [[K _]|[_ K]])|(_ & _ & K)]; try contradiction; exact K|].
        apply x_sub_call in K; destruct K as (_ & _ & [[K _]|[_ K]]); try contradiction; exact K.
      + intros K. destruct (s_nodes s !! c) as [b|] eqn:En.
        * exists (CAddNode p c b). split; [|eexists; left; reflexivity]. apply (x_local p _ W). right. left. eauto.
        * assert (N : ~ s_is_node s c) by (intros [b K']; congruence). pose proof (x_marked p c W K) as M. 
          destruct (marks_begins s f es el tops ts Fe Ft c M) as (r & Br & [R|(q & _ & _ & K')]); [|contradiction].
          exists (CAddSubGraph p c ∅). split; [|eexists; right; reflexivity]. apply (x_local p _ W). right. right. exists c. split; [|reflexivity].
          split; [exact K|]. split; [|exact N]. apply x_sub. eapply x_step; [apply x_beg; exact Br|exact R].
    - intros p c K. apply CH in K. destruct K as (x & K & m & [->| ->]); [apply x_node_call in K; destruct K as [(_ & _ & [[K _]|[K _]])|(_ & _ & K)]; auto|].
      apply x_sub_call in K; destruct K as (_ & _ & [[K _]|[K _]]); auto.
    - intros n N. rewrite CH. split.
      + intros (x & K & m & [->| ->]).
        * apply x_node_call in K. destruct K as [(_ & _ & [[_ [K|K]]|[K _]])|((_ & K & _) & _)]; [auto| |destruct Rt; apply x_sub; exact K|contradiction].
          right. intros p W C. apply K. eapply x_marked; eassumption.
        * apply x_sub_call in K. destruct K as (K & _). destruct (x_node n K N).
      + intros [E|K].
        * destruct (x_ended n (or_introl N) E) as [m K]. eexists. split; [exact K|]. eexists. left. reflexivity.
        * destruct N as [b Hb]. destruct (x_listed n b Hb) as (p & Kp & _). pose proof Kp as Kp'. apply x_node_call in Kp'.
          destruct Kp' as [(_ & _ & [[-> _]|[W C]])|((_ & N & _) & _)]; [|destruct (K p W C)|destruct N; exists b; exact Hb].
          eexists. split; [exact Kp|]. eexists. left. reflexivity.
    - intros n S0 N. split; [|split].
      + intros E. apply CH. destruct (decide (has_prefix n (lit "cluster") = true)) as [Pf|Pf].
        * assert (Cl : cluster s n) by (split; [exact S0|apply prefix_spec; exact Pf]). destruct (x_ended n (or_intror Cl) E) as [m K].
          eexists. split; [exact K|]. eexists. left. reflexivity.
        * exists (CAddSubGraph root n ∅). split; [|eexists; right; reflexivity]. destruct E as (port & e & He & E). rewrite <- P in He. apply x_open. right. exists e, port.
          split; [exact He|]. split; [exact E|]. split; [exact S0|]. split; [exact N|]. intros [_ K]. apply prefix_spec in K. contradiction.
      + intros K. apply CH in K. destruct K as (x & K & m & [->| ->]).
        * apply x_node_call in K. destruct K as [(K & _)|((_ & _ & K) & _)]; [contradiction|auto].
        * apply x_sub_call in K. destruct K as (_ & _ & [[_ [K|(e & port & H1 & H2 & _)]]|[K _]]); [left; apply Ht; exact K| |destruct Rt; apply x_sub; exact K].
          right. exists port, e. rewrite <- P. split; [exact H1|exact H2].
      + intros K. destruct (marks_begins s f es el tops ts Fe Ft n (Hm n S0 K)) as (r & Br & [R|(p & _ & _ & N')]); [|contradiction].
        apply rtc_inv_r in R. destruct R as [->|(p & R & (N' & _))].
        * left. apply CH. exists (CAddSubGraph root n ∅). split; [apply x_open; exact Br|]. eexists. right. reflexivity.
        * right. exists p. split; [eapply x_step; [apply x_beg; exact Br|exact R]|exact N'].
    - intros n W K. apply CH in K. destruct K as (x & K & m & [->| ->]).
      + apply x_node_call in K. destruct K as [(K & _)|(K & _)]; [destruct (x_node n W K)|auto].
      + apply x_sub_call in K. destruct K as (_ & _ & [[_ [K|(e & port & H1 & H2 & K)]]|[K _]]); [auto| |destruct Rt; apply x_sub; exact K].
        right. left. destruct (elem_of_list_lookup_1 _ _ H1) as [i Hi]. destruct (Forall2_lookup_l _ _ _ _ _ Fe Hi) as (st & Hi' & X).
        assert (NP : plain_end s n -> False) by (unfold plain_end, sub_end in *; tauto).
        unfold c_edge in X. destruct (c_end s f (e_src e) (e_src_port e)) as [l1|x| |] eqn:E1; cbn [bind] in X; try discriminate.
        destruct (c_end s f (e_dst e) (e_dst_port e)) as [l2|x| |] eqn:E2; cbn [bind] in X; try discriminate. injection X as <-.
        apply c_end_inv in E1, E2. destruct E1 as (K1 & _), E2 as (K2 & _).
        apply elem_of_marks. eexists. split; [eapply elem_of_list_lookup_2; exact Hi'|]. cbn. rewrite !elem_of_union.
        destruct H2 as [(-> & ->)|(-> & ->)]; [destruct K1 as [(C & _)|(_ & t & -> & Ct)]|destruct K2 as [(C & _)|(_ & t & -> & Ct)]]; try contradiction; cbn [loc_names rh_names];
          [left|right; left]; apply (proj1 (sub_marks_complete s f _ t Ct _ (rtc_refl _ _))).
    - intros n K. apply CH. exists (CAddSubGraph root n ∅). split; [apply x_open; left; exact K|]. eexists. right. reflexivity.
  Qed.
End Exact.

(** ** Writing again what was read *)
Section Again.
  Variables s s' : sgraph.
  Hypothesis NC : no_clash s.
  Hypothesis OC : outer_clusters s.
  Hypothesis S1 : s_name s' = s_name s.
  Hypothesis S2 : s_directed s' = s_directed s.
  Hypothesis S3 : s_strict s' = s_strict s.
  Hypothesis S4 : s_attrs s' = s_attrs s.
  Hypothesis S5 : forall n m, s_nodes s' !! n = Some m <-> s_nodes s !! n = Some m \/ (cluster_end s n /\ m = ∅).
  Hypothesis S6 : forall n m, s_subs s' !! n = Some m <-> s_subs s !! n = Some m /\ written s n.
  Hypothesis S8 : forall p c, written s p -> is_child s' p c <-> is_child s p c.
  Lemma again_node n : ~ cluster_end s n -> s_nodes s' !! n = s_nodes s !! n.
  Proof.
    intros N. destruct (s_nodes s !! n) as [b|] eqn:E; [apply S5; auto|]. destruct (s_nodes s' !! n) as [b|] eqn:E'; [|reflexivity].
    apply S5 in E'. destruct E' as [E'|[E' _]]; [congruence|contradiction].
  Qed.
  Lemma again_sub n : written s n -> s_subs s' !! n = s_subs s !! n.
  Proof.
    intros W. destruct (s_subs s !! n) as [b|] eqn:E; [apply S6; auto|]. destruct (s_subs s' !! n) as [b|] eqn:E'; [|reflexivity]. apply S6 in E'. destruct E'. congruence.
  Qed.
  Lemma again_none n : s_subs s !! n = None -> s_subs s' !! n = None.
  Proof. intros E. destruct (s_subs s' !! n) as [b|] eqn:E'; [|reflexivity]. apply S6 in E'. destruct E'. congruence. Qed.
  Lemma again_c_sub f : forall n, written s n -> c_sub s' f n = c_sub s f n.
  Proof.
    induction f as [|f IH]; intros n W; [reflexivity|]. cbn [c_sub]. rewrite again_sub by exact W.
    assert (K : kids s' n = kids s n) by (apply set_eq; intros c; rewrite !elem_of_kids; apply S8; exact W). rewrite K.
    assert (M : map_res (c_child s' (c_sub s' f)) (sorted (kids s n)) = map_res (c_child s (c_sub s f)) (sorted (kids s n))).
    { apply map_res_ext. intros c Hc. apply elem_of_sorted, elem_of_kids in Hc. unfold c_child. rewrite again_node.
      2:{ intros X. destruct (OC c X) as [_ X']. exact (X' n W Hc). }
      destruct (s_nodes s !! c) as [b|] eqn:En; [reflexivity|]. destruct (s_subs s !! c) as [b|] eqn:Es; [|rewrite again_none by exact Es; reflexivity].
      assert (Wc : written s c).
      { destruct W as (r & St & R). exists r. split; [exact St|]. eapply rtc_r; [exact R|]. split; [exact Hc|]. split; [exists b; exact Es|]. intros [x X]. congruence. }
      rewrite again_sub, Es, IH by exact Wc. reflexivity. }
    rewrite M. reflexivity.
  Qed.
  Lemma again_end f n p lo : endpoint s n p -> c_end s f n p = Ok lo -> c_end s' f n p = Ok lo.
  Proof.
    intros E. unfold c_end. destruct (s_nodes s !! n) as [b|] eqn:En.
    - rewrite (proj2 (S5 n b) (or_introl En)). auto.
    - assert (N : ~ s_is_node s n) by (intros [x X]; congruence). destruct (s_subs s !! n) as [b|] eqn:Es; [|discriminate]. destruct p as [|c p]; [|discriminate].
      destruct (has_prefix n (lit "cluster")) eqn:Pf.
      + assert (X : cluster_end s n). { split; [split; [exists b; exact Es|apply prefix_spec; exact Pf]|]. split; [exact N|]. eauto. }
        rewrite (proj2 (S5 n ∅) (or_intror (conj X eq_refl))). intros [= <-]. reflexivity.
      + assert (NX : ~ cluster s n) by (intros [_ X]; apply prefix_spec in X; congruence).
        rewrite again_node by (intros [X _]; contradiction). rewrite En.
        assert (W : written s n) by (exists n; split; [eapply Starts_end; [exact E|exists b; exact Es|exact N|exact NX]|apply rtc_refl]).
        rewrite again_sub, Es, again_c_sub by exact W. auto.
  Qed.
  Lemma again_edges f es el : es ≡ₚ s_edges s -> map_res (c_edge s f) es = Ok el -> map_res (c_edge s' f) es = Ok el.
  Proof.
    intros P H. apply map_res_ok in H. apply map_res_ok. assert (G : forall e, e ∈ es -> e ∈ s_edges s) by (intros e; rewrite P; auto). clear P.
    induction H as [|e st es el X H IH]; constructor; [|apply IH; intros x Hx; apply G; right; exact Hx].
    assert (He : e ∈ s_edges s) by (apply G; left). unfold c_edge in *.
    destruct (c_end s f (e_src e) (e_src_port e)) as [l1|x| |] eqn:E1; cbn [bind] in X; try discriminate.
    destruct (c_end s f (e_dst e) (e_dst_port e)) as [l2|x| |] eqn:E2; cbn [bind] in X; try discriminate.
    rewrite (again_end f _ _ l1), (again_end f _ _ l2); [exact X| |exact E2| |exact E1]; exists e; (split; [exact He|]); [right|left]; split; reflexivity.
  Qed.
  Lemma again_tops f ns : (forall n, n ∈ ns -> s_is_sub s n) -> forall acc b, c_tops s f ns acc = Ok b ->
    (forall n, n ∈ ns -> written s n -> is_child s' (s_name s) n -> is_child s (s_name s) n \/ n ∈ marks acc) ->
    (forall n t, n ∈ ns -> c_sub s f n = Ok t -> Ast.SSub t ∈ b -> is_child s' (s_name s) n) ->
    c_tops s' f (filter (fun n => n ∈ dom (s_subs s')) ns) acc = Ok b.
  Proof.
    induction ns as [|n ns IH]; intros SS acc b H H1 H2; [exact H|]. cbn [c_tops] in H. rewrite filter_cons.
    assert (SS' : forall m, m ∈ ns -> s_is_sub s m) by (intros m K; apply SS; right; exact K).
    assert (H1' : forall acc', marks acc ⊆ marks acc' -> forall m, m ∈ ns -> written s m -> is_child s' (s_name s) m -> is_child s (s_name s) m \/ m ∈ marks acc').
    { intros acc' L m K1 K2 K3. destruct (H1 m) as [K|K]; [right; exact K1|exact K2|exact K3|auto|right; apply L; exact K]. }
    assert (H2' : forall m t, m ∈ ns -> c_sub s f m = Ok t -> Ast.SSub t ∈ b -> is_child s' (s_name s) m) by (intros m t K; apply H2; right; exact K).
    assert (Skip : forall acc', acc' = acc -> c_tops s f ns acc = Ok b -> c_tops s' f (filter (fun n => n ∈ dom (s_subs s')) ns) acc' = Ok b) by (intros acc' -> K; apply IH; auto).
    destruct (decide (n ∈ marks acc)) as [M|M].
    { destruct (decide (n ∈ dom (s_subs s'))); [cbn [c_tops]; rewrite decide_True by exact M|]; apply Skip; auto. }
    destruct (decide (n ∈ kids s (s_name s))) as [K|K].
    - assert (W : written s n) by (exists n; split; [apply Starts_top; [apply elem_of_kids; exact K|apply SS; left]|apply rtc_refl]).
      rewrite decide_True. 2:{ apply elem_of_dom. rewrite again_sub by exact W. apply SS. left. }
      cbn [c_tops]. rewrite decide_False by exact M. rewrite again_c_sub by exact W. destruct (c_sub s f n) as [t|e| |] eqn:Et; cbn [bind] in *; try discriminate.
      assert (I : Ast.SSub t ∈ b).
      { apply c_tops_ok in H. destruct H as (tops & ts & -> & _). rewrite !elem_of_app. left. right. apply elem_of_list_singleton. reflexivity. }
      rewrite S1. rewrite decide_True by (apply elem_of_kids, (H2 n t); [left|exact Et|exact I]). cbn [bind]. apply IH; auto. apply H1'. rewrite marks_app. set_solver.
    - destruct (decide (n ∈ dom (s_subs s'))) as [D|D]; [|apply Skip; auto]. cbn [c_tops]. rewrite decide_False by exact M. rewrite S1.
      rewrite decide_False; [apply Skip; auto|]. intros K'. apply elem_of_kids in K'. apply elem_of_dom in D. destruct D as [x D]. apply S6 in D. destruct D as [_ W].
      destruct (H1 n) as [K2|K2]; [left|exact W|exact K'| |contradiction]. apply K. apply elem_of_kids. exact K2.
  Qed.
  Lemma again_dom : sorted (dom (s_subs s')) = filter (fun n => n ∈ dom (s_subs s')) (sorted (dom (s_subs s))).
  Proof.
    apply strict_sorted_unique; [apply sorted_strict|apply sorted_filter, sorted_strict|]. intros n. rewrite elem_of_list_filter, !elem_of_sorted. split.
    - intros H. split; [exact H|]. apply elem_of_dom in H. destruct H as [b H]. apply S6 in H. apply elem_of_dom. exists b. apply H.
    - intros [H _]. exact H.
  Qed.
  Lemma again_nodes acc : (forall n, cluster_end s n -> n ∈ marks acc) -> c_nodes s' (sorted (dom (s_nodes s'))) acc = c_nodes s (sorted (dom (s_nodes s))) acc.
  Proof.
    intros H. rewrite !c_nodes_eq by apply NoDup_sorted. f_equal.
    assert (E : filter (fun n => n ∉ marks acc) (sorted (dom (s_nodes s'))) = filter (fun n => n ∉ marks acc) (sorted (dom (s_nodes s)))).
    { apply strict_sorted_unique; [apply sorted_filter, sorted_strict..|]. intros n. rewrite !elem_of_list_filter, !elem_of_sorted, !elem_of_dom.
      split; intros [M [b K]]; (split; [exact M|]); [|exists b; apply S5; auto]. apply S5 in K. destruct K as [K|[K _]]; [exists b; exact K|]. destruct M. apply H. exact K. }
    rewrite E. apply map_ext_in. intros n K. apply elem_of_list_In, elem_of_list_filter in K. destruct K as [M _]. rewrite again_node; [reflexivity|]. intros X. apply M, H, X.
  Qed.
  Lemma write_again f es a el tops ts ns : es ≡ₚ s_edges s ->
    a = Ast.Graph (s_directed s) (s_strict s) (s_name s)
          (map Ast.SAttr (in_order (s_attrs s)) ++ el ++ map Ast.SSub ts ++ map (fun n => c_node n (default ∅ (s_nodes s !! n))) ns) ->
    Forall2 (fun e st => c_edge s f e = Ok st) es el ->
    Forall2 (fun n t => c_sub s f n = Ok t) tops ts ->
    (forall n, n ∈ tops -> is_child s (s_name s) n /\ s_is_sub s n /\ n ∉ marks el) ->
    (forall n, s_is_sub s n -> is_child s (s_name s) n -> n ∈ marks (el ++ map Ast.SSub ts)) ->
    map_res (c_edge s f) es = Ok el ->
    c_tops s f (sorted (dom (s_subs s))) (map Ast.SAttr (in_order (s_attrs s)) ++ el) = Ok ((map Ast.SAttr (in_order (s_attrs s)) ++ el) ++ map Ast.SSub ts) ->
    Ast.g_stmts a = c_nodes s (sorted (dom (s_nodes s))) ((map Ast.SAttr (in_order (s_attrs s)) ++ el) ++ map Ast.SSub ts) ->
    (forall n, written s n -> is_child s' (s_name s) n -> n ∈ tops \/ n ∈ marks el \/ cluster_end s n) ->
    (forall n, n ∈ tops -> is_child s' (s_name s) n) ->
    c_write s' f es = Ok a.
  Proof.
    intros P Ea Fe Ft Ht Hm Ee Et Es T1 T2. unfold c_write. rewrite (again_edges f es el P Ee). cbn [bind]. rewrite S4, again_dom.
    rewrite (again_tops f _ (fun n K => proj1 (subs_listed s n) K) _ _ Et); cbn [bind].
    - rewrite again_nodes.
      + rewrite <- Es, S1, S2, S3, Ea. reflexivity.
      + intros n X. rewrite !marks_app, marks_attrs, (left_id_L ∅ (∪)), <- marks_app. apply Hm; [apply X|apply (OC n X)].
    - intros n _ W K. destruct (T1 n W K) as [K'|[K'|K']]; [left; apply Ht; exact K'|right; rewrite marks_app; apply elem_of_union_r; exact K'|left; apply (OC n K')].
    - intros n t _ Ct I. apply T2. rewrite !elem_of_app in I. destruct I as [[I|I]|I].
      + apply elem_of_list_fmap in I. destruct I as (? & ? & _). discriminate.
      + destruct (elem_of_list_lookup_1 _ _ I) as [i Hi]. destruct (Forall2_lookup_r _ _ _ _ _ Fe Hi) as (e & _ & X). apply c_edge_shows in X. destruct X as [X _]. inversion X.
      + apply elem_of_list_fmap in I. destruct I as (t' & Et' & I). injection Et' as <-. destruct (elem_of_list_lookup_1 _ _ I) as [i Hi].
        destruct (Forall2_lookup_r _ _ _ _ _ Ft Hi) as (n' & Hn2 & X). assert (n' = n) as ->; [|eapply elem_of_list_lookup_2; exact Hn2].
        assert (N1 : forall f m t, c_sub s f m = Ok t -> (match t with Ast.SubGraph id _ => id end) = m).
        { intros f' m t' C. destruct f'; [discriminate|]. apply c_sub_inv in C. destruct C as (? & ? & _ & _ & ->). reflexivity. }
        rewrite <- (N1 _ _ _ X), <- (N1 _ _ _ Ct). reflexivity.
  Qed.
End Again.

(** ** Ports as printed *)
Lemma clipped_endpoint s n : (exists port, endpoint (clipped s) n port) <-> exists port, endpoint s n port.
Proof. split; [intros (q & E); apply clipped_end in E; destruct E as (p & E & _); eauto|]. intros (p & E). exists (clip p). apply end_clipped. exact E. Qed.
Lemma clipped_starts s n : starts (clipped s) n <-> starts s n.
Proof.
  split; intros St; destruct St as [C S|port E S N1 N2]; try (apply Starts_top; assumption).
  - apply clipped_end in E. destruct E as (p & E & _). eapply Starts_end; eassumption.
  - eapply Starts_end; [apply end_clipped; exact E|assumption..].
Qed.
Lemma clipped_written s n : written (clipped s) n <-> written s n.
Proof. split; intros (r & St & R); exists r; (split; [apply clipped_starts; exact St|exact R]). Qed.
Lemma clipped_cluster s n : cluster_end (clipped s) n <-> cluster_end s n.
Proof. unfold cluster_end. rewrite clipped_endpoint. reflexivity. Qed.

(** ** Reading the text *)
Lemma shown_core s f es a : legible s -> (forall m k v, holds_attrs s m -> m !! k = Some v -> valid_attr k) -> no_clash s -> ~ s_is_sub s (s_name s) ->
  es ≡ₚ s_edges s -> c_write s f es = Ok a ->
  wf_graph good_id (dp_graph a) /\ forall os ord, (forall i, fair (os i)) -> fair_order ord ->
  exists g', new_analysed_graph os ord (norm_graph (dp_graph a)) = inl g' /\ reachable g' /\ shown_graph s (view g') /\
    (outer_clusters s -> c_write (view g') f (map clip_edge es) = Ok (dp_graph a)).
Proof.
  intros L V NC Rt P Wr. pose proof (legible_wf s f es a L V P Wr) as Wf. split; [exact Wf|]. intros os ord Fos Ford.
  pose proof (legible_all s es L P) as LE. pose proof (c_write_clip s f es a LE Wr) as Wc. rewrite <- clipped_write in Wc.
  assert (Pc : map clip_edge es ≡ₚ s_edges (clipped s)) by (cbn; rewrite P; reflexivity).
  assert (Vc : forall m k v, holds_attrs (clipped s) m -> m !! k = Some v -> valid_attr k) by (intros m k0 v K; apply V, clipped_holds; exact K).
  destruct (c_write_parts _ _ _ _ Wc) as (el & tops & ts & ns & Ea & Fe & Ft & Ht & Hm & Hn & Ee & Et & Es).
  destruct (analysed_graph os ord (dp_graph a) Fos Ford) as (l & B & HA). pose proof (norm_analysed os ord os ord (dp_graph a) Fos Ford Fos Ford) as NA.
  assert (CO : Forall call_ok l) by (eapply calls_ok; eassumption).
  destruct (new_analysed_graph os ord (dp_graph a)) as [g0|e]; [|contradiction]. destruct HA as (_ & _ & HV).
  destruct (analysed_graph os ord (norm_graph (dp_graph a)) Fos Ford) as (l' & _ & HA').
  destruct (new_analysed_graph os ord (norm_graph (dp_graph a))) as [g'|e] eqn:Eg; [|contradiction]. destruct HA' as (_ & R' & _).
  exists g'. split; [reflexivity|]. split; [exact R'|]. rewrite HV in NA. symmetry in NA.
  destruct (exact_parts (clipped s) NC Rt f (map clip_edge es) (dp_graph a) l Pc el tops ns ts Ea Fe Ft Ht Hm Hn B) as (K1 & K2 & K3 & K4 & K5 & K6 & K7 & K8 & K9 & K10 & K11 & K12 & K13).
  rewrite <- NA in *. split.
  - split; try assumption.
    + intros n m. rewrite K5, clipped_cluster. reflexivity.
    + intros n m. rewrite K6, clipped_written. reflexivity.
    + exists (map back (map clip_edge (s_edges s))). split; [rewrite K7, P; reflexivity|].
      rewrite map_map. apply Forall2_fmap_r, Forall2_same_length_lookup_2; [reflexivity|].
      intros i e e' H1 H2. assert (e' = e) as -> by congruence. apply elem_of_list_lookup_2 in H1. clear H2.
      assert (He : e ∈ es) by (rewrite P; exact H1). pose proof (proj1 (Forall_forall _ _) LE e He) as [L1 L2].
      assert (X : exists st, c_edge s f e = Ok st).
      { destruct (c_write_ok _ _ _ _ Wr) as (el0 & ? & ? & ? & _ & Fe0 & _). destruct (elem_of_list_lookup_1 _ _ He) as [j Hj].
        destruct (Forall2_lookup_l _ _ _ _ _ Fe0 Hj) as (st & _ & X). eauto. }
      destruct X as [st X]. unfold c_edge in X.
      destruct (c_end s f (e_src e) (e_src_port e)) as [l1|x| |] eqn:E1; cbn [bind] in X; try discriminate.
      destruct (c_end s f (e_dst e) (e_dst_port e)) as [l2|x| |] eqn:E2; cbn [bind] in X; try discriminate. clear X.
      assert (G : forall n p lo, (s_is_node s n -> legible_port p) -> c_end s f n p = Ok lo -> prints_port p (port_back n (clip p))).
      { intros n p lo Lp Hp. unfold c_end in Hp. destruct (s_nodes s !! n) as [b|] eqn:En.
        - destruct (clip_spec n p (Lp ltac:(exists b; exact En))) as (G1 & G2 & _). rewrite (proj1 (good_port_made n (clip p) G1)). exact G2.
        - destruct (s_subs s !! n); [|discriminate]. destruct p; [constructor|discriminate]. }
      unfold printed_edge. cbn. repeat split; eapply G; eassumption.
    + intros p c W. apply (K8 p c). apply clipped_written. exact W.
    + intros p c K. destruct (K9 p c K) as [K'|K']; [left; exact K'|right; apply clipped_written; exact K'].
    + intros n N. rewrite <- clipped_endpoint. rewrite (K10 n N). split; (intros [K|K]; [auto|right; intros p Kp; apply K; apply clipped_written; exact Kp]).
    + intros n S0 N. rewrite <- clipped_endpoint. destruct (K11 n S0 N) as (X1 & X2 & X3). split; [exact X1|]. split; [exact X2|].
      intros C. destruct (X3 C) as [X4|(p & X4 & X5)]; [auto|]. right. exists p. split; [apply clipped_written; exact X4|exact X5].
  - intros OC. assert (OC' : outer_clusters (clipped s)).
    { intros n X. apply (proj1 (clipped_cluster s n)) in X. destruct (OC n X) as [X1 X2]. split; [exact X1|]. intros p Wp. apply X2. apply clipped_written. exact Wp. }
    eapply (write_again (clipped s) (view g') NC OC'); eassumption.
Qed.
