(** The graph that the written text of a tidy graph stands for. *)
From stdpp Require Import sorting.
From Verif Require Import Base Parser Maps Graph AttrMap SpecGraph MapFacts GraphProofs Analyse SpecAnalyse AnalyseProofs ReadProofs.
From Verif Require Import Write SpecWrite EdgeOrder WriteProofs WriteFacts WriteFacts2 SpecRound RoundCalls RoundCalls2.
From Verif Require Ast.

(** ** Reading attributes off a list of calls *)
Lemma node_result_none cs n : (forall p m, CAddNode p n m ∉ cs) -> node_result cs n = None.
Proof.
  unfold node_result. induction cs as [|c cs IH]; intros H; cbn [fold_left]; [reflexivity|].
  assert (H' : forall p m, CAddNode p n m ∉ cs) by (intros p m K; apply (H p m); right; exact K).
  destruct c; try (apply IH; exact H'). destruct (decide (name = n)) as [->|D]; [|apply IH; exact H'].
  destruct (H parent m). left.
Qed.
Lemma node_result_some cs n a : (forall p m, CAddNode p n m ∈ cs -> m = ∅ \/ m = a) -> (exists p, CAddNode p n a ∈ cs) -> node_result cs n = Some a.
Proof.
  unfold node_result. intros H1 H2.
  assert (G : forall acc, acc = None \/ acc = Some ∅ \/ acc = Some a -> (acc = Some a \/ exists p, CAddNode p n a ∈ cs) ->
    fold_left (fun acc c => match c with CAddNode _ n' m => if decide (n' = n) then Some (m ∪ default ∅ acc) else acc | _ => acc end) cs acc = Some a); [|apply G; auto].
  clear H2. induction cs as [|c cs IH]; intros acc A E; cbn [fold_left]; [destruct E as [E|[p E]]; [exact E|inversion E]|].
  assert (H1' : forall p m, CAddNode p n m ∈ cs -> m = ∅ \/ m = a) by (intros p m K; apply (H1 p m); right; exact K).
  assert (T : (forall p, c <> CAddNode p n a) -> acc = Some a \/ exists p, CAddNode p n a ∈ cs).
  { intros N. destruct E as [E|[p E]]; [auto|]. apply elem_of_cons in E. destruct E as [E|E]; [destruct (N p); auto|eauto]. }
  destruct c; try (apply IH; [exact H1'|exact A|apply T; discriminate]).
  destruct (decide (name = n)) as [->|D]; [|apply IH; [exact H1'|exact A|apply T; congruence]].
  destruct (H1 parent m (elem_of_list_here _ _)) as [->| ->].
  - apply IH; [exact H1'| |].
    + right. destruct A as [->|[->| ->]]; cbn; rewrite (left_id_L (∅ : attrs) (∪)); auto.
    + destruct (decide (a = ∅)) as [->|D].
      * left. destruct A as [->|[->| ->]]; cbn; rewrite (left_id_L (∅ : attrs) (∪)); reflexivity.
      * destruct T as [->|T]; [congruence| |right; exact T]. left. cbn. rewrite (left_id_L (∅ : attrs) (∪)). reflexivity.
  - assert (E2 : a ∪ default ∅ acc = a).
    { destruct A as [->|[->| ->]]; cbn; [apply (right_id_L (∅ : attrs) (∪))|apply (right_id_L (∅ : attrs) (∪))|apply map_union_idemp]. }
    rewrite E2. apply IH; auto.
Qed.
Lemma attrs_result_is cs n a : (forall p m, CAddSubGraph p n m ∈ cs -> m = ∅) -> (forall k v, CAddAttr n k v ∈ cs <-> a !! k = Some v) -> attrs_result cs n = a.
Proof.
  unfold attrs_result. intros H1 H2.
  assert (G : forall acc : attrs, (forall k v, acc !! k = Some v -> a !! k = Some v) -> (forall k v, a !! k = Some v -> acc !! k = Some v \/ CAddAttr n k v ∈ cs) ->
    (forall k v, CAddAttr n k v ∈ cs -> a !! k = Some v) ->
    fold_left (fun acc c => match c with
      | CAddSubGraph _ n' m => if decide (n' = n) then m ∪ acc else acc
      | CAddAttr n' f v => if decide (n' = n) then {[f := v]} ∪ acc else acc
      | _ => acc end) cs acc = a).
  2:{ apply G; [intros k v; rewrite lookup_empty; discriminate|intros k v E; right; apply H2; exact E|intros k v; apply H2]. }
  clear H2. induction cs as [|c cs IH]; intros acc A B C; cbn [fold_left].
  - apply map_eq. intros k. destruct (a !! k) as [v|] eqn:E.
    + destruct (B k v E) as [X|X]; [exact X|inversion X].
    + destruct (acc !! k) as [v|] eqn:E2; [|reflexivity]. apply A in E2. congruence.
  - assert (H1' : forall p m, CAddSubGraph p n m ∈ cs -> m = ∅) by (intros p m K; apply (H1 p m); right; exact K).
    assert (C' : forall k v, CAddAttr n k v ∈ cs -> a !! k = Some v) by (intros k v K; apply C; right; exact K).
    assert (B' : (forall k v, c <> CAddAttr n k v) -> forall k v, a !! k = Some v -> acc !! k = Some v \/ CAddAttr n k v ∈ cs).
    { intros N k v E. destruct (B k v E) as [X|X]; [auto|]. apply elem_of_cons in X. destruct X as [X|X]; [destruct (N k v); auto|auto]. }
    destruct c; try (apply IH; [exact H1'|exact A|apply B'; discriminate|exact C']).
    + destruct (decide (parent = n)) as [->|D]; [|apply IH; [exact H1'|exact A|apply B'; congruence|exact C']].
      match goal with |- fold_left _ _ ({[?f0 := ?v0]} ∪ _) = _ => set (f := f0); set (v := v0); assert (Ef : a !! f = Some v) by (apply C; left) end.
      apply IH; [exact H1'| | |exact C'].
      * intros k w E. apply lookup_union_Some_raw in E. destruct E as [E|[_ E]]; [|apply A; exact E].
        apply lookup_singleton_Some in E. destruct E as [<- <-]. exact Ef.
      * intros k w E. destruct (decide (k = f)) as [->|D].
        -- left. rewrite Ef in E. injection E as <-. apply lookup_union_Some_l. apply lookup_singleton.
        -- destruct (B k w E) as [X|X]; [left; rewrite lookup_union_r; [exact X|apply lookup_singleton_ne; congruence]|].
           apply elem_of_cons in X. destruct X as [X|X]; [unfold f in D; congruence|auto].
    + destruct (decide (name = n)) as [->|D]; [|apply IH; [exact H1'|exact A|apply B'; discriminate|exact C']].
      rewrite (H1 parent m (elem_of_list_here _ _)), (left_id_L (∅ : attrs) (∪)). apply IH; [exact H1'|exact A|apply B'; discriminate|exact C'].
Qed.

(** ** Marks of written subgraphs *)
Section Marks.
  Variable s : sgraph.
  Lemma sub_marks_sound f : forall n t, c_sub s f n = Ok t -> forall m, m ∈ sub_names t ->
    rtc (nested s) n m \/ exists p, rtc (nested s) n p /\ is_child s p m /\ s_is_node s m.
  Proof.
    induction f as [|f IH]; intros n t H m M; [discriminate|]. apply c_sub_inv in H. destruct H as (a & body & Ha & F & ->).
    rewrite sub_names_eq, marks_app, marks_attrs in M. apply elem_of_union in M. destruct M as [M|M]; [apply elem_of_singleton in M; subst; left; apply rtc_refl|].
    assert (M' : m ∈ marks body) by set_solver. clear M. apply elem_of_marks in M'. destruct M' as (st & M1 & M2).
    destruct (elem_of_list_lookup_1 _ _ M1) as [i Hi]. destruct (Forall2_lookup_r _ _ _ _ _ F Hi) as (c & Hc & X).
    apply elem_of_list_lookup_2, elem_of_sorted, elem_of_kids in Hc. unfold c_child in X. destruct (s_nodes s !! c) as [b|] eqn:En.
    - injection X as <-. cbn in M2. apply elem_of_singleton in M2. subst m. right. exists n. split; [apply rtc_refl|]. split; [exact Hc|]. unfold s_is_node. rewrite En. eauto.
    - destruct (s_subs s !! c) as [b|] eqn:Es; [|discriminate]. destruct (c_sub s f c) as [t|e| |] eqn:Et; cbn in X; try discriminate. injection X as <-. cbn [st_names] in M2.
      assert (N : nested s n c) by (split; [exact Hc|]; split; [unfold s_is_sub; rewrite Es; eauto|apply not_node; exact En]).
      destruct (IH c t Et m M2) as [R|(p & R & K)]; [left|right; exists p; split; [|exact K]]; eapply rtc_l; eassumption.
  Qed.
  Lemma sub_marks_complete f : forall n t, c_sub s f n = Ok t -> forall m, rtc (nested s) n m -> m ∈ sub_names t /\ forall c, is_child s m c -> c ∈ sub_names t.
  Proof.
    induction f as [|f IH]; intros n t H m R; [discriminate|]. apply c_sub_inv in H. destruct H as (a & body & Ha & F & ->).
    assert (CC : forall c, is_child s n c -> exists st, st ∈ body /\ c_child s (c_sub s f) c = Ok st).
    { intros c Hc. apply elem_of_kids, elem_of_sorted in Hc. destruct (elem_of_list_lookup_1 _ _ Hc) as [i Hi]. destruct (Forall2_lookup_l _ _ _ _ _ F Hi) as (st & Hst & X).
      exists st. split; [eapply elem_of_list_lookup_2; exact Hst|exact X]. }
    assert (IN : forall x st, st ∈ body -> x ∈ st_names st -> x ∈ sub_names (Ast.SubGraph n (map Ast.SAttr (in_order a) ++ body))).
    { intros x st H1 H2. rewrite sub_names_eq, marks_app, marks_attrs. assert (x ∈ marks body) by (apply elem_of_marks; eauto). set_solver. }
    apply rtc_inv in R. destruct R as [<-|(c & (N1 & N2 & N3) & R)].
    - split; [rewrite sub_names_eq; set_solver|]. intros c Hc. destruct (CC c Hc) as (st & H1 & H2). apply (IN c st H1). unfold c_child in H2.
      destruct (s_nodes s !! c); [injection H2 as <-; cbn; set_solver|]. destruct (s_subs s !! c); [|discriminate].
      destruct (c_sub s f c) as [t|e| |] eqn:Et; cbn in H2; try discriminate. injection H2 as <-. cbn [st_names]. apply (proj1 (IH c t Et c (rtc_refl _ _))).
    - destruct (CC c N1) as (st & H1 & H2). unfold c_child in H2. destruct (s_nodes s !! c) eqn:En; [destruct N3; unfold s_is_node; rewrite En; eauto|].
      destruct (s_subs s !! c); [|discriminate]. destruct (c_sub s f c) as [t|e| |] eqn:Et; cbn in H2; try discriminate. injection H2 as <-.
      destruct (IH c t Et m R) as [K1 K2]. split; [eapply IN; eassumption|]. intros x Hx. eapply IN; [exact H1|]. apply K2. exact Hx.
  Qed.
End Marks.

(** ** The graph read back *)
Section Back.
  Variable s : sgraph.
  Hypothesis T : tidy s.
  Variables (f : nat) (es : list edge) (a : Ast.graph) (l : list call).
  Hypothesis P : es ≡ₚ s_edges s.
  Variables (el : list Ast.stmt) (tops ns : list gostr) (ts : list Ast.subgraph).
  Hypothesis Ea : a = Ast.Graph (s_directed s) (s_strict s) (s_name s)
          (map Ast.SAttr (in_order (s_attrs s)) ++ el ++ map Ast.SSub ts ++ map (fun n => c_node n (default ∅ (s_nodes s !! n))) ns).
  Hypothesis Fe : Forall2 (fun e st => c_edge s f e = Ok st) es el.
  Hypothesis Ft : Forall2 (fun n t => c_sub s f n = Ok t) tops ts.
  Hypothesis Ht : forall n, n ∈ tops -> is_child s (s_name s) n /\ s_is_sub s n /\ n ∉ marks el.
  Hypothesis Hm : forall n, s_is_sub s n -> is_child s (s_name s) n -> n ∈ marks (el ++ map Ast.SSub ts).
  Hypothesis Hn : ns = filter (fun n => n ∉ marks (el ++ map Ast.SSub ts)) (sorted (dom (s_nodes s))).
  Hypothesis B : body_calls (Ast.g_id a) ∅ ∅ [] (Ast.g_stmts a) l.
  Notation root := (s_name s).

  Lemma end_endpoint e n port : e ∈ es -> end_of e n port -> endpoint s n port.
  Proof. intros H E. exists e. rewrite <- P. split; [exact H|exact E]. Qed.
  Lemma endpoint_end n port : endpoint s n port -> exists e, e ∈ es /\ end_of e n port.
  Proof. intros (e & H & E). rewrite <- P in H. eauto. Qed.
  Lemma plain_node e n port : e ∈ es -> end_of e n port -> plain_end s n -> s_is_node s n.
  Proof.
    intros H E [N|C]; [exact N|]. destruct (t_ends s T n port (end_endpoint e n port H E)) as [[N _]|(_ & N & _)]; [exact N|contradiction].
  Qed.
  Lemma node_plain e n port : e ∈ es -> end_of e n port -> s_is_node s n -> plain_end s n.
  Proof. intros _ _ N. left. exact N. Qed.
  Lemma sub_sub_end e n port : e ∈ es -> end_of e n port -> s_is_sub s n -> sub_end s n.
  Proof.
    intros H E S. destruct (t_ends s T n port (end_endpoint e n port H E)) as [[N _]|(_ & N & _)]; [destruct (t_apart s T n N S)|].
    split; [exact S|]. split; [|exact N]. intros N'. exact (t_apart s T n N' S).
  Qed.

  Definition begins (n : gostr) : Prop := n ∈ tops \/ exists e port, e ∈ es /\ end_of e n port /\ sub_end s n.
  Lemma begins_sub n : begins n -> s_is_sub s n.
  Proof. intros [H|(e & port & _ & _ & H)]; [apply Ht; exact H|apply H]. Qed.
  Lemma begins_marks n : begins n -> exists t, c_sub s f n = Ok t /\ forall m, m ∈ sub_names t -> m ∈ marks (el ++ map Ast.SSub ts).
  Proof.
    intros [H|(e & port & H & E & S)].
    - destruct (elem_of_list_lookup_1 _ _ H) as [i Hi]. destruct (Forall2_lookup_l _ _ _ _ _ Ft Hi) as (t & Hi' & X). exists t. split; [exact X|].
      intros m M. rewrite marks_app, elem_of_union. right. apply elem_of_marks. exists (Ast.SSub t). split; [|exact M]. apply elem_of_list_fmap. eexists. split; [reflexivity|].
      eapply elem_of_list_lookup_2; exact Hi'.
    - destruct (elem_of_list_lookup_1 _ _ H) as [i Hi]. destruct (Forall2_lookup_l _ _ _ _ _ Fe Hi) as (st & Hi' & X).
      assert (NP : plain_end s n -> False) by (unfold plain_end, sub_end in *; tauto).
      unfold c_edge in X. destruct (c_end s f (e_src e) (e_src_port e)) as [l1|x| |] eqn:E1; cbn [bind] in X; try discriminate.
      destruct (c_end s f (e_dst e) (e_dst_port e)) as [l2|x| |] eqn:E2; cbn [bind] in X; try discriminate. injection X as <-.
      apply c_end_inv in E1, E2. destruct E1 as (C1 & _), E2 as (C2 & _).
      assert (G : exists t, c_sub s f n = Ok t /\ (l1 = Ast.LSub t \/ l2 = Ast.LSub t)).
      { destruct E as [(-> & ->)|(-> & ->)]; [destruct C1 as [(K & _)|(_ & t & -> & K)]|destruct C2 as [(K & _)|(_ & t & -> & K)]]; try contradiction; eauto. }
      destruct G as (t & Gt & G). exists t. split; [exact Gt|]. intros m M. rewrite marks_app, elem_of_union. left. apply elem_of_marks.
      eexists. split; [eapply elem_of_list_lookup_2; exact Hi'|]. cbn. destruct G as [-> | ->]; cbn [loc_names rh_names]; rewrite !elem_of_union; auto.
  Qed.
  Lemma marks_begins m : m ∈ marks (el ++ map Ast.SSub ts) -> exists n, begins n /\
    (rtc (nested s) n m \/ exists p, rtc (nested s) n p /\ is_child s p m /\ s_is_node s m).
  Proof.
    clear T P Ea Ht Hm Hn B a l ns. intros M. rewrite marks_app, elem_of_union in M. destruct M as [M|M]; apply elem_of_marks in M; destruct M as (st & M1 & M2).
    - destruct (elem_of_list_lookup_1 _ _ M1) as [i Hi]. destruct (Forall2_lookup_r _ _ _ _ _ Fe Hi) as (e & Hi' & X).
      apply elem_of_list_lookup_2 in Hi'.
      unfold c_edge in X. destruct (c_end s f (e_src e) (e_src_port e)) as [l1|x| |] eqn:E1; cbn [bind] in X; try discriminate.
      destruct (c_end s f (e_dst e) (e_dst_port e)) as [l2|x| |] eqn:E2; cbn [bind] in X; try discriminate. injection X as <-.
      apply c_end_inv in E1, E2. destruct E1 as (C1 & _), E2 as (C2 & _). cbn in M2. rewrite !elem_of_union in M2.
      destruct M2 as [M2|[M2|M2]]; [| |set_solver].
      + destruct C1 as [(_ & i0 & -> & _)|(K & t & -> & Kt)]; [cbn in M2; set_solver|]. exists (e_src e). split; [right; exists e, (e_src_port e); unfold end_of; auto|].
        eapply sub_marks_sound; eassumption.
      + destruct C2 as [(_ & i0 & -> & _)|(K & t & -> & Kt)]; [cbn in M2; set_solver|]. exists (e_dst e). split; [right; exists e, (e_dst_port e); unfold end_of; auto|].
        eapply sub_marks_sound; eassumption.
    - apply elem_of_list_fmap in M1. destruct M1 as (t & -> & M1). destruct (elem_of_list_lookup_1 _ _ M1) as [i Hi]. destruct (Forall2_lookup_r _ _ _ _ _ Ft Hi) as (n & Hi' & X).
      exists n. split; [left; eapply elem_of_list_lookup_2; exact Hi'|]. eapply sub_marks_sound; eassumption.
  Qed.
  Lemma rtc_sub n m : s_is_sub s n -> rtc (nested s) n m -> s_is_sub s m.
  Proof. intros S R. induction R as [n|n p m (_ & K & _) _ IH]; auto. Qed.

  (** Every subgraph is reached. *)
  Lemma reached m : s_is_sub s m -> exists n, begins n /\ rtc (nested s) n m.
  Proof.
    intros S. destruct (t_written s T m S) as (r & St & R).
    assert (G : exists n, begins n /\ rtc (nested s) n r).
    { destruct St as [Hc Sr|port E Sr N C].
      - destruct (marks_begins r (Hm r Sr Hc)) as (n & Bn & [K|(p & _ & _ & K)]); [eauto|]. destruct (t_apart s T r K Sr).
      - exists r. split; [|apply rtc_refl]. destruct (endpoint_end r port E) as (e & H1 & H2). right. exists e, port. split; [exact H1|]. split; [exact H2|]. split; auto. }
    destruct G as (n & Bn & K). exists n. split; [exact Bn|]. etrans; eassumption.
  Qed.

  Lemma all_calls : (forall x, x ∈ l -> says s es tops ns x) /\
    (forall x, says s es tops ns x -> x ∈ l \/ exists e n port, e ∈ es /\ end_of e n port /\ plain_end s n /\ x = CAddNode root n ∅) /\
    (forall e n port, e ∈ es -> end_of e n port -> plain_end s n -> adds root n l).
  Proof. rewrite Ea in B. cbn in B. eapply write_calls; eassumption. Qed.

  Lemma begins_says n x : begins n -> sub_says s root n x -> says s es tops ns x.
  Proof. intros [H|(e & port & H & E & S)] K; [eapply Says_top|eapply Says_sub_end]; eassumption. Qed.
  Lemma local_in m x : s_is_sub s m -> local s m x -> x ∈ l.
  Proof.
    intros S L. destruct (reached m S) as (n & Bn & R). destruct all_calls as (_ & A & _).
    destruct (A x) as [K|(e & n' & port & _ & _ & _ & ->)]; [eapply begins_says; [exact Bn|right; eauto]|exact K|].
    exfalso. destruct L as [(b & k & v & _ & _ & [=])|[(c & b & Hc & Hb & [= E _ _])|(c & _ & [=])]]. apply (t_root s T). rewrite E. exact S.
  Qed.
  Lemma sub_says_open n : begins n -> CAddSubGraph root n ∅ ∈ l.
  Proof.
    intros Bn. destruct all_calls as (_ & A & _). destruct (A (CAddSubGraph root n ∅)) as [K|(e & n' & port & _ & _ & _ & [=])]; [|exact K].
    eapply begins_says; [exact Bn|left; reflexivity].
  Qed.
  Lemma opened m : s_is_sub s m -> exists p, CAddSubGraph p m ∅ ∈ l.
  Proof.
    intros S. destruct (reached m S) as (n & Bn & R). apply rtc_inv_r in R. destruct R as [->|(p & R & N)]; [eauto using sub_says_open|].
    exists p. apply (local_in p); [eapply rtc_sub; [apply begins_sub; exact Bn|exact R]|]. right. right. eauto.
  Qed.

  (** What each kind of call says. *)
  Lemma sub_says_cases n x : begins n -> sub_says s root n x -> x = CAddSubGraph root n ∅ \/ exists m, s_is_sub s m /\ m <> root /\ local s m x.
  Proof.
    intros Bn [->|(m & R & L)]; [auto|]. right. exists m. assert (S : s_is_sub s m) by (eapply rtc_sub; [apply begins_sub; exact Bn|exact R]).
    split; [exact S|]. split; [|exact L]. intros ->. exact (t_root s T S).
  Qed.
  Lemma call_cases x : x ∈ l ->
    (exists k v, s_attrs s !! k = Some v /\ x = CAddAttr root k v) \/
    (exists e, e ∈ es /\ x = edge_back e) \/
    (exists n port, endpoint s n port /\ s_is_node s n /\ x = CAddNode root n ∅) \/
    (exists n, begins n /\ x = CAddSubGraph root n ∅) \/
    (exists m, s_is_sub s m /\ m <> root /\ local s m x) \/
    (exists n b, n ∉ marks (el ++ map Ast.SSub ts) /\ s_nodes s !! n = Some b /\ x = CAddNode root n b).
  Proof.
    intros X. apply all_calls in X. destruct X as [k v X ->|e X ->|e n port X Y Z ->|e n port X Y Z W|n X Y|n X ->].
    - eauto.
    - eauto.
    - right. right. left. exists n, port. split; [eapply end_endpoint; eassumption|]. split; [eapply plain_node; eassumption|reflexivity].
    - assert (Bn : begins n) by (right; eauto). destruct (sub_says_cases n x Bn W) as [->|(m & K)]; [|eauto 8]. eauto 8.
    - assert (Bn : begins n) by (left; exact X). destruct (sub_says_cases n x Bn Y) as [->|(m & K)]; eauto 8.
    - rewrite Hn in X. apply elem_of_list_filter in X. destruct X as [X1 X2]. apply elem_of_sorted, elem_of_dom in X2. destruct X2 as [b Hb].
      do 5 right. exists n, b. rewrite Hb. auto.
  Qed.
  Lemma node_call p n m : CAddNode p n m ∈ l ->
    s_is_node s n /\ (m = ∅ \/ s_nodes s !! n = Some m) /\
    ((p = root /\ ((exists port, endpoint s n port) \/ n ∉ marks (el ++ map Ast.SSub ts))) \/ (s_is_sub s p /\ is_child s p n)).
  Proof.
    intros X. apply call_cases in X. destruct X as [(k & v & _ & [=])|[(e & _ & [=])|[(n' & port & X & Y & [= -> -> ->])|[(n' & _ & [=])|[(q & S & D & L)|(n' & b & X & Y & [= -> -> ->])]]]]].
    - split; [exact Y|]. split; [auto|]. left. eauto.
    - destruct L as [(b & k & v & _ & _ & [=])|[(c & b & Hc & Hb & [= -> -> ->])|(c & _ & [=])]].
      split; [unfold s_is_node; rewrite Hb; eauto|]. split; [auto|]. right. auto.
    - split; [unfold s_is_node; rewrite Y; eauto|]. split; [auto|]. left. auto.
  Qed.
  Lemma sub_call p n m : CAddSubGraph p n m ∈ l -> s_is_sub s n /\ m = ∅ /\ ((p = root /\ begins n) \/ (s_is_sub s p /\ is_child s p n)).
  Proof.
    intros X. apply call_cases in X. destruct X as [(k & v & _ & [=])|[(e & _ & [=])|[(n' & port & X & Y & [=])|[(n' & Bn & [= -> -> ->])|[(q & S & D & L)|(n' & b & X & Y & [=])]]]]].
    - split; [apply begins_sub; exact Bn|]. auto.
    - destruct L as [(b & k & v & _ & _ & [=])|[(c & b & Hc & Hb & [=])|(c & (N1 & N2 & N3) & [= -> -> ->])]]. auto.
  Qed.
  Lemma attr_call n k v : CAddAttr n k v ∈ l <-> (n = root /\ s_attrs s !! k = Some v) \/ exists b, s_subs s !! n = Some b /\ b !! k = Some v.
  Proof.
    split.
    - intros X. apply call_cases in X. destruct X as [(k' & v' & X & [= -> -> ->])|[(e & _ & [=])|[(n' & port & X & Y & [=])|[(n' & Bn & [=])|[(q & S & D & L)|(n' & b & X & Y & [=])]]]]]; [auto|].
      destruct L as [(b & k' & v' & X & Y & [= -> -> ->])|[(c & b & Hc & Hb & [=])|(c & _ & [=])]]. right. eauto.
    - intros [(-> & X)|(b & X & Y)].
      + destruct all_calls as (_ & A & _). destruct (A (CAddAttr root k v)) as [K|(e & n' & port & _ & _ & _ & [=])]; [eapply Says_attr; eauto|exact K].
      + apply (local_in n); [unfold s_is_sub; rewrite X; eauto|]. left. eauto 6.
  Qed.
  Lemma node_listed n b : s_nodes s !! n = Some b -> exists p, CAddNode p n b ∈ l.
  Proof.
    intros Hb. assert (S : s_is_node s n) by (unfold s_is_node; rewrite Hb; eauto).
    destruct (decide (n ∈ marks (el ++ map Ast.SSub ts))) as [M|M].
    - destruct (marks_begins n M) as (r & Bn & [R|(p & R & K & _)]).
      + destruct (t_apart s T n S (rtc_sub r n (begins_sub r Bn) R)).
      + exists p. apply (local_in p); [eapply rtc_sub; [apply begins_sub; exact Bn|exact R]|]. right. left. eauto.
    - exists root. destruct all_calls as (_ & A & _). destruct (A (CAddNode root n b)) as [K|(e & n' & port & H1 & H2 & H3 & [= <- ->])]; [|exact K|].
      + eapply Says_node; [rewrite Hn; apply elem_of_list_filter; split; [exact M|apply elem_of_sorted, elem_of_dom; exact S]|]. rewrite Hb. reflexivity.
      + destruct all_calls as (A1 & A2 & A3). 
        assert (In : n ∈ ns) by (rewrite Hn; apply elem_of_list_filter; split; [exact M|apply elem_of_sorted, elem_of_dom; exact S]).
        rewrite Ea in B. cbn in B. pose proof B as B'. rewrite !app_assoc in B'. apply body_app in B'. destruct B' as (la & lb & -> & _ & B4).
        apply elem_of_app. right. eapply nodes_calls; [|exact B4|].
        * rewrite !app_assoc. apply Forall_app. split; [apply Forall_app; split; [apply quiet_attrs|eapply edges_quiet; exact Fe]|apply quiet_map_sub].
        * exists n. split; [exact In|]. rewrite Hb. reflexivity.
  Qed.

  (** The result. *)
  Notation s' := (fold_left s_build l (s_start a)).
  Lemma parent_marked p n : s_is_sub s p -> is_child s p n -> n ∈ marks (el ++ map Ast.SSub ts).
  Proof.
    intros S C. destruct (reached p S) as (r & Bn & R). destruct (begins_marks r Bn) as (t & Ht' & M). apply M.
    exact (proj2 (sub_marks_complete s f r t Ht' p R) n C).
  Qed.
  Lemma back_same : same_graph s s'.
  Proof.
    pose proof (builds_content l (s_start a) (start_listed a)) as C. cbn in C. specialize (C eq_refl).
    destruct C as (C1 & C2 & C3 & C4 & C5 & C6 & C7 & C8).
    assert (ER : Ast.g_id a = root) by (rewrite Ea; reflexivity).
    assert (CH : forall p n, is_child s' p n <-> exists c, c ∈ l /\ relates p n c).
    { intros p n. rewrite C8. split; [intros [K|K]; [unfold is_child in K; cbn in K; set_solver|exact K]|auto]. }
    pose proof (body_wp _ _ _ _ _ _ B [Ast.g_id a] ltac:(apply elem_of_list_singleton; reflexivity)) as W.
    assert (SB : forall n, s_is_sub s' n <-> exists c, c ∈ l /\ opens n c).
    { intros n. rewrite (builds_subs l (s_start a) [Ast.g_id a] W).
      - split; [intros [[x K]|K]; [cbn in K; rewrite lookup_empty in K; discriminate|exact K]|auto].
      - intros x K. apply elem_of_list_singleton in K. subst. left. reflexivity. }
    assert (SI : forall n, s_is_sub s' n <-> s_is_sub s n).
    { intros n. rewrite SB. split.
      - intros (c & K & p & m & ->). apply sub_call in K. tauto.
      - intros K. destruct (opened n K) as [p K']. eexists. split; [exact K'|]. eexists _, _. reflexivity. }
    split.
    - rewrite builds_name. exact ER.
    - rewrite C1, Ea. reflexivity.
    - rewrite C2, Ea. reflexivity.
    - rewrite C5, ER. apply (attrs_result_is l root (s_attrs s)).
      + intros p m K. apply sub_call in K. tauto.
      + intros k v. rewrite attr_call. split; [|auto]. intros [[_ K]|(b & K & _)]; [exact K|]. destruct (t_root s T). unfold s_is_sub. rewrite K. eauto.
    - apply map_eq. intros n. rewrite C3. cbn. rewrite lookup_empty. destruct (s_nodes s !! n) as [b|] eqn:En.
      + apply (node_result_some l n b); [|apply node_listed; exact En]. intros p m K. apply node_call in K. destruct K as (_ & [->|K] & _); [auto|]. right. congruence.
      + apply (node_result_none l n). intros p m K. apply node_call in K. destruct K as ([x K] & _). congruence.
    - apply map_eq. intros n. destruct (s_subs s !! n) as [b|] eqn:Es.
      + assert (S : s_is_sub s n) by (unfold s_is_sub; rewrite Es; eauto). assert (D : n <> root) by (intros ->; exact (t_root s T S)).
        pose proof (proj2 (SI n) S) as [b' Hb']. rewrite Hb'. rewrite <- ER in D. specialize (C6 n D). rewrite Hb' in C6. cbn in C6. rewrite lookup_empty in C6. cbn in C6.
        f_equal. rewrite C6. apply (attrs_result_is l n b).
        * intros p m K. apply sub_call in K. tauto.
        * intros k v. rewrite attr_call. rewrite ER in D. split; [|eauto]. intros [[K _]|(b'' & K & K')]; congruence.
      + destruct (s_subs s' !! n) as [b'|] eqn:E'; [|reflexivity]. assert (S : s_is_sub s n) by (apply SI; unfold s_is_sub; rewrite E'; eauto).
        destruct S as [x S]. congruence.
    - rewrite builds_edges by (eapply body_builds; exact B). cbn [s_start s_edges app].
      rewrite (body_edges_ok _ _ _ _ _ _ B). cbn [edge_defaults]. rewrite Ea. cbn [Ast.g_stmts].
      rewrite (write_edges s f es el tops ts ns Fe Ft), <- P. match goal with |- ?x ≡ₚ ?y => assert (EE : x = y); [|rewrite EE; reflexivity] end. apply map_ext_in. intros e He. apply elem_of_list_In in He.
      apply back_good.
      + destruct (t_ends s T (e_src e) (e_src_port e)) as [[_ G]|(_ & _ & ->)]; [eapply end_endpoint; [exact He|left; auto]|exact G|left; reflexivity].
      + destruct (t_ends s T (e_dst e) (e_dst_port e)) as [[_ G]|(_ & _ & ->)]; [eapply end_endpoint; [exact He|right; auto]|exact G|left; reflexivity].
    - intros p c S. assert (D : p <> root) by (intros ->; exact (t_root s T S)). rewrite CH. split.
      + intros (x & K & m & [->| ->]); [apply node_call in K|apply sub_call in K]; destruct K as (_ & _ & [[K _]|[_ K]]); try contradiction; exact K.
      + intros K. destruct (t_children s T p c S K) as [N|N].
        * destruct N as [b Hb]. exists (CAddNode p c b). split; [|eexists; left; reflexivity]. apply (local_in p); [exact S|]. right. left. eauto.
        * exists (CAddSubGraph p c ∅). split; [|eexists; right; reflexivity]. apply (local_in p); [exact S|]. right. right. exists c. split; [|reflexivity].
          split; [exact K|]. split; [exact N|]. intros N'. exact (t_apart s T c N' N).
    - intros p c K. apply CH in K. destruct K as (x & K & m & [->| ->]); [apply node_call in K|apply sub_call in K]; destruct K as (_ & _ & [[K _]|[K _]]); auto.
    - intros n N. rewrite CH. split.
      + intros (x & K & m & [->| ->]).
        * apply node_call in K. destruct K as (_ & _ & [[_ [K|K]]|[K _]]); [auto| |destruct (t_root s T K)].
          right. intros p S C. apply K. eapply parent_marked; eassumption.
        * apply sub_call in K. destruct K as (K & _). destruct (t_apart s T n N K).
      + intros [(port & E)|K].
        * destruct (endpoint_end n port E) as (e & H1 & H2). destruct all_calls as (_ & _ & A). destruct (A e n port H1 H2 (or_introl N)) as [m K].
          eexists. split; [exact K|]. eexists. left. reflexivity.
        * destruct N as [b Hb]. destruct (node_listed n b Hb) as [p Kp]. pose proof Kp as Kp'. apply node_call in Kp'. destruct Kp' as (_ & _ & [[-> _]|[S C]]); [|destruct (K p S C)].
          eexists. split; [exact Kp|]. eexists. left. reflexivity.
    - intros n S. split; [|split].
      + intros (port & E). destruct (endpoint_end n port E) as (e & H1 & H2). apply CH. exists (CAddSubGraph root n ∅). split; [|eexists; right; reflexivity].
        apply sub_says_open. right. exists e, port. split; [exact H1|]. split; [exact H2|]. eapply sub_sub_end; eassumption.
      + intros K. apply CH in K. destruct K as (x & K & m & [->| ->]).
        * apply node_call in K. destruct K as (K & _). destruct (t_apart s T n K S).
        * apply sub_call in K. destruct K as (_ & _ & [[_ [K|(e & port & H1 & H2 & _)]]|[K _]]); [left; apply Ht; exact K| |destruct (t_root s T K)].
          right. exists port. eapply end_endpoint; eassumption.
      + intros K. destruct (marks_begins n (Hm n S K)) as (r & Bn & [R|(p & _ & _ & N)]); [|destruct (t_apart s T n N S)].
        apply rtc_inv_r in R. destruct R as [->|(p & R & (N & _))].
        * left. apply CH. exists (CAddSubGraph root n ∅). split; [apply sub_says_open; exact Bn|]. eexists. right. reflexivity.
        * right. exists p. split; [eapply rtc_sub; [apply begins_sub; exact Bn|exact R]|exact N].
  Qed.
  (** For the normal form: which subgraphs the main graph contains directly. *)
  Lemma back_top n : s_is_sub s n -> is_child s' root n -> n ∈ tops \/ n ∈ marks el.
  Proof.
    intros S K. pose proof (builds_content l (s_start a) (start_listed a)) as C. cbn in C. specialize (C eq_refl).
    destruct C as (_ & _ & _ & _ & _ & _ & _ & C8). apply C8 in K. destruct K as [K|K]; [unfold is_child in K; cbn in K; set_solver|].
    destruct K as (x & K & m & [->| ->]).
    - apply node_call in K. destruct K as (K & _). destruct (t_apart s T n K S).
    - apply sub_call in K. destruct K as (_ & _ & [[_ [K|(e & port & H1 & H2 & K)]]|[K _]]); [auto| |destruct (t_root s T K)].
      right. destruct (elem_of_list_lookup_1 _ _ H1) as [i Hi]. destruct (Forall2_lookup_l _ _ _ _ _ Fe Hi) as (st & Hi' & X).
      assert (NP : plain_end s n -> False) by (unfold plain_end, sub_end in *; tauto).
      unfold c_edge in X. destruct (c_end s f (e_src e) (e_src_port e)) as [l1|x| |] eqn:E1; cbn [bind] in X; try discriminate.
      destruct (c_end s f (e_dst e) (e_dst_port e)) as [l2|x| |] eqn:E2; cbn [bind] in X; try discriminate. injection X as <-.
      apply c_end_inv in E1, E2. destruct E1 as (C1 & _), E2 as (C2 & _).
      apply elem_of_marks. eexists. split; [eapply elem_of_list_lookup_2; exact Hi'|]. cbn. rewrite !elem_of_union.
      destruct H2 as [(-> & ->)|(-> & ->)]; [destruct C1 as [(C & _)|(_ & t & -> & Ct)]|destruct C2 as [(C & _)|(_ & t & -> & Ct)]]; try contradiction; cbn [loc_names rh_names];
        [left|right; left]; apply (proj1 (sub_marks_complete s f _ t Ct _ (rtc_refl _ _))).
  Qed.
  Lemma back_ok : (forall m k v, holds_attrs s m -> m !! k = Some v -> valid_attr k) -> Forall call_ok l.
  Proof.
    intros V. apply Forall_forall. intros x X key U. apply call_cases in X.
    destruct X as [(k & v & X & ->)|[(e & X & ->)|[(n & port & X & Y & ->)|[(n & Bn & ->)|[(q & S & D & L)|(n & b & X & Y & ->)]]]]]; cbn in U.
    - subst. eapply V; [apply Ha_graph|exact X].
    - destruct U as [v U]. eapply V; [apply (Ha_edge s e); rewrite <- P; exact X|exact U].
    - rewrite lookup_empty in U. destruct U; discriminate.
    - rewrite lookup_empty in U. destruct U; discriminate.
    - destruct L as [(b & k' & v' & X & Y & ->)|[(c & b & Hc & Hb & ->)|(c & _ & ->)]]; cbn in U.
      + subst. eapply V; [apply (Ha_sub s q b X)|exact Y].
      + destruct U as [v U]. eapply V; [apply (Ha_node s c b Hb)|exact U].
      + rewrite lookup_empty in U. destruct U; discriminate.
    - destruct U as [v U]. eapply V; [apply (Ha_node s n b Y)|exact U].
  Qed.
  Lemma top_back n : n ∈ tops -> is_child s' root n.
  Proof.
    intros K. pose proof (builds_content l (s_start a) (start_listed a)) as C. cbn in C. specialize (C eq_refl).
    destruct C as (_ & _ & _ & _ & _ & _ & _ & C8). apply C8. right. exists (CAddSubGraph root n ∅). split; [apply sub_says_open; left; exact K|]. eexists. right. reflexivity.
  Qed.
End Back.
