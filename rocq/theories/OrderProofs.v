(** Proofs for C63. *)
From Verif Require Import Base Parser Maps Graph SpecGraph Analyse SpecAnalyse SpecOrder MapFacts GraphProofs AnalyseProofs ReadProofs.
From Verif Require Ast.

(** ** What a successful run builds, in terms of what was said *)
Definition node_get (s : sgraph) (n k : gostr) : option gostr := default ∅ (s_nodes s !! n) !! k.
Definition sub_get (s : sgraph) (n k : gostr) : option gostr := default ∅ (s_subs s !! n) !! k.
Record outcome (s : sgraph) (cs : list call) (s' : sgraph) : Prop := Outcome {
  oc_name : s_name s' = s_name s;
  oc_node : forall n, s_is_node s' n <-> s_is_node s n \/ said cs (FNode n);
  oc_nattr : forall n k v, node_get s' n k = Some v <->
    said cs (FNodeAttr n k v) \/ ((forall w, ~ said cs (FNodeAttr n k w)) /\ node_get s n k = Some v);
  oc_sub : forall n, s_is_sub s' n <-> s_is_sub s n \/ said cs (FSub n);
  oc_sattr : forall n k v, n <> s_name s -> sub_get s' n k = Some v <->
    said cs (FGraphAttr n k v) \/ ((forall w, ~ said cs (FGraphAttr n k w)) /\ sub_get s n k = Some v);
  oc_own : forall k, sub_get s' (s_name s) k = sub_get s (s_name s) k;
  oc_attr : forall k v, s_attrs s' !! k = Some v <->
    said cs (FGraphAttr (s_name s) k v) \/ ((forall w, ~ said cs (FGraphAttr (s_name s) k w)) /\ s_attrs s !! k = Some v);
  oc_child : forall p n, is_child s' p n <-> is_child s p n \/ said cs (FChild p n);
  oc_edges : s_edges s' = s_edges s ++ edges_result cs;
  oc_strict : forall b, s_strict s' = b <-> said cs (FStrict b) \/ ((forall b', ~ said cs (FStrict b')) /\ s_strict s = b);
  oc_dir : forall b, s_directed s' = b <-> said cs (FDirected b) \/ ((forall b', ~ said cs (FDirected b')) /\ s_directed s = b) }.

Lemma said_nil f : ~ said [] f.
Proof. intros (c & H & _). inversion H. Qed.
Lemma said_cons c cs f : said (c :: cs) f <-> states c f \/ said cs f.
Proof.
  unfold said. setoid_rewrite elem_of_cons. split.
  - intros (c' & [->|H] & S); [left; exact S|right; eauto].
  - intros [S|(c' & H & S)]; eauto.
Qed.
Lemma said_app cs cs' f : said (cs ++ cs') f <-> said cs f \/ said cs' f.
Proof. unfold said. setoid_rewrite elem_of_app. naive_solver. Qed.
Lemma outcome_nil s : outcome s [] s.
Proof.
  constructor; intros; pose proof said_nil; try (split; [|intros [H'|H']]; naive_solver); try reflexivity.
  cbn. rewrite app_nil_r. reflexivity.
Qed.
(** One step, then the rest. *)
Lemma step_slot {A} (c : call) (cs : list call) (slot : A -> fact) (inj : forall w w', clash (slot w) (slot w') <-> w <> w')
  (Deq : forall w w' : A, {w = w'} + {w <> w'}) (P0 P1 P2 : A -> Prop) :
  consistent (c :: cs) ->
  (forall v, P1 v <-> states c (slot v) \/ ((forall w, ~ states c (slot w)) /\ P0 v)) ->
  (forall v, P2 v <-> said cs (slot v) \/ ((forall w, ~ said cs (slot w)) /\ P1 v)) ->
  ((exists w, states c (slot w)) \/ (forall w, ~ states c (slot w))) ->
  ((exists w, said cs (slot w)) \/ (forall w, ~ said cs (slot w))) ->
  forall v, P2 v <-> said (c :: cs) (slot v) \/ ((forall w, ~ said (c :: cs) (slot w)) /\ P0 v).
Proof.
  intros C H1 H2 D1 D2 v. setoid_rewrite said_cons. rewrite H2, H1.
  assert (CC : forall w w', states c (slot w) -> said cs (slot w') -> w = w').
  { intros w w' A1 A2. destruct (Deq w w') as [E|N]; [exact E|]. exfalso.
    apply (C (slot w) (slot w')); [apply said_cons; auto|apply said_cons; auto|]. apply inj. exact N. }
  split.
  - intros [H|(N & [H|(N' & H)])]; [auto|auto|]. right. split; [|exact H]. intros w [X|X]; [exact (N' w X)|exact (N w X)].
  - intros [[H|H]|(N & H)]; [|auto|].
    + destruct D2 as [(w & Hw)|N]; [|right; auto]. left. rewrite (CC _ _ H Hw). exact Hw.
    + right. split; [intros w X; apply (N w); auto|]. right. split; [intros w X; apply (N w); auto|exact H].
Qed.
Lemma said_one c f : said [c] f <-> states c f.
Proof. rewrite said_cons. split; [intros [H|H]; [exact H|destruct (said_nil _ H)]|auto]. Qed.
Lemma states_slot_dec c : (forall n k, (exists w, states c (FNodeAttr n k w)) \/ (forall w, ~ states c (FNodeAttr n k w))) /\
  (forall n k, (exists w, states c (FGraphAttr n k w)) \/ (forall w, ~ states c (FGraphAttr n k w))) /\
  ((exists w, states c (FStrict w)) \/ (forall w, ~ states c (FStrict w))) /\ ((exists w, states c (FDirected w)) \/ (forall w, ~ states c (FDirected w))).
Proof.
  repeat split; intros; destruct c; cbn; try (right; intros w H; naive_solver); try (left; eexists; reflexivity).
  - destruct (decide (name = n)) as [->|D]; [|right; naive_solver]. destruct (m !! k) as [v|] eqn:E; [left; exists v; eauto 10|right; naive_solver].
  - destruct (decide (parent = n /\ field = k)) as [[-> ->]|D]; [left; eauto|right; naive_solver].
  - destruct (decide (name = n)) as [->|D]; [|right; naive_solver]. destruct (m !! k) as [v|] eqn:E; [left; exists v; eauto 10|right; naive_solver].
Qed.
Lemma said_slot_dec {A} (slot : A -> fact) : (forall c, (exists w, states c (slot w)) \/ (forall w, ~ states c (slot w))) ->
  forall cs, (exists w, said cs (slot w)) \/ (forall w, ~ said cs (slot w)).
Proof.
  intros D. induction cs as [|c cs [[w IH]|IH]].
  - right. intros w. apply said_nil.
  - left. exists w. apply said_cons. auto.
  - destruct (D c) as [[w H]|H]; [left; exists w; apply said_cons; auto|]. right. intros w X. apply said_cons in X. destruct X; naive_solver.
Qed.
Ltac dd D := intros; first [apply (proj1 (D _))|apply (proj1 (proj2 (D _)))|apply (proj1 (proj2 (proj2 (D _))))|apply (proj2 (proj2 (proj2 (D _))))].
Lemma outcome_cons c cs s s1 s2 : consistent (c :: cs) -> outcome s [c] s1 -> outcome s1 cs s2 -> outcome s (c :: cs) s2.
Proof.
  intros C [a1 a2 a3 a4 a5 a6 a7 a8 a9 a10 a11] [b1 b2 b3 b4 b5 b6 b7 b8 b9 b10 b11].
  assert (D := fun c => states_slot_dec c).
  constructor.
  - congruence.
  - intros n. rewrite b2, a2, said_one, said_cons. tauto.
  - intros n k. apply (step_slot c cs (FNodeAttr n k)) with (P1 := fun v => node_get s1 n k = Some v); try exact C.
    + cbn. intuition congruence.
    + intros; apply decide_rel, _.
    + intros v. rewrite a3. setoid_rewrite said_one. reflexivity.
    + exact (b3 n k).
    + dd D.
    + apply said_slot_dec. dd D.
  - intros n. rewrite b4, a4, said_one, said_cons. tauto.
  - intros n k v Hn. revert v. apply (step_slot c cs (FGraphAttr n k)) with (P1 := fun v => sub_get s1 n k = Some v); try exact C.
    + cbn. intuition congruence.
    + intros; apply decide_rel, _.
    + intros v. rewrite a5 by exact Hn. setoid_rewrite said_one. reflexivity.
    + intros v. apply b5. congruence.
    + dd D.
    + apply said_slot_dec. dd D.
  - intros k. rewrite <- a6. rewrite <- a1. apply b6.
  - intros k. apply (step_slot c cs (FGraphAttr (s_name s) k)) with (P1 := fun v => s_attrs s1 !! k = Some v); try exact C.
    + cbn. intuition congruence.
    + intros; apply decide_rel, _.
    + intros v. rewrite a7. setoid_rewrite said_one. reflexivity.
    + rewrite <- a1. exact (b7 k).
    + dd D.
    + apply said_slot_dec. dd D.
  - intros p n. rewrite b8, a8, said_one, said_cons. tauto.
  - rewrite b9, a9. rewrite <- app_assoc. f_equal. unfold edges_result. cbn. rewrite app_nil_r. reflexivity.
  - apply (step_slot c cs FStrict) with (P1 := fun v => s_strict s1 = v); try exact C.
    + cbn. reflexivity.
    + intros; apply decide_rel, _.
    + intros v. rewrite a10. setoid_rewrite said_one. reflexivity.
    + exact b10.
    + dd D.
    + apply said_slot_dec. dd D.
  - apply (step_slot c cs FDirected) with (P1 := fun v => s_directed s1 = v); try exact C.
    + cbn. reflexivity.
    + intros; apply decide_rel, _.
    + intros v. rewrite a11. setoid_rewrite said_one. reflexivity.
    + exact b11.
    + dd D.
    + apply said_slot_dec. dd D.
Qed.
Ltac plain_oc := constructor; cbn; intros; try setoid_rewrite said_one; cbn; try reflexivity; try (rewrite app_nil_r; reflexivity); try (split; [|intros [?|?]]; naive_solver).
Lemma outcome_put_attrs_get s n m n' k : n' <> s_name s -> sub_get (s_put_attrs s n m) n' k = if decide (n' = n) then (m ∪ default ∅ (s_subs s !! n)) !! k else sub_get s n' k.
Proof.
  intros N. unfold s_put_attrs, sub_get. destruct (decide (s_name s = n)) as [E|E].
  - cbn. rewrite decide_False by congruence. reflexivity.
  - cbn. destruct (decide (n' = n)) as [->|D]; [rewrite lookup_insert; reflexivity|rewrite lookup_insert_ne by congruence; reflexivity].
Qed.
Lemma union_get (m a : attrs) k v : (m ∪ a) !! k = Some v <-> m !! k = Some v \/ ((forall w, m !! k <> Some w) /\ a !! k = Some v).
Proof.
  rewrite lookup_union. destruct (m !! k) as [x|] eqn:E; destruct (a !! k) as [y|] eqn:E'; cbn; naive_solver.
Qed.
Lemma outcome_step c s s1 : spec_call c s s1 None -> only_adds c -> outcome s [c] s1.
Proof.
  intros H A. inversion H; subst; try (exact (False_ind _ A)); clear A H.
  - plain_oc.
  - plain_oc.
  - plain_oc.
  - plain_oc.
  - (* AddNode *)
    constructor; cbn; intros; try setoid_rewrite said_one; cbn; try reflexivity.
    + unfold s_is_node. cbn. rewrite lookup_insert_is_Some'. naive_solver.
    + unfold node_get. cbn. destruct (decide (n = n0)) as [->|D].
      * rewrite lookup_insert. cbn. rewrite union_get. naive_solver.
      * rewrite lookup_insert_ne by exact D. naive_solver.
    + naive_solver.
    + naive_solver.
    + naive_solver.
    + unfold is_child. cbn. rewrite elem_of_union, elem_of_singleton. naive_solver.
    + rewrite app_nil_r. reflexivity.
    + naive_solver.
    + naive_solver.
  - (* AddAttr *)
    constructor; intros; try setoid_rewrite said_one; cbn [states].
    + unfold s_put_attrs. destruct (decide _); reflexivity.
    + unfold s_put_attrs. destruct (decide _); cbn; naive_solver.
    + unfold s_put_attrs. destruct (decide _); cbn; naive_solver.
    + unfold s_put_attrs. destruct (decide (s_name s = n)) as [E|E]; [cbn; naive_solver|]. unfold s_is_sub in *. cbn. rewrite lookup_insert_is_Some'. naive_solver.
    + rewrite outcome_put_attrs_get by assumption. destruct (decide (n0 = n)) as [->|D]; [|naive_solver].
      rewrite union_get. unfold sub_get. setoid_rewrite lookup_singleton_Some. split; [|naive_solver].
      intros [[-> ->]|[N E]]; [left; reflexivity|]. right. split; [|exact E]. intros w [= E1 E2]. exact (N w (conj (eq_sym E1) (eq_sym E2))).
    + unfold sub_get, s_put_attrs. destruct (decide (s_name s = n)) as [E|E]; cbn; [reflexivity|]. rewrite lookup_insert_ne by congruence. reflexivity.
    + unfold s_put_attrs. destruct (decide (s_name s = n)) as [E|E]; cbn; [|naive_solver].
      rewrite union_get. setoid_rewrite lookup_singleton_Some. rewrite E. split; [|naive_solver].
      intros [[-> ->]|[N E']]; [left; reflexivity|]. right. split; [|exact E']. intros w [= E1 E2]. exact (N w (conj (eq_sym E1) (eq_sym E2))).
    + unfold s_put_attrs, is_child. destruct (decide _); cbn; naive_solver.
    + unfold s_put_attrs. destruct (decide _); cbn; rewrite app_nil_r; reflexivity.
    + unfold s_put_attrs. destruct (decide _); cbn; naive_solver.
    + unfold s_put_attrs. destruct (decide _); cbn; naive_solver.
  - (* AddSubGraph *)
    constructor; intros; try setoid_rewrite said_one; cbn [states].
    + unfold s_put_attrs. destruct (decide _); reflexivity.
    + unfold s_put_attrs. destruct (decide _); cbn; naive_solver.
    + unfold s_put_attrs. destruct (decide _); cbn; naive_solver.
    + unfold s_put_attrs. destruct (decide _); unfold s_is_sub; cbn; rewrite ?lookup_insert_is_Some'; naive_solver.
    + rewrite outcome_put_attrs_get by assumption. destruct (decide (n0 = n)) as [->|D].
      * cbn. rewrite lookup_insert. cbn. rewrite union_get. unfold sub_get. naive_solver.
      * unfold sub_get. cbn. rewrite lookup_insert_ne by congruence. naive_solver.
    + unfold sub_get, s_put_attrs. cbn. destruct (decide (s_name s = n)) as [E|E]; cbn.
      * rewrite <- E, lookup_insert. reflexivity.
      * rewrite !lookup_insert_ne by congruence. reflexivity.
    + unfold s_put_attrs. cbn. destruct (decide (s_name s = n)) as [E|E]; cbn; [|naive_solver].
      rewrite union_get. rewrite E. naive_solver.
    + unfold s_put_attrs, is_child. destruct (decide _); cbn; rewrite elem_of_union, elem_of_singleton; naive_solver.
    + unfold s_put_attrs. destruct (decide _); cbn; rewrite app_nil_r; reflexivity.
    + unfold s_put_attrs. destruct (decide _); cbn; naive_solver.
    + unfold s_put_attrs. destruct (decide _); cbn; naive_solver.
Qed.
Lemma consistent_tail c cs : consistent (c :: cs) -> consistent cs.
Proof. intros C f f' H H'. apply C; apply said_cons; auto. Qed.
Lemma outcome_run cs : forall s s' rs, consistent cs -> Forall only_adds cs -> spec_run cs s s' rs -> Forall (fun r => r = None) rs -> outcome s cs s'.
Proof.
  induction cs as [|c cs IH]; intros s s' rs C A R F; inversion R; subst; [apply outcome_nil|].
  inversion A; subst. inversion F; subst.
  eapply outcome_cons; [exact C|apply outcome_step; eassumption|]. eapply IH; [eapply consistent_tail, C|assumption|eassumption|assumption].
Qed.
(** ** Equal messages give equal contents *)
Lemma slot_ext (P : gostr -> Prop) (x y : option gostr) : (forall v, x = Some v <-> P v) -> (forall v, y = Some v <-> P v) -> x = y.
Proof. intros H H'. apply option_eq. intros v. rewrite H, H'. reflexivity. Qed.
Lemma maps_ext (m m' : gmap gostr attrs) : (forall n, is_Some (m !! n) <-> is_Some (m' !! n)) ->
  (forall n k, default ∅ (m !! n) !! k = default ∅ (m' !! n) !! k) -> m = m'.
Proof.
  intros H G. apply map_eq. intros n. specialize (H n). specialize (G n).
  destruct (m !! n) as [a|], (m' !! n) as [b|]; cbn in *.
  - f_equal. apply map_eq. exact G.
  - destruct H as [H _]. destruct (H (mk_is_Some _ _ eq_refl)). discriminate.
  - destruct H as [_ H]. destruct (H (mk_is_Some _ _ eq_refl)). discriminate.
  - reflexivity.
Qed.
Lemma outcome_same s cs cs' s1 s2 : same_message cs cs' -> outcome s cs s1 -> outcome s cs' s2 ->
  s_name s1 = s_name s2 /\ s_directed s1 = s_directed s2 /\ s_strict s1 = s_strict s2 /\ s_attrs s1 = s_attrs s2 /\
  s_nodes s1 = s_nodes s2 /\ s_edges s1 ≡ₚ s_edges s2 /\ s_subs s1 = s_subs s2 /\ s_rels s1 = s_rels s2.
Proof.
  intros [M ME] [a1 a2 a3 a4 a5 a6 a7 a8 a9 a10 a11] [b1 b2 b3 b4 b5 b6 b7 b8 b9 b10 b11].
  repeat match goal with |- _ /\ _ => split end.
  - congruence.
  - symmetry. apply b11. assert (E := proj1 (a11 _) eq_refl). setoid_rewrite M in E. exact E.
  - symmetry. apply b10. assert (E := proj1 (a10 _) eq_refl). setoid_rewrite M in E. exact E.
  - apply map_eq. intros k. eapply slot_ext; [exact (a7 k)|]. intros v. rewrite b7. setoid_rewrite M. reflexivity.
  - apply maps_ext.
    + intros n. change (s_is_node s1 n <-> s_is_node s2 n). rewrite a2, b2, M. reflexivity.
    + intros n k. eapply slot_ext; [exact (a3 n k)|]. intros v. setoid_rewrite M. apply b3.
  - rewrite a9, b9, ME. reflexivity.
  - apply maps_ext.
    + intros n. change (s_is_sub s1 n <-> s_is_sub s2 n). rewrite a4, b4, M. reflexivity.
    + intros n k. change (sub_get s1 n k = sub_get s2 n k). destruct (decide (n = s_name s)) as [->|D]; [rewrite a6, b6; reflexivity|].
      eapply slot_ext; [intros v; apply (a5 n k v D)|]. intros v. setoid_rewrite M. apply b5. exact D.
  - apply set_eq. intros [p n]. change (is_child s1 p n <-> is_child s2 p n). rewrite a8, b8, M. reflexivity.
Qed.
Lemma consistent_same cs cs' : same_message cs cs' -> consistent cs -> consistent cs'.
Proof. intros [M _] C f f' H H'. apply M in H, H'. apply C; assumption. Qed.

(** ** Statements in another order *)
Lemma trace_eq_said l l' : trace_eq l l' -> forall f, said l f <-> said l' f.
Proof.
  induction 1 as [|c l l' _ IH|n l1 l2 l l' _ P _ IH]; intros f; [reflexivity|rewrite !said_cons, IH; reflexivity|].
  rewrite !said_app, IH. assert (E : said (map (fun kv => CAddAttr n kv.1 kv.2) l1) f <-> said (map (fun kv => CAddAttr n kv.1 kv.2) l2) f); [|rewrite E; reflexivity].
  unfold said. setoid_rewrite P. reflexivity.
Qed.
Section statements.
  Variables (name : gostr) (nd ed : attrs) (D : list Ast.stmt).
  Notation N := (node_defaults nd D).
  Definition same_defaults (pre : list Ast.stmt) : Prop :=
    node_defaults nd pre = N /\ edge_defaults ed pre = edge_defaults ed D /\ graph_defaults ∅ pre = graph_defaults ∅ D.
  Lemma same_defaults_here : same_defaults D.
  Proof. repeat split. Qed.
  Lemma defaults_snoc d pre s : no_default s -> node_defaults d (pre ++ [s]) = node_defaults d pre /\
    edge_defaults d (pre ++ [s]) = edge_defaults d pre /\ graph_defaults d (pre ++ [s]) = graph_defaults d pre.
  Proof.
    intros H. repeat split; revert d; induction pre as [|x pre IH]; intros d; cbn; try (destruct s; cbn in *; tauto); destruct x; auto.
  Qed.
  Lemma same_defaults_snoc pre s : no_default s -> same_defaults pre -> same_defaults (pre ++ [s]).
  Proof. intros H (A & B & C). repeat split; rewrite (proj1 (defaults_snoc _ _ _ H)) || rewrite (proj1 (proj2 (defaults_snoc _ _ _ H))) || rewrite (proj2 (proj2 (defaults_snoc _ _ _ H))); assumption. Qed.
  (** The calls of a statement that do not depend on what was mentioned before. *)
  Definition inner (pre : list Ast.stmt) (s : Ast.stmt) (l : list call) : Prop :=
    match s with
    | Ast.SEdge src rhs a => locs_calls name nd ed pre (src :: map dst_of rhs) l
    | Ast.SSub g => sub_calls name nd ed pre g l
    | Ast.SAttr a => l = [CAddAttr name (Ast.at_field a) (Ast.at_value a)]
    | _ => l = []
    end.
  Lemma sub_calls_defaults pre g l : same_defaults pre -> sub_calls name nd ed pre g l -> sub_calls name nd ed D g l.
  Proof. intros (A & B & C) H. inversion H; subst. rewrite C, A, B in *. constructor. assumption. Qed.
  Lemma locs_calls_defaults pre ls : forall l, same_defaults pre -> locs_calls name nd ed pre ls l -> locs_calls name nd ed D ls l.
  Proof.
    induction ls as [|x ls IH]; intros l S H; inversion H; subst; [constructor|constructor; auto|].
    constructor; [eapply sub_calls_defaults; eassumption|auto].
  Qed.
  Lemma inner_defaults pre s l : same_defaults pre -> inner pre s l -> inner D s l.
  Proof. intros S. destruct s; cbn; auto; [apply locs_calls_defaults|apply sub_calls_defaults]; assumption. Qed.
  Lemma inner_said s l l' f : inner D s l -> inner D s l' -> said l f <-> said l' f.
  Proof.
    destruct s; cbn; try (intros -> ->; reflexivity); intros H H'; apply trace_eq_said.
    - exact (proj1 (proj2 calls_det) _ _ _ _ _ _ H _ H').
    - exact (proj1 (proj2 (proj2 calls_det)) _ _ _ _ _ _ H _ H').
  Qed.
  (** What an edge statement says about its endpoints. *)
  Lemma endpoint_said d seen lo f : said (endpoint_call name d seen lo) f <-> exists n, n ∈ plain lo /\ n ∉ seen /\ states (CAddNode name n d) f.
  Proof.
    destruct lo as [n|g]; cbn [endpoint_call plain].
    - destruct (decide (Ast.nid_id n ∈ seen)) as [H|H].
      + split; [intros X; destruct (said_nil _ X)|]. intros (n' & X & Y & _). apply elem_of_list_singleton in X. subst. contradiction.
      + rewrite said_one. split; [intros X; exists (Ast.nid_id n); rewrite elem_of_list_singleton; auto|].
        intros (n' & X & _ & Y). apply elem_of_list_singleton in X. subst. exact Y.
    - split; [intros X; destruct (said_nil _ X)|]. intros (n' & X & _). inversion X.
  Qed.
  Lemma arrows_said d m f rhs : forall seen src, said (arrow_calls name d m seen src rhs) f <->
    exists n, n ∈ flat_map (fun e => plain (dst_of e)) rhs /\ n ∉ seen /\ states (CAddNode name n d) f.
  Proof.
    induction rhs as [|[op dst] rhs IH]; intros seen src.
    - cbn. split; [intros X; destruct (said_nil _ X)|]. intros (n & X & _). inversion X.
    - cbn [arrow_calls flat_map dst_of]. rewrite said_app, said_cons, IH, endpoint_said. cbn [states].
      setoid_rewrite elem_of_app. split.
      + intros [H|[H|H]]; [|contradiction|]; destruct H as (n & A & B & C); exists n; [auto|]. split; [auto|]. split; [|exact C]. tauto.
      + intros (n & A & B & C). destruct (decide (n ∈ plain dst)) as [I|I]; [left; eauto|]. right. right. exists n. split; [tauto|]. split; [|exact C]. tauto.
  Qed.
  Definition Ex (S : list gostr) (B : list Ast.stmt) (f : fact) : Prop :=
    (exists n a, Ast.SNode n a ∈ B /\ states (CAddNode name (node_text n) (given a)) f) \/
    (exists n, n ∈ mentioned B /\ n ∉ S /\ (f = FNode n \/ f = FChild name n)) \/
    (exists s l, s ∈ B /\ inner D s l /\ said l f).
  Definition Df (S : list gostr) (B : list Ast.stmt) (f : fact) : Prop :=
    exists n k v, f = FNodeAttr n k v /\ n ∈ mentioned B /\ n ∉ S /\ N !! k = Some v.
  Lemma stmt_said pre s l : no_default s -> same_defaults pre -> stmt_calls name nd ed pre s l ->
    exists li, inner D s li /\ forall f, said l f <-> said li f \/
      match s with
      | Ast.SNode n a => states (CAddNode name (node_text n) (given a ∪ if decide (node_text n ∈ mentioned pre) then ∅ else N)) f
      | _ => exists n, n ∈ mentions s /\ n ∉ mentioned pre /\ states (CAddNode name n N) f
      end.
  Proof.
    intros ND SD H. assert (SD' := SD). destruct SD' as (A & B & C). inversion H; subst; try contradiction.
    - exists []. split; [reflexivity|]. intros f. rewrite said_one, A. split; [auto|]. intros [X|X]; [destruct (said_nil _ X)|exact X].
    - exists l0. split; [apply (inner_defaults pre (Ast.SEdge src rhs a)); assumption|]. intros f.
      rewrite !said_app, endpoint_said, arrows_said, A. cbn [mentions]. setoid_rewrite elem_of_app. split.
      + intros [[X|X]|X]; [right|right|auto]; destruct X as (n & X1 & X2 & X3); exists n; [auto|]. tauto.
      + intros [X|(n & X1 & X2 & X3)]; [auto|]. left. destruct (decide (n ∈ plain src)) as [I|I]; [left; eauto|right]. exists n. tauto.
    - exists l. split; [apply (inner_defaults pre (Ast.SSub g)); assumption|]. intros f. cbn. split; [auto|]. intros [X|(n & X & _)]; [exact X|inversion X].
    - eexists. split; [reflexivity|]. intros f. cbn. split; [auto|]. intros [X|(n & X & _)]; [exact X|inversion X].
  Qed.
  Lemma given_states (n : gostr) (m d : attrs) (f : fact) : states (CAddNode name n (m ∪ d)) f -> states (CAddNode name n m) f \/ exists k v, d !! k = Some v /\ f = FNodeAttr n k v.
  Proof. cbn. intros [H|[H|(k & v & H & E)]]; [auto|auto|]. apply union_get in H. destruct H as [H|[_ H]]; [left; eauto 10|right; eauto]. Qed.
  Lemma given_states' (n : gostr) (m d : attrs) (f : fact) : states (CAddNode name n m) f -> states (CAddNode name n (m ∪ d)) f.
  Proof. cbn. intros [H|[H|(k & v & H & E)]]; [auto|auto|]. right. right. exists k, v. split; [|exact E]. apply union_get. auto. Qed.
  Lemma mentioned_snoc pre s : mentioned (pre ++ [s]) = mentioned pre ++ mentions s.
  Proof. unfold mentioned. rewrite flat_map_app. cbn. rewrite app_nil_r. reflexivity. Qed.
  Lemma Ex_cons S s B f : Ex (S ++ mentions s) B f -> Ex S (s :: B) f.
  Proof.
    intros [(n & a & H & E)|[(n & H & H' & E)|(s' & l & H & E)]].
    - left. exists n, a. rewrite elem_of_cons. auto.
    - right. left. exists n. unfold mentioned in *. cbn [flat_map]. rewrite elem_of_app in *. tauto.
    - right. right. exists s', l. rewrite elem_of_cons. auto.
  Qed.
  Lemma Df_cons S s B f : Df (S ++ mentions s) B f -> Df S (s :: B) f.
  Proof.
    intros (n & k & v & E & H & H' & E'). exists n, k, v. unfold mentioned in *. cbn [flat_map]. rewrite elem_of_app in *. tauto.
  Qed.
  Lemma body_said B : forall pre l, Forall no_default B -> same_defaults pre -> body_calls name nd ed pre B l ->
    (forall f, said l f -> Ex (mentioned pre) B f \/ Df (mentioned pre) B f) /\
    (forall f, Ex (mentioned pre) B f -> said l f) /\
    (forall n k v, n ∈ mentioned B -> n ∉ mentioned pre -> N !! k = Some v ->
       exists w, said l (FNodeAttr n k w) /\ (w = v \/ Ex (mentioned pre) B (FNodeAttr n k w))).
  Proof.
    induction B as [|s B IH]; intros pre l ND SD H; inversion H as [|? ? ? ? ? ? ls lb HS HB]; subst.
    - split; [intros f X; destruct (said_nil _ X)|]. split.
      + intros f [(n & a & X & _)|[(n & X & _)|(s' & l & X & _)]]; inversion X.
      + intros n k v X. inversion X.
    - inversion ND as [|? ? ND1 ND2]; subst.
      destruct (IH (pre ++ [s]) lb ND2 (same_defaults_snoc _ _ ND1 SD) HB) as (I1 & I2 & I3). rewrite mentioned_snoc in I1, I2, I3.
      destruct (stmt_said pre s ls ND1 SD HS) as (li & Hi & HF). split; [|split].
      + intros f X. apply said_app in X. destruct X as [X|X].
        * apply HF in X. destruct X as [X|X]; [left; right; right; exists s, li; rewrite elem_of_cons; auto|].
          destruct s; try (destruct X as (n' & X1 & X2 & X3); cbn in X3; destruct X3 as [->|[->|(k & v & X3 & ->)]];
            [left; right; left; exists n'; unfold mentioned; cbn [flat_map]; rewrite elem_of_app; auto
            |left; right; left; exists n'; unfold mentioned; cbn [flat_map]; rewrite elem_of_app; auto
            |right; exists n', k, v; unfold mentioned; cbn [flat_map]; rewrite elem_of_app; auto]).
          apply given_states in X. destruct X as [X|(k & v & X & ->)].
          -- left. left. exists n, attrs. rewrite elem_of_cons. auto.
          -- destruct (decide _) as [I|I]; [rewrite lookup_empty in X; discriminate|]. right. exists (node_text n), k, v.
             split; [reflexivity|]. split; [|auto]. unfold mentioned. cbn [flat_map mentions]. rewrite elem_of_app, elem_of_list_singleton. auto.
        * destruct (I1 f X) as [Y|Y]; [left; apply Ex_cons; exact Y|right; apply Df_cons; exact Y].
      + intros f X. apply said_app. destruct X as [(n & a & X & E)|[(n & X & X' & E)|(s' & l' & X & Hl & E)]].
        * apply elem_of_cons in X. destruct X as [<-|X].
          -- left. apply HF. right. apply given_states'. exact E.
          -- right. apply I2. left. eauto.
        * unfold mentioned in X. cbn [flat_map] in X. rewrite elem_of_app in X. destruct (decide (n ∈ mentions s)) as [I|I].
          -- left. apply HF. right. destruct s; try (exists n; split; [exact I|]; split; [exact X'|]; cbn; tauto).
             cbn [mentions] in I. apply elem_of_list_singleton in I. subst n. apply given_states'. cbn. tauto.
          -- destruct X as [X|X]; [contradiction|]. right. apply I2. right. left. exists n. rewrite elem_of_app. tauto.
        * apply elem_of_cons in X. destruct X as [->|X].
          -- left. apply HF. left. rewrite (inner_said s li l' f Hi Hl). exact E.
          -- right. apply I2. right. right. eauto.
      + intros n k v X X' E. unfold mentioned in X. cbn [flat_map] in X. rewrite elem_of_app in X. destruct (decide (n ∈ mentions s)) as [I|I].
        * assert (G : exists w, said ls (FNodeAttr n k w) /\ (w = v \/ Ex (mentioned pre) (s :: B) (FNodeAttr n k w))).
          { destruct s; try (exists v; split; [|auto]; apply HF; right; exists n; split; [exact I|]; split; [exact X'|]; cbn; eauto 10).
            cbn [mentions] in I. apply elem_of_list_singleton in I. subst n. destruct (given attrs !! k) as [w|] eqn:Eg.
            - exists w. split; [apply HF; right; apply given_states'; cbn; eauto 10|]. right. left. exists n0, attrs. rewrite elem_of_cons. cbn. eauto 10.
            - exists v. split; [|auto]. apply HF. right. rewrite decide_False by exact X'. cbn. right. right. exists k, v. split; [|reflexivity].
              apply union_get. right. split; [|exact E]. intros w. rewrite Eg. discriminate. }
          destruct G as (w & G1 & G2). exists w. split; [apply said_app; auto|exact G2].
        * destruct X as [X|X]; [contradiction|]. destruct (I3 n k v X) as (w & G1 & G2); [rewrite elem_of_app; tauto|exact E|].
          exists w. split; [apply said_app; auto|]. destruct G2 as [G2|G2]; [auto|]. right. apply Ex_cons. exact G2.
  Qed.
  Lemma Ex_perm S B B' f : B ≡ₚ B' -> Ex S B f -> Ex S B' f.
  Proof.
    intros P [(n & a & X & E)|[(n & X & X' & E)|(s' & l' & X & Hl & E)]].
    - left. exists n, a. rewrite <- P. auto.
    - right. left. exists n. unfold mentioned in *. rewrite <- P. auto.
    - right. right. exists s', l'. rewrite <- P. auto.
  Qed.
  Lemma body_perm_said B B' l l' f : B ≡ₚ B' -> Forall no_default B -> Forall no_default B' ->
    body_calls name nd ed D B l -> body_calls name nd ed D B' l' -> consistent l -> said l f -> said l' f.
  Proof.
    intros P ND ND' H H' C X. destruct (body_said B D l ND same_defaults_here H) as (I1 & I2 & _).
    destruct (body_said B' D l' ND' same_defaults_here H') as (_ & J2 & J3).
    destruct (I1 f X) as [Y|(n & k & v & -> & Y1 & Y2 & Y3)].
    - apply J2. eapply Ex_perm; eassumption.
    - destruct (J3 n k v) as (w & W1 & W2); [unfold mentioned in *; rewrite <- P; exact Y1|exact Y2|exact Y3|].
      destruct W2 as [->|W2]; [exact W1|]. assert (Z := I2 _ (Ex_perm _ _ _ _ (symmetry P) W2)).
      destruct (decide (v = w)) as [->|N']; [exact W1|]. destruct (C _ _ X Z). cbn. auto.
  Qed.
  Lemma body_edges_nodef e B : Forall no_default B -> body_edges e B = flat_map (stmt_edges e) B.
  Proof.
    induction 1 as [|s B H _ IH]; [reflexivity|]. cbn [body_edges flat_map]. rewrite <- IH. f_equal. f_equal.
    destruct s; try contradiction; reflexivity.
  Qed.
  Lemma body_perm_edges B B' l l' : B ≡ₚ B' -> Forall no_default B -> Forall no_default B' ->
    body_calls name nd ed D B l -> body_calls name nd ed D B' l' -> edges_result l ≡ₚ edges_result l'.
  Proof.
    intros P ND ND' H H'. rewrite (body_edges_ok _ _ _ _ _ _ H), (body_edges_ok _ _ _ _ _ _ H').
    rewrite !body_edges_nodef by assumption. rewrite P. reflexivity.
  Qed.
End statements.
(** Success depends on the message only. *)
Definition fact_key (f : fact) : option gostr := match f with FNodeAttr _ k _ | FGraphAttr _ k _ => Some k | _ => None end.
Lemma ok_said l : Forall builds l -> Forall call_ok l <->
  ((forall f k, said l f -> fact_key f = Some k -> valid_attr k) /\ (forall e k, e ∈ edges_result l -> is_Some (e_attrs e !! k) -> valid_attr k)).
Proof.
  induction 1 as [|c l B _ IH].
  - split; [|intros _; constructor]. intros _. split; [intros f k X; destruct (said_nil _ X)|intros e k X; inversion X].
  - rewrite Forall_cons, IH. unfold edges_result. cbn [flat_map]. setoid_rewrite said_cons. setoid_rewrite elem_of_app.
    assert (E : call_ok c <-> (forall f k, states c f -> fact_key f = Some k -> valid_attr k) /\ (forall e k, e ∈ call_edges c -> is_Some (e_attrs e !! k) -> valid_attr k)).
    { destruct c; try contradiction; unfold call_ok; cbn [uses states call_edges].
      - split; [intros H; split; [intros ? ? []|]|intros [_ H] k Hk].
        + intros e k He. apply elem_of_list_singleton in He. subst e. apply H.
        + eapply H; [apply elem_of_list_singleton; reflexivity|exact Hk].
      - split; [intros H; split|intros [H _] k [v Hk]].
        + intros f k [->|[->|(k' & v & Hm & ->)]] [= <-]. eauto.
        + intros e k He. inversion He.
        + eapply H; [right; right; exists k, v; split; [exact Hk|reflexivity]|reflexivity].
      - split; [intros H; split|intros [H _] k ->].
        + intros f k -> [= <-]. eauto.
        + intros e k He. inversion He.
        + eapply H; reflexivity.
      - split; [intros H; split|intros [H _] k [v Hk]].
        + intros f k [->|[->|(k' & v & Hm & ->)]] [= <-]. eauto.
        + intros e k He. inversion He.
        + eapply H; [right; right; exists k, v; split; [exact Hk|reflexivity]|reflexivity]. }
    rewrite E. clear. unfold edges_result. split.
    + intros [[A B] [A' B']]. split; [intros f k [X|X]; eauto|intros e k [X|X]; eauto].
    + intros [A B]. split; split; intros; eauto.
Qed.
Lemma body_calls_app name nd ed B1 : forall pre B2 l, body_calls name nd ed pre (B1 ++ B2) l ->
  exists l1 l2, l = l1 ++ l2 /\ body_calls name nd ed pre B1 l1 /\ body_calls name nd ed (pre ++ B1) B2 l2.
Proof.
  induction B1 as [|s B1 IH]; intros pre B2 l H.
  - exists [], l. split; [reflexivity|]. split; [constructor|]. rewrite app_nil_r. exact H.
  - cbn [app] in H. inversion H; subst. match goal with X : body_calls _ _ _ (pre ++ [s]) _ _ |- _ => destruct (IH _ _ _ X) as (l1 & l2 & -> & H1 & H2) end.
    rewrite <- app_assoc in H2. eexists (_ ++ l1), l2. rewrite <- app_assoc. split; [reflexivity|]. split; [econstructor; eassumption|exact H2].
Qed.
Lemma build_spec_run l : forall s K, Forall builds l -> Forall call_ok l -> wp K l -> (forall n, n ∈ K -> has_attrs s n) ->
  exists rs, spec_run l s (fold_left s_build l s) rs /\ Forall (fun r => r = None) rs.
Proof.
  induction l as [|c l IH]; intros s K B O W HK; [exists []; split; constructor|].
  inversion B; subst. inversion O as [|? ? Oc Ol]; subst. cbn [fold_left].
  assert (G : exists K', spec_call c s (s_build s c) None /\ wp K' l /\ forall n, n ∈ K' -> has_attrs (s_build s c) n).
  { destruct c; try contradiction; unfold call_ok in Oc; cbn [uses wp s_build] in *.
    - exists K. split; [|split; [exact W|intros n' Hn; apply HK in Hn; exact Hn]]. constructor. apply all_valid_uses. exact Oc.
    - exists K. split; [|split; [exact W|intros n' Hn; apply HK in Hn; exact Hn]]. constructor. apply all_valid_uses. exact Oc.
    - destruct W as [W1 W2]. exists K. split; [|split; [exact W2|intros n' Hn; apply put_attrs_has; auto]]. constructor; [apply Oc; reflexivity|apply HK, W1].
    - exists (name :: K). split; [constructor; apply all_valid_uses; exact Oc|]. split; [exact W|].
      intros n' Hn. apply put_attrs_has. apply elem_of_cons in Hn. destruct Hn as [->|Hn].
      + right. unfold s_is_sub. cbn. rewrite lookup_insert. eauto.
      + destruct (HK _ Hn) as [E|E]; [left; exact E|right]. unfold s_is_sub. cbn. apply lookup_insert_is_Some'. auto. }
  destruct G as (K' & G1 & G2 & G3). destruct (IH _ K' ltac:(assumption) Ol G2 G3) as (rs & R & F).
  exists (None :: rs). split; [econstructor; eassumption|constructor; auto].
Qed.
Lemma builds_only_adds l : Forall builds l -> Forall only_adds l.
Proof. intros H. eapply Forall_impl; [exact H|]. intros c Hc. destruct c; try contradiction; exact I. Qed.
