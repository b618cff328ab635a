(** What the calls of an analysed AST build, and that map iteration orders do not matter. *)
From Verif Require Import Base Parser Maps Graph AttrMap MapFacts SpecGraph GraphProofs Analyse SpecAnalyse AnalyseProofs.
From Verif Require Ast.

Scheme stmt_calls_i := Minimality for stmt_calls Sort Prop
  with locs_calls_i := Minimality for locs_calls Sort Prop
  with sub_calls_i := Minimality for sub_calls Sort Prop
  with body_calls_i := Minimality for body_calls Sort Prop.
Combined Scheme calls_ind from stmt_calls_i, locs_calls_i, sub_calls_i, body_calls_i.

(** ** Calls that only build *)
Definition builds (c : call) : Prop :=
  match c with CAddPortEdge _ _ _ _ _ _ | CAddNode _ _ _ | CAddAttr _ _ _ | CAddSubGraph _ _ _ => True | _ => False end.

Lemma endpoint_builds name d seen lo : Forall builds (endpoint_call name d seen lo).
Proof. destruct lo as [n|g]; cbn; [|constructor]. destruct (decide _); repeat constructor. Qed.
Lemma arrow_builds name d m rhs : forall seen src, Forall builds (arrow_calls name d m seen src rhs).
Proof. induction rhs as [|[op dst] rhs IH]; intros seen src; cbn; [constructor|]. apply Forall_app. split; [apply endpoint_builds|]. constructor; [exact I|apply IH]. Qed.

Lemma calls_build :
  (forall name nd ed pre s l, stmt_calls name nd ed pre s l -> Forall builds l) /\
  (forall name nd ed pre ls l, locs_calls name nd ed pre ls l -> Forall builds l) /\
  (forall name nd ed pre g l, sub_calls name nd ed pre g l -> Forall builds l) /\
  (forall name nd ed pre body l, body_calls name nd ed pre body l -> Forall builds l).
Proof.
  apply (calls_ind (fun _ _ _ _ _ l => Forall builds l) (fun _ _ _ _ _ l => Forall builds l)
    (fun _ _ _ _ _ l => Forall builds l) (fun _ _ _ _ _ l => Forall builds l));
    intros; repeat (apply Forall_app; split); auto using endpoint_builds, arrow_builds; try (repeat constructor; assumption).
  apply Forall_fmap. apply Forall_true. intros; exact I.
Qed.
Definition body_builds := proj2 (proj2 (proj2 calls_build)).

(** ** Every AddAttr is on the graph or on a subgraph opened before *)
Fixpoint wp (K : list gostr) (l : list call) : Prop :=
  match l with
  | [] => True
  | CAddAttr n _ _ :: l' => n ∈ K /\ wp K l'
  | CAddSubGraph _ n _ :: l' => wp (n :: K) l'
  | _ :: l' => wp K l'
  end.
Lemma wp_mono l : forall (K K' : list gostr), (forall n, n ∈ K -> n ∈ K') -> wp K l -> wp K' l.
Proof.
  induction l as [|c l IH]; intros K K' H W; [exact I|]. destruct c; cbn in *; try (eapply IH; eassumption).
  - destruct W as [W1 W2]. split; [auto|]. eapply IH; eassumption.
  - eapply IH; [|exact W]. intros n Hn. apply elem_of_cons in Hn. apply elem_of_cons. destruct Hn; auto.
Qed.
Lemma wp_app l1 : forall (K : list gostr) l2, wp K l1 -> (forall K', (forall n, n ∈ K -> n ∈ K') -> wp K' l2) -> wp K (l1 ++ l2).
Proof.
  induction l1 as [|c l1 IH]; intros K l2 W1 W2; cbn [app].
  - apply W2. auto.
  - destruct c; cbn in *; try (apply IH; assumption).
    + destruct W1. split; [assumption|]. apply IH; assumption.
    + apply IH; [exact W1|]. intros K' H. apply W2. intros n Hn. apply H. apply elem_of_cons. auto.
Qed.
Lemma wp_endpoint name d seen lo K : wp K (endpoint_call name d seen lo).
Proof. destruct lo as [n|g]; cbn; [|exact I]. destruct (decide _); exact I. Qed.
Lemma wp_arrows name d m K rhs : forall seen src, wp K (arrow_calls name d m seen src rhs).
Proof.
  revert K. induction rhs as [|[op dst] rhs IH]; intros K seen src; cbn [arrow_calls]; [exact I|].
  apply wp_app; [apply wp_endpoint|]. intros K' _. apply IH.
Qed.
Lemma calls_wp :
  (forall name nd ed pre s l, stmt_calls name nd ed pre s l -> forall K, name ∈ K -> wp K l) /\
  (forall name nd ed pre ls l, locs_calls name nd ed pre ls l -> forall K, name ∈ K -> wp K l) /\
  (forall name nd ed pre g l, sub_calls name nd ed pre g l -> forall K, name ∈ K -> wp K l) /\
  (forall name nd ed pre body l, body_calls name nd ed pre body l -> forall K, name ∈ K -> wp K l).
Proof.
  apply (calls_ind (fun name _ _ _ _ l => forall K, name ∈ K -> wp K l) (fun name _ _ _ _ l => forall K, name ∈ K -> wp K l)
    (fun name _ _ _ _ l => forall K, name ∈ K -> wp K l) (fun name _ _ _ _ l => forall K, name ∈ K -> wp K l)); intros; try exact I; auto.
  - apply wp_app.
    + apply wp_app; [apply wp_endpoint|]. intros K' _. apply wp_arrows.
    + intros K' HK. auto.
  - match goal with H : _ ∈ K |- _ => clear -H; induction l as [|kv l IH]; cbn; [exact I|]; split; assumption end.
  - cbn. auto.
  - apply wp_app; [auto|]. intros; auto.
  - cbn. apply H0. apply elem_of_cons. auto.
  - apply wp_app; [auto|]. intros; auto.
Qed.
Definition body_wp := proj2 (proj2 (proj2 calls_wp)).

(** ** Which runs succeed *)
Definition call_ok (c : call) : Prop := forall k, uses c k -> valid_attr k.
Lemma all_valid_uses (m : attrs) : (forall k, is_Some (m !! k) -> valid_attr k) <-> all_valid m.
Proof. split; [intros H k v Hk; apply H; eauto|intros H k [v Hv]; eapply H; exact Hv]. Qed.

Lemma spec_run_ok cs : forall s s' rs K, Forall builds cs -> wp K cs -> (forall n, n ∈ K -> has_attrs s n) ->
  spec_run cs s s' rs -> (Forall (fun r => r = None) rs <-> Forall call_ok cs).
Proof.
  induction cs as [|c cs IH]; intros s s' rs K B W HK R; inversion R as [|? ? ? s1 ? r rs0 HC HRR]; subst; [split; constructor|].
  apply Forall_cons in B. destruct B as [B1 B2].
  assert (HT : forall K' s0, s1 = s0 -> (forall n, n ∈ K' -> has_attrs s0 n) -> wp K' cs -> (r = None <-> call_ok c) ->
     (Forall (fun r => r = None) (r :: rs0) <-> Forall call_ok (c :: cs))).
  { intros K' s0 <- H1 H2 H3. specialize (IH s1 s' rs0 K' B2 H2 H1 HRR). rewrite !Forall_cons, IH, H3. reflexivity. }
  inversion HC; subst; try contradiction; cbn [wp] in W.
  - apply (HT K _ eq_refl); [intros n Hn; apply HK in Hn; exact Hn|exact W|]. split; [|reflexivity]. intros _ k Hk. destruct Hk as [v Hk]. exact (H k v Hk).
  - apply (HT K _ eq_refl); [exact HK|exact W|]. split; [discriminate|]. intros Hc. destruct H as (k & v & H & N & _). destruct N. apply Hc. cbn. eauto.
  - apply (HT K _ eq_refl); [intros n' Hn; apply HK in Hn; exact Hn|exact W|]. split; [|reflexivity]. intros _ k Hk. destruct Hk as [v Hk]. exact (H k v Hk).
  - apply (HT K _ eq_refl); [exact HK|exact W|]. split; [discriminate|]. intros Hc. destruct H as (k & v & H & N & _). destruct N. apply Hc. cbn. eauto.
  - destruct W as [W1 W2]. apply (HT K _ eq_refl); [intros n' Hn; apply put_attrs_has; auto|exact W2|]. split; [|reflexivity]. intros _ k ->. assumption.
  - destruct W as [W1 W2]. apply (HT K _ eq_refl); [exact HK|exact W2|]. split; [discriminate|]. intros Hc. destruct H. apply Hc. reflexivity.
  - destruct W as [W1 W2]. destruct (HK _ W1); contradiction.
  - apply (HT (n :: K) _ eq_refl); [|exact W|].
    + intros n' Hn. apply put_attrs_has. apply elem_of_cons in Hn. destruct Hn as [->|Hn].
      * right. unfold s_is_sub. cbn. rewrite lookup_insert. eauto.
      * destruct (HK _ Hn) as [E|E]; [left; exact E|right]. unfold s_is_sub. cbn. apply lookup_insert_is_Some'. auto.
    + split; [|reflexivity]. intros _ k Hk. destruct Hk as [v Hk]. exact (H k v Hk).
  - apply (HT (n :: K) _ eq_refl); [|exact W|].
    + intros n' Hn. apply put_attrs_has. apply elem_of_cons in Hn. destruct Hn as [->|Hn].
      * right. unfold s_is_sub. cbn. rewrite lookup_insert. eauto.
      * destruct (HK _ Hn) as [E|E]; [left; exact E|right]. unfold s_is_sub. cbn. apply lookup_insert_is_Some'. auto.
    + split; [discriminate|]. intros Hc. destruct H as (k & v & H & N & _). destruct N. apply Hc. cbn. eauto.
Qed.

(** ** What successful runs build *)
Definition s_build (s : sgraph) (c : call) : sgraph :=
  match c with
  | CAddPortEdge a pa b pb dir m => s_with_edges s (s_edges s ++ [Edge a pa b pb dir m])
  | CAddNode p n m => s_put_node s p n m
  | CAddAttr n f v => s_put_attrs s n {[f := v]}
  | CAddSubGraph p n m => s_put_attrs (s_open_sub s p n) n m
  | _ => s
  end.
Lemma spec_run_build cs : forall s s' rs, Forall builds cs -> Forall (fun r => r = None) rs -> spec_run cs s s' rs -> s' = fold_left s_build cs s.
Proof.
  induction cs as [|c cs IH]; intros s s' rs B N R; inversion R; subst; [reflexivity|].
  apply Forall_cons in B. destruct B as [B1 B2]. apply Forall_cons in N. destruct N as [-> N].
  cbn [fold_left]. assert (s1 = s_build s c) as <-; [|eapply IH; eassumption].
  inversion H1; subst; try contradiction; reflexivity.
Qed.
Lemma build_name s c : s_name (s_build s c) = s_name s.
Proof. destruct c; cbn; try reflexivity; rewrite put_attrs_name; reflexivity. Qed.
Lemma builds_name cs : forall s, s_name (fold_left s_build cs s) = s_name s.
Proof. induction cs as [|c cs IH]; intros s; cbn [fold_left]; [reflexivity|]. rewrite IH. apply build_name. Qed.
(** A component that is computed along the calls. *)
Lemma fold_comp {A} (P : sgraph -> Prop) (f : sgraph -> A) (h : A -> call -> A) cs :
  (forall s c, P s -> P (s_build s c)) -> (forall s c, P s -> f (s_build s c) = h (f s) c) ->
  forall s, P s -> P (fold_left s_build cs s) /\ f (fold_left s_build cs s) = fold_left h cs (f s).
Proof.
  intros HP Hf. induction cs as [|c cs IH]; intros s Hs; cbn [fold_left]; [auto|].
  rewrite <- Hf by exact Hs. apply IH. apply HP. exact Hs.
Qed.
Ltac put := unfold s_put_attrs; destruct (decide _); cbn.

Definition nodes_listed (s : sgraph) : Prop := forall n, n ∈ s_order s <-> is_Some (s_nodes s !! n).
Lemma build_listed s c : nodes_listed s -> nodes_listed (s_build s c).
Proof.
  intros H. destruct c; cbn; try exact H; try (put; exact H).
  intros n. cbn. rewrite lookup_insert_is_Some'. destruct (s_nodes s !! name) eqn:E.
  - rewrite (H n). split; [auto|]. intros [<-|Hn]; [eauto|exact Hn].
  - rewrite elem_of_app, elem_of_list_singleton, (H n). naive_solver.
Qed.
Lemma builds_content cs s : nodes_listed s -> default ∅ (s_subs s !! s_name s) = ∅ ->
  let s' := fold_left s_build cs s in
  s_directed s' = s_directed s /\ s_strict s' = s_strict s /\
  (forall n, s_nodes s' !! n = fold_left (fun acc c => match c with
    | CAddNode _ n' m => if decide (n' = n) then Some (m ∪ default ∅ acc) else acc | _ => acc end) cs (s_nodes s !! n)) /\
  s_order s' = fold_left (fun acc c => match c with
    | CAddNode _ n _ => if decide (n ∈ acc) then acc else acc ++ [n] | _ => acc end) cs (s_order s) /\
  s_attrs s' = fold_left (fun acc c => match c with
    | CAddSubGraph _ n' m => if decide (n' = s_name s) then m ∪ acc else acc
    | CAddAttr n' f v => if decide (n' = s_name s) then {[f := v]} ∪ acc else acc
    | _ => acc end) cs (s_attrs s) /\
  (forall n, n <> s_name s -> default ∅ (s_subs s' !! n) = fold_left (fun acc c => match c with
    | CAddSubGraph _ n' m => if decide (n' = n) then m ∪ acc else acc
    | CAddAttr n' f v => if decide (n' = n) then {[f := v]} ∪ acc else acc
    | _ => acc end) cs (default ∅ (s_subs s !! n))) /\
  default ∅ (s_subs s' !! s_name s) = ∅ /\
  (forall p n, is_child s' p n <-> is_child s p n \/ exists c, c ∈ cs /\ relates p n c).
Proof.
  intros HL HR s'.
  assert (EX : forall (P : call -> Prop) cs c, (exists c', c' ∈ c :: cs /\ P c') <-> P c \/ exists c', c' ∈ cs /\ P c').
  { intros P cs0 c. setoid_rewrite elem_of_cons. split; [intros (c' & [->|H] & H'); [auto|right; eauto]|intros [H|(c' & H & H')]; eauto]. }
  repeat match goal with |- _ /\ _ => split end.
  - unfold s'. pose proof (fold_comp (fun _ => True) s_directed (fun a _ => a) cs) as F. destruct F with (s := s) as [_ ->]; [auto| |exact I|].
    { intros s0 c _. destruct c; cbn; try reflexivity; put; reflexivity. } clear. induction cs; [reflexivity|assumption].
  - unfold s'. pose proof (fold_comp (fun _ => True) s_strict (fun a _ => a) cs) as F. destruct F with (s := s) as [_ ->]; [auto| |exact I|].
    { intros s0 c _. destruct c; cbn; try reflexivity; put; reflexivity. } clear. induction cs; [reflexivity|assumption].
  - intros n. unfold s'. match goal with |- _ = fold_left ?h _ _ => destruct (fold_comp (fun _ => True) (fun s => s_nodes s !! n) h cs) with (s := s) as [_ E] end; [auto| |exact I|exact E].
    intros s0 c _. destruct c; cbn; try reflexivity; try (put; reflexivity).
    destruct (decide (name = n)) as [->|D]; [rewrite lookup_insert; reflexivity|rewrite lookup_insert_ne by exact D; reflexivity].
  - unfold s'. match goal with |- _ = fold_left ?h _ _ => destruct (fold_comp nodes_listed s_order h cs build_listed) with (s := s) as [_ E] end; [|exact HL|exact E].
    intros s0 c H0. destruct c; cbn; try reflexivity; try (put; reflexivity).
    specialize (H0 name). destruct (s_nodes s0 !! name) eqn:En.
    + rewrite decide_True; [reflexivity|]. apply H0. eauto.
    + rewrite decide_False; [reflexivity|]. rewrite H0. apply is_Some_None.
  - unfold s'. match goal with |- _ = fold_left ?h _ _ => destruct (fold_comp (fun s0 => s_name s0 = s_name s) s_attrs h cs) with (s := s) as [_ E] end; [| |reflexivity|exact E].
    + intros s0 c E. rewrite build_name. exact E.
    + intros s0 c E. destruct c; cbn; try reflexivity; unfold s_put_attrs; cbn [s_open_sub s_with_rels s_with_subs s_name]; rewrite E.
      * destruct (decide (s_name s = parent)) as [->|D]; [rewrite decide_True by reflexivity; reflexivity|rewrite decide_False by congruence; reflexivity].
      * destruct (decide (s_name s = name)) as [->|D]; [rewrite decide_True by reflexivity; reflexivity|rewrite decide_False by congruence; reflexivity].
  - intros n Hn. unfold s'. match goal with |- _ = fold_left ?h _ _ => destruct (fold_comp (fun s0 => s_name s0 = s_name s) (fun s0 => default ∅ (s_subs s0 !! n)) h cs) with (s := s) as [_ E] end; [| |reflexivity|exact E].
    + intros s0 c E. rewrite build_name. exact E.
    + intros s0 c E. destruct c; cbn; try reflexivity; unfold s_put_attrs; cbn [s_open_sub s_with_rels s_with_subs s_name]; rewrite E.
      * destruct (decide (s_name s = parent)) as [<-|D]; cbn; [rewrite decide_False by congruence; reflexivity|].
        destruct (decide (parent = n)) as [->|D']; [rewrite lookup_insert; reflexivity|rewrite lookup_insert_ne by exact D'; reflexivity].
      * destruct (decide (s_name s = name)) as [<-|D]; cbn.
        -- rewrite decide_False by congruence. rewrite lookup_insert_ne by congruence. reflexivity.
        -- destruct (decide (name = n)) as [->|D']; [rewrite !lookup_insert; reflexivity|]. rewrite !lookup_insert_ne by exact D'. reflexivity.
  - unfold s'. destruct (fold_comp (fun s0 => s_name s0 = s_name s) (fun s0 => default ∅ (s_subs s0 !! s_name s)) (fun a _ => a) cs) with (s := s) as [_ E]; [| |reflexivity|].
    + intros s0 c E. rewrite build_name. exact E.
    + intros s0 c E. destruct c; cbn; try reflexivity; unfold s_put_attrs; cbn [s_open_sub s_with_rels s_with_subs s_name]; rewrite E.
      * destruct (decide (s_name s = parent)) as [<-|D]; cbn; [reflexivity|]. rewrite lookup_insert_ne by congruence. reflexivity.
      * destruct (decide (s_name s = name)) as [<-|D]; cbn; [rewrite lookup_insert; reflexivity|].
        rewrite !lookup_insert_ne by congruence. reflexivity.
    + rewrite E, HR. clear. induction cs; [reflexivity|assumption].
  - intros p n. unfold s'. clear -EX. revert s. induction cs as [|c cs IH]; intros s; cbn [fold_left].
    + split; [auto|]. intros [H|(c & H & _)]; [exact H|inversion H].
    + rewrite IH, EX. assert (is_child (s_build s c) p n <-> is_child s p n \/ relates p n c) as ->; [|tauto].
      unfold relates, is_child. destruct c; cbn; try (split; [auto|intros [H|(m' & [E|E])]; [exact H|discriminate|discriminate]]).
      * rewrite elem_of_union, elem_of_singleton. naive_solver.
      * put; (split; [auto|intros [H|(m' & [E|E])]; [exact H|discriminate|discriminate]]).
      * put; rewrite elem_of_union, elem_of_singleton; naive_solver.
Qed.
Lemma builds_edges cs : forall s, Forall builds cs -> s_edges (fold_left s_build cs s) = s_edges s ++ edges_result cs.
Proof.
  induction cs as [|c cs IH]; intros s B; cbn [fold_left]; [cbn; rewrite app_nil_r; reflexivity|].
  apply Forall_cons in B. destruct B as [B1 B2]. rewrite IH by exact B2. destruct c; try contradiction; cbn; try reflexivity.
  - rewrite <- app_assoc. reflexivity.
  - put; reflexivity.
  - put; reflexivity.
Qed.
Lemma builds_subs cs : forall s K, wp K cs -> (forall n, n ∈ K -> has_attrs s n) ->
  forall n, s_is_sub (fold_left s_build cs s) n <-> s_is_sub s n \/ exists c, c ∈ cs /\ opens n c.
Proof.
  assert (EX : forall (P : call -> Prop) cs c, (exists c', c' ∈ c :: cs /\ P c') <-> P c \/ exists c', c' ∈ cs /\ P c').
  { intros P cs0 c. setoid_rewrite elem_of_cons. split; [intros (c' & [->|H] & H'); [auto|right; eauto]|intros [H|(c' & H & H')]; eauto]. }
  induction cs as [|c cs IH]; intros s K W HK n; cbn [fold_left].
  - split; [auto|]. intros [H|(c & H & _)]; [exact H|inversion H].
  - rewrite EX. assert (H : exists K', wp K' cs /\ (forall n, n ∈ K' -> has_attrs (s_build s c) n) /\ (s_is_sub (s_build s c) n <-> s_is_sub s n \/ opens n c)).
    { unfold opens. destruct c; cbn [wp s_build] in *; try (exists K; split; [exact W|]; split; [exact HK|split; [auto|intros [H|(p & m' & E)]; [exact H|discriminate]]]).
      - destruct W as [W1 W2]. exists K. split; [exact W2|]. split; [intros n' Hn; apply put_attrs_has; auto|].
        transitivity (s_is_sub s n); [|split; [auto|intros [H|(p & m' & E)]; [exact H|discriminate]]].
        put; [reflexivity|]. unfold s_is_sub. cbn. rewrite lookup_insert_is_Some'. split; [|auto]. intros [<-|H]; [|exact H].
        destruct (HK _ W1); [contradiction|assumption].
      - exists (name :: K). split; [exact W|]. split.
        + intros n' Hn. apply put_attrs_has. apply elem_of_cons in Hn. destruct Hn as [->|Hn].
          * right. unfold s_is_sub. cbn. rewrite lookup_insert. eauto.
          * destruct (HK _ Hn) as [E|E]; [left; exact E|right]. unfold s_is_sub. cbn. apply lookup_insert_is_Some'. auto.
        + put; unfold s_is_sub; cbn; rewrite ?lookup_insert_is_Some'; naive_solver. }
    destruct H as (K' & W' & HK' & E). rewrite (IH _ K' W' HK'), E. tauto.
Qed.

(** ** The graph as an implementation of Interface *)
Lemma make_calls_graph (os : nat -> oracle) (cs : list call) : (forall i, fair (os i)) -> forall g i, reachable g ->
  reachable (make_calls (graph_step os) cs (g, i)).1.1 /\
  spec_run cs (view g) (view (make_calls (graph_step os) cs (g, i)).1.1) (make_calls (graph_step os) cs (g, i)).2.
Proof.
  intros F. induction cs as [|c cs IH]; intros g i R; cbn [make_calls]; [split; [exact R|constructor]|].
  unfold graph_step at 1 3 5. pose proof (exec_ok (os i) c g (F i) (reachable_ok g R)) as [_ HS].
  pose proof (reach_call g (os i) c R (F i)) as R'.
  destruct (exec (os i) c g) as [g' r]. cbn [fst snd] in *. specialize (IH g' (Datatypes.S i) R').
  destruct (make_calls (graph_step os) cs (g', Datatypes.S i)) as [[g2 j] rs]. cbn [fst snd] in *. destruct IH as [IH1 IH2].
  split; [exact IH1|]. econstructor; eassumption.
Qed.

Definition s_start (a : Ast.graph) : sgraph := SGraph (Ast.g_id a) (Ast.g_type a) (Ast.g_strict a) ∅ ∅ [] [] ∅ ∅.
Lemma start_listed a : nodes_listed (s_start a).
Proof. intros n. cbn. rewrite lookup_empty. split; [intros H; inversion H|intros [x H]; discriminate]. Qed.

Lemma errors_nil rs : get_error (errors rs) = None <-> Forall (fun r => r = None) rs.
Proof.
  unfold errors. induction rs as [|[e|] rs IH]; cbn.
  - split; [constructor|reflexivity].
  - split; [discriminate|]. intros H. apply Forall_cons in H. destruct H; discriminate.
  - rewrite Forall_cons. unfold errors in IH. rewrite IH. tauto.
Qed.

(** The outcome of the analysis, independent of the calls' interleaving. *)
Theorem analysed_graph os ord a : (forall i, fair (os i)) -> fair_order ord -> exists l,
  body_calls (Ast.g_id a) ∅ ∅ [] (Ast.g_stmts a) l /\
  match new_analysed_graph os ord a with
  | inl g => Forall call_ok l /\ reachable g /\ view g = fold_left s_build l (s_start a)
  | inr _ => ~ Forall call_ok l
  end.
Proof.
  intros Fo Ford. destruct (analyse_calls ord a Ford) as (cs & (l & HB & ->) & H). exists l. split; [exact HB|].
  unfold new_analysed_graph. rewrite H.
  destruct (make_calls_graph os ([CSetStrict (Ast.g_strict a); CSetDir (Ast.g_type a); CSetName (Ast.g_id a)] ++ l) Fo new_graph 0 reach_new) as [R Sp].
  destruct (make_calls _ _ _) as [[g i] rs]. cbn [fst snd] in *. rewrite view_new in Sp.
  cbn [app] in Sp. inversion Sp as [|? ? ? s1 ? r1 rs1 C1 Sp1]; subst. inversion Sp1 as [|? ? ? s2 ? r2 rs2 C2 Sp2]; subst. inversion Sp2 as [|? ? ? s3 ? r3 rs3 C3 Sp3]; subst.
  inversion C1; subst. inversion C2; subst. inversion C3; subst. cbn in Sp3.
  assert (HK : forall n, n ∈ [Ast.g_id a] -> has_attrs (s_start a) n) by (intros n Hn; apply elem_of_list_singleton in Hn; subst; left; reflexivity).
  pose proof (spec_run_ok l _ _ _ [Ast.g_id a] (body_builds _ _ _ _ _ _ HB) (body_wp _ _ _ _ _ _ HB [Ast.g_id a] ltac:(apply elem_of_list_singleton; reflexivity)) HK Sp3) as HO.
  destruct (get_error (errors (None :: None :: None :: rs3))) eqn:E.
  - intros HF. apply HO in HF. assert (get_error (errors (None :: None :: None :: rs3)) = None); [|congruence].
    apply errors_nil. repeat (constructor; [reflexivity|]). exact HF.
  - apply errors_nil in E. repeat (apply Forall_cons in E; destruct E as [_ E]). split; [apply HO; exact E|]. split; [exact R|].
    apply (spec_run_build l _ _ rs3); [eapply body_builds; exact HB|exact E|exact Sp3].
Qed.

(** ** Two traces of the same statements *)
Inductive trace_eq : list call -> list call -> Prop :=
| Te_nil : trace_eq [] []
| Te_skip c l l' : trace_eq l l' -> trace_eq (c :: l) (c :: l')
| Te_block n l1 l2 l l' : NoDup l1.*1 -> l1 ≡ₚ l2 -> trace_eq l l' ->
    trace_eq (map (fun kv => CAddAttr n kv.1 kv.2) l1 ++ l) (map (fun kv => CAddAttr n kv.1 kv.2) l2 ++ l').
Lemma trace_eq_app l1 l1' l2 l2' : trace_eq l1 l1' -> trace_eq l2 l2' -> trace_eq (l1 ++ l2) (l1' ++ l2').
Proof. intros H H2. induction H; cbn; [exact H2|constructor; assumption|]. rewrite <- !app_assoc. constructor; assumption. Qed.
Lemma trace_eq_refl l : trace_eq l l.
Proof. induction l; constructor; assumption. Qed.

Lemma calls_det :
  (forall name nd ed pre s l, stmt_calls name nd ed pre s l -> forall l', stmt_calls name nd ed pre s l' -> trace_eq l l') /\
  (forall name nd ed pre ls l, locs_calls name nd ed pre ls l -> forall l', locs_calls name nd ed pre ls l' -> trace_eq l l') /\
  (forall name nd ed pre g l, sub_calls name nd ed pre g l -> forall l', sub_calls name nd ed pre g l' -> trace_eq l l') /\
  (forall name nd ed pre body l, body_calls name nd ed pre body l -> forall l', body_calls name nd ed pre body l' -> trace_eq l l').
Proof.
  apply (calls_ind (fun name nd ed pre s l => forall l', stmt_calls name nd ed pre s l' -> trace_eq l l')
    (fun name nd ed pre ls l => forall l', locs_calls name nd ed pre ls l' -> trace_eq l l')
    (fun name nd ed pre g l => forall l', sub_calls name nd ed pre g l' -> trace_eq l l')
    (fun name nd ed pre body l => forall l', body_calls name nd ed pre body l' -> trace_eq l l')).
  - intros name nd ed pre n a l' H. inversion H; subst. apply trace_eq_refl.
  - intros name nd ed pre src rhs a l _ IH l' H. inversion H; subst. apply trace_eq_app; [apply trace_eq_refl|auto].
  - intros name nd ed pre a l' H. inversion H; subst. constructor.
  - intros name nd ed pre a l' H. inversion H; subst. constructor.
  - intros name nd ed pre a l HP l' H. inversion H; subst. rewrite <- (app_nil_r (map _ l)), <- (app_nil_r (map _ l0)).
    constructor; [|etransitivity; [exact HP|symmetry; assumption]|constructor]. rewrite HP. apply NoDup_fst_map_to_list.
  - intros name nd ed pre g l _ IH l' H. inversion H; subst. auto.
  - intros name nd ed pre a l' H. inversion H; subst. apply trace_eq_refl.
  - intros name nd ed pre l' H. inversion H; subst. constructor.
  - intros name nd ed pre n ls l _ IH l' H. inversion H; subst. auto.
  - intros name nd ed pre g ls l l0 _ IH1 _ IH2 l' H. inversion H; subst. apply trace_eq_app; auto.
  - intros name nd ed pre id body l _ IH l' H. inversion H; subst. constructor. auto.
  - intros name nd ed pre l' H. inversion H; subst. constructor.
  - intros name nd ed pre s body l l0 _ IH1 _ IH2 l' H. inversion H; subst. apply trace_eq_app; auto.
Qed.
Definition body_det := proj2 (proj2 (proj2 calls_det)).

Lemma trace_eq_ok l l' : trace_eq l l' -> Forall call_ok l <-> Forall call_ok l'.
Proof.
  induction 1 as [|c l l' _ IH|n l1 l2 l l' _ P _ IH].
  - reflexivity.
  - rewrite !Forall_cons, IH. reflexivity.
  - rewrite !Forall_app, IH. apply and_iff_compat_r. rewrite !Forall_fmap. unfold compose. rewrite P. reflexivity.
Qed.
Lemma fold_attr_block n (l : list (gostr * gostr)) : forall s, NoDup l.*1 -> has_attrs s n ->
  fold_left s_build (map (fun kv => CAddAttr n kv.1 kv.2) l) s = s_put_attrs s n (list_to_map l).
Proof.
  induction l as [|[k v] l IH]; intros s N HA; cbn [map fold_left].
  - symmetry. apply put_attrs_empty. exact HA.
  - cbn in N. apply NoDup_cons in N. destruct N as [N1 N2]. rewrite IH; [|exact N2|apply put_attrs_has; exact HA].
    cbn [s_build fst snd]. rewrite put_attrs_put. f_equal. change (list_to_map ((k, v) :: l)) with (<[k := v]> (list_to_map l : attrs)).
    rewrite insert_union_singleton_r; [reflexivity|]. apply not_elem_of_list_to_map. exact N1.
Qed.
Lemma wp_app_inv l1 : forall (K : list gostr) l2, wp K (l1 ++ l2) -> wp K l1 /\ exists K', (forall n, n ∈ K' -> n ∈ K \/ exists c, c ∈ l1 /\ opens n c) /\ wp K' l2.
Proof.
  induction l1 as [|c l1 IH]; intros K l2 W; cbn [app] in W.
  - split; [exact I|]. exists K. split; [auto|exact W].
  - assert (HH : forall K0, wp K0 (l1 ++ l2) -> wp K0 l1 /\ exists K', (forall n, n ∈ K' -> n ∈ K0 \/ exists c0, c0 ∈ c :: l1 /\ opens n c0) /\ wp K' l2).
    { intros K0 W0. destruct (IH _ _ W0) as (W1 & K' & HK & W2). split; [exact W1|]. exists K'. split; [|exact W2].
      intros n Hn. destruct (HK n Hn) as [?|(c0 & H1 & H2)]; [auto|right]. exists c0. split; [apply elem_of_cons; auto|exact H2]. }
    destruct c; cbn [wp] in *; try (apply HH; exact W).
    + destruct W as [W1 W2]. destruct (HH _ W2) as [H1 H2]. auto.
    + destruct (HH _ W) as (W1 & K' & HK & W2). split; [exact W1|]. exists K'. split; [|exact W2].
      intros n Hn. destruct (HK n Hn) as [H|H]; [|auto]. apply elem_of_cons in H. destruct H as [->|H]; [|auto].
      right. eexists. split; [apply elem_of_cons; left; reflexivity|]. eexists _, _. reflexivity.
Qed.
Lemma trace_eq_build l l' : trace_eq l l' -> forall K s, wp K l -> (forall n, n ∈ K -> has_attrs s n) ->
  fold_left s_build l s = fold_left s_build l' s.
Proof.
  induction 1 as [|c l l' _ IH|n l1 l2 l l' N P _ IH]; intros K s W HK.
  - reflexivity.
  - cbn [fold_left]. assert (HT : forall K', wp K' l -> (forall n, n ∈ K' -> has_attrs (s_build s c) n) -> fold_left s_build l (s_build s c) = fold_left s_build l' (s_build s c)) by (intros K'; apply (IH K')).
    destruct c; cbn [wp] in W; try (apply (HT K); [exact W|exact HK]).
    + destruct W as [W1 W2]. apply (HT K); [exact W2|]. intros n Hn. apply put_attrs_has. auto.
    + apply (HT (name :: K)); [exact W|]. intros n' Hn. cbn. apply put_attrs_has. apply elem_of_cons in Hn. destruct Hn as [->|Hn].
      * right. unfold s_is_sub. cbn. rewrite lookup_insert. eauto.
      * destruct (HK _ Hn) as [E|E]; [left; exact E|right]. unfold s_is_sub. cbn. apply lookup_insert_is_Some'. auto.
  - rewrite !fold_left_app. destruct l1 as [|kv l1].
    { apply Permutation_nil in P. subst l2. apply (IH K); assumption. }
    assert (HA : has_attrs s n) by (cbn in W; apply HK; apply W).
    rewrite fold_attr_block by assumption. rewrite fold_attr_block; [|rewrite <- P; exact N|exact HA].
    rewrite <- (list_to_map_proper _ _ N P).
    assert (W' : wp K l). { clear -W. revert W. induction (kv :: l1) as [|x l0 IH]; cbn; [auto|]. intros [_ H]. auto. }
    apply (IH K); [exact W'|]. intros n' Hn. apply put_attrs_has. auto.
Qed.

(** ** Bodies within bodies *)
Lemma body_split name nd ed pre0 pre s post l : body_calls name nd ed pre0 (pre ++ s :: post) l ->
  exists l1 l2 l3, l = l1 ++ l2 ++ l3 /\ body_calls name nd ed pre0 pre l1 /\ stmt_calls name nd ed (pre0 ++ pre) s l2 /\ body_calls name nd ed (pre0 ++ pre ++ [s]) post l3.
Proof.
  revert pre0 l. induction pre as [|s0 pre IH]; intros pre0 l H; cbn [app] in H; inversion H; subst.
  - eexists [], l0, l'. split; [reflexivity|]. split; [constructor|]. rewrite app_nil_r. auto.
  - match goal with X : body_calls _ _ _ (pre0 ++ [s0]) _ _ |- _ => apply IH in X; destruct X as (l1 & l2 & l3 & -> & H1 & H2 & H3) end.
    exists (l0 ++ l1), l2, l3. rewrite <- app_assoc. split; [reflexivity|]. split; [econstructor; eassumption|].
    rewrite <- !app_assoc in *. auto.
Qed.
Lemma locs_sub name nd ed pre ls l g : locs_calls name nd ed pre ls l -> Ast.LSub g ∈ ls ->
  exists l1 l2 l3, l = l1 ++ l2 ++ l3 /\ sub_calls name nd ed pre g l2.
Proof.
  revert l. induction ls as [|lo ls IH]; intros l H E; [inversion E|]. apply elem_of_cons in E. inversion H; subst.
  - destruct E as [E|E]; [discriminate|]. auto.
  - destruct E as [E|E].
    + inversion E; subst. eexists [], l0, l'. auto.
    + match goal with X : locs_calls _ _ _ _ ls _ |- _ => destruct (IH _ X E) as (l1 & l2 & l3 & -> & HS) end.
      exists (l0 ++ l1), l2, l3. rewrite <- app_assoc. auto.
Qed.
Lemma within_calls name nd ed body name' nd' ed' body' : within name nd ed body name' nd' ed' body' ->
  forall l, body_calls name nd ed [] body l ->
  exists l1 l' l2, l = l1 ++ l' ++ l2 /\ body_calls name' nd' ed' [] body' l'.
Proof.
  induction 1 as [name nd ed body|name nd ed pre s post id inner name' nd' ed' body' Hs _ IH]; intros l H.
  - exists [], l, []. rewrite app_nil_r. auto.
  - apply body_split in H. destruct H as (l1 & l2 & l3 & -> & _ & HS & _). cbn [app] in HS.
    assert (HG : exists m1 m2 m3, l2 = m1 ++ m2 ++ m3 /\ sub_calls name nd ed pre (Ast.SubGraph id inner) m2).
    { destruct Hs as [->|(src & rhs & a & -> & E)]; inversion HS; subst.
      - exists [], l2, []. rewrite app_nil_r. auto.
      - match goal with X : locs_calls _ _ _ _ _ _ |- _ => destruct (locs_sub _ _ _ _ _ _ _ X E) as (m1 & m2 & m3 & -> & HG) end.
        eexists (_ ++ m1), m2, m3. split; [apply app_assoc|exact HG]. }
    destruct HG as (m1 & m2 & m3 & -> & HG). inversion HG; subst.
    match goal with X : body_calls _ _ _ [] inner _ |- _ => destruct (IH _ X) as (k1 & k2 & k3 & -> & HK) end.
    exists (l1 ++ m1 ++ CAddSubGraph name id (graph_defaults ∅ pre) :: k1), k2, (k3 ++ m3 ++ l3). split; [|exact HK].
    rewrite <- !app_assoc. cbn [app]. rewrite <- !app_assoc. reflexivity.
Qed.

(** ** Mentioned nodes are added *)
Definition adds (p n : gostr) (cs : list call) : Prop := exists m, CAddNode p n m ∈ cs.
Lemma adds_app p n l1 l2 : adds p n (l1 ++ l2) <-> adds p n l1 \/ adds p n l2.
Proof. unfold adds. setoid_rewrite elem_of_app. naive_solver. Qed.
Lemma endpoint_adds name d (seen : list gostr) lo n : n ∈ plain lo -> n ∈ seen \/ adds name n (endpoint_call name d seen lo).
Proof.
  destruct lo as [x|g]; cbn; intros H; [|inversion H]. apply elem_of_list_singleton in H. subst n.
  destruct (decide (Ast.nid_id x ∈ seen)) as [D|D]; [auto|right]. eexists. apply elem_of_list_singleton. reflexivity.
Qed.
Lemma arrow_adds name d m rhs : forall (seen : list gostr) src n, n ∈ flat_map (fun e => plain (dst_of e)) rhs ->
  n ∈ seen \/ adds name n (arrow_calls name d m seen src rhs).
Proof.
  induction rhs as [|[op dst] rhs IH]; intros seen src n H; cbn in *; [inversion H|].
  rewrite adds_app. apply elem_of_app in H. destruct H as [H|H].
  - destruct (endpoint_adds name d seen dst n H); auto.
  - destruct (IH (seen ++ plain dst) dst n H) as [E|E].
    + apply elem_of_app in E. destruct E as [E|E]; [auto|]. destruct (endpoint_adds name d seen dst n E); auto.
    + right. right. destruct E as [m' E]. exists m'. apply elem_of_cons. auto.
Qed.
Lemma stmt_adds name nd ed pre s l n : stmt_calls name nd ed pre s l -> n ∈ mentions s -> n ∈ mentioned pre \/ adds name n l.
Proof.
  intros H E. destruct H; cbn in E; try (inversion E; fail).
  - apply elem_of_list_singleton in E. subst. right. eexists. apply elem_of_list_singleton. reflexivity.
  - rewrite !adds_app. apply elem_of_app in E. destruct E as [E|E].
    + destruct (endpoint_adds name (node_defaults nd pre) (mentioned pre) src n E); auto.
    + destruct (arrow_adds name (node_defaults nd pre) (given a ∪ edge_defaults ed pre) rhs (mentioned pre ++ plain src) src n E) as [D|D]; [|auto].
      apply elem_of_app in D. destruct D as [D|D]; [auto|]. destruct (endpoint_adds name (node_defaults nd pre) (mentioned pre) src n D); auto.
Qed.
Lemma body_adds name nd ed body : forall pre l n, body_calls name nd ed pre body l -> n ∈ mentioned body -> n ∈ mentioned pre \/ adds name n l.
Proof.
  induction body as [|s body IH]; intros pre l n H E; inversion H; subst; cbn in E; [inversion E|]. rewrite adds_app.
  apply elem_of_app in E. destruct E as [E|E].
  - match goal with X : stmt_calls _ _ _ _ _ _ |- _ => destruct (stmt_adds _ _ _ _ _ _ _ X E); auto end.
  - match goal with X : body_calls _ _ _ (pre ++ [s]) _ _ |- _ => destruct (IH _ _ _ X E) as [D|D]; [|auto] end.
    rewrite mentioned_app in D. apply elem_of_app in D. destruct D as [D|D]; [auto|]. cbn in D. rewrite app_nil_r in D.
    match goal with X : stmt_calls _ _ _ _ _ _ |- _ => destruct (stmt_adds _ _ _ _ _ _ _ X D); auto end.
Qed.

(** ** Endpoints of edges are added *)
Definition covered (cs : list call) (x : gostr) : Prop := (exists p, adds p x cs) \/ exists c, c ∈ cs /\ opens x c.
Lemma covered_app l1 l2 x : covered (l1 ++ l2) x <-> covered l1 x \/ covered l2 x.
Proof. unfold covered. setoid_rewrite adds_app. setoid_rewrite elem_of_app. naive_solver. Qed.
Definition ends (e : edge) (x : gostr) : Prop := e_src e = x \/ e_dst e = x.
Definition ends_in (es : list edge) (P : gostr -> Prop) : Prop := forall e x, e ∈ es -> ends e x -> P x.
Lemma edges_result_app l1 l2 : edges_result (l1 ++ l2) = edges_result l1 ++ edges_result l2.
Proof. apply flat_map_app. Qed.
Lemma endpoint_edges name d seen lo : edges_result (endpoint_call name d seen lo) = [].
Proof. destruct lo; cbn; [|reflexivity]. destruct (decide _); reflexivity. Qed.
Lemma arrow_edges name d m rhs : forall seen src, edges_result (arrow_calls name d m seen src rhs) = map (arrow_edge m) (arrows src rhs).
Proof.
  induction rhs as [|[op dst] rhs IH]; intros seen src; [reflexivity|]. cbn [arrow_calls arrows map]. rewrite edges_result_app, endpoint_edges. cbn. f_equal. apply IH.
Qed.
Lemma arrows_ends m rhs : forall src e x, e ∈ map (arrow_edge m) (arrows src rhs) -> ends e x -> x ∈ map end_name (src :: map dst_of rhs).
Proof.
  induction rhs as [|[op dst] rhs IH]; intros src e x H E; cbn in *; [inversion H|]. apply elem_of_cons in H. destruct H as [->|H].
  - destruct E as [<-|<-]; cbn; set_solver.
  - specialize (IH dst e x H E). set_solver.
Qed.
Lemma loc_covered name nd ed pre ls l lo : locs_calls name nd ed pre ls l -> lo ∈ ls -> end_name lo ∈ plain lo \/ covered l (end_name lo).
Proof.
  intros H E. destruct lo as [n|[id body]]; cbn; [left; apply elem_of_list_singleton; reflexivity|]. right.
  destruct (locs_sub _ _ _ _ _ _ _ H E) as (l1 & l2 & l3 & -> & HS). inversion HS; subst. rewrite !covered_app. right. left.
  right. eexists. split; [apply elem_of_cons; left; reflexivity|]. eexists _, _. reflexivity.
Qed.
Lemma calls_covered :
  (forall name nd ed pre s l, stmt_calls name nd ed pre s l -> ends_in (edges_result l) (fun x => covered l x \/ x ∈ mentioned pre)) /\
  (forall name nd ed pre ls l, locs_calls name nd ed pre ls l -> ends_in (edges_result l) (covered l)) /\
  (forall name nd ed pre g l, sub_calls name nd ed pre g l -> ends_in (edges_result l) (covered l)) /\
  (forall name nd ed pre body l, body_calls name nd ed pre body l -> ends_in (edges_result l) (fun x => covered l x \/ x ∈ mentioned pre)).
Proof.
  apply (calls_ind (fun name nd ed pre s l => ends_in (edges_result l) (fun x => covered l x \/ x ∈ mentioned pre))
    (fun name nd ed pre ls l => ends_in (edges_result l) (covered l)) (fun name nd ed pre g l => ends_in (edges_result l) (covered l))
    (fun name nd ed pre body l => ends_in (edges_result l) (fun x => covered l x \/ x ∈ mentioned pre)));
    try (intros; intros e x H; inversion H; fail).
  - intros name nd ed pre src rhs a l HL IH e x He Hx. rewrite edges_result_app in He. apply elem_of_app in He. destruct He as [He|He].
    + rewrite edges_result_app, endpoint_edges, arrow_edges in He. pose proof (arrows_ends _ _ _ _ _ He Hx) as HI.
      apply elem_of_list_fmap in HI. destruct HI as (lo & -> & HI).
      destruct (loc_covered _ _ _ _ _ _ _ HL HI) as [D|D]; [|left; rewrite covered_app; auto].
      assert (HM : end_name lo ∈ mentions (Ast.SEdge src rhs a)).
      { cbn. apply elem_of_app. apply elem_of_cons in HI. destruct HI as [->|HI]; [auto|right].
        apply elem_of_list_In, in_flat_map. apply elem_of_list_fmap in HI. destruct HI as (e0 & -> & HI). exists e0. split; apply elem_of_list_In; assumption. }
      destruct (stmt_adds name nd ed pre _ _ _ (Sc_edge _ _ _ _ _ _ _ _ HL) HM) as [D'|D']; [auto|]. left. left. eexists. exact D'.
    + left. rewrite covered_app. right. eapply IH; eassumption.
  - intros name nd ed pre a l _ e x He. exfalso. clear -He. induction l as [|kv l IH]; cbn in He; [inversion He|auto].
  - intros name nd ed pre g l _ IH e x He Hx. left. eapply IH; eassumption.
  - intros name nd ed pre n ls l _ IH e x He Hx. eapply IH; eassumption.
  - intros name nd ed pre g ls l l' _ IH1 _ IH2 e x He Hx. rewrite edges_result_app in He. rewrite covered_app. apply elem_of_app in He.
    destruct He as [He|He]; [left; eapply IH1|right; eapply IH2]; eassumption.
  - intros name nd ed pre id body l _ IH e x He Hx. cbn in He. destruct (IH e x He Hx) as [H|H]; [|inversion H].
    change (covered ([CAddSubGraph name id (graph_defaults ∅ pre)] ++ l) x). rewrite covered_app. auto.
  - intros name nd ed pre s body l l' HS IH1 _ IH2 e x He Hx. rewrite edges_result_app in He. rewrite covered_app. apply elem_of_app in He. destruct He as [He|He].
    + destruct (IH1 e x He Hx); auto.
    + destruct (IH2 e x He Hx) as [D|D]; [auto|]. rewrite mentioned_app in D. apply elem_of_app in D. destruct D as [D|D]; [auto|].
      cbn in D. rewrite app_nil_r in D. destruct (stmt_adds _ _ _ _ _ _ _ HS D) as [D'|D']; [auto|]. left. left. left. eexists. exact D'.
Qed.
Definition body_covered := proj2 (proj2 (proj2 calls_covered)).

(** ** All the edges *)
Lemma sub_edges_eq ed id body : sub_edges ed (Ast.SubGraph id body) = body_edges ed body.
Proof.
  cbn [sub_edges]. revert ed. induction body as [|s body IH]; intros ed; [reflexivity|]. cbn [body_edges]. f_equal.
Qed.
Lemma calls_edges :
  (forall name nd ed pre s l, stmt_calls name nd ed pre s l -> edges_result l = stmt_edges (edge_defaults ed pre) s) /\
  (forall name nd ed pre ls l, locs_calls name nd ed pre ls l -> edges_result l = flat_map (loc_edges (edge_defaults ed pre)) ls) /\
  (forall name nd ed pre g l, sub_calls name nd ed pre g l -> edges_result l = sub_edges (edge_defaults ed pre) g) /\
  (forall name nd ed pre body l, body_calls name nd ed pre body l -> edges_result l = body_edges (edge_defaults ed pre) body).
Proof.
  apply (calls_ind (fun name nd ed pre s l => edges_result l = stmt_edges (edge_defaults ed pre) s)
    (fun name nd ed pre ls l => edges_result l = flat_map (loc_edges (edge_defaults ed pre)) ls)
    (fun name nd ed pre g l => edges_result l = sub_edges (edge_defaults ed pre) g)
    (fun name nd ed pre body l => edges_result l = body_edges (edge_defaults ed pre) body)); try (intros; reflexivity).
  - intros name nd ed pre src rhs a l _ IH. rewrite !edges_result_app, endpoint_edges, arrow_edges, IH. cbn [app flat_map stmt_edges]. do 2 f_equal.
    clear. induction rhs as [|[op d] rhs IH]; [reflexivity|]. cbn [map flat_map dst_of]. rewrite IH. reflexivity.
  - intros name nd ed pre a l _. induction l; [reflexivity|assumption].
  - intros name nd ed pre g l _ IH. exact IH.
  - intros name nd ed pre n ls l _ IH. exact IH.
  - intros name nd ed pre g ls l l' _ IH1 _ IH2. rewrite edges_result_app, IH1, IH2. reflexivity.
  - intros name nd ed pre id body l _ IH. rewrite sub_edges_eq. exact IH.
  - intros name nd ed pre s body l l' _ IH1 _ IH2. rewrite edges_result_app, IH1, IH2, ed_app. reflexivity.
Qed.
Definition body_edges_ok := proj2 (proj2 (proj2 calls_edges)).

(** ** The parents in the calls are the graph or opened subgraphs *)
Definition parents_in (name : gostr) (l : list call) : Prop :=
  forall cl p c, cl ∈ l -> relates p c cl -> p = name \/ exists c', c' ∈ l /\ opens p c'.
Lemma parents_app name l1 l2 : parents_in name l1 -> parents_in name l2 -> parents_in name (l1 ++ l2).
Proof.
  intros H1 H2 cl p c H R. apply elem_of_app in H. destruct H as [H|H]; [destruct (H1 cl p c H R) as [D|(c' & D & D')]|destruct (H2 cl p c H R) as [D|(c' & D & D')]]; auto;
    right; exists c'; (split; [apply elem_of_app; auto|exact D']).
Qed.
Lemma parents_none name l : (forall cl p c, cl ∈ l -> relates p c cl -> p = name) -> parents_in name l.
Proof. intros H cl p c H1 H2. left. eapply H; eassumption. Qed.
Lemma endpoint_parent name d seen lo : forall cl p c, cl ∈ endpoint_call name d seen lo -> relates p c cl -> p = name.
Proof.
  intros cl p c. destruct lo; cbn; [|intros H; inversion H]. destruct (decide _); intros H; [inversion H|].
  apply elem_of_list_singleton in H. subst. intros (m & [E|E]); congruence.
Qed.
Lemma arrow_parent name d m rhs : forall seen src cl p c, cl ∈ arrow_calls name d m seen src rhs -> relates p c cl -> p = name.
Proof.
  induction rhs as [|[op dst] rhs IH]; intros seen src cl p c H R; cbn in H; [inversion H|].
  apply elem_of_app in H. destruct H as [H|H]; [eapply endpoint_parent; eassumption|]. apply elem_of_cons in H. destruct H as [->|H]; [|eapply IH; eassumption].
  destruct R as (m' & [E|E]); discriminate.
Qed.
Lemma calls_parents :
  (forall name nd ed pre s l, stmt_calls name nd ed pre s l -> parents_in name l) /\
  (forall name nd ed pre ls l, locs_calls name nd ed pre ls l -> parents_in name l) /\
  (forall name nd ed pre g l, sub_calls name nd ed pre g l -> parents_in name l) /\
  (forall name nd ed pre body l, body_calls name nd ed pre body l -> parents_in name l).
Proof.
  apply (calls_ind (fun name _ _ _ _ l => parents_in name l) (fun name _ _ _ _ l => parents_in name l)
    (fun name _ _ _ _ l => parents_in name l) (fun name _ _ _ _ l => parents_in name l)); intros; auto using parents_app;
    try (intros cl p c HH; inversion HH; fail).
  - intros cl p c HH R. apply elem_of_list_singleton in HH. subst. destruct R as (m' & [E|E]); [left; congruence|discriminate].
  - apply parents_app; [|assumption]. apply parents_none. intros cl p c HH R. apply elem_of_app in HH. destruct HH as [HH|HH]; [eapply endpoint_parent|eapply arrow_parent]; eassumption.
  - intros cl p c HH R. apply elem_of_list_fmap in HH. destruct HH as (x & -> & _). destruct R as (m' & [E|E]); discriminate.
  - intros cl p c HH R. apply elem_of_list_singleton in HH. subst. destruct R as (m' & [E|E]); discriminate.
  - intros cl p c HH R. apply elem_of_cons in HH. destruct HH as [->|HH].
    + destruct R as (m' & [E|E]); [discriminate|left; congruence].
    + right. match goal with X : parents_in id l |- _ => destruct (X cl p c HH R) as [->|(c' & D & D')] end.
      * eexists. split; [apply elem_of_cons; left; reflexivity|]. eexists _, _. reflexivity.
      * exists c'. split; [apply elem_of_cons; auto|exact D'].
Qed.
Lemma calls_parents_body name nd ed pre body l : body_calls name nd ed pre body l -> parents_in name l.
Proof. apply calls_parents. Qed.
