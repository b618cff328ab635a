(** Property C51: when the text of a graph that was built by calls can be read back, with and without Escape. *)
From stdpp Require Import sorting.
From Verif Require Import Base Parser Maps Graph AttrMap SpecGraph MapFacts GraphProofs.
From Verif Require Import Write SpecWrite EdgeOrder WriteProofs SpecRound Prune Escape SpecEscape EscapeProofs.
From Verif Require Import Analyse SpecAnalyse LexPrint AstProofs.
From Verif Require Ast EscapeFacts PropsGraph PropsWrite PropsEscape PropsEscape2 PropsText.
From Verif Require Import Direct SpecDirect DirectProofs.
Notation o_id := PropsGraph.o_id.
Notation A := PropsGraph.A.
Notation srt0 := PropsWrite.srt0.
Notation none := PropsEscape.none.

(** ** The strings that a call gives to the graph *)
(** Names of nodes and subgraphs, and attribute values; edges do not create nodes. *)
Definition value_of (m : attrs) (s : gostr) : Prop := exists k, m !! k = Some s.
Inductive gives : call -> gostr -> Prop :=
| Gv_node p n m : gives (CAddNode p n m) n
| Gv_node_value p n m s : value_of m s -> gives (CAddNode p n m) s
| Gv_sub p n m : gives (CAddSubGraph p n m) n
| Gv_sub_value p n m s : value_of m s -> gives (CAddSubGraph p n m) s
| Gv_edge_value a b d m s : value_of m s -> gives (CAddEdge a b d m) s
| Gv_port_edge_value a pa b pb d m s : value_of m s -> gives (CAddPortEdge a pa b pb d m) s
| Gv_attr n f v : gives (CAddAttr n f v) v.
(** A port that is printed as :p or :p:c, where p and c are IDs, or as nothing. *)
Definition prints_well (p : gostr) : Prop := forall t, prints_port p t -> exists q, good_port q /\ t = read_port q.
Definition good_ports (c : call) : Prop := forall a pa b pb d m, c = CAddPortEdge a pa b pb d m -> prints_well pa /\ prints_well pb.
(** Calls of Graph with IDs, ... *)
Record id_call (c : call) : Prop := IdCall {
  ic_gives : forall s, gives c s -> good_id s;
  ic_name : forall n, c = CSetName n -> n = [] \/ good_id n;
  ic_ports : good_ports c }.
(** ... and calls of Escape with any strings whose escaped form is an ID (C41 tells which). *)
Section Escaped.
  Variable uletter udigit : N -> bool.
  Notation esc := (esc uletter udigit).
  Notation esc_exec := (esc_exec uletter udigit).
  Record text_call (c : call) : Prop := TextCall {
    tc_gives : forall s t, gives c s -> esc s = Some t -> is_id t;
    tc_name : forall n t, c = CSetName n -> n = [] \/ (esc n = Some t -> is_id t);
    tc_ports : good_ports c }.
  Inductive esc_built : agraph -> Prop :=
  | Eb_new : esc_built new_graph
  | Eb_call g oe o c g' r : esc_built g -> fair oe -> fair o -> text_call c -> esc_exec oe o c g = Some (g', r) -> esc_built g'.
End Escaped.
Inductive id_built : agraph -> Prop :=
| Ib_new : id_built new_graph
| Ib_call g o c : id_built g -> fair o -> id_call c -> id_built (exec o c g).1.

(** ** Legible graphs stay legible *)
Definition okA (m : attrs) : Prop := forall k v, m !! k = Some v -> good_id v.
Definition okN (m : gmap gostr attrs) : Prop := forall x a, m !! x = Some a -> good_id x /\ okA a.
Definition okE (l : list edge) : Prop := forall e, e ∈ l -> prints_well (e_src_port e) /\ prints_well (e_dst_port e) /\ okA (e_attrs e).
Definition good (s : sgraph) : Prop := (s_name s = [] \/ good_id (s_name s)) /\ okA (s_attrs s) /\ okN (s_nodes s) /\ okE (s_edges s) /\ okN (s_subs s).
Lemma good_legible s : good s -> legible s.
Proof.
  intros (H1 & H2 & H3 & H4 & H5). split; [exact H1|..].
  - intros n [[m K]|[m K]]; [exact (proj1 (H3 n m K))|exact (proj1 (H5 n m K))].
  - intros m k v K. destruct K as [|n m K|n m K|e K]; [apply H2|apply (H3 n m K)|apply (H5 n m K)|apply (H4 e K)].
  - intros n port t (e & He & K) _. destruct (H4 e He) as (P1 & P2 & _). destruct K as [(_ & ->)|(_ & ->)]; [apply P1|apply P2].
Qed.
Ltac spl := refine (conj _ (conj _ (conj _ (conj _ _)))); cbn; try assumption.
Lemma okA_union m1 m2 : okA m1 -> okA m2 -> okA (m1 ∪ m2).
Proof. intros H1 H2 k v E. apply lookup_union_Some_raw in E. destruct E as [E|[_ E]]; [eapply H1|eapply H2]; exact E. Qed.
Lemma okA_empty : okA ∅.
Proof. intros k v E. rewrite lookup_empty in E. discriminate. Qed.
Lemma okA_default m x : okN m -> okA (default ∅ (m !! x)).
Proof. intros H. destruct (m !! x) as [a|] eqn:E; [exact (proj2 (H x a E))|apply okA_empty]. Qed.
Lemma okN_insert m x a : good_id x -> okA a -> okN m -> okN (<[x := a]> m).
Proof. intros Hx Ha H y b E. apply lookup_insert_Some in E. destruct E as [[<- <-]|[_ E]]; [auto|exact (H y b E)]. Qed.
Lemma okE_filter l (P : edge -> Prop) {D : forall e, Decision (P e)} : okE l -> okE (filter P l).
Proof. intros H e E. apply elem_of_list_filter in E. apply H, E. Qed.
Lemma good_put s n m : good s -> (s_name s = n \/ s_is_sub s n) -> okA m -> good (s_put_attrs s n m).
Proof.
  intros (H1 & H2 & H3 & H4 & H5) Hn Hm. unfold s_put_attrs. destruct (decide _) as [D|D].
  - spl. apply okA_union; assumption.
  - spl. apply okN_insert; try assumption; [|apply okA_union; [exact Hm|apply okA_default; exact H5]].
    destruct Hn as [Hn|[a Hn]]; [contradiction|exact (proj1 (H5 n a Hn))].
Qed.
Lemma good_open s p n : good s -> good_id n -> good (s_open_sub s p n).
Proof. intros (H1 & H2 & H3 & H4 & H5) Hn. unfold s_open_sub. spl. apply okN_insert; try assumption. apply okA_default. exact H5. Qed.
Lemma open_is s p n : s_is_sub (s_open_sub s p n) n.
Proof. unfold s_is_sub, s_open_sub. cbn. rewrite lookup_insert. eauto. Qed.
Lemma good_drop s p N : good s -> good (s_drop_nodes s p N).
Proof.
  intros (H1 & H2 & H3 & H4 & H5). unfold s_drop_nodes. spl.
  - intros x a E. apply map_filter_lookup_Some in E. apply H3, E.
  - apply okE_filter. exact H4.
Qed.
Lemma no_port : prints_well [].
Proof. intros t T. exists []. split; [left; reflexivity|]. exact (PropsReread.C37_printed_unique [] t [] T Pp_none). Qed.
Lemma good_call c s s' r : id_call c -> spec_call c s s' r -> good s -> good s'.
Proof.
  intros [Ig In Ip] H G. pose proof G as (H1 & H2 & H3 & H4 & H5). inversion H; subst; try exact G.
  - spl. apply In. reflexivity.
  - destruct (Ip _ _ _ _ _ _ eq_refl) as [P1 P2]. spl. intros e He. apply elem_of_app in He. destruct He as [He|He]; [exact (H4 e He)|]. apply elem_of_list_singleton in He. subst e. cbn. split; [exact P1|]. split; [exact P2|].
    intros k v K. apply Ig. constructor. exists k. exact K.
  - spl. intros e He. apply elem_of_app in He. destruct He as [He|He]; [exact (H4 e He)|]. apply elem_of_list_singleton in He. subst e. cbn. split; [apply no_port|]. split; [apply no_port|].
    intros k v K. apply Ig. constructor. exists k. exact K.
  - spl. apply okN_insert; [apply Ig; constructor| |exact H3]. apply okA_union; [|apply okA_default; exact H3]. intros k v K. apply Ig. apply Gv_node_value. exists k. exact K.
  - apply good_put; [exact G|assumption|]. intros k w Ek. apply lookup_singleton_Some in Ek. destruct Ek as [_ <-]. apply Ig. constructor.
  - apply good_put; [apply good_open; [exact G|apply Ig; constructor]|right; apply open_is|]. intros k v K. apply Ig. apply Gv_sub_value. exists k. exact K.
  - apply good_put; [apply good_open; [exact G|apply Ig; constructor]|right; apply open_is|].
    intros k v K. apply Ig. apply Gv_sub_value. exists k. eapply lookup_weaken; eassumption.
  - apply good_drop. exact G.
  - destruct (good_drop s p N G) as (G1 & G2 & G3 & G4 & G5). cbv zeta. spl.
    + apply okE_filter. exact G4.
    + intros x a Ex. apply lookup_delete_Some in Ex. apply G5, Ex.
  - apply good_drop. exact G.
Qed.
Lemma good_new : good (view new_graph).
Proof.
  rewrite view_new. split; [left; reflexivity|]. split; [apply okA_empty|]. split; [intros x a H; cbn in H; rewrite lookup_empty in H; discriminate|].
  split; [intros e H; inversion H|]. intros x a H; cbn in H; rewrite lookup_empty in H; discriminate.
Qed.

(** ** C51 *)
Lemma id_reachable g : id_built g -> reachable g.
Proof. induction 1 as [|g o c R IH Fo I]; [constructor|]. constructor; assumption. Qed.
Lemma id_legible g : id_built g -> good (view g).
Proof.
  induction 1 as [|g o c R IH Fo I]; [apply good_new|]. pose proof (PropsGraph.C23_refinement_step o c g Fo (id_reachable g R)) as S. eapply good_call; eassumption.
Qed.
(** What a reader of the text gets of the graph. *)
Definition shown (g g' : agraph) : Prop :=
  g_name g' = g_name g /\ g_directed g' = g_directed g /\ g_strict g' = g_strict g /\
  (exists es, edges_list (g_edges g') ≡ₚ es /\ Forall2 printed_edge (edges_list (g_edges g)) es) /\
  (plain_graph (view g) -> text_graph (view g) (view g')).
Lemma legible_shown srt o g fuel a : fair o -> sorts (edge_less o) srt -> proper g -> legible (view g) -> write_ast srt o g fuel = Ok a ->
  exists txt, graph_string srt o g fuel = Ok txt /\
    forall rnd os ord k, (forall i, fair (os i)) -> fair_order ord -> exists g', read rnd os ord k txt = Ok (g', k) /\ shown g g'.
Proof.
  intros Fo So R L W. destruct (PropsText.C50_valid_text srt o g fuel a Fo So R L W) as (txt & E & H). exists txt. split; [exact E|]. intros rnd os ord k Fos Ford.
  destruct (H rnd os ord k Fos Ford) as (g' & E' & _ & N & D & St & Es & _). exists g'. split; [exact E'|]. split; [exact N|]. split; [exact D|]. split; [exact St|]. split; [exact Es|].
  intros P. destruct (PropsText.C35_exact srt o g fuel a Fo So R L P W) as (txt2 & E2 & H2). assert (txt2 = txt) as -> by congruence.
  destruct (H2 rnd os ord k Fos Ford) as (g2 & E3 & _ & TG). rewrite E' in E3. assert (g2 = g') as -> by congruence. exact TG.
Qed.
Theorem C51_graph_text : forall srt o g fuel a, fair o -> sorts (edge_less o) srt -> id_built g -> write_ast srt o g fuel = Ok a ->
  exists txt, graph_string srt o g fuel = Ok txt /\
    forall rnd os ord k, (forall i, fair (os i)) -> fair_order ord -> exists g', read rnd os ord k txt = Ok (g', k) /\ shown g g'.
Proof. intros srt o g fuel a Fo So B W. eapply legible_shown; try eassumption; [apply reachable_proper, id_reachable; exact B|apply good_legible, id_legible; exact B]. Qed.
Print Assumptions C51_graph_text.

Section C51.
  Variable uletter udigit : N -> bool.
  Hypothesis digits : forall c, udigit c = true -> is_space c = false.   (* no Unicode digit is a space *)
  Notation esc := (esc uletter udigit).
  Lemma escaped_good s t : esc s = Some t -> is_id t -> good_id t.
  Proof. intros E I. split; [exact I|]. eapply PropsEscape.C41_printed_as_is; eassumption. Qed.
  Lemma escaped_id_call c c' : PropsEscape2.escaped_call uletter udigit c c' -> text_call uletter udigit c -> id_call c'.
  Proof.
    intros E [Tg Tn Tp].
    assert (V : forall m m' s, PropsEscape2.escaped_attrs uletter udigit m m' -> value_of m' s -> exists v, value_of m v /\ esc v = Some s).
    { intros m m' s [_ H] [k K]. destruct (H k s K) as (k0 & v & K0 & _ & Ev). exists v. split; [exists k0; exact K0|exact Ev]. }
    split.
    - intros s G. inversion E; subst; inversion G; subst;
        first [eapply escaped_good; [eassumption|]; eapply Tg; [constructor|eassumption]
              |match goal with HA : PropsEscape2.escaped_attrs _ _ _ _, HV : value_of _ _ |- _ => destruct (V _ _ _ HA HV) as (v & K1 & K2) end;
               eapply escaped_good; [exact K2|]; eapply Tg; [|exact K2]].
      + apply Gv_port_edge_value. exact K1.
      + apply Gv_edge_value. exact K1.
      + apply Gv_node_value. exact K1.
      + apply Gv_sub_value. exact K1.
    - intros n Ec. subst c'. inversion E; subst. destruct (Tn _ n eq_refl) as [K|K].
      + left. subst. match goal with H : esc [] = Some _ |- _ => cbn in H; injection H as <- end. reflexivity.
      + right. eapply escaped_good; [eassumption|]. apply K. assumption.
    - intros a pa b pb d m Ec. subst c'. inversion E; subst. eapply Tp. reflexivity.
  Qed.
  Theorem C51_escape_ids : forall g, esc_built uletter udigit g -> id_built g.
  Proof.
    induction 1 as [|g oe o c g' r B IH Foe Fo T E]; [constructor|]. destruct (PropsEscape2.C42_delegates _ _ _ _ _ _ _ _ Foe E) as (c' & Ec & E').
    replace g' with (exec o c' g).1 by (rewrite E'; reflexivity). constructor; [exact IH|exact Fo|]. eapply escaped_id_call; eassumption.
  Qed.
  Theorem C51_escape_text : forall srt o g fuel a, fair o -> sorts (edge_less o) srt -> esc_built uletter udigit g -> write_ast srt o g fuel = Ok a ->
    exists txt, graph_string srt o g fuel = Ok txt /\
      forall rnd os ord k, (forall i, fair (os i)) -> fair_order ord -> exists g', read rnd os ord k txt = Ok (g', k) /\ shown g g'.
  Proof. intros srt o g fuel a Fo So B W. eapply C51_graph_text; try eassumption. apply C51_escape_ids. exact B. Qed.
End C51.
Print Assumptions C51_escape_ids.
Print Assumptions C51_escape_text.

(** ** Examples *)
Definition hist : list call :=
  [CSetName (lit "G 1"); CSetDir true; CAddNode (lit "G 1") (lit "a b") (A [(lit "label", lit "x & ""y""")]); CAddSubGraph (lit "G 1") (lit "<b") (A [(lit "rank", lit "same")]);
   CAddNode (lit "<b") (lit "-5") ∅; CAddPortEdge (lit "a b") (lit "p:n") (lit "-5") [] true (A [(lit "color", lit "#ff0000")]); CAddEdge (lit "<b") (lit "a b") true ∅].
Definition gh : agraph := match PropsEscape2.esc_run hist new_graph with Some g => g | None => new_graph end.
(** Computable sufficient test of [text_call]. *)
Definition escb (s : gostr) : bool := match esc none none s with Some t => PropsEscape.is_idb t | None => true end.
Definition portsb (p : gostr) : bool := PropsText.shownb p.
Definition attrsb (m : attrs) : bool := forallb (fun kv => escb kv.2) (map_to_list m).
Definition textb (c : call) : bool :=
  match c with
  | CSetName n => bool_decide (n = []) || escb n
  | CAddNode _ n m | CAddSubGraph _ n m => escb n && attrsb m
  | CAddEdge _ _ _ m => attrsb m
  | CAddPortEdge _ p _ q _ m => PropsText.shownb p && PropsText.shownb q && attrsb m
  | CAddAttr _ _ v => escb v
  | _ => true
  end.
Lemma escb_ok s t : escb s = true -> esc none none s = Some t -> is_id t.
Proof. unfold escb. intros H E. rewrite E in H. apply PropsEscape.is_idb_spec. exact H. Qed.
Lemma attrsb_ok m s t : attrsb m = true -> value_of m s -> esc none none s = Some t -> is_id t.
Proof. intros H [k K]. apply escb_ok. unfold attrsb in H. rewrite forallb_forall in H. apply (H (k, s)), elem_of_list_In, elem_of_map_to_list. exact K. Qed.
Lemma textb_ok c : textb c = true -> text_call none none c.
Proof.
  intros H. split.
  - intros s t G. destruct G; cbn [textb] in H; rewrite ?andb_true_iff in H; repeat match goal with X : _ /\ _ |- _ => destruct X end; first [apply escb_ok; assumption|eapply attrsb_ok; eassumption].
  - intros n t ->. cbn [textb] in H. apply orb_true_iff in H. destruct H as [H|H]; [left; apply bool_decide_eq_true in H; exact H|right; apply escb_ok; exact H].
  - intros a pa b pb d m ->. cbn [textb] in H. rewrite !andb_true_iff in H. destruct H as [[H1 H2] _]. split; apply PropsText.shownb_ok; assumption.
Qed.
Lemma run_built h : forall g g', esc_built none none g -> forallb textb h = true -> PropsEscape2.esc_run h g = Some g' -> esc_built none none g'.
Proof.
  induction h as [|c h IH]; intros g g' B T E; cbn in E, T; [injection E as <-; exact B|]. apply andb_true_iff in T. destruct T as [T1 T2].
  destruct (esc_exec _ _ _ _ c g) as [[g1 r]|] eqn:E1; [|discriminate]. apply (IH g1 g'); [|exact T2|exact E].
  eapply Eb_call; [exact B|apply PropsGraph.fair_id|apply PropsGraph.fair_id|apply textb_ok; exact T1|exact E1].
Qed.
Lemma gh_run : PropsEscape2.esc_run hist new_graph = Some gh.
Proof.
  unfold gh. assert (B : (match PropsEscape2.esc_run hist new_graph with Some _ => true | None => false end) = true) by (vm_compute; reflexivity).
  destruct (PropsEscape2.esc_run hist new_graph); [reflexivity|discriminate B].
Qed.
Example C51_example : esc_built none none gh /\ plain_graph (view gh) /\ (exists a, write_ast srt0 o_id gh 9 = Ok a) /\
  length (edges_list (g_edges gh)) = 2 /\ size (s_nodes (view gh)) = 2 /\ size (g_subs gh) = 1.
Proof.
  split; [apply (run_built hist new_graph); [constructor|vm_compute; reflexivity|exact gh_run]|]. split; [apply PropsText.plainb_ok; vm_compute; reflexivity|].
  split; [|vm_compute; repeat split]. destruct (write_ast srt0 o_id gh 9) as [a|e| |] eqn:E; [eauto|exfalso; revert E; vm_compute; discriminate..].
Qed.
(** Escape keeps the keyword graph, and a backslash at the end of a string: such texts cannot be read; 1.2.3 is read as two nodes. *)
Definition one_node (n : gostr) : option agraph := PropsEscape2.esc_run [CSetName (lit "G"); CAddNode (lit "G") n ∅] new_graph.
Theorem C51_refuted :
  (forall n, In n [lit "graph"; lit "a b\"] -> exists g, esc_reachable none none g /\ one_node n = Some g /\ PropsText.unreadable g) /\
  (exists g, esc_reachable none none g /\ one_node (lit "1.2.3") = Some g /\
     match graph_string srt0 o_id g 9 with
     | Ok txt => match read PropsText.rnd0 PropsText.os_id PropsText.ord_id 0 txt with
       Ok (g', _) => is_node g' (lit "1.2") = true /\ is_node g' (lit ".3") = true /\ is_node g' (lit "1.2.3") = false | _ => False end
     | _ => False end).
Proof.
  assert (G : forall n (P : agraph -> Prop), match one_node n with Some g => P g | None => False end -> exists g, esc_reachable none none g /\ one_node n = Some g /\ P g).
  { intros n P X. destruct (one_node n) as [g|] eqn:E; [|destruct X]. exists g. split; [|split; [reflexivity|exact X]]. eapply PropsEscape2.esc_run_reachable; [constructor|exact E]. }
  split.
  - intros n H. apply G. cbn [In] in H. destruct H as [<-|[<-|[]]]; vm_compute; exact I.
  - apply G. vm_compute. repeat split.
Qed.
Print Assumptions C51_refuted.
