(** Property C50: the text of a graph can be read back; C35, C46: what comes back. *)
From stdpp Require Import sorting.
From Verif Require Import Base Parser Maps Graph AttrMap SpecGraph MapFacts GraphProofs.
From Verif Require Import Write SpecWrite EdgeOrder WriteProofs WriteFacts WriteFacts2 SpecRound RoundCalls RoundCalls2 RoundProofs RoundWrite RoundFinal TidyCheck Prune.
From Verif Require Import Analyse SpecAnalyse AnalyseProofs ReadProofs ReadFacts NormCalls SpecAst LexPrint AstProofs AstFacts.
From Verif Require Ast PropsGraph PropsWrite PropsAnalyse PropsReread PropsRound.
From Verif Require Import Direct SpecDirect DirectProofs.
Notation o_id := PropsGraph.o_id.
Notation A := PropsGraph.A.
Notation srt0 := PropsWrite.srt0.
Notation build := PropsWrite.build.
Notation rnd0 := PropsAnalyse.rnd0.
Notation os_id := PropsAnalyse.os_id.
Notation ord_id := PropsAnalyse.ord_id.

Lemma string_written srt o g fuel a : fair o -> built g -> write_ast srt o g fuel = Ok a ->
  c_write (view g) fuel (srt (s_edges (view g))) = Ok a /\ graph_string srt o g fuel = Ok (Ast.graph_str a).
Proof. intros Fo R H. unfold graph_string. rewrite H. rewrite (write_canon o g Fo (built_ok g R)) in H. split; [exact H|reflexivity]. Qed.
Lemma reachable_valid g : proper g -> forall m k v, holds_attrs (view g) m -> m !! k = Some v -> valid_attr k.
Proof. intros R m k v. apply holds_valid. exact R. Qed.

(** ** C50 *)
(** [legible] is defined in SpecRound.v: all names and values are IDs; nothing is asked of the shape of the graph. *)
Theorem C50_valid_text : forall srt o g fuel a, fair o -> sorts (edge_less o) srt -> proper g -> legible (view g) ->
  write_ast srt o g fuel = Ok a -> exists txt, graph_string srt o g fuel = Ok txt /\
  forall rnd os ord k, (forall i, fair (os i)) -> fair_order ord ->
  exists g', read rnd os ord k txt = Ok (g', k) /\ reachable g' /\
    g_name g' = g_name g /\ g_directed g' = g_directed g /\ g_strict g' = g_strict g /\
    (exists es, edges_list (g_edges g') ≡ₚ es /\ Forall2 printed_edge (edges_list (g_edges g)) es) /\
    (forall n, is_node g' n = true -> is_node g n = true \/ (cluster (view g) n /\ exists port, endpoint (view g) n port)) /\
    (forall n, is_subgraph g' n = true -> written (view g) n) /\
    (no_clash (view g) ->
       (forall n, is_node g n = true \/ (cluster (view g) n /\ exists port, endpoint (view g) n port) -> is_node g' n = true) /\
       (forall n, written (view g) n -> is_subgraph g' n = true)).
Proof.
  intros srt o g fuel a Fo So R L H. destruct (string_written _ _ _ _ _ Fo R H) as (Wr & HS). clear H. eexists. split; [exact HS|]. intros rnd os ord k Fos Ford.
  pose proof (proj1 (So (s_edges (view g)))) as P. set (es := srt (s_edges (view g))) in *. pose proof (reachable_valid g R) as V.
  pose proof (legible_wf (view g) fuel es a L V P Wr) as Wf. rewrite <- dp_graph_str.
  pose proof (legible_all (view g) es L P) as LE. pose proof (c_write_clip (view g) fuel es a LE Wr) as Wc. rewrite <- clipped_write in Wc.
  assert (Pc : map clip_edge es ≡ₚ s_edges (clipped (view g))) by (cbn; rewrite P; reflexivity).
  assert (Vc : forall m k v, holds_attrs (clipped (view g)) m -> m !! k = Some v -> valid_attr k) by (intros m k0 v K; apply V, clipped_holds; exact K).
  destruct (c_write_ok _ _ _ _ Wc) as (el & tops & ts & ns & Ea & Fe & Ft & _ & Ht & Hm & Hn).
  destruct (analysed_graph os ord (dp_graph a) Fos Ford) as (l & B & HA). pose proof (norm_analysed os ord os ord (dp_graph a) Fos Ford Fos Ford) as NA.
  assert (CO : Forall call_ok l) by (eapply calls_ok; eassumption).
  destruct (new_analysed_graph os ord (dp_graph a)) as [g0|e]; [|contradiction]. destruct HA as (_ & _ & HV).
  destruct (analysed_graph os ord (norm_graph (dp_graph a)) Fos Ford) as (l' & _ & HA').
  destruct (new_analysed_graph os ord (norm_graph (dp_graph a))) as [g'|e] eqn:Eg; [|contradiction]. destruct HA' as (_ & R' & _).
  exists g'. split; [unfold read; rewrite (ast_roundtrip rnd k _ Wf), Eg; reflexivity|]. split; [exact R'|]. rewrite HV in NA. symmetry in NA.
  destruct (text_flags (clipped (view g)) (dp_graph a) l el ns ts Ea) as (F1 & F2 & F3). rewrite <- NA in F1, F2, F3.
  split; [exact F1|]. split; [exact F2|]. split; [exact F3|].
  assert (EP : forall n, (exists port, endpoint (clipped (view g)) n port) <-> exists port, endpoint (view g) n port).
  { intros n. split; [intros (q & E); apply clipped_end in E; destruct E as (p & E & _); eauto|]. intros (p & E). exists (clip p). apply end_clipped. exact E. }
  split; [|split; [|split]].
  - pose proof (text_edges (clipped (view g)) fuel (map clip_edge es) (dp_graph a) l el tops ns ts Ea Fe Ft B) as E. rewrite <- NA in E.
    exists (map back (map clip_edge (s_edges (view g)))). split; [change (s_edges (view g') ≡ₚ map back (map clip_edge (s_edges (view g)))); rewrite E, P; reflexivity|].
    change (edges_list (g_edges g)) with (s_edges (view g)). rewrite map_map. apply Forall2_fmap_r, Forall2_same_length_lookup_2; [reflexivity|].
    intros i e e' H1 H2. assert (e' = e) as -> by congruence. apply elem_of_list_lookup_2 in H1. clear H2.
    assert (He : e ∈ es) by (rewrite P; exact H1). pose proof (proj1 (Forall_forall _ _) LE e He) as [L1 L2].
    assert (X : exists st, c_edge (view g) fuel e = Ok st).
    { destruct (c_write_ok _ _ _ _ Wr) as (el0 & ? & ? & ? & _ & Fe0 & _). destruct (elem_of_list_lookup_1 _ _ He) as [j Hj].
      destruct (Forall2_lookup_l _ _ _ _ _ Fe0 Hj) as (st & _ & X). eauto. }
    destruct X as [st X]. unfold c_edge in X.
    destruct (c_end (view g) fuel (e_src e) (e_src_port e)) as [l1|x| |] eqn:E1; cbn [bind] in X; try discriminate.
    destruct (c_end (view g) fuel (e_dst e) (e_dst_port e)) as [l2|x| |] eqn:E2; cbn [bind] in X; try discriminate. clear X.
    assert (G : forall n p lo, (s_is_node (view g) n -> legible_port p) -> c_end (view g) fuel n p = Ok lo -> prints_port p (port_back n (clip p))).
    { intros n p lo Lp Hp. unfold c_end in Hp. destruct (s_nodes (view g) !! n) as [b|] eqn:En.
      - destruct (clip_spec n p (Lp ltac:(exists b; exact En))) as (G1 & G2 & _). rewrite (proj1 (good_port_made n (clip p) G1)). exact G2.
      - destruct (s_subs (view g) !! n); [|discriminate]. destruct p; [constructor|discriminate]. }
    unfold printed_edge. cbn. repeat split; eapply G; eassumption.
  - intros n K. apply PropsReread.q_node in K. rewrite NA in K. assert (K' : s_is_node (clipped (view g)) n \/ (cluster (clipped (view g)) n /\ exists port, endpoint (clipped (view g)) n port)) by (eapply text_nodes; eassumption). clear K. destruct K' as [K|[K1 K2]].
    + left. apply PropsReread.q_node. exact K.
    + right. split; [exact K1|]. apply EP. exact K2.
  - intros n K. apply PropsReread.q_sub in K. rewrite NA in K. assert (K' : written (clipped (view g)) n) by (eapply text_subs; eassumption). clear K. rename K' into K.
    destruct K as (r & St & Rr). exists r. split; [|exact Rr]. destruct St as [C S|port E S N1 N2]; [apply Starts_top; assumption|].
    apply clipped_end in E. destruct E as (p & E & _). eapply Starts_end; eassumption.
  - intros NC. split.
    + intros n K. apply PropsReread.q_node. rewrite NA. eapply nodes_text; try eassumption. destruct K as [K|[K1 K2]]; [left; apply PropsReread.q_node; exact K|].
      right. split; [exact K1|]. apply EP. exact K2.
    + intros n (r & St & Rr). apply PropsReread.q_sub. rewrite NA. eapply subs_text; try eassumption. exists r. split; [|exact Rr].
      destruct St as [C S|port E S N1 N2]; [apply Starts_top; assumption|]. eapply Starts_end; [apply end_clipped; exact E|assumption..].
Qed.
Print Assumptions C50_valid_text.

(** ** C35: what comes back of any legible graph that can be written *)
Lemma text_core s f es a : legible s -> (forall m k v, holds_attrs s m -> m !! k = Some v -> valid_attr k) ->
  (forall n, s_is_node s n -> s_is_sub s n -> False) -> ~ s_is_sub s (s_name s) -> (forall n port, endpoint s n port -> ~ cluster s n) ->
  es ≡ₚ s_edges s -> c_write s f es = Ok a ->
  wf_graph good_id (dp_graph a) /\ forall os ord, (forall i, fair (os i)) -> fair_order ord ->
  exists g', new_analysed_graph os ord (norm_graph (dp_graph a)) = inl g' /\ reachable g' /\
    ((forall p c, is_child (view g') p c -> s_is_node (view g') c \/ s_is_sub (view g') c) -> text_graph s (view g')) /\
    forall F, size (s_subs s) < F -> c_write (view g') F (map clip_edge es) = Ok (dp_graph a).
Proof.
  intros L V Ap Rt Cl P Wr. destruct (written_set s Ap f es a P Wr) as [W HW].
  assert (Pp : map clip_edge es ≡ₚ s_edges (pruned s W)) by (cbn; rewrite P; reflexivity).
  assert (Vp : forall m k v, holds_attrs (pruned s W) m -> m !! k = Some v -> valid_attr k) by (intros m k v K; apply V; eapply pruned_holds; exact K).
  pose proof (pruned_tidy s L Ap Rt Cl f es a P Wr W HW) as T. pose proof (pruned_write s L Ap Cl f es a P Wr W HW) as Wp.
  destruct (round_core_s (pruned s W) (map clip_edge es) Vp T Pp) as (a2 & W2 & Wf & H).
  assert (E : a2 = dp_graph a).
  { set (F := max f (S (size (s_subs (pruned s W))))). assert (X : c_write (pruned s W) F (map clip_edge es) = Ok a2) by (apply W2; lia).
    rewrite (c_write_mono (pruned s W) f F) in X by (lia || congruence). congruence. }
  subst a2. split; [exact Wf|]. intros os ord Fos Ford. destruct (H os ord Fos Ford) as (g' & E & R' & SG & W'). exists g'. split; [exact E|]. split; [exact R'|].
  split; [intros K; eapply same_text; eassumption|]. intros F LF. apply W'. eapply Nat.le_lt_trans; [|exact LF].
  rewrite <- (size_dom (s_subs (pruned s W))), <- (size_dom (s_subs s)). apply subseteq_size. apply subseteq_dom, map_filter_subseteq.
Qed.
Theorem C35_exact : forall srt o g fuel a, fair o -> sorts (edge_less o) srt -> proper g -> legible (view g) ->
  plain_graph (view g) -> write_ast srt o g fuel = Ok a -> exists txt, graph_string srt o g fuel = Ok txt /\
  forall rnd os ord k, (forall i, fair (os i)) -> fair_order ord ->
  exists g', read rnd os ord k txt = Ok (g', k) /\ reachable g' /\ text_graph (view g) (view g').
Proof.
  intros srt o g fuel a Fo So R L [Ap Rt Cl] H. destruct (string_written _ _ _ _ _ Fo R H) as (Wr & HS). eexists. split; [exact HS|]. intros rnd os ord k Fos Ford.
  destruct (text_core (view g) fuel (srt (s_edges (view g))) a L (reachable_valid g R)) as [Wf K]; try assumption.
  - apply So.
  - destruct (K os ord Fos Ford) as (g' & E & R' & TG & _). exists g'.
    assert (E' : read rnd os ord k (Ast.graph_str a) = Ok (g', k)) by (unfold read; rewrite <- dp_graph_str, (ast_roundtrip rnd k _ Wf), E; reflexivity).
    split; [exact E'|]. split; [exact R'|]. apply TG. intros p c. apply (PropsReread.read_children _ _ _ _ _ _ _ Fos Ford E').
Qed.
Print Assumptions C35_exact.

(** ** C36 *)
Lemma clip_none s : no_ports s -> forall es, es ≡ₚ s_edges s -> map clip_edge es = es.
Proof.
  intros NP es P. transitivity (map (fun e : edge => e) es); [|apply map_id]. apply map_ext_in. intros e He. apply elem_of_list_In in He. rewrite P in He. destruct e as [a p b q d m].
  assert (p = []) as -> by (apply (NP a); eexists; split; [exact He|left; split; reflexivity]).
  assert (q = []) as -> by (apply (NP b); eexists; split; [exact He|right; split; reflexivity]). reflexivity.
Qed.
Lemma printed_none e e' : printed_edge e e' -> e_src_port e = [] -> e_dst_port e = [] -> e' = e.
Proof.
  intros (E1 & E2 & E3 & E4 & E5 & E6) P1 P2. destruct e as [a p b q d m], e' as [a' p' b' q' d' m']. cbn in *. subst.
  assert (G : forall t, prints_port [] t -> t = []) by (intros t H; exact (PropsReread.C37_printed_unique [] t [] H Pp_none)).
  rewrite (G p' E5), (G q' E6). reflexivity.
Qed.
Lemma printed_all_none es es' : Forall2 printed_edge es es' -> (forall e, e ∈ es -> e_src_port e = [] /\ e_dst_port e = []) -> es' = es.
Proof.
  induction 1 as [|e e' es es' X F IH]; intros H; [reflexivity|]. f_equal.
  - apply printed_none; [exact X|apply H; left|apply H; left].
  - apply IH. intros x Hx. apply H. right. exact Hx.
Qed.
Lemma no_ports_edges s : no_ports s -> forall e, e ∈ s_edges s -> e_src_port e = [] /\ e_dst_port e = [].
Proof. intros H e He. split; eapply H; exists e; (split; [exact He|]); [left|right]; split; reflexivity. Qed.
Lemma full_edges s : legible s -> Forall full (s_edges s).
Proof. intros L. apply Forall_forall. intros e He k0 K. apply (good_nonempty []); [|reflexivity]. eapply (l_values _ L); [apply (Ha_edge _ e He)|exact K]. Qed.
Theorem C36_exact : forall srt srt' o o' g fuel a txt rnd os ord k g' k', fair o -> fair o' -> sorts (edge_less o) srt -> sorts (edge_less o') srt' ->
  (forall i, fair (os i)) -> fair_order ord -> proper g -> legible (view g) -> plain_graph (view g) -> no_ports (view g) -> size (g_subs g) < fuel ->
  write_ast srt o g fuel = Ok a -> graph_string srt o g fuel = Ok txt -> read rnd os ord k txt = Ok (g', k') -> graph_string srt' o' g' fuel = Ok txt.
Proof.
  intros srt srt' o o' g fuel a txt rnd os ord k g' k' Fo Fo' S S' Fos Ford R L [Ap Rt Cl] NP LF H E1 E2. destruct (string_written _ _ _ _ _ Fo R H) as (Wr & HS).
  assert (txt = Ast.graph_str a) as -> by congruence. clear E1 HS.
  destruct (text_core (view g) fuel (srt (s_edges (view g))) a L (reachable_valid g R) Ap Rt Cl (proj1 (S _)) Wr) as [Wf K].
  destruct (K os ord Fos Ford) as (g2 & E & R' & TG & W2). pose proof E2 as E2'. unfold read in E2. rewrite <- dp_graph_str, (ast_roundtrip rnd k _ Wf), E in E2. injection E2 as -> <-.
  specialize (TG (PropsReread.read_children _ _ _ _ _ _ _ Fos Ford E2')). destruct (tg_edges _ _ TG) as (es & P & F2). apply printed_all_none in F2; [|apply no_ports_edges; exact NP]. subst es.
  rewrite <- dp_graph_str. unfold graph_string. rewrite (write_canon o' g' Fo' (reachable_ok g' R')).
  rewrite <- (sorts_unique o o' srt srt' (s_edges (view g)) (s_edges (view g')) Fo Fo' S S').
  - rewrite <- subs_size in LF. specialize (W2 fuel LF). rewrite (clip_none (view g) NP (srt (s_edges (view g))) (proj1 (S (s_edges (view g))))) in W2. rewrite W2. reflexivity.
  - symmetry. exact P.
  - apply full_edges. exact L.
Qed.
Print Assumptions C36_exact.

(** ** C46 *)
Lemma read_legible rnd os ord k src g k' : (forall i, fair (os i)) -> fair_order ord -> read rnd os ord k src = Ok (g, k') -> trimmed (view g) -> ~ s_is_sub (view g) (s_name (view g)) -> legible (view g).
Proof.
  intros Fos Ford H C Rt.
  destruct (PropsAnalyse.C26_read_content _ _ _ _ _ _ _ Fos Ford H) as (a & cs & E & GC & Hname & _ & _ & HN & _ & HE & HS & HA & HSA & _ & HR).
  pose proof (parsed_wf _ _ _ _ _ E) as W. pose proof (graph_calls_names _ _ _ W GC) as F.
  split.
  - destruct (s_name (view g)) as [|x nm] eqn:En; [left; reflexivity|right]. split; [|rewrite <- En; apply (tr_name _ C)].
    destruct W as [W _]. change (g_name g = x :: nm) in En. rewrite Hname in En. rewrite En in W. apply W. discriminate.
  - intros n [K|K]; [split; apply (tr_nodes _ C n K)|split; [|apply (tr_subs _ C n K)]].
    apply PropsReread.q_sub in K. apply HS in K. destruct K as (c & K & p & m & ->). rewrite Forall_forall in F. apply F in K. apply K.
  - intros m key v K L. split; [|eapply (tr_values _ C); eassumption]. destruct K as [|n m K|n m K|e K].
    + change (s_attrs (view g)) with (g_attrs g) in L. rewrite HA in L. exact (attrs_result_in _ _ _ F key v L).
    + rewrite HN in K. destruct (node_result_in _ _ _ _ F K) as [_ V]. exact (V key v L).
    + assert (D : n <> g_name g). { intros ->. apply Rt. exists m. exact K. }
      pose proof (HSA n D) as X. rewrite K in X. cbn in X. subst m. exact (attrs_result_in _ _ _ F key v L).
    + rewrite HE in K. exact (edges_result_in _ _ _ F K key v L).
  - intros n port t K _ T. assert (t = []) as ->; [|exists []; split; [left|]; reflexivity].
    destruct (PropsReread.C37_read_ports _ _ _ _ _ _ _ n port Fos Ford H K) as [->|((x & ->) & _)]; eapply PropsReread.C37_printed_unique; eauto using Pp_none, Pp_lost.
Qed.
(** What the text of a graph from Read gives back: again such a graph, without ports. *)
Lemma settled_once s s' : legible s -> plain_graph s -> acyclic s -> text_graph s s' -> (forall n port t, endpoint s n port -> prints_port port t -> t = []) ->
  legible s' /\ plain_graph s' /\ acyclic s' /\ no_ports s'.
Proof.
  intros L [Ap Rt Cl] Ac TG Lost. destruct (tg_edges _ _ TG) as (es & P & F2).
  assert (Back : forall e', e' ∈ s_edges s' -> exists e, e ∈ s_edges s /\ printed_edge e e').
  { intros e' He. rewrite P in He. destruct (elem_of_list_lookup_1 _ _ He) as [i Hi]. destruct (Forall2_lookup_r _ _ _ _ _ F2 Hi) as (e & Hx & X). exists e. split; [eapply elem_of_list_lookup_2; exact Hx|exact X]. }
  assert (Ends : forall n port, endpoint s' n port -> port = [] /\ exists port', endpoint s n port').
  { intros n port (e' & He & X). destruct (Back e' He) as (e & He2 & E1 & E2 & _ & _ & E5 & E6). destruct X as [(-> & ->)|(-> & ->)].
    - assert (K : endpoint s (e_src e') (e_src_port e)) by (exists e; split; [exact He2|left; split; [exact E1|reflexivity]]). split; [exact (Lost _ _ _ K E5)|eauto].
    - assert (K : endpoint s (e_dst e') (e_dst_port e)) by (exists e; split; [exact He2|right; split; [exact E2|reflexivity]]). split; [exact (Lost _ _ _ K E6)|eauto]. }
  assert (Nd : forall n, s_is_node s' n -> s_is_node s n) by (intros n; unfold s_is_node; rewrite (tg_nodes _ _ TG); auto).
  assert (Sb : forall n, s_is_sub s' n -> s_is_sub s n /\ written s n) by (intros n [m K]; apply (tg_subs _ _ TG) in K; destruct K as [K1 K2]; split; [exists m; exact K1|exact K2]).
  split; [|split; [|split]].
  - split.
    + rewrite (tg_name _ _ TG). apply (l_name _ L).
    + intros n [K|K]; apply (l_names _ L); [left; apply Nd; exact K|right; apply Sb; exact K].
    + intros m k v K V. destruct K as [|n m K|n m K|e K].
      * rewrite (tg_attrs _ _ TG) in V. eapply (l_values _ L); [apply Ha_graph|exact V].
      * rewrite (tg_nodes _ _ TG) in K. eapply (l_values _ L); [eapply Ha_node; exact K|exact V].
      * apply (tg_subs _ _ TG) in K. eapply (l_values _ L); [eapply Ha_sub; apply K|exact V].
      * destruct (Back e K) as (e0 & He & _ & _ & _ & E4 & _). rewrite E4 in V. eapply (l_values _ L); [apply (Ha_edge _ e0 He)|exact V].
    + intros n port t K _ T. destruct (Ends n port K) as [-> _]. exists []. split; [left; reflexivity|]. exact (PropsReread.C37_printed_unique [] t [] T Pp_none).
  - split.
    + intros n K1 K2. apply (Ap n); [apply Nd; exact K1|apply Sb; exact K2].
    + rewrite (tg_name _ _ TG). intros K. apply Rt. apply Sb. exact K.
    + intros n port K (C1 & C2). destruct (Ends n port K) as (_ & port' & E). apply (Cl n port' E). split; [apply Sb; exact C1|exact C2].
  - intros n Wn T. assert (Sn : s_is_sub s' n).
    { destruct Wn as (r & St & Rr). apply rtc_inv_r in Rr. destruct Rr as [->|(y & _ & (_ & K & _))]; [|exact K]. destruct St; assumption. }
    apply Sb in Sn. destruct Sn as [_ Wr]. apply (Ac n Wr).
    assert (Step : forall p c, written s p -> nested s' p c -> nested s p c /\ written s c).
    { intros p c Wp (C1 & C2 & C3). pose proof (Sb c C2) as [S1 S2]. split; [|exact S2]. split; [apply (tg_children _ _ TG p c Wp); exact C1|]. split; [exact S1|]. intros N. exact (Ap c N S1). }
    assert (G : forall p c, tc (nested s') p c -> written s p -> tc (nested s) p c /\ written s c).
    { clear -Step. intros p c T. induction T as [p c T|p q c T _ IH]; intros Wp; destruct (Step _ _ Wp T) as [N W]; [split; [apply tc_once; exact N|exact W]|].
      destruct (IH W) as [T' W']. split; [eapply tc_l; eassumption|exact W']. }
    apply (G n n T Wr).
  - intros n port K. apply (Ends n port K).
Qed.
Lemma text_subs_size s s' : text_graph s s' -> size (s_subs s') <= size (s_subs s).
Proof. intros TG. rewrite <- !size_dom. apply subseteq_size. intros n K. apply elem_of_dom in K. destruct K as [m K]. apply (tg_subs _ _ TG) in K. apply elem_of_dom. exists m. apply K. Qed.
Lemma plain_clash s : plain_graph s -> no_clash s.
Proof. intros [Ap _ _] n K1 K2 _. exact (Ap n K2 K1). Qed.
(** After one round, which loses the ports, the text stays the same. *)
Theorem C46_settles : forall rnd os ord k src g k' srt o fuel, (forall i, fair (os i)) -> fair_order ord -> fair o -> sorts (edge_less o) srt ->
  read rnd os ord k src = Ok (g, k') -> trimmed (view g) -> plain_graph (view g) -> acyclic (view g) -> size (g_subs g) < fuel ->
  exists txt, graph_string srt o g fuel = Ok txt /\
    forall rnd1 os1 ord1 k1, (forall i, fair (os1 i)) -> fair_order ord1 -> exists g1, read rnd1 os1 ord1 k1 txt = Ok (g1, k1) /\ text_graph (view g) (view g1) /\ no_ports (view g1) /\
      exists txt1, (forall srt1 o1, fair o1 -> sorts (edge_less o1) srt1 -> graph_string srt1 o1 g1 fuel = Ok txt1) /\
        forall rnd2 os2 ord2 k2, (forall i, fair (os2 i)) -> fair_order ord2 -> exists g2, read rnd2 os2 ord2 k2 txt1 = Ok (g2, k2) /\ text_graph (view g1) (view g2) /\
          forall srt2 o2, fair o2 -> sorts (edge_less o2) srt2 -> graph_string srt2 o2 g2 fuel = Ok txt1.
Proof.
  intros rnd os ord k src g k' srt o fuel Fos Ford Fo S H Tr Pl Ac LF.
  pose proof (PropsReread.read_reachable _ _ _ _ _ _ _ Fos Ford H) as R. pose proof (read_legible _ _ _ _ _ _ _ Fos Ford H Tr (p_root _ Pl)) as L.
  destruct (PropsReread.C34_read _ _ _ _ _ _ _ srt o Fos Ford Fo S H (plain_clash _ Pl)) as [_ Wr]. destruct (Wr Ac fuel LF) as (a & Wa & _). clear Wr.
  destruct (C35_exact srt o g fuel a Fo S R L Pl Wa) as (txt & E & K). exists txt. split; [exact E|]. intros rnd1 os1 ord1 k1 F1 O1.
  destruct (K rnd1 os1 ord1 k1 F1 O1) as (g1 & E1 & R1 & TG). exists g1. split; [exact E1|]. split; [exact TG|]. clear K.
  destruct (settled_once (view g) (view g1) L Pl Ac TG) as (L1 & Pl1 & Ac1 & NP1).
  { intros n port t K T. destruct (PropsReread.C37_read_ports _ _ _ _ _ _ _ n port Fos Ford H K) as [->|((x & ->) & _)]; eapply PropsReread.C37_printed_unique; eauto using Pp_none, Pp_lost. }
  split; [exact NP1|]. assert (LF1 : size (g_subs g1) < fuel) by (rewrite <- subs_size; rewrite <- subs_size in LF; eapply Nat.le_lt_trans; [apply (text_subs_size _ _ TG)|exact LF]).
  destruct (PropsReread.C34_read _ _ _ _ _ _ _ srt o F1 O1 Fo S E1 (plain_clash _ Pl1)) as [_ Wr]. destruct (Wr Ac1 fuel LF1) as (a1 & Wa1 & E2). clear Wr.
  exists (Ast.graph_str a1). split.
  - intros srt1 o1 Fo1 S1. rewrite <- E2. symmetry. apply PropsWrite.C30_deterministic; try assumption; try (apply reachable_built; assumption). intros e k0 He K0. exact (proj1 (Forall_forall _ _) (full_edges _ L1) e He k0 K0).
  - intros rnd2 os2 ord2 k2 F2 O2. destruct (C35_exact srt o g1 fuel a1 Fo S R1 L1 Pl1 Wa1) as (txt' & E' & K). assert (txt' = Ast.graph_str a1) as -> by congruence.
    destruct (K rnd2 os2 ord2 k2 F2 O2) as (g2 & E3 & _ & TG2). exists g2. split; [exact E3|]. split; [exact TG2|]. intros srt2 o2 Fo2 S2.
    eapply (C36_exact srt srt2 o o2 g1 fuel a1); try eassumption; exact (R1 : proper g1).
Qed.
Print Assumptions C46_settles.

(** ** Examples *)
Definition shownb (p : gostr) : bool := portb (clip p) && bool_decide (port_back [] p = read_port (clip p)).
Lemma shownb_ok p : shownb p = true -> legible_port p.
Proof.
  intros H t T. apply andb_true_iff in H. destruct H as [H1 H2]. apply portb_ok in H1. apply bool_decide_eq_true in H2. exists (clip p). split; [exact H1|].
  rewrite <- H2. eapply PropsReread.C37_printed_unique; [exact T|apply port_back_printed].
Qed.
Section Check.
  Variable s : sgraph.
  Definition legibleb : bool :=
    (bool_decide (s_name s = []) || goodb (s_name s)) &&
    forallb goodb (elements (dom (s_nodes s)) ++ subs s) &&
    forallb valuesb ([s_attrs s] ++ map snd (map_to_list (s_nodes s)) ++ map snd (map_to_list (s_subs s)) ++ map e_attrs (s_edges s)) &&
    forallb (fun e => shownb (e_src_port e) && shownb (e_dst_port e)) (s_edges s).
  Lemma legibleb_ok : legibleb = true -> legible s.
  Proof.
    unfold legibleb. intros H. rewrite !andb_true_iff in H. destruct H as [[[E1 E2] E3] E4]. split.
    - apply orb_true_iff in E1. destruct E1 as [E|E]; [left; apply bool_decide_eq_true in E; exact E|right; apply goodb_ok; exact E].
    - intros n K. apply goodb_ok. apply (forallb_elem _ _ _ E2). apply elem_of_app. destruct K as [K|K]; [left; apply elem_of_elements, elem_of_dom; exact K|right; apply in_subs; exact K].
    - intros m k v K L. assert (M : valuesb m = true).
      { apply (forallb_elem _ _ _ E3). rewrite !elem_of_app. destruct K as [|n m K|n m K|e K].
        - left. apply elem_of_list_singleton. reflexivity.
        - right. left. apply elem_of_list_fmap. exists (n, m). split; [reflexivity|apply elem_of_map_to_list; exact K].
        - right. right. left. apply elem_of_list_fmap. exists (n, m). split; [reflexivity|apply elem_of_map_to_list; exact K].
        - right. right. right. apply elem_of_list_fmap. eauto. }
      apply goodb_ok. apply (forallb_elem _ _ (k, v) M). apply elem_of_map_to_list. exact L.
    - intros n port t (e & He & K) _. apply (forallb_elem _ _ _ E4) in He. apply andb_true_iff in He. destruct He as [He1 He2].
      destruct K as [(-> & ->)|(-> & ->)]; apply shownb_ok; assumption.
  Qed.
  Definition plainb : bool := forallb (fun n => negb (nodeb s n)) (subs s) && negb (subb s (s_name s)) &&
    forallb (fun e => negb (subb s (e_src e) && has_prefix (e_src e) (lit "cluster")) && negb (subb s (e_dst e) && has_prefix (e_dst e) (lit "cluster"))) (s_edges s).
  Lemma plainb_ok : plainb = true -> plain_graph s.
  Proof.
    unfold plainb. intros H. rewrite !andb_true_iff in H. destruct H as [[E1 E2] E3]. split.
    - intros n N S. apply in_subs in S. apply (forallb_elem _ _ _ E1) in S. apply negb_true_iff, bool_decide_eq_false in S. contradiction.
    - intros S. apply negb_true_iff, bool_decide_eq_false in E2. contradiction.
    - intros n port (e & He & K) (C1 & C2). apply (forallb_elem _ _ _ E3) in He. rewrite andb_true_iff, !negb_true_iff in He. destruct He as [He1 He2].
      apply prefix_spec in C2. assert (C3 : subb s n = true) by (apply bool_decide_eq_true; exact C1).
      destruct K as [(-> & _)|(-> & _)]; [rewrite C3, C2 in He1|rewrite C3, C2 in He2]; discriminate.
  Qed.
End Check.
(** g13 is not tidy: S1 is written nowhere (its parent is unknown) and contains something unknown, the port :x is lost, and that of q is cut off;
    with a cluster at an edge it is g14, which is not plain, either. *)
Definition more13 : list (oracle * call) := map (pair o_id) [CAddSubGraph (lit "nowhere") (lit "S1") (A [(lit "rank", lit "same")]);
  CAddPortEdge (lit "b") (lit ":x") (lit "d") (lit "q:n:z") false ∅; CAddPortEdge (lit "c") (lit "p:") (lit "T") [] true (A [(lit "color", lit "blue")])].
Definition g13 : agraph := (run more13 PropsRound.g12).1.
Definition g14 : agraph := (run [(o_id, CAddEdge (lit "a") (lit "cluster0") true ∅)] g13).1.
Lemma reach13 : reachable g13.
Proof. apply run_reachable; [repeat (constructor; [apply PropsGraph.fair_id|]); constructor|apply PropsWrite.build_reachable]. Qed.
Lemma reach14 : reachable g14.
Proof. apply run_reachable; [repeat (constructor; [apply PropsGraph.fair_id|]); constructor|apply reach13]. Qed.
Example C50_example : reachable g14 /\ legible (view g14) /\ no_clash (view g14) /\ (exists a, write_ast srt0 o_id g14 9 = Ok a) /\
  size (g_subs g14) = 4 /\ length (edges_list (g_edges g14)) = 6 /\ plainb (view g14) = false.
Proof.
  split; [apply reach14|]. split; [apply legibleb_ok; vm_compute; reflexivity|]. split.
  - assert (K : forallb (fun n => negb (nodeb (view g14) n)) (subs (view g14)) = true) by (vm_compute; reflexivity).
    intros n K1 K2 _. apply in_subs in K1. apply (forallb_elem _ _ _ K) in K1. apply negb_true_iff, bool_decide_eq_false in K1. contradiction.
  - split; [|vm_compute; repeat split]. destruct (write_ast srt0 o_id g14 9) as [a|e| |] eqn:E; [eauto|exfalso; revert E; vm_compute; discriminate..].
Qed.
Example C35_exact_example : reachable g13 /\ legible (view g13) /\ plain_graph (view g13) /\ (exists a, write_ast srt0 o_id g13 9 = Ok a) /\
  is_subgraph g13 (lit "S1") = true /\ writtenb (view g13) 3 (lit "S1") = false /\ written (view g13) (lit "T").
Proof.
  split; [apply reach13|]. split; [apply legibleb_ok; vm_compute; reflexivity|]. split; [apply plainb_ok; vm_compute; reflexivity|].
  split; [|split; [vm_compute; reflexivity|split; [vm_compute; reflexivity|apply (writtenb_ok _ 3); vm_compute; reflexivity]]].
  destruct (write_ast srt0 o_id g13 9) as [a|e| |] eqn:E; [eauto|exfalso; revert E; vm_compute; discriminate..].
Qed.
Example C36_exact_example : let g := (run (map (pair o_id) [CAddSubGraph (lit "nowhere") (lit "S1") ∅]) PropsRound.g12).1 in
  reachable g /\ legible (view g) /\ plain_graph (view g) /\ no_ports (view g) /\ size (g_subs g) < 9 /\ exists a, write_ast srt0 o_id g 9 = Ok a.
Proof.
  intros g. split; [apply run_reachable; [repeat (constructor; [apply PropsGraph.fair_id|]); constructor|apply PropsWrite.build_reachable]|].
  split; [apply legibleb_ok; vm_compute; reflexivity|]. split; [apply plainb_ok; vm_compute; reflexivity|]. split; [apply PropsReread.no_portsb_ok; vm_compute; reflexivity|].
  split; [apply Nat.ltb_lt; vm_compute; reflexivity|]. destruct (write_ast srt0 o_id g 9) as [a|e| |] eqn:E; [eauto|exfalso; revert E; vm_compute; discriminate..].
Qed.
(** Legible names are needed: a graph with a node named a -, or with the unquoted label x:y, is written, but the text cannot be read. *)
Definition unreadable (g : agraph) : Prop := match graph_string srt0 o_id g 9 with
  | Ok txt => match read rnd0 os_id ord_id 0 txt with Err _ => True | _ => False end
  | _ => False end.
Theorem C50_illegible_refuted :
  (exists g, reachable g /\ (exists a, write_ast srt0 o_id g 9 = Ok a) /\ plain_graph (view g) /\ unreadable g) /\
  (exists g, reachable g /\ (exists a, write_ast srt0 o_id g 9 = Ok a) /\ (forall n, is_node g n = true -> good_id n) /\ unreadable g).
Proof.
  assert (W : forall g, match write_ast srt0 o_id g 9 with Ok _ => true | _ => false end = true -> exists a, write_ast srt0 o_id g 9 = Ok a) by (intros g; destruct (write_ast srt0 o_id g 9); try discriminate; eauto).
  split.
  - exists (build [CSetName (lit "G"); CAddNode (lit "G") (lit "a -") ∅]). split; [apply PropsWrite.build_reachable|]. split; [apply W; vm_compute; reflexivity|]. split; [apply plainb_ok; vm_compute; reflexivity|vm_compute; exact I].
  - exists (build [CSetName (lit "G"); CAddNode (lit "G") (lit "a") (A [(lit "label", lit "x:y")])]). split; [apply PropsWrite.build_reachable|]. split; [apply W; vm_compute; reflexivity|]. split; [|vm_compute; exact I].
    set (g := build _). intros n K. apply PropsReread.q_node in K. apply goodb_ok.
    assert (F : forallb goodb (elements (dom (s_nodes (view g)))) = true) by (vm_compute; reflexivity).
    apply (forallb_elem _ _ _ F). apply elem_of_elements, elem_of_dom. exact K.
Qed.
Print Assumptions C50_illegible_refuted.
(** Two edges that differ in their ports and their attributes change places when the ports are gone, so the text of the graph read first is not yet the final one. *)
Definition src46 : gostr := lit "digraph { a:p -> b [label=z]; a:q -> b [label=y]; subgraph S { c } }".
Definition chk46 (g : agraph) : bool := legibleb (view g) && plainb (view g) && Nat.eqb (size (g_subs g)) 1 &&
  match graph_string srt0 o_id g 9 with
  | Ok txt => match read rnd0 os_id ord_id 0 txt with Ok (g1, _) =>
      match graph_string srt0 o_id g1 9 with Ok txt1 => negb (bool_decide (txt1 = txt)) && Nat.eqb (size (g_subs g1)) 1 | _ => false end | _ => false end
  | _ => false end.
Lemma read46 : match read rnd0 os_id ord_id 0 src46 with Ok (g, _) => chk46 g | _ => false end = true.
Proof. vm_compute. reflexivity. Qed.
Theorem C46_ports_refuted : exists g k', read rnd0 os_id ord_id 0 src46 = Ok (g, k') /\ trimmed (view g) /\ plain_graph (view g) /\ acyclic (view g) /\ size (g_subs g) < 9 /\
  match graph_string srt0 o_id g 9 with
  | Ok txt => match read rnd0 os_id ord_id 0 txt with Ok (g1, _) => graph_string srt0 o_id g1 9 <> Ok txt | _ => False end
  | _ => False end.
Proof.
  pose proof (PropsReread.read_chk chk46 rnd0 os_id ord_id 0 src46 read46) as X. destruct X as (g & k' & H & T). exists g, k'. split; [exact H|].
  unfold chk46 in T. rewrite !andb_true_iff, Nat.eqb_eq in T. destruct T as [[[T1 T2] T3] T4]. apply legibleb_ok in T1. apply plainb_ok in T2.
  split; [|split; [exact T2|split; [|split; [rewrite T3; apply Nat.ltb_lt; reflexivity|]]]].
  - split.
    + destruct (l_name _ T1) as [->|K]; [reflexivity|apply K].
    + intros n K. apply (l_names _ T1). left. exact K.
    + intros n K. apply (l_names _ T1). right. exact K.
    + intros m key v K L. eapply (l_values _ T1); eassumption.
  - destruct (graph_string srt0 o_id g 9) as [txt|e| |] eqn:E; try discriminate T4.
    destruct (PropsReread.C34_read _ _ _ _ _ _ _ srt0 o_id PropsAnalyse.fair_os_id PropsAnalyse.fair_ord_id PropsGraph.fair_id PropsWrite.sorts0 H (plain_clash _ T2)) as [I _]. apply I. exists 9. congruence.
  - destruct (graph_string srt0 o_id g 9) as [txt|e| |]; try discriminate T4. destruct (read rnd0 os_id ord_id 0 txt) as [[g1 k1]|e| |]; try discriminate T4.
    destruct (graph_string srt0 o_id g1 9) as [txt1|e| |]; try discriminate T4. apply andb_true_iff in T4. destruct T4 as [T4 _]. apply negb_true_iff, bool_decide_eq_false in T4. congruence.
Qed.
Print Assumptions C46_ports_refuted.
