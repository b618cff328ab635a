(** The text of any legible graph: what is printed of ports, and the graph without the subgraphs that are not written. *)
From Coq Require Import Ascii.
From stdpp Require Import sorting.
From Verif Require Import Base Parser Maps Graph AttrMap SpecGraph MapFacts GraphProofs.
From Verif Require Import Write SpecWrite EdgeOrder WriteProofs WriteFacts WriteFacts2 SpecRound RoundCalls RoundCalls2 RoundProofs RoundWrite RoundFinal.
From Verif Require Import Analyse SpecAnalyse AnalyseProofs ReadProofs NormCalls SpecAst LexPrint AstProofs.
From Verif Require Ast PropsReread.

(** ** A port with an empty first part is printed as nothing *)
Definition dp_id (i : Ast.node_id) : Ast.node_id :=
  match i with Ast.NodeID n (Ast.Port [] _) => Ast.NodeID n (Ast.Port [] []) | _ => i end.
Definition dp_loc (l : Ast.location) : Ast.location := match l with Ast.LNode i => Ast.LNode (dp_id i) | _ => l end.
Definition dp_rh (r : Ast.edge_rh) : Ast.edge_rh := match r with Ast.EdgeRH o l => Ast.EdgeRH o (dp_loc l) end.
Definition dp (st : Ast.stmt) : Ast.stmt := match st with Ast.SEdge l r a => Ast.SEdge (dp_loc l) (map dp_rh r) a | _ => st end.
Definition dp_graph (a : Ast.graph) : Ast.graph := Ast.Graph (Ast.g_type a) (Ast.g_strict a) (Ast.g_id a) (map dp (Ast.g_stmts a)).
Lemma dp_id_str i : Ast.node_id_str (dp_id i) = Ast.node_id_str i.
Proof. destruct i as [n [[|x p] q]]; reflexivity. Qed.
Lemma dp_loc_str l : Ast.location_str (dp_loc l) = Ast.location_str l.
Proof. destruct l as [i|t]; [apply dp_id_str|reflexivity]. Qed.
Lemma dp_rh_str r : Ast.edge_rh_str (dp_rh r) = Ast.edge_rh_str r.
Proof. destruct r as [o l]. cbn. rewrite dp_loc_str. reflexivity. Qed.
Lemma dp_str ind st : Ast.stmt_str ind (dp st) = Ast.stmt_str ind st.
Proof.
  destruct st as [n a|l r a|a|a|a|t|a]; try reflexivity. cbn [dp Ast.stmt_str]. rewrite dp_loc_str, map_map, (map_ext _ _ dp_rh_str). reflexivity.
Qed.
Lemma dp_graph_str a : Ast.graph_str (dp_graph a) = Ast.graph_str a.
Proof. unfold Ast.graph_str, Ast.stmts_str, dp_graph. cbn [Ast.g_type Ast.g_strict Ast.g_id Ast.g_stmts]. rewrite map_map, (map_ext _ _ (dp_str _)). reflexivity. Qed.

(** ** Ports as printed *)
Definition clip (p : gostr) : gostr := tail (port_back [] p).
Definition clip_edge (e : edge) : edge := Edge (e_src e) (clip (e_src_port e)) (e_dst e) (clip (e_dst_port e)) (e_dir e) (e_attrs e).
Definition legible_port (p : gostr) : Prop := forall t, prints_port p t -> exists q, good_port q /\ t = read_port q.
Lemma make_port n p : Ast.nid_port (Ast.make_node_id n p) = Ast.nid_port (Ast.make_node_id [] p) /\ Ast.nid_id (Ast.make_node_id n p) = n.
Proof. unfold Ast.make_node_id. destruct p; [split; reflexivity|]. destruct (split_on _ _) as [|? [|? ?]]; split; reflexivity. Qed.
Lemma port_back_printed n p : prints_port p (port_back n p).
Proof.
  unfold port_back. rewrite (proj1 (make_port n p)). destruct (PropsReread.C37_printed [] p) as (t & H & E).
  unfold Ast.node_id_str in E. rewrite (proj2 (make_port [] p)) in E. cbn [app] in E. rewrite E. exact H.
Qed.
Lemma clip_nil : clip [] = [].
Proof. reflexivity. Qed.
Lemma read_tail q : tail (read_port q) = q.
Proof. destruct q; reflexivity. Qed.
Lemma read_inj q q' : read_port q = read_port q' -> q = q'.
Proof. intros H. rewrite <- (read_tail q), H. apply read_tail. Qed.
Lemma clip_spec n p : legible_port p -> good_port (clip p) /\ prints_port p (read_port (clip p)) /\ Ast.make_node_id n (clip p) = dp_id (Ast.make_node_id n p).
Proof.
  intros L. pose proof (port_back_printed [] p) as H. destruct (L _ H) as (q & G & E). unfold clip. rewrite E, read_tail. rewrite E in H.
  split; [exact G|]. split; [exact H|]. clear L E G. remember (read_port q) as t eqn:Et.
  destruct H as [|p H1 H2|p c H1 H2 H3 H4|p c x H1 H2 H3 H4|p H1 H2|p x H1 H2|x].
  - destruct q; [reflexivity|discriminate].
  - assert (q = p) as -> by (destruct q; [discriminate|]; injection Et as E; symmetry; exact E). rewrite PropsReread.make_split by exact H1. rewrite split_no_colon by exact H2. destruct p; [contradiction|]. reflexivity.
  - assert (q = p ++ colon :: c) as -> by (destruct q; [discriminate|]; injection Et as E; symmetry; exact E). rewrite PropsReread.make_split by (destruct p; discriminate).
    change (colon :: c) with ([colon] ++ c). rewrite split_colon, split_no_colon by assumption. destruct p; [contradiction|]. reflexivity.
  - assert (q = p ++ colon :: c) as -> by (destruct q; [discriminate|]; injection Et as E; symmetry; exact E). rewrite !PropsReread.make_split by (destruct p; discriminate).
    change (colon :: c ++ colon :: x) with ([colon] ++ c ++ [colon] ++ x). change (colon :: c) with ([colon] ++ c).
    rewrite !split_colon, split_no_colon by assumption. destruct p; [contradiction|]. reflexivity.
  - assert (q = p) as -> by (destruct q; [discriminate|]; injection Et as E; symmetry; exact E). rewrite !PropsReread.make_split by (destruct p; discriminate || exact H1).
    change [colon] with ([colon] ++ ([] : gostr)). rewrite split_colon, split_no_colon by assumption. destruct p; [contradiction|]. reflexivity.
  - assert (q = p) as -> by (destruct q; [discriminate|]; injection Et as E; symmetry; exact E). rewrite !PropsReread.make_split by (destruct p; discriminate || exact H1).
    change (colon :: colon :: x) with ([colon] ++ ([] : gostr) ++ [colon] ++ x). rewrite !split_colon, split_no_colon by (assumption || apply not_elem_of_nil). destruct p; [contradiction|]. reflexivity.
  - destruct q as [|y q]; [|discriminate]. rewrite (PropsReread.make_split n (colon :: x)) by discriminate.
    change (colon :: x) with (([] : gostr) ++ [colon] ++ x). rewrite split_colon by apply not_elem_of_nil. destruct (split_on colon x); reflexivity.
Qed.

(** ** Writing with clipped ports *)
Lemma dp_marks l : marks (map dp l) = marks l.
Proof.
  induction l as [|st l IH]; [reflexivity|]. cbn [map]. rewrite !marks_cons, IH. f_equal.
  destruct st as [n a|lo r a|a|a|a|t|a]; try reflexivity. cbn [dp st_names].
  assert (L : forall lo, loc_names (dp_loc lo) = loc_names lo) by (intros [i|t]; reflexivity). rewrite L. f_equal.
  induction r as [|[o d] r IHr]; [reflexivity|]. cbn. rewrite L. f_equal. exact IHr.
Qed.
Section Clip.
  Variable s : sgraph.
  Lemma c_end_clip f n p lo : (s_is_node s n -> legible_port p) -> c_end s f n p = Ok lo -> c_end s f n (clip p) = Ok (dp_loc lo).
  Proof.
    intros L. unfold c_end. destruct (s_nodes s !! n) as [b|] eqn:En.
    - intros [= <-]. cbn [dp_loc]. rewrite <- (proj2 (proj2 (clip_spec n p (L ltac:(exists b; exact En))))). reflexivity.
    - destruct (s_subs s !! n) as [b|]; [|discriminate]. destruct p as [|c p]; [|discriminate]. rewrite clip_nil.
      destruct (has_prefix n (lit "cluster")); [intros [= <-]; reflexivity|].
      destruct (c_sub s f n) as [t|e| |]; cbn [bind]; try discriminate. intros [= <-]. reflexivity.
  Qed.
  Definition legible_ends (e : edge) : Prop := (s_is_node s (e_src e) -> legible_port (e_src_port e)) /\ (s_is_node s (e_dst e) -> legible_port (e_dst_port e)).
  Lemma c_edge_clip f e st : legible_ends e -> c_edge s f e = Ok st -> c_edge s f (clip_edge e) = Ok (dp st).
  Proof.
    intros [L1 L2]. unfold c_edge. destruct (c_end s f (e_src e) (e_src_port e)) as [l1|x| |] eqn:E1; cbn [bind]; try discriminate.
    destruct (c_end s f (e_dst e) (e_dst_port e)) as [l2|x| |] eqn:E2; cbn [bind]; try discriminate. intros [= <-].
    cbn [clip_edge e_src e_src_port e_dst e_dst_port e_dir e_attrs]. rewrite (c_end_clip _ _ _ _ L1 E1), (c_end_clip _ _ _ _ L2 E2). reflexivity.
  Qed.
  Lemma c_edges_clip f es : Forall legible_ends es -> forall el, map_res (c_edge s f) es = Ok el -> map_res (c_edge s f) (map clip_edge es) = Ok (map dp el).
  Proof.
    intros F el H. apply map_res_ok in H. apply map_res_ok. revert F. induction H as [|e st es el X H IH]; intros F; cbn [map]; constructor.
    - apply c_edge_clip; [apply Forall_cons in F; apply F|exact X].
    - apply IH. apply Forall_cons in F. apply F.
  Qed.
  Lemma c_tops_dp f ns : forall acc b, c_tops s f ns acc = Ok b -> c_tops s f ns (map dp acc) = Ok (map dp b).
  Proof.
    induction ns as [|n ns IH]; intros acc b; cbn [c_tops]; [intros [= <-]; reflexivity|]. rewrite dp_marks.
    destruct (decide (n ∈ marks acc)); [apply IH|]. destruct (decide (n ∈ kids s (s_name s))); [|apply IH].
    destruct (c_sub s f n) as [t|e'| |]; cbn [bind]; try discriminate. intros H. apply IH in H. rewrite map_app in H. exact H.
  Qed.
  Lemma c_nodes_dp ns : forall acc, c_nodes s ns (map dp acc) = map dp (c_nodes s ns acc).
  Proof.
    induction ns as [|n ns IH]; intros acc; cbn [c_nodes]; [reflexivity|]. rewrite dp_marks. destruct (decide (n ∈ marks acc)); [apply IH|].
    rewrite <- IH, map_app. reflexivity.
  Qed.
  Lemma dp_attrs m : map dp (map Ast.SAttr (in_order m)) = map Ast.SAttr (in_order m).
  Proof. rewrite map_map. reflexivity. Qed.
  Lemma c_write_clip f es a : Forall legible_ends es -> c_write s f es = Ok a -> c_write s f (map clip_edge es) = Ok (dp_graph a).
  Proof.
    intros F. unfold c_write. destruct (map_res (c_edge s f) es) as [el|x| |] eqn:E1; cbn [bind]; try discriminate.
    destruct (c_tops s f _ _) as [b|x| |] eqn:E2; cbn [bind]; try discriminate. intros [= <-].
    rewrite (c_edges_clip f es F el E1). cbn [bind]. apply c_tops_dp in E2. rewrite map_app, dp_attrs in E2. rewrite E2. cbn [bind].
    rewrite c_nodes_dp. reflexivity.
  Qed.
End Clip.

(** ** The text of a legible graph can be read *)
Definition clipped (s : sgraph) : sgraph := s_with_edges s (map clip_edge (s_edges s)).
Lemma legible_all s es : legible s -> es ≡ₚ s_edges s -> Forall (legible_ends s) es.
Proof.
  intros L P. apply Forall_forall. intros e He. rewrite P in He. split; intros N t Ht; (eapply (l_ports s L); [|exact N|exact Ht]); exists e; auto.
Qed.
Lemma clipped_write s f es : c_write (clipped s) f es = c_write s f es.
Proof. reflexivity. Qed.
Lemma clipped_holds s m : holds_attrs (clipped s) m -> holds_attrs s m.
Proof.
  intros [|n m' H|n m' H|e H]; [exact (Ha_graph s)|exact (Ha_node s n m' H)|exact (Ha_sub s n m' H)|].
  cbn in H. apply elem_of_list_fmap in H. destruct H as (e' & -> & H). apply (Ha_edge s e' H).
Qed.
Lemma clipped_end s n q : endpoint (clipped s) n q -> exists p, endpoint s n p /\ q = clip p.
Proof.
  intros (e & H & E). cbn in H. apply elem_of_list_fmap in H. destruct H as (e' & -> & H).
  destruct E as [(-> & ->)|(-> & ->)]; eexists; (split; [exists e'; split; [exact H|]|reflexivity]); auto.
Qed.
Lemma end_clipped s n p : endpoint s n p -> endpoint (clipped s) n (clip p).
Proof.
  intros (e & H & E). exists (clip_edge e). split; [cbn; apply elem_of_list_fmap; eauto|].
  destruct E as [(-> & ->)|(-> & ->)]; [left|right]; split; reflexivity.
Qed.
Lemma legible_wf s f es a : legible s -> (forall m k v, holds_attrs s m -> m !! k = Some v -> valid_attr k) -> es ≡ₚ s_edges s ->
  c_write s f es = Ok a -> wf_graph good_id (dp_graph a).
Proof.
  intros L V P H. apply (c_write_clip s f es a (legible_all s es L P)) in H. rewrite <- clipped_write in H.
  eapply (text_wf (clipped s)); [| | | | | |exact H].
  - exact (l_name s L).
  - exact (l_names s L).
  - intros m k v K. apply (l_values s L). apply clipped_holds. exact K.
  - intros n q E N. apply clipped_end in E. destruct E as (p & E & ->). apply (clip_spec n p). intros t. apply (l_ports s L n p t E N).
  - intros m k v K. apply V. apply clipped_holds. exact K.
  - cbn. rewrite P. reflexivity.
Qed.

Section Read.
  Variable s : sgraph.
  Hypothesis V : forall m k v, holds_attrs s m -> m !! k = Some v -> valid_attr k.
  Variables (f : nat) (es : list edge) (a : Ast.graph) (l : list call).
  Hypothesis P : es ≡ₚ s_edges s.
  Variables (el : list Ast.stmt) (tops ns : list gostr) (ts : list Ast.subgraph).
  Hypothesis Ea : a = Ast.Graph (s_directed s) (s_strict s) (s_name s)
    (map Ast.SAttr (in_order (s_attrs s)) ++ el ++ map Ast.SSub ts ++ map (fun n => c_node n (default ∅ (s_nodes s !! n))) ns).
  Hypothesis Fe : Forall2 (fun e st => c_edge s f e = Ok st) es el.
  Hypothesis Ft : Forall2 (fun n t => c_sub s f n = Ok t) tops ts.
  Hypothesis Ht : forall n, n ∈ tops -> is_child s (s_name s) n /\ s_is_sub s n /\ n ∉ marks el.
  Hypothesis Hm : forall n, s_is_sub s n -> is_child s (s_name s) n -> n ∈ marks (el ++ map Ast.SSub ts).
  Hypothesis Hn : ns = filter (fun n => n ∉ marks (el ++ map Ast.SSub ts)) (sorted (dom (s_nodes s))).
  Hypothesis B : body_calls (Ast.g_id a) ∅ ∅ [] (Ast.g_stmts a) l.
  Notation root := (s_name s).

  Lemma calls_all : (forall x, x ∈ l -> says s es tops ns x) /\
    (forall x, says s es tops ns x -> x ∈ l \/ exists e n port, e ∈ es /\ end_of e n port /\ plain_end s n /\ x = CAddNode root n ∅) /\
    (forall e n port, e ∈ es -> end_of e n port -> plain_end s n -> adds root n l).
  Proof. pose proof B as B'. rewrite Ea in B'. cbn in B'. eapply write_calls; eassumption. Qed.
  Lemma ns_node n : n ∈ ns -> s_is_node s n.
  Proof. intros H. rewrite Hn in H. apply elem_of_list_filter in H. destruct H as [_ H]. apply elem_of_sorted, elem_of_dom in H. exact H. Qed.
  Lemma sub_says_ok n x : sub_says s root n x -> call_ok x.
  Proof.
    intros [->|(m & _ & L)] key U; [cbn in U; rewrite lookup_empty in U; destruct U; discriminate|].
    destruct L as [(b & k' & v' & X & Y & ->)|[(c & b & Hc & Hb & ->)|(c & _ & ->)]]; cbn in U.
    - subst. eapply V; [apply (Ha_sub s m b X)|exact Y].
    - destruct U as [v U]. eapply V; [apply (Ha_node s c b Hb)|exact U].
    - rewrite lookup_empty in U. destruct U; discriminate.
  Qed.
  Lemma calls_ok : Forall call_ok l.
  Proof.
    apply Forall_forall. intros x X. apply calls_all in X.
    destruct X as [k v X ->|e X ->|e n port X Y Z ->|e n port X Y Z W|n X W|n X ->]; try (eapply sub_says_ok; exact W); intros key U; cbn in U.
    - subst. eapply V; [apply Ha_graph|exact X].
    - destruct U as [v U]. eapply V; [apply (Ha_edge s e); rewrite <- P; exact X|exact U].
    - rewrite lookup_empty in U. destruct U; discriminate.
    - destruct U as [v U]. destruct (ns_node n X) as [b Hb]. rewrite Hb in U. eapply V; [apply (Ha_node s n b Hb)|exact U].
  Qed.

  Lemma begins_starts n : begins s es tops n -> starts s n.
  Proof.
    intros [H|(e & port & H1 & H2 & (S1 & S2 & S3))]; [destruct (Ht n H) as (H1 & H2 & _); apply Starts_top; assumption|].
    apply (Starts_end s n port); [exists e; rewrite <- P; split; [exact H1|exact H2]|assumption..].
  Qed.
  Lemma begins_is_sub n : begins s es tops n -> s_is_sub s n.
  Proof. intros H. apply begins_starts in H. destruct H; assumption. Qed.
  Lemma starts_reached n : no_clash s -> starts s n -> exists r, begins s es tops r /\ rtc (nested s) r n.
  Proof.
    intros NC [C S|port (e & He & E) S N1 N2].
    - destruct (marks_begins s f es el tops ts Fe Ft n (Hm n S C)) as (r & Br & [R|(p & _ & _ & N)]); [eauto|]. destruct (NC n S N C).
    - exists n. split; [|apply rtc_refl]. right. exists e, port. rewrite P. split; [exact He|]. split; [exact E|]. split; [exact S|]. split; assumption.
  Qed.
  Lemma begun n x : begins s es tops n -> sub_says s root n x -> says s es tops ns x.
  Proof. intros [H|(e & port & H1 & H2 & H3)] K; [eapply Says_top; eassumption|eapply Says_sub_end; eassumption]. Qed.
  (** A call that is said is made, except that a node may be added without its attributes. *)
  Lemma said x : says s es tops ns x -> x ∈ l \/ exists n, x = CAddNode root n ∅ /\ adds root n l.
  Proof.
    intros H. destruct calls_all as (_ & A1 & A2). destruct (A1 x H) as [K|(e & n & port & H1 & H2 & H3 & ->)]; [auto|]. right. exists n. split; [reflexivity|]. eapply A2; eassumption.
  Qed.

  Let s' := fold_left s_build l (s_start a).
  Lemma text_flags : s_name s' = root /\ s_directed s' = s_directed s /\ s_strict s' = s_strict s.
  Proof.
    pose proof (builds_content l (s_start a) (start_listed a)) as C. cbn in C. specialize (C eq_refl). destruct C as (C1 & C2 & _).
    split; [unfold s'; rewrite builds_name, Ea; reflexivity|]. split; [unfold s'; rewrite C1, Ea; reflexivity|unfold s'; rewrite C2, Ea; reflexivity].
  Qed.
  Lemma text_edges : s_edges s' = map back es.
  Proof.
    unfold s'. rewrite builds_edges by (eapply body_builds; exact B). cbn [s_start s_edges app].
    rewrite (body_edges_ok _ _ _ _ _ _ B). cbn [edge_defaults]. rewrite Ea. cbn [Ast.g_stmts]. apply (write_edges s f es el tops ts ns Fe Ft).
  Qed.
  Lemma text_node n : s_is_node s' n <-> exists p m, CAddNode p n m ∈ l.
  Proof.
    pose proof (builds_content l (s_start a) (start_listed a)) as C. cbn in C. specialize (C eq_refl). destruct C as (_ & _ & C3 & _).
    unfold s_is_node, s'. rewrite C3. cbn. rewrite lookup_empty. clear.
    assert (G : forall acc : option attrs, is_Some (fold_left (fun acc c => match c with CAddNode _ n' m => if decide (n' = n) then Some (m ∪ default ∅ acc) else acc | _ => acc end) l acc) <->
      is_Some acc \/ exists p m, CAddNode p n m ∈ l).
    { induction l as [|c l' IH]; intros acc; cbn [fold_left].
      - split; [auto|]. intros [H|(p & m & H)]; [exact H|inversion H].
      - rewrite IH. destruct c;
          try (split; (intros [H|(p & m1 & H)]; [auto|right; exists p, m1]); [right; exact H|]; apply elem_of_cons in H; destruct H as [H|H]; [discriminate|exact H]).
        match goal with |- context [decide (?x = n)] => destruct (decide (x = n)) as [->|D] end.
        + split; [intros _; right; eexists _, _; left|intros _; left; eauto].
        + split; (intros [H|(p & m' & H)]; [auto|right; exists p, m']); [right; exact H|]. apply elem_of_cons in H. destruct H as [H|H]; [congruence|exact H]. }
    rewrite G. split; [intros [[x H]|H]; [discriminate|exact H]|auto].
  Qed.
  Lemma text_sub n : s_is_sub s' n <-> exists p m, CAddSubGraph p n m ∈ l.
  Proof.
    pose proof (body_wp _ _ _ _ _ _ B [Ast.g_id a] ltac:(apply elem_of_list_singleton; reflexivity)) as W.
    unfold s'. rewrite (builds_subs l (s_start a) [Ast.g_id a] W).
    - split; [intros [[x K]|(c & K & p & m & ->)]; [cbn in K; rewrite lookup_empty in K; discriminate|eauto]|]. intros (p & m & K). right. eexists. split; [exact K|]. eexists _, _. reflexivity.
    - intros x K. apply elem_of_list_singleton in K. subst. left. reflexivity.
  Qed.
  Lemma text_nodes n : s_is_node s' n -> s_is_node s n \/ (cluster s n /\ exists port, endpoint s n port).
  Proof.
    intros H. apply text_node in H. destruct H as (p & m & H). apply calls_all in H.
    destruct H as [k v X E|e X E|e n' port X Y Z E|e n' port X Y Z W|n' X W|n' X E]; try discriminate E.
    - injection E as -> -> ->. destruct Z as [Z|Z]; [auto|]. right. split; [exact Z|]. exists port, e. rewrite <- P. split; [exact X|exact Y].
    - left. destruct W as [W|(q & _ & L)]; [discriminate|]. destruct L as [(b & k' & v' & _ & _ & [=])|[(c & b & Hc & Hb & [= -> -> ->])|(c & _ & [=])]]. exists b. exact Hb.
    - left. destruct W as [W|(q & _ & L)]; [discriminate|]. destruct L as [(b & k' & v' & _ & _ & [=])|[(c & b & Hc & Hb & [= -> -> ->])|(c & _ & [=])]]. exists b. exact Hb.
    - left. injection E as -> -> ->. apply ns_node. exact X.
  Qed.
  Lemma text_subs n : s_is_sub s' n -> written s n.
  Proof.
    intros H. apply text_sub in H. destruct H as (p & m & H). apply calls_all in H.
    assert (G : forall r, starts s r -> sub_says s root r (CAddSubGraph p n m) -> written s n).
    { intros r St [[= -> -> ->]|(q & R & L)]; [exists r; split; [exact St|apply rtc_refl]|].
      destruct L as [(b & k' & v' & _ & _ & [=])|[(c & b & Hc & Hb & [=])|(c & N & [= -> -> ->])]]. exists r. split; [exact St|]. eapply rtc_r; eassumption. }
    destruct H as [k v X E|e X E|e n' port X Y Z E|e n' port X Y Z W|n' X W|n' X E]; try discriminate E.
    - apply (G n'); [|exact W]. apply begins_starts. right. exists e, port. auto.
    - apply (G n'); [|exact W]. apply begins_starts. left. exact X.
  Qed.
  Hypothesis NC : no_clash s.
  Lemma nodes_text n : s_is_node s n \/ (cluster s n /\ exists port, endpoint s n port) -> s_is_node s' n.
  Proof.
    intros H. apply text_node. destruct H as [N|(Cl & port & (e & He & E))].
    2:{ destruct calls_all as (_ & _ & A). rewrite <- P in He. destruct (A e n port He E (or_intror Cl)) as [m K]. eauto. }
    assert (AD : forall x p m, x = CAddNode p n m -> says s es tops ns x -> exists p m, CAddNode p n m ∈ l).
    { intros x p m -> S. destruct (said _ S) as [K|(n' & [= -> -> ->] & m' & K)]; eauto. }
    destruct (decide (n ∈ marks (el ++ map Ast.SSub ts))) as [M|M].
    - destruct (marks_begins s f es el tops ts Fe Ft n M) as (r & Br & K). assert (NR : r <> n).
      { intros ->. destruct Br as [Br|(e & port & _ & _ & _ & K' & _)]; [|contradiction]. destruct (Ht n Br) as (H1 & H2 & _). exact (NC n H2 N H1). }
      destruct K as [R|(p & R & C & [b Hb])].
      + apply rtc_inv_r in R. destruct R as [->|(p & R & (_ & _ & K))]; contradiction.
      + eapply (AD _ p b eq_refl). eapply begun; [exact Br|]. right. exists p. split; [exact R|]. right. left. eauto.
    - eapply (AD _ root _ eq_refl). eapply Says_node; [|reflexivity]. rewrite Hn. apply elem_of_list_filter. split; [exact M|]. apply elem_of_sorted, elem_of_dom. exact N.
  Qed.
  Lemma subs_text n : written s n -> s_is_sub s' n.
  Proof.
    intros (r & St & R). destruct (starts_reached r NC St) as (r0 & Br & R0). assert (R1 : rtc (nested s) r0 n) by (etransitivity; eassumption).
    apply text_sub. assert (K : exists p, says s es tops ns (CAddSubGraph p n ∅)).
    { apply rtc_inv_r in R1. destruct R1 as [->|(p & R1 & N)].
      - exists root. eapply begun; [exact Br|]. left. reflexivity.
      - exists p. eapply begun; [exact Br|]. right. exists p. split; [exact R1|]. right. right. eauto. }
    destruct K as [p K]. destruct (said _ K) as [K'|(n' & [=] & _)]. eauto.
  Qed.
End Read.

(** ** The graph without the subgraphs that are not written *)
Lemma sorted_filter {A} (R : A -> A -> Prop) (Q : A -> Prop) `{forall x, Decision (Q x)} (l : list A) : StronglySorted R l -> StronglySorted R (filter Q l).
Proof.
  induction 1 as [|x l S IH F]; [constructor|]. rewrite filter_cons. destruct (decide (Q x)); [|exact IH]. constructor; [exact IH|].
  rewrite Forall_forall in *. intros y K. apply elem_of_list_filter in K. apply F. apply K.
Qed.
Section Prune.
  Variable s : sgraph.
  Hypothesis L : legible s.
  Hypothesis V : forall m k v, holds_attrs s m -> m !! k = Some v -> valid_attr k.
  Hypothesis Ap : forall n, s_is_node s n -> s_is_sub s n -> False.
  Hypothesis Rt : ~ s_is_sub s (s_name s).
  Hypothesis Cl : forall n port, endpoint s n port -> ~ cluster s n.
  Variables (f : nat) (es : list edge) (a : Ast.graph).
  Hypothesis P : es ≡ₚ s_edges s.
  Hypothesis Wr : c_write s f es = Ok a.

  Lemma apart_no_clash : no_clash s.
  Proof. intros n H1 H2 _. exact (Ap n H2 H1). Qed.
  Lemma is_written n : written s n -> s_is_sub s n.
  Proof. intros (r & St & R). eapply rtc_sub; [|exact R]. destruct St; assumption. Qed.
  Lemma written_set : exists W : names, forall n, n ∈ W <-> written s n.
  Proof.
    pose proof Wr as H. apply c_write_ok in H. destruct H as (el & tops & ts & ns & Ea & Fe & Ft & _ & Ht & Hm & Hn).
    exists (filter (fun n => n ∈ marks (el ++ map Ast.SSub ts)) (dom (s_subs s))). intros n. rewrite elem_of_filter, elem_of_dom. split.
    - intros [M S]. destruct (marks_begins s f es el tops ts Fe Ft n M) as (r & Br & [R|(p & _ & _ & N)]); [|destruct (Ap n N S)].
      exists r. split; [|exact R]. exact (begins_starts s es P el tops Ht r Br).
    - intros W. split; [|apply is_written; exact W]. destruct W as (r & St & R).
      destruct (starts_reached s f es P el tops ts Fe Ft Hm r apart_no_clash St) as (r0 & Br & R0).
      destruct (begins_marks s f es el tops ts Fe Ft r0 Br) as (t & Ht' & M). apply M. exact (proj1 (sub_marks_complete s f r0 t Ht' n (rtc_transitive _ _ _ R0 R))).
  Qed.

  Variable W : names.
  Hypothesis HW : forall n, n ∈ W <-> written s n.
  Definition pruned : sgraph :=
    SGraph (s_name s) (s_directed s) (s_strict s) (s_attrs s) (s_nodes s) (s_order s) (map clip_edge (s_edges s)) (filter (fun kv => kv.1 ∈ W) (s_subs s)) (s_rels s).
  Notation s2 := pruned.
  Lemma pruned_sub n b : s_subs s2 !! n = Some b <-> s_subs s !! n = Some b /\ n ∈ W.
  Proof. cbn. rewrite map_filter_lookup_Some. reflexivity. Qed.
  Lemma pruned_in n : n ∈ W -> s_subs s2 !! n = s_subs s !! n.
  Proof.
    intros K. destruct (s_subs s !! n) as [b|] eqn:E; [apply pruned_sub; auto|]. destruct (s_subs s2 !! n) as [b|] eqn:E2; [|reflexivity].
    apply pruned_sub in E2. destruct E2 as [E2 _]. congruence.
  Qed.
  Lemma pruned_is_sub n : s_is_sub s2 n <-> written s n.
  Proof.
    unfold s_is_sub. split.
    - intros [b H]. apply pruned_sub in H. apply HW. apply H.
    - intros K. rewrite pruned_in by (apply HW; exact K). apply is_written. exact K.
  Qed.
  Lemma written_step n c : written s n -> is_child s n c -> s_is_sub s c -> written s c.
  Proof.
    intros (r & St & R) C S. exists r. split; [exact St|]. eapply rtc_r; [exact R|]. split; [exact C|]. split; [exact S|]. intros N. exact (Ap c N S).
  Qed.
  Lemma not_node_sub c : s_nodes s !! c = None -> ~ s_is_node s c.
  Proof. intros H [b K]. congruence. Qed.
  Lemma pruned_c_sub g : forall n, written s n -> c_sub s2 g n = c_sub s g n.
  Proof.
    induction g as [|g IH]; intros n K; [reflexivity|]. cbn [c_sub]. rewrite pruned_in by (apply HW; exact K).
    assert (M : map_res (c_child s2 (c_sub s2 g)) (sorted (kids s2 n)) = map_res (c_child s (c_sub s g)) (sorted (kids s n))).
    { change (kids s2 n) with (kids s n). apply map_res_ext. intros c Hc. apply elem_of_sorted, elem_of_kids in Hc. unfold c_child.
      change (s_nodes s2) with (s_nodes s). destruct (s_nodes s !! c) eqn:En; [reflexivity|]. destruct (s_subs s !! c) as [b|] eqn:Es.
      - assert (Kc : written s c) by (eapply written_step; [exact K|exact Hc|exists b; exact Es]). rewrite pruned_in by (apply HW; exact Kc). rewrite Es, IH by exact Kc. reflexivity.
      - destruct (s_subs s2 !! c) as [b|] eqn:E2; [|reflexivity]. apply pruned_sub in E2. destruct E2. congruence. }
    rewrite M. reflexivity.
  Qed.
  Lemma pruned_end n port : endpoint s n port -> s_is_sub s n -> written s n.
  Proof.
    intros E S. exists n. split; [|apply rtc_refl]. eapply Starts_end; [exact E|exact S| |].
    - intros N. exact (Ap n N S).
    - eapply Cl. exact E.
  Qed.
  Lemma pruned_c_end g n port q : endpoint s n port -> c_end s2 g n q = c_end s g n q.
  Proof.
    intros E. unfold c_end. change (s_nodes s2) with (s_nodes s). destruct (s_nodes s !! n) as [b|] eqn:En; [reflexivity|].
    destruct (s_subs s !! n) as [b|] eqn:Es.
    - assert (K : written s n) by (eapply pruned_end; [exact E|exists b; exact Es]). rewrite pruned_in by (apply HW; exact K). rewrite Es, pruned_c_sub by exact K. reflexivity.
    - destruct (s_subs s2 !! n) as [b|] eqn:E2; [|reflexivity]. apply pruned_sub in E2. destruct E2. congruence.
  Qed.
  Lemma pruned_c_edges g : map_res (c_edge s2 g) (map clip_edge es) = map_res (c_edge s g) (map clip_edge es).
  Proof.
    apply map_res_ext. intros e He. apply elem_of_list_fmap in He. destruct He as (e0 & -> & He). rewrite P in He. unfold c_edge.
    rewrite (pruned_c_end g _ (e_src_port e0)) by (exists e0; split; [exact He|left; split; reflexivity]).
    rewrite (pruned_c_end g _ (e_dst_port e0)) by (exists e0; split; [exact He|right; split; reflexivity]). reflexivity.
  Qed.
  Lemma pruned_tops g ns : (forall n, n ∈ ns -> s_is_sub s n) -> forall acc, c_tops s2 g (filter (fun n => n ∈ W) ns) acc = c_tops s g ns acc.
  Proof.
    induction ns as [|n ns IH]; intros S acc; [reflexivity|]. rewrite filter_cons. assert (S' : forall m, m ∈ ns -> s_is_sub s m) by (intros m K; apply S; right; exact K).
    change (s_name s2) with (s_name s). change (kids s2) with (kids s).
    destruct (decide (n ∈ W)) as [K|K]; cbn [c_tops].
    - destruct (decide (n ∈ marks acc)); [apply IH; exact S'|]. change (kids s2 (s_name s2)) with (kids s (s_name s)).
      destruct (decide (n ∈ kids s (s_name s))); [|apply IH; exact S'].
      rewrite pruned_c_sub by (apply HW; exact K). destruct (c_sub s g n) as [t|x| |]; cbn [bind]; try reflexivity. apply IH. exact S'.
    - destruct (decide (n ∈ marks acc)); [apply IH; exact S'|]. rewrite decide_False; [apply IH; exact S'|]. intros C. apply elem_of_kids in C. apply K, HW.
      exists n. split; [|apply rtc_refl]. apply Starts_top; [exact C|]. apply S. left.
  Qed.
  Lemma pruned_dom : sorted (dom (s_subs s2)) = filter (fun n => n ∈ W) (sorted (dom (s_subs s))).
  Proof.
    apply strict_sorted_unique; [apply sorted_strict|apply sorted_filter, sorted_strict|]. intros n. rewrite elem_of_list_filter, !elem_of_sorted, !elem_of_dom. split.
    - intros [b H]. apply pruned_sub in H. destruct H as [H1 H2]. split; [exact H2|eauto].
    - intros [H1 [b H2]]. exists b. apply pruned_sub. auto.
  Qed.
  Lemma c_nodes_pruned ns : forall acc, c_nodes s2 ns acc = c_nodes s ns acc.
  Proof. intros acc. reflexivity. Qed.
  Lemma pruned_write : c_write s2 f (map clip_edge es) = Ok (dp_graph a).
  Proof.
    rewrite <- (c_write_clip s f es a (legible_all s es L P) Wr). unfold c_write. rewrite pruned_c_edges.
    change (s_nodes s2) with (s_nodes s). change (s_attrs s2) with (s_attrs s). rewrite pruned_dom.
    destruct (map_res (c_edge s f) (map clip_edge es)) as [el|x| |]; cbn [bind]; try reflexivity.
    rewrite pruned_tops by (intros n; apply subs_listed). reflexivity.
  Qed.

  Lemma edge_ends e : e ∈ s_edges s -> exists st, c_edge s f e = Ok st.
  Proof.
    intros He. pose proof Wr as H. apply c_write_ok in H. destruct H as (el & tops & ts & ns & Ea & Fe & _). rewrite <- P in He.
    destruct (elem_of_list_lookup_1 _ _ He) as [i Hi]. destruct (Forall2_lookup_l _ _ _ _ _ Fe Hi) as (st & _ & X). eauto.
  Qed.
  Lemma ends_ok n port : endpoint s n port -> s_is_node s n \/ (written s n /\ port = []).
  Proof.
    intros E. pose proof E as (e & He & Ee). destruct (edge_ends e He) as [st X]. unfold c_edge in X.
    destruct (c_end s f (e_src e) (e_src_port e)) as [l1|x| |] eqn:E1; cbn [bind] in X; try discriminate.
    destruct (c_end s f (e_dst e) (e_dst_port e)) as [l2|x| |] eqn:E2; cbn [bind] in X; try discriminate. clear X.
    assert (G : forall n p lo, endpoint s n p -> c_end s f n p = Ok lo -> s_is_node s n \/ (written s n /\ p = [])).
    { clear -Ap Cl. intros n p lo E H. unfold c_end in H. destruct (s_nodes s !! n) as [b|] eqn:En; [left; exists b; exact En|]. right.
      destruct (s_subs s !! n) as [b|] eqn:Es; [|discriminate]. destruct p; [|discriminate]. split; [|reflexivity]. eapply pruned_end; [exact E|exists b; exact Es]. }
    destruct Ee as [(-> & ->)|(-> & ->)]; eapply G; eassumption.
  Qed.
  Lemma written_kids p c : written s p -> is_child s p c -> s_is_node s c \/ written s c.
  Proof.
    intros K C. pose proof K as (r & St & R). pose proof Wr as H. apply c_write_ok in H. destruct H as (el & tops & ts & ns & Ea & Fe & Ft & _ & Ht & Hm & Hn).
    destruct (starts_reached s f es P el tops ts Fe Ft Hm r apart_no_clash St) as (r0 & Br & R0).
    destruct (begins_marks s f es el tops ts Fe Ft r0 Br) as (t & Ht' & _).
    assert (M : c ∈ sub_names t) by exact (proj2 (sub_marks_complete s f r0 t Ht' p (rtc_transitive _ _ _ R0 R)) c C).
    destruct (sub_marks_sound s f r0 t Ht' c M) as [R'|(q & _ & _ & N)]; [|auto]. right. exists r0. split; [|exact R']. eapply begins_starts; eassumption.
  Qed.
  Lemma pruned_endpoint n q : endpoint s2 n q -> exists p, endpoint s n p /\ q = clip p.
  Proof. exact (clipped_end s n q). Qed.
  Lemma endpoint_pruned n : (exists port, endpoint s2 n port) <-> exists port, endpoint s n port.
  Proof.
    split; [intros (q & E); apply pruned_endpoint in E; destruct E as (p & E & _); eauto|]. intros (p & E). exists (clip p). exact (end_clipped s n p E).
  Qed.
  Lemma starts_pruned n : starts s n -> starts s2 n.
  Proof.
    intros St. assert (K : written s n) by (exists n; split; [exact St|apply rtc_refl]). destruct St as [C S|port E S N1 N2].
    - apply Starts_top; [exact C|apply pruned_is_sub; exact K].
    - apply (Starts_end s2 n (clip port)); [exact (end_clipped s n port E)|apply pruned_is_sub; exact K|exact N1|]. intros [_ T]. apply N2. split; [exact S|exact T].
  Qed.
  Lemma nested_pruned p c : written s p -> nested s p c -> nested s2 p c.
  Proof. intros K (C & S & N). split; [exact C|]. split; [apply pruned_is_sub; eapply written_step; eassumption|exact N]. Qed.
  Lemma pruned_nested p c : nested s2 p c -> nested s p c.
  Proof. intros (C & S & N). split; [exact C|]. split; [apply is_written, pruned_is_sub; exact S|exact N]. Qed.
  Lemma written_pruned n : written s n -> written s2 n.
  Proof.
    intros (r & St & R). exists r. split; [apply starts_pruned; exact St|].
    assert (G : forall x y, rtc (nested s) x y -> written s x -> rtc (nested s2) x y).
    { induction 1 as [x|x y z N R' IH]; intros K; [apply rtc_refl|]. eapply rtc_l; [apply nested_pruned; [exact K|exact N]|]. apply IH. destruct N as (C & S & _). eapply written_step; eassumption. }
    apply G; [exact R|]. exists r. split; [exact St|apply rtc_refl].
  Qed.
  Lemma pruned_written n : written s2 n -> written s n.
  Proof. intros K. apply pruned_is_sub. destruct K as (r & St & R). eapply rtc_sub; [|exact R]. destruct St; assumption. Qed.
  Lemma pruned_holds m : holds_attrs s2 m -> holds_attrs s m.
  Proof.
    intros [|n m' H|n m' H|e H]; [exact (Ha_graph s)|exact (Ha_node s n m' H)|apply pruned_sub in H; exact (Ha_sub s n m' (proj1 H))|].
    cbn in H. apply elem_of_list_fmap in H. destruct H as (e' & -> & H). apply (Ha_edge s e' H).
  Qed.
  Lemma pruned_tidy : tidy s2.
  Proof.
    split.
    - exact (l_name s L).
    - intros n [N|S]; apply (l_names s L); [left; exact N|right; apply is_written, pruned_is_sub; exact S].
    - intros m k v H. apply (l_values s L). apply pruned_holds. exact H.
    - intros n N S. apply (Ap n N). apply is_written, pruned_is_sub. exact S.
    - intros S. apply Rt. apply is_written, pruned_is_sub. exact S.
    - intros n q E. apply pruned_endpoint in E. destruct E as (p & E & ->). destruct (ends_ok n p E) as [N|[K ->]].
      + left. split; [exact N|]. apply (clip_spec n p). intros t. apply (l_ports s L n p t E N).
      + right. split; [apply pruned_is_sub; exact K|]. split; [|reflexivity]. intros [_ T]. apply (Cl n _ E). split; [apply is_written; exact K|exact T].
    - intros p c S C. apply pruned_is_sub in S. destruct (written_kids p c S C) as [N|K]; [left; exact N|right; apply pruned_is_sub; exact K].
    - intros n K T. apply pruned_written in K. apply (c_write_cyclic s f es a apart_no_clash P Wr n K).
      assert (G : forall x y, tc (nested s2) x y -> tc (nested s) x y) by (intros x y T'; induction T' as [x y N|x y z N T' IH]; [apply tc_once, pruned_nested; exact N|eapply tc_l; [apply pruned_nested; exact N|exact IH]]).
      apply G. exact T.
    - intros n S. apply written_pruned, pruned_is_sub. exact S.
  Qed.

  Lemma same_text s' : (forall p c, is_child s' p c -> s_is_node s' c \/ s_is_sub s' c) -> same_graph s2 s' -> text_graph s s'.
  Proof.
    intros S0 [S1 S2 S3 S4 S5 S6 S7 S8 S9 S10 S11]. split; try assumption.
    - intros n m. rewrite S6, pruned_sub, HW. reflexivity.
    - exists (map read_edge (map clip_edge (s_edges s))). split; [exact S7|]. rewrite map_map. apply Forall2_fmap_r, Forall2_same_length_lookup_2; [reflexivity|].
      intros i e e' H1 H2. assert (e' = e) as -> by congruence. apply elem_of_list_lookup_2 in H1. clear H2.
      assert (G : forall n p, endpoint s n p -> prints_port p (read_port (clip p))).
      { intros n p E. destruct (ends_ok n p E) as [N|[_ ->]]; [|constructor]. apply (clip_spec n p). intros t. apply (l_ports s L n p t E N). }
      unfold printed_edge. cbn. repeat split; eapply G; exists e; (split; [exact H1|]); [left|right]; split; reflexivity.
    - intros p c K. apply (S8 p c). apply pruned_is_sub. exact K.
    - intros p c K. destruct (S9 p c K) as [K'|K']; [auto|right; apply pruned_is_sub; exact K'].
    - intros n N. rewrite <- endpoint_pruned. rewrite (S10 n N). split; (intros [K|K]; [auto|right; intros p Kp; apply K; apply pruned_is_sub; exact Kp]).
    - intros n S. rewrite <- endpoint_pruned. destruct (decide (n ∈ W)) as [K|K].
      + assert (S' : s_is_sub s2 n) by (apply pruned_is_sub, HW; exact K). destruct (S11 n S') as (K1 & K2 & K3). split; [exact K1|]. split; [exact K2|].
        intros C. destruct (K3 C) as [K4|(p & K4 & K5)]; [auto|]. right. exists p. split; [apply pruned_is_sub; exact K4|exact K5].
      + assert (NE : ~ exists port, endpoint s2 n port).
        { rewrite endpoint_pruned. intros [port E]. apply K, HW. eapply pruned_end; eassumption. }
        assert (NC : ~ is_child s (s_name s) n).
        { intros C. apply K, HW. exists n. split; [|apply rtc_refl]. apply Starts_top; assumption. }
        split; [intros K1; contradiction|]. split; [|intros K1; contradiction]. intros C. exfalso.
        destruct (S0 _ _ C) as [N|N].
        * apply (Ap n); [|exact S]. unfold s_is_node in *. rewrite S5 in N. exact N.
        * apply K, HW, pruned_is_sub. unfold s_is_sub in *. rewrite S6 in N. exact N.
  Qed.
End Prune.
