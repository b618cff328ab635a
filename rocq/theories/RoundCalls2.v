(** The calls that the written text of a graph stands for: the top level. *)
From Coq Require Import Ascii.
From stdpp Require Import sorting.
From Verif Require Import Base Parser Maps Graph AttrMap SpecGraph MapFacts GraphProofs Analyse SpecAnalyse AnalyseProofs ReadProofs.
From Verif Require Import Write SpecWrite EdgeOrder WriteProofs WriteFacts WriteFacts2 SpecRound RoundCalls.
From Verif Require Import SpecAst LexPrint AstProofs.
From Verif Require Ast PropsGraph PropsEscape.

Section Top.
  Variable s : sgraph.
  Notation c_sub := (c_sub s).
  Notation root := (s_name s).
  (** Endpoints written as a name, and as a subgraph. *)
  Definition plain_end (n : gostr) : Prop := s_is_node s n \/ cluster s n.
  Definition sub_end (n : gostr) : Prop := s_is_sub s n /\ ~ s_is_node s n /\ ~ cluster s n.
  Definition end_of (e : edge) (n port : gostr) : Prop := (n = e_src e /\ port = e_src_port e) \/ (n = e_dst e /\ port = e_dst_port e).
  (** The port as it is printed and read. *)
  Definition port_back (n p : gostr) : gostr := Ast.port_str (Ast.nid_port (Ast.make_node_id n p)).
  Definition edge_back (e : edge) : call :=
    CAddPortEdge (e_src e) (port_back (e_src e) (e_src_port e)) (e_dst e) (port_back (e_dst e) (e_dst_port e)) (e_dir e) (e_attrs e).

  Lemma c_end_inv f n p l : c_end s f n p = Ok l ->
    (plain_end n /\ (exists i, l = Ast.LNode i /\ Ast.nid_id i = n) \/ sub_end n /\ exists t, l = Ast.LSub t /\ c_sub f n = Ok t) /\
    end_name l = n /\ end_port l = port_back n p.
  Proof.
    unfold c_end, plain_end, sub_end, cluster, port_back.
    assert (NI : Ast.nid_id (Ast.make_node_id n p) = n).
    { unfold Ast.make_node_id. destruct p; [reflexivity|]. destruct (split_on _ _) as [|? [|? ?]]; reflexivity. }
    destruct (s_nodes s !! n) as [a|] eqn:En.
    - intros [= <-]. split; [left; split; [left; unfold s_is_node; rewrite En; eauto|eauto]|]. split; [exact NI|symmetry; apply port_str_text].
    - destruct (s_subs s !! n) as [a|] eqn:Es; [|discriminate]. destruct p as [|c p]; [|discriminate].
      assert (S : s_is_sub s n) by (unfold s_is_sub; rewrite Es; eauto).
      destruct (has_prefix n (lit "cluster")) eqn:P.
      + intros [= <-]. split; [left; split; [right; split; [exact S|apply prefix_spec; exact P]|eauto]|]. split; reflexivity.
      + destruct (c_sub f n) as [t|e| |] eqn:Et; cbn; try discriminate. intros [= <-]. split; [right; split; [|eauto]|].
        * split; [exact S|]. split; [apply not_node; exact En|]. intros [_ C]. apply prefix_spec in C. congruence.
        * split; [|reflexivity]. destruct f as [|f]; [discriminate|]. apply c_sub_inv in Et. destruct Et as (b & body & _ & _ & ->). reflexivity.
  Qed.

  Definition edge_says (e : edge) (x : call) : Prop :=
    x = edge_back e \/
    (exists n port, end_of e n port /\ plain_end n /\ x = CAddNode root n ∅) \/
    (exists n port, end_of e n port /\ sub_end n /\ sub_says s root n x).

  Lemma endpoint_says (seen : list gostr) lo x : x ∈ endpoint_call root ∅ seen lo -> exists i, lo = Ast.LNode i /\ x = CAddNode root (Ast.nid_id i) ∅.
  Proof. destruct lo as [i|g]; cbn; [|intros H; inversion H]. destruct (decide _); intros H; [inversion H|]. apply elem_of_list_singleton in H. eauto. Qed.

  Lemma edge_quiet f e st : c_edge s f e = Ok st -> quiet st.
  Proof. intros H. apply c_edge_shows in H. destruct H as [H _]. inversion H; subst. exact I. Qed.
  Lemma edges_quiet f es el : Forall2 (fun e st => c_edge s f e = Ok st) es el -> Forall quiet el.
  Proof. induction 1; constructor; [eapply edge_quiet; eassumption|assumption]. Qed.

  Lemma edge_calls f e st pre l : c_edge s f e = Ok st -> Forall quiet pre -> stmt_calls root ∅ ∅ pre st l ->
    (forall x, x ∈ l -> edge_says e x) /\
    edge_back e ∈ l /\
    (forall n port, end_of e n port -> plain_end n -> n ∈ mentions st) /\
    (forall n port x, end_of e n port -> sub_end n -> sub_says s root n x -> x ∈ l).
  Proof.
    unfold c_edge. destruct (c_end s f (e_src e) (e_src_port e)) as [l1|x| |] eqn:E1; cbn [bind]; try discriminate.
    destruct (c_end s f (e_dst e) (e_dst_port e)) as [l2|x| |] eqn:E2; cbn [bind]; try discriminate. intros [= <-] Q H.
    apply c_end_inv in E1, E2. destruct E1 as (C1 & I1 & P1), E2 as (C2 & I2 & P2).
    inversion H as [|? ? ? ? ? ? ? ll HL| | | | |]; subst. rewrite (quiet_nd pre Q), (quiet_ed pre Q), get_in_order, (right_id_L (∅ : attrs) (∪)).
    cbn [map dst_of] in HL.
    assert (EB : CAddPortEdge (end_name l1) (end_port l1) (end_name l2) (end_port l2) (e_dir e) (e_attrs e) = edge_back e)
      by (unfold edge_back; rewrite I1, I2, P1, P2; reflexivity).
    cbn [arrow_calls]. rewrite EB.
    assert (PE : forall lo n, (plain_end n /\ (exists i, lo = Ast.LNode i /\ Ast.nid_id i = n)) \/ (sub_end n /\ exists t, lo = Ast.LSub t /\ c_sub f n = Ok t) ->
       forall (seen : list gostr) x, x ∈ endpoint_call root ∅ seen lo -> plain_end n /\ x = CAddNode root n ∅).
    { intros lo n C seen x K. apply endpoint_says in K. destruct K as (i & -> & ->). destruct C as [(C & i' & [= <-] & <-)|(_ & t & [=] & _)]. auto. }
    assert (SL : forall x, x ∈ ll <-> exists n port, end_of e n port /\ sub_end n /\ sub_says s root n x).
    { assert (NS : forall n, plain_end n -> sub_end n -> False) by (unfold plain_end, sub_end; tauto).
      assert (SC : forall lo n ls ll', (plain_end n /\ (exists i, lo = Ast.LNode i /\ Ast.nid_id i = n)) \/ (sub_end n /\ exists t, lo = Ast.LSub t /\ c_sub f n = Ok t) ->
         locs_calls root ∅ ∅ pre (lo :: ls) ll' -> exists la lb, ll' = la ++ lb /\ locs_calls root ∅ ∅ pre ls lb /\ forall x, x ∈ la <-> sub_end n /\ sub_says s root n x).
      { intros lo n ls ll' C K. destruct C as [(C & i & -> & <-)|(C & t & -> & Ht)]; inversion K as [|? ? ? ? ? ? l0 K1|? ? ? ? ? ? l0 l0' K1 K2]; subst.
        - exists [], ll'. split; [reflexivity|]. split; [exact K1|]. intros x. split; [intros X; inversion X|]. intros [X _]. destruct (NS _ C X).
        - exists l0, l0'. split; [reflexivity|]. split; [exact K2|]. intros x. rewrite (sub_calls_all s f n t Ht root pre l0 Q K1 x). tauto. }
      destruct (SC l1 _ _ _ C1 HL) as (la & lb & -> & HL2 & A1). destruct (SC l2 _ _ _ C2 HL2) as (lc & ld & -> & HL3 & A2). inversion HL3; subst.
      intros x. rewrite app_nil_r, elem_of_app, A1, A2. unfold end_of. split.
      - intros [[K1 K2]|[K1 K2]]; eauto 8.
      - intros (n & port & [(-> & ->)|(-> & ->)] & K1 & K2); auto. }
    split; [|split; [|split]].
    - intros x K. rewrite !elem_of_app in K. destruct K as [[K|[K|K]]|K].
      + destruct (PE l1 _ C1 _ _ K) as [K1 ->]. right. left. exists (e_src e), (e_src_port e). unfold end_of. auto.
      + destruct (PE l2 _ C2 _ _ K) as [K1 ->]. right. left. exists (e_dst e), (e_dst_port e). unfold end_of. auto.
      + apply elem_of_list_singleton in K. left. exact K.
      + right. right. apply SL. exact K.
    - rewrite !elem_of_app. left. right. right. apply elem_of_list_singleton. reflexivity.
    - intros n port En Pn. cbn [mentions flat_map dst_of]. rewrite app_nil_r, elem_of_app.
      assert (NS : sub_end n -> False) by (unfold plain_end, sub_end in *; tauto).
      destruct En as [(-> & ->)|(-> & ->)]; [destruct C1 as [(_ & i & -> & <-)|(C & _)]|destruct C2 as [(_ & i & -> & <-)|(C & _)]]; try contradiction; [left|right]; cbn; apply elem_of_list_singleton; reflexivity.
    - intros n port x En Sn K. rewrite !elem_of_app. right. apply SL. eauto.
  Qed.

  Lemma edges_calls f es el : Forall2 (fun e st => c_edge s f e = Ok st) es el -> forall pre l, Forall quiet pre -> body_calls root ∅ ∅ pre el l ->
    (forall x, x ∈ l -> exists e, e ∈ es /\ edge_says e x) /\
    (forall e, e ∈ es -> edge_back e ∈ l) /\
    (forall e n port, e ∈ es -> end_of e n port -> plain_end n -> n ∈ mentioned el) /\
    (forall e n port x, e ∈ es -> end_of e n port -> sub_end n -> sub_says s root n x -> x ∈ l).
  Proof.
    induction 1 as [|e st es el H F IH]; intros pre l Q B; inversion B as [|? ? ? ? ? ? l0 l' HS HB]; subst.
    - split; [intros x X; inversion X|]. split; [intros e X; inversion X|]. split; intros e n port; [intros X; inversion X|intros x X; inversion X].
    - assert (Q' : Forall quiet (pre ++ [st])) by (apply Forall_app; split; [exact Q|constructor; [eapply edge_quiet; exact H|constructor]]).
      destruct (IH _ _ Q' HB) as (A1 & A2 & A3 & A4). destruct (edge_calls _ _ _ _ _ H Q HS) as (B1 & B2 & B3 & B4).
      split; [|split; [|split]].
      + intros x X. apply elem_of_app in X. destruct X as [X|X]; [exists e; split; [left|auto]|]. destruct (A1 x X) as (e' & Y1 & Y2). exists e'. split; [right; exact Y1|exact Y2].
      + intros e' X. apply elem_of_cons in X. rewrite elem_of_app. destruct X as [->|X]; auto.
      + intros e' n port X. apply elem_of_cons in X. cbn [mentioned flat_map]. rewrite elem_of_app. destruct X as [->|X]; [intros; left; eauto|intros; right; eapply A3; eauto].
      + intros e' n port x X. apply elem_of_cons in X. rewrite elem_of_app. destruct X as [->|X]; [intros; left; eauto|intros; right; eapply A4; eauto].
  Qed.

  Lemma tops_calls f tops ts : Forall2 (fun n t => c_sub f n = Ok t) tops ts -> forall pre l, Forall quiet pre -> body_calls root ∅ ∅ pre (map Ast.SSub ts) l ->
    forall x, x ∈ l <-> exists n, n ∈ tops /\ sub_says s root n x.
  Proof.
    induction 1 as [|n t tops ts H F IH]; intros pre l Q B x; cbn [map] in B; inversion B as [|? ? ? ? ? ? l0 l' HS HB]; subst.
    - split; [intros X; inversion X|intros (n & X & _); inversion X].
    - assert (Q' : Forall quiet (pre ++ [Ast.SSub t])) by (apply Forall_app; split; [exact Q|constructor; [exact I|constructor]]).
      inversion HS; subst. rewrite elem_of_app, (IH _ _ Q' HB x).
      match goal with X : sub_calls _ _ _ _ _ _ |- _ => rewrite (sub_calls_all s f n t H root pre l0 Q X x) end. setoid_rewrite elem_of_cons. split.
      + intros [X|(m & X1 & X2)]; eauto.
      + intros (m & [->|X1] & X2); eauto.
  Qed.

  Lemma nodes_calls ns : forall pre l, Forall quiet pre -> body_calls root ∅ ∅ pre (map (fun n => c_node n (default ∅ (s_nodes s !! n))) ns) l ->
    forall x, x ∈ l <-> exists n, n ∈ ns /\ x = CAddNode root n (default ∅ (s_nodes s !! n)).
  Proof.
    induction ns as [|n ns IH]; intros pre l Q B x; cbn [map] in B; inversion B as [|? ? ? ? ? ? l0 l' HS HB]; subst.
    - split; [intros X; inversion X|intros (n & X & _); inversion X].
    - assert (Q' : Forall quiet (pre ++ [c_node n (default ∅ (s_nodes s !! n))])) by (apply Forall_app; split; [exact Q|constructor; [exact I|constructor]]).
      inversion HS; subst. rewrite elem_of_app, (IH _ _ Q' HB x).
      match goal with |- x ∈ [CAddNode _ ?i ?m] \/ _ <-> _ => assert (Ei : i = n) by (unfold node_text; cbn; apply app_nil_r);
            assert (Em : m = default ∅ (s_nodes s !! n)) by (rewrite get_in_order, (quiet_nd pre Q); destruct (decide _); apply (right_id_L (∅ : attrs) (∪))) end.
      rewrite Em, Ei, elem_of_list_singleton. setoid_rewrite elem_of_cons. split.
      + intros [X|(m & X1 & X2)]; eauto.
      + intros (m & [->|X1] & X2); eauto.
  Qed.

  (** All the calls. *)
  Inductive says (es : list edge) (tops ns : list gostr) (x : call) : Prop :=
  | Says_attr k v : s_attrs s !! k = Some v -> x = CAddAttr root k v -> says es tops ns x
  | Says_edge e : e ∈ es -> x = edge_back e -> says es tops ns x
  | Says_plain e n port : e ∈ es -> end_of e n port -> plain_end n -> x = CAddNode root n ∅ -> says es tops ns x
  | Says_sub_end e n port : e ∈ es -> end_of e n port -> sub_end n -> sub_says s root n x -> says es tops ns x
  | Says_top n : n ∈ tops -> sub_says s root n x -> says es tops ns x
  | Says_node n : n ∈ ns -> x = CAddNode root n (default ∅ (s_nodes s !! n)) -> says es tops ns x.

  Lemma quiet_map_sub ts : Forall quiet (map Ast.SSub ts).
  Proof. apply Forall_fmap. apply Forall_forall. intros x _. exact I. Qed.

  Lemma write_calls f es el tops ts ns l :
    Forall2 (fun e st => c_edge s f e = Ok st) es el -> Forall2 (fun n t => c_sub f n = Ok t) tops ts ->
    body_calls root ∅ ∅ [] (map Ast.SAttr (in_order (s_attrs s)) ++ el ++ map Ast.SSub ts ++ map (fun n => c_node n (default ∅ (s_nodes s !! n))) ns) l ->
    (forall x, x ∈ l -> says es tops ns x) /\
    (forall x, says es tops ns x -> x ∈ l \/ exists e n port, e ∈ es /\ end_of e n port /\ plain_end n /\ x = CAddNode root n ∅) /\
    (forall e n port, e ∈ es -> end_of e n port -> plain_end n -> adds root n l).
  Proof.
    intros Fe Ft B. pose proof (quiet_attrs (in_order (s_attrs s))) as Q1. pose proof (edges_quiet _ _ _ Fe) as Q2. pose proof (quiet_map_sub ts) as Q3.
    apply body_app in B. destruct B as (l1 & r1 & -> & B1 & B). apply body_app in B. destruct B as (l2 & r2 & -> & B2 & B).
    apply body_app in B. destruct B as (l3 & l4 & -> & B3 & B4). cbn [app] in *.
    assert (Q12 : Forall quiet (map Ast.SAttr (in_order (s_attrs s)) ++ el)) by (apply Forall_app; auto).
    assert (Q123 : Forall quiet ((map Ast.SAttr (in_order (s_attrs s)) ++ el) ++ map Ast.SSub ts)) by (apply Forall_app; auto).
    assert (A1 : forall x, x ∈ l1 <-> exists k v, s_attrs s !! k = Some v /\ x = CAddAttr root k v) by (intros x; apply (in_order_calls _ _ _ _ _ _ x B1)).
    destruct (edges_calls f es el Fe _ _ Q1 B2) as (A2 & A3 & A4 & A5).
    pose proof (tops_calls f tops ts Ft _ _ Q12 B3) as A6. pose proof (nodes_calls ns _ _ Q123 B4) as A7.
    split; [|split].
    - intros x. rewrite !elem_of_app. intros [X|[X|[X|X]]].
      + apply A1 in X. destruct X as (k & v & X & ->). eapply Says_attr; eauto.
      + apply A2 in X. destruct X as (e & X & [->|[(n & port & Y1 & Y2 & ->)|(n & port & Y1 & Y2 & Y3)]]); [eapply Says_edge|eapply Says_plain|eapply Says_sub_end]; eauto.
      + apply A6 in X. destruct X as (n & X & Y). eapply Says_top; eauto.
      + apply A7 in X. destruct X as (n & X & ->). eapply Says_node; eauto.
    - intros x X. rewrite !elem_of_app. destruct X as [k v X ->|e X ->|e n port X Y Z ->|e n port X Y Z W|n X Y|n X ->].
      + left. left. apply A1. eauto.
      + left. right. left. auto.
      + right. eauto 8.
      + left. right. left. eapply A5; eauto.
      + left. right. right. left. apply A6. eauto.
      + left. right. right. right. apply A7. eauto.
    - intros e n port X Y Z. rewrite !adds_app. right. left.
      destruct (body_adds _ _ _ _ _ _ _ B2 (A4 e n port X Y Z)) as [K|K]; [|exact K].
      exfalso. clear -K. induction (in_order (s_attrs s)) as [|a al IH]; [inversion K|apply IH; exact K].
  Qed.

  (** The edges, in order. *)
  Lemma body_edges_app b1 : forall ed b2, body_edges ed (b1 ++ b2) = body_edges ed b1 ++ body_edges (edge_defaults ed b1) b2.
  Proof.
    induction b1 as [|st b1 IH]; intros ed b2; [reflexivity|]. cbn [app body_edges]. rewrite IH, <- app_assoc.
    change (st :: b1) with ([st] ++ b1). rewrite (ed_app [st] ed b1). reflexivity.
  Qed.
  Lemma body_edges_none b : (forall ed st, st ∈ b -> stmt_edges ed st = []) -> forall ed, body_edges ed b = [].
  Proof.
    induction b as [|st b IH]; intros H ed; [reflexivity|]. cbn [body_edges]. rewrite H by left. cbn [app]. apply IH. intros ed' st' K. apply H. right. exact K.
  Qed.
  Lemma c_sub_no_edges f : forall n t, c_sub f n = Ok t -> forall ed, sub_edges ed t = [].
  Proof.
    induction f as [|f IH]; intros n t H ed; [discriminate|]. apply c_sub_inv in H. destruct H as (a & body & _ & F & ->).
    rewrite sub_edges_eq. apply body_edges_none. intros ed' st K. apply elem_of_app in K. destruct K as [K|K].
    - apply elem_of_list_fmap in K. destruct K as (y & -> & _). reflexivity.
    - destruct (elem_of_list_lookup_1 _ _ K) as [i Hi]. destruct (Forall2_lookup_r _ _ _ _ _ F Hi) as (c & _ & X). unfold c_child in X.
      destruct (s_nodes s !! c); [injection X as <-; reflexivity|]. destruct (s_subs s !! c); [|discriminate].
      destruct (c_sub f c) as [t|e| |] eqn:Et; cbn in X; try discriminate. injection X as <-. cbn [stmt_edges]. eapply IH. exact Et.
  Qed.
  Definition back (e : edge) : edge :=
    Edge (e_src e) (port_back (e_src e) (e_src_port e)) (e_dst e) (port_back (e_dst e) (e_dst_port e)) (e_dir e) (e_attrs e).
  Lemma c_edge_edges f e st : c_edge s f e = Ok st -> stmt_edges ∅ st = [back e].
  Proof.
    unfold c_edge. destruct (c_end s f (e_src e) (e_src_port e)) as [l1|x| |] eqn:E1; cbn [bind]; try discriminate.
    destruct (c_end s f (e_dst e) (e_dst_port e)) as [l2|x| |] eqn:E2; cbn [bind]; try discriminate. intros [= <-].
    apply c_end_inv in E1, E2. destruct E1 as (C1 & I1 & P1), E2 as (C2 & I2 & P2).
    assert (N : forall l n ed, (plain_end n /\ (exists i, l = Ast.LNode i /\ Ast.nid_id i = n)) \/ (sub_end n /\ exists t, l = Ast.LSub t /\ c_sub f n = Ok t) -> loc_edges ed l = []).
    { intros l n ed [(_ & i & -> & _)|(_ & t & -> & H)]; [reflexivity|]. cbn. eapply c_sub_no_edges. exact H. }
    cbn [stmt_edges arrows map flat_map rh_edges arrow_edge]. rewrite (N l1 _ _ C1), (N l2 _ _ C2), get_in_order, (right_id_L (∅ : attrs) (∪)).
    cbn [app]. unfold back. rewrite <- P1, <- P2, I1, I2. reflexivity.
  Qed.
  Lemma write_edges f es el tops ts ns :
    Forall2 (fun e st => c_edge s f e = Ok st) es el -> Forall2 (fun n t => c_sub f n = Ok t) tops ts ->
    body_edges ∅ (map Ast.SAttr (in_order (s_attrs s)) ++ el ++ map Ast.SSub ts ++ map (fun n => c_node n (default ∅ (s_nodes s !! n))) ns) = map back es.
  Proof.
    intros Fe Ft. rewrite !body_edges_app. rewrite (body_edges_none (map Ast.SAttr _)).
    2:{ intros ed st K. apply elem_of_list_fmap in K. destruct K as (y & -> & _). reflexivity. }
    rewrite (body_edges_none (map Ast.SSub ts)).
    2:{ intros ed st K. apply elem_of_list_fmap in K. destruct K as (t & -> & K). destruct (elem_of_list_lookup_1 _ _ K) as [i Hi].
        destruct (Forall2_lookup_r _ _ _ _ _ Ft Hi) as (c & _ & X). cbn. eapply c_sub_no_edges. exact X. }
    rewrite (body_edges_none (map _ ns)).
    2:{ intros ed st K. apply elem_of_list_fmap in K. destruct K as (y & -> & _). reflexivity. }
    rewrite (quiet_ed _ (quiet_attrs _)). cbn [app]. rewrite app_nil_r.
    induction Fe as [|e st es el H F IH]; [reflexivity|]. cbn [body_edges map]. rewrite (c_edge_edges _ _ _ H).
    assert (E : edge_defaults ∅ [st] = ∅) by (apply (quiet_ed [st]); constructor; [eapply edge_quiet; exact H|constructor]).
    rewrite E, IH. reflexivity.
  Qed.
End Top.

(** ** Ports *)
Lemma split_no_colon p : colon ∉ p -> split_on colon p = [p].
Proof.
  induction p as [|x p IH]; intros H; [reflexivity|]. apply not_elem_of_cons in H. destruct H as [H1 H2]. cbn [split_on]. rewrite IH by exact H2.
  destruct (Ascii.eqb x colon) eqn:E; [|reflexivity]. apply Ascii.eqb_eq in E. congruence.
Qed.
Lemma split_colon a p : colon ∉ a -> split_on colon (a ++ [colon] ++ p) = a :: split_on colon p.
Proof.
  assert (N : forall p, split_on colon p <> []) by (intros q; destruct q as [|x q]; cbn; [discriminate|destruct (split_on colon q); [discriminate|destruct (Ascii.eqb x colon); discriminate]]).
  induction a as [|x a IH]; intros H; cbn [app split_on].
  - destruct (split_on colon p) eqn:E; [destruct (N _ E)|]. rewrite Ascii.eqb_refl. reflexivity.
  - apply not_elem_of_cons in H. destruct H as [H1 H2]. cbn [app] in IH. rewrite IH by exact H2.
    destruct (Ascii.eqb x colon) eqn:E; [|reflexivity]. apply Ascii.eqb_eq in E. congruence.
Qed.
Lemma good_nonempty i : good_id i -> i <> [].
Proof. intros [H _] ->. apply PropsEscape.is_idb_spec in H. vm_compute in H. discriminate. Qed.
Lemma good_port_made n p : good_port p ->
  port_back n p = read_port p /\ wf_port good_id (Ast.nid_port (Ast.make_node_id n p)).
Proof.
  unfold port_back. intros [->|[[G N]|(a & b & -> & Ga & Gb & Na & Nb)]]; [split; [reflexivity|exact I]| |].
  - pose proof (good_nonempty p G) as NE. unfold Ast.make_node_id. change ":"%char with colon. rewrite (split_no_colon p N). destruct p as [|c p]; [congruence|].
    cbn. split; [rewrite app_nil_r; reflexivity|exact G].
  - pose proof (good_nonempty a Ga) as NA. pose proof (good_nonempty b Gb) as NB.
    unfold Ast.make_node_id. change ":"%char with colon. rewrite (split_colon a b Na), (split_no_colon b Nb).
    destruct a as [|c a]; [congruence|]. cbn [app]. unfold wf_port. cbn [Ast.nid_port Ast.port_id1 Ast.port_id2 Ast.port_str].
    destruct b as [|d b]; [congruence|]. split; [reflexivity|]. split; assumption.
Qed.
Lemma back_good e : good_port (e_src_port e) -> good_port (e_dst_port e) -> back e = read_edge e.
Proof. intros H1 H2. unfold back, read_edge. rewrite (proj1 (good_port_made _ _ H1)), (proj1 (good_port_made _ _ H2)). reflexivity. Qed.
