(** Property C90: editing a graph after it has been saved and loaded. *)
From stdpp Require Import sorting.
From Verif Require Import Base Parser Maps Graph SpecGraph MapFacts GraphProofs Direct SpecDirect DirectProofs.
From Verif Require Import Write SpecWrite EdgeOrder WriteProofs WriteFacts WriteFacts2 TidyCheck LexPrint SpecRound Analyse SpecAnalyse AnalyseProofs SpecOrder SpecMerge SpecTop TopProofs TopProofs2 RoundFinal SpecRemove SpecEdit SpecSame.
From Verif Require PropsGraph PropsWrite PropsOrder PropsAnalyse PropsRound PropsReread PropsText PropsTop PropsSame PropsRemove.
Notation srt0 := PropsWrite.srt0.
Notation build := PropsWrite.build.
Notation o_id := PropsGraph.o_id.
Notation robust := PropsGraph.robust.
Local Existing Instances PropsRemove.s_is_node_dec PropsRemove.s_is_sub_dec.

Lemma alike_drop s s' p N : alike s s' -> alike (s_drop_nodes s p N) (s_drop_nodes s' p N).
Proof.
  intros [L1 L2 L3 L4 L5 L6 L7 L8]. destruct s as [nm d st a nd od es sb rl], s' as [nm' d' st' a' nd' od' es' sb' rl']. cbn in *. subst.
  split; cbn; try reflexivity.
  - rewrite L7. reflexivity.
  - intros q c Nq. unfold is_child in *. cbn in *. rewrite !elem_of_filter. specialize (L8 q c Nq). tauto.
Qed.
Lemma alike_put_attrs s s' n m : alike s s' -> alike (s_put_attrs s n m) (s_put_attrs s' n m).
Proof.
  intros [L1 L2 L3 L4 L5 L6 L7 L8]. destruct s as [nm d st a nd od es sb rl], s' as [nm' d' st' a' nd' od' es' sb' rl']. cbn in *. subst.
  unfold s_put_attrs. cbn. destruct (decide (nm = n)); split; cbn; auto.
Qed.
Lemma alike_open s s' p n : alike s s' -> alike (s_open_sub s p n) (s_open_sub s' p n).
Proof.
  intros [L1 L2 L3 L4 L5 L6 L7 L8]. destruct s as [nm d st a nd od es sb rl], s' as [nm' d' st' a' nd' od' es' sb' rl']. cbn in *. subst.
  split; cbn; auto. intros q c Nq. unfold is_child in *. cbn in *. rewrite !elem_of_union, (L8 q c Nq). reflexivity.
Qed.
Lemma alike_step s s' c t t' r r' : alike s s' -> keeps_main (s_name s) c -> robust c r -> spec_call c s t r -> spec_call c s' t' r' ->
  alike t t' /\ (r = None <-> r' = None) /\ s_name t = s_name s.
Proof.
  intros L K Rb H H'. pose proof L as [L1 L2 L3 L4 L5 L6 L7 L8].
  destruct H as [b s|b s|x s|a pa b pb dir m s V|a pa b pb dir m s e Bd|a b dir m s V|a b dir m s e Bd|p n m s V|p n m s e Bd|n f v s V In|n f v s V In|n f v s N1 N2
    |p n m s V|p n m m' s e Bd Sb V|p n s Hn|p n s Hn|p n s N HN1 HN2|p n s N c Hc1 Hc2 HN].
  - inversion H'; subst. split; [split; cbn; auto|]. split; [tauto|reflexivity].
  - inversion H'; subst. split; [split; cbn; auto|]. split; [tauto|reflexivity].
  - destruct K.
  - inversion H' as [| | | | | | | | | | | | | | | | |]; subst; [|destruct (PropsGraph.bad_not_valid _ _ ltac:(eassumption) V)].
    split; [split; cbn; auto; rewrite L7; reflexivity|]. split; [tauto|reflexivity].
  - inversion H'; subst; [destruct (PropsGraph.bad_not_valid _ _ Bd ltac:(assumption))|]. split; [exact L|]. split; [split; discriminate|reflexivity].
  - inversion H'; subst; [|destruct (PropsGraph.bad_not_valid _ _ ltac:(eassumption) V)].
    split; [split; cbn; auto; rewrite L7; reflexivity|]. split; [tauto|reflexivity].
  - inversion H'; subst; [destruct (PropsGraph.bad_not_valid _ _ Bd ltac:(assumption))|]. split; [exact L|]. split; [split; discriminate|reflexivity].
  - inversion H'; subst; [|destruct (PropsGraph.bad_not_valid _ _ ltac:(eassumption) V)].
    split; [|split; [tauto|reflexivity]]. split; cbn; auto.
    + rewrite L5. reflexivity.
    + intros q c Nq. unfold is_child in *. cbn. rewrite !elem_of_union, (L8 q c Nq). reflexivity.
  - inversion H'; subst; [destruct (PropsGraph.bad_not_valid _ _ Bd ltac:(assumption))|]. split; [exact L|]. split; [split; discriminate|reflexivity].
  - inversion H'; subst; try contradiction; [|unfold s_is_sub in *; rewrite L6, L1 in *; tauto].
    split; [apply alike_put_attrs, L|]. split; [tauto|]. unfold s_put_attrs. destruct (decide _); reflexivity.
  - inversion H'; subst; try contradiction; [|unfold s_is_sub in *; rewrite L6, L1 in *; tauto].
    split; [exact L|]. split; [split; discriminate|reflexivity].
  - inversion H'; subst; try (unfold s_is_sub in *; rewrite L6, L1 in *; tauto).
  - inversion H'; subst; [|destruct (PropsGraph.bad_not_valid _ _ ltac:(eassumption) V)].
    split; [apply alike_put_attrs, alike_open, L|]. split; [tauto|]. unfold s_put_attrs. destruct (decide _); reflexivity.
  - destruct Rb as [[]|Rb]; discriminate.
  - inversion H'; subst; [|unfold s_is_node in *; rewrite L5 in *; contradiction].
    split; [apply alike_drop, L|]. split; [tauto|reflexivity].
  - inversion H'; subst; [unfold s_is_node in *; rewrite L5 in *; contradiction|]. split; [exact L|]. split; [split; discriminate|reflexivity].
  - cbn in K. inversion H' as [| | | | | | | | | | | | | | | |p' n' s1 N' HN1' HN2'|p' n' s1 N' c Hc1' Hc2' HN']; subst.
    + assert (N' = N) as ->. { apply set_eq. intros x. rewrite HN1, HN1'. apply L8, K. }
      split; [|split; [tauto|reflexivity]]. pose proof (alike_drop _ _ p N L) as [M1 M2 M3 M4 M5 M6 M7 M8].
      cbv zeta. split; cbn in *; auto.
      * rewrite M6. reflexivity.
      * rewrite M7. reflexivity.
      * intros q x Nq. specialize (M8 q x Nq). unfold is_child in *. cbn in *. rewrite !elem_of_difference. tauto.
    + exfalso. apply Hc2'. unfold s_is_node in *. rewrite L5. apply HN2, HN1. apply (L8 n c K), Hc1'.
  - destruct Rb as [[]|Rb]; discriminate.
Qed.
Lemma alike_run cs : forall s s' t t' rs rs', alike s s' -> Forall (keeps_main (s_name s)) cs -> Forall2 robust cs rs ->
  spec_run cs s t rs -> spec_run cs s' t' rs' -> alike t t' /\ Forall2 (fun r r' => r = None <-> r' = None) rs rs' /\ s_name t = s_name s.
Proof.
  induction cs as [|c cs IH]; intros s s' t t' rs rs' L K Rb H H'.
  - inversion H; subst. inversion H'; subst. split; [exact L|]. split; [constructor|reflexivity].
  - inversion H as [|? ? ? s1 ? r rs1 C R]; subst. inversion H' as [|? ? ? s1' ? r' rs1' C' R']; subst.
    inversion K as [|? ? K1 K2]; subst. inversion Rb as [|? ? ? ? Rb1 Rb2]; subst.
    destruct (alike_step _ _ _ _ _ _ _ L K1 Rb1 C C') as (L1 & E1 & N1).
    destruct (IH s1 s1' t t' rs1 rs1' L1 ltac:(rewrite N1; exact K2) Rb2 R R') as (L2 & E2 & N2).
    split; [exact L2|]. split; [constructor; assumption|congruence].
Qed.
(** The graph that is loaded. *)
Lemma loaded_alike s s' : tidy s -> no_ports s -> no_stale_parents s -> same_graph s s' -> alike s s'.
Proof.
  intros T NP St SG. split; try apply SG.
  - rewrite (sg_edges _ _ SG), (no_ports_read _ NP). reflexivity.
  - intros p c Np. destruct (decide (s_is_sub s p)) as [Sp|Sp]; [apply (sg_children _ _ SG), Sp|]. split; intros H.
    + destruct (sg_parents _ _ SG p c H); contradiction.
    + destruct (St p c H); contradiction.
Qed.

(** ** C90.  A graph that survives writing (C35), without ports at its edges and without relations left over by removals, is saved and
    loaded.  Then the same calls on both graphs, that do not rename the main graph, succeed or fail alike, and give graphs that agree in
    everything but the order of edges and what the main graph contains itself. *)
Theorem C90_edit : forall srt o g fuel txt rnd os ord k g' k' h h', fair o -> sorts (edge_less o) srt -> (forall i, fair (os i)) -> fair_order ord ->
  proper g -> tidy (view g) -> no_ports (view g) -> no_stale_parents (view g) -> size (g_subs g) < fuel ->
  graph_string srt o g fuel = Ok txt -> read rnd os ord k txt = Ok (g', k') ->
  Forall (fun oc => fair oc.1) h -> Forall (fun oc => fair oc.1) h' -> map snd h' = map snd h ->
  Forall (keeps_main (g_name g)) (map snd h) -> Forall2 robust (map snd h) (run h g).2 ->
  alike (view (run h g).1) (view (run h' g').1) /\ Forall2 (fun r r' => r = None <-> r' = None) (run h g).2 (run h' g').2.
Proof.
  intros srt o g fuel txt rnd os ord k g' k' h h' Fo So Fos Ford B T NP St LF E1 E2 F F' Eh K Rb.
  destruct (PropsRound.C35_round_trip srt o g Fo So B T) as (txt1 & X & Y). destruct (X fuel LF) as [X1 _]. assert (txt1 = txt) as -> by congruence.
  destruct (Y rnd os ord k Fos Ford) as (g2 & E3 & R2 & SG). rewrite E2 in E3. injection E3 as <- _.
  destruct (PropsOrder.run_built h g B F) as [_ R]. destruct (PropsOrder.run_built h' g' (reachable_built _ R2) F') as [_ R']. rewrite Eh in R'.
  destruct (alike_run _ _ _ _ _ _ _ (loaded_alike _ _ T NP St SG) K Rb R R') as (L & E & _). split; assumption.
Qed.
Print Assumptions C90_edit.

(** *** What the main graph contains *)
Definition covered (s s' : sgraph) (n : gostr) : Prop :=
  (exists r, edge_start s r /\ mentions s r n) \/
  exists r, s_is_sub s r /\ is_child s (s_name s) r /\ is_child s' (s_name s) r /\ before r n /\ mentions s r n.
Record inv (s s' : sgraph) : Prop := Inv {
  iv_alike : alike s s';
  iv_root : ~ s_is_sub s (s_name s);
  iv_differ : forall n, ~ (is_child s (s_name s) n <-> is_child s' (s_name s) n) -> s_is_node s n \/ ~ ~ covered s s' n }.
Local Instance is_child_dec s p c : Decision (is_child s p c).
Proof. unfold is_child. apply _. Defined.

Section Tops.
  Variables s s' : sgraph.
  Hypotheses (V : inv s s') (D : disjoint_names s).
  Lemma al_node n : s_is_node s' n <-> s_is_node s n.
  Proof. unfold s_is_node. rewrite (al_nodes _ _ (iv_alike _ _ V)). reflexivity. Qed.
  Lemma al_sub n : s_is_sub s' n <-> s_is_sub s n.
  Proof. unfold s_is_sub. rewrite (al_subs _ _ (iv_alike _ _ V)). reflexivity. Qed.
  Lemma al_below p : s_is_sub s p -> p <> s_name s.
  Proof. intros H ->. exact (iv_root _ _ V H). Qed.
  Lemma al_nested p c : s_is_sub s p -> (nested s' p c <-> nested s p c).
  Proof. intros H. unfold nested. rewrite al_sub, al_node, (al_children _ _ (iv_alike _ _ V) p c (al_below p H)). reflexivity. Qed.
  Lemma al_reach r p : s_is_sub s r -> (rtc (nested s') r p <-> rtc (nested s) r p) /\ (rtc (nested s) r p -> s_is_sub s p).
  Proof.
    intros H. split; [split|].
    - intros K. induction K as [x|x y z X _ IH]; [reflexivity|]. apply al_nested in X; [|exact H]. econstructor; [exact X|]. apply IH. apply X.
    - intros K. induction K as [x|x y z X _ IH]; [reflexivity|]. econstructor; [apply al_nested; [exact H|exact X]|]. apply IH. apply X.
    - intros K. induction K as [x|x y z X _ IH]; [exact H|]. apply IH. apply X.
  Qed.
  Lemma al_mentions r n : s_is_sub s r -> (mentions s' r n <-> mentions s r n).
  Proof.
    intros H. split; intros (p & K & M); exists p.
    - apply (al_reach r p H) in K. split; [exact K|]. destruct M as [M|M]; [left; exact M|right].
      apply (al_children _ _ (iv_alike _ _ V)) in M; [exact M|]. apply al_below. exact (proj2 (al_reach r p H) K).
    - split; [apply (al_reach r p H), K|]. destruct M as [M|M]; [left; exact M|right].
      apply (al_children _ _ (iv_alike _ _ V)); [|exact M]. apply al_below. exact (proj2 (al_reach r p H) K).
  Qed.
  Lemma al_endpoint n port : endpoint s' n port <-> endpoint s n port.
  Proof.
    assert (X : forall e : edge, e ∈ s_edges s' <-> e ∈ s_edges s).
    { intros e. pose proof (al_edges _ _ (iv_alike _ _ V)) as P. rewrite !elem_of_list_In. split; apply Permutation_in; [exact P|symmetry; exact P]. }
    unfold endpoint. split; intros (e & He & H); exists e; (split; [|exact H]); apply X, He.
  Qed.
  Lemma al_start r : edge_start s' r <-> edge_start s r.
  Proof.
    unfold edge_start, cluster. split; intros (port & H1 & H2 & H3 & H4); exists port; (split; [apply al_endpoint, H1|]); rewrite al_sub, al_node in *; tauto.
  Qed.
  Lemma mentions_trans a b n : s_is_sub s b -> mentions s a b -> mentions s b n -> mentions s a n.
  Proof.
    intros Sb (p & K & M) (q & K' & M'). exists q. split; [|exact M']. etransitivity; [|exact K']. destruct M as [->|M]; [exact K|].
    eapply rtc_r; [exact K|]. split; [exact M|]. split; [exact Sb|]. intros C. exact (D b C Sb).
  Qed.
  (** What is covered is not in the list of the top level. *)
  Lemma covered_shown T n : top_subgraphs s T -> covered s s' n ->
    (forall r, edge_start s r -> ~ mentions s r n) -> (forall r, r ∈ T -> before r n -> ~ mentions s r n) -> False.
  Proof.
    intros [_ HT] [(r & R1 & R2)|(r & Sr & C1 & _ & Br & Mr)] N1 N2; [exact (N1 r R1 R2)|].
    apply (N2 r); [|exact Br|exact Mr]. apply HT. split; [exact Sr|]. split; [exact C1|]. split.
    - intros a Ha Ma. apply (N1 a Ha). exact (mentions_trans a r n Sr Ma Mr).
    - intros a Ha Ba Ma. apply (N2 a Ha); [exact (EdgeOrder.before_trans _ _ _ Ba Br)|]. exact (mentions_trans a r n Sr Ma Mr).
  Qed.
  Lemma inv_tops : same_tops s s'.
  Proof.
    destruct (top_exists s) as [T HT]. exists T. split; [exact HT|]. pose proof HT as [So Hn]. split; [exact So|]. intros n.
    rewrite al_sub, (al_name _ _ (iv_alike _ _ V)). setoid_rewrite al_start.
    assert (Sub : forall r, r ∈ T -> s_is_sub s r) by (intros r Hr; apply Hn in Hr; apply Hr).
    assert (Q1 : (forall r, edge_start s r -> ~ mentions s' r n) <-> (forall r, edge_start s r -> ~ mentions s r n)).
    { split; intros H r Hr M; apply (H r Hr); apply al_mentions; try exact M; destruct Hr as (? & _ & Sr & _); exact Sr. }
    assert (Q2 : (forall r, r ∈ T -> before r n -> ~ mentions s' r n) <-> (forall r, r ∈ T -> before r n -> ~ mentions s r n)).
    { split; intros H r Hr B M; apply (H r Hr B); apply al_mentions; try exact M; apply Sub, Hr. }
    rewrite Q1, Q2. rewrite Hn. split; intros (S1 & C1 & N1 & N2); (split; [exact S1|]; split; [|split; assumption]).
    - destruct (decide (is_child s' (s_name s) n)) as [C|C]; [exact C|]. exfalso. destruct (iv_differ _ _ V n ltac:(tauto)) as [X|X]; [exact (D n X S1)|].
      apply X. intros Cv. exact (covered_shown T n HT Cv N1 N2).
    - destruct (decide (is_child s (s_name s) n)) as [C|C]; [exact C|]. exfalso. destruct (iv_differ _ _ V n ltac:(tauto)) as [X|X]; [exact (D n X S1)|].
      apply X. intros Cv. exact (covered_shown T n HT Cv N1 N2).
  Qed.
  Lemma inv_inside : same_inside s s'.
  Proof.
    destruct (iv_alike _ _ V) as [L1 L2 L3 L4 L5 L6 L7 L8]. split; try congruence; [symmetry; exact L7|].
    intros p c Hp. symmetry. apply L8, al_below, Hp.
  Qed.
End Tops.

(** *** Calls that add *)
Record grows (s t : sgraph) : Prop := Grows {
  gr_name : s_name t = s_name s;
  gr_node : forall x, s_is_node s x -> s_is_node t x;
  gr_sub : forall x, s_is_sub s x -> s_is_sub t x;
  gr_main : s_is_sub t (s_name s) -> s_is_sub s (s_name s);
  gr_edge : forall e, e ∈ s_edges s -> e ∈ s_edges t }.
Lemma grows_refl s : grows s s.
Proof. split; auto. Qed.
Lemma grows_put_attrs s n m : s_name s = n \/ s_is_sub s n -> grows s (s_put_attrs s n m).
Proof.
  intros H. unfold s_put_attrs. destruct (decide (s_name s = n)) as [E|E]; split; cbn; auto; unfold s_is_sub; cbn.
  - intros x Hx. destruct (decide (x = n)) as [->|N]; [rewrite lookup_insert; eauto|rewrite lookup_insert_ne by congruence; exact Hx].
  - rewrite lookup_insert_ne by congruence. auto.
Qed.
Lemma grows_open s p n : n <> s_name s -> grows s (s_open_sub s p n).
Proof.
  intros H. split; cbn; auto; unfold s_is_sub; cbn.
  - intros x Hx. destruct (decide (x = n)) as [->|N]; [rewrite lookup_insert; eauto|rewrite lookup_insert_ne by congruence; exact Hx].
  - rewrite lookup_insert_ne by congruence. auto.
Qed.
Lemma grows_trans s t u : grows s t -> grows t u -> grows s u.
Proof.
  intros [A1 A2 A3 A4 A5] [B1 B2 B3 B4 B5]. split; [congruence| | | |]; auto. intros H. apply A4. rewrite <- A1. apply B4. rewrite A1. exact H.
Qed.
Definition the_rels (c : call) : gset (gostr * gostr) := match c with CAddNode p n m => {[(p, n)]} | CAddSubGraph p n m => {[(p, n)]} | _ => ∅ end.
Lemma put_attrs_rels s n m : s_rels (s_put_attrs s n m) = s_rels s.
Proof. unfold s_put_attrs. destruct (decide _); reflexivity. Qed.
Lemma adds_step s c t r : no_removal c -> keeps_main (s_name s) c -> spec_call c s t r ->
  grows s t /\ exists R, s_rels t = R ∪ s_rels s /\ R = match r with None => the_rels c | Some _ => match c with CAddSubGraph _ _ _ => the_rels c | _ => ∅ end end.
Proof.
  intros A K H. destruct H as [b s|b s|x s|a pa b pb dir m s V|a pa b pb dir m s e Bd|a b dir m s V|a b dir m s e Bd|p n m s V|p n m s e Bd|n f v s V Hin|n f v s V Hin|n f v s N1 N2
    |p n m s V|p n m m' s e Bd Sb V|p n s Hn|p n s Hn|p n s N HN1 HN2|p n s N c Hc1 Hc2 HN]; try (exfalso; exact A); try (exfalso; exact K).
  all: try (split; [apply grows_refl|exists ∅; split; [set_solver|reflexivity]]; fail).
  1, 2: split; [split; cbn; auto|exists ∅; split; [cbn; set_solver|reflexivity]].
  1, 2: split; [split; cbn; auto; intros y Hy; apply elem_of_app; left; exact Hy|exists ∅; split; [cbn; set_solver|reflexivity]].
  - split; [|eexists; split; reflexivity]. split; cbn; auto. unfold s_is_node. cbn. intros x Hx.
    destruct (decide (x = n)) as [->|Nx]; [rewrite lookup_insert; eauto|rewrite lookup_insert_ne by congruence; exact Hx].
  - split; [apply grows_put_attrs; exact Hin|exists ∅; split; [rewrite put_attrs_rels; set_solver|reflexivity]].
  - split; [|eexists; split; [rewrite put_attrs_rels; reflexivity|reflexivity]].
    eapply grows_trans; [apply grows_open; exact K|]. apply grows_put_attrs. right. unfold s_is_sub. cbn. rewrite lookup_insert. eauto.
  - split; [|eexists; split; [rewrite put_attrs_rels; reflexivity|reflexivity]].
    eapply grows_trans; [apply grows_open; exact K|]. apply grows_put_attrs. right. unfold s_is_sub. cbn. rewrite lookup_insert. eauto.
Qed.
Lemma grows_disjoint s t : grows s t -> disjoint_names t -> disjoint_names s.
Proof. intros G D x H1 H2. apply (D x); [apply (gr_node _ _ G), H1|apply (gr_sub _ _ G), H2]. Qed.
Lemma grows_endpoint s t n port : grows s t -> endpoint s n port -> endpoint t n port.
Proof. intros G (e & He & H). exists e. split; [apply (gr_edge _ _ G), He|exact H]. Qed.
Lemma grows_mentions s t r n : grows s t -> disjoint_names t -> (forall p c, is_child s p c -> is_child t p c) -> mentions s r n -> mentions t r n.
Proof.
  intros G D Ch (p & K & M). exists p. split; [|destruct M as [M|M]; [left; exact M|right; apply Ch, M]].
  clear M. induction K as [x|x y z (X1 & X2 & _) _ IH]; [reflexivity|]. econstructor; [|exact IH].
  split; [apply Ch, X1|]. split; [apply (gr_sub _ _ G), X2|]. intros C. exact (D y C (gr_sub _ _ G y X2)).
Qed.
Lemma grows_start s t r : grows s t -> disjoint_names t -> edge_start s r -> edge_start t r.
Proof.
  intros G D (port & H1 & H2 & _ & H4). exists port. split; [apply (grows_endpoint s t _ _ G), H1|]. split; [apply (gr_sub _ _ G), H2|].
  split; [intros C; exact (D r C (gr_sub _ _ G r H2))|]. intros [_ P]. apply H4. split; assumption.
Qed.
Lemma inv_step s s' c t t' r r' : inv s s' -> no_removal c -> keeps_main (s_name s) c -> robust c r -> spec_call c s t r -> spec_call c s' t' r' ->
  disjoint_names t -> inv t t'.
Proof.
  intros [L Rt Df] A K Rb H H' D. destruct (alike_step _ _ _ _ _ _ _ L K Rb H H') as (L1 & E & N1).
  destruct (adds_step s c t r A K H) as (G & R & RE & RV). destruct (adds_step s' c t' r' A ltac:(rewrite (al_name _ _ L); exact K) H') as (G' & R' & RE' & RV').
  assert (R' = R) as ->.
  { rewrite RV, RV'. destruct r as [x|], r' as [x'|]; try reflexivity; exfalso; [destruct E as [_ E]|destruct E as [E _]]; discriminate (E eq_refl). }
  assert (Ch : forall p c, is_child s p c -> is_child t p c) by (intros p x; unfold is_child; rewrite RE; set_solver).
  assert (Ch' : forall p c, is_child s' p c -> is_child t' p c) by (intros p x; unfold is_child; rewrite RE'; set_solver).
  split; [exact L1|rewrite N1; intros C; apply Rt, (gr_main _ _ G), C|]. rewrite N1. intros n X.
  destruct (Df n) as [Y|Y].
  - intros C. apply X. unfold is_child in *. rewrite RE, RE', !elem_of_union. tauto.
  - left. apply (gr_node _ _ G), Y.
  - right. intros Z. apply Y. intros Cv. apply Z. destruct Cv as [(a & Y1 & Y2)|(a & Y1 & Y2 & Y3 & Y4 & Y5)].
    + left. exists a. split; [exact (grows_start s t a G D Y1)|exact (grows_mentions s t a n G D Ch Y2)].
    + right. exists a. rewrite N1. split; [apply (gr_sub _ _ G), Y1|]. split; [apply Ch, Y2|]. split; [apply Ch', Y3|]. split; [exact Y4|exact (grows_mentions s t a n G D Ch Y5)].
Qed.
Lemma grows_run cs : forall s t rs, Forall no_removal cs -> Forall (keeps_main (s_name s)) cs -> spec_run cs s t rs -> grows s t.
Proof.
  induction cs as [|c cs IH]; intros s t rs A K H.
  - inversion H; subst. apply grows_refl.
  - inversion H as [|? ? ? s1 ? r rs1 C R]; subst. inversion K as [|? ? K1 K2]; subst. inversion A as [|? ? A1 A2]; subst.
    destruct (adds_step s c s1 r A1 K1 C) as [G _]. apply (grows_trans s s1 t G). apply (IH s1 t rs1 A2); [rewrite (gr_name _ _ G); exact K2|exact R].
Qed.
Lemma inv_run cs : forall s s' t t' rs rs', inv s s' -> Forall no_removal cs -> Forall (keeps_main (s_name s)) cs -> Forall2 robust cs rs ->
  spec_run cs s t rs -> spec_run cs s' t' rs' -> disjoint_names t -> inv t t'.
Proof.
  induction cs as [|c cs IH]; intros s s' t t' rs rs' L A K Rb H H' D.
  - inversion H; subst. inversion H'; subst. exact L.
  - inversion H as [|? ? ? s1 ? r rs1 C R]; subst. inversion H' as [|? ? ? s1' ? r' rs1' C' R']; subst.
    inversion K as [|? ? K1 K2]; subst. inversion A as [|? ? A1 A2]; subst. inversion Rb as [|? ? ? ? Rb1 Rb2]; subst.
    destruct (adds_step s c s1 r A1 K1 C) as [G _].
    assert (K3 : Forall (keeps_main (s_name s1)) cs) by (rewrite (gr_name _ _ G); exact K2).
    pose proof (grows_run cs s1 t rs1 A2 K3 R) as G1.
    apply (IH s1 s1' t t' rs1 rs1'); try assumption. apply (inv_step s s' c s1 s1' r r'); try assumption. exact (grows_disjoint _ _ G1 D).
Qed.
Lemma loaded_inv s s' : ~ s_is_sub s (s_name s) -> disjoint_names s -> alike s s' -> same_tops s s' -> no_stale_tops s -> (forall c, is_child s' (s_name s) c -> s_is_node s c \/ s_is_sub s c) -> inv s s'.
Proof.
  intros Rt D L (TT & HT & HT') St St'. split; [exact L|exact Rt|].
  intros n X. destruct (decide (s_is_node s n)) as [Y|Y]; [left; exact Y|]. right. intros Z.
  assert (V : forall T0, T0 = TT -> n ∉ T0).
  { intros T0 ->. intros C. apply X. pose proof (proj2 HT n) as [U _]. pose proof (proj2 HT' n) as [U' _]. destruct (U C) as (_ & U1 & _). destruct (U' C) as (_ & U2 & _).
    rewrite (al_name _ _ L) in U2. tauto. }
  assert (Sn : s_is_sub s n).
  { destruct (decide (is_child s (s_name s) n)) as [C|C]; [destruct (St n C); [contradiction|assumption]|].
    destruct (decide (is_child s' (s_name s) n)) as [C'|C']; [destruct (St' n C'); [contradiction|assumption]|tauto]. }
  assert (Both : forall r, r ∈ TT -> s_is_sub s r /\ is_child s (s_name s) r /\ is_child s' (s_name s) r).
  { intros r Hr. pose proof (proj1 (proj2 HT r) Hr) as (U1 & U2 & _). pose proof (proj1 (proj2 HT' r) Hr) as (_ & U3 & _). rewrite (al_name _ _ L) in U3. tauto. }
  assert (N1 : forall r, edge_start s r -> ~ mentions s r n) by (intros r H1 H2; apply Z; left; eauto).
  assert (N2 : forall r, r ∈ TT -> before r n -> ~ mentions s r n).
  { intros r H1 H2 H3. apply Z. right. exists r. destruct (Both r H1) as (B1 & B2 & B3). auto 10. }
  destruct (decide (is_child s (s_name s) n)) as [C|C].
  - apply (V TT eq_refl). apply (proj2 HT n). auto.
  - destruct (decide (is_child s' (s_name s) n)) as [C'|C']; [|tauto]. apply (V TT eq_refl). apply (proj2 HT' n).
    assert (W : inv s s' -> True) by trivial. clear W.
    assert (Nd : forall x, s_is_node s' x <-> s_is_node s x) by (intros x; unfold s_is_node; rewrite (al_nodes _ _ L); reflexivity).
    assert (Sb : forall x, s_is_sub s' x <-> s_is_sub s x) by (intros x; unfold s_is_sub; rewrite (al_subs _ _ L); reflexivity).
    assert (Be : forall x, s_is_sub s x -> x <> s_name s) by (intros x H ->; exact (Rt H)).
    assert (M : forall r, s_is_sub s r -> mentions s' r n -> mentions s r n).
    { intros r Hr (p & Kp & Mp). exists p. assert (Q : rtc (nested s) r p /\ s_is_sub s p).
      { clear Mp. induction Kp as [x|x y z (P1 & P2 & P3) _ IH]; [split; [reflexivity|exact Hr]|].
        apply (al_children _ _ L) in P1; [|exact (Be x Hr)]. apply Sb in P2. rewrite Nd in P3. destruct (IH P2) as [I1 I2]. split; [|exact I2].
        econstructor; [split; [exact P1|split; [exact P2|exact P3]]|exact I1]. }
      destruct Q as [Q1 Q2]. split; [exact Q1|]. destruct Mp as [Mp|Mp]; [left; exact Mp|right]. apply (al_children _ _ L) in Mp; [exact Mp|exact (Be p Q2)]. }
    assert (Es : forall r, edge_start s' r -> edge_start s r).
    { intros r (port & (e & He & H1) & H2 & H3 & H4). exists port. rewrite Sb in H2. rewrite Nd in H3. split; [exists e; split; [|exact H1]|].
      - pose proof (al_edges _ _ L) as P. apply elem_of_list_In. apply elem_of_list_In in He. exact (Permutation_in _ P He).
      - split; [exact H2|]. split; [exact H3|]. intros [_ C0]. apply H4. split; [apply Sb, H2|exact C0]. }
    split; [apply Sb, Sn|]. rewrite (al_name _ _ L). split; [exact C'|]. split.
    + intros r Hr Mr. apply Es in Hr. apply (N1 r Hr). apply M; [|exact Mr]. destruct Hr as (? & _ & Hr & _). exact Hr.
    + intros r Hr Br Mr. apply (N2 r Hr Br). apply M; [apply Both, Hr|exact Mr].
Qed.

Lemma loaded_tidy_legible s s' : tidy s -> no_ports s -> same_graph s s' -> legible s' /\ no_clash s' /\ ~ s_is_sub s' (s_name s').
Proof.
  intros T NP SG. assert (Nd : forall x, s_is_node s' x <-> s_is_node s x) by (intros x; unfold s_is_node; rewrite (sg_nodes _ _ SG); reflexivity).
  assert (Sb : forall x, s_is_sub s' x <-> s_is_sub s x) by (intros x; unfold s_is_sub; rewrite (sg_subs _ _ SG); reflexivity).
  assert (Ed : forall e, e ∈ s_edges s' -> e ∈ s_edges s).
  { intros e He. pose proof (sg_edges _ _ SG) as P. rewrite (no_ports_read _ NP) in P. apply elem_of_list_In. apply elem_of_list_In in He. exact (Permutation_in _ P He). }
  split; [|split].
  - split.
    + rewrite (sg_name _ _ SG). apply T.
    + intros n. rewrite Nd, Sb. apply T.
    + intros m k v Hm. apply (t_values _ T). destruct Hm as [|n m X|n m X|e X].
      * rewrite (sg_attrs _ _ SG). constructor.
      * rewrite (sg_nodes _ _ SG) in X. econstructor. exact X.
      * rewrite (sg_subs _ _ SG) in X. eapply Ha_sub. exact X.
      * apply Ha_edge, Ed, X.
    + intros n port t (e & He & H1) _ Pp. assert (port = []) as -> by (apply (NP n); exists e; split; [apply Ed, He|exact H1]).
      inversion Pp; subst; try done; try (destruct p; discriminate). exists []. split; [left; reflexivity|reflexivity].
  - intros n H1 H2 _. apply Sb in H1. apply Nd in H2. exact (t_apart _ T n H2 H1).
  - rewrite (sg_name _ _ SG), Sb. apply T.
Qed.

(** If the calls only add, and at the end no name is that of a node and of a subgraph, then saving and loading in between makes no
    difference to what is written at the end: not to the tree, not to the text, not to the error. *)
Theorem C90_text : forall srt o g fuel txt rnd os ord k g' k' h h', fair o -> sorts (edge_less o) srt -> (forall i, fair (os i)) -> fair_order ord ->
  proper g -> tidy (view g) -> no_ports (view g) -> no_stale_parents (view g) -> no_stale_tops (view g) -> size (g_subs g) < fuel ->
  graph_string srt o g fuel = Ok txt -> read rnd os ord k txt = Ok (g', k') ->
  Forall (fun oc => fair oc.1) h -> Forall (fun oc => fair oc.1) h' -> map snd h' = map snd h ->
  Forall no_removal (map snd h) -> Forall (keeps_main (g_name g)) (map snd h) -> Forall2 robust (map snd h) (run h g).2 ->
  disjoint_names (view (run h g).1) -> (forall e a, e ∈ edges_list (g_edges (run h g).1) -> e_attrs e !! a <> Some []) ->
  forall srt1 srt2 o1 o2 fuel1, fair o1 -> fair o2 -> sorts (edge_less o1) srt1 -> sorts (edge_less o2) srt2 ->
  write_ast srt1 o1 (run h g).1 fuel1 = write_ast srt2 o2 (run h' g').1 fuel1 /\
  graph_string srt1 o1 (run h g).1 fuel1 = graph_string srt2 o2 (run h' g').1 fuel1.
Proof.
  intros srt o g fuel txt rnd os ord k g' k' h h' Fo So Fos Ford B T NP St St2 LF E1 E2 F F' Eh A K Rb D NE srt1 srt2 o1 o2 fuel1 Fo1 Fo2 So1 So2.
  destruct (PropsRound.C35_round_trip srt o g Fo So B T) as (txt1 & X & Y). destruct (X fuel LF) as [X1 [a Ha]]. assert (txt1 = txt) as -> by congruence.
  destruct (Y rnd os ord k Fos Ford) as (g2 & E3 & R2 & SG). rewrite E2 in E3. injection E3 as <- _.
  assert (R2p : proper g') by exact R2.
  pose proof (PropsRound.C36_normal_form srt srt o o g fuel txt rnd os ord k g' k' Fo Fo So So Fos Ford B T NP LF E1 E2) as E4.
  destruct (loaded_tidy_legible _ _ T NP SG) as (Lg & Nc & Rt).
  assert (SS : same_shown (view g) (view g')).
  { apply (PropsSame.C88_shown srt srt o o g g' fuel fuel a txt); try assumption.
    - apply PropsSame.tidy_legible_same, T.
    - intros n H1 H2 _. exact (t_apart _ T n H2 H1).
    - apply (t_root _ T). }
  assert (I0 : inv (view g) (view g')).
  { apply loaded_inv; [apply (t_root _ T)|exact (t_apart _ T)|apply loaded_alike; assumption|apply (ss_tops _ _ SS)|exact St2|].
    intros c Hc. destruct (PropsReread.read_children _ _ _ _ _ _ _ Fos Ford E2 _ c Hc) as [C|C]; [left|right].
    - unfold s_is_node in *. rewrite (sg_nodes _ _ SG) in C. exact C.
    - unfold s_is_sub in *. rewrite (sg_subs _ _ SG) in C. exact C. }
  destruct (PropsOrder.run_built h g B F) as [B1 R]. destruct (PropsOrder.run_built h' g' (reachable_built _ R2) F') as [B2 R']. rewrite Eh in R'.
  pose proof (inv_run _ _ _ _ _ _ _ I0 A K Rb R R' D) as I1.
  apply (PropsSame.C88_equal srt1 srt2 o1 o2); try assumption; [apply inv_inside, I1|apply inv_tops; assumption].
Qed.
Print Assumptions C90_text.

(** *** Sessions *)
Record rel (s s' : sgraph) : Prop := Rel {
  re_alike : alike s s'; re_tops : same_tops s s'; re_root : ~ s_is_sub s (s_name s); re_known : no_stale_tops s; re_known' : no_stale_tops s' }.
Lemma alike_sym s s' : alike s s' -> alike s' s.
Proof.
  intros [L1 L2 L3 L4 L5 L6 L7 L8]. split; try congruence; [symmetry; exact L7|]. intros p c H. symmetry. apply L8. congruence.
Qed.
Lemma alike_trans a b c : alike a b -> alike b c -> alike a c.
Proof.
  intros [L1 L2 L3 L4 L5 L6 L7 L8] [M1 M2 M3 M4 M5 M6 M7 M8]. split; try congruence; [etransitivity; [exact M7|exact L7]|].
  intros p x H. rewrite M8 by congruence. apply L8, H.
Qed.
Lemma tops_trans a b c : same_tops a b -> same_tops b c -> same_tops a c.
Proof.
  intros (T & H1 & H2) (T' & H3 & H4). exists T. split; [exact H1|]. rewrite (top_unique b T T' H2 H3). exact H4.
Qed.
Lemma known_step s c t r : no_removal c -> keeps_main (s_name s) c -> spec_call c s t r -> no_stale_tops s -> no_stale_tops t.
Proof.
  intros A K H N x X. destruct (adds_step s c t r A K H) as (G & R & RE & RV). unfold is_child in X. rewrite RE in X. apply elem_of_union in X. destruct X as [X|X].
  - assert (Own : c = CAddNode (s_name t) x (match c with CAddNode _ _ m => m | _ => ∅ end) /\ r = None \/ exists m, c = CAddSubGraph (s_name t) x m).
    { subst R. destruct r as [e|], c; cbn in X; try set_solver; apply elem_of_singleton in X; injection X as -> ->; eauto. }
    destruct Own as [[E ->]|[m E]].
    + left. rewrite E in H. inversion H; subst. unfold s_is_node. cbn. rewrite lookup_insert. eauto.
    + right. subst c. assert (Q : forall s0 m0, s_is_sub (s_put_attrs (s_open_sub s0 (s_name t) x) x m0) x).
      { intros s0 m0. unfold s_put_attrs. destruct (decide _); unfold s_is_sub; cbn; rewrite lookup_insert; eauto. }
      inversion H; subst; apply Q.
  - destruct (N x) as [Y|Y]; [unfold is_child; rewrite <- (gr_name _ _ G); exact X|left; apply (gr_node _ _ G), Y|right; apply (gr_sub _ _ G), Y].
Qed.
Lemma rel_step s s' c t t' r r' : rel s s' -> no_removal c -> keeps_main (s_name s) c -> spec_call c s t r -> spec_call c s' t' r' -> r' = None ->
  disjoint_names t' -> rel t t' /\ r = None.
Proof.
  intros [L To Rt K1 K2] A K H H' -> D'.
  assert (K' : keeps_main (s_name s') c) by (rewrite (al_name _ _ L); exact K).
  destruct (alike_step _ _ _ _ _ _ _ (alike_sym _ _ L) K' (or_intror eq_refl) H' H) as (L1 & E & _). apply alike_sym in L1. assert (r = None) as -> by tauto.
  assert (D : disjoint_names t).
  { intros x X1 X2. apply (D' x); [unfold s_is_node in *; rewrite (al_nodes _ _ L1); exact X1|unfold s_is_sub in *; rewrite (al_subs _ _ L1); exact X2]. }
  destruct (adds_step s c t None A K H) as (G & _).
  assert (I0 : inv s s').
  { apply loaded_inv; try assumption; [exact (grows_disjoint _ _ G D)|]. intros x X. rewrite <- (al_name _ _ L) in X. destruct (K2 x X) as [Y|Y]; [left|right].
    - unfold s_is_node in *. rewrite <- (al_nodes _ _ L). exact Y.
    - unfold s_is_sub in *. rewrite <- (al_subs _ _ L). exact Y. }
  pose proof (inv_step s s' c t t' None None I0 A K (or_intror eq_refl) H H' D) as I1.
  split; [|reflexivity]. split; [exact L1|apply inv_tops; assumption|apply (iv_root _ _ I1)|exact (known_step s c t None A K H K1)|exact (known_step s' c t' None A K' H' K2)].
Qed.
Lemma spec_run_snoc cs : forall c s s2 rs, spec_run (cs ++ [c]) s s2 rs -> exists sx rs' r, rs = rs' ++ [r] /\ spec_run cs s sx rs' /\ spec_call c sx s2 r.
Proof.
  induction cs as [|x cs IH]; intros c s s2 rs H; cbn [app] in H; inversion H as [|? ? ? sx ? r rs' C R]; subst.
  - inversion R; subst. exists s, [], r. split; [reflexivity|]. split; [constructor|exact C].
  - destruct (IH _ _ _ _ R) as (sy & rs'' & r' & -> & R' & C'). exists sy, (r :: rs''), r'. split; [reflexivity|]. split; [econstructor; eassumption|exact C'].
Qed.
Lemma sessions_rel g0 cs g : proper g0 -> ~ s_is_sub (view g0) (g_name g0) -> no_stale_tops (view g0) -> sessions g0 cs g ->
  proper g /\ forall t rs, spec_run cs (view g0) t rs -> Forall (fun r => r = None) rs /\ rel t (view g) /\ s_name t = g_name g0.
Proof.
  intros B Rt K Se. induction Se as [|cs g o c Se IH Fo A Km E D|cs g srt o fuel txt rnd os ord k g' k' Se IH Fo So Fos Ford T NP St LF E1 E2].
  - split; [exact B|]. intros t rs H. inversion H; subst. split; [constructor|]. split; [|reflexivity]. split; try assumption.
    + split; reflexivity.
    + destruct (top_exists (view g0)) as [T HT]. exists T. auto.
  - destruct IH as [B1 IH]. split; [apply bw_call; assumption|]. intros t rs H. destruct (spec_run_snoc _ _ _ _ _ H) as (sx & rs' & r & -> & R1 & C1).
    destruct (IH sx rs' R1) as (F1 & Re & Nm).
    destruct (rel_step sx (view g) c t _ r _ Re A ltac:(rewrite Nm; exact Km) C1 (PropsGraph.C23_refinement_step o c g Fo (proper_built _ B1)) E D) as [Re' ->].
    split; [apply Forall_app; split; [exact F1|constructor; [reflexivity|constructor]]|]. split; [exact Re'|].
    destruct (adds_step sx c t None A ltac:(rewrite Nm; exact Km) C1) as (G & _). rewrite (gr_name _ _ G). exact Nm.
  - destruct IH as [B1 IH].
    destruct (PropsRound.C35_round_trip srt o g Fo So B1 T) as (txt1 & X & Y). destruct (X fuel LF) as [X1 [a Ha]]. assert (txt1 = txt) as -> by congruence.
    destruct (Y rnd os ord k Fos Ford) as (g2 & E3 & R2 & SG). rewrite E2 in E3. injection E3 as <- _. assert (B2 : proper g') by exact R2.
    split; [exact B2|]. intros t rs H. destruct (IH t rs H) as (F1 & [L To Rt1 K1 K2] & Nm). split; [exact F1|]. split; [|exact Nm].
    pose proof (PropsRound.C36_normal_form srt srt o o g fuel txt rnd os ord k g' k' Fo Fo So So Fos Ford B1 T NP LF E1 E2) as E4.
    destruct (loaded_tidy_legible _ _ T NP SG) as (Lg & Nc & Rt').
    assert (SS : same_shown (view g) (view g')).
    { apply (PropsSame.C88_shown srt srt o o g g' fuel fuel a txt); try assumption.
      - apply PropsSame.tidy_legible_same, T.
      - intros n H1 H2 _. exact (t_apart _ T n H2 H1).
      - apply (t_root _ T). }
    split; [eapply alike_trans; [exact L|apply loaded_alike; assumption]|eapply tops_trans; [exact To|apply (ss_tops _ _ SS)]|exact Rt1|exact K1|].
    intros c Hc. exact (PropsReread.read_children _ _ _ _ _ _ _ Fos Ford E2 _ c Hc).
Qed.
(** Any number of loads and saves between calls that add and succeed makes no difference: the calls alone, on the graph of the start, succeed
    too, and what is written at the end is the same. *)
Theorem C90_sessions : forall g0 cs g h, proper g0 -> ~ s_is_sub (view g0) (g_name g0) -> no_stale_tops (view g0) -> sessions g0 cs g ->
  Forall (fun oc => fair oc.1) h -> map snd h = cs ->
  Forall (fun r => r = None) (run h g0).2 /\ alike (view (run h g0).1) (view g) /\
  ((forall e a, e ∈ edges_list (g_edges g) -> e_attrs e !! a <> Some []) ->
   forall srt1 srt2 o1 o2 fuel, fair o1 -> fair o2 -> sorts (edge_less o1) srt1 -> sorts (edge_less o2) srt2 ->
   write_ast srt1 o1 (run h g0).1 fuel = write_ast srt2 o2 g fuel /\ graph_string srt1 o1 (run h g0).1 fuel = graph_string srt2 o2 g fuel).
Proof.
  intros g0 cs g h B Rt K Se F Eh. destruct (sessions_rel g0 cs g B Rt K Se) as [B1 H].
  destruct (PropsOrder.run_built h g0 (proper_built _ B) F) as [B2 R]. rewrite Eh in R. destruct (H _ _ R) as (F1 & [L To Rt1 K1 K2] & Nm).
  split; [exact F1|]. split; [exact L|]. intros NE srt1 srt2 o1 o2 fuel Fo1 Fo2 So1 So2.
  apply (PropsSame.C88_equal srt1 srt2 o1 o2); try assumption; [exact (proper_built _ B1)| |].
  - destruct L as [L1 L2 L3 L4 L5 L6 L7 L8]. split; try congruence; [symmetry; exact L7|]. intros p c Hp. symmetry. apply L8. intros ->. exact (Rt1 Hp).
  - intros e a He. apply NE. pose proof (al_edges _ _ L) as P. apply elem_of_list_In. apply elem_of_list_In in He. exact (Permutation_in _ (Permutation_sym P) He).
Qed.
Print Assumptions C90_sessions.

(** *** Examples *)
Lemma stale_ok s : bool_decide (set_Forall (fun pc => pc.1 = s_name s \/ s_is_sub s pc.1) (s_rels s)) = true -> no_stale_parents s.
Proof. intros H p c X. apply bool_decide_eq_true in H. exact (H (p, c) X). Qed.
Lemma stale_tops_ok s : bool_decide (set_Forall (fun pc => s_is_node s pc.2 \/ s_is_sub s pc.2) (s_rels s)) = true -> no_stale_tops s.
Proof. intros H c X. apply bool_decide_eq_true in H. exact (H (s_name s, c) X). Qed.
Definition edits : list call :=
  [CAddSubGraph (lit "T") (lit "U") ∅; CAddNode (lit "U") (lit "a") (PropsRound.A [(lit "color", lit "blue")]); CAddPortEdge (lit "U") [] (lit "d") (lit "n") true ∅; CAddAttr (lit "S") (lit "rank") (lit "min")].
Definition loaded (g : agraph) : agraph :=
  match graph_string srt0 o_id g 9 with Ok txt => match read PropsAnalyse.rnd0 PropsAnalyse.os_id PropsAnalyse.ord_id 0 txt with Ok (g', _) => g' | _ => g end | _ => g end.
Example C90_example : tidy (view PropsRound.g12) /\ no_ports (view PropsRound.g12) /\ no_stale_parents (view PropsRound.g12) /\ no_stale_tops (view PropsRound.g12) /\
  Forall (keeps_main (lit "G")) edits /\ Forall no_removal edits /\ Forall (fun r => r = None) (run (map (pair o_id) edits) PropsRound.g12).2 /\
  disjoint_names (view (run (map (pair o_id) edits) PropsRound.g12).1) /\
  view (loaded PropsRound.g12) <> view PropsRound.g12 /\
  graph_string srt0 o_id (run (map (pair o_id) edits) PropsRound.g12).1 9 = graph_string srt0 o_id (run (map (pair o_id) edits) (loaded PropsRound.g12)).1 9.
Proof.
  split; [exact PropsRound.tidy12|]. split; [|split; [apply stale_ok; vm_compute; reflexivity|split; [apply stale_tops_ok; vm_compute; reflexivity|]]].
  - intros n port (e & He & H). assert (E : forallb (fun e => bool_decide (e_src_port e = [] /\ e_dst_port e = [])) (s_edges (view PropsRound.g12)) = true) by (vm_compute; reflexivity).
    rewrite forallb_forall in E. apply elem_of_list_In in He. specialize (E e He). apply bool_decide_eq_true in E. destruct E, H as [[_ ->]|[_ ->]]; assumption.
  - split; [repeat (constructor; [first [exact I|vm_compute; discriminate]|]); constructor|]. split; [repeat (constructor; [exact I|]); constructor|].
    split; [vm_compute; repeat constructor|]. split; [apply PropsRemove.disjoint_ok; vm_compute; reflexivity|]. split; [|vm_compute; reflexivity].
    intros E. apply (f_equal (fun s => bool_decide (is_child s (lit "G") (lit "T")))) in E. vm_compute in E. discriminate.
Qed.
(** Not true for removals: a subgraph at the end of an edge becomes part of the main graph by being saved and loaded, which shows when
    the edge is removed. *)
Definition gE : agraph := build [CSetName (lit "G"); CAddSubGraph (lit "G") (lit "P") ∅; CAddSubGraph (lit "P") (lit "A") ∅; CAddNode (lit "G") (lit "x") ∅; CAddEdge (lit "x") (lit "A") false ∅].
Theorem C90_removal_refuted : exists g c, reachable g /\ tidy (view g) /\ no_stale_parents (view g) /\ no_stale_tops (view g) /\ keeps_main (g_name g) c /\
  graph_string srt0 o_id g 9 = graph_string srt0 o_id (loaded g) 9 /\
  (exec o_id c g).2 = None /\ (exec o_id c (loaded g)).2 = None /\
  graph_string srt0 o_id (exec o_id c g).1 9 <> graph_string srt0 o_id (exec o_id c (loaded g)).1 9.
Proof.
  exists gE, (CRemoveNode (lit "G") (lit "x")). split; [apply PropsWrite.build_reachable|]. split; [apply tidyb_ok; vm_compute; reflexivity|].
  split; [apply stale_ok; vm_compute; reflexivity|]. split; [apply stale_tops_ok; vm_compute; reflexivity|]. split; [exact I|].
  split; [vm_compute; reflexivity|]. split; [vm_compute; reflexivity|]. split; [vm_compute; reflexivity|]. vm_compute. discriminate.
Qed.
Print Assumptions C90_removal_refuted.
(** Nor with relations left over by removals: saving and loading forgets them. *)
Definition gF : agraph := build [CSetName (lit "G"); CAddSubGraph (lit "G") (lit "S") ∅; CAddNode (lit "S") (lit "x") ∅; CRemoveSubGraph (lit "G") (lit "S")].
Theorem C90_stale_refuted : exists g c, reachable g /\ tidy (view g) /\ no_stale_tops (view g) /\ keeps_main (g_name g) c /\
  graph_string srt0 o_id g 9 = graph_string srt0 o_id (loaded g) 9 /\
  (exec o_id c g).2 = None /\ (exec o_id c (loaded g)).2 = None /\
  graph_string srt0 o_id (exec o_id c g).1 9 <> graph_string srt0 o_id (exec o_id c (loaded g)).1 9.
Proof.
  exists gF, (CAddSubGraph (lit "G") (lit "S") ∅). split; [apply PropsWrite.build_reachable|]. split; [apply tidyb_ok; vm_compute; reflexivity|].
  split; [intros c Hc; apply view_child in Hc; apply elem_of_elements in Hc; vm_compute in Hc; inversion Hc|]. split; [vm_compute; discriminate|].
  split; [vm_compute; reflexivity|]. split; [vm_compute; reflexivity|]. split; [vm_compute; reflexivity|]. vm_compute. discriminate.
Qed.
Print Assumptions C90_stale_refuted.
(** A call, saving and loading, another call. *)
Definition g12a : agraph := (exec o_id (CAddSubGraph (lit "T") (lit "U") ∅) PropsRound.g12).1.
Definition g12b : agraph := loaded g12a.
Definition g12c : agraph := (exec o_id (CAddNode (lit "U") (lit "a") ∅) g12b).1.
Example C90_sessions_example : sessions PropsRound.g12 [CAddSubGraph (lit "T") (lit "U") ∅; CAddNode (lit "U") (lit "a") ∅] g12c /\
  ~ s_is_sub (view PropsRound.g12) (g_name PropsRound.g12) /\ no_stale_tops (view PropsRound.g12).
Proof.
  split; [|split; [apply (t_root _ PropsRound.tidy12)|apply stale_tops_ok; vm_compute; reflexivity]].
  apply (Ses_call PropsRound.g12 [CAddSubGraph (lit "T") (lit "U") ∅] g12b o_id (CAddNode (lit "U") (lit "a") ∅)); [|apply PropsGraph.fair_id|exact I|exact I|vm_compute; reflexivity|
    apply PropsRemove.disjoint_ok; vm_compute; reflexivity].
  assert (T : tidy (view g12a)) by (apply tidyb_ok; vm_compute; reflexivity).
  assert (B : proper g12a) by (unfold g12a; apply bw_call; [apply reachable_proper, PropsWrite.build_reachable|apply PropsGraph.fair_id]).
  assert (LF : size (g_subs g12a) < 9) by (apply Nat.leb_le; vm_compute; reflexivity).
  destruct (PropsRound.C35_round_trip srt0 o_id g12a PropsGraph.fair_id PropsWrite.sorts0 B T) as (txt & X & Y). destruct (X 9 LF) as [X1 _].
  destruct (Y PropsAnalyse.rnd0 PropsAnalyse.os_id PropsAnalyse.ord_id 0 PropsAnalyse.fair_os_id PropsAnalyse.fair_ord_id) as (g' & X2 & _).
  assert (E : g12b = g') by (unfold g12b, loaded; rewrite X1, X2; reflexivity). rewrite <- E in X2. clear X Y E g'.
  apply (Ses_load PropsRound.g12 _ g12a srt0 o_id 9 txt PropsAnalyse.rnd0 PropsAnalyse.os_id PropsAnalyse.ord_id 0 g12b 0); try assumption.
  - apply (Ses_call PropsRound.g12 [] PropsRound.g12 o_id (CAddSubGraph (lit "T") (lit "U") ∅)); [apply Ses_start|apply PropsGraph.fair_id|exact I|vm_compute; discriminate|vm_compute; reflexivity|
      apply PropsRemove.disjoint_ok; vm_compute; reflexivity].
  - apply PropsGraph.fair_id.
  - apply PropsWrite.sorts0.
  - apply PropsAnalyse.fair_os_id.
  - apply PropsAnalyse.fair_ord_id.
  - intros n port (e & He & H). assert (E : forallb (fun e => bool_decide (e_src_port e = [] /\ e_dst_port e = [])) (s_edges (view g12a)) = true) by (vm_compute; reflexivity).
    rewrite forallb_forall in E. apply elem_of_list_In in He. specialize (E e He). apply bool_decide_eq_true in E. destruct E, H as [[_ ->]|[_ ->]]; assumption.
  - apply stale_ok. vm_compute. reflexivity.
Qed.
