(** Proofs for C85: which calls panic, what a panic leaves, where nil is afterwards. *)
From Verif Require Import Base Maps MapFacts Graph SpecGraph AttrMap Zero Holes SpecHoles HolesProofs.

(** ** RemoveNode *)
Lemma remove_node_cases h p n :
  (nil_first h n /\ hremove_node h p n = (h, Panicked)) \/
  (exists a q b, hn_list (h_nodes h) = a ++ Some q :: b /\ None ∉ a /\ unnamed h n a /\ node_name (hderef (h_nodes h) q) = n /\
     let h2 := hw_rels (hw_nodes h (HNodes (delete n (hn_lookup (h_nodes h))) (a ++ b) (hn_heap (h_nodes h)) (hn_next (h_nodes h))))
                 (relations_remove (h_rels h) p n) in
     (nil_edge h /\ hremove_node h p n = (h2, Panicked)) \/
     (~ nil_edge h /\ exists es, None ∉ he_list es /\ hremove_node h p n = (hw_edges h2 es, Done None))) \/
  (~ nil_first h n /\ ~ node_first h n /\ exists e, hremove_node h p n = (h, Done (Some e))).
Proof.
  unfold hremove_node, hnodes_remove. rewrite nil_first_eq, node_first_eq.
  destruct (hremove_cases (h_nodes h) n (hn_list (h_nodes h)) []) as [[H1 ->]|[(a & q & b & H1 & H2 & H3 & H4 & ->)|(H1 & H2 & ->)]].
  - left. split; [done|]. by destruct h.
  - right. left. exists a, q, b. split; [done|]. split; [done|]. split; [done|]. split; [done|]. cbn [app h_rels hw_nodes].
    set (h2 := hw_rels _ _). destruct (hdrop_cases (fun e => negb (str_eqb (e_dst e) n || str_eqb (e_src e) n)) h2) as [[D1 D2]|[D1 D2]]; [left|right]; split; done.
  - right. right. split; [done|]. split; [done|]. eauto.
Qed.
Lemma first_is_node h n a q b : hn_list (h_nodes h) = a ++ Some q :: b -> None ∉ a -> unnamed h n a -> node_name (hderef (h_nodes h) q) = n -> node_first h n.
Proof. intros. exists a, q, b. done. Qed.
Lemma not_both h n : nil_first h n -> node_first h n -> False.
Proof. rewrite nil_first_eq, node_first_eq. apply nil_or_node. Qed.
Lemma remove_node_panics h p n : (hremove_node h p n).2 = Panicked <-> remove_panics h n.
Proof.
  unfold remove_panics. destruct (remove_node_cases h p n) as [[H ->]|[(a & q & b & H1 & H2 & H3 & H4 & H)|(H1 & H2 & e & ->)]].
  - cbn. tauto.
  - pose proof (first_is_node h n a q b H1 H2 H3 H4) as F. cbn in H. destruct H as [[K ->]|[K (es & _ & ->)]]; cbn.
    + tauto.
    + split; [discriminate|]. intros [N|[_ N]]; [exfalso; by apply (not_both h n)|contradiction].
  - cbn. split; [discriminate|]. tauto.
Qed.
Lemma remove_node_done h p n h' : hremove_node h p n = (h', Done None) -> node_first h n /\ ~ nil_edge h /\ ~ nil_edge h' /\
  (forall x, x <> n -> (nil_first h' x <-> nil_first h x) /\ (node_first h' x <-> node_first h x)).
Proof.
  destruct (remove_node_cases h p n) as [[H ->]|[(a & q & b & H1 & H2 & H3 & H4 & H)|(H1 & H2 & e & ->)]]; [discriminate| |discriminate].
  cbn in H. destruct H as [[K ->]|[K (es & N & ->)]]; [discriminate|]. intros [= <-].
  split; [by apply (first_is_node h n a q b)|]. split; [done|]. split; [done|]. intros x Hx. rewrite !nil_first_eq, !node_first_eq.
  cbn [h_nodes hw_edges hw_rels hw_nodes hn_list]. rewrite H1.
  assert (Q : hname (h_nodes h) q <> x) by (unfold hname; rewrite H4; auto).
  split; [apply (nilf_less (hname (h_nodes h)) x q a b Q)|apply (nodef_less (hname (h_nodes h)) x q a b Q)].
Qed.
Lemma remove_node_half h p n h' : hremove_node h p n = (h', Panicked) -> half_removed p n h h'.
Proof.
  destruct (remove_node_cases h p n) as [[H ->]|[(a & q & b & H1 & H2 & H3 & H4 & H)|(H1 & H2 & e & ->)]].
  - intros [= <-]. by left.
  - cbn in H. destruct H as [[K ->]|[K (es & N & ->)]]; [|discriminate]. intros [= <-]. right. exists a, q, b. done.
  - discriminate.
Qed.

(** ** The children of RemoveSubGraph *)
Definition stops_at (h : hgraph) (cs : list gostr) : Prop :=
  exists pre c post, cs = pre ++ c :: post /\ (forall x, x ∈ pre -> node_first h x /\ ~ nil_edge h) /\ remove_panics h c.
Lemma nodes_loop_panics p cs : NoDup cs -> forall h, (hremove_nodes_loop h p cs).2 = Panicked <-> stops_at h cs.
Proof.
  induction 1 as [|c cs Hc ND IH]; intros h; cbn [hremove_nodes_loop].
  - split; [discriminate|]. intros (pre & c & post & E & _). by destruct pre.
  - pose proof (remove_node_panics h p c) as P. destruct (hremove_node h p c) as [h' [[e|]|]] eqn:R; cbn [snd] in *.
    + split; [discriminate|]. intros (pre & x & post & E & F & G). exfalso. destruct pre as [|y pre]; injection E as <- E.
      * apply P in G. discriminate.
      * destruct (F c ltac:(left)) as [F1 F2].
        destruct (remove_node_cases h p c) as [[H K]|[(a & q & b & H1 & H2 & H3 & H4 & H)|(H1 & H2 & e' & K)]].
        -- rewrite K in R. discriminate.
        -- cbn in H. destruct H as [[H _]|[_ (es & _ & K)]]; [contradiction|]. rewrite K in R. discriminate.
        -- contradiction.
    + destruct (remove_node_done h p c h' R) as (D1 & D2 & D3 & D4). rewrite IH. split.
      * intros (pre & x & post & -> & F & G). exists (c :: pre), x, post. split; [done|].
        assert (Hx : x <> c) by (intros ->; apply Hc; rewrite elem_of_app, elem_of_cons; auto). destruct (D4 x Hx) as [D5 D6]. split.
        -- intros y Hy. apply elem_of_cons in Hy as [->|Hy]; [done|]. split; [|done].
           assert (Hyc : y <> c) by (intros ->; apply Hc; rewrite elem_of_app; auto). destruct (D4 y Hyc) as [_ D7]. apply D7. by apply F.
        -- destruct G as [G|[G1 G2]]; [left; by apply D5|contradiction].
      * intros (pre & x & post & E & F & G). destruct pre as [|y pre]; injection E as <- E.
        -- apply P in G. discriminate.
        -- exists pre, x, post. split; [done|]. subst cs.
           assert (Hx : x <> c) by (intros ->; apply Hc; rewrite elem_of_app, elem_of_cons; auto). destruct (D4 x Hx) as [D5 D6]. split.
           ++ intros y Hy. split; [|done].
              assert (Hyc : y <> c) by (intros ->; apply Hc; rewrite elem_of_app; auto). destruct (D4 y Hyc) as [_ D7]. apply D7. apply F. by right.
           ++ destruct G as [G|[G1 G2]]; [left; by apply D5|contradiction].
    + split; [|done]. intros _. exists [], c, cs. split; [done|]. split; [intros x Hx; inversion Hx|]. by apply P.
Qed.
Lemma nodes_loop_left p cs : forall h h', hremove_nodes_loop h p cs = (h', Panicked) ->
  exists pre c post h1, cs = pre ++ c :: post /\ hremove_nodes_loop h p pre = (h1, Done None) /\ half_removed p c h1 h'.
Proof.
  induction cs as [|c cs IH]; intros h h'; cbn [hremove_nodes_loop]; [discriminate|].
  destruct (hremove_node h p c) as [h1 [[e|]|]] eqn:R.
  - discriminate.
  - intros H. apply IH in H as (pre & x & post & h2 & -> & H1 & H2). exists (c :: pre), x, post, h2. split; [done|]. split; [|done].
    cbn [hremove_nodes_loop]. by rewrite R.
  - intros [= <-]. exists [], c, cs, h. split; [done|]. split; [done|]. by apply remove_node_half.
Qed.
Lemma nodes_loop_edges p cs : cs <> [] -> forall h h', hremove_nodes_loop h p cs = (h', Done None) -> ~ nil_edge h'.
Proof.
  induction cs as [|c cs IH]; [congruence|]. intros _ h h'. cbn [hremove_nodes_loop]. destruct (hremove_node h p c) as [h1 [[e|]|]] eqn:R; [discriminate| |discriminate].
  destruct (remove_node_done h p c h1 R) as (_ & _ & D & _). destruct cs as [|c' cs].
  - intros [= <-]. done.
  - apply IH. discriminate.
Qed.

(** ** The attributes of AddSubGraph *)
Global Instance nil_owner_dec h n : Decision (h_name h <> n /\ nil_sub_entry h n).
Proof. unfold nil_sub_entry. apply and_dec; [solve_decision|]. destruct (h_subs h !! n) as [[x|]|]; [right|left|right]; congruence. Defined.
Lemma add_attr_panics h n f v : (hadd_attr h n f v).2 = Panicked <-> h_name h <> n /\ nil_sub_entry h n.
Proof.
  unfold hadd_attr, nil_sub_entry. destruct (str_eqb (h_name h) n) eqn:E; [apply str_eqb_eq in E|apply str_eqb_neq in E].
  - destruct (attrs_add _ f v) as [a e]. cbn. split; [discriminate|tauto].
  - destruct (h_subs h !! n) as [[s|]|] eqn:L; [destruct (attrs_add _ f v) as [a e]| |]; cbn; (split; [try discriminate|intros [_ ?]; congruence]); done.
Qed.
Lemma add_attr_kept h n f v h' r : hadd_attr h n f v = (h', r) -> r <> Panicked -> h_name h' = h_name h /\ ~ (h_name h' <> n /\ nil_sub_entry h' n).
Proof.
  intros H N. assert (K : ~ (h_name h <> n /\ nil_sub_entry h n)) by (rewrite <- (add_attr_panics h n f v), H; exact N). revert H.
  unfold hadd_attr, nil_sub_entry in *. destruct (str_eqb (h_name h) n) eqn:E; [apply str_eqb_eq in E|apply str_eqb_neq in E].
  - destruct (attrs_add _ f v) as [a e]. intros [= <- _]. split; [done|]. cbn. tauto.
  - destruct (h_subs h !! n) as [[s|]|] eqn:L; [destruct (attrs_add _ f v) as [a e]| |]; intros [= <- _].
    + split; [done|]. cbn. rewrite lookup_insert. intros [_ ?]. discriminate.
    + tauto.
    + split; [done|]. rewrite L. intros [_ ?]. discriminate.
Qed.
Lemma attrs_loop_panics n l : forall h, ~ (h_name h <> n /\ nil_sub_entry h n) -> (hadd_attrs_loop h n l).2 <> Panicked.
Proof.
  induction l as [|[k v] l IH]; intros h K; cbn [hadd_attrs_loop]; [discriminate|].
  pose proof (add_attr_panics h n k v) as P. destruct (hadd_attr h n k v) as [h' r] eqn:R.
  assert (N : r <> Panicked) by (intros ->; apply K, P; done).
  destruct r as [[e|]|]; [discriminate| |contradiction]. apply IH. by destruct (add_attr_kept _ _ _ _ _ _ R N).
Qed.
Lemma attrs_loop_first n l h : h_name h <> n -> nil_sub_entry h n -> l <> [] -> hadd_attrs_loop h n l = (h, Panicked).
Proof.
  intros N K L. destruct l as [|[k v] l]; [congruence|]. cbn [hadd_attrs_loop]. unfold hadd_attr.
  rewrite (proj2 (str_eqb_neq _ _) N). unfold nil_sub_entry in K. by rewrite K.
Qed.
Lemma attrs_enum_nil (o : oracle) (i : nat) (m : attrs) : fair o -> o_attrs o i m = [] <-> m = ∅.
Proof.
  intros [Fo _]. specialize (Fo i m). split.
  - intros E. rewrite E in Fo. apply Permutation_nil in Fo. by apply map_to_list_empty_iff.
  - intros ->. rewrite map_to_list_empty in Fo. symmetry in Fo. by apply Permutation_nil in Fo.
Qed.

(** ** The calls *)
Lemma hexec_panics o c h : fair o -> (hexec o c h).2 = Panicked <-> touches o c h.
Proof.
  intros Fo. destruct c as [b|b|n|s sp d dp dir m|s d dir m|p n m|p f v|p n m|p n|p n]; cbn [hexec touches].
  - cbn. split; [discriminate|done].
  - cbn. split; [discriminate|done].
  - cbn. split; [discriminate|done].
  - unfold hadd_port_edge. destruct (new_attrs _); cbn; (split; [discriminate|done]).
  - unfold hadd_port_edge. destruct (new_attrs _); cbn; (split; [discriminate|done]).
  - unfold hadd_node. destruct (new_attrs_enum m (o_attrs o 0 m)) as [[V ->]|[V (k & v & _ & _ & ->)]]; [apply Fo| |cbn; split; [discriminate|tauto]].
    unfold hnodes_add, nil_lookup. destruct (hn_lookup (h_nodes h) !! n) as [[q|]|]; cbn; (split; [try discriminate; done|intros [_ ?]; congruence]).
  - apply add_attr_panics.
  - unfold hadd_subgraph. set (h2 := hw_subs _ _).
    assert (K : nil_sub_entry h2 n <-> nil_sub_entry h n).
    { unfold nil_sub_entry, h2. cbn [h_subs hw_subs hw_rels]. unfold hsubs_add. destruct (h_subs h !! n) as [x|] eqn:E; [by rewrite E|].
      rewrite lookup_insert. split; discriminate. }
    change (h_name h) with (h_name h2). rewrite <- K. rewrite <- (attrs_enum_nil o 0 m Fo).
    split.
    + intros P. destruct (decide (h_name h2 <> n /\ nil_sub_entry h2 n)) as [[D1 D2]|D].
      * split; [|done]. intros E. rewrite E in P. discriminate.
      * exfalso. by apply (attrs_loop_panics n (o_attrs o 0 m) h2 D).
    + intros (L & N & S0). by rewrite (attrs_loop_first n _ h2 N S0 L).
  - apply remove_node_panics.
  - unfold hremove_subgraph. set (cs := o_names o 0 (children (h_rels h) n)).
    assert (ND : NoDup cs) by (unfold cs; rewrite (proj2 Fo 0 _); apply NoDup_elements).
    pose proof (nodes_loop_panics p cs ND h) as P. fold (stops_at h cs). destruct (hremove_nodes_loop h p cs) as [h1 [[e|]|]] eqn:L; cbn [snd] in P |- *.
    + split; [discriminate|]. intros [[E _]|S0]; [rewrite E in L; discriminate|]. apply P in S0. discriminate.
    + set (h3 := hw_subs _ _).
      assert (E3 : nil_edge h3 <-> nil_edge h1) by reflexivity.
      destruct (hdrop_cases (fun e => negb (str_eqb (e_dst e) n || str_eqb (e_dst_port e) n || str_eqb (e_src e) n || str_eqb (e_src_port e) n)) h3) as [[D ->]|[D (es & _ & ->)]]; cbn [snd].
      * split; [|done]. intros _. left. rewrite E3 in D. destruct cs as [|c0 cs0] eqn:Ecs; [injection L as <-; done|].
        exfalso. by apply (nodes_loop_edges p (c0 :: cs0) ltac:(discriminate) h h1 L).
      * split; [discriminate|]. intros [[E N]|S0]; [|apply P in S0; discriminate]. exfalso. apply D, E3. rewrite E in L. injection L as <-. done.
    + split; [|done]. intros _. right. by apply P.
Qed.
Lemma hexec_left o c h h' : hexec o c h = (h', Panicked) -> holes_left o c h h'.
Proof.
  destruct c as [b|b|n|s sp d dp dir m|s d dir m|p n m|p f v|p n m|p n|p n]; cbn [hexec holes_left].
  - discriminate.
  - discriminate.
  - discriminate.
  - unfold hadd_port_edge. destruct (new_attrs _); discriminate.
  - unfold hadd_port_edge. destruct (new_attrs _); discriminate.
  - unfold hadd_node. destruct (new_attrs _); [|discriminate]. unfold hnodes_add. destruct (hn_lookup (h_nodes h) !! n) as [[q|]|]; try discriminate.
    intros [= <-]. by destruct h.
  - unfold hadd_attr. destruct (str_eqb _ p); [destruct (attrs_add _ f v); discriminate|]. destruct (h_subs h !! p) as [[s|]|]; [destruct (attrs_add _ f v); discriminate| |discriminate].
    intros [= <-]. done.
  - unfold hadd_subgraph. set (h2 := hw_subs _ _). intros H.
    destruct (decide (h_name h2 <> n /\ nil_sub_entry h2 n)) as [[D1 D2]|D].
    + rewrite (attrs_loop_first n _ h2 D1 D2) in H by (intros E; rewrite E in H; discriminate). injection H as <-.
      unfold h2 in *. unfold nil_sub_entry in D2. cbn [h_subs hw_subs hw_rels] in *. unfold hsubs_add in *.
      destruct (h_subs h !! n) as [x|] eqn:E; [by destruct h|]. rewrite lookup_insert in D2. discriminate.
    + exfalso. apply (attrs_loop_panics n (o_attrs o 0 m) h2 D). by rewrite H.
  - apply remove_node_half.
  - unfold hremove_subgraph. set (cs := o_names o 0 (children (h_rels h) n)). destruct (hremove_nodes_loop h p cs) as [h1 [[e|]|]] eqn:L; [discriminate| |].
    + set (h3 := hw_subs _ _).
      destruct (hdrop_cases (fun e => negb (str_eqb (e_dst e) n || str_eqb (e_dst_port e) n || str_eqb (e_src e) n || str_eqb (e_src_port e) n)) h3) as [[D ->]|[D (es & _ & ->)]]; [|discriminate].
      intros [= <-]. left. destruct cs as [|c0 cs0] eqn:Ecs; [injection L as <-; done|].
      exfalso. by apply (nodes_loop_edges p (c0 :: cs0) ltac:(discriminate) h h1 L).
    + intros [= <-]. right. by apply nodes_loop_left.
Qed.

(** ** Where nil is afterwards *)
Lemma nnn_refl h : no_new_nil h h. Proof. unfold no_new_nil. tauto. Qed.
Lemma nnn_trans h1 h2 h3 : no_new_nil h1 h2 -> no_new_nil h2 h3 -> no_new_nil h1 h3.
Proof. intros (A1 & A2 & A3 & A4) (B1 & B2 & B3 & B4). split; [|split; [|split]]; auto. Qed.
Lemma nnn_delete {A : Type} (m : gmap gostr (option A)) (n k : gostr) : delete n m !! k = Some None -> m !! k = Some None.
Proof. intros H. apply lookup_delete_Some in H. tauto. Qed.
Lemma nnn_insert {A : Type} (m : gmap gostr (option A)) (n k : gostr) (x : A) : <[n := Some x]> m !! k = Some None -> m !! k = Some None.
Proof. destruct (decide (n = k)) as [->|N]; [by rewrite lookup_insert|by rewrite lookup_insert_ne]. Qed.
Lemma nnn_remove_node h p n : no_new_nil h (hremove_node h p n).1.
Proof.
  destruct (remove_node_cases h p n) as [[H ->]|[(a & q & b & H1 & H2 & H3 & H4 & H)|(H1 & H2 & e & ->)]]; [apply nnn_refl| |apply nnn_refl].
  assert (L : None ∈ a ++ b -> None ∈ hn_list (h_nodes h)) by (rewrite H1, !elem_of_app, elem_of_cons; tauto).
  cbn in H. destruct H as [[K ->]|[K (es & N & ->)]]; unfold no_new_nil, nil_lookup, nil_sub_entry, nil_edge; cbn; (split; [intros k; apply nnn_delete|split; [done|split; [|exact L]]]); done.
Qed.
Lemma nnn_nodes_loop p cs : forall h, no_new_nil h (hremove_nodes_loop h p cs).1.
Proof.
  induction cs as [|c cs IH]; intros h; cbn [hremove_nodes_loop]; [apply nnn_refl|]. pose proof (nnn_remove_node h p c) as N.
  destruct (hremove_node h p c) as [h' [[e|]|]]; [done| |done]. eapply nnn_trans; [exact N|apply IH].
Qed.
Lemma nnn_add_attr h p f v : no_new_nil h (hadd_attr h p f v).1.
Proof.
  unfold hadd_attr. destruct (str_eqb _ p); [destruct (attrs_add _ f v); unfold no_new_nil; cbn; tauto|].
  destruct (h_subs h !! p) as [[s|]|]; [destruct (attrs_add _ f v) as [a e]|apply nnn_refl|apply nnn_refl].
  unfold no_new_nil, nil_sub_entry. cbn. split; [done|]. split; [intros k; apply nnn_insert|]. done.
Qed.
Lemma nnn_attrs_loop n l : forall h, no_new_nil h (hadd_attrs_loop h n l).1.
Proof.
  induction l as [|[k v] l IH]; intros h; cbn [hadd_attrs_loop]; [apply nnn_refl|]. pose proof (nnn_add_attr h n k v) as N.
  destruct (hadd_attr h n k v) as [h' [[e|]|]]; [done| |done]. eapply nnn_trans; [exact N|apply IH].
Qed.
Lemma nnn_drop keep h : no_new_nil h (hdrop keep h).1.
Proof.
  destruct (hdrop_cases keep h) as [[D ->]|[D (es & N & ->)]]; [apply nnn_refl|]. unfold no_new_nil, nil_edge. cbn. split; [done|]. split; [done|]. split; [|done]. intros H. contradiction.
Qed.
Lemma nnn_edge h e : no_new_nil h (hw_edges h (hedges_add (h_edges h) e)).
Proof.
  unfold no_new_nil, nil_edge. cbn. split; [done|]. split; [done|]. split; [|done]. rewrite elem_of_app, elem_of_list_singleton. intros [?|?]; [done|discriminate].
Qed.
Lemma hexec_no_new_nil o c h : no_new_nil h (hexec o c h).1.
Proof.
  destruct c as [b|b|n|s sp d dp dir m|s d dir m|p n m|p f v|p n m|p n|p n]; cbn [hexec].
  - unfold no_new_nil; cbn; tauto.
  - unfold no_new_nil; cbn; tauto.
  - unfold no_new_nil; cbn; tauto.
  - unfold hadd_port_edge. destruct (new_attrs _); [apply nnn_edge|apply nnn_refl].
  - unfold hadd_port_edge. destruct (new_attrs _); [apply nnn_edge|apply nnn_refl].
  - unfold hadd_node. destruct (new_attrs _); [|apply nnn_refl]. unfold hnodes_add. destruct (hn_lookup (h_nodes h) !! n) as [[q|]|]; unfold no_new_nil, nil_lookup; cbn.
    + tauto.
    + tauto.
    + split; [intros k; apply nnn_insert|]. split; [done|]. split; [done|]. rewrite elem_of_app, elem_of_list_singleton. intros [?|?]; [done|discriminate].
  - apply nnn_add_attr.
  - unfold hadd_subgraph. set (h2 := hw_subs _ _). apply (nnn_trans h h2); [|apply nnn_attrs_loop].
    unfold no_new_nil, nil_sub_entry, h2. cbn. split; [done|]. split; [|done]. intros k. unfold hsubs_add. destruct (h_subs h !! n); [done|apply nnn_insert].
  - apply nnn_remove_node.
  - unfold hremove_subgraph. pose proof (nnn_nodes_loop p (o_names o 0 (children (h_rels h) n)) h) as N. destruct (hremove_nodes_loop _ _ _) as [h1 [[e|]|]]; [done| |done].
    eapply nnn_trans; [exact N|]. eapply nnn_trans; [|apply nnn_drop]. unfold no_new_nil, nil_sub_entry. cbn. split; [done|]. split; [intros k; apply nnn_delete|]. done.
Qed.

(** ** Histories *)
Lemma hole_completes x h g : over x h -> completes h g -> completes (make_hole x h) g.
Proof.
  intros O1 C. destruct x as [n|i|i|n| |]; cbn [over make_hole] in *; [| | | |done|done]; split; cbn; try apply C.
  - intros k. pose proof (co_lookup _ _ C k) as H. destruct (decide (n = k)) as [->|N]; [|by rewrite lookup_insert_ne].
    rewrite lookup_insert. destruct O1 as [y O1]. rewrite O1 in H. destruct (nodes_lookup (g_nodes g) !! k); [intros a [=]|done].
  - apply Forall2_same_length_lookup_2; [rewrite insert_length; eapply Forall2_length, C|]. intros j a b Ha Hb. destruct (decide (i = j)) as [->|N].
    + apply list_lookup_insert_Some in Ha as [(_ & <- & _)|[? _]]; [intros ? [=]|done].
    + rewrite list_lookup_insert_ne in Ha by done. eapply Forall2_lookup_lr; [apply C|done|done].
  - apply Forall2_same_length_lookup_2; [rewrite insert_length; eapply Forall2_length, C|]. intros j a b Ha Hb. destruct (decide (i = j)) as [->|N].
    + apply list_lookup_insert_Some in Ha as [(_ & <- & _)|[? _]]; [intros ? [=]|done].
    + rewrite list_lookup_insert_ne in Ha by done. eapply Forall2_lookup_lr; [apply C|done|done].
  - intros k. pose proof (co_subs _ _ C k) as H. destruct (decide (n = k)) as [->|N]; [|by rewrite lookup_insert_ne].
    rewrite lookup_insert. destruct O1 as [y O1]. rewrite O1 in H. destruct (g_subs g !! k); [intros a [=]|done].
Qed.
Lemma history_follows h cs h' rs : hhistory h cs h' rs -> forall g, completes h g -> exists g', run cs g = (g', rs) /\ completes h' g'.
Proof.
  induction 1 as [h|h o c h1 r cs h2 rs E _ IH|h x cs h2 rs O1 _ IH]; intros g C.
  - cbn. eauto.
  - cbn [run]. pose proof (exec_follows o c h g C) as F. rewrite E in F. destruct (exec o c g) as [g1 r1]. destruct F as [F1 F2]. cbn in F1, F2. subst r1.
    destruct (IH g1 F2) as (g' & -> & C'). eauto.
  - apply IH. by apply hole_completes.
Qed.

(** ** Without nil *)
Lemma embed_completes g : completes (embed g) g.
Proof.
  split; cbn; try reflexivity.
  - intros n. rewrite lookup_fmap. destruct (nodes_lookup (g_nodes g) !! n); cbn; [apply instead_some|done].
  - induction (nodes_list (g_nodes g)); cbn; constructor; [apply instead_some|done].
  - induction (edges_list (g_edges g)); cbn; constructor; [apply instead_some|done].
  - intros n. rewrite lookup_fmap. destruct (g_subs g !! n); cbn; [apply instead_some|done].
Qed.
Definition no_nil (h : hgraph) : Prop := whole h /\ None ∉ hn_list (h_nodes h).
Lemma embed_no_nil g : no_nil (embed g).
Proof.
  assert (L : forall (A : Type) (l : list A), None ∉ map Some l) by (intros A l H; apply elem_of_list_fmap in H as (x & ? & _); discriminate).
  split; [split; [|split]|]; cbn.
  - apply L.
  - intros n. unfold nil_lookup. cbn. rewrite lookup_fmap. destruct (nodes_lookup (g_nodes g) !! n); discriminate.
  - intros n. unfold nil_sub_entry. cbn. rewrite lookup_fmap. destruct (g_subs g !! n); discriminate.
  - apply L.
Qed.
Lemma instead_all {A : Type} (l : list (option A)) l' : Forall2 instead l l' -> None ∉ l -> l = map Some l'.
Proof.
  induction 1 as [|x y l l' K F IH]; intros N; [done|]. rewrite not_elem_of_cons in N. destruct N as [N1 N2]. cbn. rewrite <- (IH N2).
  destruct x as [x|]; [|done]. apply instead_eq in K as ->. done.
Qed.
Lemma cm_all {A : Type} (m : gmap gostr (option A)) m' : completes_map m m' -> (forall n, m !! n <> Some None) -> m = Some <$> m'.
Proof.
  intros C N. apply map_eq. intros n. rewrite lookup_fmap. specialize (C n). specialize (N n).
  destruct (m !! n) as [[x|]|], (m' !! n) as [y|]; try done. cbn. by apply instead_eq in C as ->.
Qed.
Lemma complete_no_nil h g : completes h g -> no_nil h -> h = embed g.
Proof.
  intros C ((W1 & W2 & W3) & L). destruct h as [a n d s [lk nl hp nx] [m1 m2 el] sm r], g as [a' n' d' s' [lk' nl' hp' nx'] [m1' m2' el'] sm' r'].
  unfold nil_edge, nil_lookup, nil_sub_entry in *. cbn in *. destruct C; cbn in *. subst.
  unfold embed; cbn. rewrite <- (instead_all _ _ co_nodes) by done. rewrite <- (instead_all _ _ co_edges) by done.
  rewrite <- (cm_all _ _ co_lookup W2). rewrite <- (cm_all _ _ co_subs W3). reflexivity.
Qed.
Lemma no_nil_kept h h' : no_new_nil h h' -> no_nil h -> no_nil h'.
Proof. intros (N1 & N2 & N3 & N4) ((W1 & W2 & W3) & L). split; [split; [|split]|].
  - intros H. apply W1, N3, H.
  - intros n H. apply (W2 n), N1, H.
  - intros n H. apply (W3 n), N2, H.
  - intros H. apply L, N4, H.
Qed.
Lemma no_nil_touches o c h : no_nil h -> ~ touches o c h.
Proof.
  intros ((W1 & W2 & W3) & L). assert (NF : forall n, ~ nil_first h n).
  { intros n (a & b & E & _). apply L. rewrite E, elem_of_app, elem_of_cons. auto. }
  assert (RP : forall n, ~ remove_panics h n) by (intros n [K|[_ K]]; [by apply (NF n)|done]).
  destruct c as [b|b|n|s sp d dp dir m|s d dir m|p n m|p f v|p n m|p n|p n]; cbn [touches]; try tauto.
  - intros [_ H]. by apply (W2 n).
  - intros [_ H]. by apply (W3 p).
  - intros (_ & _ & H). by apply (W3 n).
  - apply RP.
  - intros [[_ H]|(pre & x & post & _ & _ & H)]; [done|]. by apply (RP x).
Qed.
Lemma embed_exec o c g : fair o -> hexec o c (embed g) = (embed (exec o c g).1, Done (exec o c g).2).
Proof.
  intros Fo. pose proof (hexec_panics o c (embed g) Fo) as P. pose proof (exec_follows o c _ _ (embed_completes g)) as F. pose proof (hexec_no_new_nil o c (embed g)) as N.
  destruct (hexec o c (embed g)) as [h' [r|]].
  - destruct F as [-> F]. f_equal. apply complete_no_nil; [done|]. eapply no_nil_kept; [exact N|apply embed_no_nil].
  - exfalso. eapply no_nil_touches; [apply embed_no_nil|]. apply P. done.
Qed.
