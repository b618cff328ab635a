(** Property C42: Escape is Graph on escaped names. *)
From Verif Require Import Base Maps Graph AttrMap SpecGraph MapFacts GraphProofs Escape SpecEscape EscapeProofs.
From Verif Require EscapeFacts PropsEscape PropsGraph LexPrint.
From Verif Require Import Direct SpecDirect DirectProofs.
Notation o_id := PropsGraph.o_id.
Notation A := PropsGraph.A.

Section C42.
  Variable uletter udigit : N -> bool.   (* unicode.IsLetter, unicode.IsDigit from U+0080 on *)
  Notation esc := (esc uletter udigit).
  Notation esc_attrs := (esc_attrs uletter udigit).
  Notation esc_exec := (esc_exec uletter udigit).
  Notation esc_reachable := (esc_reachable uletter udigit).

  (** [m'] holds the escaped entries of [m]; if two keys of [m] have the same escaped form, one of them wins. *)
  Definition escaped_attrs (m m' : attrs) : Prop :=
    (forall k v, m !! k = Some v -> exists k' v', esc k = Some k' /\ esc v = Some v' /\ is_Some (m' !! k')) /\
    (forall k' v', m' !! k' = Some v' -> exists k v, m !! k = Some v /\ esc k = Some k' /\ esc v = Some v').
  (** The call on escaped arguments.  Ports are not escaped, nor are the arguments of the promoted methods. *)
  Inductive escaped_call : call -> call -> Prop :=
  | Ec_strict b : escaped_call (CSetStrict b) (CSetStrict b)
  | Ec_dir b : escaped_call (CSetDir b) (CSetDir b)
  | Ec_name n n' : esc n = Some n' -> escaped_call (CSetName n) (CSetName n')
  | Ec_port_edge a a' pa b b' pb dir m m' : esc a = Some a' -> esc b = Some b' -> escaped_attrs m m' ->
      escaped_call (CAddPortEdge a pa b pb dir m) (CAddPortEdge a' pa b' pb dir m')
  | Ec_edge a a' b b' dir m m' : esc a = Some a' -> esc b = Some b' -> escaped_attrs m m' ->
      escaped_call (CAddEdge a b dir m) (CAddEdge a' b' dir m')
  | Ec_node p p' n n' m m' : esc p = Some p' -> esc n = Some n' -> escaped_attrs m m' ->
      escaped_call (CAddNode p n m) (CAddNode p' n' m')
  | Ec_attr p p' f f' v v' : esc p = Some p' -> esc f = Some f' -> esc v = Some v' ->
      escaped_call (CAddAttr p f v) (CAddAttr p' f' v')
  | Ec_sub p p' n n' m m' : esc p = Some p' -> esc n = Some n' -> escaped_attrs m m' ->
      escaped_call (CAddSubGraph p n m) (CAddSubGraph p' n' m')
  | Ec_remove_node p n : escaped_call (CRemoveNode p n) (CRemoveNode p n)
  | Ec_remove_sub p n : escaped_call (CRemoveSubGraph p n) (CRemoveSubGraph p n).
  (** The strings which a call escapes. *)
  Definition entry (m : attrs) (s : gostr) : Prop := exists k v, m !! k = Some v /\ (s = k \/ s = v).
  Definition escapes (c : call) (s : gostr) : Prop :=
    match c with
    | CSetName n => s = n
    | CAddPortEdge a _ b _ _ m | CAddEdge a b _ m | CAddNode a b m | CAddSubGraph a b m => s = a \/ s = b \/ entry m s
    | CAddAttr p f v => s = p \/ s = f \/ s = v
    | _ => False
    end.

  Lemma loop_ok l : NoDup l.*1 -> forall a a', esc_attrs_loop uletter udigit a l = Some a' ->
    (forall k v, (k, v) ∈ l -> exists k' v', esc k = Some k' /\ esc v = Some v' /\ is_Some (a' !! k')) /\
    (forall k', is_Some (a !! k') -> is_Some (a' !! k')) /\
    (forall k' v', a' !! k' = Some v' -> a !! k' = Some v' \/ exists k v, (k, v) ∈ l /\ esc k = Some k' /\ esc v = Some v').
  Proof.
    induction l as [|[k v] l IH]; intros ND a a' E; cbn in E.
    - injection E as <-. split; [intros k v H; inversion H|]. split; [auto|]. intros k' v' H. left. exact H.
    - destruct (esc k) as [k1|] eqn:Ek; [|discriminate]. destruct (esc v) as [v1|] eqn:Ev; [|discriminate].
      cbn in ND. apply NoDup_cons in ND. destruct ND as [_ ND]. destruct (IH ND _ _ E) as (H1 & H2 & H3). split; [|split].
      + intros k0 v0 H. apply elem_of_cons in H. destruct H as [[= -> ->]|H]; [|eauto]. exists k1, v1. split; [exact Ek|]. split; [exact Ev|]. apply H2. rewrite lookup_insert. eauto.
      + intros k' Hk. apply H2. destruct (decide (k1 = k')) as [->|N]; [rewrite lookup_insert; eauto|rewrite lookup_insert_ne by exact N; exact Hk].
      + intros k' v' Hk. destruct (H3 k' v' Hk) as [H|(k0 & v0 & H & Hk0)].
        * destruct (decide (k1 = k')) as [->|N].
          -- rewrite lookup_insert in H. injection H as <-. right. exists k, v. split; [left|]. auto.
          -- rewrite lookup_insert_ne in H by exact N. left. exact H.
        * right. exists k0, v0. split; [right; exact H|exact Hk0].
  Qed.
  Lemma loop_none l : forall a, esc_attrs_loop uletter udigit a l = None <-> exists k v, (k, v) ∈ l /\ (esc k = None \/ esc v = None).
  Proof.
    induction l as [|[k v] l IH]; intros a; cbn; [split; [discriminate|intros (k & v & H & _); inversion H]|].
    destruct (esc k) as [k1|] eqn:Ek; [destruct (esc v) as [v1|] eqn:Ev|].
    - rewrite IH. split; intros (k0 & v0 & H & Hn); exists k0, v0; (split; [|exact Hn]); [right; exact H|].
      apply elem_of_cons in H. destruct H as [[= -> ->]|H]; [|exact H]. destruct Hn; congruence.
    - split; [|reflexivity]. intros _. exists k, v. split; [left|auto].
    - split; [|reflexivity]. intros _. exists k, v. split; [left|auto].
  Qed.
  Lemma fair_entries oe m : fair oe -> forall k v, (k, v) ∈ o_attrs oe 0 m <-> m !! k = Some v.
  Proof. intros [F _] k v. rewrite (F 0 m). apply elem_of_map_to_list. Qed.
  Lemma fair_nodup oe m : fair oe -> NoDup (o_attrs oe 0 m).*1.
  Proof. intros [F _]. rewrite (F 0 m). apply NoDup_fst_map_to_list. Qed.
  Lemma attrs_ok oe m m' : fair oe -> esc_attrs oe m = Some m' -> escaped_attrs m m'.
  Proof.
    intros Fo E. unfold Escape.esc_attrs in E. apply loop_ok in E; [|apply fair_nodup; exact Fo]. destruct E as (H1 & _ & H3). split.
    - intros k v H. apply H1. apply fair_entries; assumption.
    - intros k' v' H. destruct (H3 k' v' H) as [H'|(k & v & Hl & H')]; [rewrite lookup_empty in H'; discriminate|]. exists k, v. split; [|exact H']. eapply fair_entries; eassumption.
  Qed.
  Lemma attrs_none oe m : fair oe -> esc_attrs oe m = None <-> exists s, entry m s /\ esc s = None.
  Proof.
    intros Fo. unfold Escape.esc_attrs. rewrite loop_none. split.
    - intros (k & v & H & [Hn|Hn]); (eapply fair_entries in H; [|exact Fo]); [exists k|exists v]; (split; [exists k, v; auto|exact Hn]).
    - intros (s & (k & v & H & Hs) & Hn). exists k, v. split; [apply fair_entries; assumption|]. destruct Hs as [->| ->]; auto.
  Qed.

  Lemma some_inj {X} (a b : X) : Some a = Some b -> a = b.
  Proof. congruence. Qed.
  (** Each Escape operation is the Graph operation on escaped arguments ... *)
  Theorem C42_delegates : forall oe o c g g' r, fair oe -> esc_exec oe o c g = Some (g', r) ->
    exists c', escaped_call c c' /\ exec o c' g = (g', r).
  Proof.
    intros oe o c g g' r Fo E. destruct c; cbn [Escape.esc_exec] in E; unfold bindo in E;
      repeat match type of E with
        | match esc ?x with _ => _ end = _ => let y := fresh "y" in let Ey := fresh "Ey" in destruct (esc x) as [y|] eqn:Ey; [|discriminate]
        | match esc_attrs ?a ?x with _ => _ end = _ => let y := fresh "m'" in let Ey := fresh "Em" in destruct (esc_attrs a x) as [y|] eqn:Ey; [apply attrs_ok in Ey; [|exact Fo]|discriminate]
        end; apply some_inj in E; eexists; (split; [constructor; eassumption|exact E]).
  Qed.
  (** ... unless one of these arguments cannot be escaped: then it panics. *)
  Theorem C42_panics : forall oe o c g, fair oe -> esc_exec oe o c g = None <-> exists s, escapes c s /\ esc s = None.
  Proof.
    intros oe o c g Fo. assert (N : forall m, esc_attrs oe m = None <-> exists s, entry m s /\ esc s = None) by (intros m; apply attrs_none; exact Fo).
    assert (S : forall x1 x2 (m : attrs), (exists s, (s = x1 \/ s = x2 \/ entry m s) /\ esc s = None) <-> esc x1 = None \/ esc x2 = None \/ esc_attrs oe m = None).
    { intros x1 x2 m. rewrite N. split; [intros (s & [->|[->|H]] & Hn); eauto|intros [H|[H|(s & H & Hn)]]; eauto 6]. }
    destruct c; cbn [Escape.esc_exec escapes]; unfold bindo; try (split; [discriminate|intros (s & [] & _)]); try rewrite S.
    - destruct (esc n) eqn:E; split; try discriminate; try reflexivity; [|eauto]. intros (s & -> & H). congruence.
    - destruct (esc src) eqn:E1; [destruct (esc dst) eqn:E2; [destruct (esc_attrs oe m) eqn:E3|]|]; split; auto; try discriminate. intros [H|[H|H]]; discriminate.
    - destruct (esc src) eqn:E1; [destruct (esc dst) eqn:E2; [destruct (esc_attrs oe m) eqn:E3|]|]; split; auto; try discriminate. intros [H|[H|H]]; discriminate.
    - destruct (esc parent) eqn:E1; [destruct (esc name) eqn:E2; [destruct (esc_attrs oe m) eqn:E3|]|]; split; auto; try discriminate. intros [H|[H|H]]; discriminate.
    - destruct (esc parent) eqn:E1; [destruct (esc field) eqn:E2; [destruct (esc value) eqn:E3|]|]; split; eauto 6; try discriminate. intros (s & [->|[->| ->]] & H); congruence.
    - destruct (esc parent) eqn:E1; [destruct (esc name) eqn:E2; [destruct (esc_attrs oe m) eqn:E3|]|]; split; auto; try discriminate. intros [H|[H|H]]; discriminate.
  Qed.

  (** Escaping does not interfere with the check of attribute names, and escapes the values. *)
  Lemma valid_kept k : valid_attr k -> esc k = Some k.
  Proof.
    intros V. apply PropsEscape.C40_ascii_id_kept.
    - assert (F : forallb (fun s => forallb (fun a => N.ltb (bv a) 128) s) valid_attrs = true) by (vm_compute; reflexivity).
      rewrite forallb_forall in F. apply elem_of_list_In in V. specialize (F k V). rewrite forallb_forall in F. apply List.Forall_forall. intros a Ha. apply N.ltb_lt, F, Ha.
    - apply PropsEscape.is_idb_spec. assert (F : forallb PropsEscape.is_idb valid_attrs = true) by (vm_compute; reflexivity). rewrite forallb_forall in F. apply F, elem_of_list_In, V.
  Qed.
  Lemma valid_unquoted k k' : esc k = Some k' -> valid_attr k' -> k = k'.
  Proof.
    intros E V. assert (Q : forall b, quoted b <> k').
    { intros b <-. assert (F : forallb (fun s => negb (has_prefix s [dquote])) valid_attrs = true) by (vm_compute; reflexivity).
      rewrite forallb_forall in F. apply elem_of_list_In in V. specialize (F _ V). unfold quoted in F. cbn [has_prefix app] in F. rewrite Ascii.eqb_refl in F. destruct (b ++ [dquote]); discriminate. }
    destruct (esc_spec uletter udigit k) as [[E' _]|[[E' _]|[[E' _]|[E' _]]]]; rewrite E' in E; try discriminate; injection E as E; [exact E|destruct (Q _ E)..].
  Qed.
  Theorem C42_valid_attrs : forall m m', escaped_attrs m m' ->
    (all_valid m' <-> all_valid m) /\ (all_valid m -> forall k, m' !! k = match m !! k with Some v => esc v | None => None end).
  Proof.
    intros m m' [H1 H2]. assert (V : all_valid m' <-> all_valid m).
    { split; intros V k v Hk.
      - destruct (H1 k v Hk) as (k' & v' & E & _ & [x Hx]). specialize (V _ _ Hx). rewrite (valid_unquoted k k' E V). exact V.
      - destruct (H2 k v Hk) as (k0 & v0 & Hk0 & E & _). specialize (V _ _ Hk0). rewrite (valid_kept k0 V) in E. injection E as <-. exact V. }
    split; [exact V|]. intros Vm k. apply V in Vm as Vm'. destruct (m !! k) as [v|] eqn:Ek.
    - destruct (H1 k v Ek) as (k' & v' & E & Ev & [x Hx]). rewrite (valid_kept k (Vm _ _ Ek)) in E. injection E as <-. rewrite Hx.
      destruct (H2 k x Hx) as (k0 & v0 & Hk0 & E0 & Ev0). rewrite (valid_kept k0 (Vm _ _ Hk0)) in E0. injection E0 as ->. rewrite Ek in Hk0. injection Hk0 as <-. symmetry. exact Ev0.
    - destruct (m' !! k) as [x|] eqn:Hx; [|reflexivity]. destruct (H2 k x Hx) as (k0 & v0 & Hk0 & E0 & Ev0). rewrite (valid_kept k0 (Vm _ _ Hk0)) in E0. injection E0 as ->. congruence.
  Qed.

  (** Histories of Escape calls give graphs that histories of Graph calls give, ... *)
  Theorem C42_reachable : forall g, esc_reachable g -> reachable g.
  Proof.
    induction 1 as [|g oe o c g' r R IH Foe Fo E]; [constructor|]. destruct (C42_delegates _ _ _ _ _ _ Foe E) as (c' & _ & E'). replace g' with (exec o c' g).1 by (rewrite E'; reflexivity). constructor; assumption.
  Qed.
  (** ... in which every name, and every attribute value, is in escaped form. *)
  Definition in_attrs (m : attrs) (n : gostr) : Prop := exists k, m !! k = Some n.
  Definition mentions (s : sgraph) (n : gostr) : Prop :=
    n = s_name s \/ in_attrs (s_attrs s) n \/
    (exists a, s_nodes s !! n = Some a) \/ (exists x a, s_nodes s !! x = Some a /\ in_attrs a n) \/
    (exists e, e ∈ s_edges s /\ (n = e_src e \/ n = e_dst e \/ in_attrs (e_attrs e) n)) \/
    (exists a, s_subs s !! n = Some a) \/ (exists x a, s_subs s !! x = Some a /\ in_attrs a n) \/
    (exists x, is_child s n x \/ is_child s x n).
  Definition ok (n : gostr) : Prop := esc n = Some n.
  Definition okA (m : attrs) : Prop := forall k v, m !! k = Some v -> ok v.
  Definition okN (m : gmap gostr attrs) : Prop := forall x a, m !! x = Some a -> ok x /\ okA a.
  Definition okE (l : list edge) : Prop := forall e, e ∈ l -> ok (e_src e) /\ ok (e_dst e) /\ okA (e_attrs e).
  Definition okR (r : gset (gostr * gostr)) : Prop := forall p c, (p, c) ∈ r -> ok p /\ ok c.
  Definition good (s : sgraph) : Prop := ok (s_name s) /\ okA (s_attrs s) /\ okN (s_nodes s) /\ okE (s_edges s) /\ okN (s_subs s) /\ okR (s_rels s).
  Ltac spl := refine (conj _ (conj _ (conj _ (conj _ (conj _ _))))); cbn; try assumption.
  Lemma okA_union m1 m2 : okA m1 -> okA m2 -> okA (m1 ∪ m2).
  Proof. intros H1 H2 k v E. apply lookup_union_Some_raw in E. destruct E as [E|[_ E]]; [eapply H1|eapply H2]; exact E. Qed.
  Lemma okA_empty : okA ∅.
  Proof. intros k v E. rewrite lookup_empty in E. discriminate. Qed.
  Lemma okA_default m x : okN m -> okA (default ∅ (m !! x)).
  Proof. intros H. destruct (m !! x) as [a|] eqn:E; [exact (proj2 (H x a E))|apply okA_empty]. Qed.
  Lemma okN_insert m x a : ok x -> okA a -> okN m -> okN (<[x := a]> m).
  Proof. intros Hx Ha H y b E. apply lookup_insert_Some in E. destruct E as [[<- <-]|[_ E]]; [auto|exact (H y b E)]. Qed.
  Lemma okR_add r p c : ok p -> ok c -> okR r -> okR ({[(p, c)]} ∪ r).
  Proof. intros Hp Hc H x y E. apply elem_of_union in E. destruct E as [E|E]; [apply elem_of_singleton in E; injection E as -> ->; auto|exact (H x y E)]. Qed.
  Lemma okE_filter l (P : edge -> Prop) {D : forall e, Decision (P e)} : okE l -> okE (filter P l).
  Proof. intros H e E. apply elem_of_list_filter in E. apply H, E. Qed.
  Lemma good_put s n m : good s -> ok n -> okA m -> good (s_put_attrs s n m).
  Proof.
    intros (H1 & H2 & H3 & H4 & H5 & H6) Hn Hm. unfold s_put_attrs. destruct (decide _) as [D|D].
    - spl. apply okA_union; assumption.
    - spl. apply okN_insert; try assumption. apply okA_union; [exact Hm|apply okA_default; exact H5].
  Qed.
  Lemma good_open s p n : good s -> ok p -> ok n -> good (s_open_sub s p n).
  Proof.
    intros (H1 & H2 & H3 & H4 & H5 & H6) Hp Hn. unfold s_open_sub. spl.
    - apply okN_insert; try assumption. apply okA_default. exact H5.
    - apply okR_add; assumption.
  Qed.
  Lemma good_drop s p N : good s -> good (s_drop_nodes s p N).
  Proof.
    intros (H1 & H2 & H3 & H4 & H5 & H6). unfold s_drop_nodes. spl.
    - intros x a E. apply map_filter_lookup_Some in E. apply H3, E.
    - apply okE_filter. exact H4.
    - intros x y E. apply elem_of_filter in E. apply H6, E.
  Qed.
  Lemma escaped_okA m m' : escaped_attrs m m' -> okA m'.
  Proof. intros [_ H] k v E. destruct (H k v E) as (_ & v0 & _ & _ & Ev). exact (EscapeFacts.esc_fixed _ _ _ _ Ev). Qed.
  Lemma good_call c c' s s' r : escaped_call c c' -> spec_call c' s s' r -> good s -> good s'.
  Proof.
    intros E H G. pose proof G as (H1 & H2 & H3 & H4 & H5 & H6).
    assert (F : forall x y, esc x = Some y -> ok y) by (intros x y Ey; exact (EscapeFacts.esc_fixed _ _ _ _ Ey)).
    inversion H; subst; inversion E; subst; try exact G.
    - spl. eapply F; eassumption.
    - spl. intros e He. apply elem_of_app in He. destruct He as [He|He]; [exact (H4 e He)|]. apply elem_of_list_singleton in He. subst e. cbn. split; [eapply F; eassumption|]. split; [eapply F; eassumption|eapply escaped_okA; eassumption].
    - spl. intros e He. apply elem_of_app in He. destruct He as [He|He]; [exact (H4 e He)|]. apply elem_of_list_singleton in He. subst e. cbn. split; [eapply F; eassumption|]. split; [eapply F; eassumption|eapply escaped_okA; eassumption].
    - spl.
      + apply okN_insert; [eapply F; eassumption| |exact H3]. apply okA_union; [eapply escaped_okA; eassumption|apply okA_default; exact H3].
      + apply okR_add; [eapply F; eassumption|eapply F; eassumption|exact H6].
    - apply good_put; [exact G|eapply F; eassumption|]. intros k w Ek. apply lookup_singleton_Some in Ek. destruct Ek as [_ <-]. eapply F; eassumption.
    - apply good_put; [apply good_open; [exact G|eapply F; eassumption|eapply F; eassumption]|eapply F; eassumption|eapply escaped_okA; eassumption].
    - apply good_put; [apply good_open; [exact G|eapply F; eassumption|eapply F; eassumption]|eapply F; eassumption|].
      match goal with Hs : _ ⊆ _ |- _ => intros k w Ek; eapply lookup_weaken in Ek; [|exact Hs]; eapply escaped_okA in Ek; [exact Ek|eassumption] end.
    - apply good_drop. exact G.
    - destruct (good_drop s p N G) as (G1 & G2 & G3 & G4 & G5 & G6). cbv zeta. spl.
      + apply okE_filter. exact G4.
      + intros x a Ex. apply lookup_delete_Some in Ex. apply G5, Ex.
      + intros x y Ex. apply elem_of_difference in Ex. apply G6, Ex.
    - apply good_drop. exact G.
  Qed.
  Theorem C42_escaped_form : forall g n, esc_reachable g -> mentions (view g) n -> esc n = Some n.
  Proof.
    intros g n R M. assert (G : good (view g)).
    { clear M. induction R as [|g oe o c g' r R IH Foe Fo E].
      - rewrite view_new. split; [reflexivity|]. split; [apply okA_empty|]. split; [intros x a H; cbn in H; rewrite lookup_empty in H; discriminate|].
        split; [intros e H; inversion H|]. split; [intros x a H; cbn in H; rewrite lookup_empty in H; discriminate|intros p c H; cbn in H; set_solver].
      - destruct (C42_delegates _ _ _ _ _ _ Foe E) as (c' & Ec & E'). pose proof (PropsGraph.C23_refinement_step o c' g Fo (C42_reachable g R)) as S. rewrite E' in S. cbn [fst snd] in S.
        eapply good_call; eassumption. }
    destruct G as (H1 & H2 & H3 & H4 & H5 & H6).
    destruct M as [->|[[k M]|[[a M]|[(x & a & M & k & Mk)|[(e & M & [->|[->|[k Mk]]])|[[a M]|[(x & a & M & k & Mk)|(x & [M|M])]]]]]]].
    - exact H1.
    - eapply H2; exact M.
    - exact (proj1 (H3 _ _ M)).
    - eapply (proj2 (H3 x a M)); exact Mk.
    - exact (proj1 (H4 _ M)).
    - exact (proj1 (proj2 (H4 _ M))).
    - eapply (proj2 (proj2 (H4 e M))); exact Mk.
    - exact (proj1 (H5 _ _ M)).
    - eapply (proj2 (H5 x a M)); exact Mk.
    - exact (proj1 (H6 _ _ M)).
    - exact (proj2 (H6 _ _ M)).
  Qed.

  (** IsNode and IsSubGraph after AddNode and AddSubGraph, under any spelling. *)
  Theorem C42_is_node : forall oe o p n n2 m g g', fair oe -> fair o -> esc_reachable g ->
    esc_exec oe o (CAddNode p n m) g = Some (g', None) -> esc n2 = esc n -> esc_is_node uletter udigit g' n2 = Some true.
  Proof.
    intros oe o p n n2 m g g' Foe Fo R E En. destruct (C42_delegates _ _ _ _ _ _ Foe E) as (c' & Ec & E'). pose proof (PropsGraph.C23_refinement_step o c' g Fo (C42_reachable g R)) as S. inversion Ec; subst. rewrite E' in S. cbn [fst snd] in S. remember (view g') as s2 eqn:E2. inversion S; subst.
    unfold esc_is_node. rewrite En. match goal with H : esc n = Some _ |- _ => rewrite H end. cbn [bindo]. f_equal. apply PropsGraph.C23_queries. unfold s_is_node.
    match goal with H : s_put_node _ _ _ _ = view g' |- _ => rewrite <- H end. cbn. rewrite lookup_insert. eauto.
  Qed.
  Theorem C42_is_subgraph : forall oe o p n n2 m g g', fair oe -> fair o -> esc_reachable g ->
    esc_exec oe o (CAddSubGraph p n m) g = Some (g', None) -> esc n2 = esc n -> esc_is_subgraph uletter udigit g' n2 = Some true.
  Proof.
    intros oe o p n n2 m g g' Foe Fo R E En. destruct (C42_delegates _ _ _ _ _ _ Foe E) as (c' & Ec & E'). pose proof (PropsGraph.C23_refinement_step o c' g Fo (C42_reachable g R)) as S. inversion Ec; subst. rewrite E' in S. cbn [fst snd] in S. remember (view g') as s2 eqn:E2. inversion S; subst.
    unfold esc_is_subgraph. rewrite En. match goal with H : esc n = Some _ |- _ => rewrite H in *; cbn [bindo] end. f_equal. apply PropsGraph.C23_queries. unfold s_is_sub.
    match goal with H : s_put_attrs _ _ _ = view g' |- _ => rewrite <- H end. unfold s_put_attrs. destruct (decide _) as [D|D]; cbn; rewrite lookup_insert; eauto.
  Qed.
  (** A name and its escaped form are interchangeable. *)
  Theorem C42_spellings : forall n t, esc n = Some t -> esc t = esc n.
  Proof. intros n t E. rewrite E. exact (EscapeFacts.esc_fixed _ _ _ _ E). Qed.
End C42.
Print Assumptions C42_delegates.
Print Assumptions C42_panics.
Print Assumptions C42_valid_attrs.
Print Assumptions C42_reachable.
Print Assumptions C42_escaped_form.
Print Assumptions C42_is_node.
Print Assumptions C42_is_subgraph.
Print Assumptions C42_spellings.

(** ** Examples *)
(** AddNode("G", "a b"), AddNode("G", "\"a b\""), AddEdge("a b", "-5") with an attribute. *)
Definition hist : list call :=
  [CSetName (lit "G"); CAddNode (lit "G") (lit "a b") ∅; CAddNode (lit "G") (quoted (lit "a b")) (A [(lit "label", lit "x & y")]);
   CAddEdge (lit "a b") (lit "-5") true (A [(lit "color", lit "#ff0000")]); CAddSubGraph (lit "G") (lit "<b>") ∅].
Fixpoint esc_run (h : list call) (g : agraph) : option agraph :=
  match h with [] => Some g | c :: h' => match esc_exec PropsEscape.none PropsEscape.none o_id o_id c g with Some (g', _) => esc_run h' g' | None => None end end.
Definition ge : agraph := match esc_run hist new_graph with Some g => g | None => new_graph end.
Lemma esc_run_reachable h : forall g g', esc_reachable PropsEscape.none PropsEscape.none g -> esc_run h g = Some g' -> esc_reachable PropsEscape.none PropsEscape.none g'.
Proof.
  induction h as [|c h IH]; intros g g' R E; cbn in E; [injection E as <-; exact R|]. destruct (esc_exec _ _ _ _ c g) as [[g1 r]|] eqn:E1; [|discriminate].
  apply (IH g1 g'); [|exact E]. eapply esc_call; [exact R| | |exact E1]; apply PropsGraph.fair_id.
Qed.
Lemma ge_run : esc_run hist new_graph = Some ge.
Proof.
  unfold ge. destruct (esc_run hist new_graph) eqn:E; [reflexivity|]. exfalso. revert E. 
  assert (B : (match esc_run hist new_graph with Some _ => true | None => false end) = true) by (vm_compute; reflexivity).
  destruct (esc_run hist new_graph); [discriminate|discriminate B].
Qed.
Example C42_example : esc_reachable PropsEscape.none PropsEscape.none ge /\
  map (fun p => node_name (deref (g_nodes ge) p)) (nodes_list (g_nodes ge)) = [quoted (lit "a b")] /\
  map_to_list (node_attrs (deref (g_nodes ge) 0)) = [(lit "label", quoted (lit "x &amp; y"))] /\
  map (fun e => (e_src e, e_dst e)) (edges_list (g_edges ge)) = [(quoted (lit "a b"), lit "-5")] /\
  esc_is_node PropsEscape.none PropsEscape.none ge (lit "a b") = Some true /\ esc_is_subgraph PropsEscape.none PropsEscape.none ge (lit "<b>") = Some true.
Proof. split; [apply (esc_run_reachable hist new_graph); [constructor|exact ge_run]|]. vm_compute. repeat split. Qed.

(** RemoveNode and RemoveSubGraph are the methods of Graph: they do not escape.  A node that IsNode finds
    under the name it was added with cannot be removed under that name. *)
Theorem C42_remove_refuted : exists g n, esc_reachable PropsEscape.none PropsEscape.none g /\
  esc_is_node PropsEscape.none PropsEscape.none g n = Some true /\
  forall oe o, exists e, esc_exec PropsEscape.none PropsEscape.none oe o (CRemoveNode (lit "G") n) g = Some (g, Some e).
Proof.
  assert (R : esc_reachable PropsEscape.none PropsEscape.none ge) by (apply (esc_run_reachable hist new_graph); [constructor|exact ge_run]).
  exists ge, (lit "a b"). split; [exact R|]. split; [vm_compute; reflexivity|]. intros oe o. cbn [esc_exec exec].
  pose proof (PropsGraph.C18_remove_unknown ge (lit "G") (lit "a b") (C42_reachable _ _ _ R) ltac:(vm_compute; reflexivity)) as He. eexists. rewrite He. reflexivity.
Qed.
Print Assumptions C42_remove_refuted.
