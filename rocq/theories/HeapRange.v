(** Removing nodes while ranging over the slice of nodes. *)
From Verif Require Import Maps Graph SpecGraph MapFacts GraphProofs HeapGraph SpecHeap HeapProofs HeapSnap.
From Coq Require Import Lia.

Definition name_at (h : heap) (p : nat) : gostr := no_name (at_node h p).
(** *** What Nodes.Remove does to the slice *)
Lemma remove_loop_found h ns x : forall pre i p post, Forall (fun q => name_at h q <> x) pre -> name_at h p = x ->
  h_nodes_remove_loop h ns x i (pre ++ p :: post) =
    (with_narrs h (cut_out (narrs h) (hn_nodes ns) (i + length pre)).1,
     HNodes (delete x (hn_lookup ns)) (cut_out (narrs h) (hn_nodes ns) (i + length pre)).2, None).
Proof.
  induction pre as [|q pre IH]; intros i p post F E; cbn [app h_nodes_remove_loop length].
  - unfold name_at in E. rewrite E, (proj2 (str_eqb_eq x x) eq_refl). rewrite Nat.add_0_r. by destruct (cut_out _ _ _).
  - apply Forall_cons in F as [F1 F2]. unfold name_at in F1. rewrite (proj2 (str_eqb_neq _ _) F1). rewrite IH by done. by rewrite Nat.add_succ_r, Nat.add_succ_l.
Qed.
Lemma remove_loop_missing h ns x : forall ps i, Forall (fun q => name_at h q <> x) ps ->
  h_nodes_remove_loop h ns x i ps = (h, ns, Some (lit "node " ++ x ++ lit " not found")).
Proof.
  induction ps as [|q ps IH]; intros i F; cbn [h_nodes_remove_loop]; [done|].
  apply Forall_cons in F as [F1 F2]. unfold name_at in F1. rewrite (proj2 (str_eqb_neq _ _) F1). by apply IH.
Qed.
(** Edges are filtered without touching nodes. *)
Lemma filter_keeps grow keep h ps : exists s, (h_filter_edges grow keep h ps).1 = with_earrs h s.
Proof.
  unfold h_filter_edges, h_new_edges, alloc. set (s0 := Store _ _).
  assert (X : forall ps acc, (exists s, acc.1 = with_earrs h s) ->
    exists s, (fold_left (fun acc p => if keep (at_edge acc.1 p) then h_edges_add grow acc.1 acc.2 p else acc) ps acc).1 = with_earrs h s).
  { induction ps0 as [|p ps0 IH]; intros acc [s E]; cbn [fold_left]; [by exists s|]. apply IH. destruct (keep _); [|by exists s].
    unfold h_edges_add. destruct (append1 _ _ _ _) as [s' x]. exists s'. cbn. by rewrite E. }
  apply X. by exists s0.
Qed.
(** The slice of nodes after RemoveNode. *)
Lemma remove_node_slice grow w parent x pre p post :
  elems (narrs w.1) (hn_nodes (hg_nodes w.2)) = pre ++ p :: post -> Forall (fun q => name_at w.1 q <> x) pre -> name_at w.1 p = x ->
  let w' := (h_remove_node grow w parent x).1 in
  narrs w'.1 = (cut_out (narrs w.1) (hn_nodes (hg_nodes w.2)) (length pre)).1 /\
  hn_nodes (hg_nodes w'.2) = (cut_out (narrs w.1) (hn_nodes (hg_nodes w.2)) (length pre)).2 /\ nobjs w'.1 = nobjs w.1.
Proof.
  destruct w as [h g]. cbn [fst snd]. intros E F N. unfold h_remove_node, h_nodes_remove. rewrite E.
  rewrite (remove_loop_found h (hg_nodes g) x pre 0 p post F N). cbn [Nat.add].
  set (keep := fun e : eobj => _). set (h1 := with_narrs h _). destruct (filter_keeps grow keep h1 (elems (earrs h1) (he_edges (hg_edges g)))) as [s S].
  destruct (h_filter_edges grow keep h1 (elems (earrs h1) (he_edges (hg_edges g)))) as [h2 es]. cbn [fst snd] in *. by rewrite S.
Qed.
Lemma remove_node_missing grow w parent x : Forall (fun q => name_at w.1 q <> x) (elems (narrs w.1) (hn_nodes (hg_nodes w.2))) ->
  (h_remove_node grow w parent x).1 = w.
Proof.
  destruct w as [h g]. cbn [fst snd]. intros F. unfold h_remove_node, h_nodes_remove. rewrite remove_loop_missing by done. cbn. by destruct g.
Qed.

(** *** The loop *)
Fixpoint survive {A} (ks r : list A) : list A :=
  match r with
  | _ :: q :: r' => survive (ks ++ [q]) r'
  | [_] => ks
  | [] => removelast ks
  end.
Lemma survive_survivors {A} (r : list A) : forall ks, r <> [] -> survive ks r = ks ++ survivors r.
Proof.
  assert (X : forall n (r : list A), length r <= n -> forall ks, r <> [] -> survive ks r = ks ++ survivors r).
  { induction n as [|n IH]; intros [|a [|b [|c r']]] L ks N; cbn [length] in L; try lia; try done.
    - cbn. by rewrite app_nil_r.
    - cbn. by rewrite removelast_last, app_nil_r.
    - change (survive (ks ++ [b]) (c :: r') = ks ++ b :: survivors (c :: r')). rewrite IH; [|cbn; lia|done]. by rewrite <- (assoc_L (++)). }
  intros ks. by apply (X (length r)).
Qed.
Section Loop.
  Context (grow : nat -> nat) (parent : gostr) (arr n z : nat).
  Definition y : slice := Slice arr n.
  (** The array holds [l], then junk: the last node again and again, up to index [n]. *)
  Definition holds (w : world) (l : list nat) : Prop :=
    sl_arr (hn_nodes (hg_nodes w.2)) = arr /\ sl_len (hn_nodes (hg_nodes w.2)) = length l /\ length l <= n /\
    exists junk, array (narrs w.1) arr = l ++ replicate (n - length l) z ++ junk.
  Lemma holds_elems w l : holds w l -> elems (narrs w.1) (hn_nodes (hg_nodes w.2)) = l.
  Proof. intros (H1 & H2 & H3 & junk & H4). unfold elems. rewrite H1, H2, H4. apply take_app. Qed.
  Lemma holds_remove w l pre p post : holds w l -> l = pre ++ p :: post -> last l = Some z ->
    Forall (fun q => name_at w.1 q <> name_at w.1 p) pre ->
    let w' := (h_remove_node grow w parent (name_at w.1 p)).1 in holds w' (pre ++ post) /\ nobjs w'.1 = nobjs w.1.
  Proof.
    intros H E L F w'. pose proof (holds_elems w l H) as EL. pose proof H as (H1 & H2 & H3 & junk & H4). rewrite E in EL.
    destruct (remove_node_slice grow w parent (name_at w.1 p) pre p post EL F eq_refl) as (A1 & A2 & A3). fold w' in A1, A2, A3.
    split; [|done]. assert (LL : length l = S (length (pre ++ post))) by (rewrite E, !app_length; cbn; lia).
    unfold holds. rewrite A1, A2. unfold cut_out; cbn. rewrite H1. split; [done|]. split; [rewrite H2, LL; lia|]. split; [lia|].
    exists junk. unfold array at 1; cbn. rewrite lookup_insert; cbn. rewrite EL, H4, H2.
    assert (T : take (length pre) (l ++ replicate (n - length l) z ++ junk) = pre).
    { rewrite E, <- (assoc_L (++)). apply take_app. }
    assert (D : drop (S (length pre)) (pre ++ p :: post) = post).
    { rewrite cons_middle, (assoc_L (++)). apply drop_app_alt. rewrite app_length. cbn. lia. }
    assert (J : drop (length l - 1) (l ++ replicate (n - length l) z ++ junk) = replicate (n - length (pre ++ post)) z ++ junk).
    { apply last_Some in L as [l' ->]. rewrite app_length. cbn [length]. rewrite Nat.add_sub, <- (assoc_L (++)), drop_app.
      rewrite app_length in LL. cbn in LL. assert (LE : length l' = length (pre ++ post)) by lia.
      rewrite LE. replace (n - length (pre ++ post)) with (S (n - (length (pre ++ post) + 1))).
      - done.
      - rewrite app_length in H3. cbn in H3. lia. }
    rewrite T, D, J. by rewrite (assoc_L (++)).
  Qed.
  Lemma holds_missing w l : holds w l -> Forall (fun q => name_at w.1 q <> name_at w.1 z) l ->
    (h_remove_node grow w parent (name_at w.1 z)).1 = w.
  Proof. intros H F. apply remove_node_missing. by rewrite (holds_elems w l H). Qed.
  Lemma holds_read w l i : holds w l -> length l <= i -> i < n -> default 0 (array (narrs w.1) arr !! i) = z.
  Proof.
    intros (_ & _ & _ & junk & H4) L N. rewrite H4. rewrite lookup_app_r by done. rewrite lookup_app_l by (rewrite replicate_length; lia).
    by rewrite lookup_replicate_2 by lia.
  Qed.
  (** Once the last node is removed nothing happens any more. *)
  Lemma loop_over k : forall w i l, i + k = n -> holds w l -> length l <= i -> Forall (fun q => name_at w.1 q <> name_at w.1 z) l ->
    range_remove grow parent y i k w = w.
  Proof.
    induction k as [|k IH]; intros w i l K H L F; cbn [range_remove]; [done|]. cbn [y sl_arr].
    rewrite (holds_read w l i H L) by lia. fold (name_at w.1 z). rewrite (holds_missing w l H F). by eapply (IH w (S i) l); [lia|done|lia|].
  Qed.
  Lemma name_nobjs (w w' : world) q : nobjs w'.1 = nobjs w.1 -> name_at w'.1 q = name_at w.1 q.
  Proof. intros E. unfold name_at, at_node. by rewrite E. Qed.
  Lemma loop_spec k : forall w ks r, length ks + k = n -> holds w (ks ++ r) -> NoDup (map (name_at w.1) (ks ++ r)) ->
    (ks ++ r = [] \/ last (ks ++ r) = Some z) -> 2 * length ks + length r = n ->
    holds (range_remove grow parent y (length ks) k w) (survive ks r) /\ nobjs (range_remove grow parent y (length ks) k w).1 = nobjs w.1.
  Proof.
    induction k as [|k IH]; intros w ks r K H ND L LK.
    - assert (r = [] /\ ks = []) as [-> ->] by (destruct r, ks; cbn in *; try lia; done). done.
    - assert (NN : last (ks ++ r) = Some z).
      { destruct L as [L|L]; [|done]. apply app_eq_nil in L as [-> ->]. cbn in *. lia. }
      assert (DISJ : forall pre p post, ks ++ r = pre ++ p :: post -> Forall (fun q => name_at w.1 q <> name_at w.1 p) (pre ++ post)).
      { intros pre p post E. rewrite E in ND. rewrite map_app in ND. cbn in ND. apply NoDup_app in ND as (N1 & N2 & N3). apply NoDup_cons in N3 as [N3 N4].
        apply Forall_forall. intros q Q EQ. apply elem_of_app in Q as [Q|Q].
        - apply (N2 (name_at w.1 q)); [by apply elem_of_list_fmap_1|]. rewrite EQ. left.
        - apply N3. rewrite <- EQ. by apply elem_of_list_fmap_1. }
      cbn [range_remove]. cbn [y sl_arr]. fold y.
      destruct r as [|p [|q r']].
      + (* all that is left was kept: the last one goes *)
        rewrite app_nil_r in *. rewrite (holds_read w ks (length ks) H) by lia. fold (name_at w.1 z).
        apply last_Some in NN as [ks' ->]. assert (FD := DISJ ks' z [] eq_refl). rewrite app_nil_r in FD.
        destruct (holds_remove w (ks' ++ [z]) ks' z [] H eq_refl) as [H' E']; [apply last_snoc|done|]. rewrite app_nil_r in H'.
        rewrite (loop_over k _ _ ks').
        * cbn [survive]. rewrite removelast_last. done.
        * lia.
        * done.
        * rewrite app_length. lia.
        * eapply Forall_impl; [exact FD|]. cbn. intros q Q. by rewrite !(name_nobjs w _ _ E').
      + (* one after the kept ones *)
        assert (p = z) as -> by (rewrite last_snoc in NN; congruence).
        assert (RD : default 0 (array (narrs w.1) arr !! length ks) = z).
        { destruct H as (_ & _ & _ & junk & H4). rewrite H4, <- (assoc_L (++)). rewrite lookup_app_r by done. by rewrite Nat.sub_diag. }
        rewrite RD. fold (name_at w.1 z). assert (FD := DISJ ks z [] eq_refl). rewrite app_nil_r in FD.
        destruct (holds_remove w (ks ++ [z]) ks z [] H eq_refl) as [H' E']; [apply last_snoc|done|]. rewrite app_nil_r in H'.
        rewrite (loop_over k _ _ ks).
        * done.
        * lia.
        * done.
        * lia.
        * eapply Forall_impl; [exact FD|]. cbn. intros q Q. by rewrite !(name_nobjs w _ _ E').
      + assert (RD : default 0 (array (narrs w.1) arr !! length ks) = p).
        { destruct H as (_ & _ & _ & junk & H4). rewrite H4, <- (assoc_L (++)). rewrite lookup_app_r by done. by rewrite Nat.sub_diag. }
        rewrite RD. fold (name_at w.1 p). assert (FD := DISJ ks p (q :: r') eq_refl).
        destruct (holds_remove w (ks ++ p :: q :: r') ks p (q :: r') H eq_refl) as [H' E']; [done|by apply Forall_app in FD as [FD _]|].
        set (w' := (h_remove_node grow w parent (name_at w.1 p)).1) in *.
        assert (EK : S (length ks) = length (ks ++ [q])) by (rewrite app_length; cbn; lia). rewrite EK.
        assert (EA : (ks ++ [q]) ++ r' = ks ++ q :: r') by (by rewrite <- (assoc_L (++))).
        change (survive ks (p :: q :: r')) with (survive (ks ++ [q]) r'). rewrite <- E'. apply IH.
        * rewrite app_length. cbn. lia.
        * by rewrite EA.
        * rewrite EA. assert (EM : map (name_at w'.1) (ks ++ q :: r') = map (name_at w.1) (ks ++ q :: r')) by (apply map_ext; intros; by apply name_nobjs).
          rewrite EM. rewrite map_app in *. cbn [map] in *. apply NoDup_app in ND as (N1 & N2 & N3). apply NoDup_cons in N3 as [N3 N4].
          apply NoDup_app. split; [done|]. split; [|done]. intros x X1 X2. apply (N2 x X1). by right.
        * right. rewrite EA. rewrite last_app in *. cbn [last] in *. destruct r'; done.
        * rewrite app_length. cbn [length] in *. lia.
  Qed.
End Loop.
Lemma remove_all_spec grow parent w : inv w -> nodes_ok (g_nodes (abs w)) ->
  names_seen (remove_all_loop grow parent w).1 (hn_nodes (hg_nodes (remove_all_loop grow parent w).2)) =
  survivors (names_seen w.1 (hn_nodes (hg_nodes w.2))).
Proof.
  intros I OK. unfold remove_all_loop. destruct (hn_nodes (hg_nodes w.2)) as [arr n] eqn:EY. cbn [sl_len].
  set (l := elems (narrs w.1) (Slice arr n)).
  assert (LN : length l = n).
  { pose proof (wn_slice _ _ (i_nodes _ I)) as [_ W]. rewrite EY in W. cbn in W. unfold l, elems. cbn. rewrite take_length. lia. }
  assert (ND : NoDup (map (name_at w.1) l)).
  { pose proof (oview_nodup _ OK) as N. unfold oview in N. destruct w as [h g]. cbn [fst snd] in *. cbn in N. rewrite EY in N. fold l in N.
    assert (E : map (name_at h) l = map (fun p => node_name (deref (abs_nodes h (hg_nodes g)) p)) l).
    { apply map_ext_Forall. pose proof (wn_elems _ _ (i_nodes _ I)) as F. cbn [fst snd] in F. rewrite EY in F. fold l in F.
      eapply Forall_impl; [exact F|]. cbn. intros q Q. apply (wh_nobjs _ (i_heap _ I)) in Q as [x X]. cbn in X.
      rewrite (deref_abs _ _ _ _ X). unfold name_at, at_node. by rewrite X. }
    by rewrite E. }
  assert (HD : holds arr n (default 0 (last l)) w l).
  { unfold holds. rewrite EY. cbn [sl_arr sl_len]. split; [done|]. split; [done|]. split; [lia|]. exists (drop n (array (narrs w.1) arr)).
    rewrite LN, Nat.sub_diag. cbn. unfold l, elems. cbn. by rewrite take_drop. }
  destruct (loop_spec grow parent arr n (default 0 (last l)) n w [] l) as [H1 H2]; [done|done|done| |by rewrite LN|].
  { destruct l as [|a l0] eqn:El; [by left|right]. cbn [app]. destruct (last (a :: l0)) eqn:La; [done|]. apply last_None in La. done. }
  cbn [length] in *. set (w' := range_remove grow parent (y arr n) 0 n w) in *. change (y arr n) with (Slice arr n) in w'.
  change (map (name_at w'.1) (elems (narrs w'.1) (hn_nodes (hg_nodes w'.2))) = survivors (map (name_at w.1) l)).
  rewrite (holds_elems _ _ _ _ _ H1).
  assert (EM : map (name_at w'.1) (survive [] l) = map (name_at w.1) (survive [] l)) by (apply map_ext; intros; unfold name_at, at_node; by rewrite H2).
  rewrite EM.
  assert (ES : survive [] l = survivors l).
  { destruct l as [|a l0]; [done|]. by rewrite survive_survivors. }
  rewrite ES.
  assert (X : forall m (l : list nat), length l <= m -> map (name_at w.1) (survivors l) = survivors (map (name_at w.1) l)).
  { induction m as [|m IH]; intros [|a [|b [|c r]]] L; cbn [length] in L; try lia; try done.
    cbn [survivors map]. f_equal. apply (IH (c :: r)). cbn. lia. }
  by apply (X (length l)).
Qed.
