(** Proofs for C75: histories; the order of names made from draws. *)
From Verif Require Import Base Maps MapFacts Graph SpecGraph GraphProofs SpecWrite LexSpec SpecGrammar SpecLabel SpecDraw LabelProofs.
From Verif Require LabelWrite.

Lemma spec_ports c s s' r q : spec_call c s s' r -> q ∈ edge_ports s' -> q ∈ edge_ports s \/ q ∈ call_ports c.
Proof.
  intros H K. unfold edge_ports in K. apply elem_of_list_In, in_flat_map in K. destruct K as (e & He & K). apply elem_of_list_In in He.
  assert (L : e ∈ s_edges s -> q ∈ edge_ports s \/ q ∈ call_ports c).
  { intros X. left. unfold edge_ports. apply elem_of_list_In, in_flat_map. exists e. split; [apply elem_of_list_In; exact X|exact K]. }
  destruct H; try exact (L He); cbn [call_ports].
  - cbn in He. apply elem_of_app in He. destruct He as [He|He]; [exact (L He)|]. apply elem_of_list_singleton in He. subst. right. apply elem_of_list_In. exact K.
  - cbn in He. apply elem_of_app in He. destruct He as [He|He]; [exact (L He)|]. apply elem_of_list_singleton in He. subst. right. apply elem_of_list_In.
    cbn in K. destruct K as [<-|[<-|[]]]; left; reflexivity.
  - assert (E : forall s n m, s_edges (s_put_attrs s n m) = s_edges s) by (intros; unfold s_put_attrs; destruct (decide _); reflexivity). rewrite E in He. exact (L He).
  - assert (E : forall s n m, s_edges (s_put_attrs s n m) = s_edges s) by (intros; unfold s_put_attrs; destruct (decide _); reflexivity). rewrite E in He. exact (L He).
  - assert (E : forall s n m, s_edges (s_put_attrs s n m) = s_edges s) by (intros; unfold s_put_attrs; destruct (decide _); reflexivity). rewrite E in He. exact (L He).
  - cbn in He. apply elem_of_list_filter in He. exact (L (proj2 He)).
  - cbn in He. apply elem_of_list_filter in He. destruct He as [_ He]. apply elem_of_list_filter in He. exact (L (proj2 He)).
  - cbn in He. apply elem_of_list_filter in He. exact (L (proj2 He)).
Qed.

Lemma clear_step nm pt c cs s s' r : spec_call c s s' r -> ports_clear nm pt s (c :: cs) -> ports_apart nm pt c s /\ ports_clear nm pt s' cs.
Proof.
  intros H C. split.
  - destruct c; try exact I. intros e He.
    assert (K : forall q, q = e_src_port e \/ q = e_dst_port e -> pt q = nm name <-> q = name).
    { intros q Hq. apply (C parent name q); [left|]. apply elem_of_app. left. apply elem_of_list_In, in_flat_map. exists e. split; [apply elem_of_list_In; exact He|]. cbn. destruct Hq; auto. }
    split; apply K; auto.
  - intros p n q Hc Hq. apply (C p n q); [right; exact Hc|]. apply elem_of_app in Hq. apply elem_of_app. destruct Hq as [Hq|Hq].
    + destruct (spec_ports _ _ _ _ _ H Hq); [auto|]. right. cbn. apply elem_of_app. auto.
    + right. cbn. apply elem_of_app. auto.
Qed.

(** ** The order of names that begin with "anon" *)
Lemma ltb_prefix (p : gostr) : forall x d d', ~ (exists t, x = p ++ t) -> str_ltb x (p ++ d) = str_ltb x (p ++ d') /\ str_ltb (p ++ d) x = str_ltb (p ++ d') x.
Proof.
  induction p as [|a p IH]; intros x d d' N; [destruct N; exists x; reflexivity|]. destruct x as [|b x]; [split; reflexivity|]. cbn.
  destruct (N.ltb_spec (bv b) (bv a)) as [E1|E1]; destruct (N.ltb_spec (bv a) (bv b)) as [E2|E2]; try (split; reflexivity).
  apply IH. intros [t ->]. apply N. exists t. cbn. f_equal. apply bv_inj. lia.
Qed.
Lemma order_kept_draws nm rnd rnd' k k' n (s : sgraph) : swaps_draws nm rnd rnd' k k' n ->
  (forall i j, i < n -> j < n -> before (anon (rnd (k + i))) (anon (rnd (k + j))) -> before (anon (rnd' (k' + i))) (anon (rnd' (k' + j)))) ->
  (forall x t, known s x -> x = lit "anon" ++ t -> exists i, i < n /\ x = anon (rnd (k + i))) ->
  order_kept nm s /\ clusters_kept nm s.
Proof.
  intros (_ & HM & HF) HB HK.
  assert (C : forall x, known s x -> (exists i, i < n /\ x = anon (rnd (k + i))) \/ (nm x = x /\ ~ exists t, x = lit "anon" ++ t)).
  { intros x Kx. assert (D : (exists t, x = lit "anon" ++ t) \/ ~ exists t, x = lit "anon" ++ t).
    { destruct (has_prefix x (lit "anon")) eqn:E; [left; apply LabelWrite.prefix_is; exact E|right; rewrite <- LabelWrite.prefix_is, E; discriminate]. }
    destruct D as [[t E]|D]; [left; eapply HK; eassumption|]. right. split; [|exact D]. apply HF. intros i Hi. split; intros ->; apply D; eexists; reflexivity. }
  split.
  - intros x y Kx Ky B. destruct (C x Kx) as [(i & Li & ->)|[Ex Nx]], (C y Ky) as [(j & Lj & ->)|[Ey Ny]].
    + rewrite !HM by assumption. apply HB; assumption.
    + rewrite HM, Ey by assumption. unfold before, anon in *. rewrite (proj2 (ltb_prefix (lit "anon") y _ (dec_of_N (rnd (k + i))) Ny)). exact B.
    + rewrite HM, Ex by assumption. unfold before, anon in *. rewrite (proj1 (ltb_prefix (lit "anon") x _ (dec_of_N (rnd (k + j))) Nx)). exact B.
    + rewrite Ex, Ey. exact B.
  - intros m Hm. destruct (C m) as [(i & Li & ->)|[Em Nm]]; [right; right; left; exact Hm| |rewrite Em; reflexivity].
    rewrite HM by exact Li. split; intros [t E]; unfold anon in E; cbn in E; discriminate.
Qed.
