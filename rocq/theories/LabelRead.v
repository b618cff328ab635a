(** Proofs for C75: reading the same text with other random draws. *)
From Coq Require Import Ascii DecimalString DecimalN.
From Verif Require Import Base Lexer LexSpec Parser SpecGrammar ParseFacts Maps Graph SpecGraph GraphProofs Analyse SpecAnalyse AnalyseProofs ReadProofs SpecWrite SpecRename SpecLabel SpecDraw LabelProofs LabelAnalyse.
From Verif Require AnonProofs AstFacts ParseFacts.
From Verif Require Import Ast.

(** ** The names made from draws *)
Lemma lit_inj a b : lit a = lit b -> a = b.
Proof. intros H. rewrite <- (String.string_of_list_ascii_of_string a), <- (String.string_of_list_ascii_of_string b). unfold lit in H. rewrite H. reflexivity. Qed.
Lemma anon_inj r r' : anon r = anon r' -> r = r'.
Proof.
  intros H. unfold anon in H. apply app_inv_head in H. unfold dec_of_N in H. apply lit_inj in H.
  apply (f_equal NilEmpty.uint_of_string) in H. rewrite !NilEmpty.usu in H. injection H as H. apply DecimalN.Unsigned.to_uint_inj. exact H.
Qed.
Lemma anon_colon r : ":"%char ∉ anon r.
Proof.
  unfold anon. rewrite not_elem_of_app. split.
  - vm_compute. intros H. repeat (apply elem_of_cons in H; destruct H as [H|H]; [discriminate|]). apply elem_of_nil in H. exact H.
  - intros H. pose proof (AstFacts.dec_digits r) as D. rewrite forallb_forall in D. apply elem_of_list_In in H. apply D in H. vm_compute in H. discriminate.
Qed.

(** ** A permutation that takes one list of names to another *)
Definition swap (a b x : gostr) : gostr := if decide (x = a) then b else if decide (x = b) then a else x.
Lemma swap_l a b : swap a b a = b.
Proof. unfold swap. rewrite decide_True; reflexivity. Qed.
Lemma swap_other a b x : x <> a -> x <> b -> swap a b x = x.
Proof. intros. unfold swap. rewrite !decide_False by assumption. reflexivity. Qed.
Lemma swap_swap a b x : swap a b (swap a b x) = x.
Proof. unfold swap. destruct (decide (x = a)) as [->|N]; [|destruct (decide (x = b)) as [->|N']]; repeat destruct (decide _); congruence. Qed.
Lemma swap_inj a b x y : swap a b x = swap a b y -> x = y.
Proof. intros H. rewrite <- (swap_swap a b x), <- (swap_swap a b y), H. reflexivity. Qed.

Lemma perm_exists (xs : list gostr) : forall ys, length xs = length ys -> NoDup xs -> NoDup ys ->
  exists f : gostr -> gostr, (forall x y, f x = f y -> x = y) /\ (forall i x y, xs !! i = Some x -> ys !! i = Some y -> f x = y) /\
    (forall x, x ∉ xs -> x ∉ ys -> f x = x).
Proof.
  induction xs as [|x xs IH]; intros [|y ys] L N N'; try discriminate.
  - exists (fun z => z). split; [auto|]. split; [intros i ? ? H; destruct i; discriminate|auto].
  - apply NoDup_cons in N. apply NoDup_cons in N'. destruct N as [Nx N], N' as [Ny N'].
    destruct (IH ys) as (f & FI & FM & FO); [cbn in L; lia|exact N|exact N'|].
    exists (fun z => swap (f x) y (f z)). split; [intros a b H; apply swap_inj in H; auto|]. split.
    + intros [|i] a b Ha Hb; cbn in Ha, Hb.
      * injection Ha as <-. injection Hb as <-. apply swap_l.
      * rewrite (FM i a b Ha Hb). apply swap_other.
        -- intros E. rewrite <- (FM i a b Ha Hb) in E. apply FI in E. subst. apply Nx. eapply elem_of_list_lookup_2. exact Ha.
        -- intros ->. apply Ny. eapply elem_of_list_lookup_2. exact Hb.
    + intros z Hx Hy. apply not_elem_of_cons in Hx. apply not_elem_of_cons in Hy. destruct Hx as [Hx1 Hx2], Hy as [Hy1 Hy2].
      rewrite (FO z Hx2 Hy2). apply swap_other; [|exact Hy1]. intros E. rewrite <- (FO z Hx2 Hy2) in E at 1. apply FI in E. contradiction.
Qed.

Definition names_from (rnd : nat -> N) (k n : nat) : list gostr := map (fun i => anon (rnd (k + i))) (seq 0 n).
Lemma names_lookup rnd k n i : i < n -> names_from rnd k n !! i = Some (anon (rnd (k + i))).
Proof. intros H. unfold names_from. rewrite list_lookup_fmap, lookup_seq_lt by exact H. reflexivity. Qed.
Lemma names_in rnd k n x : x ∈ names_from rnd k n <-> exists i, i < n /\ x = anon (rnd (k + i)).
Proof.
  unfold names_from. rewrite elem_of_list_fmap. split.
  - intros (i & -> & H). apply elem_of_seq in H. exists i. split; [lia|reflexivity].
  - intros (i & H & ->). exists i. split; [reflexivity|]. apply elem_of_seq. lia.
Qed.
Lemma names_nodup rnd k n w : draws_clear rnd k n w -> NoDup (names_from rnd k n).
Proof.
  intros [H _]. unfold names_from. apply NoDup_fmap_2_strong; [|apply NoDup_seq]. intros i j Hi Hj E. apply elem_of_seq in Hi. apply elem_of_seq in Hj.
  apply anon_inj in E. destruct (lt_eq_lt_dec i j) as [[L|L]|L]; [|exact L|].
  - exfalso. apply (H i j); [lia|exact E].
  - exfalso. apply (H j i); [lia|congruence].
Qed.
Lemma swaps_exist rnd rnd' k k' n w : draws_clear rnd k n w -> draws_clear rnd' k' n w -> exists nm, swaps_draws nm rnd rnd' k k' n.
Proof.
  intros C C'. destruct (perm_exists (names_from rnd k n) (names_from rnd' k' n)) as (f & FI & FM & FO).
  - unfold names_from. rewrite !map_length. reflexivity.
  - eapply names_nodup; eassumption.
  - eapply names_nodup; eassumption.
  - exists f. split; [exact FI|]. split.
    + intros i H. apply (FM i); apply names_lookup; exact H.
    + intros x H. apply FO; rewrite names_in; intros (i & L & E); destruct (H i L); contradiction.
Qed.

(** ** Derivations *)
Section Draws.
  Variable nm : gostr -> gostr.
  Variables rnd rnd' : nat -> N.
  Variables lo hi lo' : nat.
  Context {HI : Inj (=) (=) nm}.
  Hypothesis HD : forall j, lo <= j < hi -> nm (anon (rnd j)) = anon (rnd' (j - lo + lo')).
  Hypothesis HC : forall x, ":"%char ∈ x -> nm x = x.
  Definition sh (j : nat) : nat := j - lo + lo'.
  Definition fixed (w : word) : Prop := forall l, (ID, l) ∈ w -> nm l = l.
  Notation RS := (ren_stmt nm nm).
  Notation RL := (ren_loc nm nm).

  Lemma fixed_app w w' : fixed (w ++ w') -> fixed w /\ fixed w'.
  Proof. intros H. split; intros l K; apply H; apply elem_of_app; auto. Qed.
  Lemma fixed_cons t w : fixed (t :: w) -> fixed w.
  Proof. intros H l K. apply H. right. exact K. Qed.
  Lemma fixed_head l w : fixed ((ID, l) :: w) -> nm l = l.
  Proof. intros H. apply H. left. Qed.
  Lemma node_ren w n : fixed w -> d_node_id w n -> ren_id nm n = n /\ whole nm n.
  Proof.
    intros F H. assert (E : nm (nid_id n) = nid_id n) by (destruct H; cbn; apply (fixed_head _ _ F)).
    split; [destruct n; unfold ren_id; cbn in *; rewrite E; reflexivity|]. unfold whole. rewrite E.
    destruct H; unfold node_text; cbn in *.
    - rewrite app_nil_r. exact E.
    - destruct p as [|x p]; cbn; [rewrite app_nil_r; exact E|]. apply HC. apply elem_of_app. right. left.
    - destruct p as [|x p]; cbn; [rewrite app_nil_r; exact E|]. destruct q; apply HC; apply elem_of_app; right; left.
  Qed.

  Lemma d_le :
    (forall w s k k', d_stmt rnd w s k k' -> k <= k') /\ (forall w l k k', d_loc rnd w l k k' -> k <= k') /\
    (forall w r k k', d_rhs rnd w r k k' -> k <= k') /\ (forall w g k k', d_sub rnd w g k k' -> k <= k') /\
    (forall w l k k', d_body rnd w l k k' -> k <= k') /\ (forall w l k k', d_stmts rnd w l k k' -> k <= k').
  Proof. apply d_mut; intros; lia. Qed.
  Definition le_loc := proj1 (proj2 d_le).
  Definition le_rhs := proj1 (proj2 (proj2 d_le)).
  Definition le_stmt := proj1 d_le.
  Definition le_stmts := proj2 (proj2 (proj2 (proj2 (proj2 d_le)))).
  Definition le_body := proj1 (proj2 (proj2 (proj2 (proj2 d_le)))).

  Lemma wholes_nil : wholes nm [].
  Proof. intros n a H. inversion H; subst; match goal with K : _ ∈ [] |- _ => destruct (not_elem_of_nil _ K) end. Qed.
  Lemma wholes_cons s l : wholes nm [s] -> wholes nm l -> wholes nm (s :: l).
  Proof.
    intros W W' n a H. inversion H as [? ? K|? ? ? ? K|? ? ? ? ? ? K|? ? ? ? ? ? ? ? K]; subst; apply elem_of_cons in K; destruct K as [K|K].
    - apply (W n a). apply In_here. rewrite K. left.
    - apply (W' n a). apply In_here. exact K.
    - apply (W n a). eapply In_sub; [rewrite <- K; left|eassumption].
    - apply (W' n a). eapply In_sub; eassumption.
    - apply (W n a). eapply In_src; [rewrite <- K; left|eassumption].
    - apply (W' n a). eapply In_src; eassumption.
    - apply (W n a). eapply In_dst; [rewrite <- K; left|eassumption|eassumption].
    - apply (W' n a). eapply In_dst; eassumption.
  Qed.
  Lemma wholes_node n a : whole nm n -> wholes nm [SNode n a].
  Proof. intros H n' a' K. inversion K as [? ? E|? ? ? ? E|? ? ? ? ? ? E|? ? ? ? ? ? ? ? E]; subst; apply elem_of_list_singleton in E; congruence. Qed.
  Lemma wholes_edge l r a : wholes_loc nm l -> Forall (fun e => wholes_loc nm (dst_of e)) r -> wholes nm [SEdge l r a].
  Proof.
    intros W W' n' a' K. inversion K as [? ? E|? ? ? ? E|? ? ? ? ? ? E ?|? ? ? ? ? ? ? ? E R]; subst; apply elem_of_list_singleton in E; try discriminate.
    - injection E as <- <- <-. apply (W n' a'). assumption.
    - injection E as <- <- <-. rewrite Forall_forall in W'. apply (W' _ R n' a'). assumption.
  Qed.
  Lemma wholes_sub g : wholes_loc nm (LSub g) -> wholes nm [SSub g].
  Proof.
    intros W n' a' K. inversion K as [? ? E|? ? ? ? E|? ? ? ? ? ? E ?|? ? ? ? ? ? ? ? E R]; subst; apply elem_of_list_singleton in E; try discriminate.
    injection E as <-. apply (W n' a'). assumption.
  Qed.
  Lemma wholes_other s : (match s with SNode _ _ | SEdge _ _ _ | SSub _ => False | _ => True end) -> wholes nm [s].
  Proof.
    intros W n' a' K. inversion K as [? ? E|? ? ? ? E|? ? ? ? ? ? E ?|? ? ? ? ? ? ? ? E R]; subst; apply elem_of_list_singleton in E; subst; destruct W.
  Qed.

  Lemma d_ren :
    (forall w s k k', d_stmt rnd w s k k' -> fixed w -> lo <= k -> k' <= hi -> d_stmt rnd' w (RS s) (sh k) (sh k') /\ wholes nm [s]) /\
    (forall w l k k', d_loc rnd w l k k' -> fixed w -> lo <= k -> k' <= hi -> d_loc rnd' w (RL l) (sh k) (sh k') /\ wholes_loc nm l) /\
    (forall w r k k', d_rhs rnd w r k k' -> fixed w -> lo <= k -> k' <= hi -> d_rhs rnd' w (map (ren_rh nm nm) r) (sh k) (sh k') /\ Forall (fun e => wholes_loc nm (dst_of e)) r) /\
    (forall w g k k', d_sub rnd w g k k' -> fixed w -> lo <= k -> k' <= hi -> d_sub rnd' w (ren_tree nm nm g) (sh k) (sh k') /\ wholes_loc nm (LSub g)) /\
    (forall w l k k', d_body rnd w l k k' -> fixed w -> lo <= k -> k' <= hi -> d_body rnd' w (map RS l) (sh k) (sh k') /\ wholes nm l) /\
    (forall w l k k', d_stmts rnd w l k k' -> fixed w -> lo <= k -> k' <= hi -> d_stmts rnd' w (map RS l) (sh k) (sh k') /\ wholes nm l).
  Proof.
    apply d_mut.
    - intros. split; [cbn; constructor|apply wholes_other; exact I].
    - intros w n wa a k Hn Ha F _ _. apply fixed_app in F. destruct (node_ren w n (proj1 F) Hn) as [E W]. cbn. rewrite E. split; [constructor; assumption|apply wholes_node; exact W].
    - intros w l w1 r wa a k k1 k2 D1 IH1 D2 IH2 Ha F L1 L2. apply fixed_app in F. destruct F as [F1 F]. apply fixed_app in F. destruct F as [F2 F3].
      pose proof (le_loc _ _ _ _ D1). pose proof (le_rhs _ _ _ _ D2).
      destruct IH1 as [A1 W1]; [exact F1|lia|lia|]. destruct IH2 as [A2 W2]; [exact F2|lia|lia|]. cbn. split; [econstructor; eassumption|apply wholes_edge; assumption].
    - intros. split; [cbn; constructor; assumption|apply wholes_other; exact I].
    - intros. split; [cbn; constructor; assumption|apply wholes_other; exact I].
    - intros. split; [cbn; constructor; assumption|apply wholes_other; exact I].
    - intros w g k k1 D IH F L1 L2. destruct (IH F L1 L2) as [A W]. cbn. split; [constructor; exact A|apply wholes_sub; exact W].
    - intros w n k Hn F _ _. destruct (node_ren w n F Hn) as [E W]. cbn. rewrite E. split; [constructor; assumption|exact I].
    - intros w g k k1 D IH F L1 L2. destruct (IH F L1 L2) as [A W]. cbn [ren_loc]. split; [constructor; exact A|exact W].
    - intros o b w l k k1 Ho D IH F L1 L2. destruct (IH (fixed_cons _ _ F) L1 L2) as [A W]. cbn. split; [constructor; assumption|constructor; [exact W|constructor]].
    - intros o b w l w' r k k1 k2 Ho D1 IH1 D2 IH2 F L1 L2. apply fixed_cons, fixed_app in F. destruct F as [F1 F2].
      pose proof (le_loc _ _ _ _ D1). pose proof (le_rhs _ _ _ _ D2).
      destruct IH1 as [A1 W1]; [exact F1|lia|lia|]. destruct IH2 as [A2 W2]; [exact F2|lia|lia|]. cbn. split; [econstructor; eassumption|constructor; assumption].
    - intros a w l b k k1 D IH F L1 L2. apply fixed_cons, fixed_app in F. pose proof (le_stmts _ _ _ _ D).
      destruct IH as [A W]; [apply F|lia|lia|]. cbn [ren_tree]. rewrite HD by lia. split; [|exact W].
      replace (sh (S k1)) with (S (sh k1)) by (unfold sh; lia). constructor. exact A.
    - intros s w l k k1 D IH F L1 L2. apply fixed_cons in F. pose proof (le_body _ _ _ _ D).
      destruct IH as [A W]; [apply F|lia|lia|]. cbn [ren_tree]. rewrite HD by lia. split; [|exact W].
      replace (sh (S k1)) with (S (sh k1)) by (unfold sh; lia). constructor. exact A.
    - intros s i w l k k1 D IH F L1 L2. apply fixed_cons in F. pose proof (fixed_head _ _ F) as E. apply fixed_cons in F.
      destruct IH as [A W]; [apply F|lia|lia|]. cbn [ren_tree]. rewrite E. split; [constructor; exact A|exact W].
    - intros. split; [constructor|apply wholes_nil].
    - intros a w l b k k1 D IH F L1 L2. apply fixed_cons, fixed_app in F. destruct IH as [A W]; [apply F|lia|lia|]. split; [constructor; exact A|exact W].
    - intros w s c k k1 D IH Hc F L1 L2. apply fixed_app in F. destruct IH as [A W]; [apply F|lia|lia|]. split; [constructor; assumption|exact W].
    - intros w s c w' l k k1 k2 D1 IH1 Hc D2 IH2 F L1 L2. apply fixed_app in F. destruct F as [F1 F]. apply fixed_app in F. destruct F as [F2 F3].
      pose proof (le_stmt _ _ _ _ D1). pose proof (le_stmts _ _ _ _ D2).
      destruct IH1 as [A1 W1]; [exact F1|lia|lia|]. destruct IH2 as [A2 W2]; [exact F3|lia|lia|]. cbn. split; [econstructor; eassumption|apply wholes_cons; assumption].
  Qed.

  Lemma d_graph_ren w g k k' : nm [] = [] -> d_graph rnd w g k k' -> fixed w -> lo <= k -> k' <= hi ->
    d_graph rnd' w (lb_ast nm g) (sh k) (sh k') /\ whole_names nm g.
  Proof.
    intros E0 H F L1 L2. destruct H as [ws st t ty wi i wb l k k1 Hs Hk Hi Hb]. apply fixed_app in F. destruct F as [_ F]. apply fixed_cons, fixed_app in F. destruct F as [Fi Fb].
    destruct (proj1 (proj2 (proj2 (proj2 (proj2 d_ren)))) _ _ _ _ Hb Fb L1 L2) as [A W]. split; [|exact W].
    unfold lb_ast. cbn. assert (E : nm i = i) by (destruct Hi; [exact E0|apply (fixed_head _ _ Fi)]). rewrite E. constructor; assumption.
  Qed.
End Draws.

Lemma scans_once src w w' : scans_to src w -> scans_to src w' -> w = w'.
Proof.
  intros H H'. apply scans_to_tokens in H. apply scans_to_tokens in H'. destruct H as (ts & t & E & _ & <-), H' as (ts' & t' & E' & _ & <-).
  rewrite E in E'. apply app_inj_tail in E'. destruct E' as [-> _]. reflexivity.
Qed.
Lemma swaps_facts nm rnd rnd' k k' n w : swaps_draws nm rnd rnd' k k' n -> draws_clear rnd k n w -> draws_clear rnd' k' n w ->
  (forall x, ":"%char ∈ x -> nm x = x) /\ nm [] = [] /\ fixed nm w.
Proof.
  intros (_ & _ & H) (_ & C) (_ & C'). split; [|split].
  - intros x Hx. apply H. intros i Hi. split; intros ->; eapply anon_colon; exact Hx.
  - apply H. intros i Hi. split; discriminate.
  - intros l Hl. apply H. intros i Hi. split; [exact (C i l Hi Hl)|exact (C' i l Hi Hl)].
Qed.

Lemma parse_draws rnd rnd' k k' n src w nm a : scans_to src w -> draws_clear rnd k n w -> draws_clear rnd' k' n w -> swaps_draws nm rnd rnd' k k' n ->
  parse_bytes rnd k src = Ok (a, k + n) -> parse_bytes rnd' k' src = Ok (lb_ast nm a, k' + n) /\ whole_names nm a.
Proof.
  intros Hs C C' SW H. destruct (swaps_facts _ _ _ _ _ _ _ SW C C') as (HC & E0 & F). destruct SW as (HI & HD & _).
  apply ParseFacts.parse_ok_iff in H. destruct H as (w' & Hs' & D).
  assert (w' = w) as -> by (eapply scans_once; eassumption).
  assert (IJ : Inj (=) (=) nm) by (intros x y; apply HI).
  destruct (d_graph_ren nm rnd rnd' k (k + n) k') with (w := w) (g := a) (k := k) (k' := k + n) as [A W]; auto; try lia.
  - intros j Hj. replace j with (k + (j - k)) at 1 by lia. rewrite HD by lia. do 2 f_equal. lia.
  - split; [|exact W]. apply ParseFacts.parse_ok_iff. exists w. split; [exact Hs|]. unfold sh in A. replace (k - k + k') with k' in A by lia. replace (k + n - k + k') with (k' + n) in A by lia. exact A.
Qed.
