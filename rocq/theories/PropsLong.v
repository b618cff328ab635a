(** Property C62, continued: the text of a graph can be exponentially long in the number of calls that built it. *)
From Coq Require Import Ascii.
From stdpp Require Import sorting.
From Verif Require Import Base Parser Maps Graph Direct AttrMap SpecGraph SpecDirect MapFacts GraphProofs DirectProofs Write SpecWrite EdgeOrder WriteProofs WriteFacts WriteFacts2
  SpecCount CountProofs PropsGraph PropsWrite SpecImage ImageProofs PropsImage PropsCount.
From Verif Require Ast.
Local Arguments count : simpl never.

(** ** The text is at least as long as the number of subgraph statements. *)
Lemma join_length ss : sum_list (map length ss) <= S (length (Ast.stmt_list_join ss)).
Proof.
  unfold Ast.stmt_list_join. set (f := fun s x : gostr => match x with [] => s | _ => s ++ x ++ lit ";" ++ [nl] end).
  assert (H : forall acc, sum_list (map length ss) + length acc <= length (fold_left f ss acc)).
  { induction ss as [|x ss IH]; intros acc; [cbn; lia|]. cbn [fold_left map]. specialize (IH (f acc x)).
    change (sum_list (length x :: map length ss)) with (length x + sum_list (map length ss)).
    assert (length x + length acc <= length (f acc x)); [|lia]. subst f. cbn beta. destruct x; [cbn; lia|]. rewrite !app_length. lia. }
  specialize (H []). cbn [length] in H. unfold trim_suffix. destruct (has_suffix _ _); [rewrite firstn_length; cbn [length]|]; lia.
Qed.
Lemma subs_length s f : forall n t ind, c_sub s f n = Ok t -> length (subs_of t) <= length (Ast.subgraph_str ind t).
Proof.
  induction f as [|f IH]; intros n t ind H; [discriminate|]. apply c_sub_inv in H. destruct H as (a & body & _ & F & ->).
  cbn [subs_of Ast.subgraph_str]. rewrite flat_map_app, attrs_no_subs. cbn [app]. rewrite !app_length.
  change (length (lit "subgraph ")) with 9. cbn [length].
  set (l := map (Ast.stmt_str (ind ++ [tab])) (map Ast.SAttr (in_order a) ++ body)).
  assert (length (flat_map subs_in body) <= sum_list (map length l)).
  { subst l. rewrite !map_app. assert (E : forall x y : list nat, sum_list y <= sum_list (x ++ y)) by (induction x as [|z x IHx]; intros y; [auto|cbn; specialize (IHx y); cbn in IHx; lia]).
    eapply Nat.le_trans; [|apply E]. clear E. induction F as [|c st cs body H F IHF]; [auto|]. cbn [flat_map map]. rewrite app_length.
    change (sum_list (?x :: ?y)) with (x + sum_list y).
    assert (length (subs_in st) <= length (Ast.stmt_str (ind ++ [tab]) st)).
    { unfold c_child in H. destruct (s_nodes s !! c); [injection H as <-; cbn; lia|]. destruct (s_subs s !! c); [|discriminate].
      destruct (c_sub s f c) as [t|e| |] eqn:E; try discriminate. injection H as <-. cbn [subs_in Ast.stmt_str]. exact (IH _ _ _ E). }
    generalize dependent (ind ++ [tab]). intros i L0 L1. cbn. cbn in L0. lia. }
  pose proof (join_length l). rewrite app_length. lia.
Qed.
Lemma text_length srt o g fuel a : fair o -> sorts (edge_less o) srt -> built g -> s_edges (view g) = [] -> write_ast srt o g fuel = Ok a ->
  length (graph_subs a) <= length (Ast.graph_str a).
Proof.
  intros Fo S R E H. rewrite (write_canon o g Fo (built_ok g R)), E in H. apply c_write_ok in H.
  destruct H as (el & tops & ts & ns & -> & Fe & Ft & _). assert (srt [] = []) as X by (apply Permutation_nil; symmetry; apply (S [])). rewrite X in Fe. inversion Fe; subst el.
  unfold graph_subs, Ast.graph_str. cbn [Ast.g_stmts app]. rewrite !flat_map_app, attrs_no_subs. destruct (count_nodes_map (view g) ns []) as (_ & -> & _).
  cbn [app]. rewrite app_nil_r. rewrite !app_length. unfold Ast.stmts_str.
  set (l := map (Ast.stmt_str [tab]) _).
  assert (length (flat_map subs_in (map Ast.SSub ts)) <= sum_list (map length l)).
  { subst l. rewrite !map_app. assert (D : forall x y z : list nat, sum_list y <= sum_list (x ++ y ++ z)).
    { intros x y z. induction x as [|w x IHx]; [|cbn; cbn in IHx; lia]. induction y as [|w y IHy]; [cbn; lia|cbn; cbn in IHy; lia]. }
    eapply Nat.le_trans; [|apply D]. clear D. induction Ft as [|n t tops ts H F IHF]; [auto|]. cbn [flat_map map]. rewrite app_length.
    pose proof (subs_length _ _ _ _ [tab] H) as L. cbn [subs_in Ast.stmt_str]. clear - L IHF. generalize dependent [tab]. intros i L0 L. cbn. cbn in L0. lia. }
  pose proof (join_length l). cbn [length]. rewrite ?app_length. lia.
Qed.

(** ** A tower of subgraphs: S contains A and B, both contain the next S. *)
Definition S_ (i : nat) : gostr := "S"%char :: repeat "x"%char i.
Definition A_ (i : nat) : gostr := "A"%char :: repeat "x"%char i.
Definition B_ (i : nat) : gostr := "B"%char :: repeat "x"%char i.
Definition G_ : gostr := lit "G".
Definition level (i : nat) : list call :=
  [CAddSubGraph (S_ i) (A_ i) ∅; CAddSubGraph (S_ i) (B_ i) ∅; CAddSubGraph (A_ i) (S_ (S i)) ∅; CAddSubGraph (B_ i) (S_ (S i)) ∅].
Definition tower (n : nat) : list call := [CSetName G_; CAddSubGraph G_ (S_ 0) ∅] ++ flat_map level (seq 0 n).
Definition rank (x : gostr) : nat :=
  match x with [] => 0 | c :: r => if Ascii.eqb c "S"%char then 2 * length r else 2 * length r + 1 end.
Record Tower (s : sgraph) : Prop := Tw {
  tw_name : s_name s = G_; tw_nodes : s_nodes s = ∅; tw_edges : s_edges s = [];
  tw_child : forall p c, is_child s p c -> s_is_sub s c /\ (p = G_ \/ rank p < rank c);
  tw_root : ~ s_is_sub s G_ }.
Lemma tower_step s p n : Tower s -> n <> G_ -> p = G_ \/ rank p < rank n ->
  let s' := s_put_attrs (s_open_sub s p n) n ∅ in
  spec_call (CAddSubGraph p n ∅) s s' None /\ Tower s' /\ is_child s' p n /\ forall a b, is_child s a b -> is_child s' a b.
Proof.
  intros [T1 T2 T3 T4 T5] N Hr. cbv zeta. split; [constructor; intros k v H; rewrite lookup_empty in H; discriminate|].
  unfold s_put_attrs. cbn [s_name s_open_sub s_with_subs s_with_rels]. rewrite T1, decide_False by congruence.
  unfold is_child. cbn [s_with_subs s_with_rels s_open_sub s_rels]. split; [|split; [set_solver|set_solver]].
  constructor; cbn; auto.
  - intros a b. unfold is_child, s_is_sub. cbn. rewrite elem_of_union, elem_of_singleton. intros [[= -> ->]|H].
    + split; [|exact Hr]. rewrite lookup_insert. eauto.
    + destruct (T4 a b H) as [H1 H2]. split; [|exact H2]. rewrite !lookup_insert_is_Some'. auto.
  - unfold s_is_sub. cbn. rewrite !lookup_insert_ne by congruence. exact T5.
Qed.
Lemma rank_len (c : ascii) n : length (repeat c n) = n.
Proof. apply repeat_length. Qed.
Lemma rank_S i : rank (S_ i) = 2 * i.
Proof. unfold rank, S_. rewrite rank_len. reflexivity. Qed.
Lemma rank_A i : rank (A_ i) = 2 * i + 1.
Proof. unfold rank, A_. rewrite rank_len. reflexivity. Qed.
Lemma rank_B i : rank (B_ i) = 2 * i + 1.
Proof. unfold rank, B_. rewrite rank_len. reflexivity. Qed.
Lemma tower_spec n : exists s, spec_run (tower n) s_empty s (replicate (length (tower n)) None) /\ Tower s /\ is_child s G_ (S_ 0) /\
  forall i, i < n -> is_child s (S_ i) (A_ i) /\ is_child s (S_ i) (B_ i) /\ is_child s (A_ i) (S_ (S i)) /\ is_child s (B_ i) (S_ (S i)).
Proof.
  induction n as [|n IH].
  - unfold tower. cbn [seq flat_map app length replicate].
    set (s0 := SGraph G_ false false ∅ ∅ [] [] ∅ ∅).
    assert (T0 : Tower s0).
    { constructor; auto; cbn.
      - intros p c H. unfold is_child in H. cbn in H. set_solver.
      - intros H. unfold s_is_sub in H. cbn in H. rewrite lookup_empty in H. destruct (is_Some_None H). }
    destruct (tower_step s0 G_ (S_ 0) T0 ltac:(discriminate) (or_introl eq_refl)) as (C & T & K & _).
    eexists. split; [|split; [exact T|split; [exact K|intros i Hi; lia]]].
    econstructor; [exact (Sp_name G_ s_empty)|]. econstructor; [exact C|constructor].
  - destruct IH as (s & R & T & G0 & K).
    destruct (tower_step s (S_ n) (A_ n) T ltac:(discriminate) ltac:(right; rewrite ?rank_S, ?rank_A, ?rank_B; lia)) as (C1 & T1 & K1 & M1).
    destruct (tower_step _ (S_ n) (B_ n) T1 ltac:(discriminate) ltac:(right; rewrite ?rank_S, ?rank_A, ?rank_B; lia)) as (C2 & T2 & K2 & M2).
    destruct (tower_step _ (A_ n) (S_ (S n)) T2 ltac:(discriminate) ltac:(right; rewrite ?rank_S, ?rank_A, ?rank_B; lia)) as (C3 & T3 & K3 & M3).
    destruct (tower_step _ (B_ n) (S_ (S n)) T3 ltac:(discriminate) ltac:(right; rewrite ?rank_S, ?rank_A, ?rank_B; lia)) as (C4 & T4 & K4 & M4).
    eexists. split; [|split; [exact T4|split; [auto|]]].
    + assert (E : tower (S n) = tower n ++ level n) by (unfold tower; rewrite seq_S, flat_map_app; cbn [flat_map Nat.add]; rewrite app_nil_r, app_assoc; reflexivity).
      rewrite E, app_length, replicate_add. clear E.
      assert (App : forall c1 c2 x y z r1 r2, spec_run c1 x y r1 -> spec_run c2 y z r2 -> spec_run (c1 ++ c2) x z (r1 ++ r2)).
      { clear. intros c1 c2 x y z r1 r2 H. induction H; intros; [assumption|]. cbn. econstructor; eauto. }
      eapply App; [exact R|]. unfold level. cbn [length replicate]. econstructor; [exact C1|]. econstructor; [exact C2|]. econstructor; [exact C3|]. econstructor; [exact C4|constructor].
    + intros i Hi. destruct (decide (i = n)) as [->|Ne].
      * repeat split; auto.
      * destruct (K i ltac:(lia)) as (Q1 & Q2 & Q3 & Q4). repeat split; auto.
Qed.
Lemma tower_acyclic s : Tower s -> acyclic s /\ no_clash s /\ ~ unwritable s.
Proof.
  intros [T1 T2 T3 T4 T5].
  assert (W : forall n, written s n -> s_is_sub s n).
  { intros n (r & Hr & H). apply rtc_inv_r in H. destruct H as [<-|(y & _ & (_ & H & _))]; [|exact H]. destruct Hr; assumption. }
  assert (I : forall x y, tc (nested s) x y -> s_is_sub s x -> rank x < rank y).
  { intros x y H. induction H as [x y (H & _ & _)|x y z (H & Hy & _) _ IH]; intros Hx; destruct (T4 _ _ H) as [_ [->|L]]; try contradiction; [exact L|].
    specialize (IH Hy). lia. }
  split; [|split].
  - intros n Hn H. apply I in H; [lia|]. apply W. exact Hn.
  - intros n _ N. unfold s_is_node in N. rewrite T2, lookup_empty in N. destruct (is_Some_None N).
  - intros [n port (e & He & _) _|p c Hp C _ N]; [rewrite T3 in He; apply elem_of_nil in He; contradiction|]. apply N. apply (T4 p c C).
Qed.
Lemma two_parents s n p q l : p <> q -> is_child s p n -> is_child s q n -> count p l + count q l <= count_parents s n l.
Proof.
  intros N P Q. apply elem_of_parents in P, Q. unfold count_parents.
  apply elem_of_Permutation in P. destruct P as [k E]. rewrite E in Q |- *. apply elem_of_cons in Q. destruct Q as [Q|Q]; [congruence|].
  apply elem_of_Permutation in Q. destruct Q as [k' E']. rewrite E'. cbn. unfold id. lia.
Qed.
Lemma one_parent s n p l : is_child s p n -> count p l <= count_parents s n l.
Proof.
  intros P. apply elem_of_parents in P. unfold count_parents. apply elem_of_Permutation in P. destruct P as [k E]. rewrite E. cbn. unfold id. lia.
Qed.
Definition call_names (c : call) : list gostr :=
  match c with CSetName n => [n] | CAddSubGraph p n _ => [p; n] | _ => [] end.
Lemma tower_length n : length (tower n) = 2 + 4 * n.
Proof. unfold tower. rewrite app_length. cbn [length]. f_equal. induction n as [|n IH]; [reflexivity|]. rewrite seq_S, flat_map_app, app_length, IH. cbn. lia. Qed.
Lemma tower_names n : Forall (fun c => Forall (fun x : gostr => length x <= n + 1) (call_names c)) (tower n).
Proof.
  unfold tower. apply Forall_app. split.
  - repeat first [apply Forall_nil_2 | apply Forall_cons; split]; cbv [call_names]; repeat first [apply Forall_nil_2 | apply Forall_cons; split]; unfold G_, S_; cbn [length repeat lit]; cbv [length lit String.list_ascii_of_string]; lia.
  - apply Forall_flat_map. apply Forall_forall. intros i Hi. apply elem_of_seq in Hi.
    unfold level. repeat first [apply Forall_nil_2 | apply Forall_cons; split]; cbn [call_names]; repeat first [apply Forall_nil_2 | apply Forall_cons; split]; unfold S_, A_, B_; cbn [length]; rewrite repeat_length; lia.
Qed.

(** ** C62: for every n there are 4 n + 2 calls, with names of at most n + 1 bytes, that all succeed and build a graph whose text has
    more than 2^n bytes. *)
Theorem C62_exponential : forall n, exists cs : list call, (length cs = 4 * n + 2) /\ Forall (fun c => Forall (fun x : gostr => length x <= n + 1) (call_names c)) cs /\
  forall h, map snd h = cs -> Forall (fun oc => fair oc.1) h -> Forall (fun r => r = None) (run h new_graph).2 /\
    forall srt o, fair o -> sorts (edge_less o) srt -> exists fuel t, (graph_string srt o (run h new_graph).1 fuel = Ok t) /\ (2 ^ n <= length t).
Proof.
  intros n. exists (tower n). split; [rewrite tower_length; lia|]. split; [apply tower_names|]. intros h Hh F.
  destruct (tower_spec n) as (s & R & T & G0 & K). pose proof (C23_refinement h F) as R'. rewrite Hh in R'.
  destruct (spec_run_det _ _ _ _ _ _ R ltac:(apply Forall_replicate; reflexivity) R') as [V N]. split; [exact N|]. clear R R'.
  set (g := (run h new_graph).1) in *. intros srt o Fo S.
  assert (B : built g) by (exact (run_reach h new_graph reach_new F : built g)).
  rewrite <- V in T, G0, K. destruct (tower_acyclic _ T) as (Ac & NC & U).
  exists (Datatypes.S (size (g_subs g))). destruct (C34_terminates srt o g Fo S B Ac (Datatypes.S (size (g_subs g))) ltac:(lia)) as [Nf _].
  destruct (write_ast srt o g (Datatypes.S (size (g_subs g)))) as [a|e| |] eqn:E; [| | |contradiction].
  - exists (Ast.graph_str a). unfold graph_string. rewrite E. split; [reflexivity|].
    eapply Nat.le_trans; [|exact (text_length srt o g _ a Fo S B (tw_edges _ T) E)].
    destruct (write_law srt o g _ a Fo S B E) as (_ & _ & _ & L & _).
    assert (NN : forall x, ~ s_is_node (view g) x).
    { intros x Hx. unfold s_is_node in Hx. rewrite (tw_nodes _ T), lookup_empty in Hx. destruct (is_Some_None Hx). }
    assert (forall i, i <= n -> 2 ^ i <= count (S_ i) (graph_subs a)) as C.
    { induction i as [|i IH]; intros Hi.
      - apply count_pos. assert (Wr : written (view g) (S_ 0)).
        { exists (S_ 0). split; [|reflexivity]. destruct (tw_child _ T _ _ G0) as [Hs _]. constructor 1; [|exact Hs]. rewrite (tw_name _ T). exact G0. }
        destruct (C32_complete srt o g _ a Fo S B NC E) as (_ & K2 & _). destruct (K2 _ Wr) as (t & Sh & O).
        pose proof (occurs_subs (Ast.g_stmts a) t O) as X. inversion Sh; subst. exact X.
      - specialize (IH ltac:(lia)). destruct (K i ltac:(lia)) as (K1 & K2 & K3 & K4).
        rewrite (L _ (NN (S_ (Datatypes.S i)))). pose proof (two_parents _ _ (A_ i) (B_ i) (graph_subs a) ltac:(discriminate) K3 K4).
        pose proof (one_parent _ _ _ (graph_subs a) K1). pose proof (one_parent _ _ _ (graph_subs a) K2).
        pose proof (L _ (NN (A_ i))). pose proof (L _ (NN (B_ i))). cbn [Nat.pow]. lia. }
    specialize (C n ltac:(lia)). unfold count in C. eapply Nat.le_trans; [exact C|]. apply filter_length.
  - exfalso. rewrite (write_canon o g Fo (built_ok g B)) in E. apply U. eapply complaint_unwritable, c_write_err; [apply (S (s_edges (view g)))|exact E].
  - exfalso. rewrite (write_canon o g Fo (built_ok g B)) in E. eapply c_write_panic. exact E.
Qed.
Print Assumptions C62_exponential.

(** A graph that meets the hypotheses of C62_once, *)
Definition tree_likeb (s : sgraph) : bool :=
  bool_decide (Forall (fun x => Forall (fun y : gostr * gostr => x.2 <> y.2 \/ x.1 = y.1) (elements (s_rels s))) (elements (s_rels s))) &&
  bool_decide (Forall (fun e => is_Some (s_nodes s !! e_src e) /\ is_Some (s_nodes s !! e_dst e)) (s_edges s)).
Lemma tree_likeb_ok s : tree_likeb s = true -> tree_like s.
Proof.
  unfold tree_likeb. rewrite andb_true_iff, !bool_decide_eq_true, !Forall_forall. intros [H1 H2]. split.
  - intros n p q Hp Hq. unfold is_child in Hp, Hq. apply elem_of_elements in Hp, Hq. pose proof (H1 _ Hp) as X. rewrite Forall_forall in X. destruct (X _ Hq) as [Y|Y]; [destruct Y; reflexivity|exact Y].
  - intros n port (e & He & [[-> _]|[-> _]]); left; apply (H2 e He).
Qed.
Example C62_once_example : let g := (run (with_id cs_c60) new_graph).1 in
  built g /\ no_clash (view g) /\ tree_like (view g) /\ exists a, write_ast srt0 o_id g 9 = Ok a /\ graph_subs a = [lit "S"; lit "T"] /\ graph_nodes a = [lit "b"; lit "a"].
Proof.
  cbv zeta. split; [exact (run_reach (with_id cs_c60) new_graph reach_new (with_id_fair cs_c60) : built _)|].
  split; [apply clash_free_ok; vm_compute; reflexivity|]. split; [apply tree_likeb_ok; vm_compute; reflexivity|].
  eexists. split; [vm_compute; reflexivity|]. split; vm_compute; reflexivity.
Qed.
(** and one that does not: T is a child of S and an endpoint of an edge, c is a child of T. *)
Example C62_count_example : exists a, write_ast srt0 o_id g3 9 = Ok a /\ count (lit "T") (graph_subs a) = 2 /\ count (lit "c") (graph_nodes a) = 2 /\
  count (lit "a") (graph_nodes a) = 1 /\ count (lit "cluster0") (graph_subs a) = 1.
Proof. eexists. split; [vm_compute; reflexivity|]. repeat split; vm_compute; reflexivity. Qed.
