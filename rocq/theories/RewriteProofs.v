(** Proofs for C77. *)
From Verif Require Import Base Parser Maps Graph Direct MapFacts SpecGraph GraphProofs DirectProofs Analyse SpecAnalyse AnalyseProofs ReadProofs SpecOrder OrderProofs PropsGraph SpecMerge MergeProofs SpecRewrite.
From Verif Require Ast.

(** ** Calls see the earlier statements through defaults and mentioned nodes only *)
Definition same_defaults (p p' : list Ast.stmt) : Prop :=
  (forall d, node_defaults d p = node_defaults d p') /\ (forall d, edge_defaults d p = edge_defaults d p') /\ (forall d, graph_defaults d p = graph_defaults d p').
Lemma same_defaults_app p p' q q' : same_defaults p p' -> same_defaults q q' -> same_defaults (p ++ q) (p' ++ q').
Proof.
  intros (A & B & C) (A' & B' & C'). split; [|split]; intros d; rewrite ?nd_app, ?ed_app, ?gd_app.
  - rewrite A, A'. reflexivity.
  - rewrite B, B'. reflexivity.
  - rewrite C, C'. reflexivity.
Qed.
Lemma same_defaults_refl p : same_defaults p p.
Proof. repeat split. Qed.
(** The names of interest are in both lists or in neither. *)
Definition agree (N : list gostr) (x y : list gostr) : Prop := forall n, n ∈ N -> (n ∈ x <-> n ∈ y).
Lemma agree_app N x y z z' : agree N x y -> agree N z z' -> agree N (x ++ z) (y ++ z').
Proof. intros A B n Hn. rewrite !elem_of_app, (A n Hn), (B n Hn). reflexivity. Qed.
Lemma agree_refl N x : agree N x x.
Proof. intros n _. reflexivity. Qed.
Lemma agree_sub N N' x y : (forall n, n ∈ N' -> n ∈ N) -> agree N x y -> agree N' x y.
Proof. intros S A n Hn. apply A, S, Hn. Qed.
Lemma endpoint_agree name d x y lo : agree (plain lo) x y -> endpoint_call name d x lo = endpoint_call name d y lo.
Proof.
  intros A. destruct lo as [n|g]; [|reflexivity]. cbn [endpoint_call]. specialize (A (Ast.nid_id n) ltac:(left)).
  destruct (decide _) as [X|X], (decide _) as [Y|Y]; try reflexivity; tauto.
Qed.
Lemma arrows_agree name d m rhs : forall x y src, agree (flat_map (fun e => plain (dst_of e)) rhs) x y ->
  arrow_calls name d m x src rhs = arrow_calls name d m y src rhs.
Proof.
  induction rhs as [|[op dst] rhs IH]; intros x y src A; [reflexivity|]. cbn [arrow_calls flat_map dst_of] in *.
  rewrite (endpoint_agree _ _ x y) by (eapply agree_sub; [|exact A]; intros n Hn; apply elem_of_app; auto).
  rewrite (IH (x ++ plain dst) (y ++ plain dst)); [reflexivity|]. apply agree_app; [|apply agree_refl]. eapply agree_sub; [|exact A]. intros n Hn. apply elem_of_app. auto.
Qed.
Lemma pre_change :
  (forall name nd ed pre s l, stmt_calls name nd ed pre s l -> forall pre', same_defaults pre pre' -> agree (mentions s) (mentioned pre) (mentioned pre') -> stmt_calls name nd ed pre' s l) /\
  (forall name nd ed pre ls l, locs_calls name nd ed pre ls l -> forall pre', same_defaults pre pre' -> locs_calls name nd ed pre' ls l) /\
  (forall name nd ed pre g l, sub_calls name nd ed pre g l -> forall pre', same_defaults pre pre' -> sub_calls name nd ed pre' g l) /\
  (forall name nd ed pre body l, body_calls name nd ed pre body l -> forall pre', same_defaults pre pre' -> agree (mentioned body) (mentioned pre) (mentioned pre') -> body_calls name nd ed pre' body l).
Proof.
  apply (calls_ind
    (fun name nd ed pre s l => forall pre', same_defaults pre pre' -> agree (mentions s) (mentioned pre) (mentioned pre') -> stmt_calls name nd ed pre' s l)
    (fun name nd ed pre ls l => forall pre', same_defaults pre pre' -> locs_calls name nd ed pre' ls l)
    (fun name nd ed pre g l => forall pre', same_defaults pre pre' -> sub_calls name nd ed pre' g l)
    (fun name nd ed pre body l => forall pre', same_defaults pre pre' -> agree (mentioned body) (mentioned pre) (mentioned pre') -> body_calls name nd ed pre' body l)).
  - intros name nd ed pre n a pre' (E1 & E2 & E3) A. rewrite E1.
    replace (if decide (node_text n ∈ mentioned pre) then ∅ else node_defaults nd pre') with (if decide (node_text n ∈ mentioned pre') then ∅ else node_defaults nd pre'); [constructor|].
    specialize (A (node_text n) ltac:(left)). destruct (decide _) as [X|X], (decide _) as [Y|Y]; try reflexivity; tauto.
  - intros name nd ed pre src rhs a l _ IH pre' E A. pose proof E as (E1 & E2 & E3). rewrite E1, E2. cbn [mentions] in A.
    rewrite (endpoint_agree _ _ (mentioned pre) (mentioned pre')) by (eapply agree_sub; [|exact A]; intros n Hn; apply elem_of_app; auto).
    rewrite (arrows_agree _ _ _ _ (mentioned pre ++ plain src) (mentioned pre' ++ plain src)).
    + constructor. apply IH. exact E.
    + apply agree_app; [|apply agree_refl]. eapply agree_sub; [|exact A]. intros n Hn. apply elem_of_app. auto.
  - intros. constructor.
  - intros. constructor.
  - intros. constructor. assumption.
  - intros name nd ed pre g l _ IH pre' E A. constructor. apply IH. exact E.
  - intros. constructor.
  - intros. constructor.
  - intros name nd ed pre n ls l _ IH pre' E. constructor. apply IH. exact E.
  - intros name nd ed pre g ls l l' _ IH1 _ IH2 pre' E. constructor; [apply IH1|apply IH2]; exact E.
  - intros name nd ed pre id body l H _ pre' (E1 & E2 & E3). rewrite E3. constructor. rewrite <- E1, <- E2. exact H.
  - intros. constructor.
  - intros name nd ed pre s body l l' _ IH1 _ IH2 pre' E A. cbn [mentioned flat_map] in A. apply Bc_cons.
    + apply IH1; [exact E|]. eapply agree_sub; [|exact A]. intros n Hn. apply elem_of_app. auto.
    + apply IH2; [apply same_defaults_app; [exact E|apply same_defaults_refl]|]. rewrite !mentioned_app. apply agree_app; [|apply agree_refl].
      eapply agree_sub; [|exact A]. intros n Hn. apply elem_of_app. auto.
Qed.
Definition body_pre := proj2 (proj2 (proj2 pre_change)).
Lemma body_join name nd ed B1 : forall pre B2 l1 l2, body_calls name nd ed pre B1 l1 -> body_calls name nd ed (pre ++ B1) B2 l2 -> body_calls name nd ed pre (B1 ++ B2) (l1 ++ l2).
Proof.
  induction B1 as [|s B1 IH]; intros pre B2 l1 l2 H1 H2; inversion H1; subst; [rewrite app_nil_r in H2; exact H2|].
  rewrite <- app_assoc. cbn [app]. eapply Bc_cons; [eassumption|]. apply IH; [assumption|]. rewrite <- app_assoc. exact H2.
Qed.
Lemma body_one name nd ed pre s l : body_calls name nd ed pre [s] l <-> stmt_calls name nd ed pre s l.
Proof.
  split; intros H.
  - inversion H; subst. match goal with X : body_calls _ _ _ _ [] _ |- _ => inversion X; subst end. rewrite app_nil_r. assumption.
  - rewrite <- (app_nil_r l). eapply Bc_cons; [exact H|constructor].
Qed.

(** ** Standing for each other, one way *)
Definition le (B B' : list Ast.stmt) : Prop :=
  same_defaults B B' /\ (forall n, n ∈ mentioned B <-> n ∈ mentioned B') /\
  forall name nd ed pre l, body_calls name nd ed pre B l -> exists l', body_calls name nd ed pre B' l' /\ harmless l l' name (mentioned pre).
Lemma le_refl B : le B B.
Proof. split; [apply same_defaults_refl|]. split; [reflexivity|]. intros name nd ed pre l H. exists l. split; [exact H|apply harmless_refl]. Qed.
Lemma harmless_trans l1 l2 l3 p N : harmless l1 l2 p N -> harmless l2 l3 p N -> harmless l1 l3 p N.
Proof. intros [A B] [A' B']. split; [rewrite A; exact A'|]. intros s H. rewrite (B s H). exact (B' s H). Qed.
Lemma le_trans B1 B2 B3 : le B1 B2 -> le B2 B3 -> le B1 B3.
Proof.
  intros ((A1 & A2 & A3) & M & H) ((A1' & A2' & A3') & M' & H'). split; [|split].
  - split; [|split]; intros d; [rewrite A1|rewrite A2|rewrite A3]; auto.
  - intros n. rewrite M. apply M'.
  - intros name nd ed pre l K. destruct (H _ _ _ _ _ K) as (l' & K' & E). destruct (H' _ _ _ _ _ K') as (l'' & K'' & E'). exists l''. split; [exact K''|]. eapply harmless_trans; eassumption.
Qed.
Lemma present_body name nd ed pre B l s : body_calls name nd ed pre B l -> (forall n, n ∈ mentioned pre -> present s name n) ->
  forall n, n ∈ mentioned (pre ++ B) -> present (fold_left s_build l s) name n.
Proof.
  intros H P n Hn. rewrite mentioned_app in Hn. apply elem_of_app in Hn. destruct Hn as [Hn|Hn]; [apply present_fold, P, Hn|].
  destruct (body_adds _ _ _ _ _ _ _ H Hn) as [X|[m X]]; [apply present_fold, P, X|eapply present_added; exact X].
Qed.
Lemma le_app B1 B1' B2 B2' : le B1 B1' -> le B2 B2' -> le (B1 ++ B2) (B1' ++ B2').
Proof.
  intros (D1 & M1 & H1) (D2 & M2 & H2). split; [apply same_defaults_app; assumption|]. split; [intros n; rewrite !mentioned_app, !elem_of_app, M1, M2; reflexivity|].
  intros name nd ed pre l H. destruct (body_calls_app _ _ _ _ _ _ _ H) as (l1 & l2 & -> & K1 & K2). destruct (H1 _ _ _ _ _ K1) as (l1' & K1' & O1 & E1).
  assert (K2' : body_calls name nd ed (pre ++ B1') B2 l2).
  { apply (body_pre _ _ _ _ _ _ K2); [apply same_defaults_app; [apply same_defaults_refl|exact D1]|]. rewrite !mentioned_app. apply agree_app; [apply agree_refl|]. intros n _. apply M1. }
  destruct (H2 _ _ _ _ _ K2') as (l2' & K2'' & O2 & E2). exists (l1' ++ l2'). split; [eapply body_join; eassumption|].
  split; [rewrite !Forall_app, O1, O2; reflexivity|]. intros s P. rewrite !fold_left_app, (E1 s P). apply E2.
  apply (present_body _ _ _ _ _ _ _ K1' P).
Qed.
(** A single statement. *)
Lemma le_one s s' : same_defaults [s] [s'] -> (forall n, n ∈ mentions s <-> n ∈ mentions s') ->
  (forall name nd ed pre l, stmt_calls name nd ed pre s l -> exists l', stmt_calls name nd ed pre s' l' /\ harmless l l' name (mentioned pre)) -> le [s] [s'].
Proof.
  intros D M H. split; [exact D|]. split; [intros n; unfold mentioned; cbn [flat_map]; rewrite !app_nil_r; apply M|].
  intros name nd ed pre l K. apply body_one in K. destruct (H _ _ _ _ _ K) as (l' & K' & E). exists l'. split; [apply body_one; exact K'|exact E].
Qed.
Lemma le_sub id b b' : le b b' -> le [Ast.SSub (Ast.SubGraph id b)] [Ast.SSub (Ast.SubGraph id b')].
Proof.
  intros (D & M & H). apply le_one; [split; [|split]; reflexivity|reflexivity|]. intros name nd ed pre l K. inversion K; subst. match goal with X : sub_calls _ _ _ _ _ _ |- _ => inversion X; subst end.
  match goal with X : body_calls _ _ _ _ _ _ |- _ => destruct (H _ _ _ _ _ X) as (l' & K' & O & E) end.
  exists (CAddSubGraph name id (graph_defaults ∅ pre) :: l'). split; [constructor; constructor; exact K'|].
  split; [rewrite !Forall_cons, O; reflexivity|]. intros s _. cbn [fold_left]. apply E. intros n Hn. inversion Hn.
Qed.
(** Operands. *)
Definition le_loc (l l' : Ast.location) : Prop :=
  match l, l' with
  | Ast.LNode n, Ast.LNode n' => n = n'
  | Ast.LSub (Ast.SubGraph id b), Ast.LSub (Ast.SubGraph id' b') => id = id' /\ le b b'
  | _, _ => False
  end.
Definition le_rh (e e' : Ast.edge_rh) : Prop := match e, e' with Ast.EdgeRH op l, Ast.EdgeRH op' l' => op = op' /\ le_loc l l' end.
Lemma le_loc_same l l' : le_loc l l' -> end_name l = end_name l' /\ end_port l = end_port l' /\ plain l = plain l'.
Proof. destruct l as [n|[id b]], l' as [n'|[id' b']]; cbn; try contradiction; [intros ->; auto|intros [-> _]; auto]. Qed.
Lemma le_endpoint name d seen l l' : le_loc l l' -> endpoint_call name d seen l = endpoint_call name d seen l'.
Proof. destruct l as [n|[id b]], l' as [n'|[id' b']]; cbn; try contradiction; [intros ->; reflexivity|reflexivity]. Qed.
Lemma le_arrows name d m r r' : Forall2 le_rh r r' -> forall seen src src', le_loc src src' -> arrow_calls name d m seen src r = arrow_calls name d m seen src' r'.
Proof.
  induction 1 as [|[op l] [op' l'] r r' [-> Hl] _ IH]; intros seen src src' Hs; [reflexivity|]. cbn [arrow_calls].
  destruct (le_loc_same _ _ Hs) as (-> & -> & _). destruct (le_loc_same _ _ Hl) as (E1 & E2 & E3). rewrite (le_endpoint _ _ _ _ _ Hl), E1, E2, E3, (IH _ l l' Hl). reflexivity.
Qed.
Lemma le_plains r r' : Forall2 le_rh r r' -> flat_map (fun e => plain (dst_of e)) r = flat_map (fun e => plain (dst_of e)) r'.
Proof. induction 1 as [|[op l] [op' l'] r r' [-> Hl] _ IH]; [reflexivity|]. cbn. rewrite IH. destruct (le_loc_same _ _ Hl) as (_ & _ & ->). reflexivity. Qed.
Lemma le_locs name nd ed pre ls ls' : Forall2 le_loc ls ls' -> forall l, locs_calls name nd ed pre ls l ->
  exists l', locs_calls name nd ed pre ls' l' /\ (Forall call_ok l <-> Forall call_ok l') /\ forall s, fold_left s_build l s = fold_left s_build l' s.
Proof.
  induction 1 as [|lo lo' ls ls' Hl _ IH]; intros l H; inversion H; subst.
  - exists []. split; [constructor|]. split; [reflexivity|reflexivity].
  - destruct lo' as [n'|[id' b']]; cbn in Hl; [|contradiction]. subst n'. match goal with X : locs_calls _ _ _ _ _ _ |- _ => destruct (IH _ X) as (l' & K & E) end. exists l'. split; [constructor; exact K|exact E].
  - match goal with X : sub_calls _ _ _ _ _ _ |- _ => inversion X; subst end. destruct lo' as [n'|[id' b']]; cbn in Hl; [contradiction|]. destruct Hl as [<- (_ & _ & Hb)].
    match goal with X : body_calls _ _ _ _ _ _ |- _ => destruct (Hb _ _ _ _ _ X) as (lb & Kb & Ob & Eb) end.
    match goal with X : locs_calls _ _ _ _ _ _ |- _ => destruct (IH _ X) as (l2 & K & O & E) end.
    exists ((CAddSubGraph name id (graph_defaults ∅ pre) :: lb) ++ l2). split; [constructor; [constructor; exact Kb|exact K]|].
    split; [rewrite !Forall_app, !Forall_cons, Ob, O; reflexivity|]. intros s. rewrite !fold_left_app. cbn [fold_left].
    rewrite Eb by (intros n Hn; inversion Hn). apply E.
Qed.
Lemma le_edge src src' r r' a : le_loc src src' -> Forall2 le_rh r r' -> le [Ast.SEdge src r a] [Ast.SEdge src' r' a].
Proof.
  intros Hs Hr. apply le_one; [split; [|split]; reflexivity| |].
  - intros n. cbn [mentions]. destruct (le_loc_same _ _ Hs) as (_ & _ & ->). rewrite (le_plains _ _ Hr). reflexivity.
  - intros name nd ed pre l K. inversion K; subst.
    assert (F : Forall2 le_loc (src :: map dst_of r) (src' :: map dst_of r')).
    { constructor; [exact Hs|]. clear -Hr. induction Hr as [|[? ?] [? ?] ? ? [_ ?] _ IH]; constructor; assumption. }
    match goal with X : locs_calls _ _ _ _ _ _ |- _ => destruct (le_locs _ _ _ _ _ _ F _ X) as (l' & K' & O & E) end.
    eexists. split; [constructor; exact K'|]. rewrite (le_endpoint _ _ _ _ _ Hs), (le_arrows _ _ _ _ _ Hr _ _ _ Hs). destruct (le_loc_same _ _ Hs) as (_ & _ & ->).
    split; [rewrite !Forall_app, O; reflexivity|]. intros s _. rewrite !fold_left_app. apply E.
Qed.

(** ** The rules *)
Lemma given_app a b : given (a ++ b) = given b ∪ given a.
Proof. unfold given. rewrite concat_app, map_app, rev_app_distr, list_to_map_app. reflexivity. Qed.
Lemma given_nil : given [] = ∅.
Proof. reflexivity. Qed.
Lemma put_attrs_twice s n m1 m2 : s_put_attrs (s_put_attrs s n m1) n m2 = s_put_attrs s n (m2 ∪ m1).
Proof.
  unfold s_put_attrs. destruct (decide (s_name s = n)) as [X|X].
  - cbn [s_with_attrs s_name]. rewrite decide_True by exact X. cbn. rewrite (assoc_L (∪)). reflexivity.
  - cbn [s_with_subs s_name]. rewrite decide_False by exact X. unfold s_with_subs. cbn. rewrite lookup_insert, insert_insert. cbn. unfold id. rewrite (assoc_L (∪)). reflexivity.
Qed.
Lemma block_build (n : gostr) (l : list (gostr * gostr)) : NoDup l.*1 -> forall s, fold_left s_build (map (fun kv => CAddAttr n kv.1 kv.2) l) s =
  match l with [] => s | _ => s_put_attrs s n (list_to_map l) end.
Proof.
  induction l as [|[k v] l IH]; intros N s; [reflexivity|]. cbn [map fold_left s_build fst snd]. cbn in N. apply NoDup_cons in N. destruct N as [Nk N].
  rewrite (IH N). destruct l as [|kv l]; [cbn; rewrite insert_empty; reflexivity|]. rewrite put_attrs_twice. f_equal. cbn [list_to_map]. cbn [fmap list_fmap foldr fst snd uncurry].
  change (list_to_map (kv :: l) ∪ {[k := v]} = <[k := v]> (list_to_map (kv :: l) : attrs)). rewrite insert_union_singleton_l. apply map_union_comm.
  apply map_disjoint_singleton_r. apply not_elem_of_list_to_map. exact Nk.
Qed.
Lemma block_any (n : gostr) (m : attrs) (l : list (gostr * gostr)) : l ≡ₚ map_to_list m -> forall s, fold_left s_build (map (fun kv => CAddAttr n kv.1 kv.2) l) s =
  if decide (m = ∅) then s else s_put_attrs s n m.
Proof.
  intros P s. assert (N : NoDup l.*1) by (rewrite P; apply NoDup_fst_map_to_list). rewrite (block_build n l N).
  assert (E : (list_to_map l : attrs) = m) by (rewrite (list_to_map_proper l (map_to_list m) N P); apply list_to_map_to_list).
  destruct l as [|kv l].
  - rewrite decide_True; [reflexivity|]. rewrite <- E. reflexivity.
  - rewrite decide_False, E; [reflexivity|]. intros ->. rewrite map_to_list_empty in P. symmetry in P. apply Permutation_nil in P. discriminate P.
Qed.
Lemma trace_build l l' : trace_eq l l' -> forall s, fold_left s_build l s = fold_left s_build l' s.
Proof.
  induction 1 as [|c l l' _ IH|n l1 l2 l l' N P _ IH]; intros s; [reflexivity|cbn [fold_left]; apply IH|].
  rewrite !fold_left_app, IH. f_equal. rewrite (block_build n l1 N), (block_build n l2) by (rewrite <- P; exact N).
  rewrite (list_to_map_proper l1 l2 N P). destruct l1, l2; try reflexivity; [apply Permutation_nil in P; discriminate P|symmetry in P; apply Permutation_nil in P; discriminate P].
Qed.
Lemma trace_harmless l l' p N : trace_eq l l' -> harmless l l' p N.
Proof. intros T. split; [apply trace_eq_ok, T|]. intros s _. apply trace_build, T. Qed.
(** Every statement has calls. *)
Lemma total :
  (forall s name nd ed pre, exists l, stmt_calls name nd ed pre s l) /\
  (forall lo name nd ed pre ls l', locs_calls name nd ed pre ls l' -> exists l, locs_calls name nd ed pre (lo :: ls) l) /\
  (forall g name nd ed pre, exists l, sub_calls name nd ed pre g l).
Proof.
  apply stmt_all_ind.
  - intros. eexists. constructor.
  - intros src rhs a Hs Hr name nd ed pre.
    assert (X : exists l, locs_calls name nd ed pre (map dst_of rhs) l).
    { induction rhs as [|e rhs IH]; [exists []; constructor|]. inversion Hr; subst. destruct (IH ltac:(assumption)) as [l Hl]. destruct e as [op lo]. cbn [map dst_of] in *. eauto. }
    destruct X as [l X]. destruct (Hs _ _ _ _ _ _ X) as [l' X']. eexists. constructor. exact X'.
  - intros. eexists. constructor.
  - intros. eexists. constructor.
  - intros. eexists. constructor. reflexivity.
  - intros g Hg name nd ed pre. destruct (Hg name nd ed pre) as [l H]. exists l. constructor. exact H.
  - intros. eexists. constructor.
  - intros n name nd ed pre ls l H. exists l. constructor. exact H.
  - intros g Hg name nd ed pre ls l H. destruct (Hg name nd ed pre) as [l' H']. eexists. constructor; eassumption.
  - intros id body Hb name nd ed pre.
    assert (X : forall nd ed pre, exists l, body_calls id nd ed pre body l).
    { clear -Hb. induction Hb as [|s body Hs _ IH]; intros nd ed pre; [exists []; constructor|]. destruct (Hs id nd ed pre) as [l H]. destruct (IH nd ed (pre ++ [s])) as [l' H']. eexists. econstructor; eassumption. }
    destruct (X (node_defaults nd pre) (edge_defaults ed pre) []) as [l H]. eexists. constructor. exact H.
Qed.
Lemma locs_total name nd ed pre ls : exists l, locs_calls name nd ed pre ls l.
Proof. induction ls as [|lo ls [l IH]]; [exists []; constructor|]. eapply (proj1 (proj2 total)). exact IH. Qed.
Lemma body_total name nd ed B : forall pre, exists l, body_calls name nd ed pre B l.
Proof. induction B as [|s B IH]; intros pre; [exists []; constructor|]. destruct (proj1 total s name nd ed pre) as [l H]. destruct (IH (pre ++ [s])) as [l' H']. eexists. econstructor; eassumption. Qed.
Lemma harmless_sym l l' p N : harmless l l' p N -> harmless l' l p N.
Proof. intros [A B]. split; [symmetry; exact A|]. intros s H. symmetry. apply B, H. Qed.
Lemma same_defaults_sym p p' : same_defaults p p' -> same_defaults p' p.
Proof. intros (A & B & C). split; [|split]; intros d; symmetry; auto. Qed.
(** Both directions: it is enough to give some calls for each that are harmless changes of each other. *)
Definition eqv (B B' : list Ast.stmt) : Prop := le B B' /\ le B' B.
Lemma eqv_some B B' : same_defaults B B' -> (forall n, n ∈ mentioned B <-> n ∈ mentioned B') ->
  (forall name nd ed pre, exists l l', body_calls name nd ed pre B l /\ body_calls name nd ed pre B' l' /\ harmless l l' name (mentioned pre)) -> eqv B B'.
Proof.
  intros D M H. split; (split; [auto using same_defaults_sym|]; split; [auto; intros n; symmetry; apply M|]); intros name nd ed pre k K; destruct (H name nd ed pre) as (l & l' & L & L' & E).
  - exists l'. split; [exact L'|]. eapply harmless_trans; [apply trace_harmless; eapply body_det; [exact K|exact L]|exact E].
  - exists l. split; [exact L|]. eapply harmless_trans; [apply trace_harmless; eapply body_det; [exact K|exact L']|apply harmless_sym, E].
Qed.

Ltac dfl := split; [|split]; reflexivity.
Lemma union_empty_l (m : attrs) : ∅ ∪ m = m.
Proof. apply (left_id_L ∅ (∪)). Qed.
Lemma union_empty_r (m : attrs) : m ∪ ∅ = m.
Proof. apply (right_id_L ∅ (∪)). Qed.
(** Statements whose calls are equal. *)
Lemma eqv_same s s' : same_defaults [s] [s'] -> (forall n, n ∈ mentions s <-> n ∈ mentions s') ->
  (forall name nd ed pre l, stmt_calls name nd ed pre s l -> stmt_calls name nd ed pre s' l) -> eqv [s] [s'].
Proof.
  intros D M H. apply eqv_some; [exact D|intros n; unfold mentioned; cbn [flat_map]; rewrite !app_nil_r; apply M|].
  intros name nd ed pre. destruct (body_total name nd ed [s] pre) as [l Hl]. exists l, l. split; [exact Hl|]. split; [|apply harmless_refl]. apply body_one, H, body_one, Hl.
Qed.
Lemma r_node_attrs n a a' : given a = given a' -> eqv [Ast.SNode n a] [Ast.SNode n a'].
Proof. intros E. apply eqv_same; [dfl|reflexivity|]. intros name nd ed pre l H. inversion H; subst. rewrite E. constructor. Qed.
Lemma r_edge_attrs src rhs a a' : given a = given a' -> eqv [Ast.SEdge src rhs a] [Ast.SEdge src rhs a'].
Proof. intros E. apply eqv_same; [dfl|reflexivity|]. intros name nd ed pre l H. inversion H; subst. rewrite E. constructor. assumption. Qed.
Lemma r_node_default a a' : given a = given a' -> eqv [Ast.SNodeAttrs a] [Ast.SNodeAttrs a'].
Proof. intros E. apply eqv_same; [split; [|split]; intros d; cbn; rewrite ?E; reflexivity|reflexivity|]. intros name nd ed pre l H. inversion H; subst. constructor. Qed.
Lemma r_edge_default a a' : given a = given a' -> eqv [Ast.SEdgeAttrs a] [Ast.SEdgeAttrs a'].
Proof. intros E. apply eqv_same; [split; [|split]; intros d; cbn; rewrite ?E; reflexivity|reflexivity|]. intros name nd ed pre l H. inversion H; subst. constructor. Qed.
Lemma r_graph_default a a' : given a = given a' -> eqv [Ast.SGraphAttrs a] [Ast.SGraphAttrs a'].
Proof. intros E. apply eqv_same; [split; [|split]; intros d; cbn; rewrite ?E; reflexivity|reflexivity|]. intros name nd ed pre l H. inversion H; subst. constructor. rewrite <- E. assumption. Qed.
(** Two statements. *)
Lemma body_two name nd ed pre s1 s2 l1 l2 : stmt_calls name nd ed pre s1 l1 -> stmt_calls name nd ed (pre ++ [s1]) s2 l2 -> body_calls name nd ed pre [s1; s2] (l1 ++ l2).
Proof. intros H1 H2. eapply Bc_cons; [exact H1|]. apply body_one. exact H2. Qed.
Lemma two_nil name nd ed pre s1 s2 : stmt_calls name nd ed pre s1 [] -> stmt_calls name nd ed (pre ++ [s1]) s2 [] -> body_calls name nd ed pre [s1; s2] [].
Proof. intros. apply (body_two _ _ _ _ _ _ [] []); assumption. Qed.
Lemma r_no_node : eqv [Ast.SNodeAttrs []] [].
Proof.
  apply eqv_some; [split; [|split]; intros d; cbn; rewrite ?given_nil, ?union_empty_l; reflexivity|reflexivity|].
  intros name nd ed pre. exists [], []. split; [apply body_one; constructor|]. split; [constructor|apply harmless_refl].
Qed.
Lemma r_no_edge : eqv [Ast.SEdgeAttrs []] [].
Proof.
  apply eqv_some; [split; [|split]; intros d; cbn; rewrite ?given_nil, ?union_empty_l; reflexivity|reflexivity|].
  intros name nd ed pre. exists [], []. split; [apply body_one; constructor|]. split; [constructor|apply harmless_refl].
Qed.
Lemma r_no_graph : eqv [Ast.SGraphAttrs []] [].
Proof.
  apply eqv_some; [split; [|split]; intros d; cbn; rewrite ?given_nil, ?union_empty_l; reflexivity|reflexivity|].
  intros name nd ed pre. exists [], []. split; [apply body_one, (Sc_graph_attrs _ _ _ _ [] []); reflexivity|]. split; [constructor|apply harmless_refl].
Qed.
Lemma r_nodes a b : eqv [Ast.SNodeAttrs a; Ast.SNodeAttrs b] [Ast.SNodeAttrs (a ++ b)].
Proof.
  apply eqv_some; [split; [|split]; intros d; cbn; rewrite ?given_app, ?(assoc_L (∪)); reflexivity|reflexivity|].
  intros name nd ed pre. exists [], []. split; [apply two_nil; constructor|]. split; [apply body_one; constructor|apply harmless_refl].
Qed.
Lemma r_edges a b : eqv [Ast.SEdgeAttrs a; Ast.SEdgeAttrs b] [Ast.SEdgeAttrs (a ++ b)].
Proof.
  apply eqv_some; [split; [|split]; intros d; cbn; rewrite ?given_app, ?(assoc_L (∪)); reflexivity|reflexivity|].
  intros name nd ed pre. exists [], []. split; [apply two_nil; constructor|]. split; [apply body_one; constructor|apply harmless_refl].
Qed.
Lemma block_ok (name : gostr) (m : attrs) (l : list (gostr * gostr)) : l ≡ₚ map_to_list m -> Forall call_ok (map (fun kv => CAddAttr name kv.1 kv.2) l) <-> forall k, is_Some (m !! k) -> valid_attr k.
Proof.
  intros P. rewrite Forall_fmap, Forall_forall. split.
  - intros H k [v Hv]. apply (H (k, v)); [|reflexivity]. rewrite P. apply elem_of_map_to_list. exact Hv.
  - intros H [k v] Hk x E. cbn in E. subst x. apply H. exists v. apply elem_of_map_to_list. rewrite <- P. exact Hk.
Qed.
Lemma union_valid (m1 m2 : attrs) : (forall k, is_Some ((m1 ∪ m2) !! k) -> valid_attr k) <-> (forall k, is_Some (m1 !! k) -> valid_attr k) /\ (forall k, is_Some (m2 !! k) -> valid_attr k).
Proof.
  setoid_rewrite lookup_union_is_Some. split; [intros H; split; intros k Hk; apply H; auto|intros [H H'] k [X|X]; auto].
Qed.
Lemma r_graphs a b : eqv [Ast.SGraphAttrs a; Ast.SGraphAttrs b] [Ast.SGraphAttrs (a ++ b)].
Proof.
  apply eqv_some; [split; [|split]; intros d; cbn; rewrite ?given_app, ?(assoc_L (∪)); reflexivity|reflexivity|].
  intros name nd ed pre. eexists _, _. split; [apply body_two; constructor; reflexivity|]. split; [apply body_one; constructor; reflexivity|].
  split.
  - rewrite Forall_app, (block_ok name _ (map_to_list (given a))), (block_ok name _ (map_to_list (given b))), (block_ok name _ (map_to_list (given (a ++ b)))) by reflexivity. rewrite given_app, union_valid. tauto.
  - intros s _. rewrite fold_left_app, (block_any name _ (map_to_list (given a))), (block_any name _ (map_to_list (given b))), (block_any name _ (map_to_list (given (a ++ b)))) by reflexivity. rewrite given_app.
    destruct (decide (given a = ∅)) as [->|Ha]; [rewrite union_empty_r; reflexivity|].
    destruct (decide (given b = ∅)) as [->|Hb]; [rewrite union_empty_l, decide_False by exact Ha; reflexivity|].
    rewrite decide_False; [apply put_attrs_twice|]. intros E. apply Hb. apply map_eq. intros k. apply (f_equal (fun m : attrs => m !! k)) in E. rewrite lookup_union, lookup_empty in E. rewrite lookup_empty.
    destruct (given b !! k); [|reflexivity]. destruct (given a !! k); discriminate E.
Qed.
Lemma put_node_twice s p n m1 m2 : s_put_node (s_put_node s p n m1) p n m2 = s_put_node s p n (m2 ∪ m1).
Proof.
  apply sgraph_ext; try reflexivity; cbn.
  - rewrite lookup_insert, insert_insert. cbn. unfold id. rewrite (assoc_L (∪)). reflexivity.
  - rewrite lookup_insert. reflexivity.
  - set_solver.
Qed.
Lemma r_node_twice n a b : eqv [Ast.SNode n a; Ast.SNode n b] [Ast.SNode n (a ++ b)].
Proof.
  apply eqv_some; [dfl| |].
  - intros x. unfold mentioned. cbn. rewrite !elem_of_cons. tauto.
  - intros name nd ed pre. eexists _, _. split; [apply body_two; constructor|]. split; [apply body_one; constructor|].
    rewrite nd_app, mentioned_app. rewrite (decide_True (P := node_text n ∈ _ ++ _)) by (apply elem_of_app; right; left). rewrite union_empty_r, given_app.
    set (D := if decide _ then _ else _). split.
    + cbn [app]. rewrite !Forall_cons, Forall_nil. unfold call_ok. cbn [uses]. rewrite !union_valid. tauto.
    + intros s _. cbn [app fold_left s_build]. rewrite put_node_twice, (assoc_L (∪)). reflexivity.
Qed.
Lemma r_attr_twice k v w : eqv [Ast.SAttr (Ast.Attr k v); Ast.SAttr (Ast.Attr k w)] [Ast.SAttr (Ast.Attr k w)].
Proof.
  apply eqv_some; [dfl|reflexivity|]. intros name nd ed pre. eexists _, _. split; [apply body_two; constructor|]. split; [apply body_one; constructor|]. split.
  - cbn [app]. rewrite !Forall_cons, Forall_nil. unfold call_ok. cbn [uses Ast.at_field]. tauto.
  - intros s _. cbn [app fold_left s_build Ast.at_field Ast.at_value]. rewrite put_attrs_twice. f_equal. apply map_eq. intros x. rewrite lookup_union.
    destruct (decide (x = k)) as [->|X]; [rewrite !lookup_singleton; reflexivity|]. rewrite !lookup_singleton_ne by congruence. reflexivity.
Qed.

(** ** Node and edge calls, and attributes *)
Definition light (c : call) : Prop := match c with CAddNode _ _ _ | CAddPortEdge _ _ _ _ _ _ => True | _ => False end.
Lemma endpoint_light name d seen lo : Forall light (endpoint_call name d seen lo).
Proof. destruct lo; cbn; [destruct (decide _)|]; repeat constructor. Qed.
Lemma arrows_light name d m rhs : forall seen src, Forall light (arrow_calls name d m seen src rhs).
Proof. induction rhs as [|[op dst] rhs IH]; intros seen src; cbn; [constructor|]. apply Forall_app. split; [apply endpoint_light|]. constructor; [exact I|apply IH]. Qed.
Lemma plain_locs name nd ed pre ls l : Forall is_plain ls -> locs_calls name nd ed pre ls l -> l = [].
Proof.
  intros F. revert l. induction F as [|lo ls Hl _ IH]; intros l H; inversion H; subst; [reflexivity|apply IH; assumption|contradiction].
Qed.
Lemma light_stmt name nd ed pre s l : nodes_and_edges s -> stmt_calls name nd ed pre s l -> Forall light l.
Proof.
  intros N H. inversion H; subst; try contradiction; [repeat constructor|]. destruct N as [N1 N2].
  assert (l0 = []) as ->. { eapply plain_locs; [|eassumption]. constructor; [exact N1|]. apply Forall_fmap. exact N2. }
  rewrite app_nil_r. apply Forall_app. split; [apply endpoint_light|apply arrows_light].
Qed.
Lemma light_body name nd ed B : Forall nodes_and_edges B -> forall pre l, body_calls name nd ed pre B l -> Forall light l.
Proof.
  induction 1 as [|s B Hs _ IH]; intros pre l H; inversion H; subst; [constructor|]. apply Forall_app. split; [eapply light_stmt; eassumption|eapply IH; eassumption].
Qed.
Lemma light_put_attrs c s n m : light c -> s_build (s_put_attrs s n m) c = s_put_attrs (s_build s c) n m.
Proof. destruct c; try contradiction; intros _; cbn [s_build]; unfold s_put_attrs, s_put_node; cbn; destruct (decide _); reflexivity. Qed.
Lemma lights_put_attrs l n m : Forall light l -> forall s, fold_left s_build l (s_put_attrs s n m) = s_put_attrs (fold_left s_build l s) n m.
Proof. induction 1 as [|c l Hc _ IH]; intros s; [reflexivity|]. cbn [fold_left]. rewrite light_put_attrs by exact Hc. apply IH. Qed.
Lemma light_open c s p n : light c -> s_build (s_open_sub s p n) c = s_open_sub (s_build s c) p n.
Proof.
  destruct c; try contradiction; intros _; cbn [s_build]; [reflexivity|]. apply sgraph_ext; try reflexivity. cbn. set_solver.
Qed.
Lemma lights_open l p n : Forall light l -> forall s, fold_left s_build l (s_open_sub s p n) = s_open_sub (fold_left s_build l s) p n.
Proof. induction 1 as [|c l Hc _ IH]; intros s; [reflexivity|]. cbn [fold_left]. rewrite light_open by exact Hc. apply IH. Qed.
Lemma open_known s p n : (p, n) ∈ s_rels s -> is_Some (s_subs s !! n) -> s_open_sub s p n = s.
Proof.
  intros H [x E]. apply sgraph_ext; try reflexivity; cbn.
  - rewrite E. cbn. apply insert_id. exact E.
  - apply (subseteq_union_1_L {[(p, n)]} (s_rels s)). apply singleton_subseteq_l. exact H.
Qed.
Lemma open_twice s p n m : s_put_attrs (s_open_sub (s_put_attrs (s_open_sub s p n) n m) p n) n m = s_put_attrs (s_open_sub s p n) n m.
Proof.
  rewrite open_known, put_attrs_twice, (idemp_L (∪)); [reflexivity| |].
  - rewrite put_attrs_rels. cbn. apply elem_of_union_l, elem_of_singleton. reflexivity.
  - unfold s_put_attrs. destruct (decide _); cbn; rewrite lookup_insert; eauto.
Qed.
Lemma mentioned_two s1 s2 : mentioned [s1; s2] = mentions s1 ++ mentions s2.
Proof. unfold mentioned. cbn. rewrite app_nil_r. reflexivity. Qed.
Lemma plain_any name nd ed pre pre' ls l : Forall is_plain ls -> locs_calls name nd ed pre ls l -> locs_calls name nd ed pre' ls l.
Proof.
  intros F. revert l. induction F as [|lo ls Hl _ IH]; intros l H; inversion H; subst; [constructor|constructor; apply IH; assumption|contradiction].
Qed.
Lemma swap_calls d s name nd ed pre l : unconcerned d s -> stmt_calls name nd ed pre s l -> stmt_calls name nd ed (pre ++ [d]) s l.
Proof.
  intros U H. assert (Em : mentioned (pre ++ [d]) = mentioned pre) by (rewrite mentioned_app; destruct d; try contradiction; apply app_nil_r).
  assert (Ed : forall m, (forall n a, s = Ast.SNode n a -> node_defaults m [d] = m) /\ (forall src r a, s = Ast.SEdge src r a -> node_defaults m [d] = m /\ edge_defaults m [d] = m)).
  { intros m. split; intros; subst; destruct d; try contradiction; auto. }
  destruct s as [n a|src r a|a|a|a|g|a].
  - inversion H; subst. pose proof (Sc_node name nd ed (pre ++ [d]) n a) as X. rewrite nd_app, Em in X.
    rewrite (proj1 (Ed _) n a eq_refl) in X. exact X.
  - assert (N : nodes_and_edges (Ast.SEdge src r a)) by (destruct d; cbn in U; try contradiction; exact U). destruct N as [N1 N2]. inversion H; subst.
    match goal with X : locs_calls _ _ _ _ _ ?l0 |- _ => pose proof (Sc_edge name nd ed (pre ++ [d]) src r a l0) as Y end. rewrite nd_app, ed_app, Em in Y.
    rewrite (proj1 (proj2 (Ed _) src r a eq_refl)), (proj2 (proj2 (Ed _) src r a eq_refl)) in Y. apply Y. eapply plain_any; [|eassumption]. constructor; [exact N1|]. apply Forall_fmap. exact N2.
  - inversion H; subst. constructor.
  - inversion H; subst. constructor.
  - inversion H; subst. constructor. assumption.
  - destruct d; contradiction.
  - inversion H; subst. constructor.
Qed.
(** ... and the other way round. *)
Lemma swap_calls2 d s name nd ed pre l : unconcerned d s -> stmt_calls name nd ed pre d l -> stmt_calls name nd ed (pre ++ [s]) d l.
Proof. intros U H. destruct d; try contradiction; inversion H; subst; constructor. assumption. Qed.
Lemma swap_build d s name nd ed pre l l' : unconcerned d s -> stmt_calls name nd ed pre d l -> stmt_calls name nd ed pre s l' ->
  forall t, fold_left s_build l' (fold_left s_build l t) = fold_left s_build l (fold_left s_build l' t).
Proof.
  intros U H H' t. destruct d as [n a|src r a|a|a|a|g|[f v]]; try contradiction; inversion H; subst; try reflexivity.
  - assert (L : Forall light l') by (eapply light_stmt; [|exact H']; exact U). rewrite !(block_any name (given a)) by assumption. destruct (decide _); [reflexivity|]. apply lights_put_attrs, L.
  - assert (L : Forall light l') by (eapply light_stmt; [|exact H']; exact U). cbn [fold_left s_build]. apply lights_put_attrs, L.
Qed.
Lemma r_swap d s : unconcerned d s -> eqv [d; s] [s; d].
Proof.
  intros U. apply eqv_some.
  - split; [|split]; intros q; destruct d, s; try contradiction; reflexivity.
  - intros n. rewrite !mentioned_two, !elem_of_app. tauto.
  - intros name nd ed pre. destruct (proj1 total d name nd ed pre) as [l H]. destruct (proj1 total s name nd ed pre) as [l' H'].
    exists (l ++ l'), (l' ++ l). split; [apply body_two; [exact H|apply swap_calls; assumption]|]. split; [apply body_two; [exact H'|apply swap_calls2; assumption]|]. split.
    + rewrite !Forall_app. tauto.
    + intros t _. rewrite !fold_left_app. eapply swap_build; eassumption.
Qed.
(** ** Chains *)
Lemma arrow_cons name d m seen src op dst rhs : arrow_calls name d m seen src (Ast.EdgeRH op dst :: rhs) =
  endpoint_call name d seen dst ++ CAddPortEdge (end_name src) (end_port src) (end_name dst) (end_port dst) op m :: arrow_calls name d m (seen ++ plain dst) dst rhs.
Proof. reflexivity. Qed.
Lemma seen_endpoint name d seen n : Ast.nid_id n ∈ seen -> endpoint_call name d seen (Ast.LNode n) = [].
Proof. intros H. cbn. rewrite decide_True by exact H. reflexivity. Qed.
Lemma r_chain src op n op' dst rhs a : is_plain src ->
  eqv [Ast.SEdge src (Ast.EdgeRH op (Ast.LNode n) :: Ast.EdgeRH op' dst :: rhs) a]
      [Ast.SEdge src [Ast.EdgeRH op (Ast.LNode n)] a; Ast.SEdge (Ast.LNode n) (Ast.EdgeRH op' dst :: rhs) a].
Proof.
  intros P. destruct src as [s0|]; [|contradiction]. apply eqv_some; [dfl| |].
  - intros x. rewrite mentioned_two. unfold mentioned. cbn. rewrite !elem_of_cons, !app_nil_r. tauto.
  - intros name nd ed pre. destruct (locs_total name nd ed pre (map dst_of (Ast.EdgeRH op' dst :: rhs))) as [l Hl].
    eexists _, _. split; [apply body_one, Sc_edge; constructor; constructor; exact Hl|].
    split; [apply body_two; [apply Sc_edge; constructor; constructor; constructor|]|].
    { apply Sc_edge. constructor. apply (proj1 (proj2 pre_change) _ _ _ _ _ _ Hl). split; [|split]; intros q; rewrite ?nd_app, ?ed_app, ?gd_app; reflexivity. }
    rewrite nd_app, ed_app. cbn [node_defaults edge_defaults].
    replace (mentioned (pre ++ [Ast.SEdge (Ast.LNode s0) [Ast.EdgeRH op (Ast.LNode n)] a])) with (mentioned pre ++ [Ast.nid_id s0; Ast.nid_id n]) by (rewrite mentioned_app; reflexivity).
    set (D := node_defaults nd pre). set (m := given a ∪ edge_defaults ed pre). set (M := mentioned pre).
    match goal with |- harmless ?x ?y _ _ => replace y with x; [apply harmless_refl|] end.
    rewrite (arrow_cons _ _ _ _ _ op (Ast.LNode n) (_ :: _)), (arrow_cons _ _ _ _ _ op (Ast.LNode n) []).
    rewrite (seen_endpoint _ _ (M ++ [Ast.nid_id s0; Ast.nid_id n])) by (apply elem_of_app; right; right; left).
    rewrite app_nil_r, <- !app_assoc. set (r := Ast.EdgeRH op' dst :: rhs). cbn [app]. f_equal. f_equal. f_equal. cbn [arrow_calls app]. f_equal.
    apply arrows_agree. intros y _. cbn [plain]. rewrite !elem_of_app, !elem_of_cons. tauto.
Qed.
(** ** Declaring nodes first *)
Fixpoint decls (name : gostr) (d : attrs) (seen : list gostr) (L : list gostr) : list call :=
  match L with [] => [] | i :: L' => CAddNode name i (if decide (i ∈ seen) then ∅ else d) :: decls name d (seen ++ [i]) L' end.
Lemma decls_body name nd ed L : forall pre, body_calls name nd ed pre (map (fun i => Ast.SNode (bare_node i) []) L) (decls name (node_defaults nd pre) (mentioned pre) L).
Proof.
  induction L as [|i L IH]; intros pre; [constructor|]. cbn [map decls]. specialize (IH (pre ++ [Ast.SNode (bare_node i) []])).
  assert (E : node_text (bare_node i) = i) by apply app_nil_r. rewrite nd_app, mentioned_app in IH. change (mentioned [Ast.SNode (bare_node i) []]) with [node_text (bare_node i)] in IH. cbn [node_defaults] in IH. rewrite E in IH.
  apply (Bc_cons _ _ _ _ _ _ [_]); [|exact IH]. pose proof (Sc_node name nd ed pre (bare_node i) []) as X. rewrite E, given_nil, union_empty_l in X. exact X.
Qed.
Lemma decls_more name d L es : forall seen s, fold_left s_build (decls name d seen L) (more_edges s es) = more_edges (fold_left s_build (decls name d seen L) s) es.
Proof. induction L as [|i L IH]; intros seen s; [reflexivity|]. cbn [decls fold_left s_build]. rewrite <- IH. reflexivity. Qed.
Lemma decls_known name d L : forall seen s, (forall n, n ∈ L -> n ∈ seen) -> (forall n, n ∈ seen -> present s name n) -> fold_left s_build (decls name d seen L) s = s.
Proof.
  induction L as [|i L IH]; intros seen s H P; [reflexivity|]. cbn [decls fold_left s_build]. rewrite decide_True by (apply H; left). rewrite put_present by (apply P, H; left).
  apply IH; [intros n Hn; apply elem_of_app; left; apply H; right; exact Hn|]. intros n Hn. apply P. apply elem_of_app in Hn. destruct Hn as [Hn|Hn]; [exact Hn|]. apply elem_of_list_singleton in Hn. subst. apply H. left.
Qed.
Fixpoint arrow_list (m : attrs) (src : Ast.location) (rhs : list Ast.edge_rh) : list edge :=
  match rhs with [] => [] | Ast.EdgeRH op dst :: rhs' => Edge (end_name src) (end_port src) (end_name dst) (end_port dst) op m :: arrow_list m dst rhs' end.
Lemma more_more s a b : more_edges (more_edges s a) b = more_edges s (a ++ b).
Proof. unfold more_edges, s_with_edges. cbn. rewrite <- app_assoc. reflexivity. Qed.
Lemma more_nil s : more_edges s [] = s.
Proof. destruct s. unfold more_edges, s_with_edges. cbn. rewrite app_nil_r. reflexivity. Qed.
Lemma endpoint_decl name d seen lo s : (forall n, n ∈ seen -> present s name n) ->
  fold_left s_build (endpoint_call name d seen lo) s = fold_left s_build (decls name d seen (plain lo)) s.
Proof.
  intros P. destruct lo as [n|g]; [|reflexivity]. cbn. destruct (decide _) as [X|X]; cbn; [|reflexivity]. symmetry. apply put_present, P, X.
Qed.
Lemma decls_app name d L1 L2 : forall seen, decls name d seen (L1 ++ L2) = decls name d seen L1 ++ decls name d (seen ++ L1) L2.
Proof. induction L1 as [|i L1 IH]; intros seen; cbn; [rewrite app_nil_r; reflexivity|]. rewrite IH, <- app_assoc. reflexivity. Qed.
Lemma decls_present name d L : forall seen s, (forall n, n ∈ seen -> present s name n) -> forall n, n ∈ seen ++ L -> present (fold_left s_build (decls name d seen L) s) name n.
Proof.
  intros seen s P n Hn. apply elem_of_app in Hn. destruct Hn as [Hn|Hn]; [apply present_fold, P, Hn|].
  assert (X : exists m, CAddNode name n m ∈ decls name d seen L); [|destruct X as [m X]; eapply present_added; exact X].
  clear P s. revert seen. induction L as [|i L IH]; intros seen; [inversion Hn|]. cbn [decls]. apply elem_of_cons in Hn. destruct Hn as [->|Hn].
  - eexists. left.
  - destruct (IH Hn (seen ++ [i])) as [m X]. exists m. right. exact X.
Qed.
Definition plains (rhs : list Ast.edge_rh) : list gostr := flat_map (fun e => plain (dst_of e)) rhs.
Lemma arrows_decl name d m rhs : forall seen src s, (forall n, n ∈ seen -> present s name n) ->
  fold_left s_build (arrow_calls name d m seen src rhs) s = more_edges (fold_left s_build (decls name d seen (plains rhs)) s) (arrow_list m src rhs).
Proof.
  induction rhs as [|[op dst] rhs IH]; intros seen src s P; [symmetry; apply more_nil|]. rewrite arrow_cons. unfold plains. cbn [flat_map dst_of arrow_list]. fold (plains rhs).
  rewrite fold_left_app, (endpoint_decl _ _ _ _ _ P). cbn [fold_left s_build]. rewrite decls_app, fold_left_app.
  match goal with |- fold_left s_build _ (s_with_edges ?t _) = _ => etransitivity; [apply (IH (seen ++ plain dst) dst (more_edges t [Edge (end_name src) (end_port src) (end_name dst) (end_port dst) op m]))|] end.
  2: rewrite decls_more, more_more; reflexivity.
  intros n Hn. apply (decls_present name d (plain dst) seen s P n Hn).
Qed.
Definition arrow_ok (m : attrs) (rhs : list Ast.edge_rh) : Prop := rhs = [] \/ forall k, is_Some (m !! k) -> valid_attr k.
Lemma endpoint_ok name d seen lo : Forall call_ok (endpoint_call name d seen lo) <-> Forall call_ok (decls name d seen (plain lo)).
Proof.
  destruct lo as [n|g]; [|reflexivity]. cbn. destruct (decide _); [|reflexivity]. split; [intros _|intros _; constructor]. constructor; [apply ok_empty_node|constructor].
Qed.
Lemma arrows_ok name d m rhs : forall seen src, Forall call_ok (arrow_calls name d m seen src rhs) <-> Forall call_ok (decls name d seen (plains rhs)) /\ arrow_ok m rhs.
Proof.
  induction rhs as [|[op dst] rhs IH]; intros seen src.
  - cbn. split; [intros _; split; [constructor|left; reflexivity]|intros _; constructor].
  - rewrite arrow_cons. unfold plains. cbn [flat_map dst_of]. fold (plains rhs). rewrite decls_app, !Forall_app, Forall_cons, IH, endpoint_ok. unfold call_ok at 2. cbn [uses]. unfold arrow_ok.
    split; [intros (A & B & C & _); split; [tauto|right; exact B]|]. intros [[A B] [C|C]]; [discriminate C|]. tauto.
Qed.
Lemma decls_known_ok name d L : forall seen, (forall n, n ∈ L -> n ∈ seen) -> Forall call_ok (decls name d seen L).
Proof.
  induction L as [|i L IH]; intros seen H; [constructor|]. cbn [decls]. rewrite decide_True by (apply H; left). constructor; [apply ok_empty_node|].
  apply IH. intros n Hn. apply elem_of_app. left. apply H. right. exact Hn.
Qed.
Lemma bare_defaults L d : node_defaults d (map (fun i => Ast.SNode (bare_node i) []) L) = d /\ edge_defaults d (map (fun i => Ast.SNode (bare_node i) []) L) = d /\
  graph_defaults d (map (fun i => Ast.SNode (bare_node i) []) L) = d.
Proof. induction L as [|i L IH]; [auto|]. exact IH. Qed.
Lemma bare_mentioned L : mentioned (map (fun i => Ast.SNode (bare_node i) []) L) = L.
Proof. induction L as [|i L IH]; [reflexivity|]. unfold mentioned in *. cbn [map flat_map mentions app]. rewrite IH. f_equal. apply app_nil_r. Qed.
Lemma r_declare src rhs a : eqv [Ast.SEdge src rhs a] (map (fun i => Ast.SNode (bare_node i) []) (plain src ++ plains rhs) ++ [Ast.SEdge src rhs a]).
Proof.
  set (L := plain src ++ plains rhs). set (B := map (fun i => Ast.SNode (bare_node i) []) L). assert (SD : forall q, same_defaults q (q ++ B)).
  { intros q. split; [|split]; intros d; rewrite ?nd_app, ?ed_app, ?gd_app; symmetry; apply bare_defaults. }
  apply eqv_some.
  - apply (same_defaults_app [] B); [apply (SD [])|apply same_defaults_refl].
  - intros n. rewrite mentioned_app. unfold B at 1. rewrite bare_mentioned. unfold mentioned. cbn [flat_map mentions]. fold (plains rhs). fold L. rewrite !elem_of_app. tauto.
  - intros name nd ed pre. destruct (locs_total name nd ed pre (src :: map dst_of rhs)) as [l Hl].
    eexists _, _. split; [apply body_one, Sc_edge; exact Hl|].
    split; [eapply body_join; [apply decls_body|]; apply body_one, Sc_edge; apply (proj1 (proj2 pre_change) _ _ _ _ _ _ Hl), SD|].
    destruct (SD pre) as (E1 & E2 & _). fold B. rewrite <- E1, <- E2. replace (mentioned (pre ++ B)) with (mentioned pre ++ L) by (rewrite mentioned_app; unfold B; rewrite bare_mentioned; reflexivity).
    set (D := node_defaults nd pre). set (m := given a ∪ edge_defaults ed pre). set (M := mentioned pre). split.
    + rewrite !Forall_app, !arrows_ok, !endpoint_ok. unfold L at 1. rewrite decls_app, Forall_app.
      assert (K1 : Forall call_ok (decls name D (M ++ L) (plain src))) by (apply decls_known_ok; intros n Hn; unfold L; rewrite !elem_of_app; auto).
      assert (K2 : Forall call_ok (decls name D ((M ++ L) ++ plain src) (plains rhs))) by (apply decls_known_ok; intros n Hn; unfold L; rewrite !elem_of_app; auto). tauto.
    + intros s P. rewrite !fold_left_app. f_equal. rewrite (endpoint_decl _ _ _ _ _ P).
      rewrite arrows_decl by (apply decls_present; exact P). rewrite <- fold_left_app, <- decls_app. fold L.
      set (t := fold_left s_build (decls name D M L) s). assert (Pt : forall n, n ∈ M ++ L -> present t name n) by (apply decls_present; exact P).
      rewrite (endpoint_decl _ _ _ _ _ Pt). rewrite (decls_known name D (plain src)) by (try exact Pt; intros n Hn; unfold L; rewrite !elem_of_app; auto).
      assert (Pt' : forall n, n ∈ (M ++ L) ++ plain src -> present t name n).
      { intros n Hn. apply Pt. unfold L in *. rewrite !elem_of_app in *. tauto. }
      rewrite arrows_decl by exact Pt'. rewrite decls_known by (try exact Pt'; intros n Hn; unfold L; rewrite !elem_of_app; auto). reflexivity.
Qed.
(** ** One subgraph in two parts *)
Lemma body_calls_nd A : Forall nodes_and_edges A -> same_defaults [] A.
Proof. induction 1 as [|s A Hs _ IH]; [dfl|]. destruct s; try contradiction; exact IH. Qed.
Lemma r_merge id A B : Forall nodes_and_edges A -> (forall n, n ∈ mentioned A -> n ∉ mentioned B) ->
  eqv [Ast.SSub (Ast.SubGraph id A); Ast.SSub (Ast.SubGraph id B)] [Ast.SSub (Ast.SubGraph id (A ++ B))].
Proof.
  intros NA Dis. apply eqv_some; [dfl|reflexivity|]. intros name nd ed pre.
  destruct (body_total id (node_defaults nd pre) (edge_defaults ed pre) A []) as [lA HA].
  destruct (body_total id (node_defaults nd pre) (edge_defaults ed pre) B []) as [lB HB].
  exists ((CAddSubGraph name id (graph_defaults ∅ pre) :: lA) ++ (CAddSubGraph name id (graph_defaults ∅ pre) :: lB)), (CAddSubGraph name id (graph_defaults ∅ pre) :: lA ++ lB).
  split.
  { apply body_two; [constructor; constructor; exact HA|]. constructor.
    replace (graph_defaults ∅ pre) with (graph_defaults ∅ (pre ++ [Ast.SSub (Ast.SubGraph id A)])) by (rewrite gd_app; reflexivity). constructor. rewrite nd_app, ed_app. exact HB. }
  split.
  { apply body_one. constructor. constructor. eapply body_join; [exact HA|]. apply (body_pre _ _ _ _ _ _ HB); [apply body_calls_nd, NA|].
    intros n Hn. split; [intros X; inversion X|]. intros X. destruct (Dis n X Hn). }
  pose proof (light_body _ _ _ _ NA _ _ HA) as LA. split.
  - rewrite Forall_app, !Forall_cons, Forall_app. tauto.
  - intros s _. rewrite fold_left_app. cbn [fold_left s_build]. rewrite fold_left_app. f_equal. rewrite !(lights_put_attrs lA) by exact LA. rewrite !(lights_open lA) by exact LA. apply open_twice.
Qed.

(** ** All rules *)
Scheme same_stmts_i := Minimality for same_stmts Sort Prop
  with same_loc_i := Minimality for same_loc Sort Prop
  with same_rhs_i := Minimality for same_rhs Sort Prop.
Combined Scheme same_ind from same_stmts_i, same_loc_i, same_rhs_i.
Lemma eqv_refl B : eqv B B.
Proof. split; apply le_refl. Qed.
Lemma sound : (forall B B', same_stmts B B' -> eqv B B') /\ (forall l l', same_loc l l' -> le_loc l l' /\ le_loc l' l) /\
  (forall r r', same_rhs r r' -> Forall2 le_rh r r' /\ Forall2 le_rh r' r).
Proof.
  apply (same_ind (fun B B' => eqv B B') (fun l l' => le_loc l l' /\ le_loc l' l) (fun r r' => Forall2 le_rh r r' /\ Forall2 le_rh r' r)).
  - intros b. apply eqv_refl.
  - intros b b' _ [H H']. split; assumption.
  - intros b1 b2 b3 _ [H1 H1'] _ [H2 H2']. split; eapply le_trans; eassumption.
  - intros b1 b1' b2 b2' _ [H1 H1'] _ [H2 H2']. split; apply le_app; assumption.
  - intros id b b' _ [H H']. split; apply le_sub; assumption.
  - intros src src' rhs rhs' a _ [H1 H1'] _ [H2 H2']. split; apply le_edge; assumption.
  - apply r_node_attrs.
  - apply r_edge_attrs.
  - apply r_node_default.
  - apply r_edge_default.
  - apply r_graph_default.
  - apply r_no_node.
  - apply r_no_edge.
  - apply r_no_graph.
  - apply r_nodes.
  - apply r_edges.
  - apply r_graphs.
  - apply r_node_twice.
  - apply r_attr_twice.
  - apply r_swap.
  - intros. apply r_chain. assumption.
  - apply r_declare.
  - apply r_merge.
  - intros n. split; reflexivity.
  - intros id b b' _ [H H']. split; split; auto.
  - split; constructor.
  - intros op l l' r r' _ [H1 H1'] _ [H2 H2']. split; constructor; auto; split; auto.
Qed.
(** The graphs. *)
Lemma same_bodies name B B' l l' s : same_stmts B B' -> body_calls name ∅ ∅ [] B l -> body_calls name ∅ ∅ [] B' l' ->
  (Forall call_ok l <-> Forall call_ok l') /\ fold_left s_build l s = fold_left s_build l' s.
Proof.
  intros H HB HB'. destruct (proj1 sound _ _ H) as [(_ & _ & X) _]. destruct (X _ _ _ _ _ HB) as (l2 & H2 & O & E).
  pose proof (trace_harmless l2 l' name [] (body_det _ _ _ _ _ _ H2 _ HB')) as [O' E']. split; [rewrite O; exact O'|]. rewrite E by (intros n Hn; inversion Hn). apply E'. intros n Hn. inversion Hn.
Qed.
