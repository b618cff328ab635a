(** Proofs for C87. *)
From Verif Require Import Base Parser Maps Graph Direct MapFacts SpecGraph GraphProofs DirectProofs Analyse SpecAnalyse AnalyseProofs ReadProofs SpecOrder OrderProofs PropsGraph PropsOrder SpecMerge MergeProofs SpecRewrite RewriteProofs SpecAst LexPrint SpecLines.
From Verif Require Ast SpecBody BodyProofs AstProofs.

Notation att kv := (Ast.Attr kv.1 kv.2).
Definition block (l : list (gostr * gostr)) : list (list Ast.attr) := [map (fun kv => att kv) l].
Lemma alist_fold (l : list (gostr * gostr)) : forall acc,
  fold_left (fun s x => s ++ lit ", " ++ Ast.attr_str [] x) (map (fun kv => att kv) l) acc = acc ++ concat (map (fun kv => lit ", " ++ assign kv) l).
Proof. induction l as [|[k v] l IH]; intros acc; cbn [map fold_left concat]; [symmetry; apply app_nil_r|]. rewrite IH, <- !app_assoc. reflexivity. Qed.
Lemma bracketed_str l : bracketed l = Ast.attr_list_str (block l).
Proof.
  destruct l as [|[k v] l]; [reflexivity|]. unfold Ast.attr_list_str, block. cbn [fold_left map]. unfold Ast.alist_str. rewrite alist_fold.
  destruct (Ast.attr_str [] (att (k, v)) ++ _) as [|x r] eqn:E; [unfold Ast.attr_str in E; cbn in E; destruct k; discriminate E|]. rewrite <- E. unfold bracketed. rewrite <- !app_assoc. reflexivity.
Qed.
Lemma block_wf l : ids l -> wf_attrs is_id (block l).
Proof. intros H. constructor; [|constructor]. apply Forall_fmap. eapply Forall_impl; [exact H|]. intros [k v] [A B]. split; assumption. Qed.
Lemma port_same p : port_text p = Ast.port_str p.
Proof. destruct p as [[|? ?] [|? ?]]; try reflexivity. unfold Ast.port_str. cbn [Ast.port_id1 Ast.port_id2]. rewrite app_nil_r. reflexivity. Qed.
Lemma concat_norm a : concat (norm_attrs a) = concat a.
Proof. induction a as [|[|x l] a IH]; cbn; [reflexivity|exact IH|]. f_equal. f_equal. exact IH. Qed.
Lemma given_norm a : given (norm_attrs a) = given a.
Proof. unfold given. rewrite concat_norm. reflexivity. Qed.
Lemma given_block l m : l ≡ₚ map_to_list m -> given (norm_attrs (block l)) = m.
Proof.
  intros P. rewrite given_norm. unfold given, block. cbn [concat]. rewrite app_nil_r, map_map. cbn. rewrite (map_ext _ (fun x => x)) by (intros []; reflexivity). rewrite map_id.
  assert (P' : rev l ≡ₚ map_to_list m) by (rewrite <- P; symmetry; apply Permutation_rev).
  assert (N : NoDup (rev l).*1) by (rewrite P'; apply NoDup_fst_map_to_list).
  rewrite (list_to_map_proper (rev l) (map_to_list m) N P'). apply list_to_map_to_list.
Qed.
Fixpoint within_path (path : list gostr) (s : Ast.stmt) : Ast.stmt :=
  match path with [] => s | p :: path' => Ast.SSub (Ast.SubGraph p [within_path path' s]) end.
Definition attr_stmts (l : list (gostr * gostr)) : list Ast.stmt := map (fun kv => Ast.SAttr (att kv)) l.

(** Dot.AddEdge is AddPortEdge without ports. *)
Definition ported (c : call) : call := match c with CAddEdge a b d m => CAddPortEdge a [] b [] d m | _ => c end.
(** The statement that the line is. *)
Inductive line_stmt (top : gostr) (s : sgraph) : call -> Ast.stmt -> Prop :=
| K_node path n m l : leads s top path -> is_id n -> l ≡ₚ map_to_list m ->
    line_stmt top s (CAddNode (List.last path top) n m) (within_path path (Ast.SNode (Ast.NodeID n (Ast.Port [] [])) (norm_attrs (block l))))
| K_edge a p b q directed m l : at_top s top a -> at_top s top b -> l ≡ₚ map_to_list m ->
    line_stmt top s (CAddPortEdge a (port_text p) b (port_text q) directed m) (Ast.SEdge (Ast.LNode (Ast.NodeID a p)) [Ast.EdgeRH directed (Ast.LNode (Ast.NodeID b q))] (norm_attrs (block l)))
| K_attr path k v : leads s top path -> line_stmt top s (CAddAttr (List.last path top) k v) (within_path path (Ast.SAttr (att (k, v))))
| K_sub path n m l : leads s top path -> l ≡ₚ map_to_list m ->
    line_stmt top s (CAddSubGraph (List.last path top) n m) (within_path path (Ast.SSub (Ast.SubGraph n (attr_stmts l)))).

Section Says.
  Variable rnd : nat -> N.
  Notation says := (SpecBody.says rnd).
  Lemma says_inside k path : Forall is_id path -> forall t st, says k t [st] k -> says k (inside path t) [within_path path st] k.
  Proof.
    induction 1 as [|p path Hp _ IH]; intros t st H; cbn [inside within_path]; [exact H|]. apply BodyProofs.says_sub; [exact Hp|]. apply IH. exact H.
  Qed.
  Lemma says_assign k kv : is_id kv.1 -> is_id kv.2 -> says k (assign kv) [Ast.SAttr (att kv)] k.
  Proof. intros A B. apply (BodyProofs.says_stmt rnd k (Ast.SAttr (att kv))); [split; assumption|reflexivity]. Qed.
  Lemma says_assigns k l : ids l -> says k (concat (map (fun kv => assign kv ++ newline) l)) (attr_stmts l) k.
  Proof.
    induction 1 as [|kv l [A B] _ IH]; cbn [map concat attr_stmts].
    - apply BodyProofs.says_iff. exists []. split; [apply BodyProofs.lexc_nl|left; auto].
    - rewrite <- app_assoc. apply (BodyProofs.says_join rnd k _ [Ast.SAttr (att kv)] k); [apply says_assign; assumption|exact IH].
  Qed.
  Lemma says_line k top s c t : line top s c t -> exists st, says k t [st] k /\ line_stmt top s (ported c) st.
  Proof.
    intros H. destruct H as [path n m l L Ip In P Il|a b d m l Ta Tb Ia Ib P Il|a p b q d m l Ta Tb Ia Ib P Il|path key v L Ip Ik Iv|path n m l L Ip In P Il].
    - eexists. split; [apply says_inside; [exact Ip|]|apply K_node; eassumption]. rewrite bracketed_str.
      pose proof (BodyProofs.says_node rnd k (Ast.NodeID n (Ast.Port [] [])) (block l)) as X. cbn in X. unfold Ast.node_id_str in X. cbn in X. rewrite app_nil_r in X. apply X; [split; [exact In|exact I]|apply block_wf, Il].
    - eexists. split; [|apply (K_edge top s a (Ast.Port [] []) b (Ast.Port [] []) d m l Ta Tb P)].
      rewrite bracketed_str. pose proof (BodyProofs.says_edge rnd k (Ast.LNode (Ast.NodeID a (Ast.Port [] []))) [(d, Ast.LNode (Ast.NodeID b (Ast.Port [] [])))] (block l)) as X.
      cbn [map concat fst snd norm_loc] in X. unfold BodyProofs.hop in X. cbn [fst snd Ast.location_str] in X. unfold Ast.node_id_str, Ast.port_str in X. cbn [Ast.nid_id Ast.nid_port Ast.port_id1] in X. rewrite !app_nil_r, <- !app_assoc in X. apply X; [split; [exact Ia|exact I]|reflexivity|discriminate| |apply block_wf, Il].
      constructor; [|constructor]. split; [split; [exact Ib|exact I]|reflexivity].
    - eexists. split; [|apply (K_edge top s a p b q d m l Ta Tb P)].
      rewrite bracketed_str, !port_same. pose proof (BodyProofs.says_edge rnd k (Ast.LNode (Ast.NodeID a p)) [(d, Ast.LNode (Ast.NodeID b q))] (block l)) as X.
      cbn [map concat fst snd norm_loc] in X. unfold BodyProofs.hop in X. cbn [fst snd Ast.location_str] in X. unfold Ast.node_id_str in X. cbn [Ast.nid_id Ast.nid_port] in X. rewrite !app_nil_r, <- !app_assoc in X. apply X; [exact Ia|reflexivity|discriminate| |apply block_wf, Il].
      constructor; [|constructor]. split; [exact Ib|reflexivity].
    - eexists. split; [apply says_inside; [exact Ip|]|apply K_attr; exact L]. apply says_assign; assumption.
    - eexists. split; [apply says_inside; [exact Ip|]|apply K_sub; eassumption]. apply BodyProofs.says_sub; [exact In|]. apply says_assigns. exact Il.
  Qed.
End Says.

(** ** The calls of the statements *)
Lemma gd_line pre : Forall no_default pre -> graph_defaults ∅ pre = ∅ /\ node_defaults ∅ pre = ∅ /\ edge_defaults ∅ pre = ∅.
Proof. induction 1 as [|s pre H _ IH]; [auto|]. destruct s; try contradiction; exact IH. Qed.
Lemma opened s top p : is_child s top p -> s_is_sub s p -> s_put_attrs (s_open_sub s top p) p ∅ = s.
Proof.
  intros C [a E]. rewrite open_known; [|exact C|eauto]. unfold s_put_attrs. destruct (decide _); apply sgraph_ext; try reflexivity; cbn.
  - apply (left_id_L ∅ (∪)).
  - rewrite E. cbn. rewrite (left_id_L ∅ (∪)). apply insert_id. exact E.
Qed.
Lemma ok_empty_sub p n : call_ok (CAddSubGraph p n ∅).
Proof. intros k [x H]. rewrite lookup_empty in H. discriminate. Qed.
(** What a statement does inside a path. *)
Definition does (top : gostr) (s : sgraph) (st : Ast.stmt) (c : call) : Prop :=
  forall pre, Forall no_default pre -> exists l, stmt_calls top ∅ ∅ pre st l /\ (Forall call_ok l <-> call_ok c) /\ fold_left s_build l s = s_build s c.
Lemma does_path path : forall top s st c, leads s top path -> does (List.last path top) s st c -> does top s (within_path path st) c.
Proof.
  induction path as [|p path IH]; intros top s st c L H; [exact H|]. destruct L as (C & S & L). cbn [within_path].
  assert (H' : does p s (within_path path st) c).
  { apply IH; [exact L|]. replace (List.last path p) with (List.last (p :: path) top); [exact H|]. destruct path as [|q path]; [reflexivity|]. cbn [List.last].
    clear. revert q. induction path as [|r path IH]; intros q; [reflexivity|]. apply IH. }
  intros pre ND. destruct (gd_line pre ND) as (G & N & D). destruct (H' [] (Forall_nil_2 _)) as (l & Hl & O & E).
  exists (CAddSubGraph top p ∅ :: l). split; [|split].
  - constructor. replace (CAddSubGraph top p ∅) with (CAddSubGraph top p (graph_defaults ∅ pre)) by (rewrite G; reflexivity). constructor. rewrite N, D. apply body_one. exact Hl.
  - rewrite Forall_cons, O. pose proof (ok_empty_sub top p). tauto.
  - cbn [fold_left s_build]. rewrite opened by assumption. exact E.
Qed.
Lemma attr_calls n pre (l : list (gostr * gostr)) : body_calls n ∅ ∅ pre (attr_stmts l) (map (fun kv => CAddAttr n kv.1 kv.2) l).
Proof.
  revert pre. induction l as [|kv l IH]; intros pre; cbn [attr_stmts map]; [constructor|]. apply (Bc_cons _ _ _ _ _ _ [_]); [constructor|apply IH].
Qed.
Lemma does_line top s c st : line_stmt top s c st -> does top s st c.
Proof.
  intros [path n m l L In P|a p b q d m l [Na Ca] [Nb Cb] P|path k v L|path n m l L P].
  - apply does_path; [exact L|]. intros pre ND. destruct (gd_line pre ND) as (_ & N & _).
    assert (E : node_text (Ast.NodeID n (Ast.Port [] [])) = n) by apply app_nil_r.
    eexists. split; [apply Sc_node|]. rewrite E, N, (given_block l m P).
    replace (if decide (n ∈ mentioned pre) then ∅ else ∅) with (∅ : attrs) by (destruct (decide _); reflexivity). rewrite (right_id_L ∅ (∪)).
    split; [|reflexivity]. rewrite Forall_singleton. reflexivity.
  - intros pre ND. destruct (gd_line pre ND) as (_ & N & D). eexists. split; [apply Sc_edge; constructor; constructor; constructor|].
    rewrite N, D, (given_block l m P), (right_id_L ∅ (∪)), app_nil_r. cbn [arrow_calls end_name end_port Ast.nid_id Ast.nid_port]. rewrite app_nil_r || idtac.
    assert (X : forall lo seen, (exists i r, lo = Ast.LNode (Ast.NodeID i r) /\ present s top i) -> Forall call_ok (endpoint_call top ∅ seen lo) /\ fold_left s_build (endpoint_call top ∅ seen lo) s = s).
    { intros lo seen (i & r & -> & Pi). cbn. destruct (decide _); [split; [constructor|reflexivity]|]. split; [constructor; [apply ok_empty_node|constructor]|]. cbn [fold_left s_build]. apply put_present, Pi. }
    destruct (X (Ast.LNode (Ast.NodeID a p)) (mentioned pre)) as [Oa Ea]; [exists a, p; split; [reflexivity|split; assumption]|].
    destruct (X (Ast.LNode (Ast.NodeID b q)) (mentioned pre ++ plain (Ast.LNode (Ast.NodeID a p)))) as [Ob Eb]; [exists b, q; split; [reflexivity|split; assumption]|].
    split; [rewrite !Forall_app, Forall_singleton; tauto|]. rewrite !fold_left_app, Ea, Eb. reflexivity.
  - apply does_path; [exact L|]. intros pre ND. eexists. split; [constructor|]. split; [rewrite Forall_singleton; reflexivity|reflexivity].
  - apply does_path; [exact L|]. set (q := List.last path top). intros pre ND. destruct (gd_line pre ND) as (G & N & D).
    exists (CAddSubGraph q n ∅ :: map (fun kv => CAddAttr n kv.1 kv.2) l). split; [|split].
    + constructor. replace (CAddSubGraph q n ∅) with (CAddSubGraph q n (graph_defaults ∅ pre)) by (rewrite G; reflexivity). constructor. rewrite N, D. apply attr_calls.
    + rewrite Forall_cons. assert (Y : Forall call_ok (map (fun kv => CAddAttr n kv.1 kv.2) l) <-> call_ok (CAddSubGraph q n m)).
      { rewrite Forall_fmap. unfold compose. rewrite P. unfold call_ok. cbn. split.
        - intros F k [v Hk]. apply (List.Forall_forall) with (x := (k, v)) in F; [apply F; reflexivity|]. apply elem_of_list_In, elem_of_map_to_list, Hk.
        - intros F. apply List.Forall_forall. intros [k v] Hk k' ->. apply elem_of_list_In, elem_of_map_to_list in Hk. apply F. eauto. }
      pose proof (ok_empty_sub q n). tauto.
    + cbn [fold_left s_build]. rewrite (block_any n m l P). destruct (decide (m = ∅)) as [->|Nm]; [reflexivity|]. rewrite put_attrs_twice. f_equal. apply (right_id_L ∅ (∪)).
Qed.

(** ** One call *)
Lemma last_shift (path : list gostr) : forall p top, List.last (p :: path) top = List.last path p.
Proof.
  assert (X : forall (l : list gostr) q d d', List.last (q :: l) d = List.last (q :: l) d').
  { induction l as [|r l IH]; intros q d d'; [reflexivity|]. exact (IH r d d'). }
  destruct path as [|q path]; intros p top; [reflexivity|]. exact (X path q top p).
Qed.
Lemma leads_last s path : forall top, leads s top path -> List.last path top = top \/ s_is_sub s (List.last path top).
Proof.
  induction path as [|p path IH]; intros top L; [left; reflexivity|]. destruct L as (_ & S & L). rewrite last_shift. right. destruct (IH p L) as [-> |X]; assumption.
Qed.
Lemma ported_ok c : call_ok (ported c) <-> call_ok c.
Proof. destruct c; reflexivity. Qed.
Lemma valid_call_ok (m : attrs) : all_valid m <-> (forall k, is_Some (m !! k) -> valid_attr k).
Proof. symmetry. apply all_valid_uses. Qed.
Lemma bad_not m e : bad_attr m e -> ~ all_valid m.
Proof. intros (k & v & H & N & _) A. apply N. exact (A k v H). Qed.
Lemma step_line o top c t g : fair o -> built g -> s_name (view g) = top -> line top (view g) c t ->
  ((exec o c g).2 = None <-> call_ok c) /\ ((exec o c g).2 = None -> view (exec o c g).1 = s_build (view g) (ported c)).
Proof.
  intros F B Nm H. pose proof (C23_refinement_step o c g F B) as S. destruct (exec o c g) as [g' r]. cbn [fst snd] in *.
  revert Nm H S. generalize (view g) as s, (view g') as s'. intros s s' Nm H S.
  assert (A : forall (m : attrs) (e : option err) (X : Prop), (X <-> (forall k, is_Some (m !! k) -> valid_attr k)) -> (e = None /\ all_valid m \/ (exists x, e = Some x /\ bad_attr m x)) -> (e = None <-> X)).
  { intros m e X HX [[-> Hm]|(x & -> & Hm)]; rewrite HX, <- valid_call_ok; [tauto|]. split; [discriminate|]. intros V. destruct (bad_not _ _ Hm V). }
  destruct H as [path n m l L Ip In P Il|a b d m l Ta Tb Ia Ib P Il|a p b q d m l Ta Tb Ia Ib P Il|path key v L Ip Ik Iv|path n m l L Ip In P Il].
  - split; [apply (A m); [reflexivity|]; inversion S; subst; eauto|]. intros ->. inversion S; subst. reflexivity.
  - split; [apply (A m); [reflexivity|]; inversion S; subst; eauto|]. intros ->. inversion S; subst. reflexivity.
  - split; [apply (A m); [reflexivity|]; inversion S; subst; eauto|]. intros ->. inversion S; subst. reflexivity.
  - assert (K : s_name s = List.last path top \/ s_is_sub s (List.last path top)).
    { destruct (leads_last _ _ _ L) as [E|E]; [left; congruence|right; exact E]. }
    unfold call_ok. cbn [uses]. inversion S; subst; split.
    + split; [intros _ k ->; assumption|reflexivity].
    + intros _. reflexivity.
    + split; [discriminate|]. intros V. match goal with X : ~ valid_attr key |- _ => destruct (X (V key eq_refl)) end.
    + discriminate.
    + destruct K; contradiction.
    + discriminate.
  - split; [apply (A m); [reflexivity|]; inversion S; subst; eauto|]. intros ->. inversion S; subst. reflexivity.
Qed.
Lemma line_plain top s c st : line_stmt top s c st -> no_default st.
Proof. assert (X : forall path st0, no_default st0 -> no_default (within_path path st0)) by (intros [|p path] st0 H; [exact H|exact I]). intros []; try apply X; exact I. Qed.
Lemma ported_name s c : s_name (s_build s c) = s_name s.
Proof. apply build_name. Qed.
Lemma succeeds_cons o c h g : succeeds ((o, c) :: h) g <-> (exec o c g).2 = None /\ succeeds h (exec o c g).1.
Proof.
  unfold succeeds. cbn [run]. destruct (exec o c g) as [g1 r]. cbn [fst snd]. destruct (run h g1) as [g2 rs]. cbn [snd]. rewrite Forall_cons. reflexivity.
Qed.
Lemma run_cons o c h g : (run ((o, c) :: h) g).1 = (run h (exec o c g).1).1.
Proof. cbn [run]. destruct (exec o c g) as [g1 r]. cbn [fst]. destruct (run h g1) as [g2 rs]. reflexivity. Qed.
Lemma lines_core rnd k top g h t : lines top g h t -> Forall (fun oc => fair oc.1) h ->
  exists ss, SpecBody.says rnd k t ss k /\ Forall no_default ss /\
  (built g -> s_name (view g) = top -> forall pre, Forall no_default pre -> exists l, body_calls top ∅ ∅ pre ss l /\
    (Forall call_ok l <-> succeeds h g) /\ (succeeds h g -> fold_left s_build l (view g) = view (run h g).1)).
Proof.
  induction 1 as [g|g o c h t t' L _ IH]; intros F.
  - exists []. split; [apply BodyProofs.says_iff; exists []; split; [apply BodyProofs.lexc_nl|left; auto]|]. split; [constructor|]. intros _ _ pre _. exists []. split; [constructor|].
    split; [split; intros _; constructor|reflexivity].
  - inversion F as [|? ? Fo Fh]; subst. cbn [fst] in Fo. destruct (IH Fh) as (ss & Hs & ND & K). destruct (says_line rnd k _ _ _ _ L) as (st & Hst & LS).
    exists (st :: ss). split; [exact (BodyProofs.says_join rnd k _ [st] k _ ss k Hst Hs)|]. split; [constructor; [eapply line_plain; exact LS|exact ND]|].
    intros B Nm pre Np. destruct (step_line o top c t g Fo B Nm L) as [O E]. destruct (does_line _ _ _ _ LS pre Np) as (l1 & H1 & O1 & E1).
    assert (Np' : Forall no_default (pre ++ [st])) by (apply Forall_app; split; [exact Np|constructor; [eapply line_plain; exact LS|constructor]]).
    destruct ((exec o c g).2) as [e|] eqn:R.
    + destruct (body_total top ∅ ∅ ss (pre ++ [st])) as [l2 H2]. exists (l1 ++ l2). split; [eapply Bc_cons; eassumption|].
      rewrite succeeds_cons, R, Forall_app, O1, ported_ok, <- O. split; [|intros [X _]; discriminate X]. split; [intros [X _]; discriminate X|intros [X _]; discriminate X].
    + specialize (E eq_refl). destruct (K ltac:(apply built_call; assumption) ltac:(rewrite E, ported_name; exact Nm) (pre ++ [st]) Np') as (l2 & H2 & O2 & E2).
      exists (l1 ++ l2). split; [eapply Bc_cons; eassumption|]. rewrite succeeds_cons, R, Forall_app, O1, ported_ok, <- O, O2, run_cons. split; [tauto|].
      intros [_ S]. rewrite fold_left_app, E1, <- E. apply E2, S.
Qed.
