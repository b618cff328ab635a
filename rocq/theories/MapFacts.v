(** Facts about maps, their iteration, and sorted keys. *)
From stdpp Require Import sorting.
From Verif Require Import Maps Graph SpecGraph.

(** ** Strings *)
Lemma str_eqb_eq a : forall b, str_eqb a b = true <-> a = b.
Proof.
  induction a as [|x a IH]; intros [|y b]; cbn; try (split; congruence).
  rewrite andb_true_iff, Ascii.eqb_eq, IH. split; [intros [-> ->]; reflexivity|intros [= -> ->]; auto].
Qed.
Lemma str_eqb_refl a : str_eqb a a = true.
Proof. apply str_eqb_eq. reflexivity. Qed.
Lemma str_eqb_neq a b : str_eqb a b = false <-> a <> b.
Proof. rewrite <- not_true_iff_false, str_eqb_eq. reflexivity. Qed.
Lemma str_eqb_sym a b : str_eqb a b = str_eqb b a.
Proof. destruct (str_eqb a b) eqn:E; symmetry; [apply str_eqb_eq in E; subst; apply str_eqb_refl|]. apply str_eqb_neq. apply str_eqb_neq in E. congruence. Qed.

Lemma bv_inj a b : bv a = bv b -> a = b.
Proof. intros H. rewrite <- (Ascii.ascii_N_embedding a), <- (Ascii.ascii_N_embedding b). unfold bv in H. rewrite H. reflexivity. Qed.

Lemma str_ltb_irrefl a : str_ltb a a = false.
Proof. induction a as [|x a IH]; cbn; [reflexivity|]. rewrite N.ltb_irrefl. exact IH. Qed.
Lemma str_ltb_trans a : forall b c, str_ltb a b = true -> str_ltb b c = true -> str_ltb a c = true.
Proof.
  induction a as [|x a IH]; intros [|y b] [|z c]; cbn; try congruence.
  destruct (N.ltb_spec (bv x) (bv y)), (N.ltb_spec (bv y) (bv z)), (N.ltb_spec (bv x) (bv z)); try lia; try congruence;
  destruct (N.ltb_spec (bv y) (bv x)), (N.ltb_spec (bv z) (bv y)), (N.ltb_spec (bv z) (bv x)); try lia; try congruence.
  apply IH.
Qed.
Lemma str_ltb_total a : forall b, str_ltb a b = false -> str_ltb b a = false -> a = b.
Proof.
  induction a as [|x a IH]; intros [|y b]; cbn; try congruence.
  destruct (N.ltb_spec (bv x) (bv y)), (N.ltb_spec (bv y) (bv x)); try lia; try congruence.
  intros H1 H2. rewrite (IH b H1 H2). f_equal. apply bv_inj. lia.
Qed.
Lemma str_ltb_asym a b : str_ltb a b = true -> str_ltb b a = false.
Proof.
  intros H. destruct (str_ltb b a) eqn:E; [|reflexivity]. pose proof (str_ltb_trans _ _ _ H E) as F. rewrite str_ltb_irrefl in F. discriminate.
Qed.
Lemma str_leb_refl a : str_leb a a = true.
Proof. unfold str_leb. rewrite str_ltb_irrefl. reflexivity. Qed.
Lemma str_leb_total a b : str_leb a b = true \/ str_leb b a = true.
Proof. unfold str_leb. destruct (str_ltb b a) eqn:E; [right; rewrite (str_ltb_asym _ _ E); reflexivity|left; reflexivity]. Qed.
Lemma str_leb_trans a b c : str_leb a b = true -> str_leb b c = true -> str_leb a c = true.
Proof.
  unfold str_leb. rewrite !negb_true_iff. intros H1 H2.
  destruct (str_ltb c a) eqn:E; [|reflexivity].
  destruct (str_ltb a b) eqn:E1; [rewrite (str_ltb_trans _ _ _ E E1) in H2; discriminate|].
  rewrite (str_ltb_total a b E1 H1) in E. congruence.
Qed.
Lemma str_leb_antisym a b : str_leb a b = true -> str_leb b a = true -> a = b.
Proof. unfold str_leb. rewrite !negb_true_iff. intros H1 H2. apply str_ltb_total; assumption. Qed.
Lemma str_leb_ltb a b : str_leb a b = true -> a <> b -> str_ltb a b = true.
Proof.
  unfold str_leb. rewrite negb_true_iff. intros H1 H2. destruct (str_ltb a b) eqn:E; [reflexivity|]. destruct (H2 (str_ltb_total a b E H1)).
Qed.

(** ** Sorting *)
Section Sort.
  Context {A : Type} (leb : A -> A -> bool).
  Hypotheses (Tot : forall a b, leb a b = true \/ leb b a = true)
    (Tr : forall a b c, leb a b = true -> leb b c = true -> leb a c = true).
  Notation le := (fun a b => leb a b = true).
  Lemma insert_by_perm x l : insert_by leb x l ≡ₚ x :: l.
  Proof. induction l as [|y l IH]; cbn; [reflexivity|]. destruct (leb x y); [reflexivity|]. rewrite IH. apply Permutation_swap. Qed.
  Lemma sort_by_perm l : sort_by leb l ≡ₚ l.
  Proof. induction l as [|x l IH]; cbn; [reflexivity|]. rewrite insert_by_perm, IH. reflexivity. Qed.
  Lemma insert_by_sorted x l : StronglySorted le l -> StronglySorted le (insert_by leb x l).
  Proof.
    induction 1 as [|y l H IH F]; cbn; [constructor; constructor|]. destruct (leb x y) eqn:E.
    - constructor; [constructor; assumption|]. constructor; [exact E|]. eapply Forall_impl; [exact F|]. intros z Hz. eapply Tr; eauto.
    - constructor; [exact IH|]. rewrite insert_by_perm. constructor; [|exact F]. destruct (Tot x y); congruence.
  Qed.
  Lemma sort_by_sorted l : StronglySorted le (sort_by leb l).
  Proof. induction l as [|x l IH]; cbn; [constructor|]. apply insert_by_sorted. exact IH. Qed.
End Sort.

Lemma sorted_perm_unique {A} (leb : A -> A -> bool) (l1 l2 : list A) :
  (forall a b, a ∈ l1 -> b ∈ l1 -> leb a b = true -> leb b a = true -> a = b) ->
  l1 ≡ₚ l2 -> StronglySorted (fun a b => leb a b = true) l1 -> StronglySorted (fun a b => leb a b = true) l2 -> l1 = l2.
Proof.
  intros Anti P H1. revert l2 P. induction H1 as [|x l1 H1 IH F1]; intros l2 P H2.
  - apply Permutation_nil_l in P. exact P.
  - destruct H2 as [|y l2 H2 F2]; [apply Permutation_nil_r in P; discriminate|].
    assert (x = y) as <-.
    { assert (Hy : y ∈ x :: l1) by (rewrite P; left). assert (Hx : x ∈ y :: l2) by (rewrite <- P; left).
      rewrite Forall_forall in F1, F2. apply elem_of_cons in Hy. apply elem_of_cons in Hx.
      destruct Hy as [->|Hy]; [reflexivity|]. destruct Hx as [->|Hx]; [reflexivity|].
      apply Anti; [left|right; exact Hy|apply F1; exact Hy|apply F2; exact Hx]. }
    f_equal. apply IH; [|apply Permutation_cons_inv in P; exact P|exact H2].
    intros a b Ha Hb. apply Anti; right; assumption.
Qed.

Lemma sort_strings_perm l : sort_strings l ≡ₚ l.
Proof. apply sort_by_perm. Qed.
Lemma sort_strings_sorted l : StronglySorted (fun a b => str_leb a b = true) (sort_strings l).
Proof. apply sort_by_sorted; [apply str_leb_total|intros a b c; apply str_leb_trans]. Qed.
(** Any sorted permutation is the one sort.Strings gives. *)
Lemma sort_strings_unique l l' : l ≡ₚ l' -> StronglySorted (fun a b => str_leb a b = true) l' -> l' = sort_strings l.
Proof.
  intros P H. apply (sorted_perm_unique str_leb).
  - intros a b _ _. apply str_leb_antisym.
  - rewrite <- P. symmetry. apply sort_strings_perm.
  - exact H.
  - apply sort_strings_sorted.
Qed.
Lemma sort_strings_proper l l' : l ≡ₚ l' -> sort_strings l = sort_strings l'.
Proof. intros P. apply sort_strings_unique; [|apply sort_strings_sorted]. rewrite <- P. symmetry. apply sort_strings_perm. Qed.

(** The keys of a set in increasing order. *)
Definition sorted (s : names) : list gostr := sort_strings (elements s).
Lemma sorted_strict s : StronglySorted (fun a b => str_ltb a b = true) (sorted s).
Proof.
  unfold sorted. pose proof (sort_strings_sorted (elements s)) as H.
  assert (N : NoDup (sort_strings (elements s))) by (rewrite sort_strings_perm; apply NoDup_elements).
  revert N. induction H as [|x l H IH F]; intros N; [constructor|]. apply NoDup_cons in N. destruct N as [N1 N2].
  constructor; [apply IH; exact N2|]. rewrite Forall_forall in *. intros y Hy. apply str_leb_ltb; [apply F; exact Hy|].
  intros ->. contradiction.
Qed.
Lemma elem_of_sorted s x : x ∈ sorted s <-> x ∈ s.
Proof. unfold sorted. rewrite sort_strings_perm, elem_of_elements. reflexivity. Qed.
Lemma sorted_perm s : sorted s ≡ₚ elements s.
Proof. apply sort_strings_perm. Qed.
Lemma NoDup_sorted s : NoDup (sorted s).
Proof. rewrite sorted_perm. apply NoDup_elements. Qed.
Lemma sorted_enum s l : l ≡ₚ elements s -> sort_strings l = sorted s.
Proof. apply sort_strings_proper. Qed.
(** Strictly increasing lists of strings are determined by their elements. *)
Lemma strict_sorted_unique l1 l2 : StronglySorted (fun a b => str_ltb a b = true) l1 -> StronglySorted (fun a b => str_ltb a b = true) l2 ->
  (forall x, x ∈ l1 <-> x ∈ l2) -> l1 = l2.
Proof.
  intros H1 H2 H.
  assert (N : forall l, StronglySorted (fun a b => str_ltb a b = true) l -> NoDup l).
  { clear. induction 1 as [|x l H IH F]; constructor; [|exact IH]. intros Hx. rewrite Forall_forall in F. specialize (F x Hx).
    cbn in F. rewrite str_ltb_irrefl in F. discriminate. }
  assert (W : forall l, StronglySorted (fun a b => str_ltb a b = true) l -> StronglySorted (fun a b => str_leb a b = true) l).
  { clear. induction 1 as [|x l H IH F]; constructor; [exact IH|]. eapply Forall_impl; [exact F|]. intros y Hy. unfold str_leb. rewrite (str_ltb_asym _ _ Hy). reflexivity. }
  apply (sorted_perm_unique str_leb); auto. - intros a b _ _. apply str_leb_antisym. - apply NoDup_Permutation; auto.
Qed.

(** ** Iterating over a map *)
Section Iter.
  Context (m : attrs) (l : list (gostr * gostr)) (P : l ≡ₚ map_to_list m).
  Lemma iter_nodup : NoDup l.*1.
  Proof. rewrite P. apply NoDup_fst_map_to_list. Qed.
  Lemma iter_map : list_to_map l = m.
  Proof. rewrite <- (list_to_map_to_list m). apply list_to_map_proper; [apply iter_nodup|exact P]. Qed.
  Lemma iter_elem k v : (k, v) ∈ l <-> m !! k = Some v.
  Proof. rewrite P. apply elem_of_map_to_list. Qed.
End Iter.

Lemma extend_nodup l : forall a : attrs, NoDup l.*1 -> extend a l = list_to_map l ∪ a.
Proof.
  induction l as [|[k v] l IH]; intros a N; [cbn; rewrite (left_id_L ∅ (∪)); reflexivity|].
  cbn in N. apply NoDup_cons in N. destruct N as [N1 N2].
  unfold extend in *. cbn [fold_left fst snd]. rewrite IH by exact N2. cbn [list_to_map foldr uncurry].
  change (list_to_map ((k, v) :: l)) with (<[k := v]> (list_to_map l : attrs)).
  rewrite <- insert_union_l, <- insert_union_r; [reflexivity|]. apply not_elem_of_list_to_map. exact N1.
Qed.
Lemma extend_enum (a m : attrs) l : l ≡ₚ map_to_list m -> extend a l = m ∪ a.
Proof. intros P. rewrite extend_nodup by (eapply iter_nodup; exact P). rewrite (iter_map m l P). reflexivity. Qed.
Lemma copy_enum (m : attrs) l : l ≡ₚ map_to_list m -> copy_attrs l = m.
Proof. intros P. transitivity (extend ∅ l); [reflexivity|]. rewrite (extend_enum ∅ m l P). apply (right_id_L ∅ (∪)). Qed.
Lemma ammend_nodup l : forall a : attrs, NoDup l.*1 -> ammend_attrs a l = a ∪ list_to_map l.
Proof.
  induction l as [|[k v] l IH]; intros a N; [cbn; rewrite (right_id_L ∅ (∪)); reflexivity|].
  cbn in N. apply NoDup_cons in N. destruct N as [N1 N2].
  unfold ammend_attrs in *. cbn [fold_left fst snd]. rewrite IH by exact N2.
  change (list_to_map ((k, v) :: l)) with (<[k := v]> (list_to_map l : attrs)).
  apply map_eq. intros k'. destruct (a !! k) as [v0|] eqn:E.
  - rewrite !lookup_union. destruct (decide (k = k')) as [<-|Hn].
    + rewrite E, lookup_insert. destruct ((list_to_map l : attrs) !! k); reflexivity.
    + rewrite lookup_insert_ne by exact Hn. reflexivity.
  - rewrite !lookup_union. destruct (decide (k = k')) as [<-|Hn].
    + rewrite E, !lookup_insert. rewrite (proj1 (not_elem_of_list_to_map (M := gmap gostr) l k) N1). reflexivity.
    + rewrite !lookup_insert_ne by exact Hn. reflexivity.
Qed.
Lemma ammend_enum (a m : attrs) l : l ≡ₚ map_to_list m -> ammend_attrs a l = a ∪ m.
Proof. intros P. rewrite ammend_nodup by (eapply iter_nodup; exact P). rewrite (iter_map m l P). reflexivity. Qed.

(** ** Valid attribute names *)
Global Instance valid_attr_dec k : Decision (valid_attr k).
Proof. unfold valid_attr. apply _. Defined.
Lemma all_valid_spec m : all_valid m <-> Forall (fun kv => valid_attr kv.1) (map_to_list m).
Proof.
  rewrite Forall_forall. split.
  - intros H [k v] Hkv. apply elem_of_map_to_list in Hkv. eapply H; eauto.
  - intros H k v Hkv. apply (H (k, v)). apply elem_of_map_to_list. exact Hkv.
Qed.
Global Instance all_valid_dec m : Decision (all_valid m).
Proof. refine (cast_if (decide (Forall (fun kv => valid_attr kv.1) (map_to_list m)))); rewrite all_valid_spec; assumption. Defined.

Lemma new_attr_spec k : new_attr k = if decide (valid_attr k) then inl k else inr (k ++ lit " is not a valid attribute").
Proof.
  unfold new_attr. destruct (existsb (str_eqb k) valid_attrs) eqn:E.
  - apply existsb_exists in E. destruct E as (x & Hx & E). apply str_eqb_eq in E. subst x.
    rewrite decide_True by (apply elem_of_list_In; exact Hx). reflexivity.
  - rewrite decide_False; [reflexivity|]. intros H. apply elem_of_list_In in H.
    assert (existsb (str_eqb k) valid_attrs = true); [|congruence]. apply existsb_exists. exists k. split; [exact H|apply str_eqb_refl].
Qed.
Lemma attrs_add_spec a k v : attrs_add a k v =
  if decide (valid_attr k) then (<[k := v]> a, None) else (a, Some (k ++ lit " is not a valid attribute")).
Proof. unfold attrs_add. rewrite new_attr_spec. destruct (decide (valid_attr k)); reflexivity. Qed.

Lemma new_attrs_loop_spec l : forall a, new_attrs_loop a l =
  if decide (Forall (fun kv => valid_attr kv.1) l) then inl (extend a l)
  else match filter (fun kv => ~ valid_attr kv.1) l with
       | kv :: _ => inr (kv.1 ++ lit " is not a valid attribute")
       | [] => inl (extend a l) end.
Proof.
  induction l as [|[k v] l IH]; intros a; cbn [new_attrs_loop].
  - rewrite decide_True by constructor. reflexivity.
  - rewrite attrs_add_spec. rewrite filter_cons. cbn [fst]. destruct (decide (valid_attr k)) as [V|V].
    + rewrite IH. destruct (decide (Forall (fun kv => valid_attr kv.1) l)) as [F|F].
      * rewrite decide_True by (constructor; assumption). reflexivity.
      * rewrite decide_False by (intros H; inversion H; contradiction).
        rewrite decide_False by (intros H; apply H; exact V). reflexivity.
    + rewrite decide_False by (intros H; inversion H; contradiction). rewrite decide_True by exact V. reflexivity.
Qed.
Lemma new_attrs_enum (m : attrs) l : l ≡ₚ map_to_list m ->
  (all_valid m /\ new_attrs l = inl m) \/
  (~ all_valid m /\ exists k v, m !! k = Some v /\ ~ valid_attr k /\ new_attrs l = inr (k ++ lit " is not a valid attribute")).
Proof.
  intros P. unfold new_attrs. rewrite new_attrs_loop_spec.
  assert (F : Forall (fun kv => valid_attr kv.1) l <-> all_valid m) by (rewrite all_valid_spec, P; reflexivity).
  destruct (decide _) as [D|D].
  - left. split; [apply F; exact D|]. rewrite (extend_enum ∅ m l P). f_equal. apply (right_id_L ∅ (∪)).
  - right. split; [intros H; apply D, F, H|]. destruct (filter _ l) as [|[k v] r] eqn:E.
    + exfalso. apply D. apply Forall_forall. intros x Hx. destruct (decide (valid_attr x.1)) as [V|V]; [exact V|].
      assert (x ∈ filter (fun kv : gostr * gostr => ~ valid_attr kv.1) l) as Hf by (apply elem_of_list_filter; auto).
      rewrite E in Hf. apply elem_of_nil in Hf. contradiction.
    + assert (Hkv : (k, v) ∈ filter (fun kv : gostr * gostr => ~ valid_attr kv.1) l) by (rewrite E; left).
      apply elem_of_list_filter in Hkv. destruct Hkv as [V Hkv]. exists k, v. split; [|auto].
      apply (iter_elem m l P). exact Hkv.
Qed.
Lemma new_attrs_nil : new_attrs [] = inl ∅.
Proof. reflexivity. Qed.
