(** Sorting by calls of Less and Swap: permutations, the insertion sort of the Go library; runs of goroutines end. *)
From Coq Require Import Sorting.Sorted.
From Verif Require Import Base Maps Graph Parser Write MapFacts AttrMap HeapGraph SpecHeap HeapProofs HeapWrite SpecLook SpecWrite EdgeOrder LookProofs LookWrite.

(** ** Insertion sort *)
Section Ins.
  Context {A : Type} (less : A -> A -> bool) (SW : strict_weak less).
  (** Insertion from the end, on the reversed list *)
  Fixpoint ins_back (rp : list A) (x : A) : list A :=
    match rp with [] => [x] | y :: rp' => if less x y then y :: ins_back rp' x else x :: y :: rp' end.
  Lemma ins_back_perm rp x : ins_back rp x ≡ₚ x :: rp.
  Proof. induction rp as [|y rp IH]; cbn; [done|]. destruct (less x y); [|done]. rewrite IH. by apply Permutation_swap. Qed.
  Lemma less_asym x y : less x y = true -> less y x = false.
  Proof. destruct SW as (I & T & _). intros H. destruct (less y x) eqn:E; [|done]. by rewrite <- (I x), (T x y x). Qed.
  Lemma nless_trans x y z : less x y = false -> less y z = false -> less x z = false.
  Proof.
    destruct SW as (I & T & N). intros H1 H2. destruct (less x z) eqn:E; [|done].
    destruct (less y x) eqn:E1; [by rewrite (T y x z) in H2|]. destruct (less z y) eqn:E2; [by rewrite (T x z y) in H1|].
    by destruct (N x y z H1 E1 H2 E2) as [<- _].
  Qed.
  Lemma ins_back_sorted rp x : StronglySorted (fun a b => less a b = false) rp -> StronglySorted (fun a b => less a b = false) (ins_back rp x).
  Proof.
    induction 1 as [|y rp H IH F]; cbn; [repeat constructor|]. destruct (less x y) eqn:E.
    - constructor; [done|]. rewrite ins_back_perm. constructor; [by apply less_asym|done].
    - constructor; [by constructor|]. constructor; [done|]. eapply Forall_impl; [exact F|]. cbn. intros z Z. by eapply nless_trans.
  Qed.
  Lemma sift_spec k rp : forall x post,
    sort_with less (sift (length rp) k) (rev rp ++ x :: post) = sort_with less k (rev (ins_back rp x) ++ post).
  Proof.
    induction rp as [|y rp IH]; intros x post; [done|]. cbn [length sift sort_with rev].
    assert (E1 : ((rev rp ++ [y]) ++ x :: post) !! S (length rp) = Some x).
    { apply list_lookup_middle. rewrite app_length, rev_length. cbn. lia. }
    assert (E2 : ((rev rp ++ [y]) ++ x :: post) !! length rp = Some y).
    { rewrite <- app_assoc. apply list_lookup_middle. by rewrite rev_length. }
    assert (AS : ask less (S (length rp)) (length rp) ((rev rp ++ [y]) ++ x :: post) = less x y) by (unfold ask; by rewrite E1, E2).
    rewrite AS. cbn [ins_back]. destruct (less x y); cbn [sort_with rev]; [|by rewrite <- !app_assoc].
    assert (SWP : swapped (S (length rp)) (length rp) ((rev rp ++ [y]) ++ x :: post) = rev rp ++ x :: y :: post).
    { unfold swapped. rewrite E1, E2. rewrite <- app_assoc. cbn [app].
      replace (S (length rp)) with (length (rev rp) + 1) by (rewrite rev_length; lia). replace (length rp) with (length (rev rp) + 0) at 1 by (rewrite rev_length; lia).
      rewrite !insert_app_r. done. }
    rewrite SWP, IH, <- app_assoc. done.
  Qed.
  Lemma sift_all_spec m : forall rp post, length post = m -> StronglySorted (fun a b => less a b = false) rp ->
    exists rp', sort_with less (sift_all (length rp) m) (rev rp ++ post) = rev rp' /\ StronglySorted (fun a b => less a b = false) rp'.
  Proof.
    induction m as [|m IH]; intros rp post L ST; cbn [sift_all].
    - destruct post; [|done]. rewrite app_nil_r. exists rp. done.
    - destruct post as [|x post]; [done|]. injection L as L. rewrite sift_spec.
      replace (S (length rp)) with (length (ins_back rp x)) by (by rewrite (Permutation_length (ins_back_perm rp x))).
      apply IH; [done|]. by apply ins_back_sorted.
  Qed.
  Lemma rev_sorted (R : A -> A -> Prop) l : StronglySorted R l -> StronglySorted (fun a b => R b a) (rev l).
  Proof.
    induction 1 as [|x l H IH F]; cbn; [constructor|].
    assert (G : Forall (R x) (rev l)) by (by rewrite <- Permutation_rev).
    clear H F. revert IH G. generalize (rev l). clear l. intros l. induction l as [|y l IH]; cbn; [repeat constructor|].
    intros S G. inversion S as [|? ? S1 S2]; subst. inversion G as [|? ? G1 G2]; subst. constructor; [by apply IH|].
    apply Forall_app. split; [done|]. by repeat constructor.
  Qed.
  Lemma insertion_sorted l : StronglySorted (fun x y => less y x = false) (sort_with less (insertion_sort (length l)) l).
  Proof.
    destruct l as [|x l]; [constructor|]. unfold insertion_sort. cbn [length]. replace (S (length l) - 1) with (length l) by lia.
    destruct (sift_all_spec (length l) [x] l eq_refl) as (rp & E & S); [repeat constructor|]. cbn [length rev app] in E. rewrite E.
    by apply (rev_sorted _ rp).
  Qed.
End Ins.
Lemma sift_range n j k : j < n -> in_range n k -> in_range n (sift j k).
Proof. revert k. induction j as [|j IH]; intros k L R; cbn [sift in_range]; [done|]. split; [done|]. split; [lia|]. intros []; [|done]. cbn. split; [done|]. split; [lia|]. apply IH; [lia|done]. Qed.
Lemma sift_all_range n m : forall i, i + m <= n -> in_range n (sift_all i m).
Proof. induction m as [|m IH]; intros i L; cbn [sift_all]; [done|]. apply sift_range; [lia|]. apply IH. lia. Qed.
Lemma insertion_good : good_sort insertion_sort.
Proof.
  split.
  - intros [|n]; [done|]. apply sift_all_range. lia.
  - intros A less l SW. by apply insertion_sorted.
Qed.
Lemma edge_less_weak o : fair o -> strict_weak (edge_less o).
Proof.
  intros F. split; [|split].
  - intros x. apply not_true_iff_false. rewrite (edge_less_spec o) by done. apply edge_before_irrefl.
  - intros x y z. rewrite !(edge_less_spec o) by done. apply edge_before_trans.
  - intros x y z. rewrite <- !not_true_iff_false, !(edge_less_spec o) by done. intros H1 H2 H3 H4.
    destruct (edge_tricho x y) as [T|[T|T]]; [done| |done]. destruct (edge_tricho y z) as [T'|[T'|T']]; [done| |done].
    split; intros B; [apply H3|apply H4].
    + eapply same_key_before; [exact T| |exact B]. repeat split; reflexivity.
    + eapply same_key_before; [|exact T|exact B]. repeat split; reflexivity.
Qed.
Lemma good_sorts sort o : good_sort sort -> fair o -> sorts (edge_less o) (sort_edges sort o).
Proof. intros [_ G] F l. split; [apply sort_with_perm|]. apply G. by apply edge_less_weak. Qed.

(** ** Every run ends *)
Definition after_step {A} (p' p : prog A) : Prop :=
  match p with
  | Ret _ | Fail _ | Crash | Deep => False
  | Get _ k => exists x, p' = k x
  | Put _ _ k => p' = k
  | NewMap k => exists x, p' = k x
  | NewArr _ k => exists x, p' = k x
  | Pick _ k => exists x, p' = k x
  end.
Lemma after_step_acc {A} (p : prog A) : Acc after_step p.
Proof.
  induction p as [a|e| | |T c k IH|T c x k IH|k IH|n k IH|T l k IH]; constructor; cbn [after_step]; intros p' H'.
  1-4: destruct H'.
  - destruct H' as [x ->]. apply IH.
  - subst p'. exact IH.
  - destruct H' as [x ->]. apply IH.
  - destruct H' as [x ->]. apply IH.
  - destruct H' as [x ->]. apply IH.
Qed.
Definition some_step {A} (ps' ps : list (prog A)) : Prop := exists i p p', ps !! i = Some p /\ after_step p' p /\ ps' = <[i := p']> ps.
Lemma some_step_acc {A} (ps : list (prog A)) : Acc some_step ps.
Proof.
  induction ps as [|p ps IH]; [constructor; intros ? (i & p & p' & E & _); done|].
  revert ps IH. induction (after_step_acc p) as [p _ IHp]. intros ps IHps. induction IHps as [ps IHps1 IHps2].
  constructor. intros ps' (i & q & q' & E & S & ->). destruct i as [|i]; cbn in *.
  - injection E as <-. apply IHp; [done|]. by constructor.
  - apply IHps2. exists i, q, q'. done.
Qed.
Lemma pool_acc {A} (s : world * list (prog A)) : Acc (fun s' s => pool_step s s') s.
Proof.
  destruct s as [w ps]. revert w. induction (some_step_acc ps) as [ps _ IH]. intros w. constructor. intros [w' ps'] (i & p & p' & x & E & H & E'). cbn in *. subst ps'.
  apply IH. exists i, p, p'. split; [done|]. split; [|done]. destruct p; cbn [act after_step] in *; try (by destruct H); [destruct H as (v & _ & _ & _ & ->); eauto|by destruct H as (_ & _ & _ & ->)|destruct H as (_ & _ & ->); eauto..|destruct H as (l' & _ & _ & _ & ->); eauto].
Qed.

(** ** The graph is unchanged *)
Lemma pool_look {A} w0 Q w (ps : list (prog A)) ows T (c : cell T) x : pool_ok w0 Q w ps ows -> look w0 c = Some x -> look w c = Some x.
Proof.
  intros O. destruct c; cbn [look].
  - by rewrite (po_graph _ _ _ _ _ O).
  - apply (po_maps _ _ _ _ _ O).
  - by rewrite (po_nobjs _ _ _ _ _ O).
  - by rewrite (po_eobjs _ _ _ _ _ O).
  - by rewrite (po_sobjs _ _ _ _ _ O).
  - apply (po_arrs _ _ _ _ _ O).
Qed.
Lemma pool_abs {A} w0 Q w (ps : list (prog A)) ows : inv w0 -> pool_ok w0 Q w ps ows -> abs w = abs w0.
Proof.
  intros I O. destruct w as [h' g'], w0 as [h g]. pose proof (po_graph _ _ _ _ _ O) as EG. cbn in EG. subst g'.
  pose proof (po_maps _ _ _ _ _ O) as PM. pose proof (po_arrs _ _ _ _ _ O) as PA. pose proof (po_eobjs _ _ _ _ _ O) as PE. pose proof (po_sobjs _ _ _ _ _ O) as PS.
  pose proof (po_nobjs _ _ _ _ _ O) as PN. pose proof (po_narrs _ _ _ _ _ O) as PR. cbn [fst snd] in PM, PA, PE, PS, PN, PR.
  assert (M : forall a l, ref h g a = Some l -> at_map h' l = at_map h l).
  { intros a l R. apply (i_bound _ I) in R. apply (wh_maps _ (i_heap _ I)) in R as [m R]. cbn in R. unfold at_map. rewrite R. by rewrite (PM l m R). }
  assert (E : forall p, p < next (eobjs h) -> abs_edge h' p = abs_edge h p).
  { intros p L. apply abs_edge_ext; [by rewrite PE|]. apply (wh_eobjs _ (i_heap _ I)) in L as [e L]. cbn in L. apply (M (OEdge p)). cbn. unfold at_edge. by rewrite L. }
  unfold abs. f_equal.
  - by apply (M OGraph).
  - apply abs_nodes_ext; [done|done|]. intros p n P. apply (M (ONode p)). cbn. by rewrite P.
  - pose proof (i_edges _ I) as [W1 W2 W3 W4]. cbn in W1, W2, W3, W4. unfold abs_edges. f_equal; [by apply abs_index_ext|by apply abs_index_ext|].
    assert (EL : elems (earrs h') (he_edges (hg_edges g)) = elems (earrs h) (he_edges (hg_edges g))).
    { unfold elems, array. f_equal. destruct W1 as [L _]. apply (wh_earrs _ (i_heap _ I)) in L as [x L]. cbn in L. rewrite L. by rewrite (PA _ _ L). }
    rewrite EL. apply map_ext_Forall. eapply Forall_impl; [exact W2|]. cbn. intros p Hp. by apply E.
  - apply abs_subs_ext; [apply (i_subs _ I)|]. intros n p l Hn Hp. split; [by rewrite PS|]. apply (M (OSub p)). cbn. by rewrite Hp.
Qed.
