(** A computable sufficient test for [tidy], used in the examples. *)
From stdpp Require Import sorting.
From Verif Require Import Base Parser Maps Graph AttrMap SpecGraph MapFacts GraphProofs Write SpecWrite EdgeOrder WriteProofs WriteFacts WriteFacts2 SpecRound.
From Verif Require Import LexPrint AstProofs.
From Verif Require Ast PropsEscape.

Definition goodb (i : gostr) : bool := PropsEscape.is_idb i && bool_decide (trim_space i = i).
Lemma goodb_ok i : goodb i = true -> good_id i.
Proof. intros H. apply andb_true_iff in H. destruct H as [H1 H2]. split; [apply PropsEscape.is_idb_spec; exact H1|apply bool_decide_eq_true in H2; exact H2]. Qed.

Definition part_ok (p : gostr) : bool := goodb p && bool_decide (colon ∉ p).
Definition portb (p : gostr) : bool :=
  match p with
  | [] => true
  | _ => part_ok p || existsb (fun i => bool_decide (p = take i p ++ [colon] ++ drop (S i) p) && part_ok (take i p) && part_ok (drop (S i) p)) (seq 0 (length p))
  end.
Lemma part_ok_ok p : part_ok p = true -> good_id p /\ colon ∉ p.
Proof. intros H. apply andb_true_iff in H. destruct H as [H1 H2]. split; [apply goodb_ok; exact H1|apply bool_decide_eq_true in H2; exact H2]. Qed.
Lemma portb_ok p : portb p = true -> good_port p.
Proof.
  intros H. destruct p as [|c p]; [left; reflexivity|]. unfold portb in H. apply orb_true_iff in H. destruct H as [H|H]; [right; left; apply part_ok_ok; exact H|].
  right. right. apply existsb_exists in H. destruct H as (i & _ & H). apply andb_true_iff in H. destruct H as [H H3]. apply andb_true_iff in H. destruct H as [H1 H2].
  apply bool_decide_eq_true in H1. apply part_ok_ok in H2, H3. eexists _, _. split; [exact H1|]. tauto.
Qed.

Section Check.
  Variable s : sgraph.
  Definition nodeb (n : gostr) : bool := bool_decide (is_Some (s_nodes s !! n)).
  Definition subb (n : gostr) : bool := bool_decide (is_Some (s_subs s !! n)).
  Definition subs : list gostr := elements (dom (s_subs s)).
  Definition valuesb (m : attrs) : bool := forallb (fun kv => goodb kv.2) (map_to_list m).
  Definition endb (n p : gostr) : bool := (nodeb n && portb p) || (subb n && negb (has_prefix n (lit "cluster")) && bool_decide (p = [])).
  Definition startb (n : gostr) : bool := subb n && (bool_decide (n ∈ kids s (s_name s)) ||
    (negb (nodeb n) && negb (has_prefix n (lit "cluster")) && existsb (fun e => bool_decide (n = e_src e \/ n = e_dst e)) (s_edges s))).
  Fixpoint writtenb (fuel : nat) (n : gostr) : bool :=
    match fuel with
    | O => false
    | S fuel => startb n || existsb (fun p => bool_decide (n ∈ kids s p) && subb n && negb (nodeb n) && writtenb fuel p) subs
    end.
  Definition tidyb : bool :=
    (bool_decide (s_name s = []) || goodb (s_name s)) &&
    forallb goodb (elements (dom (s_nodes s)) ++ subs) &&
    forallb valuesb ([s_attrs s] ++ map snd (map_to_list (s_nodes s)) ++ map snd (map_to_list (s_subs s)) ++ map e_attrs (s_edges s)) &&
    forallb (fun n => negb (nodeb n)) subs &&
    negb (subb (s_name s)) &&
    forallb (fun e => endb (e_src e) (e_src_port e) && endb (e_dst e) (e_dst_port e)) (s_edges s) &&
    forallb (fun p => forallb (fun c => nodeb c || subb c) (elements (kids s p))) subs &&
    forallb (writtenb (S (length subs))) subs &&
    (match c_write s (S (length subs)) (s_edges s) with Ok _ => true | _ => false end).

  Lemma in_subs n : n ∈ subs <-> s_is_sub s n.
  Proof. unfold subs. rewrite elem_of_elements, elem_of_dom. reflexivity. Qed.
  Lemma startb_ok n : startb n = true -> starts s n.
  Proof.
    intros H. apply andb_true_iff in H. destruct H as [H1 H2]. apply bool_decide_eq_true in H1. apply orb_true_iff in H2. destruct H2 as [H2|H2].
    - apply Starts_top; [apply elem_of_kids; apply bool_decide_eq_true in H2; exact H2|exact H1].
    - apply andb_true_iff in H2. destruct H2 as [H2 H3]. apply andb_true_iff in H2. destruct H2 as [H2 H4]. apply existsb_exists in H3. destruct H3 as (e & H3 & H5).
      apply elem_of_list_In in H3. apply bool_decide_eq_true in H5. apply negb_true_iff, bool_decide_eq_false in H2. apply negb_true_iff in H4.
      assert (NC : ~ cluster s n) by (intros (_ & X); apply prefix_spec in X; congruence).
      destruct H5 as [H5|H5]; [apply (Starts_end s n (e_src_port e))|apply (Starts_end s n (e_dst_port e))]; auto; exists e; auto.
  Qed.
  Lemma writtenb_ok f : forall n, writtenb f n = true -> written s n.
  Proof.
    induction f as [|f IH]; intros n H; [discriminate|]. cbn [writtenb] in H. apply orb_true_iff in H. destruct H as [H|H].
    - exists n. split; [apply startb_ok; exact H|apply rtc_refl].
    - apply existsb_exists in H. destruct H as (p & _ & H). apply andb_true_iff in H. destruct H as [H H4]. apply andb_true_iff in H. destruct H as [H H3]. apply andb_true_iff in H. destruct H as [H1 H2].
      destruct (IH p H4) as (r & Sr & R). exists r. split; [exact Sr|]. eapply rtc_r; [exact R|]. apply bool_decide_eq_true in H1, H2. apply negb_true_iff, bool_decide_eq_false in H3.
      split; [apply elem_of_kids; exact H1|]. split; [exact H2|exact H3].
  Qed.
  Lemma forallb_elem {A} (f : A -> bool) l x : forallb f l = true -> x ∈ l -> f x = true.
  Proof. intros H K. rewrite forallb_forall in H. apply H. apply elem_of_list_In. exact K. Qed.
  Lemma endb_ok n p : endb n p = true -> (s_is_node s n /\ good_port p) \/ (s_is_sub s n /\ ~ cluster s n /\ p = []).
  Proof.
    intros H. apply orb_true_iff in H. destruct H as [H|H]; apply andb_true_iff in H; destruct H as [H1 H2].
    - left. apply bool_decide_eq_true in H1. split; [exact H1|apply portb_ok; exact H2].
    - right. apply andb_true_iff in H1. destruct H1 as [H1 H3]. apply bool_decide_eq_true in H1, H2. apply negb_true_iff in H3. split; [exact H1|]. split; [|exact H2].
      intros (_ & X). apply prefix_spec in X. congruence.
  Qed.
  Lemma tidyb_ok : tidyb = true -> tidy s.
  Proof.
    unfold tidyb. intros H. repeat match goal with X : _ && _ = true |- _ => apply andb_true_iff in X; destruct X end.
    match goal with X1 : _ || _ = true, X2 : forallb goodb _ = true, X3 : forallb valuesb _ = true, X4 : forallb (fun n => negb _) _ = true, X5 : negb _ = true,
      X6 : forallb _ (s_edges s) = true, X7 : forallb (fun p => forallb _ _) _ = true, X8 : forallb (writtenb _) _ = true, X9 : match _ with _ => _ end = true |- _ =>
      rename X1 into E1, X2 into E2, X3 into E3, X4 into E4, X5 into E5, X6 into E6, X7 into E7, X8 into E8, X9 into E9 end.
    assert (AP : forall n, s_is_node s n -> s_is_sub s n -> False).
    { intros n N S. apply in_subs in S. apply (forallb_elem _ _ _ E4) in S. apply negb_true_iff, bool_decide_eq_false in S. contradiction. }
    split.
    - apply orb_true_iff in E1. destruct E1 as [E|E]; [left; apply bool_decide_eq_true in E; exact E|right; apply goodb_ok; exact E].
    - intros n K. apply goodb_ok. apply (forallb_elem _ _ _ E2). apply elem_of_app. destruct K as [K|K]; [left; apply elem_of_elements, elem_of_dom; exact K|right; apply in_subs; exact K].
    - intros m k v K L. assert (M : valuesb m = true).
      { apply (forallb_elem _ _ _ E3). rewrite !elem_of_app. destruct K as [|n m K|n m K|e K].
        - left. apply elem_of_list_singleton. reflexivity.
        - right. left. apply elem_of_list_fmap. exists (n, m). split; [reflexivity|apply elem_of_map_to_list; exact K].
        - right. right. left. apply elem_of_list_fmap. exists (n, m). split; [reflexivity|apply elem_of_map_to_list; exact K].
        - right. right. right. apply elem_of_list_fmap. eauto. }
      apply goodb_ok. apply (forallb_elem _ _ (k, v) M). apply elem_of_map_to_list. exact L.
    - exact AP.
    - intros S. apply negb_true_iff, bool_decide_eq_false in E5. contradiction.
    - intros n port (e & He & K). apply (forallb_elem _ _ _ E6) in He. apply andb_true_iff in He. destruct He as [He1 He2].
      destruct K as [(-> & ->)|(-> & ->)]; apply endb_ok; assumption.
    - intros p c S K. apply in_subs in S. apply (forallb_elem _ _ _ E7) in S. apply elem_of_kids, elem_of_elements in K. apply (forallb_elem _ _ _ S) in K.
      apply orb_true_iff in K. destruct K as [K|K]; apply bool_decide_eq_true in K; auto.
    - destruct (c_write s _ _) as [a|e| |] eqn:E; try discriminate. eapply c_write_cyclic; [|reflexivity|exact E]. intros n K1 K2 _. exact (AP n K2 K1).
    - intros n S. apply in_subs in S. eapply writtenb_ok, (forallb_elem _ _ _ E8). exact S.
  Qed.
End Check.
