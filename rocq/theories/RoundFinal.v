(** The round trip of a tidy graph: putting RoundWrite.v, RoundProofs.v, NormCalls.v and AstProofs.v together. *)
From stdpp Require Import sorting.
From Verif Require Import Base Parser Maps Graph AttrMap SpecGraph MapFacts GraphProofs.
From Verif Require Import Write SpecWrite EdgeOrder WriteProofs WriteFacts WriteFacts2 SpecRound RoundCalls RoundCalls2 RoundProofs RoundWrite.
From Verif Require Import Analyse SpecAnalyse AnalyseProofs ReadProofs NormCalls SpecAst LexPrint AstProofs.
From Verif Require Ast.
From Verif Require Import Direct SpecDirect DirectProofs.

Lemma holds_valid g m k v : proper g -> holds_attrs (view g) m -> m !! k = Some v -> valid_attr k.
Proof.
  intros R H L. pose proof (proper_ok g R) as OK. destruct H as [|n m H|n m H|e H].
  - exact (go_attrs g OK k v L).
  - exact (go_nattrs g OK n m H k v L).
  - cbn in H. rewrite lookup_fmap in H. destruct (g_subs g !! n) as [sb|] eqn:E; [|discriminate]. injection H as <-. exact (go_sattrs g OK n sb E k v L).
  - exact (go_eattrs g OK e H k v L).
Qed.

Lemma no_ports_read s : no_ports s -> map read_edge (s_edges s) = s_edges s.
Proof.
  intros H. assert (G : forall e, e ∈ s_edges s -> read_edge e = e).
  { intros e He. assert (E1 : e_src_port e = []) by (apply (H (e_src e)); exists e; auto). assert (E2 : e_dst_port e = []) by (apply (H (e_dst e)); exists e; auto).
    unfold read_edge. rewrite E1, E2. destruct e; cbn in *; subst; reflexivity. }
  induction (s_edges s) as [|e l IH]; [reflexivity|]. cbn [map]. rewrite G by left. rewrite IH; [reflexivity|]. intros x Hx. apply G. right. exact Hx.
Qed.

Lemma subs_size g : size (s_subs (view g)) = size (g_subs g).
Proof. cbn [s_subs view]. apply map_size_fmap. Qed.

Lemma round_core_s s es : (forall m k v, holds_attrs s m -> m !! k = Some v -> valid_attr k) -> tidy s -> es ≡ₚ s_edges s -> exists a,
  (forall f, size (s_subs s) < f -> c_write s f es = Ok a) /\ wf_graph good_id a /\
  forall os ord, (forall i, fair (os i)) -> fair_order ord -> exists g', new_analysed_graph os ord (norm_graph a) = inl g' /\
    reachable g' /\ same_graph s (view g') /\ (forall f, size (s_subs s) < f -> c_write (view g') f es = Ok a).
Proof.
  intros V T P.
  destruct (tidy_writes s T es P) as [a W0]. exists a.
  assert (W : forall f, size (s_subs s) < f -> c_write s f es = Ok a).
  { intros f L. rewrite (c_write_mono s (S (size (s_subs s))) f); [exact W0|lia|congruence]. }
  split; [exact W|]. split; [eapply tidy_wf; eassumption|]. intros os ord Fo Ford.
  destruct (analysed_graph os ord a Fo Ford) as (l & B & H). pose proof (norm_analysed os ord os ord a Fo Ford Fo Ford) as NA.
  assert (CP : forall f, c_write s f es = Ok a -> same_graph s (fold_left s_build l (s_start a)) /\ Forall call_ok l /\
    forall s', s' = fold_left s_build l (s_start a) -> c_write s' f es = Ok a).
  { intros f Wf. destruct (c_write_parts _ _ _ _ Wf) as (el & tops & ts & ns & Ea & Fe & Ft & Ht & Hm & Hn & Ee & Et & Es).
    assert (SG : same_graph s (fold_left s_build l (s_start a))) by (eapply back_same; eassumption).
    split; [exact SG|]. split; [eapply back_ok; eassumption|]. intros s' Es'.
    pose proof SG as SG'. rewrite <- Es' in SG'. destruct SG' as [S1 S2 S3 S4 S5 S6 S7 S8 S9 S10 S11].
    unfold c_write. rewrite S6, S5, S4, S1, S2, S3. rewrite (edges_agree s s' S5 S6 S8), Ee. cbn [bind].
    rewrite (tops_agree s s' S5 S6 S8 S1 f _ (fun n K => proj1 (subs_listed s n) K) _ _ Et); cbn [bind].
    - rewrite (c_nodes_agree s s' S5), <- Es. rewrite Ea. reflexivity.
    - intros n Hn' K. subst s'. destruct (back_top s T f es a l P el tops ns ts Ea Fe Ft Ht Hm Hn B n (proj1 (subs_listed s n) Hn') K) as [K'|K'].
      + left. apply Ht. exact K'.
      + right. rewrite marks_app. apply elem_of_union_r. exact K'.
    - intros n t Hn' Ct I. subst s'. eapply top_back; try eassumption. rewrite !elem_of_app in I. destruct I as [[I|I]|I].
      + apply elem_of_list_fmap in I. destruct I as (? & ? & _). discriminate.
      + destruct (elem_of_list_lookup_1 _ _ I) as [i Hi]. destruct (Forall2_lookup_r _ _ _ _ _ Fe Hi) as (e & _ & X). apply c_edge_shows in X. destruct X as [X _]. inversion X.
      + apply elem_of_list_fmap in I. destruct I as (t' & Et' & I). injection Et' as <-. destruct (elem_of_list_lookup_1 _ _ I) as [i Hi].
        destruct (Forall2_lookup_r _ _ _ _ _ Ft Hi) as (n' & Hn2 & X). assert (n' = n) as ->; [|eapply elem_of_list_lookup_2; exact Hn2].
        assert (N1 : forall f m t, c_sub s f m = Ok t -> (match t with Ast.SubGraph id _ => id end) = m).
        { intros f' m t' C. destruct f'; [discriminate|]. apply c_sub_inv in C. destruct C as (? & ? & _ & _ & ->). reflexivity. }
        rewrite <- (N1 _ _ _ X), <- (N1 _ _ _ Ct). reflexivity. }
  destruct (CP _ W0) as (SG & CO & _).
  destruct (new_analysed_graph os ord a) as [g0|e]; [|contradiction]. destruct H as (_ & R0 & V0).
  destruct (analysed_graph os ord (norm_graph a) Fo Ford) as (l' & _ & H').
  destruct (new_analysed_graph os ord (norm_graph a)) as [g'|e]; [|contradiction]. exists g'. split; [reflexivity|]. split; [apply H'|].
  rewrite <- NA. split; [rewrite V0; exact SG|]. intros f L. destruct (CP f (W f L)) as (_ & _ & N). apply N. exact V0.
Qed.
Lemma round_core g es : proper g -> tidy (view g) -> es ≡ₚ s_edges (view g) -> exists a,
  (forall f, size (g_subs g) < f -> c_write (view g) f es = Ok a) /\ wf_graph good_id a /\
  forall os ord, (forall i, fair (os i)) -> fair_order ord -> exists g', new_analysed_graph os ord (norm_graph a) = inl g' /\
    reachable g' /\ same_graph (view g) (view g') /\ (forall f, size (g_subs g) < f -> c_write (view g') f es = Ok a).
Proof.
  intros R T P. rewrite <- subs_size. apply round_core_s; [intros m k v; apply holds_valid; exact R|exact T|exact P].
Qed.
