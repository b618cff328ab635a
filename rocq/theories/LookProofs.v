(** Proofs about HeapWrite.v: a program logic for goroutines that write only to objects of their own. *)
From Coq Require Import Sorting.Sorted.
From Verif Require Import Base Maps Graph Parser Write MapFacts AttrMap HeapGraph SpecHeap HeapProofs HeapWrite SpecLook SpecWrite EdgeOrder.
From Verif Require Ast.

(** ** The objects a goroutine has made *)
Record own := Own { o_maps : gmap nat attrs; o_arrs : gmap nat (list nat) }.
Definition owns (ow : own) (b : object) : Prop :=
  match b with BMap l => is_Some (o_maps ow !! l) | BArr a => is_Some (o_arrs ow !! a) | _ => False end.
(** What it reads, when the heap was [w0] at first. *)
Definition oget {T} (w0 : world) (ow : own) (c : cell T) : option T :=
  match look w0 c with
  | Some x => Some x
  | None => match c in cell T return option T with
            | CMap l => o_maps ow !! l
            | CArr a => o_arrs ow !! a
            | _ => None
            end
  end.
Definition oput {T} (w0 : world) (ow : own) (c : cell T) : T -> option own :=
  match c in cell T return T -> option own with
  | CMap l => fun x => match cells (maps w0.1) !! l, o_maps ow !! l with
                       | None, Some _ => Some (Own (<[l := x]> (o_maps ow)) (o_arrs ow)) | _, _ => None end
  | CArr a => fun x => match cells (earrs w0.1) !! a, o_arrs ow !! a with
                       | None, Some _ => Some (Own (o_maps ow) (<[a := x]> (o_arrs ow))) | _, _ => None end
  | _ => fun _ => None
  end.
Fixpoint wp {A} (w0 : world) (ow : own) (p : prog A) (Q : own -> res err A -> Prop) : Prop :=
  match p with
  | Ret a => Q ow (Ok a)
  | Fail e => Q ow (Err e)
  | Crash => Q ow Panic
  | Deep => Q ow OutOfFuel
  | Get c k => match oget w0 ow c with Some x => wp w0 ow (k x) Q | None => False end
  | Put c x k => match oput w0 ow c x with Some ow' => wp w0 ow' k Q | None => False end
  | NewMap k => forall l, cells (maps w0.1) !! l = None -> o_maps ow !! l = None -> wp w0 (Own (<[l := ∅]> (o_maps ow)) (o_arrs ow)) (k l) Q
  | NewArr n k => forall a, cells (earrs w0.1) !! a = None -> o_arrs ow !! a = None -> wp w0 (Own (o_maps ow) (<[a := replicate n 0]> (o_arrs ow))) (k a) Q
  | Pick l k => forall l', l' ≡ₚ l -> wp w0 ow (k l') Q
  end.

Lemma wp_mono {A} w0 (p : prog A) : forall ow (Q Q' : own -> res err A -> Prop), (forall ow r, Q ow r -> Q' ow r) -> wp w0 ow p Q -> wp w0 ow p Q'.
Proof.
  induction p as [a|e| | |T c k IH|T c x k IH|k IH|n k IH|T l k IH]; intros ow Q Q' M; cbn [wp]; auto.
  - destruct (oget w0 ow c); [|done]. by apply IH.
  - destruct (oput w0 ow c x); [|done]. by apply IH.
  - intros H a A1 A2. eapply IH; [done|]. by apply H.
  - intros H a A1 A2. eapply IH; [done|]. by apply H.
  - intros H l' P. eapply IH; [done|]. by apply H.
Qed.
Definition rbind {A B} (r : res err A) (f : A -> res err B) : res err B :=
  match r with Ok a => f a | Err e => Err e | Panic => Panic | OutOfFuel => OutOfFuel end.
Lemma wp_bind {A B} w0 (f : A -> prog B) (p : prog A) : forall ow Q,
  wp w0 ow p (fun ow' r => match r with Ok a => wp w0 ow' (f a) Q | Err e => Q ow' (Err e) | Panic => Q ow' Panic | OutOfFuel => Q ow' OutOfFuel end) ->
  wp w0 ow (bind p f) Q.
Proof.
  induction p as [a|e| | |T c k IH|T c x k IH|k IH|n k IH|T l k IH]; intros ow Q; cbn [wp bind]; auto.
  - destruct (oget w0 ow c); [|done]. by apply IH.
  - destruct (oput w0 ow c x); [|done]. by apply IH.
Qed.
Lemma wp_catch {A} w0 (p : prog A) : forall ow Q,
  wp w0 ow p (fun ow' r => match r with Ok a => Q ow' (Ok (inl a)) | Err e => Q ow' (Ok (inr e)) | Panic => Q ow' Panic | OutOfFuel => Q ow' OutOfFuel end) ->
  wp w0 ow (catch p) Q.
Proof.
  induction p as [a|e| | |T c k IH|T c x k IH|k IH|n k IH|T l k IH]; intros ow Q; cbn [wp catch]; auto.
  - destruct (oget w0 ow c); [|done]. by apply IH.
  - destruct (oput w0 ow c x); [|done]. by apply IH.
Qed.

(** ** From programs to goroutines *)
Record pool_ok {A} (w0 : world) (Q : nat -> res err A -> Prop) (w : world) (ps : list (prog A)) (ows : nat -> own) : Prop := {
  po_graph : w.2 = w0.2;
  po_nobjs : nobjs w.1 = nobjs w0.1;
  po_eobjs : eobjs w.1 = eobjs w0.1;
  po_sobjs : sobjs w.1 = sobjs w0.1;
  po_narrs : narrs w.1 = narrs w0.1;
  po_maps : forall l m, cells (maps w0.1) !! l = Some m -> cells (maps w.1) !! l = Some m;
  po_arrs : forall a x, cells (earrs w0.1) !! a = Some x -> cells (earrs w.1) !! a = Some x;
  po_smaps : swf (maps w.1);
  po_sarrs : swf (earrs w.1);
  po_omaps : forall i l m, o_maps (ows i) !! l = Some m -> cells (maps w.1) !! l = Some m /\ cells (maps w0.1) !! l = None;
  po_oarrs : forall i a x, o_arrs (ows i) !! a = Some x -> cells (earrs w.1) !! a = Some x /\ cells (earrs w0.1) !! a = None;
  po_disj : forall i j b, i <> j -> owns (ows i) b -> owns (ows j) b -> False;
  po_wp : forall i p, ps !! i = Some p -> wp w0 (ows i) p (fun _ r => Q i r) }.

Lemma oget_look {A} w0 Q w (ps : list (prog A)) ows i T (c : cell T) x : pool_ok w0 Q w ps ows -> oget w0 (ows i) c = Some x -> look w c = Some x.
Proof.
  intros O. unfold oget. destruct c; cbn [look].
  - rewrite (po_graph _ _ _ _ _ O). done.
  - destruct (cells (maps w0.1) !! l) eqn:E; [intros [= ->]; by apply (po_maps _ _ _ _ _ O)|]. intros H. by apply (po_omaps _ _ _ _ _ O i).
  - rewrite (po_nobjs _ _ _ _ _ O). by destruct (_ !! _).
  - rewrite (po_eobjs _ _ _ _ _ O). by destruct (_ !! _).
  - rewrite (po_sobjs _ _ _ _ _ O). by destruct (_ !! _).
  - destruct (cells (earrs w0.1) !! a) eqn:E; [intros [= ->]; by apply (po_arrs _ _ _ _ _ O)|]. intros H. by apply (po_oarrs _ _ _ _ _ O i).
Qed.
Definition set_own (ows : nat -> own) (i : nat) (ow : own) : nat -> own := fun j => if decide (j = i) then ow else ows j.
Lemma set_own_eq ows i ow : set_own ows i ow i = ow.
Proof. unfold set_own. by rewrite decide_True. Qed.
Lemma set_own_ne ows i ow j : j <> i -> set_own ows i ow j = ows j.
Proof. intros. unfold set_own. by rewrite decide_False. Qed.
Lemma set_own_same ows i j : set_own ows i (ows i) j = ows j.
Proof. unfold set_own. destruct (decide _); congruence. Qed.

(** The access of the next step. *)
Definition footprint (w0 : world) (ow : own) (x : access) : Prop :=
  match x with
  | Reads b => owns ow b \/ match b with
      | BMap l => is_Some (cells (maps w0.1) !! l) | BArr a => is_Some (cells (earrs w0.1) !! a) | _ => True end
  | Writes b => owns ow b /\ match b with
      | BMap l => cells (maps w0.1) !! l = None | BArr a => cells (earrs w0.1) !! a = None | _ => False end
  | Touches_nothing => True
  end.
Lemma act_footprint {A} w0 Q w (ps : list (prog A)) ows i p x w' p' : pool_ok w0 Q w ps ows -> ps !! i = Some p ->
  act w p x w' p' -> footprint w0 (ows i) x.
Proof.
  intros O E H. pose proof (po_wp _ _ _ _ _ O i p E) as W. destruct p as [a|e| | |T c k|T c v k|k|n k|T l k]; cbn [act wp] in *; try done.
  - destruct H as (v & L & -> & _). destruct (oget w0 (ows i) c) eqn:G; [|done]. unfold oget in G. destruct c; cbn [look obj footprint owns] in *; auto.
    + destruct (cells (maps w0.1) !! l) eqn:B; [right; eauto|left; rewrite G; eauto].
    + destruct (cells (earrs w0.1) !! a) eqn:B; [right; eauto|left; rewrite G; eauto].
  - destruct H as (_ & -> & _). destruct c; cbn [oput obj footprint owns] in *; try done.
    + destruct (cells (maps w0.1) !! l) eqn:B; [done|]. destruct (o_maps (ows i) !! l); [|done]. eauto.
    + destruct (cells (earrs w0.1) !! a) eqn:B; [done|]. destruct (o_arrs (ows i) !! a); [|done]. eauto.
  - by destruct H as (-> & _).
  - by destruct H as (-> & _).
  - by destruct H as (? & _ & -> & _).
Qed.
Lemma pool_no_race {A} w0 Q w (ps : list (prog A)) ows : pool_ok w0 Q w ps ows -> ~ race (w, ps).
Proof.
  intros O (i & j & p & q & x & y & w1 & w2 & p' & q' & N & E1 & E2 & A1 & A2 & C). cbn [fst snd] in *.
  pose proof (act_footprint _ _ _ _ _ _ _ _ _ _ O E1 A1) as F1. pose proof (act_footprint _ _ _ _ _ _ _ _ _ _ O E2 A2) as F2.
  assert (X : forall b b', b = b' -> footprint w0 (ows i) (Writes b) -> footprint w0 (ows j) (Writes b') -> False).
  { intros b b' <- [G1 _] [G2 _]. by apply (po_disj _ _ _ _ _ O i j b). }
  assert (Y : forall i j b b', i <> j -> b = b' -> footprint w0 (ows i) (Writes b) -> footprint w0 (ows j) (Reads b') -> False).
  { clear -O. intros i j b b' N <- [G1 G2] [G3|G3]; [by apply (po_disj _ _ _ _ _ O i j b)|].
    destruct b; cbn in *; try done; rewrite G2 in G3; by destruct G3. }
  destruct x as [b|b|], y as [b'|b'|]; cbn [conflict] in C; try done.
  - by apply (Y j i b' b).
  - by apply (Y i j b b').
  - by apply (X b b').
Qed.
Lemma pool_progress {A} w0 Q w (ps : list (prog A)) ows i p : pool_ok w0 Q w ps ows -> ps !! i = Some p -> outcome p = None ->
  exists x w' p', act w p x w' p'.
Proof.
  intros O E N. pose proof (po_wp _ _ _ _ _ O i p E) as W. destruct p as [a|e| | |T c k|T c v k|k|n k|T l k]; cbn [act wp outcome] in *; try done.
  - destruct (oget w0 (ows i) c) as [v|] eqn:G; [|done]. pose proof (oget_look _ _ _ _ _ _ _ _ _ O G). eexists _, _, _, _. eauto.
  - assert (X : is_Some (look w c)).
    { destruct c; cbn [oput look] in *; try done.
      - destruct (cells (maps w0.1) !! l); [done|]. destruct (o_maps (ows i) !! l) eqn:B; [|done]. apply (po_omaps _ _ _ _ _ O) in B as [-> _]. eauto.
      - destruct (cells (earrs w0.1) !! a); [done|]. destruct (o_arrs (ows i) !! a) eqn:B; [|done]. apply (po_oarrs _ _ _ _ _ O) in B as [-> _]. eauto. }
    eexists _, _, _. eauto.
  - eexists _, _, _. eauto.
  - eexists _, _, _. eauto.
  - eexists _, _, _, l. eauto.
Qed.

Lemma pool_step_ok {A} w0 Q w (ps : list (prog A)) ows s' : pool_ok w0 Q w ps ows -> pool_step (w, ps) s' ->
  exists ows', pool_ok w0 Q s'.1 s'.2 ows'.
Proof.
  intros O (i & p & p' & x & E & H & E'). destruct s' as [w' ps']. cbn [fst snd] in *. subst ps'.
  pose proof (po_wp _ _ _ _ _ O i p E) as W.
  assert (L : i < length ps) by (by apply lookup_lt_Some in E).
  (* the new program list, whatever the new own *)
  assert (P : forall ow', wp w0 ow' p' (fun _ r => Q i r) -> forall j q, <[i := p']> ps !! j = Some q -> wp w0 (set_own ows i ow' j) q (fun _ r => Q j r)).
  { intros ow' W' j q. destruct (decide (j = i)) as [->|N].
    - rewrite list_lookup_insert by done. intros [= <-]. by rewrite set_own_eq.
    - rewrite list_lookup_insert_ne by done. rewrite set_own_ne by done. apply (po_wp _ _ _ _ _ O). }
  destruct p as [a|e| | |T c k|T c v k|k|n k|T l k]; cbn [act wp] in *; try done.
  - (* Get *)
    destruct H as (v & LV & _ & -> & ->). destruct (oget w0 (ows i) c) as [v'|] eqn:G; [|done].
    pose proof (oget_look _ _ _ _ _ _ _ _ _ O G) as G'. rewrite LV in G'. injection G' as <-.
    exists (set_own ows i (ows i)). destruct O. constructor; auto; intros *; rewrite ?set_own_same; eauto.
  - (* Put *)
    destruct H as (_ & _ & -> & ->). destruct (oput w0 (ows i) c v) as [ow'|] eqn:G; [|done]. exists (set_own ows i ow').
    destruct c; cbn [oput store_at] in *; try done.
    + destruct (cells (maps w0.1) !! l) eqn:B0; [done|]. destruct (o_maps (ows i) !! l) as [m|] eqn:B; [|done]. injection G as <-.
      pose proof (po_omaps _ _ _ _ _ O i l m B) as [BW _].
      assert (DJ : forall j, j <> i -> o_maps (ows j) !! l = None).
      { intros j N. destruct (o_maps (ows j) !! l) eqn:B1; [|done]. destruct (po_disj _ _ _ _ _ O i j (BMap l)); cbn; rewrite ?B, ?B1; eauto. }
      destruct O. constructor; cbn [fst snd maps nobjs eobjs sobjs narrs earrs with_maps put cells next]; auto.
      * intros l' m' H'. rewrite lookup_insert_ne by congruence. auto.
      * apply (swf_put (maps w.1)); [done|]. apply po_smaps0. eauto.
      * intros j l' m'. destruct (decide (j = i)) as [->|N].
        -- rewrite set_own_eq. cbn [o_maps]. destruct (decide (l' = l)) as [->|N']; [rewrite !lookup_insert; by intros [= ->]|].
           rewrite !lookup_insert_ne by done. apply po_omaps0.
        -- rewrite set_own_ne by done. intros H'. destruct (decide (l' = l)) as [->|N']; [by rewrite DJ in H'|].
           rewrite !lookup_insert_ne by done. by apply (po_omaps0 j).
      * intros j a x'. destruct (decide (j = i)) as [->|N]; [rewrite set_own_eq; cbn [o_arrs]; apply po_oarrs0|rewrite set_own_ne by done; apply po_oarrs0].
      * assert (K : forall j b, owns (set_own ows i (Own (<[l:=v]> (o_maps (ows i))) (o_arrs (ows i))) j) b -> owns (ows j) b).
        { intros j b. destruct (decide (j = i)) as [->|N]; [|by rewrite set_own_ne]. rewrite set_own_eq. destruct b; cbn; auto.
          destruct (decide (l0 = l)) as [->|N']; [rewrite B; eauto|by rewrite lookup_insert_ne]. }
        intros i' j b N H1 H2. by apply (po_disj0 i' j b N); apply K.
    + destruct (cells (earrs w0.1) !! a) eqn:B0; [done|]. destruct (o_arrs (ows i) !! a) as [m|] eqn:B; [|done]. injection G as <-.
      pose proof (po_oarrs _ _ _ _ _ O i a m B) as [BW _].
      assert (DJ : forall j, j <> i -> o_arrs (ows j) !! a = None).
      { intros j N. destruct (o_arrs (ows j) !! a) eqn:B1; [|done]. destruct (po_disj _ _ _ _ _ O i j (BArr a)); cbn; rewrite ?B, ?B1; eauto. }
      destruct O. constructor; cbn [fst snd maps nobjs eobjs sobjs narrs earrs with_earrs put cells next]; auto.
      * intros l' m' H'. rewrite lookup_insert_ne by congruence. auto.
      * apply (swf_put (earrs w.1)); [done|]. apply po_sarrs0. eauto.
      * intros j l' m'. destruct (decide (j = i)) as [->|N]; [rewrite set_own_eq; cbn [o_maps]; apply po_omaps0|rewrite set_own_ne by done; apply po_omaps0].
      * intros j l' m'. destruct (decide (j = i)) as [->|N].
        -- rewrite set_own_eq. cbn [o_arrs]. destruct (decide (l' = a)) as [->|N']; [rewrite !lookup_insert; by intros [= ->]|].
           rewrite !lookup_insert_ne by done. apply po_oarrs0.
        -- rewrite set_own_ne by done. intros H'. destruct (decide (l' = a)) as [->|N']; [by rewrite DJ in H'|].
           rewrite !lookup_insert_ne by done. by apply (po_oarrs0 j).
      * assert (K : forall j b, owns (set_own ows i (Own (o_maps (ows i)) (<[a:=v]> (o_arrs (ows i)))) j) b -> owns (ows j) b).
        { intros j b. destruct (decide (j = i)) as [->|N]; [|by rewrite set_own_ne]. rewrite set_own_eq. destruct b; cbn; auto.
          destruct (decide (a0 = a)) as [->|N']; [rewrite B; eauto|by rewrite lookup_insert_ne]. }
        intros i' j b N H1 H2. by apply (po_disj0 i' j b N); apply K.
  - (* NewMap *)
    destruct H as (_ & -> & ->). cbn [new_map alloc fst snd] in *. set (l := next (maps w.1)).
    pose proof (swf_fresh (maps w.1) (po_smaps _ _ _ _ _ O)) as FR. fold l in FR.
    assert (F0 : cells (maps w0.1) !! l = None).
    { destruct (cells (maps w0.1) !! l) eqn:B; [|done]. apply (po_maps _ _ _ _ _ O) in B. congruence. }
    assert (FO : forall j, o_maps (ows j) !! l = None).
    { intros j. destruct (o_maps (ows j) !! l) eqn:B; [|done]. apply (po_omaps _ _ _ _ _ O) in B as [B _]. congruence. }
    exists (set_own ows i (Own (<[l := ∅]> (o_maps (ows i))) (o_arrs (ows i)))).
    pose proof (W l F0 (FO i)) as W'. destruct O. constructor; cbn [fst snd maps nobjs eobjs sobjs narrs earrs with_maps cells next]; auto.
    + intros l' m' H'. rewrite lookup_insert_ne by congruence. auto.
    + apply (swf_alloc (maps w.1) ∅); done.
    + intros j l' m'. destruct (decide (j = i)) as [->|N].
      * rewrite set_own_eq. cbn [o_maps]. destruct (decide (l' = l)) as [->|N']; [rewrite !lookup_insert; by intros [= ->]|].
        rewrite !lookup_insert_ne by done. apply po_omaps0.
      * rewrite set_own_ne by done. intros H'. destruct (decide (l' = l)) as [->|N']; [by rewrite FO in H'|].
        rewrite !lookup_insert_ne by done. by apply (po_omaps0 j).
    + intros j a x'. destruct (decide (j = i)) as [->|N]; [rewrite set_own_eq; cbn [o_arrs]; apply po_oarrs0|rewrite set_own_ne by done; apply po_oarrs0].
    + assert (K : forall j b, owns (set_own ows i (Own (<[l:=∅]> (o_maps (ows i))) (o_arrs (ows i))) j) b -> owns (ows j) b \/ (j = i /\ b = BMap l)).
      { intros j b. destruct (decide (j = i)) as [->|N]; [|rewrite set_own_ne by done; by left]. rewrite set_own_eq. destruct b; cbn; auto.
        destruct (decide (l0 = l)) as [->|N']; [by right|rewrite lookup_insert_ne by done; by left]. }
      intros i' j b N H1 H2. apply K in H1 as [H1|[E1 E2]]; apply K in H2 as [H2|[E3 E4]]; [by apply (po_disj0 i' j b N)| | |congruence].
      -- rewrite E4 in H1. cbn in H1. rewrite FO in H1. by destruct H1.
      -- rewrite E2 in H2. cbn in H2. rewrite FO in H2. by destruct H2.
  - (* NewArr *)
    destruct H as (_ & -> & ->). cbn [alloc fst snd] in *. set (l := next (earrs w.1)).
    pose proof (swf_fresh (earrs w.1) (po_sarrs _ _ _ _ _ O)) as FR. fold l in FR.
    assert (F0 : cells (earrs w0.1) !! l = None).
    { destruct (cells (earrs w0.1) !! l) eqn:B; [|done]. apply (po_arrs _ _ _ _ _ O) in B. congruence. }
    assert (FO : forall j, o_arrs (ows j) !! l = None).
    { intros j. destruct (o_arrs (ows j) !! l) eqn:B; [|done]. apply (po_oarrs _ _ _ _ _ O) in B as [B _]. congruence. }
    exists (set_own ows i (Own (o_maps (ows i)) (<[l := replicate n 0]> (o_arrs (ows i))))).
    pose proof (W l F0 (FO i)) as W'. destruct O. constructor; cbn [fst snd maps nobjs eobjs sobjs narrs earrs with_earrs cells next]; auto.
    + intros l' m' H'. rewrite lookup_insert_ne by congruence. auto.
    + apply (swf_alloc (earrs w.1) (replicate n 0)); done.
    + intros j a x'. destruct (decide (j = i)) as [->|N]; [rewrite set_own_eq; cbn [o_maps]; apply po_omaps0|rewrite set_own_ne by done; apply po_omaps0].
    + intros j l' m'. destruct (decide (j = i)) as [->|N].
      * rewrite set_own_eq. cbn [o_arrs]. destruct (decide (l' = l)) as [->|N']; [rewrite !lookup_insert; by intros [= ->]|].
        rewrite !lookup_insert_ne by done. apply po_oarrs0.
      * rewrite set_own_ne by done. intros H'. destruct (decide (l' = l)) as [->|N']; [by rewrite FO in H'|].
        rewrite !lookup_insert_ne by done. by apply (po_oarrs0 j).
    + assert (K : forall j b, owns (set_own ows i (Own (o_maps (ows i)) (<[l:=replicate n 0]> (o_arrs (ows i)))) j) b -> owns (ows j) b \/ (j = i /\ b = BArr l)).
      { intros j b. destruct (decide (j = i)) as [->|N]; [|rewrite set_own_ne by done; by left]. rewrite set_own_eq. destruct b; cbn; auto.
        destruct (decide (a = l)) as [->|N']; [by right|rewrite lookup_insert_ne by done; by left]. }
      intros i' j b N H1 H2. apply K in H1 as [H1|[E1 E2]]; apply K in H2 as [H2|[E3 E4]]; [by apply (po_disj0 i' j b N)| | |congruence].
      -- rewrite E4 in H1. cbn in H1. rewrite FO in H1. by destruct H1.
      -- rewrite E2 in H2. cbn in H2. rewrite FO in H2. by destruct H2.
  - (* Pick *)
    destruct H as (l' & PM & _ & -> & ->).
    exists (set_own ows i (ows i)). destruct O. constructor; auto; intros *; rewrite ?set_own_same; eauto.
Qed.
Lemma pool_steps_ok {A} w0 Q (s s' : world * list (prog A)) : rtc pool_step s s' -> (exists ows, pool_ok w0 Q s.1 s.2 ows) ->
  exists ows, pool_ok w0 Q s'.1 s'.2 ows.
Proof. induction 1 as [|s1 s2 s3 H _ IH]; [done|]. intros [ows O]. apply IH. destruct s1 as [w ps]. by eapply pool_step_ok. Qed.
Lemma pool_init {A} w0 Q (ps : list (prog A)) : inv w0 ->
  (forall i p, ps !! i = Some p -> wp w0 (Own ∅ ∅) p (fun _ r => Q i r)) -> pool_ok w0 Q w0 ps (fun _ => Own ∅ ∅).
Proof.
  intros I H. pose proof (i_heap _ I). constructor; auto; try apply H0.
  - intros i l m. cbn. by rewrite lookup_empty.
  - intros i l m. cbn. by rewrite lookup_empty.
  - intros i j b _ X. destruct b; cbn in X; try done; rewrite lookup_empty in X; by destruct X.
Qed.
Lemma pool_outcome {A} w0 Q w (ps : list (prog A)) ows i p r : pool_ok w0 Q w ps ows -> ps !! i = Some p -> outcome p = Some r -> Q i r.
Proof.
  intros O E H. pose proof (po_wp _ _ _ _ _ O i p E) as W. destruct p; cbn [outcome wp] in *; try done; injection H as <-; done.
Qed.
