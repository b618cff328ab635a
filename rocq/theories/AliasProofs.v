(** Proofs for HeapAlias.v: a heap with sharing stands for one in which everything has a map of its own. *)
From Coq Require Import Lia.
From Verif Require Import Base Maps Graph SpecGraph MapFacts GraphProofs HeapGraph SpecHeap HeapProofs HeapEdit SpecHeapEdit HeapEditProofs.
From Verif Require Import Direct SpecDirect DirectProofs HeapAlias SpecAlias AliasImg AliasCalls.
From Verif Require PropsGraph PropsHeapEdit.
Local Notation state := (world * list nat)%type.

(** ** Other contents *)
Lemma owner_or h g l : (exists x, ref h g x = Some l) \/ (forall x, ref h g x <> Some l).
Proof.
  destruct (decide (hg_attrs g = l)) as [E|E]; [left; exists OGraph; cbn; by rewrite E|].
  assert (K : forall {T} (F : T -> nat) (s : store T), (exists p x, cells s !! p = Some x /\ F x = l) \/ (forall p x, cells s !! p = Some x -> F x <> l)).
  { intros T F s. destruct (decide (l ∈ map F (map snd (map_to_list (cells s))))) as [H|H].
    - left. apply elem_of_list_In, in_map_iff in H as (x & Hx & H). apply in_map_iff in H as ([p y] & <- & H). apply elem_of_list_In, elem_of_map_to_list in H. by exists p, y.
    - right. intros p x Hp Hx. apply H. apply elem_of_list_In, in_map_iff. exists x. split; [done|]. apply in_map_iff. exists (p, x). split; [done|]. by apply elem_of_list_In, elem_of_map_to_list. }
  destruct (K _ no_attrs (nobjs h)) as [(p & x & H1 & H2)|K1]; [left; exists (ONode p); cbn; by rewrite H1, <- H2|].
  destruct (K _ eo_attrs (eobjs h)) as [(p & x & H1 & H2)|K2]; [left; exists (OEdge p); cbn; by rewrite H1, <- H2|].
  destruct (K _ so_attrs (sobjs h)) as [(p & x & H1 & H2)|K3]; [left; exists (OSub p); cbn; by rewrite H1, <- H2|].
  right. intros [|p|p|p] R; cbn in R; [congruence|..].
  - destruct (cells (nobjs h) !! p) eqn:C; [|done]. injection R as R. by apply (K1 p _ C).
  - destruct (cells (eobjs h) !! p) eqn:C; [|done]. injection R as R. by apply (K2 p _ C).
  - destruct (cells (sobjs h) !! p) eqn:C; [|done]. injection R as R. by apply (K3 p _ C).
Qed.
Lemma good_upd h g mine l m : good (h, g, mine) -> l < next (maps h) -> good (upd h l m, g, mine).
Proof.
  intros [(I & ND & Mi) X] L. cbn [fst snd] in *. split; [split; [|split]|]; cbn [fst snd].
  - apply inv_maps; [done|apply swf_put; [apply (i_heap _ I)|done]|done].
  - done.
  - intros l' Hl. destruct (Mi l' Hl) as [M1 M2]. split; [done|]. intros a. unfold upd. rewrite ref_maps. apply M2.
  - eapply eix_frame; [| |exact X]; done.
Qed.
Lemma built_upd h g mine l m : good (h, g, mine) -> l < next (maps h) -> built (abs (h, g)) -> built (abs (upd h l m, g)).
Proof.
  intros [(I & ND & Mi) X] L Bu. cbn [fst snd] in *. destruct (owner_or h g l) as [[x R]|N].
  - destruct (PropsHeapEdit.stands_or (h, g) x) as [[t St]|N].
    + destruct (abs_upd_stands PropsGraph.o_id (AAssign m) h g x l t (conj I X) R St) as [P E]. apply (f_equal fst) in E. cbn [fst exec_attr] in E. rewrite E.
      apply built_direct; [done|apply PropsGraph.fair_id|done].
    + by rewrite (abs_upd_dead h g x l m (conj I X) R N).
  - unfold upd. rewrite abs_maps; [done|done|]. intros a l' R. apply (at_map_upd_ne h l m l'). intros ->. by apply (N a).
Qed.
(** Everything that stands for the map [la] gets the content [m]. *)
Definition spread (f : nat -> nat) (la : nat) (m : attrs) (h : heap) : heap :=
  fold_right (fun l h => if decide (f l = la) then upd h l m else h) h (seq 0 (next (maps h))).
Lemma spread_facts f la m h g mine : good (h, g, mine) ->
  let h' := spread f la m h in
  good (h', g, mine) /\ (built (abs (h, g)) -> built (abs (h', g))) /\ next (maps h') = next (maps h) /\ h' = with_maps h (maps h') /\
  (forall l, l < next (maps h) -> at_map h' l = if decide (f l = la) then m else at_map h l).
Proof.
  intros G. unfold spread.
  assert (X : forall n, n <= next (maps h) -> let h' := fold_right (fun l h => if decide (f l = la) then upd h l m else h) h (seq (next (maps h) - n) n) in
    good (h', g, mine) /\ (built (abs (h, g)) -> built (abs (h', g))) /\ next (maps h') = next (maps h) /\ h' = with_maps h (maps h') /\
    (forall l, at_map h' l = if decide (next (maps h) - n <= l < next (maps h) /\ f l = la) then m else at_map h l)).
  { induction n as [|n IH]; intros Ln.
    - cbn [seq fold_right]. split; [done|]. split; [done|]. split; [done|]. split; [by destruct h|]. intros l. by rewrite decide_False by lia.
    - destruct (IH ltac:(lia)) as (J1 & J2 & J3 & J4 & J5). cbn [seq fold_right]. replace (S (next (maps h) - S n)) with (next (maps h) - n) by lia.
      set (h1 := fold_right _ h (seq (next (maps h) - n) n)) in *. set (l0 := next (maps h) - S n).
      destruct (decide (f l0 = la)) as [F|F].
      + assert (L0 : l0 < next (maps h1)) by (rewrite J3; unfold l0; lia). split; [by apply good_upd|]. split; [intros Bu; by apply (built_upd h1 g mine l0 m J1 L0), J2|]. split; [exact J3|].
        split; [rewrite J4; done|]. intros l. destruct (decide (l = l0)) as [->|Ne].
        * rewrite at_map_upd. rewrite decide_True; [done|]. unfold l0 in *. split; [lia|done].
        * rewrite at_map_upd_ne by done. rewrite J5. destruct (decide (next (maps h) - n <= l < next (maps h) /\ f l = la)) as [Y|Y].
          -- rewrite decide_True; [done|]. lia.
          -- rewrite decide_False; [done|]. intros [Z1 Z2]. apply Y. split; [|done]. unfold l0 in Ne. lia.
      + split; [done|]. split; [done|]. split; [done|]. split; [done|]. intros l. rewrite J5.
        destruct (decide (next (maps h) - n <= l < next (maps h) /\ f l = la)) as [Y|Y].
        * rewrite decide_True; [done|]. lia.
        * rewrite decide_False; [done|]. intros [Z1 Z2]. destruct (decide (l = l0)) as [->|Ne]; [done|]. apply Y. split; [|done]. unfold l0 in Ne. lia. }
  destruct (X (next (maps h)) (le_n _)) as (J1 & J2 & J3 & J4 & J5). rewrite Nat.sub_diag in *. split; [done|]. split; [done|]. split; [done|]. split; [done|].
  intros l L. rewrite J5. destruct (decide (f l = la)) as [Y|Y]; [rewrite decide_True; [done|]; split; [lia|done]|rewrite decide_False; [done|]; tauto].
Qed.

(** ** What is seen without attributes does not depend on the maps *)
Lemma bare_maps h s g : bare (abs (with_maps h s, g)) = bare (abs (h, g)).
Proof.
  unfold bare, abs. cbn [g_name g_directed g_strict g_nodes g_edges g_subs g_rels]. f_equal.
  - f_equal. cbn [nodes_heap abs_nodes]. change (nobjs (with_maps h s)) with (nobjs h). rewrite <- !map_fmap_compose. apply map_fmap_ext. done.
  - assert (K : forall idx, bare_index (abs_index (with_maps h s) idx) = bare_index (abs_index h idx)).
    { intros idx. unfold bare_index, abs_index. rewrite <- !map_fmap_compose. apply map_fmap_ext. intros a inner _. cbn. rewrite <- !map_fmap_compose. apply map_fmap_ext. intros b l _. cbn.
      rewrite !map_map. apply map_ext. done. }
    unfold abs_edges. cbn [src_to_dsts dst_to_srcs edges_list]. f_equal; [apply K|apply K|]. rewrite !map_map. apply map_ext. done.
  - unfold abs_subs. rewrite <- !map_fmap_compose. apply map_fmap_ext. done.
Qed.

(** ** The relation *)
Record al (f : nat -> nat) (u w : state) : Prop := {
  al_good : good u;
  al_w : w.1 = img f (maps w.1.1) u.1;
  al_mine : w.2 = map f u.2;
  al_swf : swf (maps w.1.1);
  al_below : forall l, l < next (maps u.1.1) -> f l < next (maps w.1.1);
  al_agree : forall l, l < next (maps u.1.1) -> at_map u.1.1 l = at_map w.1.1 (f l) }.
Lemma al_inv f u w : al f u w -> inv u.1.
Proof. intros A. apply (al_good _ _ _ A). Qed.
Lemma al_abs f u w : al f u w -> abs w.1 = abs u.1.
Proof.
  intros A. pose proof (al_inv _ _ _ A) as I. rewrite (al_w _ _ _ A). destruct u as [[h g] mine]. cbn [fst snd] in *. apply abs_img; [done|].
  intros x l R. apply (al_agree _ _ _ A). by apply (i_bound _ I x).
Qed.
Lemma al_ref f u w x : al f u w -> ref w.1.1 w.1.2 x = f <$> ref u.1.1 u.1.2 x.
Proof. intros A. rewrite (al_w _ _ _ A). cbn [img fst snd]. apply ref_img. Qed.
Lemma al_map_of f u w s : al f u w -> map_of w s = f <$> map_of u s.
Proof. intros A. destruct s as [x|i]; cbn [map_of]; [by apply al_ref|]. rewrite (al_mine _ _ _ A). apply list_lookup_fmap. Qed.
Lemma al_u_below f u w s l : al f u w -> map_of u s = Some l -> l < next (maps u.1.1).
Proof.
  intros A E. destruct s as [x|i]; cbn [map_of] in E; [by apply (i_bound _ (al_inv _ _ _ A) x)|].
  destruct (al_good _ _ _ A) as [(_ & _ & Mi) _]. apply Mi. by eapply elem_of_list_lookup_2.
Qed.
Lemma al_w_below f u w s l : al f u w -> map_of w s = Some l -> l < next (maps w.1.1).
Proof.
  intros A E. rewrite (al_map_of _ _ _ s A) in E. destruct (map_of u s) as [l0|] eqn:E0; [|done]. injection E as <-. apply (al_below _ _ _ A). by eapply al_u_below.
Qed.
Lemma al_env f u w : al f u w -> map (at_map w.1.1) w.2 = map (at_map u.1.1) u.2.
Proof.
  intros A. rewrite (al_mine _ _ _ A), map_map. apply map_ext_Forall, Forall_forall. intros l Hl. symmetry. apply (al_agree _ _ _ A).
  destruct (al_good _ _ _ A) as [(_ & _ & Mi) _]. by apply Mi.
Qed.
Lemma al_new : al (fun l => l) (h_new_graph, []) (h_new_graph, []).
Proof.
  constructor; try done; [apply good_new| |apply (wh_maps _ (i_heap _ inv_new))].
  cbn [fst snd]. unfold img, img_h, img_g, img_store. assert (K : forall {T} (F : T -> T), F <$> (∅ : gmap nat T) = ∅) by (intros; apply fmap_empty).
  unfold h_new_graph. cbn. by rewrite !K.
Qed.

(** ** How the maps change (all events but the redirections) *)
Global Instance site_eq_dec : EqDecision site.
Proof. solve_decision. Defined.
Record moved (st st' : state) (fr : option attrs) (t : option (nat * attrs)) : Prop := {
  mv_maps : maps st'.1.1 = mapply fr t (maps st.1.1);
  mv_refs : (forall s, map_of st' s = map_of st s) \/
    (fr <> None /\ exists y, map_of st y = None /\ forall s, map_of st' s = if decide (s = y) then Some (next (maps st.1.1)) else map_of st s) }.
(** The target is what the specification says. *)
Definition as_said (st st' : state) (e : aevent) (t : option (nat * attrs)) : Prop :=
  (forall l m, t = Some (l, m) -> exists c m', changes st e = Some (c, m') /\ map_of st c = Some l) /\
  (forall c m' l, changes st e = Some (c, m') -> map_of st c = Some l -> at_m (maps st'.1.1) l = m').

(** After a change of maps in step the relation holds again, if what stands for the changed map is changed as well. *)
Lemma al_again f u1 w1 M (mine : list nat) fr t (u : state) :
  good (u1, mine) -> maps u1.1 = mapply fr t (maps u.1.1) -> swf M ->
  (forall l, l < next (maps u.1.1) -> f l < next M) -> (forall l, l < next (maps u.1.1) -> at_map u.1.1 l = at_m M (f l)) ->
  (forall l m, t = Some (l, m) -> l < next (maps u.1.1)) ->
  let f' := lift fr f (next (maps u.1.1)) (next M) in
  w1 = img f' (mapply fr (over f t) M) u1 ->
  exists h', al f' (h', u1.2, mine) (w1, map f' mine) /\ (built (abs u1) -> built (abs (h', u1.2))) /\ h' = with_maps u1.1 (maps h') /\ (t = None -> h' = u1.1) /\
    (forall l, l < next (maps u1.1) -> (forall l0 m, t = Some (l0, m) -> f' l <> f l0) -> at_map h' l = at_map u1.1 l).
Proof.
  intros G EM S B A T f' Ew. destruct u1 as [h1 g1]. cbn [fst snd] in *.
  set (N := next (maps u.1.1)) in *.
  assert (Nx : next (maps h1) = match fr with Some _ => Datatypes.S N | None => N end) by (rewrite EM; destruct fr, t as [[??]|]; done).
  assert (NM : next (mapply fr (over f t) M) = match fr with Some _ => Datatypes.S (next M) | None => next M end) by (destruct fr, t as [[??]|]; done).
  assert (SW : swf (mapply fr (over f t) M)).
  { assert (X : forall (s : store attrs) l m, swf s -> l < next s -> swf (put s l m)) by (intros; by apply swf_put). destruct t as [[l m]|]; cbn [over fmap option_fmap option_map mapply]; destruct fr as [a|]; cbn [mapply].
    - apply X; [by apply (swf_alloc M)|]. specialize (B l (T l m eq_refl)). cbn in *. lia.
    - apply X; [done|]. by apply B, (T l m).
    - by apply (swf_alloc M).
    - done. }
  assert (Be : forall l, l < next (maps h1) -> f' l < next (mapply fr (over f t) M)).
  { intros l L. rewrite Nx in L. rewrite NM. unfold f'. destruct fr as [a|]; cbn [lift].
    - destruct (decide (l = N)); [lia|]. specialize (B l). lia.
    - by apply B. }
  assert (At1 : forall l, l < next (maps h1) -> at_map h1 l = match t with Some (l0, m) => if decide (l = l0) then m else at_m (mapply fr None M) (f' l) | None => at_m (mapply fr None M) (f' l) end).
  { intros l L. rewrite Nx in L. unfold at_map. rewrite EM.
    assert (X : default ∅ (cells (mapply fr None (maps u.1.1)) !! l) = at_m (mapply fr None M) (f' l)).
    { unfold f', at_m. destruct fr as [a|]; cbn [lift mapply alloc fst cells].
      - destruct (decide (l = N)) as [->|Ne]; [by rewrite !lookup_insert|]. assert (Ll : l < N) by lia. rewrite !lookup_insert_ne; [by apply A| |unfold N in *; lia]. specialize (B l Ll). lia.
      - by apply A. }
    destruct t as [[l0 m]|]; [|exact X]. unfold mapply at 1. cbn [put cells]. destruct (decide (l = l0)) as [->|Ne]; [by rewrite lookup_insert|].
    rewrite lookup_insert_ne by congruence. exact X. }
  destruct t as [[l0 m]|].
  - pose proof (T l0 m eq_refl) as L0.
    assert (F0 : f' l0 = f l0) by (apply lift_below; exact L0).
    destruct (spread_facts f' (f l0) m h1 g1 mine G) as (J1 & J2 & J3 & J4 & J5). set (h' := spread f' (f l0) m h1) in *.
    exists h'. split; [|split; [done|split; [done|split; [discriminate|intros l L Nt; rewrite J5 by done; rewrite decide_False; [done|by eapply Nt]]]]]. constructor; cbn [fst snd].
    + exact J1.
    + rewrite Ew. cbn [img fst snd img_h maps]. rewrite J4. done.
    + done.
    + rewrite Ew. exact SW.
    + rewrite J3, Ew. exact Be.
    + rewrite J3, Ew. intros l L. rewrite J5 by done. rewrite At1 by done. unfold at_map. cbn [img fst img_h maps over fmap option_fmap option_map mapply put cells].
      destruct (decide (f' l = f l0)) as [E|E]; [by rewrite E, lookup_insert|]. rewrite lookup_insert_ne by congruence. rewrite decide_False by congruence. done.
  - exists h1. split; [|split; [done|split; [by destruct h1|split; done]]]. constructor; cbn [fst snd]; try done.
    + by rewrite Ew.
    + by rewrite Ew.
    + by rewrite Ew.
    + rewrite Ew. intros l L. by rewrite At1.
Qed.
