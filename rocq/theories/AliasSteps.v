(** Proofs for HeapAlias.v: the relation of AliasProofs.v is kept by every event. *)
From Coq Require Import Lia.
From Verif Require Import Base Maps Graph SpecGraph MapFacts GraphProofs HeapGraph SpecHeap HeapProofs HeapEdit SpecHeapEdit HeapEditProofs.
From Verif Require Import Direct SpecDirect DirectProofs HeapAlias SpecAlias AliasImg AliasCalls AliasProofs.
From Verif Require PropsGraph PropsHeapEdit.
Local Notation state := (world * list nat)%type.

(** The world [u] in which nothing is shared is one that can be built. *)
Definition fine (f : nat -> nat) (u w : state) : Prop := al f u w /\ built (abs u.1).

(** ** More maps, other references *)
Lemma al_grow f u w m : al f u w -> al f u (fresh_map w.1.1 m, w.1.2, w.2).
Proof.
  intros [A1 A2 A3 A4 A5 A6]. destruct w as [[hw gw] mw]. cbn [fst snd] in *. constructor; cbn [fst snd].
  - exact A1.
  - injection A2 as E1 E2. unfold img. rewrite E2. f_equal. rewrite E1. done.
  - exact A3.
  - by apply (swf_alloc (maps hw)).
  - intros l L. specialize (A5 l L). cbn. lia.
  - intros l L. rewrite at_map_fresh_ne; [by apply A6|]. specialize (A5 l L). lia.
Qed.
Definition f_to (f : nat -> nat) (n la : nat) : nat -> nat := fun l => if decide (l = n) then la else f l.
Lemma al_take f u w la : al f u w -> la < next (maps w.1.1) ->
  al (f_to f (next (maps u.1.1)) la) (fresh_map u.1.1 (at_map w.1.1 la), u.1.2, u.2 ++ [next (maps u.1.1)]) (w.1, w.2 ++ [la]).
Proof.
  intros A La. pose proof A as [A1 A2 A3 A4 A5 A6]. destruct u as [[h g] mu], w as [ww mw]. cbn [fst snd] in *. set (N := next (maps h)) in *. set (f' := f_to f N la).
  assert (F : forall l, l < N -> f' l = f l) by (intros l L; unfold f', f_to; by rewrite decide_False by lia).
  assert (FN : f' N = la) by (unfold f', f_to; by rewrite decide_True).
  assert (Rb : refs_below N (fresh_map h (at_map ww.1 la)) g) by (intros x l; unfold fresh_map; rewrite ref_maps; apply (i_bound _ (al_inv _ _ _ A) x)).
  constructor; cbn [fst snd].
  - apply (hstep_good (EMake (at_map ww.1 la)) (h, g, mu) A1).
  - rewrite (img_ext f f' (maps ww.1) _ g N Rb F). exact A2.
  - rewrite map_app. cbn. rewrite FN. f_equal. rewrite A3. apply map_ext_Forall, Forall_forall. intros l Hl. symmetry. apply F. destruct A1 as [(_ & _ & Mi) _]. by apply Mi.
  - exact A4.
  - intros l L. cbn in L. destruct (decide (l = N)) as [->|Ne]; [by rewrite FN|]. rewrite F by (unfold N in *; lia). apply A5. unfold N in *. lia.
  - intros l L. cbn in L. destruct (decide (l = N)) as [->|Ne]; [rewrite FN; apply at_map_fresh|]. rewrite at_map_fresh_ne by done. rewrite F by (unfold N in *; lia). apply A6. unfold N in *. lia.
Qed.
Lemma img_set_ref f M w x la : is_Some (ref w.1 w.2 x) -> img f M (set_ref w x la) = set_ref (img f M w) x (f la).
Proof.
  destruct w as [h g]. cbn [fst snd]. intros [l R]. destruct x as [|p|p|p]; cbn [set_ref].
  - done.
  - unfold img, img_h, img_store. cbn [fst snd with_nobjs nobjs put cells next]. f_equal. f_equal. f_equal. rewrite fmap_insert. f_equal. unfold img_n. cbn.
    cbn in R. unfold at_node. cbn [nobjs cells]. rewrite lookup_fmap. by destruct (cells (nobjs h) !! p).
  - unfold img, img_h, img_store. cbn [fst snd with_eobjs eobjs put cells next]. f_equal. f_equal. f_equal. rewrite fmap_insert. f_equal. unfold img_e. cbn.
    cbn in R. unfold at_edge. cbn [eobjs cells]. rewrite lookup_fmap. by destruct (cells (eobjs h) !! p).
  - unfold img, img_h, img_store. cbn [fst snd with_sobjs sobjs put cells next]. f_equal. f_equal. f_equal. rewrite fmap_insert. f_equal. unfold img_s. cbn.
    cbn in R. unfold at_sub. cbn [sobjs cells]. rewrite lookup_fmap. by destruct (cells (sobjs h) !! p).
Qed.
Lemma maps_set_ref w x l : maps (set_ref w x l).1 = maps w.1.
Proof. destruct w as [h g]. apply at_map_set_ref. Qed.
Lemma al_redirect f u w x la : al f u w -> is_Some (ref u.1.1 u.1.2 x) -> la < next (maps w.1.1) ->
  let m := at_map w.1.1 la in
  al (f_to f (next (maps u.1.1)) la) (set_ref (fresh_map u.1.1 m, u.1.2) x (next (maps u.1.1)), u.2) (set_ref w.1 x la, w.2).
Proof.
  intros A R La m. pose proof A as [A1 A2 A3 A4 A5 A6]. destruct u as [[h g] mu], w as [ww mw]. cbn [fst snd] in *. set (N := next (maps h)) in *. set (f' := f_to f N la).
  assert (F : forall l, l < N -> f' l = f l) by (intros l L; unfold f', f_to; by rewrite decide_False by lia).
  assert (FN : f' N = la) by (unfold f', f_to; by rewrite decide_True).
  assert (Rb : refs_below N (fresh_map h m) g) by (intros y l; unfold fresh_map; rewrite ref_maps; apply (i_bound _ (al_inv _ _ _ A) y)).
  assert (R1 : is_Some (ref (fresh_map h m) g x)) by (unfold fresh_map; by rewrite ref_maps).
  constructor; cbn [fst snd].
  - pose proof (xstep_good (XEdit PropsGraph.o_id (WNew x m)) (h, g, mu) A1) as G. cbn [xstep hedit fst snd] in G. destruct R as [l R]. rewrite R in G. exact G.
  - rewrite maps_set_ref. rewrite img_set_ref by exact R1. rewrite FN. rewrite (img_ext f f' (maps ww.1) _ g N Rb F). f_equal. exact A2.
  - rewrite A3. apply map_ext_Forall, Forall_forall. intros l Hl. symmetry. apply F. destruct A1 as [(_ & _ & Mi) _]. by apply Mi.
  - by rewrite maps_set_ref.
  - rewrite !maps_set_ref. intros l L. cbn in L. destruct (decide (l = N)) as [->|Ne]; [by rewrite FN|]. rewrite F by (unfold N in *; lia). apply A5. unfold N in *. lia.
  - assert (Am : forall l, at_map (set_ref ww x la).1 l = at_map ww.1 l) by (intros l; unfold at_map; by rewrite maps_set_ref).
    assert (Au : forall l, at_map (set_ref (fresh_map h m, g) x N).1 l = at_map (fresh_map h m) l) by (intros l; unfold at_map; by rewrite maps_set_ref).
    rewrite maps_set_ref. intros l L. rewrite Am, Au. cbn in L. destruct (decide (l = N)) as [->|Ne]; [rewrite FN; apply at_map_fresh|].
    rewrite at_map_fresh_ne by done. rewrite F by (unfold N in *; lia). apply A6. unfold N in *. lia.
Qed.
Lemma redirect_built u x m : good u -> is_Some (ref u.1.1 u.1.2 x) -> built (abs u.1) -> built (abs (set_ref (fresh_map u.1.1 m, u.1.2) x (next (maps u.1.1)))).
Proof.
  intros G [l R] Bu. pose proof (PropsHeapEdit.xstep_built (XEdit PropsGraph.o_id (WNew x m)) u G PropsGraph.fair_id Bu) as K. destruct u as [[h g] mu]. cbn [fst snd] in *. cbn [xstep hedit fst snd] in K. rewrite R in K. exact K.
Qed.
Lemma take_built u m : good u -> built (abs u.1) -> built (abs (fresh_map u.1.1 m, u.1.2)).
Proof.
  intros G Bu. pose proof (PropsHeapEdit.xstep_built (XEvent (EMake m)) u G Logic.I Bu) as K. destruct u as [[h g] mu]. exact K.
Qed.

(** ** Calls *)
Lemma ref_of_map (f : nat -> nat) mine m : ref_of (map f mine) m = f <$> ref_of mine m.
Proof. destruct m as [i|]; cbn; [|done]. apply list_lookup_fmap. Qed.
Lemma adds_to_refs w f c : adds_to w (with_refs f c) = adds_to w c.
Proof. by destruct c. Qed.
Lemma adds_to_img f M w c : adds_to (img f M w) c = adds_to w c.
Proof. by destruct c. Qed.
Lemma call_al f u w grow o c : al f u w -> let e := ECall grow o c in let w' := (hstep e w).1 in
  let C := with_contents (content_of (map (at_map w.1.1) w.2)) c in
  exists f' u' fr t, al f' u' w' /\ (fair o -> built (abs u.1) -> built (abs u'.1)) /\ moved w w' fr t /\ as_said w w' (AEvent (XEvent e)) t /\
    (hstep e w).2 = [(exec o C (abs w.1)).2] /\ bare (abs w'.1) = bare (exec o C (abs w.1)).1 /\ (t = None -> abs w'.1 = (exec o C (abs w.1)).1) /\
    (forall x pl, exists_in w'.1 x -> stands w'.1 x pl -> (forall l m, t = Some (l, m) -> map_of w' (At x) <> Some l) -> attrs_at (abs w'.1) pl = attrs_at (exec o C (abs w.1)).1 pl).
Proof.
  intros A e w' C. pose proof A as [A1 A2 A3 A4 A5 A6]. pose proof (al_abs _ _ _ A) as Aa. pose proof (al_env _ _ _ A) as Ae.
  destruct u as [U mu], w as [W mw]. cbn [fst snd] in *. pose proof (al_inv _ _ _ A) as I. cbn [fst] in I.
  set (c_u := with_refs (ref_of mu) c).
  assert (Cw : with_refs (ref_of mw) c = over_refs f c_u).
  { rewrite A3. unfold over_refs, c_u. destruct c; cbn; by rewrite ?ref_of_map. }
  assert (La : forall l, arg_of c_u = Some l -> l < next (maps U.1)) by (intros l Hl; destruct A1 as [(_ & _ & Mi) _]; by apply Mi, (arg_of_refs mu c)).
  destruct (hexec_in_step grow o c_u f (maps W.1) U I A4 A5 A6 La) as (fr & t & H).
  destruct (hexec_sim grow o c_u U I La) as (J & Es & V).
  assert (CC : with_contents (arg U.1) c_u = C).
  { unfold c_u, C. apply with_contents_refs. intros m. rewrite arg_content. by rewrite Ae. }
  rewrite CC in Es. assert (Ew : hstep e (W, mw) = ((img (lift fr f (next (maps U.1)) (next (maps W.1))) (mapply fr (over f t) (maps W.1)) (hexec grow o c_u U).1, mw), [(hexec grow o c_u U).2])).
  { unfold e. cbn [hstep]. destruct W as [hW gW]. rewrite Cw. rewrite A2. cbn [fst]. pose proof (is_img _ _ _ _ _ _ _ _ _ H) as Hi. cbn [fst] in Hi. rewrite Hi. done. }
  assert (Tb : forall l m, t = Some (l, m) -> l < next (maps U.1)).
  { intros l m Et. destruct (is_target _ _ _ _ _ _ _ _ _ H l m Et) as (x & pl & _ & R). by apply (i_bound _ I x). }
  assert (Gu : good ((hexec grow o c_u U).1, mu)).
  { pose proof (hstep_good e (U, mu) A1) as G. unfold e in G. cbn [hstep] in G. destruct U as [hU gU]. fold c_u in G. by destruct (hexec grow o c_u (hU, gU)). }
  assert (Bd : fair o -> built (abs U) -> built (abs (hexec grow o c_u U).1)).
  { intros Fo Bu. pose proof (PropsHeapEdit.xstep_built (XEvent e) (U, mu) A1 Fo Bu) as K. unfold e in K. cbn [xstep hstep] in K. destruct U as [hU gU]. fold c_u in K. by destruct (hexec grow o c_u (hU, gU)). }
  set (f' := lift fr f (next (maps U.1)) (next (maps W.1))) in *. set (u1 := (hexec grow o c_u U).1) in *. set (r := (hexec grow o c_u U).2) in *.
  destruct (al_again f u1 (img f' (mapply fr (over f t) (maps W.1)) u1) (maps W.1) mu fr t (U, mu) Gu (is_maps _ _ _ _ _ _ _ _ _ H) A4 A5 A6 Tb eq_refl) as (h' & Al & Bu & Hm & Hn & Hc).
  assert (Mm : map f' mu = mw).
  { rewrite A3. apply map_ext_Forall, Forall_forall. intros l Hl. apply lift_below. destruct A1 as [(_ & _ & Mi) _]. by apply Mi. }
  change (lift fr f (next (maps (U, mu).1.1)) (next (maps W.1))) with f' in Al. rewrite Mm in Al. unfold w'. rewrite Ew. cbn [fst snd]. unfold simulates in Es.
  assert (E1 : abs u1 = (exec o C (abs W)).1) by (rewrite Aa; by apply (f_equal fst) in Es).
  assert (E2 : r = (exec o C (abs W)).2) by (rewrite Aa; by apply (f_equal snd) in Es).
  exists f', (h', u1.2, mu), fr, (over f t). split; [exact Al|]. split; [intros Fo B0; by apply Bu, Bd|]. split; [|split; [|split; [|split; [|split]]]].
  - constructor; cbn [fst snd].
    + done.
    + pose proof (is_refs _ _ _ _ _ _ _ _ _ H) as Rs. fold u1 in Rs. assert (Ro : forall x, ref W.1 W.2 x = f <$> ref U.1 U.2 x) by (intros x; apply (al_ref _ _ _ x A)).
      assert (Rn : forall x, ref (img f' (mapply fr (over f t) (maps W.1)) u1).1 (img f' (mapply fr (over f t) (maps W.1)) u1).2 x = f' <$> ref u1.1 u1.2 x) by (intros x; apply ref_img).
      assert (Ff : forall x, f' <$> ref U.1 U.2 x = f <$> ref U.1 U.2 x).
      { intros x. destruct (ref U.1 U.2 x) as [l|] eqn:R; [|done]. cbn. f_equal. apply lift_below. by apply (i_bound _ I x). }
      destruct Rs as [Rs|(Nf & y & Ny & Rs)].
      * left. intros [x|i]; cbn [map_of fst snd]; [|done]. rewrite Rn, Rs, Ff. by rewrite Ro.
      * right. destruct fr as [a|]; [|done]. split; [done|]. exists (At y). split; [cbn [map_of fst snd]; by rewrite Ro, Ny|].
        intros [x|i]; cbn [map_of fst snd]; [|by rewrite decide_False]. rewrite Rn, Rs. destruct (decide (x = y)) as [->|Ne].
        -- rewrite decide_True by done. cbn. f_equal. apply (lift_new a).
        -- rewrite decide_False by congruence. rewrite Ff. by rewrite Ro.
  - assert (Ch : forall x pl, adds_to U c_u = Some (x, pl) -> changes (W, mw) (AEvent (XEvent e)) = Some (At x, attrs_at (abs u1) pl)).
    { intros x pl E. unfold changes, e. cbn [fst snd]. fold C. assert (Ea : adds_to W c = Some (x, pl)) by (rewrite A2, adds_to_img; by rewrite <- E; unfold c_u; rewrite adds_to_refs).
      rewrite Ea. cbn [fmap option_fmap option_map fst snd]. by rewrite E1. }
    split.
    + intros l m Et. destruct t as [[l0 m0]|] eqn:Ett; [|done]. cbn in Et. injection Et as <- <-. destruct (is_target _ _ _ _ _ _ _ _ _ H l0 m0 eq_refl) as (x & pl & Ea & R).
      exists (At x), (attrs_at (abs u1) pl). split; [by apply Ch|]. pose proof (al_ref _ _ _ x A) as Rw. cbn [fst snd] in Rw. cbn [map_of fst snd]. by rewrite Rw, R.
    + intros c0 m' l Hch Hl. unfold changes, e in Hch. destruct (adds_to (W, mw).1 c) as [[x pl]|] eqn:Ea; [|done].
      assert (Eu : adds_to U c_u = Some (x, pl)) by (unfold c_u; rewrite adds_to_refs, <- (adds_to_img f (maps W.1)), <- A2; exact Ea).
      pose proof (Ch x pl Eu) as Hch'. unfold changes, e in Hch'. rewrite Ea in Hch'. rewrite Hch in Hch'. injection Hch' as -> ->. clear Hch.
      destruct (is_stands _ _ _ _ _ _ _ _ _ H x pl Eu) as [[lu Ru] St]. fold u1 in St.
      assert (Ru1 : ref u1.1 u1.2 x = Some lu).
      { destruct (is_refs _ _ _ _ _ _ _ _ _ H) as [Rs|(_ & y & Ny & Rs)]; fold u1 in Rs; rewrite Rs; [done|]. destruct (decide (x = y)) as [->|]; [congruence|done]. }
      rewrite (attrs_at_abs u1 x pl (ex_intro _ lu Ru1) St). unfold attrs_seen. rewrite Ru1. pose proof (al_ref _ _ _ x A) as Rw. cbn [map_of fst snd] in Rw, Hl. rewrite Rw, Ru in Hl. injection Hl as <-.
      pose proof (i_bound _ I x lu Ru) as Lu. unfold at_map. pose proof (is_maps _ _ _ _ _ _ _ _ _ H) as Hmm. fold u1 in Hmm. rewrite Hmm. unfold at_m. cbn [fst img img_h maps].
      destruct t as [[l0 m0]|] eqn:Ett.
      * destruct (is_target _ _ _ _ _ _ _ _ _ H l0 m0 eq_refl) as (x0 & pl0 & Ea0 & R0). rewrite Eu in Ea0. injection Ea0 as <- <-. rewrite Ru in R0. injection R0 as <-.
        cbn [over fmap option_fmap option_map mapply put cells fst snd]. by rewrite !lookup_insert.
      * cbn [over fmap option_fmap option_map mapply]. symmetry. destruct fr as [a|].
        -- cbn [alloc fst cells]. rewrite !lookup_insert_ne by (specialize (A5 lu Lu); lia). by apply A6.
        -- by apply A6.
  - by rewrite E2.
  - rewrite <- E1. pose proof (al_abs _ _ _ Al) as Ab. cbn [fst] in Ab. rewrite Ab, Hm, bare_maps. by destruct u1.
  - intros Et. pose proof (al_abs _ _ _ Al) as Ab. cbn [fst] in Ab. rewrite <- E1, Ab, Hn; [by destruct u1|]. by destruct t as [[??]|].
  - intros x pl [l R] St N. rewrite <- E1. pose proof (ref_img f' (mapply fr (over f t) (maps W.1)) u1.1 u1.2 x) as Ri. cbn [img fst snd] in R, Ri. rewrite Ri in R.
    destruct (ref u1.1 u1.2 x) as [lu|] eqn:Ru; [|done]. injection R as R.
    assert (Stu : stands u1 x pl) by (inversion St; subst; by constructor).
    assert (Lu : lu < next (maps u1.1)) by (by apply (i_bound _ J x)).
    pose proof (al_abs _ _ _ Al) as Ab. cbn [fst] in Ab. rewrite Ab.
    assert (Rh : ref h' u1.2 x = Some lu) by (rewrite Hm, ref_maps; exact Ru).
    assert (Sth : stands (h', u1.2) x pl) by (inversion Stu; subst; constructor; cbn [fst snd] in *; [done|rewrite Hm; done]).
    rewrite (attrs_at_abs u1 x pl (ex_intro _ lu Ru) Stu), (attrs_at_abs (h', u1.2) x pl (ex_intro _ lu Rh) Sth). unfold attrs_seen. cbn [fst snd]. rewrite Ru, Rh.
    apply Hc; [exact Lu|]. intros l0 m Et E. apply (N (f l0) m); [rewrite Et; done|]. cbn [map_of fst snd img]. rewrite Ri. cbn. change (lift fr f (next (maps (U, mu).1.1)) (next (maps W.1))) with f' in E. by rewrite E.
Qed.
