(** Proofs for HeapAlias.v: all events. *)
From Coq Require Import Lia.
From Verif Require Import Base Maps Graph SpecGraph MapFacts GraphProofs HeapGraph SpecHeap HeapProofs HeapEdit SpecHeapEdit HeapEditProofs.
From Verif Require Import Direct SpecDirect DirectProofs HeapAlias SpecAlias AliasImg AliasCalls AliasProofs AliasSteps.
From Verif Require PropsGraph PropsHeapEdit.
Local Notation state := (world * list nat)%type.

(** ** What is seen without attributes does not depend on the references to maps *)
Lemma bare_set_ref w x l : exists_in w x -> bare (abs (set_ref w x l)) = bare (abs w).
Proof.
  destruct w as [h g]. intros [l0 R]. cbn [fst snd] in R. destruct x as [|p|p|p]; cbn [set_ref].
  - done.
  - unfold bare, abs. cbn [g_name g_directed g_strict g_nodes g_edges g_subs g_rels]. f_equal. f_equal. cbn [nodes_heap abs_nodes with_nobjs nobjs put cells].
    apply map_eq. intros q. rewrite !lookup_fmap. cbn in R. destruct (cells (nobjs h) !! p) as [nd|] eqn:E; [|done]. destruct (decide (p = q)) as [<-|N].
    + rewrite lookup_insert, E. cbn. f_equal. unfold bare_node, abs_node, at_node. rewrite E. done.
    + by rewrite lookup_insert_ne.
  - cbn zeta. set (h' := with_eobjs h _).
    assert (K : forall q, bare_edge (abs_edge h' q) = bare_edge (abs_edge h q)).
    { intros q. assert (AE : exists l1, at_edge h' q = EObj (eo_src (at_edge h q)) (eo_src_port (at_edge h q)) (eo_dst (at_edge h q)) (eo_dst_port (at_edge h q)) (eo_dir (at_edge h q)) l1).
      { unfold at_edge at 1. unfold h'. cbn [with_eobjs eobjs put cells]. destruct (decide (p = q)) as [<-|N]; [rewrite lookup_insert; by eexists|].
        rewrite lookup_insert_ne by done. exists (eo_attrs (at_edge h q)). unfold at_edge. by destruct (default _ (cells (eobjs h) !! q)). }
      destruct AE as [l1 AE]. unfold abs_edge. rewrite AE. done. }
    assert (K2 : forall idx, bare_index (abs_index h' idx) = bare_index (abs_index h idx)).
    { intros idx. unfold bare_index, abs_index. rewrite <- !map_fmap_compose. apply map_fmap_ext. intros a inner _. cbn. rewrite <- !map_fmap_compose. apply map_fmap_ext. intros b ps _. cbn.
      rewrite !map_map. apply map_ext. exact K. }
    unfold bare, abs. cbn [g_name g_directed g_strict g_nodes g_edges g_subs g_rels]. f_equal. unfold abs_edges. cbn [src_to_dsts dst_to_srcs edges_list]. f_equal; [apply K2|apply K2|].
    rewrite !map_map. apply map_ext. exact K.
  - unfold bare, abs. cbn [g_name g_directed g_strict g_nodes g_edges g_subs g_rels]. f_equal. unfold abs_subs. rewrite <- !map_fmap_compose. apply map_fmap_ext. intros n q _. cbn.
    unfold bare_sub, abs_sub. cbn [sub_name]. f_equal. unfold at_sub at 1. cbn [with_sobjs sobjs put cells]. destruct (decide (p = q)) as [<-|N]; [by rewrite lookup_insert|by rewrite lookup_insert_ne].
Qed.

(** ** The content of a map that something refers to is changed *)
Lemma al_set f u w s la m : al f u w -> map_of w s = Some la ->
  exists u', al f u' (upd w.1.1 la m, w.1.2, w.2) /\ (built (abs u.1) -> built (abs u'.1)).
Proof.
  intros A E. pose proof A as [A1 A2 A3 A4 A5 A6]. rewrite (al_map_of _ _ _ s A) in E. destruct (map_of u s) as [l0|] eqn:E0; [|done]. injection E as E.
  pose proof (al_u_below _ _ _ _ _ A E0) as L0. destruct u as [[h g] mu], w as [[hw gw] mw]. cbn [fst snd] in *.
  pose proof (good_upd h g mu l0 m A1 L0) as G1.
  assert (EM : maps (upd h l0 m) = mapply None (Some (l0, m)) (maps h)) by done.
  destruct (al_again f (upd h l0 m, g) (upd hw la m, gw) (maps hw) mu None (Some (l0, m)) (h, g, mu) G1 EM A4 A5 A6) as (h' & Al & Bu & _).
  - intros l m' [= <- <-]. exact L0.
  - cbn [lift over fmap option_fmap option_map fst snd mapply]. rewrite <- E. apply (f_equal (fun w : world => (upd w.1 (f l0) m, w.2))) in A2. cbn [fst snd img] in A2. exact A2.
  - exists (h', g, mu). cbn [fst snd lift] in *. rewrite <- A3 in Al. split; [exact Al|]. intros B. apply Bu. by apply (built_upd h g mu).
Qed.
Lemma moved_set (w : state) la m : la < next (maps w.1.1) -> moved w (upd w.1.1 la m, w.1.2, w.2) None (Some (la, m)).
Proof. intros L. destruct w as [[h g] mine]. constructor; [done|]. left. intros [x|i]; cbn [map_of fst snd]; [|done]. unfold upd. by rewrite ref_maps. Qed.
Lemma hedit_upd' o mine e h g x op l : swf (maps h) -> l < next (maps h) -> ~ is_new e -> op_of (map (at_map h) mine) e = Some (x, op) -> ref h g x = Some l ->
  hedit o mine e (h, g) = ((upd h l (exec_attr o op (at_map h l)).1, g), (exec_attr o op (at_map h l)).2).
Proof.
  intros W L N E R. destruct e; cbn in E; try discriminate; injection E as <- <-; cbn [hedit]; rewrite R.
  - rewrite h_attrs_add_upd by done. done.
  - done.
  - done.
  - rewrite arg_content, h_extend_upd by done. done.
  - rewrite arg_content, h_ammend_upd by done. done.
  - destruct N. done.
Qed.

(** ** Every event *)
Inductive ends (st st' : state) (e : aevent) : Prop :=
| E_moved fr t : moved st st' fr t -> as_said st st' e t -> (forall s m, redirects st e = Some (s, m) -> ~ there st s) -> (forall x, e = ATake x -> ~ there st (At x)) -> ends st st' e
| E_redirected x m la : redirects st e = Some (At x, m) -> there st (At x) -> changes st e = None -> (forall x, e <> ATake x) ->
    (maps st'.1.1 = maps st.1.1 \/ exists a, maps st'.1.1 = (alloc (maps st.1.1) a).1) -> at_m (maps st'.1.1) la = m ->
    (joins st e = None -> la = next (maps st.1.1)) -> (forall j, joins st e = Some j -> map_of st j = Some la) ->
    (forall s, map_of st' s = if decide (s = At x) then Some la else map_of st s) -> ends st st' e
| E_taken x la : e = ATake x -> map_of st (At x) = Some la -> maps st'.1.1 = maps st.1.1 ->
    (forall s, map_of st' s = if decide (s = Mine (length st.2)) then Some la else map_of st s) -> ends st st' e.
Record kept_al (f : nat -> nat) (u st st' : state) (e : aevent) : Prop := {
  ka_al : exists f' u', al f' u' st' /\ (fair_aevent e -> built (abs u.1) -> built (abs u'.1));
  ka_ends : ends st st' e }.

Lemma as_said_none st e : changes st e = None -> as_said st st e None.
Proof. intros E. split; [done|]. rewrite E. done. Qed.
Lemma moved_none st : moved st st None None.
Proof. constructor; [done|by left]. Qed.
Lemma kept_same f u st e : al f u st -> (forall c m l, changes st e = Some (c, m) -> map_of st c <> Some l) ->
  (forall s m, redirects st e = Some (s, m) -> ~ there st s) -> (forall x, e = ATake x -> ~ there st (At x)) -> kept_al f u st st e.
Proof.
  intros A C R T. split; [by exists f, u|]. apply (E_moved _ _ _ None None); [apply moved_none| |done|done]. split; [done|]. intros c m l H1 H2. by destruct (C c m l H1).
Qed.
(** One map is changed. *)
Lemma kept_set f u st e c m la : al f u st -> changes st e = Some (c, m) -> map_of st c = Some la -> redirects st e = None -> (forall x, e <> ATake x) ->
  kept_al f u st (upd st.1.1 la m, st.1.2, st.2) e.
Proof.
  intros A C M R T. pose proof (al_w_below _ _ _ _ _ A M) as L. split.
  - destruct (al_set f u st c la m A M) as (u' & Al & Bu). exists f, u'. split; [exact Al|]. intros _. exact Bu.
  - apply (E_moved _ _ _ None (Some (la, m))); [by apply moved_set| |by rewrite R|]; [|intros x E; by destruct (T x)]. split.
    + intros l m' [= <- <-]. by exists c, m.
    + rewrite C. intros c' m' l [= <- <-] H. rewrite M in H. injection H as <-. apply at_map_upd.
Qed.
Lemma map_of_set_ref w mine x l s : exists_in w x -> map_of (set_ref w x l, mine) s = if decide (s = At x) then Some l else map_of (w, mine) s.
Proof.
  intros X. destruct w as [h g]. destruct s as [y|i]; cbn [map_of fst snd]; [|by rewrite decide_False].
  rewrite ref_set_ref by exact X. destruct (decide (y = x)) as [->|N]; [by rewrite decide_True|by rewrite decide_False by congruence].
Qed.

(** A reference is changed to a map that is there. *)
Lemma al_w_there f u w x : al f u w -> is_Some (ref w.1.1 w.1.2 x) -> is_Some (ref u.1.1 u.1.2 x).
Proof. intros A. rewrite (al_ref _ _ _ x A). destruct (ref u.1.1 u.1.2 x); [by eexists|by intros [? ?]]. Qed.
Lemma kept_redirect f u w e x la j : al f u w -> there w (At x) -> map_of w j = Some la -> redirects w e = Some (At x, content w j) -> joins w e = Some j ->
  changes w e = None -> (forall x, e <> ATake x) -> kept_al f u w (set_ref w.1 x la, w.2) e.
Proof.
  intros A X J R Jo C T. pose proof (al_w_below _ _ _ _ _ A J) as L. split.
  - eexists _, _. split; [apply (al_redirect f u w x la A); [by apply (al_w_there f u w)|exact L]|]. intros _ Bu. cbn [fst snd]. apply redirect_built; [apply (al_good _ _ _ A)|by apply (al_w_there f u w)|exact Bu].
  - apply (E_redirected _ _ _ x (content w j) la); [done..| | | | |]; cbn [fst snd]; rewrite ?maps_set_ref.
    + by left.
    + unfold content. rewrite J. done.
    + by rewrite Jo.
    + rewrite Jo. by intros ? [= <-].
    + intros s. destruct w as [ww mw]. by apply map_of_set_ref.
Qed.
(** x.Attrs = map[Attr]string{...} *)
Lemma kept_new f u w o x m : al f u w -> there w (At x) -> kept_al f u w (xstep (XEdit o (WNew x m)) w).1 (AEvent (XEdit o (WNew x m))).
Proof.
  intros A [l X]. pose proof (al_grow f u w m A) as A1. destruct w as [[h g] mw]. cbn [fst snd map_of] in *. cbn [xstep hedit fst snd]. rewrite X.
  change (new_map h m) with (fresh_map h m, next (maps h)). cbn [fst snd].
  assert (X1 : is_Some (ref (fresh_map h m) g x)) by (unfold fresh_map; rewrite ref_maps; by eexists).
  assert (L : next (maps h) < next (maps (fresh_map h m))) by (cbn; lia). split.
  - eexists _, _. split; [apply (al_redirect f u (fresh_map h m, g, mw) x (next (maps h)) A1); [by apply (al_w_there _ _ _ _ A1)|exact L]|]. intros _ Bu. cbn [fst snd].
    apply redirect_built; [apply (al_good _ _ _ A)|by apply (al_w_there _ _ _ _ A1)|exact Bu].
  - apply (E_redirected _ _ _ x m (next (maps h))); [done| |done|done|..]; cbn [fst snd]; rewrite ?maps_set_ref.
    + exists l. exact X.
    + right. by exists m.
    + apply at_map_fresh.
    + done.
    + done.
    + intros s. rewrite map_of_set_ref by exact X1. destruct (decide (s = At x)); [done|]. destruct s; cbn [map_of fst snd]; [|done]. unfold fresh_map. by rewrite ref_maps.
Qed.
Lemma kept_make f u w m : al f u w -> kept_al f u w (hstep (EMake m) w).1 (AEvent (XEvent (EMake m))).
Proof.
  intros A. pose proof (al_grow f u w m A) as A1. destruct w as [[h g] mw]. cbn [fst snd hstep] in *. change (new_map h m) with (fresh_map h m, next (maps h)). cbn [fst snd].
  assert (L : next (maps h) < next (maps (fresh_map h m))) by (cbn; lia). split.
  - pose proof (al_take f u (fresh_map h m, g, mw) (next (maps h)) A1 L) as A2. eexists _, _. split; [exact A2|]. intros _ Bu. cbn [fst snd]. apply take_built; [apply (al_good _ _ _ A)|exact Bu].
  - apply (E_moved _ _ _ (Some m) None); [|done|done|done]. constructor; [done|]. right. split; [done|]. exists (Mine (length mw)). split; [cbn [map_of snd]; by apply lookup_ge_None_2|].
    intros [x|i]; cbn [map_of fst snd]; [unfold fresh_map; by rewrite ref_maps|]. destruct (decide (Mine i = Mine (length mw))) as [[= ->]|N].
    + by rewrite lookup_app_r, Nat.sub_diag.
    + destruct (decide (i < length mw)); [by rewrite lookup_app_l|]. rewrite !lookup_ge_None_2; [done|lia|]. rewrite app_length. cbn. assert (i <> length mw) by congruence. lia.
Qed.
Lemma kept_take f u w x la : al f u w -> map_of w (At x) = Some la -> kept_al f u w (w.1, w.2 ++ [la]) (ATake x).
Proof.
  intros A X. pose proof (al_w_below _ _ _ _ _ A X) as L. split.
  - eexists _, _. split; [exact (al_take f u w la A L)|]. intros _ Bu. cbn [fst snd]. apply take_built; [apply (al_good _ _ _ A)|exact Bu].
  - apply (E_taken _ _ _ x la); [done|exact X|done|]. destruct w as [w mw]. cbn [fst snd]. intros [y|i]; cbn [map_of fst snd]; [by rewrite decide_False|].
    destruct (decide (Mine i = Mine (length mw))) as [[= ->]|N].
    + by rewrite lookup_app_r, Nat.sub_diag.
    + destruct (decide (i < length mw)); [by rewrite lookup_app_l|]. rewrite !lookup_ge_None_2; [done|lia|]. rewrite app_length. cbn. assert (i <> length mw) by congruence. lia.
Qed.
(** e.SrcPort, e.DstPort, e.Dir = ... *)
Lemma kept_fields f u w o p sp dp dir : al f u w -> let e := WEdge p sp dp dir in
  kept_al f u w (xstep (XEdit o e) w).1 (AEvent (XEdit o e)) /\
  (forall t, stands w.1 (OEdge p) t -> exists_in w.1 (OEdge p) -> (abs (xstep (XEdit o e) w).1.1, (hedit o w.2 e w.1).2) = exec_direct o (direct_of [] e t) (abs w.1)) /\
  ((forall t, ~ stands w.1 (OEdge p) t) -> abs (xstep (XEdit o e) w).1.1 = abs w.1).
Proof.
  intros A e. pose proof A as [A1 A2 A3 A4 A5 A6]. pose proof (al_abs _ _ _ A) as Aa. destruct u as [[h g] mu], w as [[hw gw] mw]. cbn [fst snd] in *.
  assert (E1 : eobjs hw = img_store (img_e f) (eobjs h)) by (injection A2 as -> ->; done).
  cbn [xstep e hedit fst snd]. rewrite E1. cbn [img_store cells]. rewrite lookup_fmap. destruct (cells (eobjs h) !! p) as [eo|] eqn:Ep; cbn [fmap option_fmap option_map fst snd].
  2:{ split; [by apply kept_same|]. split; [|done]. intros t St [l R]. cbn [ref fst snd] in R. rewrite E1 in R. cbn [img_store cells] in R. by rewrite lookup_fmap, Ep in R. }
  set (hw' := with_eobjs hw _). set (h' := with_eobjs h (put (eobjs h) p (EObj (eo_src eo) sp (eo_dst eo) dp dir (eo_attrs eo)))).
  destruct (edited_fields o h g mu p eo sp dp dir A1 Ep) as [D1 D2 D3 D4 D5 D6 D7]. fold h' in D1, D2, D3, D4, D5, D6, D7. cbn [fst snd] in *.
  assert (Al : al f (h', g, mu) (hw', gw, mw)).
  { constructor; cbn [fst snd]; try done. apply (f_equal (fun w : world => (with_eobjs w.1 (put (eobjs w.1) p (img_e f (EObj (eo_src eo) sp (eo_dst eo) dp dir (eo_attrs eo)))), w.2))) in A2.
    cbn [fst snd] in A2. unfold hw'. etransitivity; [etransitivity; [|exact A2]|].
    - f_equal. f_equal. rewrite E1. done.
    - unfold img, img_h, img_store, h', with_eobjs. cbn [fst snd eobjs put cells next maps nobjs sobjs narrs earrs]. f_equal. f_equal. by rewrite fmap_insert. }
  pose proof (al_abs _ _ _ Al) as Ab. cbn [fst snd] in Ab.
  assert (Sw : forall t, stands (hw, gw) (OEdge p) t <-> stands (h, g) (OEdge p) t).
  { assert (Q : elems (earrs hw) (he_edges (hg_edges gw)) = elems (earrs h) (he_edges (hg_edges g))) by (pose proof (f_equal fst A2) as Eh; pose proof (f_equal snd A2) as Eg; cbn [fst snd img] in Eh, Eg; rewrite Eh, Eg; done).
    intros t. split; intros St; inversion St as [| | |p' i Hi Q1 Q2]; subst p' t; constructor; cbn [fst snd] in *; congruence. }
  split; [split|split].
  - exists f, (h', g, mu). split; [exact Al|]. intros Fo Bu. cbn [fst snd fair_aevent fair_xevent] in *. pose proof (PropsHeapEdit.xstep_built (XEdit o e) (h, g, mu) A1 Fo Bu) as K.
    cbn [xstep hedit e fst snd] in K. rewrite Ep in K. exact K.
  - apply (E_moved _ _ _ None None); [|done|done|done]. constructor; [done|]. left. intros [x|i]; cbn [map_of fst snd]; [|done].
    pose proof (al_ref _ _ _ x Al) as R1. pose proof (al_ref _ _ _ x A) as R2. cbn [fst snd] in R1, R2. rewrite R1, R2. f_equal.
    destruct x as [|q|q|q]; [done|done| |done]. unfold h'. cbn. destruct (decide (p = q)) as [<-|N]; [by rewrite lookup_insert, Ep|by rewrite lookup_insert_ne].
  - intros t St _. rewrite Ab, Aa. destruct (D3 t (proj1 (Sw t) St)) as [_ D]. apply Sw in St. rewrite D. inversion St; subst. done.
  - intros N. rewrite Ab, Aa. apply D4. intros t St. apply (N t). by apply Sw.
Qed.
Lemma kept_step f u st e : al f u st -> kept_al f u st (astep e st).1 e.
Proof.
  intros A. destruct e as [[[m|i k v|i k|grow o c]|o e]|x y|x i|x].
  - assert (H : astep (AEvent (XEvent (EMake m))) st = hstep (EMake m) st) by (by destruct st). rewrite H. by apply kept_make.
  - destruct (st.2 !! i) as [l|] eqn:E.
    + assert (H : (astep (AEvent (XEvent (ESet i k v))) st).1 = (upd st.1.1 l (<[k:=v]> (at_map st.1.1 l)), st.1.2, st.2)).
      { destruct st as [[h g] mine]. cbn [astep xstep hstep fst snd] in *. by rewrite E. }
      rewrite H. apply (kept_set f u st _ (Mine i)); [done| |exact E|done|done]. unfold changes, content. cbn [map_of]. by rewrite E.
    + assert (H : (astep (AEvent (XEvent (ESet i k v))) st).1 = st) by (destruct st as [[h g] mine]; cbn [astep xstep hstep fst snd] in *; by rewrite E).
      rewrite H. apply kept_same; [done| |done|done]. intros c m l [= <- <-]. cbn [map_of]. by rewrite E.
  - destruct (st.2 !! i) as [l|] eqn:E.
    + assert (H : (astep (AEvent (XEvent (EDel i k))) st).1 = (upd st.1.1 l (delete k (at_map st.1.1 l)), st.1.2, st.2)).
      { destruct st as [[h g] mine]. cbn [astep xstep hstep fst snd] in *. by rewrite E. }
      rewrite H. apply (kept_set f u st _ (Mine i)); [done| |exact E|done|done]. unfold changes, content. cbn [map_of]. by rewrite E.
    + assert (H : (astep (AEvent (XEvent (EDel i k))) st).1 = st) by (destruct st as [[h g] mine]; cbn [astep xstep hstep fst snd] in *; by rewrite E).
      rewrite H. apply kept_same; [done| |done|done]. intros c m l [= <- <-]. cbn [map_of]. by rewrite E.
  - destruct (call_al f u st grow o c A) as (f' & u' & fr & t & K1 & K2 & K3 & K4 & _).
    assert (H : (astep (AEvent (XEvent (ECall grow o c))) st).1 = (hstep (ECall grow o c) st).1) by (by destruct st as [[h g] mine]). rewrite H.
    split; [exists f', u'; split; [exact K1|exact K2]|]. by apply (E_moved _ _ _ fr t).
  - assert (H : astep (AEvent (XEdit o e)) st = xstep (XEdit o e) st) by (by destruct st). rewrite H. clear H.
    destruct (ref st.1.1 st.1.2 (through e)) as [l|] eqn:R.
    2:{ assert (H : (xstep (XEdit o e) st).1 = st) by (destruct st as [w mine]; cbn [xstep fst snd] in *; rewrite hedit_absent; [done|unfold exists_in; rewrite R; by intros [? ?]]).
      rewrite H. apply kept_same; [done| | |done].
      - intros c m l Hc. assert (Z : c = At (through e)) by (destruct e; cbn in Hc; try done; by injection Hc). subst c. cbn [map_of]. by rewrite R.
      - intros s m Hs [l Hl]. assert (Z : s = At (through e)) by (destruct e; cbn in Hs; try done; by injection Hs). subst s. cbn [map_of] in Hl. by rewrite R in Hl. }
    destruct (op_of (map (at_map st.1.1) st.2) e) as [[x op]|] eqn:E.
    + destruct (through_op _ _ _ _ E) as [T _]. rewrite T in R. destruct (match e with WNew _ _ => true | _ => false end) eqn:EN.
      * destruct e as [| | | | |x' m|]; try discriminate. cbn in T. subst x'. apply kept_new; [done|]. exists l. exact R.
      * assert (Nn : ~ is_new e) by (destruct e; cbn; tauto || discriminate). pose proof (al_w_below _ _ _ (At x) l A R) as L.
        assert (H : (xstep (XEdit o e) st).1 = (upd st.1.1 l (exec_attr o op (at_map st.1.1 l)).1, st.1.2, st.2)).
        { destruct st as [[h g] mine]. cbn [xstep fst snd] in *. rewrite (hedit_upd' o mine e h g x op l (al_swf _ _ _ A) L Nn E R). done. }
        rewrite H. apply (kept_set f u st _ (At x)); [done| |done| |done].
        -- assert (Q : content st (At x) = at_map st.1.1 l) by (unfold content; cbn [map_of]; by rewrite R). rewrite <- Q.
           destruct e; cbn in E; try discriminate; injection E as <- <-; done.
        -- destruct e; try discriminate; done.
    + destruct e as [| | | | | |p sp dp dir]; try discriminate. apply (kept_fields f u st o p sp dp dir A).
  - destruct (ref st.1.1 st.1.2 x) as [l|] eqn:X, (ref st.1.1 st.1.2 y) as [l'|] eqn:Y.
    + assert (H : (astep (AShare x y) st).1 = (set_ref st.1 x l', st.2)) by (destruct st as [w mine]; cbn [astep fst snd] in *; by rewrite X, Y).
      rewrite H. apply (kept_redirect f u st _ x l' (At y)); try done; [exists l; exact X|]. cbn. by rewrite Y.
    + assert (H : (astep (AShare x y) st).1 = st) by (destruct st as [w mine]; cbn [astep fst snd] in *; by rewrite X, Y).
      rewrite H. apply kept_same; try done. cbn. rewrite Y. done.
    + assert (H : (astep (AShare x y) st).1 = st) by (destruct st as [w mine]; cbn [astep fst snd] in *; by rewrite X).
      rewrite H. apply kept_same; try done. cbn. rewrite Y. intros s m [= <- <-] [l Hl]. cbn in Hl. by rewrite X in Hl.
    + assert (H : (astep (AShare x y) st).1 = st) by (destruct st as [w mine]; cbn [astep fst snd] in *; by rewrite X).
      rewrite H. apply kept_same; try done. cbn. rewrite Y. done.
  - destruct (ref st.1.1 st.1.2 x) as [l|] eqn:X, (st.2 !! i) as [l'|] eqn:Y.
    + assert (H : (astep (AGive x i) st).1 = (set_ref st.1 x l', st.2)) by (destruct st as [w mine]; cbn [astep fst snd] in *; by rewrite X, Y).
      rewrite H. apply (kept_redirect f u st _ x l' (Mine i)); try done; [exists l; exact X|]. cbn. by rewrite Y.
    + assert (H : (astep (AGive x i) st).1 = st) by (destruct st as [w mine]; cbn [astep fst snd] in *; by rewrite X, Y).
      rewrite H. apply kept_same; try done. cbn. rewrite Y. done.
    + assert (H : (astep (AGive x i) st).1 = st) by (destruct st as [w mine]; cbn [astep fst snd] in *; by rewrite X).
      rewrite H. apply kept_same; try done. cbn. rewrite Y. intros s m [= <- <-] [l Hl]. cbn in Hl. by rewrite X in Hl.
    + assert (H : (astep (AGive x i) st).1 = st) by (destruct st as [w mine]; cbn [astep fst snd] in *; by rewrite X).
      rewrite H. apply kept_same; try done. cbn. rewrite Y. done.
  - destruct (ref st.1.1 st.1.2 x) as [l|] eqn:X.
    + assert (H : (astep (ATake x) st).1 = (st.1, st.2 ++ [l])) by (destruct st as [w mine]; cbn [astep fst snd] in *; by rewrite X).
      rewrite H. by apply kept_take.
    + assert (H : (astep (ATake x) st).1 = st) by (destruct st as [w mine]; cbn [astep fst snd] in *; by rewrite X).
      rewrite H. apply kept_same; try done. intros y [= <-] [l Hl]. cbn in Hl. by rewrite X in Hl.
Qed.
Lemma arun_al es : forall f u st, al f u st -> exists f' u', al f' u' (arun es st).1 /\ (Forall fair_aevent es -> built (abs u.1) -> built (abs u'.1)).
Proof.
  induction es as [|e es IH]; intros f u st A; cbn [arun]; [by exists f, u|].
  destruct (ka_al _ _ _ _ _ (kept_step f u st e A)) as (f1 & u1 & A1 & B1). destruct (astep e st) as [st1 r]. cbn [fst] in *.
  destruct (IH f1 u1 st1 A1) as (f2 & u2 & A2 & B2). destruct (arun es st1) as [st2 rs]. cbn [fst] in *. exists f2, u2. split; [done|].
  intros F B. apply Forall_cons in F as [F1 F2]. auto.
Qed.
