(** Property C80: attribute maps that are shared between elements and with the caller (HeapAlias.v, SpecAlias.v). *)
From Coq Require Import Lia.
From Verif Require Import Base Maps Graph SpecGraph MapFacts GraphProofs HeapGraph SpecHeap HeapProofs HeapEdit SpecHeapEdit HeapEditProofs.
From Verif Require Import Direct SpecDirect DirectProofs HeapAlias SpecAlias AliasImg AliasCalls AliasProofs AliasSteps AliasAll.
From Verif Require PropsGraph PropsHeapEdit.
Notation o_id := PropsGraph.o_id.
Notation A := PropsGraph.A.

(** A history of calls, edits and assignments of maps from NewGraph(), with no map made so far. *)
Definition astart : world * list nat := (h_new_graph, []).
Definition aafter (es : list aevent) (st : world * list nat) : world * list nat := (arun es st).1.
Lemma aafter_al es : exists f u, al f u (aafter es astart) /\ (Forall fair_aevent es -> built (abs u.1)).
Proof.
  destruct (arun_al es _ _ _ al_new) as (f & u & H & B). exists f, u. split; [exact H|]. intros F. apply B; [done|]. change (h_new_graph, @nil nat).1 with h_new_graph. rewrite abs_new. constructor.
Qed.

(** What is seen of an element through a pointer is what the graph by value has at its place. *)
Theorem C80_seen : forall es x t,
  let st := aafter es astart in
  exists_in st.1 x -> stands st.1 x t -> attrs_at (abs st.1) t = content st (At x).
Proof. intros es x t st X St. by rewrite (attrs_at_abs st.1 x t X St). Qed.
Print Assumptions C80_seen.
(** Every event: the site that is redirected shows what it now refers to; the sites with the changed map all show its new content; nothing
    else changes. *)
Theorem C80_content : forall es e s,
  let st := aafter es astart in let st' := (astep e st).1 in
  there st s ->
  (forall m, redirects st e = Some (s, m) -> content st' s = m) /\
  (forall c m, changes st e = Some (c, m) -> together st c s -> content st' s = m) /\
  ((forall m, redirects st e <> Some (s, m)) -> (forall c m, changes st e = Some (c, m) -> ~ together st c s) -> content st' s = content st s).
Proof.
  intros es e s st st' [l S]. destruct (aafter_al es) as (f & u & H & _). fold st in H.
  assert (Below : forall s l, map_of st s = Some l -> l < next (maps st.1.1)) by (intros ??; by apply (al_w_below _ _ _ _ _ H)).
  pose proof (ka_ends _ _ _ _ _ (kept_step f u st e H)) as En; fold st' in En; destruct En as [fr t M Sd R T|x m la R X C T Ms Cm J1 J2 Rf|x la -> X Ms Rf].
  - assert (S' : map_of st' s = Some l).
    { destruct (mv_refs _ _ _ _ M) as [E|(_ & y & Y & E)]; rewrite E; [done|]. rewrite decide_False; [done|congruence]. }
    split; [intros m E; destruct (R s m E); by eexists|]. split.
    + intros c m C [[lc Hc] Tg]. rewrite S, Hc in Tg. injection Tg as ->. unfold content. rewrite S'. exact (proj2 Sd c m l C Hc).
    + intros _ C. unfold content. rewrite S', S. unfold at_map. rewrite (mv_maps _ _ _ _ M).
      assert (F : cells (match fr with Some a => (alloc (maps st.1.1) a).1 | None => maps st.1.1 end) !! l = cells (maps st.1.1) !! l).
      { destruct fr as [a|]; [|done]. cbn [alloc fst cells]. apply lookup_insert_ne. specialize (Below s l S). lia. }
      destruct t as [[lt mt]|]; unfold mapply; [|by rewrite F]. cbn [put cells]. destruct (proj1 Sd lt mt eq_refl) as (c & m' & Ec & Hc). rewrite lookup_insert_ne; [by rewrite F|].
      intros ->. apply (C c m' Ec). split; [by eexists|congruence].
  - assert (F : forall l, l < next (maps st.1.1) -> at_map st'.1.1 l = at_map st.1.1 l).
    { intros l' L. unfold at_map. destruct Ms as [->|[a ->]]; [done|]. cbn [alloc fst cells]. rewrite lookup_insert_ne; [done|lia]. }
    split; [|split].
    + intros m' E. rewrite R in E. injection E as <- <-. unfold content. rewrite Rf, decide_True by done. exact Cm.
    + rewrite C. done.
    + intros N _. unfold content. rewrite Rf, S. rewrite decide_False; [|intros ->; by apply (N m)]. apply F. by apply (Below s).
  - split; [done|]. split; [done|]. intros _ _. unfold content. rewrite Rf, S. rewrite decide_False; [unfold at_map; by rewrite Ms|]. intros ->. cbn [map_of] in S.
    apply lookup_lt_Some in S. lia.
Qed.
Print Assumptions C80_content.
(** No event parts or joins sites other than the one that it redirects. *)
Theorem C80_together : forall es e s t,
  let st := aafter es astart in let st' := (astep e st).1 in
  there st s -> there st t -> (forall m, redirects st e <> Some (s, m)) -> (forall m, redirects st e <> Some (t, m)) ->
  (together st' s t <-> together st s t).
Proof.
  intros es e s t st st' [l S] [lt T'] N1 N2. destruct (aafter_al es) as (f & u & H & _). fold st in H.
  assert (E : map_of st' s = map_of st s /\ map_of st' t = map_of st t).
  { pose proof (ka_ends _ _ _ _ _ (kept_step f u st e H)) as En; fold st' in En; destruct En as [fr q M Sd R T|x m la R X C T Ms Cm J1 J2 Rf|x la -> X Ms Rf].
    - destruct (mv_refs _ _ _ _ M) as [E|(_ & y & Y & E)]; rewrite !E; [done|]. rewrite !decide_False; [done|congruence..].
    - rewrite !Rf, !decide_False; [done|intros ->; by apply (N2 m)|intros ->; by apply (N1 m)].
    - rewrite !Rf, !decide_False; [done|..]; intros ->; cbn [map_of] in *; [apply lookup_lt_Some in T'|apply lookup_lt_Some in S]; lia. }
  unfold together, there. destruct E as [-> ->]. done.
Qed.
Print Assumptions C80_together.
(** The redirected site is then together with what it was assigned from, and with what that was together with, and with nothing else
    (with nothing at all after x.Attrs = map[Attr]string{...}). *)
Theorem C80_redirected : forall es e s m t,
  let st := aafter es astart in let st' := (astep e st).1 in
  redirects st e = Some (s, m) -> there st s -> there st t -> t <> s ->
  (together st' s t <-> exists j, joins st e = Some j /\ together st j t).
Proof.
  intros es e s m t st st' E S [lt T'] N. destruct (aafter_al es) as (f & u & H & _). fold st in H.
  assert (Below : forall s l, map_of st s = Some l -> l < next (maps st.1.1)) by (intros ??; by apply (al_w_below _ _ _ _ _ H)).
  pose proof (ka_ends _ _ _ _ _ (kept_step f u st e H)) as En; fold st' in En; destruct En as [fr q M Sd R T|x m' la R X C T Ms Cm J1 J2 Rf|x la -> X Ms Rf]; [by destruct (R s m E)| |done].
  rewrite R in E. injection E as <- <-. unfold together, there. rewrite !Rf. rewrite decide_True by done. rewrite decide_False by done. rewrite T'. split.
  - intros [_ [= <-]]. destruct (joins st e) as [j|] eqn:Ej.
    + exists j. split; [done|]. rewrite (J2 j eq_refl). split; [by eexists|done].
    + specialize (Below t la T'). rewrite (J1 eq_refl) in Below. lia.
  - intros (j & Ej & _ & Hj). rewrite (J2 j Ej) in Hj. split; [by eexists|exact Hj].
Qed.
Print Assumptions C80_redirected.
(** What was there is there; sites that come into being have maps of their own, except for m := x.Attrs. *)
Theorem C80_new : forall es e s,
  let st := aafter es astart in let st' := (astep e st).1 in
  (there st s -> there st' s) /\
  (forall m, e = AEvent (XEvent (EMake m)) -> content st' (Mine (length st.2)) = m /\ there st' (Mine (length st.2))) /\
  (forall x, e = ATake x -> there st (At x) -> content st' (Mine (length st.2)) = content st (At x) /\ together st' (Mine (length st.2)) (At x)) /\
  (~ there st s -> there st' s ->
    (forall x, e = ATake x -> s = Mine (length st.2)) /\ ((forall x, e <> ATake x) -> forall t, together st' s t -> t = s)).
Proof.
  intros es e s st st'. destruct (aafter_al es) as (f & u & H & _). fold st in H.
  assert (Below : forall s l, map_of st s = Some l -> l < next (maps st.1.1)) by (intros ??; by apply (al_w_below _ _ _ _ _ H)).
  assert (Old : forall i, there st (Mine i) -> i < length st.2) by (intros i [l L]; by apply lookup_lt_Some in L).
  split; [|split; [|split]].
  - intros [l S]. pose proof (ka_ends _ _ _ _ _ (kept_step f u st e H)) as En; fold st' in En; destruct En as [fr q M Sd R T|x m' la R X C T Ms Cm J1 J2 Rf|x la -> X Ms Rf]; unfold there.
    + destruct (mv_refs _ _ _ _ M) as [E|(_ & y & Y & E)]; rewrite !E; [by eexists|]. rewrite decide_False; [by eexists|congruence].
    + rewrite Rf. destruct (decide _); by eexists.
    + rewrite Rf. destruct (decide _); by eexists.
  - intros m ->. unfold st'. destruct st as [[h g] mine]. cbn [astep xstep hstep fst snd]. change (new_map h m) with (fresh_map h m, next (maps h)). cbn [fst snd].
    unfold content, there. cbn [map_of fst snd]. rewrite lookup_app_r, Nat.sub_diag by lia. cbn. split; [apply at_map_fresh|by eexists].
  - intros x -> [l L]. unfold st'. destruct st as [w mine]. cbn [map_of fst snd] in L. cbn [astep fst snd]. rewrite L. unfold content, together, there. cbn [map_of fst snd].
    rewrite lookup_app_r, Nat.sub_diag by lia. cbn. rewrite L. split; [done|]. split; [by eexists|done].
  - intros N [l S]. assert (N0 : map_of st s = None) by (destruct (map_of st s) eqn:Q; [destruct N; by eexists|done]).
    pose proof (ka_ends _ _ _ _ _ (kept_step f u st e H)) as En; fold st' in En; destruct En as [fr q M Sd R T|x m' la R X C T Ms Cm J1 J2 Rf|x la -> X Ms Rf].
    + destruct (mv_refs _ _ _ _ M) as [E|(_ & y & Y & E)]; [rewrite E in S; congruence|]. rewrite E in S. destruct (decide (s = y)) as [->|Ne]; [|congruence]. split.
      * intros x ->. exfalso. unfold st' in E. destruct st as [w mine]. specialize (E y). rewrite decide_True in E by done.
        cbn [astep fst snd] in E. destruct (ref w.1 w.2 x) as [l1|] eqn:Ex; cbn [fst snd] in E; [by eapply (T x eq_refl); exists l1|congruence].
      * intros _ t [_ Tg]. rewrite !E, decide_True in Tg by done. destruct (decide (t = y)) as [|Nt]; [done|]. symmetry in Tg. specialize (Below t _ Tg). lia.
    + rewrite Rf in S. destruct (decide (s = At x)) as [->|Ne]; [by destruct N|congruence].
    + rewrite Rf in S. destruct (decide (s = Mine (length st.2))) as [->|Ne]; [|congruence]. split; [done|]. intros Z. by destruct (Z x).
Qed.
Print Assumptions C80_new.
(** Calls: the result, and all but the attributes, are as by value. The attributes are too, except for those elements that share the
    map of the one that the call adds to: they have the same attributes as that. *)
Theorem C80_calls : forall es grow o c,
  let st := aafter es astart in
  let '(st', rs) := astep (AEvent (XEvent (ECall grow o c))) st in
  let '(g', r) := exec o (with_contents (content_of (map (at_map st.1.1) st.2)) c) (abs st.1) in
  rs = [r] /\ bare (abs st'.1) = bare g' /\ (adds_to st.1 c = None -> abs st'.1 = g') /\
  (forall x t, exists_in st'.1 x -> stands st'.1 x t ->
    (forall y ty, adds_to st.1 c = Some (y, ty) -> together st (At y) (At x) -> attrs_at (abs st'.1) t = attrs_at g' ty) /\
    ((forall y ty, adds_to st.1 c = Some (y, ty) -> ~ together st (At y) (At x)) -> attrs_at (abs st'.1) t = attrs_at g' t)).
Proof.
  intros es grow o c st. destruct (aafter_al es) as (f & u & H & _). fold st in H.
  destruct (call_al f u st grow o c H) as (f' & u' & fr & q & K1 & K2 & K3 & K4 & K5 & K6 & K7 & K8).
  pose proof (C80_content es (AEvent (XEvent (ECall grow o c)))) as CC. cbv zeta in CC. fold st in CC.
  assert (Ea : astep (AEvent (XEvent (ECall grow o c))) st = hstep (ECall grow o c) st) by (by destruct st). rewrite Ea in *.
  destruct (hstep (ECall grow o c) st) as [st' rs]. cbn [fst snd] in *.
  assert (Cy : forall y ty, adds_to st.1 c = Some (y, ty) -> changes st (AEvent (XEvent (ECall grow o c))) =
      Some (At y, attrs_at (exec o (with_contents (content_of (map (at_map st.1.1) st.2)) c) (abs st.1)).1 ty)) by (intros y ty E; cbn [changes]; rewrite E; done).
  assert (Cn : adds_to st.1 c = None -> q = None).
  { intros E. destruct q as [[l m]|]; [|done]. destruct (proj1 K4 l m eq_refl) as (c0 & m' & Ec & _). cbn [changes] in Ec. by rewrite E in Ec. }
  destruct (exec o (with_contents (content_of (map (at_map st.1.1) st.2)) c) (abs st.1)) as [g' r] eqn:EX. cbn [fst snd] in *.
  split; [exact K5|]. split; [exact K6|]. split; [intros E; by apply K7, Cn|]. intros x t X St. split.
  - intros y ty E Tg. rewrite (attrs_at_abs st'.1 x t X St). destruct Tg as [[l Hy] Tg]. rewrite Hy in Tg. destruct (CC (At x) (ex_intro _ l (eq_sym Tg))) as (_ & C2 & _).
    apply (C2 (At y) (attrs_at g' ty) (Cy y ty E)). split; [by eexists|by rewrite Hy].
  - intros N. apply (K8 x t X St). intros l m -> Hx. destruct (proj1 K4 l m eq_refl) as (c0 & m' & Ec & Hc).
    destruct (adds_to st.1 c) as [[y ty]|] eqn:Ey; [|by specialize (Cn eq_refl)]. rewrite (Cy y ty eq_refl) in Ec. injection Ec as <- <-. apply (N y ty eq_refl). split; [by eexists|]. rewrite Hc. symmetry.
    destruct (mv_refs _ _ _ _ K3) as [E|(_ & z & Z & E)]; rewrite E in Hx; [done|]. destruct (decide (At x = z)) as [Ez|]; [|done]. injection Hx as Hx. pose proof (al_w_below _ _ _ _ _ H Hc). lia.
Qed.
Print Assumptions C80_calls.
(** Edits of attributes through pointers: the result is that of the operation on the attributes seen there; nothing but attributes changes. *)
Theorem C80_edits : forall es o e x op,
  let st := aafter es astart in
  let '(st', rs) := astep (AEvent (XEdit o e)) st in
  op_of (map (at_map st.1.1) st.2) e = Some (x, op) -> exists_in st.1 x ->
  rs = [(exec_attr o op (content st (At x))).2] /\ bare (abs st'.1) = bare (abs st.1).
Proof.
  intros es o e x op st. destruct (aafter_al es) as (f & u & H & _). fold st in H. pose proof (al_swf _ _ _ H) as Sw. pose proof (al_w_below f u st (At x)) as Be.
  destruct st as [[h g] mine]. cbn [astep xstep fst snd map_of] in *. destruct (hedit o mine e (h, g)) as [w' r] eqn:EH. intros E [l R]. cbn [fst snd] in *. unfold content. cbn [map_of fst snd]. rewrite R.
  destruct (match e with WNew _ _ => true | _ => false end) eqn:EN.
  - destruct e as [| | | | |x' m|]; try discriminate. cbn in E. injection E as -> <-. cbn [hedit] in EH. rewrite R in EH. change (new_map h m) with (fresh_map h m, next (maps h)) in EH. cbn [fst snd] in EH.
    pose proof (f_equal fst EH) as Q1. pose proof (f_equal snd EH) as Q2. cbn [fst snd] in Q1, Q2. clear EH. subst w' r. split; [done|]. rewrite bare_set_ref; [|exists l; cbn [fst snd]; unfold fresh_map; by rewrite ref_maps]. unfold fresh_map. apply bare_maps.
  - assert (Nn : ~ is_new e) by (destruct e; cbn; tauto || discriminate). rewrite (hedit_upd' o mine e h g x op l Sw (Be l H R) Nn E R) in EH. injection EH as <- <-. split; [done|]. apply bare_maps.
Qed.
Print Assumptions C80_edits.
(** Assignments to the ports and the direction of an edge are as by value. *)
Theorem C80_fields : forall es o p sp dp dir,
  let st := aafter es astart in
  let '(st', rs) := astep (AEvent (XEdit o (WEdge p sp dp dir))) st in
  (forall i, stands st.1 (OEdge p) (TEdge i) -> exists_in st.1 (OEdge p) ->
    (abs st'.1, rs) = ((exec_direct o (DEdgeFields i sp dp dir) (abs st.1)).1, [(exec_direct o (DEdgeFields i sp dp dir) (abs st.1)).2])) /\
  ((forall t, ~ stands st.1 (OEdge p) t) -> abs st'.1 = abs st.1).
Proof.
  intros es o p sp dp dir st. destruct (aafter_al es) as (f & u & H & _). fold st in H. destruct (kept_fields f u st o p sp dp dir H) as (_ & K1 & K2).
  destruct st as [w mine]. cbn [astep xstep fst snd] in *. destruct (hedit o mine (WEdge p sp dp dir) w) as [w' r]. cbn [fst snd] in *. split; [|exact K2].
  intros i St X. specialize (K1 (TEdge i) St X). cbn [direct_of] in K1. rewrite <- K1. done.
Qed.
Print Assumptions C80_fields.
(** What the caller does with its own maps and references changes nothing but attributes. *)
Theorem C80_assignments : forall es e,
  let st := aafter es astart in let st' := (astep e st).1 in
  match e with
  | AEvent (XEvent (ECall _ _ _)) | AEvent (XEdit _ _) => True
  | _ => (astep e st).2 = [] /\ bare (abs st'.1) = bare (abs st.1)
  end.
Proof.
  intros es e st st'. unfold st'. destruct st as [[h g] mine]. destruct e as [[[m|i k v|i k|grow o c]|o e]|x y|x i|x]; cbn [astep xstep hstep fst snd]; try done.
  - change (new_map h m) with (fresh_map h m, next (maps h)). cbn [fst snd]. split; [done|]. apply bare_maps.
  - destruct (mine !! i); cbn [fst snd]; [|done]. split; [done|]. apply bare_maps.
  - destruct (mine !! i); cbn [fst snd]; [|done]. split; [done|]. apply bare_maps.
  - destruct (ref h g x) as [l|] eqn:X, (ref h g y); cbn [fst snd]; try done. split; [done|]. apply bare_set_ref. by exists l.
  - destruct (ref h g x) as [l|] eqn:X, (mine !! i); cbn [fst snd]; try done. split; [done|]. apply bare_set_ref. by exists l.
  - by destruct (ref h g x).
Qed.
Print Assumptions C80_assignments.
(** Every graph that comes from such a history is one that calls and assignments without sharing build as well (Direct.v), and all that is
    proved of these (C13-C15, C17-C22, C28, C30, C32-C34, C45, C58) holds of it. *)
Theorem C80_built : forall es, Forall fair_aevent es -> built (abs (aafter es astart).1).
Proof. intros es F. destruct (aafter_al es) as (f & u & H & B). rewrite (al_abs _ _ _ H). by apply B. Qed.
Print Assumptions C80_built.
(** So a graph is known from what these theorems say: from all but the attributes, and the attributes at each place. *)
Theorem C80_determined : forall g g', built g -> built g' -> bare g = bare g' -> (forall t, attrs_at g t = attrs_at g' t) -> g = g'.
Proof.
  intros g g' B B' E At. pose proof (built_ok _ B) as OK. pose proof (built_ok _ B') as OK'.
  assert (EL : edges_list (g_edges g) = edges_list (g_edges g')).
  { pose proof (f_equal (fun g => edges_list (g_edges g)) E) as El. cbn [bare g_edges edges_list] in El. apply list_eq. intros i. pose proof (At (TEdge i)) as Ai. cbn [attrs_at] in Ai.
    apply (f_equal (fun l => l !! i)) in El. rewrite !list_lookup_fmap in El.
    destruct (edges_list (g_edges g) !! i) as [e|], (edges_list (g_edges g') !! i) as [e'|]; cbn in El, Ai; try done. destruct e, e'. cbn in *. by injection El as -> -> -> -> ->; subst. }
  assert (IX : forall m m' : gmap gostr (gmap gostr (list edge)), (forall a, m !! a <> Some ∅) -> (forall a, m' !! a <> Some ∅) ->
    (forall a b, lookup2 m a b = lookup2 m' a b) -> m = m').
  { intros m m' N N' L. apply map_eq. intros a. specialize (L a). unfold lookup2 in L. pose proof (N a) as Na. pose proof (N' a) as Na'.
    destruct (m !! a) as [i|] eqn:Hi, (m' !! a) as [i'|] eqn:Hi'; cbn in L; [|exfalso|exfalso|done].
    - f_equal. apply map_eq. exact L.
    - apply Na. f_equal. apply map_eq. intros b. by rewrite lookup_empty.
    - apply Na'. f_equal. apply map_eq. intros b. rewrite lookup_empty. by rewrite <- L. }
  assert (EE : g_edges g = g_edges g').
  { pose proof (go_edges _ OK) as [S D Sn Dn]. pose proof (go_edges _ OK') as [S' D' Sn' Dn']. destruct (g_edges g) as [s d l], (g_edges g') as [s' d' l']. cbn in *. subst l'. f_equal.
    - apply IX; [done..|]. intros a b. by rewrite S, S'.
    - apply IX; [done..|]. intros a b. by rewrite D, D'. }
  assert (EN : g_nodes g = g_nodes g').
  { pose proof (f_equal g_nodes E) as En. cbn [bare g_nodes] in En. assert (Ap : forall p, node_attrs (deref (g_nodes g) p) = node_attrs (deref (g_nodes g') p)) by (intros p; exact (At (TPtr p))).
    destruct (g_nodes g) as [lk ls hp nx], (g_nodes g') as [lk' ls' hp' nx']. cbn [nodes_lookup nodes_list nodes_heap nodes_next] in *. injection En as -> -> Eh ->. f_equal.
    apply map_eq. intros p. specialize (Ap p). unfold deref in Ap. cbn [nodes_heap] in Ap. apply (f_equal (fun m => m !! p)) in Eh. rewrite !lookup_fmap in Eh.
    destruct (hp !! p) as [n|], (hp' !! p) as [n'|]; cbn in Eh, Ap; try done. destruct n, n'. cbn in *. injection Eh as ->. by subst. }
  assert (ES : g_subs g = g_subs g').
  { pose proof (f_equal g_subs E) as Es. cbn [bare g_subs] in Es. apply map_eq. intros n. pose proof (At (TSub n)) as An. cbn [attrs_at] in An. apply (f_equal (fun m => m !! n)) in Es. rewrite !lookup_fmap in Es.
    destruct (g_subs g !! n) as [s|], (g_subs g' !! n) as [s'|]; cbn in Es, An; try done. destruct s, s'. cbn in *. injection Es as ->. by subst. }
  pose proof (At TGraph) as Eg. cbn [attrs_at] in Eg.
  pose proof (f_equal g_name E) as E1. pose proof (f_equal g_directed E) as E2. pose proof (f_equal g_strict E) as E3. pose proof (f_equal g_rels E) as E4.
  destruct g as [x1 x2 x3 x4 x5 x6 x7 x8], g' as [y1 y2 y3 y4 y5 y6 y7 y8]. cbn [bare g_attrs g_name g_directed g_strict g_nodes g_edges g_subs g_rels] in *. congruence.
Qed.
Print Assumptions C80_determined.

(** ** Example: b, an edge, the subgraph S and a map of the caller come to share the map of the node a, also after a was removed. *)
Definition call (c : hcall) : aevent := AEvent (XEvent (ECall (fun n => n) o_id c)).
Definition es1 : list aevent :=
  [call (HAddNode (lit "G") (lit "a") None); call (HAddNode (lit "G") (lit "b") None); call (HAddSubGraph (lit "G") (lit "S") None); call (HAddEdge (lit "a") (lit "b") true None);
   AEvent (XEvent (EMake (A [(lit "color", lit "red")])));
   AShare (ONode 1) (ONode 0)].                                                       (* b.Attrs = a.Attrs *)
Definition es2 : list aevent :=
  [call (HAddNode (lit "G") (lit "a") (Some 0));                                      (* a and b are red *)
   ATake (ONode 1); AGive (OEdge 0) 1; AShare (OSub 0) (OEdge 0);                     (* m1 := b.Attrs; e.Attrs = m1; S.Attrs = e.Attrs *)
   call (HAddAttr (lit "S") (lit "label") (lit "x"));                                 (* all have a label *)
   call (HRemoveNode (lit "G") (lit "a"));                                            (* removes the edge too *)
   AEvent (XEvent (ESet 1 (lit "shape") (lit "box")));                                (* m1["shape"] = "box" *)
   AEvent (XEdit o_id (WNew (ONode 1) (A [(lit "color", lit "blue")])));               (* b.Attrs = map[Attr]string{Color: "blue"} *)
   call (HAddNode (lit "G") (lit "b") (Some 1));                                      (* b gets the entries, not the map *)
   AEvent (XEvent (EDel 1 (lit "color")))].                                           (* S has no color now, b has *)
Example C80_example :
  let st := aafter es1 astart in let st2 := aafter es2 st in let w2 := st2.1 in
  let all := A [(lit "color", lit "red"); (lit "label", lit "x"); (lit "shape", lit "box")] in
  Forall fair_aevent (es1 ++ es2) /\
  together st (At (ONode 0)) (At (ONode 1)) /\ ~ together st (At (ONode 0)) (Mine 0) /\
  adds_to st.1 (HAddNode (lit "G") (lit "a") (Some 0)) = Some (ONode 0, TPtr 0) /\ stands st.1 (OSub 0) (TSub (lit "S")) /\
  together st2 (At (ONode 0)) (At (OSub 0)) /\ together st2 (At (OEdge 0)) (Mine 1) /\ ~ together st2 (At (ONode 1)) (Mine 1) /\
  map (content st2) [At (ONode 0); At (ONode 1); At (OEdge 0); At (OSub 0); Mine 0; Mine 1] =
    [delete (lit "color") all; all; delete (lit "color") all; delete (lit "color") all; A [(lit "color", lit "red")]; delete (lit "color") all] /\
  s_nodes (view (abs w2)) = {[lit "b" := all]} /\ s_subs (view (abs w2)) = {[lit "S" := delete (lit "color") all]}.
Proof.
  cbv zeta. split; [repeat constructor; apply PropsGraph.fair_id|]. split; [split; [eexists; vm_compute; reflexivity|vm_compute; reflexivity]|].
  split; [intros [_ H]; revert H; vm_compute; discriminate|]. split; [vm_compute; reflexivity|]. split; [constructor; vm_compute; reflexivity|].
  split; [split; [eexists; vm_compute; reflexivity|vm_compute; reflexivity]|]. split; [split; [eexists; vm_compute; reflexivity|vm_compute; reflexivity]|].
  split; [intros [_ H]; revert H; vm_compute; discriminate|].
  apply (bool_decide_unpack _). vm_compute. exact I.
Qed.
