(** Escape with maps by reference (HeapEscape.v) and by value (Escape.v). *)
From Verif Require Import Base Maps Graph Escape Analyse HeapGraph SpecHeap SpecHeapAnalyse HeapProofs HeapEscape HeapAnalyse HeapAnalyseProofs.
From Coq Require Import Lia.

Section Sim.
  Variable uletter udigit : N -> bool.
  Definition sim_opt (w : world) (r : option (world * option err)) (r' : option (agraph * option err)) : Prop :=
    match r, r' with Some r, Some r' => simulates w r r' | None, None => True | _, _ => False end.
  Lemma with_esc_sim oe w m f f' : inv w ->
    (forall w1 l, inv w1 -> l < next (maps w1.1) -> simulates w1 (f w1 (Some l)) (f' (abs w1) (at_map w1.1 l))) ->
    sim_opt w (with_esc uletter udigit oe w m f) (bindo (esc_attrs uletter udigit oe (arg w.1 m)) (fun m' => Some (f' (abs w) m'))).
  Proof.
    intros I F. unfold with_esc. destruct (esc_attrs uletter udigit oe (arg w.1 m)) as [m'|]; cbn [bindo]; [|done].
    destruct w as [h g]. cbn [fst snd]. unfold new_map. change (alloc (maps h) m') with ((alloc (maps h) m').1, next (maps h)). cbn [fst snd]. fold (fresh_map h m').
    destruct (fresh_ok h m' g I) as (J & A & V). destruct (F (fresh_map h m', g) (next (maps h)) J) as (K & B & W); [cbn; lia|].
    rewrite A in B. cbn [fst] in B. rewrite at_map_fresh in B. split; [done|]. split; [done|]. by eapply evolves_trans.
  Qed.
  Lemma h_esc_exec_sim grow oe o c w : inv w -> (forall l, arg_of c = Some l -> l < next (maps w.1)) ->
    sim_opt w (h_esc_exec uletter udigit grow oe o c w) (esc_exec uletter udigit oe o (with_contents (arg w.1) c) (abs w)).
  Proof.
    intros I B. assert (X : forall c, arg_of c = None -> simulates w (hexec grow o c w) (exec o (with_contents (arg w.1) c) (abs w))).
    { intros c' E. apply hexec_sim; [done|]. rewrite E. done. }
    assert (Y : forall (k : option nat -> hcall) (k' : attrs -> call), (forall f m, with_contents f (k m) = k' (f m)) -> (forall m, arg_of (k m) = m) ->
      forall m, sim_opt w (with_esc uletter udigit oe w m (fun w1 m1 => hexec grow o (k m1) w1))
        (bindo (esc_attrs uletter udigit oe (arg w.1 m)) (fun m' => Some (exec o (k' m') (abs w))))).
    { intros k k' E1 E2 m. apply (with_esc_sim oe w m (fun w1 m1 => hexec grow o (k m1) w1) (fun g m' => exec o (k' m') g)); [done|].
      intros w1 l J L. pose proof (hexec_sim grow o (k (Some l)) w1 J) as Z. rewrite E1, E2 in Z. apply Z. by intros ? [= <-]. }
    destruct c; cbn [h_esc_exec with_contents esc_exec].
    - by apply (X (HSetStrict b)).
    - by apply (X (HSetDir b)).
    - destruct (esc uletter udigit n) as [n'|]; cbn [bindo]; [|done]. by apply (X (HSetName n')).
    - destruct (esc uletter udigit src) as [s'|]; cbn [bindo]; [|done]. destruct (esc uletter udigit dst) as [d'|]; cbn [bindo]; [|done].
      by apply (Y (HAddPortEdge s' src_port d' dst_port dir)).
    - destruct (esc uletter udigit src) as [s'|]; cbn [bindo]; [|done]. destruct (esc uletter udigit dst) as [d'|]; cbn [bindo]; [|done].
      by apply (Y (HAddPortEdge s' [] d' [] dir)).
    - destruct (esc uletter udigit parent) as [s'|]; cbn [bindo]; [|done]. destruct (esc uletter udigit name) as [d'|]; cbn [bindo]; [|done].
      by apply (Y (HAddNode s' d')).
    - destruct (esc uletter udigit parent) as [p'|]; cbn [bindo]; [|done]. destruct (esc uletter udigit field) as [f'|]; cbn [bindo]; [|done].
      destruct (esc uletter udigit value) as [v'|]; cbn [bindo]; [|done]. by apply (X (HAddAttr p' f' v')).
    - destruct (esc uletter udigit parent) as [s'|]; cbn [bindo]; [|done]. destruct (esc uletter udigit name) as [d'|]; cbn [bindo]; [|done].
      by apply (Y (HAddSubGraph s' d')).
    - by apply (X (HRemoveNode parent name)).
    - by apply (X (HRemoveSubGraph parent name)).
  Qed.

  Lemma hesc_step_sim oe e st : inv_mine st ->
    let r := hesc_step uletter udigit oe e st in inv_mine r.1 /\ (seen r.1, r.2) = vesc_step uletter udigit oe e (seen st).
  Proof.
    intros II. pose proof II as (I & N & M). 
    assert (X : (forall grow o c, e <> ECall grow o c) -> hesc_step uletter udigit oe e st = ((hstep e st).1, []) /\
      vesc_step uletter udigit oe e (seen st) = ((vstep e (seen st)).1, [])).
    { intros H. destruct e; try done. by destruct (H grow o c). }
    pose proof (hstep_sim e st II) as [J0 E0].
    destruct e as [m|i k v|i k|grow o c].
    1-3: (destruct X as [-> ->]; [done|]; split; [exact J0|]; cbn [fst snd]; rewrite <- E0; done).
    clear X J0 E0. cbn [hesc_step vesc_step]. destruct st as [w mine]. cbn [fst snd seen] in *. 
    pose proof (h_esc_exec_sim grow oe o (with_refs (ref_of mine) c) w I) as S.
    rewrite (with_contents_refs _ _ (content_of (map (at_map w.1) mine))) in S by (intros; apply arg_content).
    unfold seen. cbn [fst snd]. destruct (h_esc_exec uletter udigit grow oe o (with_refs (ref_of mine) c) w) as [[w1 r]|];
      destruct (esc_exec uletter udigit oe o (with_contents (content_of (map (at_map w.1) mine)) c) (abs w)) as [[g1 r']|]; cbn [sim_opt fst snd] in *;
      try (exfalso; apply S; intros l Hl; by apply M, (arg_of_refs mine c)); [|done].
    destruct S as (J & E & V). { intros l Hl. by apply M, (arg_of_refs mine c). }
    cbn [fst snd] in *. injection E as <- <-. split.
    - split; [done|]. split; [done|]. cbn [fst snd]. intros l Hl. destruct (M l Hl) as [L R].
      split; [pose proof (ev_maps _ _ V); cbn in *; lia|]. intros a Ra. destruct (ev_refs _ _ V a l Ra) as [Ra'|Ra']; [by eapply R|cbn in *; lia].
    - do 2 f_equal. apply map_ext_Forall. apply Forall_forall. intros l Hl. destruct (M l Hl) as [L R].
      apply (ev_at _ _ V); [done|]. intros a Ra. by apply R in Ra.
  Qed.
  Lemma hesc_run_sim evs : forall st, inv_mine st ->
    let r := hesc_run uletter udigit evs st in inv_mine r.1 /\ (seen r.1, r.2) = vesc_run uletter udigit evs (seen st).
  Proof.
    induction evs as [|[oe e] evs IH]; intros st I; cbn [hesc_run vesc_run]; [done|].
    destruct (hesc_step_sim oe e st I) as [J A]. destruct (hesc_step uletter udigit oe e st) as [st1 r]. cbn [fst snd] in *. rewrite <- A.
    destruct (IH st1 J) as [K B]. destruct (hesc_run uletter udigit evs st1) as [st2 rs]. cbn [fst snd] in *. rewrite <- B. done.
  Qed.
End Sim.

(** Escape is a careful implementation of Interface, too. *)
Definition esc_rel (s : (world * nat) * bool) (s' : (agraph * nat) * bool) (env : gmap nat attrs) : Prop :=
  s.2 = s'.2 /\ graph_rel s.1 s'.1 env.
Lemma esc_careful uletter udigit grow oes os :
  careful hesc_new hesc_get hesc_set (hesc_call uletter udigit grow oes os) (vesc_call uletter udigit oes os) esc_rel.
Proof.
  pose proof (graph_careful grow os) as GC. constructor.
  - intros [[[h g] i] b] [s' b'] env m [E R]. cbn [fst snd] in *. destruct (ca_new _ _ _ _ _ _ GC _ _ _ m R) as [N1 R1].
    unfold hgraph_new, hesc_new in *. destruct (new_map h m) as [h1 l]. cbn [fst snd] in *. split; [done|]. split; done.
  - intros [s b] [s' b'] env l m [E R]. by apply (ca_get _ _ _ _ _ _ GC s s').
  - intros [[[h g] i] b] [s' b'] env l m k v [E R] M. split; [done|]. by apply (ca_set _ _ _ _ _ _ GC _ _ _ _ _ k v R).
  - intros [[w i] b] [[g i'] b'] env c [Eb (Ei & I & A & M)] H. cbn [fst snd] in *. subst b' i'. unfold hesc_call, vesc_call.
    destruct b; [split; [split; [done|split; done]|done]|].
    pose proof (h_esc_exec_sim uletter udigit grow (oes i) (os i) c w I) as S.
    assert (EQ : with_contents (arg w.1) c = with_contents (content env) c).
    { assert (Z : forall m, arg_of c = m -> arg w.1 m = content env m).
      { intros [l|] Hl; [|done]. destruct (H l Hl) as [m E]. cbn. rewrite E. cbn. by apply M in E as (_ & _ & E). }
      destruct c; cbn in *; rewrite ?Z; done. }
    rewrite EQ, A in S. assert (B : forall l, arg_of c = Some l -> l < next (maps w.1)) by (intros l Hl; destruct (H l Hl) as [m E]; by apply M in E as (? & _)).
    specialize (S B). destruct (h_esc_exec uletter udigit grow (oes i) (os i) c w) as [[w1 r]|];
      destruct (esc_exec uletter udigit (oes i) (os i) (with_contents (content env) c) g) as [[g1 r']|]; cbn [sim_opt fst snd] in *; try done.
    destruct S as (J & E & V). cbn [fst snd] in *. injection E as <- <-. split; [|done]. split; [done|]. cbn [fst snd]. split; [done|]. cbn [fst snd].
    split; [done|]. split; [done|]. intros l m X. destruct (M _ _ X) as (L & R & C). split; [pose proof (ev_maps _ _ V); lia|]. split.
    + intros a Ra. destruct (ev_refs _ _ V a l Ra) as [Ra'|Ra']; [by eapply R|lia].
    + rewrite <- C. apply (ev_at _ _ V); [done|]. intros a Ra. by apply R in Ra.
Qed.
