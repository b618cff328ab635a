(** Walk follows the tour of SpecWalk.v. *)
From Coq Require Import List.
From Verif Require Import Base Ast Walk SpecWalk AstProofs.
Import ListNotations.

Section Walk.
  Variables St V : Type.
  Variable visit : St -> V -> elem -> St * option V.
  Notation tour := (tour St V visit). Notation tours := (tours St V visit).
  Notation crash := (crash St V visit). Notation crashes := (crashes St V visit).
  Notation walker := (option V -> St -> option St).

  Definition does (w : walker) (t : tree) : Prop := forall v s,
    match w v s with Some s' => exists l, tour v t s l s' | None => crash v t s end.
  Definition doess (w : walker) (ts : list tree) : Prop := forall v s,
    match w v s with Some s' => exists l, tours v ts s l s' | None => crashes v ts s end.

  Lemma doess_nil : doess (fun _ s => Some s) [].
  Proof. intros v s. exists []. constructor. Qed.
  Lemma doess_cons w t w' ts : does w t -> doess w' ts -> doess (fun v s => obind (w v s) (w' v)) (t :: ts).
  Proof.
    intros H H' v s. specialize (H v s). destruct (w v s) as [s1|]; cbn [obind].
    - destruct H as [l H]. specialize (H' v s1). destruct (w' v s1) as [s2|].
      + destruct H' as [l' H']. exists (l ++ l'). econstructor; eassumption.
      + eapply Crash_later; eassumption.
    - apply Crash_first. exact H.
  Qed.
  Lemma doess_one w t : does w t -> doess w [t].
  Proof.
    intros H v s. specialize (H v s). destruct (w v s) as [s1|].
    - destruct H as [l H]. exists (l ++ []). econstructor; [exact H|constructor].
    - apply Crash_first. exact H.
  Qed.
  Lemma doess_each {A} (w : A -> walker) (t : A -> tree) l : Forall (fun x => does (w x) (t x)) l -> doess (w_each St V w l) (map t l).
  Proof.
    induction 1 as [|x l Hx Hl IH]; cbn [w_each map]; [exact doess_nil|]. apply (doess_cons (w x) (t x) (w_each St V w l) (map t l) Hx IH).
  Qed.
  Lemma does_node e w ts : (forall al, e <> EAList al) -> doess w ts ->
    does (fun v s => match v with None => Some s | Some v => let '(s1, v1) := visit s v e in w v1 s1 end) (T e ts).
  Proof.
    intros He H [v|] s; [|exists []; constructor; exact He]. destruct (visit s v e) as [s1 v1] eqn:E.
    specialize (H v1 s1). destruct (w v1 s1) as [s2|].
    - destruct H as [l H]. exists ((v, e) :: l). econstructor; eassumption.
    - eapply Crash_part; eassumption.
  Qed.
  Lemma does_ext w w' t : (forall v s, w v s = w' v s) -> does w t -> does w' t.
  Proof. intros E H v s. specialize (H v s). rewrite E in H. exact H. Qed.

  Lemma does_leaf e : (forall al, e <> EAList al) -> does (w_leaf St V visit e) (T e []).
  Proof.
    intros He. eapply does_ext; [|exact (does_node e _ [] He doess_nil)]. intros [v|] s; [|reflexivity].
    cbn. destruct (visit s v e); reflexivity.
  Qed.
  Ltac nolist := let al := fresh in intros al; discriminate.
  Lemma does_id i : does (w_id St V visit i) (t_id i).
  Proof. apply does_leaf. nolist. Qed.
  Lemma does_port p : does (w_port St V visit p) (t_port p).
  Proof.
    refine (does_node _ (fun v s => obind (w_id St V visit (port_id1 p) v s) (w_id St V visit (port_id2 p) v)) _ _ _); [nolist|].
    apply doess_cons; [apply does_id|apply doess_one, does_id].
  Qed.
  Lemma does_node_id n : does (w_node_id St V visit n) (t_node_id n).
  Proof.
    refine (does_node _ (fun v s => obind (w_id St V visit (nid_id n) v s) (w_port St V visit (nid_port n) v)) _ _ _); [nolist|].
    apply doess_cons; [apply does_id|apply doess_one, does_port].
  Qed.
  Lemma does_attr a : does (w_attr St V visit a) (t_attr a).
  Proof.
    refine (does_node _ (fun v s => obind (w_id St V visit (at_field a) v s) (w_id St V visit (at_value a) v)) _ _ _); [nolist|].
    apply doess_cons; [apply does_id|apply doess_one, does_id].
  Qed.
  Lemma does_alist l : does (w_alist St V visit l) (t_alist l).
  Proof.
    assert (H : doess (w_each St V (w_attr St V visit) l) (map t_attr l)).
    { apply doess_each. apply Forall_forall. intros a _. apply does_attr. }
    intros [v|] s; cbn [w_alist]; [|constructor]. destruct (visit s v (EAList l)) as [s1 v1] eqn:E.
    specialize (H v1 s1). destruct (w_each St V (w_attr St V visit) l v1 s1) as [s2|].
    - destruct H as [l' H]. eexists. econstructor; eassumption.
    - eapply Crash_part; eassumption.
  Qed.
  Lemma does_alists e l : (forall al, e <> EAList al) -> does (w_alists St V visit e l) (T e (map t_alist l)).
  Proof.
    intros He. refine (does_node _ (w_each St V (w_alist St V visit) l) _ He _).
    apply doess_each. apply Forall_forall. intros a _. apply does_alist.
  Qed.

  Lemma does_all : (forall s, does (w_stmt St V visit s) (t_stmt s)) /\ (forall l, does (w_loc St V visit l) (t_loc l)) /\
    (forall g, does (w_sub St V visit g) (t_sub g)).
  Proof.
    apply stmt_all_ind.
    - intros n a. refine (does_node _ (fun v s => obind (w_node_id St V visit n v s) (w_alists St V visit (EAttrList a) a v)) _ _ _); [nolist|].
      apply doess_cons; [apply does_node_id|apply doess_one, does_alists; nolist].
    - intros l r a Hl Hr.
      refine (does_node _ (fun v s => obind (w_loc St V visit l v s) (fun s2 => obind (w_rhs St V visit r v s2) (w_alists St V visit (EAttrList a) a v))) _ _ _); [nolist|].
      apply (doess_cons _ _ (fun v s => obind (w_rhs St V visit r v s) (w_alists St V visit (EAttrList a) a v))); [exact Hl|].
      apply doess_cons; [|apply doess_one, does_alists; nolist].
      refine (does_node _ (w_each St V (w_rh St V visit) r) _ _ _); [nolist|]. apply doess_each.
      eapply Forall_impl; [|exact Hr]. intros [op d] Hd.
      refine (does_node _ (fun v s => obind (w_leaf St V visit (EEdgeOp op) v s) (w_loc St V visit d v)) _ _ _); [nolist|].
      apply doess_cons; [apply does_leaf; nolist|apply doess_one; exact Hd].
    - intros a. apply does_alists. nolist.
    - intros a. apply does_alists. nolist.
    - intros a. apply does_alists. nolist.
    - intros g H. exact H.
    - intros a. apply does_attr.
    - intros n. apply does_node_id.
    - intros g H. exact H.
    - intros i b Hb.
      refine (does_node _ (fun v s => obind (w_id St V visit i v s) (w_stmts St V visit b v)) _ _ _); [nolist|].
      apply doess_cons; [apply does_id|]. apply doess_one.
      refine (does_node _ (w_each St V (w_stmt St V visit) b) _ _ _); [nolist|]. apply doess_each. exact Hb.
  Qed.
  Lemma does_graph g : does (w_graph St V visit g) (t_graph g).
  Proof.
    refine (does_node _ (fun v s => obind (w_leaf St V visit (EType (g_type g)) v s) (fun s2 => obind (w_id St V visit (g_id g) v s2) (w_stmts St V visit (g_stmts g) v))) _ _ _); [nolist|].
    apply (doess_cons _ _ (fun v s => obind (w_id St V visit (g_id g) v s) (w_stmts St V visit (g_stmts g) v))); [apply does_leaf; nolist|].
    apply doess_cons; [apply does_id|]. apply doess_one.
    refine (does_node _ (w_each St V (w_stmt St V visit) (g_stmts g)) _ _ _); [nolist|]. apply doess_each.
    apply Forall_forall. intros s _. apply does_all.
  Qed.
End Walk.

(** ** Tours are deterministic *)
Scheme tour_i := Minimality for tour Sort Prop
  with tours_i := Minimality for tours Sort Prop.
Combined Scheme tour_tours from tour_i, tours_i.
Scheme crash_i := Minimality for crash Sort Prop
  with crashes_i := Minimality for crashes Sort Prop.
Combined Scheme crash_crashes from crash_i, crashes_i.

Section Det.
  Variables St V : Type.
  Variable visit : St -> V -> elem -> St * option V.
  Lemma tour_det :
    (forall v t s l s', tour St V visit v t s l s' -> forall l2 s2, tour St V visit v t s l2 s2 -> l2 = l /\ s2 = s') /\
    (forall v t s l s', tours St V visit v t s l s' -> forall l2 s2, tours St V visit v t s l2 s2 -> l2 = l /\ s2 = s').
  Proof.
    apply (tour_tours St V visit
      (fun v t s l s' => forall l2 s2, tour St V visit v t s l2 s2 -> l2 = l /\ s2 = s')
      (fun v t s l s' => forall l2 s2, tours St V visit v t s l2 s2 -> l2 = l /\ s2 = s')).
    - intros v e ps s s1 v1 l s' E H IH l2 s2 H2. inversion H2 as [x1 x2 x3 x4 s1' v1' x7 x8 E' H'|]; subst.
      rewrite E in E'. injection E' as <- <-. destruct (IH _ _ H') as [-> ->]. auto.
    - intros e ps s He l2 s2 H2. inversion H2; subst. auto.
    - intros v s l2 s2 H2. inversion H2; subst. auto.
    - intros v t ts s l1 s1 l2 s2 H1 IH1 H2 IH2 l3 s3 H3. inversion H3 as [|x1 x2 x3 x4 la sa lb sb Ha Hb]; subst.
      destruct (IH1 _ _ Ha) as [-> ->]. destruct (IH2 _ _ Hb) as [-> ->]. auto.
  Qed.
  Lemma crash_no_tour :
    (forall v t s, crash St V visit v t s -> forall l s', ~ tour St V visit v t s l s') /\
    (forall v t s, crashes St V visit v t s -> forall l s', ~ tours St V visit v t s l s').
  Proof.
    apply (crash_crashes St V visit (fun v t s => forall l s', ~ tour St V visit v t s l s') (fun v t s => forall l s', ~ tours St V visit v t s l s')).
    - intros al ps s l s' H. inversion H as [|x1 x2 x3 Hx]; subst. exact (Hx al eq_refl).
    - intros v e ps s s1 v1 E H IH l s' H2. inversion H2 as [x1 x2 x3 x4 s1' v1' x7 x8 E' H'|]; subst.
      rewrite E in E'. injection E' as <- <-. exact (IH _ _ H').
    - intros v t ts s H IH l s' H2. inversion H2; subst. eapply IH; eassumption.
    - intros v t ts s l s1 H1 H2 IH l' s' H3. inversion H3 as [|x1 x2 x3 x4 la sa lb sb Ha Hb]; subst.
      destruct (proj1 tour_det _ _ _ _ _ H1 _ _ Ha) as [-> ->]. exact (IH _ _ Hb).
  Qed.

  (** With visitors that are never nil the tour is the whole tree, in preorder. *)
  Lemma tour_total (Hv : forall s v e, exists s' v', visit s v e = (s', Some v')) :
    (forall v t s l s', tour St V visit v t s l s' -> v <> None -> map snd l = preorder t) /\
    (forall v ts s l s', tours St V visit v ts s l s' -> v <> None -> map snd l = flat_map preorder ts).
  Proof.
    apply (tour_tours St V visit
      (fun v t s l s' => v <> None -> map snd l = preorder t)
      (fun v ts s l s' => v <> None -> map snd l = flat_map preorder ts)).
    - intros v e ps s s1 v1 l s' E H IH _. cbn. f_equal. apply IH. destruct (Hv s v e) as (? & ? & E'). rewrite E in E'.
      injection E' as _ ->. discriminate.
    - intros e ps s _ H. contradiction.
    - reflexivity.
    - intros v t ts s l1 s1 l2 s2 H1 IH1 H2 IH2 Hn. cbn. rewrite map_app, IH1, IH2 by exact Hn. reflexivity.
  Qed.
  Lemma no_crash (Hv : forall s v e, exists s' v', visit s v e = (s', Some v')) :
    (forall v t s, crash St V visit v t s -> v = None) /\
    (forall v t s, crashes St V visit v t s -> v = None).
  Proof.
    apply (crash_crashes St V visit (fun v t s => v = None) (fun v t s => v = None)); try reflexivity.
    - intros v e ps s s1 v1 E H IH. destruct (Hv s v e) as (? & ? & E'). rewrite E in E'. injection E' as _ ->. discriminate.
    - intros v t ts s H IH. exact IH.
    - intros v t ts s l s1 H1 H2 IH. exact IH.
  Qed.
End Det.
