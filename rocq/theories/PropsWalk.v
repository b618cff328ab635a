(** Property C48 (Walk) and the visitors of Analyse (C24). *)
From Coq Require Import List.
From Verif Require Import Base Ast Walk SpecWalk WalkProofs AstProofs.
Import ListNotations.

(** ** C48 Walk makes exactly the tour of SpecWalk.v: an element, then its parts in source order with the visitor
    returned for the element; nothing below an element for which Visit returned nil, except that it panics when it
    comes to an AList with a nil visitor *)
Theorem C48_walk : forall St V visit g (v : option V) (s : St),
  (forall s', w_graph St V visit g v s = Some s' <-> exists l, tour St V visit v (t_graph g) s l s') /\
  (w_graph St V visit g v s = None <-> crash St V visit v (t_graph g) s).
Proof.
  intros St V visit g v s. pose proof (does_graph St V visit g v s) as H. split.
  - intros s'. split.
    + intros E. rewrite E in H. exact H.
    + intros [l L]. destruct (w_graph St V visit g v s) as [s1|].
      * destruct H as [l1 H]. destruct (proj1 (tour_det St V visit) _ _ _ _ _ H _ _ L) as [_ ->]. reflexivity.
      * destruct (proj1 (crash_no_tour St V visit) _ _ _ H _ _ L).
  - split.
    + intros E. rewrite E in H. exact H.
    + intros C. destruct (w_graph St V visit g v s) as [s1|]; [|reflexivity].
      destruct H as [l1 H]. destruct (proj1 (crash_no_tour St V visit) _ _ _ C _ _ H).
Qed.
Print Assumptions C48_walk.
(** The visits are determined. *)
Theorem C48_deterministic : forall St V visit v t s l s' l2 s2,
  tour St V visit v t s l s' -> tour St V visit v t s l2 s2 -> l2 = l /\ s2 = s'.
Proof. intros St V visit v t s l s' l2 s2 H H2. exact (proj1 (tour_det St V visit) _ _ _ _ _ H _ _ H2). Qed.
Print Assumptions C48_deterministic.

(** A visitor that never returns nil visits everything, once, in source order. *)
Theorem C48_visits_all : forall St V (visit : St -> V -> elem -> St * option V),
  (forall s v e, snd (visit s v e) <> None) ->
  forall g v s, exists l s', w_graph St V visit g (Some v) s = Some s' /\
    tour St V visit (Some v) (t_graph g) s l s' /\ map snd l = preorder (t_graph g).
Proof.
  intros St V visit Hv g v s.
  assert (H : forall s v e, exists s' v', visit s v e = (s', Some v')).
  { intros s0 v0 e. specialize (Hv s0 v0 e). destruct (visit s0 v0 e) as [s1 [v1|]]; [eauto|]. contradiction. }
  pose proof (does_graph St V visit g (Some v) s) as D. destruct (w_graph St V visit g (Some v) s) as [s'|].
  - destruct D as [l D]. exists l, s'. split; [reflexivity|]. split; [exact D|].
    apply (proj1 (tour_total St V visit H) _ _ _ _ _ D). discriminate.
  - apply (proj1 (no_crash St V visit H)) in D. discriminate.
Qed.
Print Assumptions C48_visits_all.

(** Walk cannot panic if Visit does not return nil for lists of attribute lists. *)
Definition attr_lists (e : elem) : option attr_list :=
  match e with EAttrList a | EEdgeAttrs a | ENodeAttrs a | EGraphAttrs a => Some a | _ => None end.
Definition is_alist (t : tree) : Prop := match t with T (EAList _) _ => True | _ => False end.
(** ALists are only parts of those. *)
Inductive proper : tree -> Prop :=
| Proper_lists e a : attr_lists e = Some a -> Forall proper (map t_alist a) -> proper (T e (map t_alist a))
| Proper_other e ps : Forall (fun t => proper t /\ ~ is_alist t) ps -> proper (T e ps).
Ltac kids := repeat (first [apply Forall_nil|apply Forall_cons; [split|]]); try exact (fun x : False => x).
Lemma proper_leaf e : proper (T e []).
Proof. apply Proper_other. constructor. Qed.
Lemma proper_port p : proper (t_port p).
Proof. apply Proper_other. kids; apply proper_leaf. Qed.
Lemma proper_node_id n : proper (t_node_id n).
Proof. apply Proper_other. kids; [apply proper_leaf|apply proper_port]. Qed.
Lemma proper_attr a : proper (t_attr a).
Proof. apply Proper_other. kids; apply proper_leaf. Qed.
Lemma proper_alist l : proper (t_alist l).
Proof. apply Proper_other. apply Forall_map, Forall_forall. intros a _. split; [apply proper_attr|exact (fun x => x)]. Qed.
Lemma proper_alists e l : attr_lists e = Some l -> proper (T e (map t_alist l)).
Proof. intros H. apply Proper_lists; [exact H|]. apply Forall_map, Forall_forall. intros a _. apply proper_alist. Qed.
Definition fine (t : tree) : Prop := proper t /\ ~ is_alist t.
Lemma proper_all : (forall s, fine (t_stmt s)) /\ (forall l, fine (t_loc l)) /\ (forall g, fine (t_sub g)).
Proof.
  unfold fine. apply stmt_all_ind.
  - intros n a. split; [|exact (fun x => x)]. apply Proper_other. kids; [apply proper_node_id|apply proper_alists; reflexivity].
  - intros l r a Hl Hr. split; [|exact (fun x => x)]. apply Proper_other. apply Forall_cons; [exact Hl|].
    kids; [|apply proper_alists; reflexivity]. apply Proper_other. apply Forall_map.
    eapply Forall_impl; [|exact Hr]. intros [op d] Hd. split; [|exact (fun x => x)]. apply Proper_other.
    apply Forall_cons; [split; [apply proper_leaf|exact (fun x => x)]|]. apply Forall_cons; [exact Hd|constructor].
  - intros a. split; [apply proper_alists; reflexivity|exact (fun x => x)].
  - intros a. split; [apply proper_alists; reflexivity|exact (fun x => x)].
  - intros a. split; [apply proper_alists; reflexivity|exact (fun x => x)].
  - intros g H. exact H.
  - intros a. split; [apply proper_attr|exact (fun x => x)].
  - intros n. split; [apply proper_node_id|exact (fun x => x)].
  - intros g H. exact H.
  - intros i b Hb. split; [|exact (fun x => x)]. apply Proper_other. kids; [apply proper_leaf|]. apply Proper_other. apply Forall_map. exact Hb.
Qed.
Lemma proper_graph g : fine (t_graph g).
Proof.
  split; [|exact (fun x => x)]. apply Proper_other. kids; [apply proper_leaf|apply proper_leaf|].
  apply Proper_other. apply Forall_map, Forall_forall. intros s _. apply proper_all.
Qed.

Theorem C48_no_panic : forall St V (visit : St -> V -> elem -> St * option V),
  (forall s v e al a, attr_lists e = Some (al :: a) -> snd (visit s v e) <> None) ->
  forall g v s, w_graph St V visit g v s <> None.
Proof.
  intros St V visit Hv g v s E. apply C48_walk in E. revert E.
  assert (H : (forall v t s, crash St V visit v t s -> proper t -> is_alist t /\ v = None) /\
              (forall v ts s, crashes St V visit v ts s -> Forall proper ts -> Exists is_alist ts /\ v = None)).
  { apply (crash_crashes St V visit (fun v t s => proper t -> is_alist t /\ v = None)
             (fun v ts s => Forall proper ts -> Exists is_alist ts /\ v = None)).
    - intros al ps s0 _. split; [exact I|reflexivity].
    - intros v0 e ps s0 s1 v1 E H IH P. exfalso. inversion P as [e' a Ea Pa|e' ps' Pa]; subst.
      + destruct (IH Pa) as [X ->]. destruct a as [|al a]; [inversion X|].
        apply (Hv s0 v0 e al a Ea). rewrite E. reflexivity.
      + destruct IH as [X ->]; [eapply Forall_impl; [|exact Pa]; intros t [K _]; exact K|].
        apply Exists_exists in X as (t & Ht & X). rewrite Forall_forall in Pa. exact (proj2 (Pa t Ht) X).
    - intros v0 t ts s0 H IH P. inversion P; subst. destruct IH as [X ->]; [assumption|]. split; [left; exact X|reflexivity].
    - intros v0 t ts s0 l s1 H1 H2 IH P. inversion P; subst. destruct IH as [X ->]; [assumption|]. split; [right; exact X|reflexivity]. }
  intros C. apply (proj2 (proper_graph g)). apply (proj1 H) in C; [|apply proper_graph]. apply C.
Qed.
Print Assumptions C48_no_panic.
(** And it does panic: a visitor that does not want to see attributes, on any graph with a node statement that has
    some.  (The nil test is missing in AList.Walk only.) *)
Definition no_attrs {St V} (upd : St -> V -> elem -> St) (s : St) (v : V) (e : elem) : St * option V :=
  (upd s v e, match e with EAttrList _ => None | _ => Some v end).
Theorem C48_nil_at_attributes_panics : forall St V upd t st id pre n al a post (v : V) (s : St),
  w_graph St V (no_attrs upd) (Graph t st id (pre ++ SNode n (al :: a) :: post)) (Some v) s = None.
Proof.
  intros St V upd t st id pre n al a post v s. unfold w_graph. cbn [no_attrs g_type g_id g_stmts w_leaf obind w_id w_stmts fst].
  match goal with |- context [w_each _ _ _ _ _ ?x] => generalize x end. intros s0. revert s0.
  induction pre as [|x pre IH]; intros s0.
  - reflexivity.
  - cbn [app w_each]. destruct (w_stmt St V (no_attrs upd) x (Some v) s0) as [s1|]; [|reflexivity]. cbn [obind]. apply IH.
Qed.
Print Assumptions C48_nil_at_attributes_panics.

(** An example: collecting the IDs of  digraph G { a -> b [color=red] } *)
Definition g48 : graph := Graph true false (lit "G")
  [SEdge (LNode (NodeID (lit "a") (Port [] []))) [EdgeRH true (LNode (NodeID (lit "b") (Port [] [])))] [[Attr (lit "color") (lit "red")]]].
Definition collect (s : list gostr) (v : unit) (e : elem) : list gostr * option unit :=
  match e with EID (c :: i) => (s ++ [c :: i], Some tt) | EPort _ => (s, None) | _ => (s, Some tt) end.
Example C48_example : w_graph _ _ collect g48 (Some tt) [] = Some ([lit "G"; lit "a"; lit "b"; lit "color"; lit "red"]) /\
  length (preorder (t_graph g48)) = 23.
Proof. split; reflexivity. Qed.
