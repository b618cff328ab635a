(** Property C67: calls that only look at a graph may run at the same time (HeapWrite.v, specification SpecLook.v). *)
From Coq Require Import Lia Sorting.Sorted.
From stdpp Require Import sorting.
From Verif Require Import Base Maps Graph SpecGraph MapFacts GraphProofs AttrMap Parser Write SpecWrite EdgeOrder.
From Verif Require Import HeapGraph SpecHeap HeapProofs HeapSnap HeapRange HeapWrite SpecLook LookProofs LookWrite LookSort.
From Verif Require Direct PropsGraph PropsWrite PropsHeap Ast.
Notation o_id := PropsGraph.o_id.
Notation A := PropsGraph.A.
Notation after := PropsHeap.after.
Notation hstart := PropsHeap.hstart.

(** ** C67 *)
(** The graph has been built by any calls [evs] (with a caller that keeps and changes maps); then the goroutine number [i] makes
    the calls [css !! i], each of them only looks at the graph.  [sort] is what sort.Sort does. *)
Definition goroutines (sort : nat -> strat) (fuel : nat) (evs : list event) (css : list (list look_call)) : world * list (prog (list value)) :=
  ((after evs hstart).1, map (looker sort fuel) css).

Lemma start_ok sort fuel evs css o : (forall n, in_range n (sort n)) -> fair o ->
  exists ows, pool_ok (after evs hstart).1 (fun i r => forall cs, css !! i = Some cs -> r = alone_all sort o fuel (abs (after evs hstart).1) cs)
    (goroutines sort fuel evs css).1 (goroutines sort fuel evs css).2 ows.
Proof.
  intros R F. pose proof (PropsHeap.after_inv evs) as (I & _). exists (fun _ => Own ∅ ∅). apply pool_init; [done|]. cbn [goroutines snd].
  intros i p E. change (map (looker sort fuel) css) with (looker sort fuel <$> css) in E. rewrite list_lookup_fmap in E. destruct (css !! i) as [cs|] eqn:C; [|done]. cbn in E. injection E as <-.
  eapply wp_mono; [|by apply (spec_looker _ I o F sort R fuel cs)]. cbn. intros _ r [-> _] cs' [= <-]. done.
Qed.
Lemma steps_length {B} (s s' : world * list (prog B)) : rtc pool_step s s' -> length s'.2 = length s.2.
Proof. induction 1 as [|s1 s2 s3 (i & p & p' & x & _ & _ & E) _ IH]; [done|]. by rewrite IH, E, insert_length. Qed.

(** Whatever the scheduler and the range loops do: there is no data race, the objects that were there keep their contents, and
    a call returns what it returns when it runs alone; in particular the result does not depend on the iteration orders. *)
Theorem C67_concurrent : forall sort fuel evs css s, (forall n, in_range n (sort n)) ->
  rtc pool_step (goroutines sort fuel evs css) s ->
  let w := (after evs hstart).1 in
  ~ race s /\
  (forall T (c : cell T) x, look w c = Some x -> look s.1 c = Some x) /\ abs s.1 = abs w /\
  (forall i cs p r, css !! i = Some cs -> s.2 !! i = Some p -> outcome p = Some r ->
     forall o, fair o -> r = alone_all sort o fuel (abs w) cs).
Proof.
  intros sort fuel evs css s R H w. pose proof (PropsHeap.after_inv evs) as (I & _).
  assert (X : forall o, fair o -> exists ows, pool_ok w (fun i r => forall cs, css !! i = Some cs -> r = alone_all sort o fuel (abs w) cs) s.1 s.2 ows).
  { intros o F. apply (pool_steps_ok _ _ _ _ H). by apply start_ok. }
  destruct (X o_id PropsGraph.fair_id) as [ows O]. destruct s as [w' ps]. cbn [fst snd] in *. split; [by eapply pool_no_race|]. split; [|split].
  - intros T c x. by eapply pool_look.
  - by eapply pool_abs.
  - intros i cs p r C P E o F. destruct (X o F) as [ows' O']. by apply (pool_outcome _ _ _ _ _ _ _ _ O' P E).
Qed.
Print Assumptions C67_concurrent.
(** No goroutine gets stuck, and there is no infinite run: all of them come to an end under every scheduler. *)
Theorem C67_ends : forall sort fuel evs css, (forall n, in_range n (sort n)) ->
  Acc (fun s' s => pool_step s s') (goroutines sort fuel evs css) /\
  (~ exists f : nat -> world * list (prog (list value)), f 0 = goroutines sort fuel evs css /\ forall n, pool_step (f n) (f (S n))) /\
  (forall s, rtc pool_step (goroutines sort fuel evs css) s ->
     (forall i p, s.2 !! i = Some p -> outcome p = None -> exists x w' p', act s.1 p x w' p') /\
     exists s', rtc pool_step s s' /\ length s'.2 = length css /\ Forall (fun p => is_Some (outcome p)) s'.2).
Proof.
  intros sort fuel evs css R. split; [apply pool_acc|]. split.
  { intros (f & _ & ST). assert (N : forall s, Acc (fun s' s => pool_step s s') s -> forall n, s = f n -> False).
    { induction 1 as [s _ IH]. intros n ->. by apply (IH (f (S n)) (ST n) (S n)). }
    by apply (N (f 0) (pool_acc _) 0). }
  assert (PR : forall s, rtc pool_step (goroutines sort fuel evs css) s -> forall i p, s.2 !! i = Some p -> outcome p = None -> exists x w' p', act s.1 p x w' p').
  { intros s H i p P E. destruct (start_ok sort fuel evs css o_id R PropsGraph.fair_id) as [ows O].
    destruct (pool_steps_ok _ _ _ _ H (ex_intro _ ows O)) as [ows' O']. by eapply pool_progress. }
  intros s H. split; [by apply PR|]. pose proof (pool_acc s) as AC. induction AC as [s _ IH].
  destruct (decide (Forall (fun p => is_Some (outcome p)) s.2)) as [D|D].
  - exists s. split; [done|]. split; [|done]. rewrite (steps_length _ _ H). cbn [goroutines snd]. apply map_length.
  - apply not_Forall_Exists in D; [|apply _]. apply Exists_exists in D as (p & P & N). apply elem_of_list_lookup in P as [i P].
    destruct (PR s H i p P) as (x & w' & p' & S); [by apply eq_None_not_Some|].
    assert (ST : pool_step s (w', <[i := p']> s.2)) by (exists i, p, p', x; done).
    destruct (IH _ ST) as (s' & H1 & H2); [by eapply rtc_r|]. exists s'. split; [by eapply rtc_l|done].
Qed.
Print Assumptions C67_ends.
(** What sort.Sort does to the slice of edges: any sequence of calls of Less and Swap leaves a permutation; a sort that keeps its
    documented promise for strict weak orders sorts the edges (so C30 to C32 hold of the results above), and the insertion sort of
    the library keeps it. *)
Theorem C67_sort :
  (forall sort o l, sort_edges sort o l ≡ₚ l) /\
  (forall sort o, good_sort sort -> fair o -> sorts (edge_less o) (sort_edges sort o)) /\
  good_sort insertion_sort.
Proof.
  split; [intros; apply sort_with_perm|]. split; [intros; by apply good_sorts|exact insertion_good].
Qed.
Print Assumptions C67_sort.
(** So the calls return the same, whoever makes them, how ever often, under all schedules and for all good sorts, as long
    as no attribute of an edge is empty (C30). *)
Theorem C67_same_results : forall sort sort' fuel evs css css' s s' cs i i' p p' v v', good_sort sort -> good_sort sort' -> Forall fair_event evs ->
  (forall e k, e ∈ edges_list (g_edges (abs (after evs hstart).1)) -> e_attrs e !! k <> Some []) ->
  rtc pool_step (goroutines sort fuel evs css) s -> rtc pool_step (goroutines sort' fuel evs css') s' ->
  css !! i = Some cs -> css' !! i' = Some cs ->
  s.2 !! i = Some p -> s'.2 !! i' = Some p' -> outcome p = Some v -> outcome p' = Some v' -> v = v'.
Proof.
  intros sort sort' fuel evs css css' s s' cs i i' p p' v v' G G' FE NE H H' C C' P P' O O'.
  assert (Fo := PropsGraph.fair_id).
  pose proof (proj2 (proj2 (proj2 (C67_concurrent sort fuel evs css s (proj1 G) H))) i _ p v C P O o_id Fo) as ->.
  pose proof (proj2 (proj2 (proj2 (C67_concurrent sort' fuel evs css' s' (proj1 G') H'))) i' _ p' v' C' P' O' o_id Fo) as ->.
  assert (S1 := good_sorts sort o_id G Fo). assert (S2 := good_sorts sort' o_id G' Fo).
  destruct (PropsWrite.C30_canonical (sort_edges sort o_id) (sort_edges sort' o_id) o_id o_id (abs (after evs hstart).1) (abs (after evs hstart).1) fuel) as [E1 E2]; try done.
  - apply Direct.reachable_built. by apply PropsHeap.C52_reachable.
  - apply Direct.reachable_built. by apply PropsHeap.C52_reachable.
  - assert (E3 : sort_edges sort o_id (edges_list (g_edges (abs (after evs hstart).1))) = sort_edges sort' o_id (edges_list (g_edges (abs (after evs hstart).1)))).
    { eapply (sorts_unique o_id o_id); try done. apply Forall_forall. intros e He k. by apply NE. }
    clear -E1 E2 E3. induction cs as [|c cs IH]; cbn [alone_all]; [done|]. rewrite IH.
    assert (X : alone sort o_id fuel (abs (after evs hstart).1) c = alone sort' o_id fuel (abs (after evs hstart).1) c).
    { destruct c; cbn [alone]; rewrite ?E1, ?E2, ?E3; done. }
    by rewrite X.
Qed.
Print Assumptions C67_same_results.

(** ** Running examples *)
Definition det {B} (w : world) (p : prog B) : option (access * world * prog B) :=
  match p with
  | Ret _ | Fail _ | Crash | Deep => None
  | Get c k => match look w c with Some v => Some (Reads (obj c), w, k v) | None => None end
  | Put c v k => match look w c with Some _ => Some (Writes (obj c), store_at w c v, k) | None => None end
  | NewMap k => Some (Touches_nothing, ((new_map w.1 ∅).1, w.2), k (new_map w.1 ∅).2)
  | NewArr n k => Some (Touches_nothing, (with_earrs w.1 (alloc (earrs w.1) (replicate n 0)).1, w.2), k (alloc (earrs w.1) (replicate n 0)).2)
  | Pick l k => Some (Touches_nothing, w, k l)
  end.
Lemma det_act {B} w (p : prog B) x w' p' : det w p = Some (x, w', p') -> act w p x w' p'.
Proof.
  destruct p; cbn [det act]; try done.
  - destruct (look w c) as [v|] eqn:E; [|done]. intros [= <- <- <-]. eauto.
  - destruct (look w c) as [v|] eqn:E; [|done]. intros [= <- <- <-]. eauto.
  - by intros [= <- <- <-].
  - by intros [= <- <- <-].
  - intros [= <- <- <-]. eauto.
Qed.
Definition det_pool {B} (i : nat) (s : world * list (prog B)) : world * list (prog B) :=
  match s.2 !! i with Some p => match det s.1 p with Some (_, w', p') => (w', <[i := p']> s.2) | None => s end | None => s end.
Definition schedule {B} (is_ : list nat) (s : world * list (prog B)) : world * list (prog B) := fold_left (fun s i => det_pool i s) is_ s.
Lemma schedule_steps {B} is_ : forall s : world * list (prog B), rtc pool_step s (schedule is_ s).
Proof.
  induction is_ as [|i is_ IH]; intros s; cbn; [done|]. etransitivity; [|apply IH]. unfold det_pool. destruct (s.2 !! i) as [p|] eqn:E; [|done].
  destruct (det s.1 p) as [[[x w'] p']|] eqn:D; [|done]. apply rtc_once. exists i, p, p', x. split; [done|]. split; [by apply det_act|done].
Qed.
Global Instance object_eq_dec : EqDecision object.
Proof. solve_decision. Defined.
Definition conflictb (x y : access) : bool :=
  match x, y with Reads a, Writes b | Writes a, Reads b | Writes a, Writes b => bool_decide (a = b) | _, _ => false end.
Definition raceb {B} (i j : nat) (s : world * list (prog B)) : bool :=
  negb (Nat.eqb i j) &&
  match s.2 !! i, s.2 !! j with
  | Some p, Some q => match det s.1 p, det s.1 q with Some (x, _, _), Some (y, _, _) => conflictb x y | _, _ => false end
  | _, _ => false
  end.
Lemma raceb_race {B} i j (s : world * list (prog B)) : raceb i j s = true -> race s.
Proof.
  unfold raceb. intros H. apply andb_true_iff in H as [N H]. apply negb_true_iff, Nat.eqb_neq in N.
  destruct (s.2 !! i) as [p|] eqn:P; [|done]. destruct (s.2 !! j) as [q|] eqn:Q; [|done].
  destruct (det s.1 p) as [[[x w1] p']|] eqn:D1; [|done]. destruct (det s.1 q) as [[[y w2] q']|] eqn:D2; [|done].
  exists i, j, p, q, x, y, w1, w2, p', q'. split; [done|]. split; [done|]. split; [done|]. split; [by apply det_act|]. split; [by apply det_act|].
  destruct x, y; cbn in *; try done; by apply bool_decide_eq_true in H.
Qed.
Definition g2 (n : nat) : nat := n.
Definition evs2 : list event :=
  [EMake (A [(lit "color", lit "red")]); ECall g2 o_id (HSetName (lit "G")); ECall g2 o_id (HAddSubGraph (lit "G") (lit "S") None);
   ECall g2 o_id (HAddNode (lit "S") (lit "b") (Some 0)); ECall g2 o_id (HAddNode (lit "G") (lit "a") None);
   ECall g2 o_id (HAddEdge (lit "b") (lit "a") true (Some 0)); ECall g2 o_id (HAddEdge (lit "b") (lit "a") true None);
   ECall g2 o_id (HAddEdge (lit "a") (lit "S") true None)].
Definition arr2 : nat := sl_arr (he_edges (hg_edges (after evs2 hstart).1.2)).
(** Sorting the slice of the graph itself, as Edges.Sorted would do if it did not copy it, is a data race. *)
Definition in_place : world * list (prog unit) := ((after evs2 hstart).1, [h_sort arr2 (insertion_sort 3); h_sort arr2 (insertion_sort 3)]).
Theorem C67_race_example : exists s, rtc pool_step in_place s /\ race s.
Proof.
  exists (schedule (repeat 0 15) in_place). split; [apply schedule_steps|]. apply (raceb_race 0 1). vm_compute. reflexivity.
Qed.
Print Assumptions C67_race_example.
(** Two goroutines that take turns; both come to an end, with the texts that Write.v gives. *)
Definition two : world * list (prog (list value)) := goroutines insertion_sort 5 evs2 [[LString; LIsNode (lit "a")]; [LChildren (lit "S"); LString]].
Definition turns : list nat := concat (repeat [1; 0; 0] 400).
Definition texts (s : world * list (prog (list value))) : list (list gostr) :=
  map (fun p => match outcome p with
    | Some (Ok vs) => map (fun v => match v with VText t => t | VNames l => concat l | VBool true => lit "yes" | _ => [] end) vs
    | _ => [] end) s.2.
Example C67_example :
  rtc pool_step two (schedule turns two) /\ length (schedule turns two).2 = 2 /\
  forallb (fun p => match outcome p with Some (Ok _) => true | _ => false end) (schedule turns two).2 = true /\
  exists t, texts (schedule turns two) = [[t; lit "yes"]; [lit "b"; t]] /\
    graph_string (sort_edges insertion_sort o_id) o_id (abs (after evs2 hstart).1) 5 = Ok t /\ 50 < length t.
Proof.
  split; [apply schedule_steps|]. split; [vm_compute; reflexivity|]. split; [vm_compute; reflexivity|].
  exists (match texts (schedule turns two) with (t :: _) :: _ => t | _ => [] end).
  split; [vm_compute; reflexivity|]. split; [vm_compute; reflexivity|]. apply Nat.ltb_lt. vm_compute. reflexivity.
Qed.
