(** Specification for HeapEscape.v and HeapAnalyse.v. *)
From Verif Require Import Base Maps Graph Escape Analyse HeapGraph SpecHeap.

(** ** Histories on an Escape when maps are values *)
Section Values.
  Variable uletter udigit : N -> bool.
  Definition vesc_step (oe : oracle) (e : event) (st : agraph * list attrs) : (agraph * list attrs) * list (option (option err)) :=
    match e with
    | ECall _ o c =>
        match esc_exec uletter udigit oe o (with_contents (content_of st.2) c) st.1 with
        | Some (g, r) => ((g, st.2), [Some r])
        | None => (st, [None])
        end
    | e => ((vstep e st).1, [])
    end.
  Fixpoint vesc_run (evs : list (oracle * event)) (st : agraph * list attrs) : (agraph * list attrs) * list (option (option err)) :=
    match evs with
    | [] => (st, [])
    | (oe, e) :: evs' => let '(st1, r) := vesc_step oe e st in let '(st2, rs) := vesc_run evs' st1 in (st2, r ++ rs)
    end.
End Values.

(** ** Implementations of Interface *)
Definition content (env : gmap nat attrs) (m : option nat) : attrs := match m with Some l => default ∅ (env !! l) | None => ∅ end.
(** An implementation (states [S], with the memory for maps) that neither changes the maps it is given nor looks at them
    after the call: it behaves as an implementation (states [S']) that gets maps as values.  [rel s s' env]: [s] and [s']
    correspond, and the caller has the maps [env]. *)
Record careful {S S' : Type} (new : S -> attrs -> S * nat) (get : S -> nat -> attrs) (set : S -> nat -> gostr -> gostr -> S)
    (step : S -> hcall -> S * option err) (step' : S' -> call -> S' * option err) (rel : S -> S' -> gmap nat attrs -> Prop) : Prop := {
  ca_new : forall s s' env m, rel s s' env -> env !! (new s m).2 = None /\ rel (new s m).1 s' (<[(new s m).2 := m]> env);
  ca_get : forall s s' env l m, rel s s' env -> env !! l = Some m -> get s l = m;
  ca_set : forall s s' env l m k v, rel s s' env -> env !! l = Some m -> rel (set s l k v) s' (<[l := <[k := v]> m]> env);
  ca_step : forall s s' env c, rel s s' env -> (forall l, arg_of c = Some l -> is_Some (env !! l)) ->
    rel (step s c).1 (step' s' (with_contents (content env) c)).1 env /\ (step s c).2 = (step' s' (with_contents (content env) c)).2 }.
(** Escape as an implementation that gets maps as values; see hesc_call in HeapEscape.v. *)
Definition vesc_call (uletter udigit : N -> bool) (oes os : nat -> oracle) (s : (agraph * nat) * bool) (c : call)
  : ((agraph * nat) * bool) * option err :=
  let '((g, i), b) := s in
  if b then (s, None)
  else match esc_exec uletter udigit (oes i) (os i) c g with
       | Some (g', r) => (((g', S i), false), r)
       | None => (((g, i), true), None)
       end.
