(** Analyse into an Escape: analyse.go:31-36 (Analyse) on NewEscape() (escape.go:29-31).  The maps of a call are values
    here; PropsHeap.C55_escape shows that this is what happens with maps in memory.
    [oes i], [os i]: the iteration orders of escAttrs and of Graph in the [i]-th call.  [None]: a call panicked, and
    with it Analyse. *)
From Verif Require Import Base Maps Graph Escape Analyse SpecHeapAnalyse.
From Verif Require Ast.

Definition analyse_escape (uletter udigit : N -> bool) (oes os : nat -> oracle) (ord : order) (a : Ast.graph) : option (agraph * option err) :=
  match analyse _ (vesc_call uletter udigit oes os) ord a ((new_graph, 0), false) with
  | (((g, _), false), r) => Some (g, r)
  | ((_, true), _) => None
  end.
