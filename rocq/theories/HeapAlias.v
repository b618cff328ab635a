(** Model of a user who lets attribute maps be shared (on the heap of HeapGraph.v): x.Attrs = y.Attrs, where x and y are g or pointers that he
    got from the graph, x.Attrs = m with a map of his own that he keeps, m := x.Attrs.  After that calls and edits reach what has the same map.
    /repo/nodes.go:22-25, edges.go:22-29, subgraphs.go:22-25, graph.go:23-32.
    Simplifications: as in HeapEdit.v; the types map[string]string (arguments of the calls) and Attrs (attrs.go:22, arguments of Extend and Ammend)
    are not told apart, so that the model allows more sharing than Go; a pointer that the graph has never had does nothing. *)
From Verif Require Import Maps Graph HeapGraph SpecHeap HeapEdit.

Inductive aevent :=
| AEvent (e : xevent)            (* a call, a change of a map of the caller, an edit through a pointer *)
| AShare (x y : owner)           (* x.Attrs = y.Attrs *)
| AGive (x : owner) (i : nat)    (* x.Attrs = m, the i-th map of the caller *)
| ATake (x : owner).             (* m := x.Attrs, another map of the caller *)
Definition astep (e : aevent) (st : world * list nat) : (world * list nat) * list (option err) :=
  let '(w, mine) := st in
  match e with
  | AEvent e => xstep e st
  | AShare x y => match ref w.1 w.2 x, ref w.1 w.2 y with Some _, Some l => ((set_ref w x l, mine), []) | _, _ => (st, []) end
  | AGive x i => match ref w.1 w.2 x, mine !! i with Some _, Some l => ((set_ref w x l, mine), []) | _, _ => (st, []) end
  | ATake x => match ref w.1 w.2 x with Some l => ((w, mine ++ [l]), []) | None => (st, []) end
  end.
Fixpoint arun (es : list aevent) (st : world * list nat) : (world * list nat) * list (option err) :=
  match es with
  | [] => (st, [])
  | e :: es' => let '(st1, r) := astep e st in let '(st2, rs) := arun es' st1 in (st2, r ++ rs)
  end.
