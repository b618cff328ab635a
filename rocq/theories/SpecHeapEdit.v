(** Specification for HeapEdit.v: which operation of Direct.v, on the graph by value, an edit through a pointer is. *)
From Verif Require Import Maps Graph HeapGraph SpecHeap HeapEdit Direct.

(** What is done to the attributes; [env] are the contents of the caller's maps. *)
Definition op_of (env : list attrs) (e : edit) : option (owner * attr_op) :=
  match e with
  | WAdd x f v => Some (x, AAdd f v)
  | WSet x k v => Some (x, ASet k v)
  | WDelete x k => Some (x, ADelete k)
  | WExtend x m => Some (x, AExtend (content_of env m))
  | WAmmend x m => Some (x, AAmmend (content_of env m))
  | WNew x m => Some (x, AAssign m)
  | WEdge _ _ _ _ => None
  end.
(** Where the element stands in the graph, if it is (still) there: a subgraph under its name, an edge at an index of Edges.Edges. *)
Inductive stands (w : world) : owner -> attr_target -> Prop :=
| St_graph : stands w OGraph TGraph
| St_node p : stands w (ONode p) (TPtr p)
| St_sub p n : hg_subs w.2 !! n = Some p -> stands w (OSub p) (TSub n)
| St_edge p i : elems (earrs w.1) (he_edges (hg_edges w.2)) !! i = Some p -> stands w (OEdge p) (TEdge i).
(** The element exists: the graph has it or has had it. *)
Definition exists_in (w : world) (x : owner) : Prop := is_Some (ref w.1 w.2 x).
(** What the attributes of the element are. *)
Definition attrs_seen (w : world) (x : owner) : attrs := match ref w.1 w.2 x with Some l => at_map w.1 l | None => ∅ end.
(** The element that an edit goes through. *)
Definition through (e : edit) : owner :=
  match e with WAdd x _ _ | WSet x _ _ | WDelete x _ | WExtend x _ | WAmmend x _ | WNew x _ => x | WEdge p _ _ _ => OEdge p end.
(** The operation on the graph by value: at the place [t]. *)
Definition direct_of (env : list attrs) (e : edit) (t : attr_target) : direct_call :=
  match e, t with
  | WEdge _ sp dp dir, TEdge i => DEdgeFields i sp dp dir
  | _, _ => match op_of env e with Some (_, op) => DAttrs t op | None => DAttrs t (AExtend ∅) (* not met *) end
  end.
Definition fair_xevent (e : xevent) : Prop := match e with XEvent e => fair_event e | XEdit o _ => fair o end.
