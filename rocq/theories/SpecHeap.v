(** Specification for HeapGraph.v: what a graph on the heap looks like, and a caller for whom nothing is shared. *)
From Verif Require Import Maps Graph HeapGraph.

(** ** What is seen of the graph, following all references (no sharing left) *)
Definition abs_node (h : heap) (n : nobj) : node := Node (no_name n) (at_map h (no_attrs n)).
Definition abs_edge (h : heap) (p : nat) : edge :=
  let e := at_edge h p in Edge (eo_src e) (eo_src_port e) (eo_dst e) (eo_dst_port e) (eo_dir e) (at_map h (eo_attrs e)).
Definition abs_sub (h : heap) (p : nat) : sub := Sub (at_map h (so_attrs (at_sub h p))) (so_name (at_sub h p)).
Definition abs_nodes (h : heap) (ns : hnodes) : nodes :=
  Nodes (hn_lookup ns) (elems (narrs h) (hn_nodes ns)) (abs_node h <$> cells (nobjs h)) (next (nobjs h)).
Definition abs_index (h : heap) (m : gmap gostr (gmap gostr (list nat))) : gmap gostr (gmap gostr (list edge)) :=
  (fun inner : gmap gostr (list nat) => map (abs_edge h) <$> inner) <$> m.
Definition abs_edges (h : heap) (es : hedges) : edges :=
  Edges (abs_index h (he_s2d es)) (abs_index h (he_d2s es)) (map (abs_edge h) (elems (earrs h) (he_edges es))).
Definition abs_subs (h : heap) (m : gmap gostr nat) : gmap gostr sub := abs_sub h <$> m.
Definition abs (w : world) : agraph :=
  let '(h, g) := w in
  AGraph (at_map h (hg_attrs g)) (hg_name g) (hg_directed g) (hg_strict g)
    (abs_nodes h (hg_nodes g)) (abs_edges h (hg_edges g)) (abs_subs h (hg_subs g)) (hg_rels g).

(** ** Who refers to a map *)
Inductive owner := OGraph | ONode (p : nat) | OEdge (p : nat) | OSub (p : nat).
Global Instance owner_eq_dec : EqDecision owner.
Proof. solve_decision. Defined.
Definition ref (h : heap) (g : hgraph) (a : owner) : option nat :=
  match a with
  | OGraph => Some (hg_attrs g)
  | ONode p => no_attrs <$> cells (nobjs h) !! p
  | OEdge p => eo_attrs <$> cells (eobjs h) !! p
  | OSub p => so_attrs <$> cells (sobjs h) !! p
  end.

(** ** The same history when maps are values: a call gets a copy of the content its maps have at that moment. *)
Definition content_of (env : list attrs) (m : option nat) : attrs := match m with Some i => default ∅ (env !! i) | None => ∅ end.
Definition with_contents (f : option nat -> attrs) (c : hcall) : call :=
  match c with
  | HSetStrict b => CSetStrict b | HSetDir b => CSetDir b | HSetName n => CSetName n
  | HAddPortEdge s sp d dp dir m => CAddPortEdge s sp d dp dir (f m)
  | HAddEdge s d dir m => CAddEdge s d dir (f m)
  | HAddNode p n m => CAddNode p n (f m)
  | HAddAttr p f v => CAddAttr p f v
  | HAddSubGraph p n m => CAddSubGraph p n (f m)
  | HRemoveNode p n => CRemoveNode p n
  | HRemoveSubGraph p n => CRemoveSubGraph p n
  end.
(** The map that a call gets. *)
Definition arg_of (c : hcall) : option nat :=
  match c with HAddPortEdge _ _ _ _ _ m | HAddEdge _ _ _ m | HAddNode _ _ m | HAddSubGraph _ _ m => m | _ => None end.
Definition vstep (e : event) (st : agraph * list attrs) : (agraph * list attrs) * list (option err) :=
  let '(g, env) := st in
  match e with
  | EMake m => ((g, env ++ [m]), [])
  | ESet i k v => ((g, alter (fun m : attrs => <[k := v]> m) i env), [])
  | EDel i k => ((g, alter (fun m : attrs => delete k m) i env), [])
  | ECall _ o c => let '(g', r) := exec o (with_contents (content_of env) c) g in ((g', env), [r])
  end.
Fixpoint vrun (evs : list event) (st : agraph * list attrs) : (agraph * list attrs) * list (option err) :=
  match evs with
  | [] => (st, [])
  | e :: evs' => let '(st1, r) := vstep e st in let '(st2, rs) := vrun evs' st1 in (st2, r ++ rs)
  end.

(** ** Slices and pointers taken from the graph *)
(** The edges seen in a slice of edges, the names seen in a slice of nodes. *)
Definition edges_seen (h : heap) (y : slice) : list edge := map (abs_edge h) (elems (earrs h) y).
Definition names_seen (h : heap) (y : slice) : list gostr := map (fun p => no_name (at_node h p)) (elems (narrs h) y).
Definition node_seen (h : heap) (p : nat) : node := abs_node h (at_node h p).
(** The history makes no call that removes something. *)
Definition no_removal (e : event) : Prop :=
  match e with ECall _ _ (HRemoveNode _ _) | ECall _ _ (HRemoveSubGraph _ _) => False | _ => True end.
Definition fair_event (e : event) : Prop := match e with ECall _ o _ => fair o | _ => True end.
(** [k] rounds, from index [i] on, of the loop
      for _, n := range g.Nodes.Nodes { g.RemoveNode(parent, n.Name) }
    The slice [y] ranged over is evaluated once, its elements are read from the array as the loop goes. *)
Fixpoint range_remove (grow : nat -> nat) (parent : gostr) (y : slice) (i k : nat) (w : world) : world :=
  match k with
  | 0 => w
  | S k' =>
      let p := default 0 (array (narrs w.1) (sl_arr y) !! i) in
      range_remove grow parent y (S i) k' (h_remove_node grow w parent (no_name (at_node w.1 p))).1
  end.
Definition remove_all_loop (grow : nat -> nat) (parent : gostr) (w : world) : world :=
  let y := hn_nodes (hg_nodes w.2) in range_remove grow parent y 0 (sl_len y) w.
(** Of three or more nodes the second stays, then likewise from the third on. *)
Fixpoint survivors {A} (l : list A) : list A :=
  match l with
  | _ :: (b :: ((_ :: _) as l')) => b :: survivors l'
  | _ => []
  end.
